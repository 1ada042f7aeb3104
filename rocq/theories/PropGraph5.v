(* PropGraph5.v -- the dual graph: property C18 *)
Set Warnings "-notation-overridden,-ambiguous-paths".
From mathcomp Require Import all_ssreflect all_algebra.
From mathcomp.zify Require Import zify.
From Verif Require Import Base ArrC MCombinatorics MGraph GraphBfs PropGraph4.
Set Implicit Arguments.
Unset Strict Implicit.
Unset Printing Implicit Defensive.

Section AddEdges.
Variable L : eqType.
Implicit Types (H : graph L) (e : L * L).

Lemma add_node_edges H x : gedges (add_node H x) = gedges H.
Proof. by rewrite /add_node; case: ifP. Qed.
Lemma mem_add_node H x y : (y \in gnodes (add_node H x)) = (y == x) || (y \in gnodes H).
Proof. by rewrite /add_node; case: ifP => h; rewrite /= ?mem_rcons ?inE //; case: eqP => [->|]. Qed.
Lemma add_node_uniq H x : uniq (gnodes H) -> uniq (gnodes (add_node H x)).
Proof. by rewrite /add_node; case: ifP => //= h u; rewrite rcons_uniq h u. Qed.
Lemma add_node_id H x : x \in gnodes H -> add_node H x = H.
Proof. by rewrite /add_node => ->. Qed.

Lemma mem_add_edge_nodes H e y : (y \in gnodes (add_edge H e)) = [|| y == e.2, y == e.1 | y \in gnodes H].
Proof. by rewrite /add_edge; case: ifP => _ /=; rewrite !mem_add_node. Qed.

Lemma has_add_edge H e u v : has_edge (add_edge H e) u v = has_edge H u v || (e == (u, v)) || (e == (v, u)).
Proof.
rewrite /add_edge; set H' := add_node _ _; have eH : gedges H' = gedges H by rewrite !add_node_edges.
have hH : has_edge H' =2 has_edge H by move=> a b; rewrite /has_edge eH.
case: ifP => [h|_]; last first.
  rewrite /has_edge /= !mem_rcons !inE eH ![e == _]eq_sym.
  by case: (_ == e); case: (_ == e); rewrite ?orbT ?orbF.
rewrite hH; rewrite hH in h; case: eqP => [ee|_]; first by rewrite ee /= in h; rewrite h.
by case: eqP => [ee|_]; rewrite ?orbF //; rewrite ee has_edgeC /= in h; rewrite h.
Qed.

(* no edge is listed twice, in either direction *)
Definition edges_ok H : Prop :=
  graph_ok H /\ uniq (gedges H) /\ forall e, e \in gedges H -> (e.2, e.1) \in gedges H -> e.1 = e.2.

Lemma add_edge_ok H e : edges_ok H -> edges_ok (add_edge H e).
Proof.
case=> -[un hE] [ue hs]; have eH : gedges (add_node (add_node H e.1) e.2) = gedges H by rewrite !add_node_edges.
rewrite /add_edge; case: ifP => he.
  split; last by rewrite eH.
  by split; [do 2!apply: add_node_uniq|move=> f; rewrite eH => /hE[]; rewrite !mem_add_node => -> ->; rewrite !orbT].
have ne : (e \notin gedges H) && ((e.2, e.1) \notin gedges H).
  by move: he; rewrite /has_edge eH; case: (e) => a b /= /negbT; rewrite negb_or.
case/andP: ne => n1 n2; split; [split|split].
- by do 2!apply: add_node_uniq.
- move=> f; rewrite /= mem_rcons inE !mem_add_node eH => /orP[/eqP ->|/hE[-> ->]]; rewrite ?eqxx ?orbT //.
- by rewrite /= eH rcons_uniq n1.
move=> f /=; rewrite !mem_rcons !inE eH => /orP[/eqP ->|fE] /orP[/eqP|].
- by case: (e) => a b /= [].
- by rewrite (negbTE n2).
- by move=> h; move: n2; rewrite -h /=; case: (f) fE => a b /= ->.
exact: hs.
Qed.

Lemma size_add_edge H e : size (gedges (add_edge H e)) <= (size (gedges H)).+1.
Proof. by rewrite /add_edge; case: ifP => _ /=; rewrite ?size_rcons !add_node_edges. Qed.

Definition add_edges H (l : seq (L * L)) := foldl (fun H e => add_edge H e) H l.

Lemma add_edgesP H l : edges_ok H ->
  [/\ edges_ok (add_edges H l), size (gedges (add_edges H l)) <= size (gedges H) + size l,
      forall u v, has_edge (add_edges H l) u v = [|| has_edge H u v, (u, v) \in l | (v, u) \in l] &
      (forall e, e \in l -> e.1 \in gnodes H /\ e.2 \in gnodes H) -> gnodes (add_edges H l) = gnodes H].
Proof.
elim: l H => [|e l IH] H ok; first by split=> //= [|u v]; rewrite ?addn0 // orbF.
have [h1 h2 h3 h4] := IH _ (add_edge_ok e ok); split=> //=.
- by apply: leq_trans h2 _; rewrite addnS -addSn leq_add2r size_add_edge.
- move=> u v; rewrite h3 has_add_edge !inE ![_ == e]eq_sym.
  by case: has_edge => //=; case: (e == _) => /=; case: (e == _); rewrite ?orbT.
move=> h; have [i1 i2] := h e (mem_head _ _).
have eg : gnodes (add_edge H e) = gnodes H.
  rewrite /add_edge (add_node_id i1) (add_node_id i2); by case: ifP.
by rewrite -eg; apply: h4 => f fl; rewrite eg; apply: h; rewrite inE fl orbT.
Qed.

End AddEdges.

(* the faces (by index) that contain the undirected edge e *)
Definition faces_with (F : seq face) (e : dart) : seq nat :=
  [seq k <- iota 0 (size F) | e \in [seq sort2 d | d <- nth [::] F k]].
Definition face_edges (F : seq face) : seq face := [seq [seq sort2 e | e <- f] | f <- F].

Lemma dual_scanE (F : seq face) (e : dart) : uniq (face_edges F) ->
  dual_scan e (face_edges F) (face_edges F) None =
  match faces_with F e with
  | [::] => None
  | [:: i] => Some (i, size F)
  | i :: j :: _ => Some (i, j)
  end.
Proof.
move=> un; set fe := face_edges F.
have sz : size fe = size F by rewrite size_map.
suff W k u : k <= size F ->
    dual_scan e fe (drop k fe) u =
    match u, [seq k <- iota k (size F - k) | e \in nth [::] fe k] with
    | None, [::] => None
    | None, [:: i] => Some (i, size F)
    | None, i :: j :: _ => Some (i, j)
    | Some i, [::] => Some (i, size F)
    | Some i, j :: _ => Some (i, j)
    end.
  rewrite -[X in dual_scan _ _ X _]drop0 W // subn0 /faces_with.
  rewrite (@eq_in_filter _ (fun k => e \in nth [::] fe k)
    (fun k => e \in [seq sort2 d | d <- nth [::] F k])) // => k; rewrite mem_iota => /andP[_ hk].
  by rewrite (nth_map [::]).
move: {2}(size F - k) (erefl (size F - k)) => m; elim: m k u => [|m IH] k u em hk.
  have -> : k = size F by lia.
  by rewrite -[in drop _ _]sz drop_size subnn /=; case: u => [i|]; rewrite /= ?sz.
have hk' : k < size fe by rewrite sz; lia.
have -> : size F - k = (size F - k.+1).+1 by lia.
rewrite (drop_nth [::] hk') /= index_uniq //; case: ifP => he.
  by case: u => [i|] //; rewrite IH; [|lia|lia].
by rewrite IH; [|lia|lia].
Qed.

(* edges of G outside T *)
Definition cotree (G T : graph nat_eqType) : seq dart := [seq e <- gedges G | ~~ has_edge T e.1 e.2].

Section Dual.
Variables (G T : graph nat_eqType) (F : seq face).
Hypothesis distinct : uniq (face_edges F).
(* every edge outside T borders exactly two faces *)
Hypothesis two : forall e, e \in cotree G T -> exists i j, faces_with F e = [:: i; j].

Definition dual_edge (e : dart) : dart := if faces_with F e is [:: i; j] then (i, j) else (0, 0).

Lemma dual_edgeP e i j : faces_with F e = [:: i; j] -> dual_edge e = (i, j).
Proof. by rewrite /dual_edge => ->. Qed.

Lemma dual_graphE : dual_graph_H G F T =
  add_edges (Graph (iota 0 (size F)) [::] : graph nat_eqType) [seq dual_edge e | e <- cotree G T].
Proof.
rewrite /dual_graph_H -/(face_edges F) -/(cotree G T) size_map /add_edges; congr foldl.
elim: (cotree G T) two => //= e l IH h; rewrite dual_scanE //.
have [i [j E]] := h e (mem_head _ _); rewrite (dual_edgeP E) E /= IH // => f fl.
by apply: h; rewrite inE fl orbT.
Qed.

Lemma faces_with_lt e i : i \in faces_with F e -> i < size F.
Proof. by rewrite mem_filter mem_iota => /and3P[]. Qed.
Lemma faces_with_lt2 e i j : faces_with F e = [:: i; j] -> i < j.
Proof.
move=> E; have : sorted ltn (faces_with F e) by rewrite sorted_filter ?iota_ltn_sorted //; apply: ltn_trans.
by rewrite E /= andbT.
Qed.

Lemma H0_ok : edges_ok (Graph (iota 0 (size F)) [::] : graph nat_eqType).
Proof. by do 2!split=> //=; rewrite iota_uniq. Qed.

Lemma dual_graphP : let H := dual_graph_H G F T in
  [/\ gnodes H = iota 0 (size F), edges_ok H, size (gedges H) <= size (cotree G T) &
      forall i j, has_edge H i j <-> i != j /\ exists2 e, e \in cotree G T & i \in faces_with F e /\ j \in faces_with F e].
Proof.
rewrite /= dual_graphE; have [h1 h2 h3 h4] := add_edgesP [seq dual_edge e | e <- cotree G T] H0_ok.
split=> //.
- apply: h4 => e /mapP[f /two[i [j E]] ->]; rewrite (dual_edgeP E) /= !mem_iota /=.
  by split; apply: (@faces_with_lt f); rewrite E !inE eqxx ?orbT.
- by move: h2; rewrite size_map.
move=> i j; rewrite h3 /=; split.
  suff W a b : (a, b) \in [seq dual_edge e | e <- cotree G T] -> a != b /\
      exists2 e, e \in cotree G T & a \in faces_with F e /\ b \in faces_with F e.
    case/orP=> /W[] // ne [e he [hi hj]]; split; first by rewrite eq_sym.
    by exists e.
  case/mapP=> e he; have [k [l E]] := two he; rewrite (dual_edgeP E) => -[-> ->]; split.
    by rewrite neq_ltn (faces_with_lt2 E).
  by exists e => //; rewrite E !inE !eqxx orbT.
case=> ne [e he []]; have [k [l E]] := two he; rewrite E !inE => hi hj.
have : (k, l) \in [seq dual_edge e | e <- cotree G T] by rewrite -(dual_edgeP E); apply: map_f.
by case/orP: hi hj ne => /eqP -> /orP[] /eqP -> ; rewrite ?eqxx // => _ ->; rewrite ?orbT.
Qed.
End Dual.

(* Vertices 0 .. len(F)-1, and two faces are joined iff they share an edge of G outside T.  Conditions: no two faces are
   equal as lists of edges, and every edge of G outside T borders exactly two faces (edges are compared as (smaller,
   larger) label pairs, so this contains that such an edge is reported by networkx with increasing labels). *)
Theorem C18_dual G F T : uniq (face_edges F) ->
  (forall e, e \in cotree G T -> size (faces_with F e) = 2) ->
  gnodes (dual_graph_H G F T) = iota 0 (size F) /\
  forall i j, has_edge (dual_graph_H G F T) i j <->
    i != j /\ exists e, [/\ e \in gedges G, ~~ has_edge T e.1 e.2, i \in faces_with F e & j \in faces_with F e].
Proof.
move=> un h; have two e : e \in cotree G T -> exists i j, faces_with F e = [:: i; j].
  by move/h; case: faces_with => [|i [|j [|]]] // _; exists i, j.
have [h1 _ _ h2] := dual_graphP un two; split=> // i j; rewrite h2; split=> -[ne].
  by case=> e; rewrite mem_filter => /andP[e1 e2] [hi hj]; split=> //; exists e.
by case=> e [e1 e2 hi hj]; split=> //; exists e; rewrite // mem_filter e2.
Qed.

(* without the conditions the claim fails: an edge outside T on the border of one face only is joined to an additional
   vertex len(F), and an edge (u, v) reported with u > v is not found in any face *)
Definition bridge := Graph [:: 0; 1] [:: (0, 1)] : graph nat_eqType.
Definition swapped := Graph [:: 1; 0; 2] [:: (1, 0); (1, 2); (0, 2)] : graph nat_eqType.
Definition tri_faces : seq face := [:: [:: (0, 1); (1, 2); (2, 0)]; [:: (0, 2); (2, 1); (1, 0)]].
Theorem C18_refuted :
  (exists G F T, gnodes (dual_graph_H G F T) <> iota 0 (size F)) /\
  exists G F T i j e, [/\ e \in gedges G, ~~ has_edge T e.1 e.2, i != j,
    (sort2 e \in [seq sort2 d | d <- nth [::] F i]) && (sort2 e \in [seq sort2 d | d <- nth [::] F j]) &
    ~~ has_edge (dual_graph_H G F T) i j].
Proof.
split.
  by exists bridge, [:: [:: (0, 1); (1, 0)]], (Graph [:: 0; 1] [::] : graph nat_eqType); vm_compute.
by exists swapped, tri_faces, (Graph [:: 1; 0; 2] [:: (1, 2); (0, 2)] : graph nat_eqType), 0, 1, (1, 0); vm_compute.
Qed.

(* the square with a diagonal, spanning tree 01, 03, 23: three faces, the dual is the path 1 - 0 - 2 *)
Example C18_example :
  let T := Graph [:: 0; 1; 2; 3] [:: (0, 1); (0, 3); (2, 3)] : graph nat_eqType in
  let F := [:: [:: (0, 1); (1, 2); (2, 0)]; [:: (0, 2); (2, 3); (3, 0)]; [:: (0, 3); (3, 2); (2, 1); (1, 0)]] in
  [/\ uniq (face_edges F), all (fun e => size (faces_with F e) == 2) (cotree sq4 T) &
      dual_graph_H sq4 F T = Graph [:: 0; 1; 2] [:: (0, 1); (0, 2)]].
Proof. by vm_compute. Qed.
