(* PlaneCheck.v -- the number of faces of an embedding, and a decision procedure for plane embeddings given by lists *)
Set Warnings "-notation-overridden,-ambiguous-paths".
From mathcomp Require Import all_ssreflect all_algebra.
From mathcomp.zify Require Import zify.
From Verif Require Import Base ArrC MCombinatorics MGraph GraphBrute GraphBfs PropGraph4 PropGraph5 Planar GraphMap.
Set Implicit Arguments.
Unset Strict Implicit.
Unset Printing Implicit Defensive.

Section Faces.
Variable emb : embedding.
Implicit Types (f g : face) (F : seq face).

Lemma face_closed f (d d' : dart) : closed_face emb f -> d \in f -> follows emb d d' -> d' \in f.
Proof.
case: f => // x f cf df h; rewrite (follows_fun h (next_cycle (cf : cycle (follows emb) (x :: f)) df)).
by rewrite mem_next.
Qed.
Lemma cycle_ind (S : eqType) (r : rel S) (l : seq S) (P : S -> Prop) x : cycle r l -> x \in l -> P x ->
  (forall a b, P a -> r a b -> P b) -> forall y, y \in l -> P y.
Proof.
move=> cl xl Px h y; have [i t e] := rot_to xl; rewrite -(mem_rot i) e; move: cl; rewrite -(rot_cycle i) e.
suff W a t' z : P z -> path r z (rcons t' a) -> y \in z :: t' -> P y by apply: W.
elim: t' z => [|b t' IH] z Pz /=; first by rewrite inE => _ /eqP ->.
by case/andP=> h1 h2; rewrite inE => /orP[/eqP ->//|]; apply: IH => //; apply: h h1.
Qed.
Lemma face_ind f (P : pred dart) (d : dart) : closed_face emb f -> d \in f -> P d ->
  (forall x y, P x -> follows emb x y -> P y) -> {subset f <= P}.
Proof. by case: f => // x f cf df Pd h; apply: (cycle_ind cf df Pd h). Qed.

Lemma faces_sub F1 F2 (D : seq dart) : uniq D -> all (closed_face emb) F1 -> all (closed_face emb) F2 ->
  perm_eq (flatten F1) D -> perm_eq (flatten F2) D -> size F1 <= size F2.
Proof.
move=> uD c1 c2 p1 p2.
have u1 : uniq (flatten F1) by rewrite (perm_uniq p1).
have u2 : uniq (flatten F2) by rewrite (perm_uniq p2).
pose h i := head (0, 0) (nth [::] F1 i); pose j i := find (fun g : face => h i \in g) F2.
have hin i : i < size F1 -> h i \in nth [::] F1 i.
  by move=> hi; have := allP c1 _ (mem_nth [::] hi); rewrite /h; case: (nth _ _ _) => // x s _; rewrite mem_head.
have hj i : i < size F1 -> j i < size F2 /\ h i \in nth [::] F2 (j i).
  move=> hi; have : h i \in flatten F2.
    by rewrite (perm_mem p2) -(perm_mem p1); apply/flattenP; exists (nth [::] F1 i); rewrite ?mem_nth ?hin.
  case/flattenP=> g g2 hg; have hs : has (fun g : face => h i \in g) F2 by apply/hasP; exists g.
  by rewrite -has_find; split=> //; apply: (nth_find [::] hs).
have : uniq [seq j i | i <- iota 0 (size F1)].
  rewrite map_inj_in_uniq ?iota_uniq // => a b; rewrite !mem_iota /= !add0n => ha hb e.
  have [j1 m1] := hj _ ha; have [j2 m2] := hj _ hb; rewrite -e in m2.
  have cg := allP c2 _ (mem_nth [::] j1); have ca := allP c1 _ (mem_nth [::] ha).
  have := face_ind (P := mem (nth [::] F1 a)) cg m1 (hin _ ha) _ m2 => hb'.
  apply: (flatten_nth_inj u1 ha hb (hb' _) (hin _ hb)) => x y; exact: face_closed.
move/uniq_leq_size => /(_ (iota 0 (size F2))); rewrite size_map !size_iota; apply.
by move=> k /mapP[i]; rewrite !mem_iota /= !add0n => /hj[h1 _] ->.
Qed.

(* the number of faces does not depend on how they are listed *)
Lemma face_count F1 F2 (D : seq dart) : uniq D -> all (closed_face emb) F1 -> all (closed_face emb) F2 ->
  perm_eq (flatten F1) D -> perm_eq (flatten F2) D -> size F1 = size F2.
Proof. by move=> uD c1 c2 p1 p2; apply/eqP; rewrite eqn_leq !(faces_sub uD). Qed.
End Faces.

Lemma euler_one G emb F : all (closed_face emb) F -> perm_eq (flatten F) (edgeset G) ->
  size (gnodes G) + size F = size (gedges G) + 2 -> euler_formula G emb.
Proof. by move=> c p e F' c' p'; rewrite -e (face_count (edgeset_uniq G) c' c p' p). Qed.

(* a boolean test for numbered graphs embedded by lists of neighbours *)
Definition numbered_check n (G : graph nat_eqType) : bool :=
  [&& gnodes G == iota 0 n, uniq (gedges G) & all (fun e => e.1 < e.2 < n) (gedges G)].
Lemma numbered_checkP n G : numbered_check n G -> numbered n G.
Proof. by case/and3P=> /eqP h1 h2 /allP h3. Qed.

Lemma numbered_ok n G : numbered n G -> graph_ok G.
Proof.
case=> h1 _ h3; split; rewrite h1 ?iota_uniq // => e /h3/andP[l1 l2].
by rewrite !mem_iota /= !add0n l2 (ltn_trans l1).
Qed.

Lemma iter_next (s : seq nat) u u' : uniq s -> u \in s -> u' \in s -> exists k, iter k (next s) u = u'.
Proof.
move=> un hu hu'; apply: (cycle_ind (P := fun y => exists k, iter k (next s) u = y) (cycle_next un) hu) hu'; first by exists 0.
by move=> a b [k <-] /= /eqP <-; exists k.+1.
Qed.

Lemma emb_of_turn (G : graph nat_eqType) rot :
  (forall v, uniq (nth [::] rot v) /\ forall u, (u \in nth [::] rot v) = has_edge G v u) -> one_turn G (emb_of rot).
Proof.
move=> h v u u'; have [un mem] := h v; rewrite -!mem => hu /(iter_next un hu)[k <-]; exists k.
suff [h1 ->] : iter k (next (nth [::] rot v)) u \in nth [::] rot v /\
   iter k (obind (emb_of rot v)) (Some u) = Some (iter k (next (nth [::] rot v)) u) by [].
by elim: k => //= k [h1 ->]; rewrite mem_next; split=> //=; rewrite /emb_of h1.
Qed.

Definition plane_check n (G : graph nat_eqType) (rot : seq (seq nat)) (F : seq face) : bool :=
  [&& numbered_check n G, size rot == n,
      all (fun v => uniq (nth [::] rot v) && perm_eq (nth [::] rot v) (neighbours G v)) (iota 0 n),
      (if is_connected G is Ok b then b else false) &
      [&& all (closed_face (emb_of rot)) F, perm_eq (flatten F) (edgeset G) & n + size F == size (gedges G) + 2]].

Lemma plane_checkP n G rot F : plane_check n G rot F -> numbered n G /\ plane_embedding G (emb_of rot).
Proof.
case/and5P=> /numbered_checkP num /eqP sr /allP hr hc /and3P[f1 f2 /eqP f3]; split=> //.
have [en ue hlt] := num.
have n0 : gnodes G <> [::] by move=> h; move: hc; rewrite /is_connected h.
have [b [hb cb]] := is_connectedP (numbered_ok num) n0.
have h v : uniq (nth [::] rot v) /\ forall u, (u \in nth [::] rot v) = has_edge G v u.
  case: (ltnP v n) => hv.
    have /andP[h1 h2] := hr v ltac:(by rewrite mem_iota).
    by split=> // u; rewrite (perm_mem h2) mem_neighbours.
  rewrite nth_default ?sr //; split=> // u; apply/esym/negbTE/negP => /(edge_lt num)[h1 _ _].
  by move: h1; rewrite ltnNge hv.
split; [exact: emb_of_ok|exact: emb_of_turn|by apply/cb; rewrite hb in hc|].
by apply: euler_one f1 f2 _; rewrite en size_iota.
Qed.

Definition span_check (G T : graph nat_eqType) : bool :=
  [&& perm_eq (gnodes T) (gnodes G), uniq (gnodes T), uniq (gedges T),
      all (fun e => ((e.2, e.1) \notin gedges T) && has_edge G e.1 e.2 && (e.1 \in gnodes T) && (e.2 \in gnodes T)) (gedges T) &
      (if is_tree T is Ok b then b else false)].
Lemma span_checkP G T : span_check G T -> spanning G T.
Proof.
case/and5P=> h1 h2 h3 /allP h4 h5.
have ok : graph_ok T by split=> // e /h4/andP[/andP[_ -> ->]].
have n0 : gnodes T <> [::] by move=> h; move: h5; rewrite /is_tree h.
have [b [hb tb]] := is_treeP ok n0; split.
- exact: perm_mem.
- by split=> //; split=> // e /h4/andP[/andP[/andP[/negbTE -> _] _] _].
- by apply/tb; rewrite hb in h5.
by move=> u v; rewrite {1}/has_edge => /orP[] /h4/andP[/andP[/andP[_ h] _] _] //; rewrite has_edgeC.
Qed.

Lemma numbered_simple n G : numbered n G -> simple_graph G.
Proof.
move=> num; have [un hE] := numbered_ok num; have [_ ue hlt] := num; split=> // e he; have [h1 h2] := hE e he.
have /andP[l1 l2] := hlt e he; split=> //; first by rewrite neq_ltn l1.
by apply/negP => /hlt/andP[/= l3 _]; have := ltn_trans l1 l3; rewrite ltnn.
Qed.

(* a square with a diagonal *)
Definition sq4_tree := Graph [:: 0; 1; 2; 3] [:: (0, 1); (0, 2); (0, 3)] : graph nat_eqType.
Example sq4_plane : numbered 4 sq4 /\ plane_embedding sq4 (emb_of sq4_rot).
Proof.
apply: (plane_checkP (F := [:: [:: (0, 1); (1, 2); (2, 0)]; [:: (0, 2); (2, 3); (3, 0)]; [:: (0, 3); (3, 2); (2, 1); (1, 0)]])).
by vm_compute.
Qed.
Example sq4_span : spanning sq4 sq4_tree. Proof. by apply: span_checkP; vm_compute. Qed.

(* the same test without assumptions on the node labels *)
Definition plane_check_any (G : graph nat_eqType) (rot : seq (seq nat)) (F : seq face) : bool :=
  [&& uniq (gnodes G), all (fun e => [&& e.1 \in gnodes G, e.2 \in gnodes G, e.1 < size rot & e.2 < size rot]) (gedges G),
      all (fun v => uniq (nth [::] rot v) && perm_eq (nth [::] rot v) (neighbours G v)) (iota 0 (size rot)),
      (if is_connected G is Ok b then b else false) &
      [&& all (closed_face (emb_of rot)) F, perm_eq (flatten F) (edgeset G) & size (gnodes G) + size F == size (gedges G) + 2]].

Lemma plane_check_anyP G rot F : plane_check_any G rot F -> graph_ok G /\ plane_embedding G (emb_of rot).
Proof.
case/and5P=> un /allP hE /allP hr hc /and3P[f1 f2 /eqP f3].
have ok : graph_ok G by split=> // e /hE/and4P[].
have n0 : gnodes G <> [::] by move=> h; move: hc; rewrite /is_connected h.
have [b [hb cb]] := is_connectedP ok n0.
have h v : uniq (nth [::] rot v) /\ forall u, (u \in nth [::] rot v) = has_edge G v u.
  case: (ltnP v (size rot)) => hv.
    have /andP[h1 h2] := hr v ltac:(by rewrite mem_iota).
    by split=> // u; rewrite (perm_mem h2) mem_neighbours.
  rewrite nth_default //; split=> // u; apply/esym/negbTE/negP => /orP[] /hE/and4P[_ _ h1 h2].
    by move: h1; rewrite ltnNge hv.
  by move: h2; rewrite ltnNge hv.
split=> //; split; [exact: emb_of_ok|exact: emb_of_turn|by apply/cb; rewrite hb in hc|].
by apply: euler_one f1 f2 _.
Qed.

(* a cycle of length 4 whose nodes were inserted in the order 0, 2, 1, 3 *)
Definition c4 := Graph [:: 0; 2; 1; 3] [:: (0, 1); (0, 3); (2, 1); (2, 3)] : graph nat_eqType.
Definition c4_rot := [:: [:: 1; 3]; [:: 0; 2]; [:: 1; 3]; [:: 0; 2]].
Example c4_plane : graph_ok c4 /\ plane_embedding c4 (emb_of c4_rot).
Proof.
apply: (plane_check_anyP (F := [:: [:: (0, 1); (1, 2); (2, 3); (3, 0)]; [:: (0, 3); (3, 2); (2, 1); (1, 0)]])).
by vm_compute.
Qed.
(* two of its spanning trees; networkx computes the first one *)
Definition c4_tree := Graph [:: 0; 2; 1; 3] [:: (0, 1); (0, 3); (2, 1)] : graph nat_eqType.
Definition c4_tree' := Graph [:: 0; 2; 1; 3] [:: (0, 1); (0, 3); (2, 3)] : graph nat_eqType.
Example c4_span : spanning c4 c4_tree /\ spanning c4 c4_tree'.
Proof. by split; apply: span_checkP; vm_compute. Qed.
