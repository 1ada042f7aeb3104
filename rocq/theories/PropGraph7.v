(* PropGraph7.v -- counting perfect matchings: properties C11, C15, C16, C17 *)
Set Warnings "-notation-overridden,-ambiguous-paths".
From Coq Require Import Reals Lra.
From mathcomp Require Import all_ssreflect all_algebra.
From mathcomp Require Import complex.
From mathcomp.zify Require Import zify.
From Verif Require Import Base ArrC MCombinatorics Matching Pfaffian Bipartite RealC MClean PropClean MGraph MGraphR GraphBrute GraphBfs.
From Verif Require Import GraphCount PropGraph2 PropGraph4 PropGraph5 Planar GraphMap GraphPfo PlaneCheck PropGraph6.
Set Implicit Arguments.
Unset Strict Implicit.
Unset Printing Implicit Defensive.
Import Order.Theory GRing.Theory Num.Theory.
Local Open Scope ring_scope.

Lemma clean_nonneg (s : CR) : 0 <= s -> clean_num (OCplx (re s, im s)) (TInt 10) = Ok (OFloat (np_round (re s) 10)).
Proof.
move=> h; have im0 : im s = 0 by rewrite -(toC_re (ger0_real h)).
rewrite /clean_num /clean /= im0; case: Rlt_dec => // h'; case: h'.
by rewrite Rabs_R0; lra.
Qed.

Theorem C15_count n G emb T (w : dart -> R) fuel outer l :
  numbered n G -> plane_embedding G emb -> spanning G T -> gedges G <> [::] -> (size (edgeset G) <= fuel)%N ->
  enumerates G l ->
  count_perfect_matchings_planar fuel G w (NxInfo true emb T outer) =
  Ok (OFloat (np_round (Rabs (\sum_(c <- l) \prod_(e <- c) w e)) 10)).
Proof.
move=> num pe sp E0 hf en; rewrite /count_perfect_matchings_planar [bind _ _]/=.
have [e1 _ hl] := num.
have nn : gnodes G <> [::].
  case E: (gedges G) E0 => [//|e s] _ h; have [_ hE] := numbered_ok num.
  by have [h1 _] := hE e ltac:(by rewrite E mem_head); rewrite h in h1.
case E: (gnodes G) nn => [//|x s] _ {E}.
have wr (e : dart) : (toC (w e) : CR) \is Num.real by apply: toC_real.
have [B [-> h2 h3 h4]] := C15_det true outer num pe sp wr E0 hf.
rewrite [bind _ _]/= (dt_eigen_det h2 h3) h4.
have sG := numbered_simple num.
have en' : n = size (gnodes G) by rewrite e1 size_iota.
have eh : hafnian (toM n n (adjacency_matrix G (fun e => toC (w e) : CR))) = toC (\sum_(c <- l) \prod_(e <- c) w e).
  rewrite en' (hafnian_enum sG _ en) rmorph_sum; apply: eq_bigr => c _; by rewrite rmorph_prod.
rewrite eh -rmorphX toC_sqrt ?sqr_ge0 // sqrtr_sqr clean_nonneg ?reK //.
by rewrite toC_ge0 normr_ge0.
Qed.

(* without weights the result is the exact number of perfect matchings *)
Theorem C15_unweighted n G emb T fuel outer l :
  numbered n G -> plane_embedding G emb -> spanning G T -> gedges G <> [::] -> (size (edgeset G) <= fuel)%N ->
  enumerates G l ->
  count_perfect_matchings_planar fuel G (fun _ => 1) (NxInfo true emb T outer) = Ok (OFloat (IZR (Z.of_nat (size l)))).
Proof.
move=> num pe sp E0 hf en; rewrite (C15_count _ _ num pe sp E0 hf en); congr (Ok (OFloat _)).
rewrite (eq_bigr (fun _ => 1)) => [|c _]; last by rewrite big1.
have -> : Rabs (\sum_(c <- l) 1) = IZR (Z.of_nat (size l)).
  have -> : \sum_(c <- l) 1 = (size l)%:R :> R by rewrite big_const_seq count_predT iter_addr_0.
  by rewrite natrZ Rabs_pos_eq //; apply: IZR_le; lia.
by apply: np_round_int.
Qed.

(* ------------------------------------------------------------------ *)
(* when the dual graph is not a tree                                    *)
Local Close Scope ring_scope.
Section NotTree.
Variables (G T : graph nat_eqType) (F : seq face).

(* edges outside T that contribute an edge to the dual graph *)
Definition contributing : seq dart := pmap (fun e => dual_scan e (face_edges F) (face_edges F) None) (cotree G T).

Lemma dual_graph_any : let H := dual_graph_H G F T in
  [/\ edges_ok H, size F <= size (gnodes H) & size (gedges H) <= size contributing].
Proof.
rewrite /= /dual_graph_H -/(face_edges F) -/(cotree G T) -/contributing.
have [ok hs _ _] := add_edgesP contributing (H0_ok F); rewrite size_map -/(add_edges _ _); set H := add_edges _ _ in ok hs *.
split=> //; rewrite -{1}(size_iota 0 (size F)); apply: uniq_leq_size; first exact: iota_uniq.
suff W l (H' : graph nat_eqType) : {subset gnodes H' <= gnodes (add_edges H' l)} by exact: (W contributing (Graph (iota 0 (size F)) [::])).
elim: l H' => [|e l IH] H' x hx //=; apply: IH.
by rewrite /add_edge; case: ifP => _ /=; rewrite !mem_add_node hx !orbT.
Qed.

Lemma dual_not_tree : 0 < size F -> (size contributing).+1 < size F -> is_tree (dual_graph_H G F T) = Ok false.
Proof.
move=> F0 h; have [ok hn hs] := dual_graph_any; move: ok hn hs; set H := dual_graph_H G F T => ok hn hs.
have n0 : gnodes H <> [::] by move=> e; move: hn; rewrite e leqNgt F0.
have [b [hb /proj1 hT]] := is_treeP (proj1 ok) n0; rewrite hb; congr Ok; apply/negP => /hT[_ _ e].
by move: hs hn; rewrite e /=; move: (size contributing) (size F) (size _) h => a b' c; clear; lia.
Qed.

Lemma size_contributing : size contributing <= size (cotree G T).
Proof. by rewrite /contributing size_pmap count_size. Qed.

Lemma dual_scan_some e (rem : seq face) u k : (forall f, f \in rem -> e \notin f) -> dual_scan e (face_edges F) rem u = Some k -> u <> None.
Proof.
elim: rem u => [|f rem IH] u h /=; first by case: u.
by rewrite (negbTE (h f (mem_head _ _))); apply: IH => g hg; apply: h; rewrite inE hg orbT.
Qed.

(* an edge reported with its larger end first contributes nothing: the face lists hold sorted pairs *)
Lemma unsorted_contributes e : e.2 < e.1 -> dual_scan e (face_edges F) (face_edges F) None = None.
Proof.
move=> lt; case E: dual_scan => [k|] //; case: (@dual_scan_some e (face_edges F) None k _ E) => // f /mapP[g _ ->].
by apply/negP => /mapP[d _ ed]; move: lt; rewrite ed /sort2 /=; lia.
Qed.
Lemma size_contributing_lt e : e \in cotree G T -> e.2 < e.1 -> size contributing < size (cotree G T).
Proof.
move=> he lt; rewrite /contributing size_pmap -(count_predC (fun e => dual_scan e (face_edges F) (face_edges F) None)).
rewrite -[X in X < _]addn0 ltn_add2l -has_count; apply/hasP; exists e => //=.
by rewrite unsorted_contributes.
Qed.

(* a forest inside G that has n - c edges leaves E - (n - c) edges *)
Lemma size_cotree : uniq (gedges G) -> edges_ok T -> (forall u v, has_edge T u v -> has_edge G u v) ->
  size (cotree G T) + size (gedges T) <= size (gedges G).
Proof.
move=> uG [okT [uT sT]] sub; pose o (e : dart) := if e \in gedges G then e else (e.2, e.1).
have oE e : e \in gedges T -> o e \in gedges G /\ has_edge T (o e).1 (o e).2.
  move=> he; have hT : has_edge T e.1 e.2 by rewrite /has_edge -surjective_pairing he.
  rewrite /o; case: ifP => h //; split; last by rewrite has_edgeC.
  by have := sub _ _ hT; rewrite /has_edge -surjective_pairing h.
have oi : {in gedges T &, injective o}.
  have W (a b : dart) : a = b \/ a = (b.2, b.1) -> a \in gedges T -> b \in gedges T -> a = b.
    case=> // -> h1 h2; have := sT _ h2 h1; by case: (b) => b1 b2 /= ->.
  move=> a b ha hb; rewrite /o; case: ifP => _; case: ifP => _ h; apply: W => //.
  - by left.
  - by right.
  - by right; rewrite -h /= -surjective_pairing.
  by left; move: h; case: (a) (b) => a1 a2 [b1 b2] /= [-> ->].
rewrite /cotree size_filter -(count_predC (fun e => ~~ has_edge T e.1 e.2) (gedges G)) leq_add2l.
rewrite -(size_map o) -size_filter; apply: uniq_leq_size; first by rewrite map_inj_in_uniq.
by move=> x /mapP[e /oE[h1 h2] ->]; rewrite mem_filter h1 /= negbK h2.
Qed.
End NotTree.

(* the first face list of an embedding, and the assertion *)
Lemma pfo_assert (C : numClosedFieldType) fuel G (w : weights C nat_eqType) pl emb T outer :
  gedges G <> [::] -> rotation_system G emb -> size (edgeset G) <= fuel ->
  (forall F, all (closed_face emb) F -> perm_eq (flatten F) (edgeset G) ->
     0 < size F /\ (size (contributing G T F)).+1 < size F) ->
  pfo_matrix fuel G w (NxInfo pl emb T outer) = Raise AssertionError.
Proof.
move=> E0 rs hf h; have [F [hF h1 h2 _]] := C12_faces None outer E0 rs hf.
have pF : perm_eq (flatten F) (edgeset G).
  apply/allP => d _ /=; rewrite h1 count_uniq_mem ?edgeset_uniq ?mem_edgeset //.
have [F0 lt] := h F h2 pF.
by rewrite /pfo_matrix /pfo_algorithm /= hF /= (dual_not_tree F0 lt).
Qed.

Lemma count_assert fuel G w pl emb T outer :
  gnodes G <> [::] -> pfo_matrix fuel G (fun e => toC (w e) : CR) (NxInfo pl emb T outer) = Raise AssertionError ->
  count_perfect_matchings fuel G w (NxInfo true emb T outer) = Raise AssertionError.
Proof.
move=> n0 h; rewrite /count_perfect_matchings /count_perfect_matchings_planar /=; case E: (gnodes G) n0 => [//|x s] _.
by move: h; rewrite /pfo_matrix /pfo_algorithm [nx_emb _]/= [nx_tree _]/= [nx_outer _]/= => ->.
Qed.

(* C16: whatever the labels, if networkx reports an edge with the larger label first (that node was inserted before the
   other one) and the edge is not in the spanning tree, the function fails *)
Theorem C16_refuted_unsorted_edge fuel G w emb T outer e :
  graph_ok G -> uniq (gedges G) -> plane_embedding G emb -> spanning G T -> size (edgeset G) <= fuel ->
  e \in gedges G -> e.2 < e.1 -> ~~ has_edge T e.1 e.2 ->
  count_perfect_matchings fuel G w (NxInfo true emb T outer) = Raise AssertionError.
Proof.
move=> okG uG [rs ot cn eu] [gT okT [_ _ tT] sub] hf eG lt eT.
apply: (count_assert (pl := true)) => [h|]; first by have [] := (proj2 okG) e eG; rewrite h.
apply: pfo_assert => // [h|F hF pF]; first by rewrite h in eG.
have hE := eu F hF pF; have hc := size_cotree uG okT sub.
have eC : e \in cotree G T by rewrite mem_filter eT eG.
have hl := size_contributing_lt F eC lt.
have hs : size (gnodes T) = size (gnodes G) by apply: perm_size; apply: uniq_perm gT; [case: okT => -[]|case: okG].
rewrite hs in tT.
move: (size (contributing G T F)) (size F) (size (cotree G T)) (size (gedges T)) (size (gedges G)) (size (gnodes G)) tT hE hc hl.
clear=> a b c d f g; lia.
Qed.

(* reps holds one node of every connected component *)
Definition components (G : graph nat_eqType) (reps : seq nat) : Prop :=
  [/\ uniq reps, {subset reps <= gnodes G}, forall x, x \in gnodes G -> exists2 r, r \in reps & reachable G r x &
      forall r r', r \in reps -> r' \in reps -> reachable G r r' -> r = r'].
(* the components with an edge *)
Definition nontrivial (G : graph nat_eqType) (reps : seq nat) : nat := count (fun r => has (has_edge G r) (gnodes G)) reps.

(* C17: every planar graph with two components that have an edge *)
Theorem C17_refuted_disconnected fuel G w emb T outer reps :
  uniq (gedges G) -> components G reps -> 2 <= nontrivial G reps ->
  rotation_system G emb ->
  (* Euler's formula: one more face for every further component with an edge *)
  (forall F, all (closed_face emb) F -> perm_eq (flatten F) (edgeset G) ->
     size (gnodes G) + size F = size (gedges G) + size reps + nontrivial G reps) ->
  (* networkx returns a spanning forest *)
  edges_ok T -> (forall u v, has_edge T u v -> has_edge G u v) -> size (gedges T) + size reps = size (gnodes G) ->
  size (edgeset G) <= fuel ->
  count_perfect_matchings fuel G w (NxInfo true emb T outer) = Raise AssertionError.
Proof.
move=> uG cG k2 rs eu okT sub sT hf; have := k2; rewrite /nontrivial => k2'.
have : has (fun r => has (has_edge G r) (gnodes G)) reps by rewrite has_count; apply: leq_trans k2'.
case/hasP=> r _ /hasP[x xG rx].
apply: (count_assert (pl := true)); first by move=> h; rewrite h in xG.
apply: pfo_assert => // [h|F hF pF]; first by move: rx; rewrite /has_edge h.
have hE := eu F hF pF; have hc := size_cotree uG okT sub; have hl := size_contributing G T F.
move: (size (contributing G T F)) (size F) (size (cotree G T)) (size (gedges T)) (size (gedges G)) (size (gnodes G)) (size reps) (nontrivial G reps) k2 sT hE hc hl.
clear=> a b c d e f g h; lia.
Qed.

(* C17: every graph with nodes but without edges *)
Theorem C17_refuted_no_edges fuel G w emb T outer : gnodes G <> [::] -> gedges G = [::] ->
  count_perfect_matchings fuel G w (NxInfo true emb T outer) = Raise ValueError.
Proof.
move=> n0 E0; rewrite /count_perfect_matchings /count_perfect_matchings_planar /=; case: (gnodes G) n0 => // x s _.
by rewrite /pfo_matrix /pfo_algorithm /= (C12_no_edges _ _ _ _ E0).
Qed.

(* the graph without nodes has one perfect matching, the empty one; 0 is returned *)
Theorem C17_refuted_empty fuel G w emb T outer : gnodes G = [::] -> gedges G = [::] ->
  count_perfect_matchings fuel G w (NxInfo true emb T outer) = Ok (OInt 0) /\ enumerates G [:: [::]].
Proof.
move=> n0 E0; split; first by rewrite /count_perfect_matchings /count_perfect_matchings_planar /= n0.
split=> [c|c [_ sc _]]; first by rewrite inE => /eqP ->; split=> // x; rewrite n0.
by case: c sc => // e c /(_ e (mem_head _ _)); rewrite E0.
Qed.

Example C15_example : count_perfect_matchings_planar 10 sq4 (fun _ => 1%R) (NxInfo true (emb_of sq4_rot) sq4_tree [:: 3; 0; 2; 1]) =
  Ok (OFloat 2).
Proof.
have [num pe] := sq4_plane; have en := enumerates_brute (numbered_simple num) (isT : size (gnodes sq4) <= 15).
by rewrite (C15_unweighted _ num pe sq4_span _ _ en).
Qed.

Example C16_example : count_perfect_matchings 8 c4 (fun _ => 1%R) (NxInfo true (emb_of c4_rot) c4_tree' [::]) = Raise AssertionError.
Proof.
have [ok pe] := c4_plane; have [_ sp] := c4_span.
by apply: (C16_refuted_unsorted_edge (e := (2, 1)) _ _ ok _ pe sp).
Qed.

(* two disjoint edges *)
Definition two_edges := Graph [:: 0; 1; 2; 3] [:: (0, 1); (2, 3)] : graph nat_eqType.
Example C17_example : count_perfect_matchings 4 two_edges (fun _ => 1%R)
  (NxInfo true (emb_of [:: [:: 1]; [:: 0]; [:: 3]; [:: 2]]) two_edges [::]) = Raise AssertionError.
Proof.
have rot v : uniq (nth [::] [:: [:: 1]; [:: 0]; [:: 3]; [:: 2]] v) /\
    forall u, (u \in nth [::] [:: [:: 1]; [:: 0]; [:: 3]; [:: 2]] v) = has_edge two_edges v u.
  case: v => [|[|[|[|v]]]]; split; try by [].
  1-4: by move=> u; case: u => [|[|[|[|u]]]].
  - by rewrite /= nth_nil.
  by move=> u; rewrite /= nth_nil; case: u => [|[|[|[|u]]]].
apply: (@C17_refuted_disconnected 4 _ _ _ _ _ [:: 0; 2]) => //.
- split=> // [x|x|r r'].
  + by rewrite inE mem_seq1 => /orP[] /eqP ->.
  + rewrite !inE => /or4P[] /eqP ->; [exists 0|exists 0|exists 2|exists 2] => //.
    * by exists [::].
    * by exists [:: 1].
    * by exists [::].
    by exists [:: 3].
  have W a p b : path (has_edge two_edges) a p -> last a p = b -> (a < 2) = (b < 2).
    elim: p a => [|c p IH] a /=; first by move=> _ ->.
    by case/andP=> h hp /(IH _ hp) <-; move: h; clear; case: a => [|[|[|[|a]]]]; case: c => [|[|[|[|c]]]].
  by rewrite !inE => /orP[] /eqP -> /orP[] /eqP -> // [p [h1 h2]]; have := W _ _ _ h1 h2.
- exact: emb_of_ok.
- move=> F hF pF; rewrite (face_count (edgeset_uniq two_edges) hF (F2 := [:: [:: (0, 1); (1, 0)]; [:: (2, 3); (3, 2)]])) //.
by do 2!split=> //; move=> e; rewrite inE mem_seq1 => /orP[] /eqP -> //.
Qed.
