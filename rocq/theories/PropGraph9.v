(* PropGraph9.v -- planar counting and node labels: property C16 *)
Set Warnings "-notation-overridden,-ambiguous-paths".
From Coq Require Import Reals.
From mathcomp Require Import all_ssreflect all_algebra.
From mathcomp Require Import complex.
From mathcomp.zify Require Import zify.
From Verif Require Import Base ArrC MCombinatorics Matching Pfaffian Bipartite RealC MClean PropClean MGraph MGraphR GraphBrute GraphBfs.
From Verif Require Import GraphCount PropGraph2 PropGraph4 PropGraph5 Planar GraphMap GraphPfo PlaneCheck PropGraph6 PropGraph7.
Set Implicit Arguments.
Unset Strict Implicit.
Unset Printing Implicit Defensive.
Import Order.Theory GRing.Theory Num.Theory.
Local Open Scope ring_scope.

Definition c4_info := NxInfo true (emb_of c4_rot) c4_tree [::].

Lemma c4_faces : faces 8 c4 (Some (emb_of c4_rot)) None [::] =
  Ok (Some [:: [:: (0, 1); (1, 2); (2, 3); (3, 0)]; [:: (0, 3); (3, 2); (2, 1); (1, 0)]])%N.
Proof. by vm_compute. Qed.
Lemma c4_dual : dual_graph_H c4 [:: [:: (0, 1); (1, 2); (2, 3); (3, 0)]; [:: (0, 3); (3, 2); (2, 1); (1, 0)]]%N c4_tree =
  (Graph [:: 0; 1] [:: (0, 1)] : graph nat_eqType)%N.
Proof. by vm_compute. Qed.

Lemma bindOk (A B : Type) (x : A) (f : A -> res B) : bind (Ok x) f = f x. Proof. by []. Qed.

Section C4.
Variable C : numClosedFieldType.
Let A0 : arr C := ascale (99%:R * 'i) (adjacency_matrix c4 (fun _ => 1)).

Lemma c4_A0 i j : 'Re (get A0 i j) = 0.
Proof.
rewrite get_ascale.
have hr : get (adjacency_matrix c4 (fun _ => 1 : C)) i j \is Num.real.
  rewrite get_mk; case: ifP => _; last exact: real0.
  by case: drop => [|u l]; last case: drop => [|v l']; rewrite ?real0 //; case: ifP => _; last case: ifP => _; rewrite ?real0 ?real1.
by rewrite mulrAC ReMir (Creal_ImP _ _) ?oppr0 // rpredM // realn.
Qed.

(* the labels are used as indices, so the entries of A at 02 and 13, which belong to the edges 01 and 23, get 0 *)
Lemma c4_pfo : exists2 A : arr C, pfo_algorithm 8 c4 (fun _ => 1) c4_info = Ok A &
  [/\ nr A = 4%N, nc A = 4%N, get A 0 3 = 1 /\ get A 1 2 = 1 & get A 0 2 = 0 /\ get A 1 3 = 0].
Proof.
rewrite /pfo_algorithm [nx_emb _]/= [nx_tree _]/= [nx_outer _]/= c4_faces bindOk -/A0; cbv zeta; rewrite [odflt _ _]/= c4_dual.
set H := Graph _ _.
have -> : is_tree H = Ok true by vm_compute.
have [|A1 [h1 r1 r2 g1]] := @orient_treeP C A0 _ 4 c4_tree erefl erefl erefl.
  by move=> e; rewrite !inE => /or3P[] /eqP ->.
have -> : (\max_(x <- gnodes H) x)%N = 1%N by rewrite /= !big_cons big_nil.
rewrite bindOk [assertM _]/= bindOk h1 bindOk.
have un e : unassigned A1 e = (sort2 e \notin [:: (0, 1); (0, 3); (1, 2)]%N).
  rewrite /unassigned /entry g1.
  case: (boolP (sort2 e \in _)) => h.
    have -> : has_edge c4_tree (minn e.1 e.2) (maxn e.1 e.2).
      by move: h; rewrite !inE => /or3P[] /eqP[-> ->].
    have le : (minn e.1 e.2 < maxn e.1 e.2)%N by move: h; rewrite !inE => /or3P[] /eqP[-> ->].
    have := @pm1_assigned C (mk 4 4 (fun _ _ => 1)) (0, 1)%N; rewrite /unassigned /entry getE // le => W.
    by apply/negbTE/W; left.
  have -> : has_edge c4_tree (minn e.1 e.2) (maxn e.1 e.2) = false.
    apply/negbTE; apply: contra h; rewrite /has_edge /sort2.
    move: (minn e.1 e.2) (maxn e.1 e.2) (geq_minl e.1 e.2) (leq_maxl e.1 e.2) => a b h1' h2; have := leq_trans h1' h2.
    by rewrite !inE => ab /orP[/or3P[] /eqP[e1 e2]|/or3P[] /eqP[e1 e2]]; move: ab; rewrite e1 e2.
  by rewrite c4_A0 normr0 invr_ge0 exprn_ge0 // ler0n.
pose f0 : face := [:: (0, 1); (1, 2); (2, 3); (3, 0)]%N.
have cf : complete_face A1 f0 = Ok (upd (upd A1 2 3 1) 3 2 1, true).
  rewrite complete_faceE; last by rewrite /in_range r1 r2.
  have -> : [seq e <- f0 | unassigned A1 e] = [:: (2, 3)%N] by rewrite (eq_filter un); vm_compute.
  have -> : \prod_(e <- f0 | ~~ unassigned A1 e) seen A1 e = -1.
    rewrite (eq_bigl (fun e => sort2 e \in [:: (0, 1); (0, 3); (1, 2)]%N)); last by move=> e; rewrite un negbK.
    by rewrite !big_cons big_nil /= /seen /entry /= !g1 /= !mul1r mulr1.
  by rewrite eqxx.
have st : foldM (leaf_step [:: f0; [:: (0, 3); (3, 2); (2, 1); (1, 0)]%N]) (A1, H) [:: 0%N] =
    Ok (upd (upd A1 2 3 1) 3 2 1, Graph [:: 1%N] [::] : graph nat_eqType).
  by rewrite /= /leaf_step /= cf.
have -> : leaf_loop [:: f0; [:: (0, 3); (3, 2); (2, 1); (1, 0)]%N] 1 (size (gnodes H)) A1 H =
    (let* s := foldM (leaf_step [:: f0; [:: (0, 3); (3, 2); (2, 1); (1, 0)]%N]) (A1, H) [:: 0%N] in
     leaf_loop [:: f0; [:: (0, 3); (3, 2); (2, 1); (1, 0)]%N] 1 1 s.1 s.2) by [].
rewrite st bindOk [leaf_loop _ _ _ _ _]/= bindOk; eexists; first by [].
split=> //; rewrite ?nr_upd ?nc_upd //.
  by split; rewrite getE ?nr_upd ?nc_upd ?r1 ?r2 // !get_upd ?nr_upd ?nc_upd ?r1 ?r2 //= g1 /= (Creal_ReP _ (real1 _)).
by split; rewrite getE ?nr_upd ?nc_upd ?r1 ?r2 // !get_upd ?nr_upd ?nc_upd ?r1 ?r2 //= g1 /= c4_A0.
Qed.
End C4.

(* the anti-diagonal skew matrix *)
Definition anti (C : numClosedFieldType) : 'M[C]_4 :=
  \matrix_(i < 4, j < 4) (if (i + j == 3)%N then (if (i < j)%N then 1 else -1) else 0).
Lemma det_anti (C : numClosedFieldType) : \det (anti C) = 1.
Proof.
rewrite (expand_det_row _ 0) !big_ord_recl big_ord0 !mxE /= !mul0r !add0r addr0 mul1r /cofactor.
rewrite (expand_det_row _ 0) !big_ord_recl big_ord0 !mxE /= !mul0r !add0r !addr0 mul1r /cofactor.
rewrite (expand_det_row _ 0) !big_ord_recl big_ord0 !mxE /= ?mul0r ?add0r ?addr0 ?mul1r /cofactor.
rewrite (expand_det_row _ 0) !big_ord_recl big_ord0 !mxE /= ?mul0r ?add0r ?addr0 ?mul1r /cofactor det_mx00 /=.
by rewrite /bump /= !add0n !exprS !expr0 ?mulr1 !mulN1r ?mulNr ?mulrN ?opprK ?mul1r ?mulr1 ?opprK.
Qed.

Lemma simple_c4 : simple_graph c4.
Proof.
by split=> // e; rewrite !inE => /or4P[] /eqP -> /=; split=> //; rewrite !inE.
Qed.

(* C16 is false: a cycle of length 4 has two perfect matchings, but with the nodes inserted in the order 0, 2, 1, 3 (and
   the spanning tree that networkx chooses) the result is 1 *)
Theorem C16_refuted_value l : enumerates c4 l ->
  [/\ plane_embedding c4 (emb_of c4_rot), spanning c4 c4_tree, size l = 2%N &
      count_perfect_matchings 8 c4 (fun _ => 1) c4_info = Ok (OFloat 1)].
Proof.
move=> en; split; [by case: c4_plane|by case: c4_span|..].
  by rewrite (enum_size simple_c4 en) -(enum_size simple_c4 (enumerates_brute simple_c4 _)).
rewrite /count_perfect_matchings [nx_planar _]/= /count_perfect_matchings_planar bindOk [gnodes _]/= /pfo_matrix rmorph1.
have [A -> [r1 r2 [a03 a12] [a02 a13]]] := c4_pfo CR; rewrite !bindOk; cbv zeta; set B := asub _ _.
have eB : toM 4 4 B = anti CR.
  apply/matrixP => i j; rewrite !mxE.
  case: i => [[|[|[|[|i]]]] hi] //; case: j => [[|[|[|[|j]]]] hj] //; rewrite /B !getE // /= ?a03 ?a12 ?a02 ?a13 ?mul0r ?mulr0 ?mul1r ?subr0 ?sub0r ?oppr0 //.
rewrite (@dt_eigen_det _ B 4) // eB det_anti sqrtC1 clean_nonneg ?ler01 //.
by have := reK 1; rewrite rmorph1 => ->; rewrite (np_round_int 1).
Qed.

(* C16: if some label is not smaller than the number of nodes, no count is ever returned *)
Lemma orient_tree_out (C : numClosedFieldType) (A : arr C) (T : graph nat_eqType) n e : nr A = n -> nc A = n ->
  e \in gedges T -> (n <= maxn e.1 e.2)%N -> orient_tree A T = Raise IndexError.
Proof.
rewrite /orient_tree; elim: (gedges T) A => [|d l IH] A // r1 r2; rewrite inE.
case: (boolP ((maxn d.1 d.2 < n) && (minn d.1 d.2 < n))%N) => [/andP[h1 h2]|h].
  have eb : (let* a := upd_chk A (minn d.1 d.2) (maxn d.1 d.2) 1 in upd_chk a (maxn d.1 d.2) (minn d.1 d.2) (-1)) =
      Ok (upd (upd A (minn d.1 d.2) (maxn d.1 d.2) 1) (maxn d.1 d.2) (minn d.1 d.2) (-1)).
    by rewrite /upd_chk r1 r2 h1 h2 /= r1 r2 h1 h2.
  rewrite [foldM _ _ _]/= eb bindOk => /orP[/eqP -> h|el h]; first by move: h1; rewrite ltnNge h.
  by apply: IH => //; rewrite /= ?r1 ?r2.
move=> _ _; rewrite [foldM _ _ _]/= /upd_chk r1 r2.
case: ifP => [/andP[h1 h2]|_] //; by rewrite h1 h2 in h.
Qed.

Theorem C16_refuted_labels fuel G w emb T outer x :
  graph_ok G -> rotation_system G emb -> spanning G T -> gedges G <> [::] -> (size (edgeset G) <= fuel)%N ->
  (1 < size (gnodes G))%N -> x \in gnodes G -> (size (gnodes G) <= x)%N ->
  count_perfect_matchings fuel G w (NxInfo true emb T outer) = Raise AssertionError \/
  count_perfect_matchings fuel G w (NxInfo true emb T outer) = Raise IndexError.
Proof.
move=> [un hE] rs [gT [okT _] [nT cT _] _] E0 hf n1 xG hx.
have [y yG yx] : exists2 y, y \in gnodes G & y != x.
  case E: (gnodes G) n1 un => [|a [|b s]] // _; rewrite /= inE negb_or => /andP[/andP[ab _] _].
  have [ax|ax] := eqVneq a x; last by exists a; rewrite ?mem_head.
  by exists b; rewrite ?inE ?eqxx ?orbT // -ax eq_sym.
have [e eT he] : exists2 e, e \in gedges T & (size (gnodes G) <= maxn e.1 e.2)%N.
  have [p [hp lp]] := cT x y ltac:(by rewrite gT) ltac:(by rewrite gT).
  case: p hp lp => [|z p] /=; first by move=> _ h; rewrite h eqxx in yx.
  by case/andP=> /orP[] h _ _; [exists (x, z)|exists (z, x)] => //=; rewrite leq_max hx ?orbT.
rewrite /count_perfect_matchings /count_perfect_matchings_planar [nx_planar _]/= bindOk.
case EG: (gnodes G) (n1) => [//|a s] _; rewrite /pfo_matrix /pfo_algorithm [nx_emb _]/= [nx_tree _]/= [nx_outer _]/=.
have [F [hF h1 h2 _]] := C12_faces None outer E0 rs hf.
rewrite hF; cbv zeta; rewrite !bindOk [odflt _ _]/=; set H := dual_graph_H G F T.
have [[ok _] hn _] := dual_graph_any G T F; rewrite -/H in ok hn.
have F0 : (0 < size F)%N.
  case: (F) h1 => // h; case E: (gedges G) E0 => [//|d l] _; have := h d.
  by rewrite /has_edge -surjective_pairing E mem_head.
have n0 : gnodes H <> [::] by move=> h; move: hn; rewrite h leqNgt F0.
have [[] [-> _]] := is_treeP ok n0; rewrite !bindOk; last by left.
right; rewrite (@orient_tree_out _ _ T (size (gnodes G)) e) //.
Qed.

(* one edge whose nodes are labelled 1 and 2 *)
Example C16_labels_example :
  count_perfect_matchings 2 (Graph [:: 1; 2] [:: (1, 2)])%N (fun _ => 1)
    (NxInfo true (emb_of [:: [::]; [:: 2]; [:: 1]]) (Graph [:: 1; 2] [:: (1, 2)]) [::])%N = Raise IndexError.
Proof. by []. Qed.

(* ------------------------------------------------------------------ *)
(* what holds: renumbering the nodes by a permutation of 0, ..., n-1     *)
Section Relabel.
Variables (n : nat) (G G' : graph nat_eqType) (f : nat -> nat).
Hypothesis num : numbered n G.
Hypothesis num' : numbered n G'.
Hypothesis f_lt : forall x, (x < n)%N -> (f x < n)%N.
Hypothesis f_inj : forall x y, (x < n)%N -> (y < n)%N -> f x = f y -> x = y.
Hypothesis f_edge : forall x y, (x < n)%N -> (y < n)%N -> has_edge G' (f x) (f y) = has_edge G x y.

Definition rl (e : dart) : dart := sort2 (f e.1, f e.2).

Lemma rl_mem e : e \in gedges G -> rl e \in gedges G'.
Proof.
have [_ _ hl] := num; have [_ _ hl'] := num'; move=> he; have /andP[l1 l2] := hl e he.
have := f_edge (ltn_trans l1 l2) l2; rewrite {2}/has_edge -surjective_pairing he /= => h.
rewrite /rl /sort2 /=; case: (ltnP (f e.1) (f e.2)) => c; move: h; rewrite /has_edge.
  by case/orP=> // /hl' /= /andP[c' _]; have := ltn_trans c c'; rewrite ltnn.
case/orP=> // /hl' /= /andP[c' _]; by move: c; rewrite leqNgt c'.
Qed.
Lemma rl_inj : {in gedges G &, injective rl}.
Proof.
have [_ _ hl] := num; move=> a b /hl/andP[a1 a2] /hl/andP[b1 b2].
have a0 := ltn_trans a1 a2; have b0 := ltn_trans b1 b2.
rewrite /rl /sort2 /= => -[h1 h2].
have : (f a.1 = f b.1 /\ f a.2 = f b.2) \/ (f a.1 = f b.2 /\ f a.2 = f b.1).
  by move: h1 h2; move: (f a.1) (f a.2) (f b.1) (f b.2); clear => x y z t; lia.
case=> -[/f_inj e1 /f_inj e2]; have := e1 _ _; have := e2 _ _ => {}e2 {}e1.
  by rewrite [a]surjective_pairing e1 // e2 // -surjective_pairing.
by move: a1; rewrite e1 // e2 // ltnNge (ltnW b1).
Qed.
Lemma f_onto y : (y < n)%N -> exists2 x, (x < n)%N & f x = y.
Proof.
move=> hy; have : y \in [seq f x | x <- iota 0 n].
  have s1 : {subset [seq f x | x <- iota 0 n] <= iota 0 n}.
    by move=> z /mapP[x]; rewrite !mem_iota /= !add0n => h ->; apply: f_lt.
  have u1 : uniq [seq f x | x <- iota 0 n].
    by rewrite map_inj_in_uniq ?iota_uniq // => a b; rewrite !mem_iota /= !add0n; apply: f_inj.
  have [_ ->] := uniq_min_size u1 s1 ltac:(by rewrite size_map); first by rewrite mem_iota.
by case/mapP=> x; rewrite mem_iota /= add0n => hx ->; exists x.
Qed.
Lemma rl_onto e' : e' \in gedges G' -> exists2 e, e \in gedges G & rl e = e'.
Proof.
have [_ _ hl] := num; have [_ _ hl'] := num'; move=> he; have /andP[l1 l2] := hl' _ he.
have [x hx ex] := f_onto (ltn_trans l1 l2); have [y hy ey] := f_onto l2.
have := f_edge hx hy; rewrite ex ey {1}/has_edge -surjective_pairing he /= => /esym/orP[] h.
  exists (x, y) => //; rewrite /rl /= ex ey /sort2 /=.
  by rewrite (minn_idPl (ltnW l1)) (maxn_idPr (ltnW l1)) -surjective_pairing.
exists (y, x) => //; rewrite /rl /= ex ey /sort2 /=.
by rewrite (minn_idPr (ltnW l1)) (maxn_idPl (ltnW l1)) -surjective_pairing.
Qed.
Lemma rl_incident e x : e \in gedges G -> (x < n)%N -> incident (f x) (rl e) = incident x e.
Proof.
have [_ _ hl] := num; move=> /hl/andP[l1 l2] hx; rewrite /incident /rl /sort2 /=.
have l0 := ltn_trans l1 l2.
have i1 : (f e.1 == f x) = (e.1 == x) by apply/eqP/eqP => [/f_inj -> //|-> //].
have i2 : (f e.2 == f x) = (e.2 == x) by apply/eqP/eqP => [/f_inj -> //|-> //].
rewrite -i1 -i2; move: (f e.1) (f e.2) (f x); clear => a b c; lia.
Qed.
Lemma rl_matching c : {subset c <= gedges G} -> is_matching G' [seq rl e | e <- c] <-> is_matching G c.
Proof.
move=> sc; have [gn _ _] := num; have [gn' _ _] := num'.
have ic : {in c &, injective rl} by move=> a b /sc ha /sc hb; apply: rl_inj.
have hi x : (x < n)%N -> count (incident (f x)) [seq rl e | e <- c] = count (incident x) c.
  by move=> hx; rewrite count_map; apply: eq_in_count => e /sc he; apply: rl_incident.
split=> -[u s h]; split=> //.
- by move: u; rewrite map_inj_in_uniq.
- by move=> x; rewrite gn mem_iota /= add0n => hx; rewrite -hi // h // gn' mem_iota f_lt.
- by rewrite map_inj_in_uniq.
- by move=> e /mapP[d /sc hd ->]; apply: rl_mem.
move=> y; rewrite gn' mem_iota /= add0n => /f_onto[x hx <-]; by rewrite hi // h // gn mem_iota.
Qed.
Lemma rl_enumerates l : enumerates G l -> enumerates G' [seq [seq rl e | e <- c] | c <- l].
Proof.
case=> h1 h2; split=> [c' /mapP[c cl ->]|c' m].
  have m := h1 c cl; apply/rl_matching => //; by case: m.
have [c sc ec] : exists2 c, {subset c <= gedges G} & c' = [seq rl e | e <- c].
  have [_ s' _] := m; elim: c' s' {m} => [|e' c' IH] s; first by exists [::].
  have [c sc ->] := IH (fun e he => s e ltac:(by rewrite inE he orbT)).
  have [e he <-] := rl_onto (s e' (mem_head _ _)).
  by exists (e :: c) => // d; rewrite inE => /orP[/eqP ->|/sc].
have mc : is_matching G c by apply/rl_matching; rewrite -?ec.
rewrite -(h2 c mc) count_map; apply: eq_in_count => d dl /=; rewrite ec.
have [ud sd _] := h1 d dl; have [uc _ _] := mc.
have S (a b : seq dart) : {subset a <= gedges G} -> {subset b <= gedges G} -> uniq a -> uniq b ->
    perm_eq (map rl a) (map rl b) -> perm_eq a b.
  move=> sa sb ua ub p; apply: uniq_perm => // e; apply/idP/idP => he.
    have : rl e \in map rl b by rewrite -(perm_mem p) map_f.
    by case/mapP=> e' hb /(rl_inj (sa _ he) (sb _ hb)) ->.
  have : rl e \in map rl a by rewrite (perm_mem p) map_f.
  by case/mapP=> e' hb /(rl_inj (sb _ he) (sa _ hb)) ->.
by apply/idP/idP => [/S ->|/perm_map ->].
Qed.
End Relabel.

Theorem C16_relabel n G G' f w w' emb emb' T T' fuel outer outer' :
  numbered n G -> numbered n G' -> plane_embedding G emb -> plane_embedding G' emb' -> spanning G T -> spanning G' T' ->
  gedges G <> [::] -> (size (edgeset G) <= fuel)%N -> (size (edgeset G') <= fuel)%N ->
  (forall x, x < n -> f x < n)%N -> (forall x y, (x < n)%N -> (y < n)%N -> f x = f y -> x = y) ->
  (forall x y, (x < n)%N -> (y < n)%N -> has_edge G' (f x) (f y) = has_edge G x y) ->
  (forall x y, (x, y) \in gedges G -> w' (minn (f x) (f y), maxn (f x) (f y)) = w (x, y)) ->
  count_perfect_matchings fuel G' w' (NxInfo true emb' T' outer') =
  count_perfect_matchings fuel G w (NxInfo true emb T outer).
Proof.
move=> num num' pe pe' sp sp' E0 hf hf' fl fi fe fw; rewrite /count_perfect_matchings [nx_planar _]/=.
have [l en] := enumerates_ex (numbered_simple num).
have en' := rl_enumerates num num' fl fi fe en.
have E0' : gedges G' <> [::].
  case E: (gedges G) E0 => [//|e s] _ h; have := rl_mem num num' fe (e := e); rewrite h E mem_head => /(_ isT).
  by [].
rewrite (C15_count w outer num pe sp E0 hf en) (C15_count w' outer' num' pe' sp' E0' hf' en').
congr (Ok (OFloat (np_round (Rabs _) _))); rewrite big_map; apply: eq_big_seq => c cl; rewrite big_map.
apply: eq_big_seq => -[x y] ec; rewrite /rl /sort2 /= fw //.
by have [h _] := en; have [_ sc _] := h c cl; apply: sc.
Qed.

(* a square with a diagonal, numbered in two ways *)
Definition sq4' : graph nat_eqType := Graph [:: 0; 1; 2; 3]%N [:: (0, 1); (0, 2); (1, 2); (1, 3); (2, 3)]%N.
Example C16_relabel_example emb' T' fuel outer outer' : plane_embedding sq4' emb' -> spanning sq4' T' -> (10 <= fuel)%N ->
  count_perfect_matchings fuel sq4' (fun _ => 1) (NxInfo true emb' T' outer') =
  count_perfect_matchings fuel sq4 (fun _ => 1) (NxInfo true (emb_of sq4_rot) sq4_tree outer).
Proof.
move=> pe' sp' hf; have [num pe] := sq4_plane.
pose f (x : nat) := match x with 0 => 1 | 1 => 0 | S (S y) => x end%N.
apply: (@C16_relabel 4 sq4 sq4' f) => //.
- exact: numbered_checkP.
- exact: sq4_span.
- by case=> [|[|[|[|x]]]].
- by case=> [|[|[|[|x]]]] //; case=> [|[|[|[|y]]]].
by case=> [|[|[|[|x]]]] //; case=> [|[|[|[|y]]]].
Qed.
