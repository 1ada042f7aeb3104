(* PropGraph11.v -- property C73: the pfaffian of the matrices made with pfo_algorithm *)
Set Warnings "-notation-overridden,-ambiguous-paths".
From mathcomp Require Import all_ssreflect all_fingroup all_algebra.
From mathcomp.zify Require Import zify.
From Verif Require Import Base ArrC MCombinatorics Matching Pfaffian MGraph GraphBrute GraphBfs GraphCount.
From Verif Require Import PfExpand PropWick PropGraph2 PropGraph4 PropGraph5 Planar Fkt GraphMap GraphDual GraphPfo PlaneCheck PropGraph6.
Set Implicit Arguments.
Unset Strict Implicit.
Unset Printing Implicit Defensive.
Import Order.Theory GRing.Theory Num.Theory.
Local Open Scope ring_scope.

(* ------------------------------------------------------------------ *)
(* pf sees only the antisymmetric part                                  *)
Section Skew.
Variables (F : numFieldType) (k : nat).
Local Notation n := k.*2.
Implicit Types A : 'M[F]_n.

Definition skew_part m (A : 'M[F]_m) : 'M[F]_m := 2%:R^-1 *: (A - A^T).

Lemma skew_partT m (A : 'M[F]_m) : (skew_part A)^T = - skew_part A.
Proof. by rewrite /skew_part linearZ /= linearB /= trmxK -scalerN opprB. Qed.

Definition psum_upto A (m : nat) : F := \sum_(s : 'S_n) (-1) ^+ (odd_perm s) *
  \prod_(i < k) (if (i < m)%N then skew_part A else A) (s (d i false)) (s (d i true)).

Lemma psum_step A m : psum_upto A m.+1 = psum_upto A m.
Proof.
case: (ltnP m k) => hm; last first.
  apply: eq_bigr => s _; congr (_ * _); apply: eq_bigr => i _; have hi := ltn_ord i.
  by rewrite (leq_trans hi hm) ltnS ltnW // (leq_trans hi).
pose j := Ordinal hm; pose t : 'S_n := tperm (d j false) (d j true).
have tne : d j false != d j true by rewrite d_eq eqxx.
have td (i : 'I_k) e : i != j -> t (d i e) = d i e.
  by move=> ij; rewrite tpermD // d_eq negb_and eq_sym ij.
pose rest (s : 'S_n) : F := \prod_(i < k | i != j) (if (i < m)%N then skew_part A else A) (s (d i false)) (s (d i true)).
have rest_t (s : 'S_n) : rest (t * s)%g = rest s.
  by apply: eq_bigr => i ij; rewrite !permM !td.
have e0 : psum_upto A m = \sum_(s : 'S_n) (-1) ^+ (odd_perm s) * (A (s (d j false)) (s (d j true)) * rest s).
  by apply: eq_bigr => s _; rewrite (bigD1 j) //= ltnn.
have e1 : psum_upto A m = - \sum_(s : 'S_n) (-1) ^+ (odd_perm s) * (A (s (d j true)) (s (d j false)) * rest s).
  rewrite e0 (reindex_inj (mulgI t)) -sumrN; apply: eq_bigr => s _.
  by rewrite odd_permM odd_tperm tne rest_t !permM tpermL tpermR signr_addb expr1 mulN1r mulNr.
have e2 : psum_upto A m.+1 = 2%:R^-1 * (psum_upto A m + psum_upto A m).
  rewrite {1}e0 e1 -sumrB mulr_sumr; apply: eq_bigr => s _; rewrite (bigD1 j) //= ltnSn !mxE.
  have -> : \prod_(i < k | i != j) (if (i < m.+1)%N then skew_part A else A) (s (d i false)) (s (d i true)) = rest s.
    apply: eq_bigr => i ij; rewrite ltnS leq_eqVlt (_ : (i == m :> nat) = false) //.
    by apply/negbTE; apply: contra ij => /eqP h; apply/eqP/val_inj.
  by rewrite -mulrBr -mulrBl -!mulrA [RHS]mulrCA.
by rewrite e2 -mulr2n -(mulr_natl (psum_upto A m)) mulrA mulVf ?pnatr_eq0 ?mul1r.
Qed.

Lemma psum_skew A : psum A = psum (skew_part A).
Proof.
have e m : psum_upto A m = psum A.
  elim: m => [|m IH]; last by rewrite psum_step.
  by apply: eq_bigr.
rewrite -(e k); apply: eq_bigr => s _; congr (_ * _); apply: eq_bigr => i _; by rewrite ltn_ord.
Qed.
End Skew.

Theorem C73_skew_part (F : numFieldType) m (A : 'M[F]_m) : pf (ofM A) = pf (ofM (skew_part A)).
Proof.
have [on|en] := boolP (odd m); first by rewrite /pf /= modn2 on.
have [k ek] : exists k, m = k.*2 by exists m./2; rewrite -[LHS](odd_double_half m) (negbTE en).
by subst m; rewrite !(@pf_psum _ _ k) // !toM_ofM psum_skew.
Qed.

(* ------------------------------------------------------------------ *)
(* a tree has at most one perfect matching                              *)
Section TreeMatching.
Variables (n : nat) (G T : graph nat_eqType).
Hypothesis num : numbered n G.
Hypothesis sp : spanning G T.
Hypothesis E0 : gedges G <> [::].

Definition inT (M : {set {set 'I_n}}) : Prop := forall i j, i != j -> [set i; j] \in M -> has_edge T i j.


Lemma tree_rank : exists (rk : 'I_n -> nat) (up : 'I_n -> 'I_n) (r : 'I_n),
  (forall i, i != r -> (rk (up i) < rk i)%N) /\
  forall i j : 'I_n, has_edge T i j -> (i != r /\ j = up i) \/ (j != r /\ i = up j).
Proof.
case E: (gedges G) E0 => [//|e0 l] _.
have d0P : e0 \in edgeset G by rewrite mem_edgeset /has_edge E; case: (e0) => a b; rewrite mem_head.
pose d0 : gdart G := SeqSub d0P; have st := gspan num sp; pose r := gsrc num d0.
have alK : involutive (@gal G) by move=> x; apply: val_inj; rewrite /= -surjective_pairing.
have [|rk [p par]] := @parents_ex _ _ (gsrc num) (@gal G) (gtree G T) [set r] d0.
  move=> P hP hd v; have Pr : P r by apply: hP; rewrite inE.
  apply: (st_conn st (P := P) _ (u := r)) => [d dT Pd|//]; apply: hd; first exact: (st_al st).
  by rewrite alK.
exists rk, (fun v => gsrc num (gal (p v))), r; split.
  by move=> i ir; have [] := par i; rewrite ?inE.
have eF : gtree G T = forest (@gal G) [set r] p.
  by apply: (parents_eq alK par (st_al st)); rewrite (st_card st) cardsC1.
move=> i j hij; have [_ _ _ sub] := sp.
have dP : ((i : nat), (j : nat)) \in edgeset G by rewrite mem_edgeset sub.
pose x : gdart G := SeqSub dP.
have : x \in gtree G T by rewrite inE.
have ei : gsrc num x = i by apply: val_inj.
have ej : gsrc num (gal x) = j by apply: val_inj.
rewrite eF => /forestP[v]; rewrite inE => vr [ex|ex]; have [|_ sv _] := par v; rewrite ?inE //.
  by left; rewrite -ei -ej ex sv.
by right; rewrite -ej -ei ex alK sv.
Qed.

Lemma partner (M : {set {set 'I_n}}) x : perfect_matching M -> exists2 y, y != x & [set x; y] \in M.
Proof.
move=> /andP[/forall_inP c2 /forallP/(_ x)] /cards1P[B hB].
have : B \in [set B in M | x \in B] by rewrite hB inE.
rewrite inE => /andP[BM xB]; have := c2 _ BM => /cards2P[a [b [ab eB]]].
by move: xB BM ab; rewrite eB !inE => /orP[]/eqP <- h ab; [exists b; rewrite // eq_sym|exists a; rewrite // setUC].
Qed.

Lemma partner_uniq (M : {set {set 'I_n}}) x y z : perfect_matching M -> y != x -> z != x ->
  [set x; y] \in M -> [set x; z] \in M -> y = z.
Proof.
move=> pM yx zx h1 h2.
have h : [set x; y] = [set x; z] by apply: (perfect_disj (x := x) pM) => //; rewrite !inE eqxx.
have : y \in [set x; z] by rewrite -h !inE eqxx orbT.
by rewrite !inE (negbTE yx) => /eqP.
Qed.

Lemma tree_matching (M M' : {set {set 'I_n}}) : perfect_matching M -> perfect_matching M' -> inT M -> inT M' -> M = M'.
Proof.
have [rk [up [r [hup hT]]]] := tree_rank.
pose P (M : {set {set 'I_n}}) v := (v != r) && ([set v; up v] \in M).
have une v : v != r -> up v != v by move=> /hup h; apply/eqP => e; rewrite e ltnn in h.
pose mx := \max_(v : 'I_n) rk v.
have W k : forall N N' v, perfect_matching N -> perfect_matching N' -> inT N -> inT N' -> (mx - rk v <= k)%N -> P N v -> P N' v.
  elim: k => [|k IH] N N' v pN pN' tN tN' hk /andP[vr hv].
    have [y yv hy] := partner v pN'; have := tN' v y; rewrite eq_sym yv => /(_ isT hy)/hT[[_ e]|[yr e]].
      by rewrite /P vr -e.
    have := hup y yr; rewrite -e => lt; have : (rk y <= mx)%N by apply: (leq_bigmax y).
    by move: hk; rewrite leqn0 subn_eq0 => h1 h2; have := leq_trans h2 h1; rewrite leqNgt lt.
  have [y yv hy] := partner v pN'; have := tN' v y; rewrite eq_sym yv => /(_ isT hy)/hT[[_ e]|[yr e]].
    by rewrite /P vr -e.
  have lt := hup y yr; rewrite -e in lt.
  have : P N y.
    apply: (IH N' N y) => //; last by rewrite /P yr -e setUC.
    have : (rk y <= mx)%N by apply: (leq_bigmax y).
    by move: hk lt; clear; lia.
  case/andP=> _; rewrite -e setUC => hy'.
  have ey : y = up v by apply: (partner_uniq pN yv (une v vr) hy' hv).
  by have := hup v vr; rewrite -ey => lt'; have := ltn_trans lt lt'; rewrite ltnn.
suff sub N N' : perfect_matching N -> perfect_matching N' -> inT N -> inT N' -> N \subset N'.
  by move=> *; apply/eqP; rewrite eqEsubset !sub.
move=> pN pN' tN tN'; apply/subsetP => B BN; have /andP[/forall_inP/(_ _ BN)/cards2P[a [b [ab eB]]] _] := pN.
rewrite eB in BN *; have := tN a b ab BN => /hT[[ar e]|[br e]].
  by rewrite e in BN *; have /andP[] : P N' a by apply: (W (mx - rk a)%N N N') => //; rewrite /P ar.
by rewrite setUC e in BN *; have /andP[] : P N' b by apply: (W (mx - rk b)%N N N') => //; rewrite /P br.
Qed.
End TreeMatching.

Section Main.
Variable C : numClosedFieldType.

(* the documented use: the skew matrix of count_perfect_matchings_planar has the number of perfect matchings (the sum of
   their weights) as pfaffian, up to sign *)
Theorem C73_count n G emb T (w : weights C nat_eqType) fuel pl outer l :
  numbered n G -> plane_embedding G emb -> spanning G T -> (forall e, w e \is Num.real) -> gedges G <> [::] ->
  (size (edgeset G) <= fuel)%N -> enumerates G l ->
  exists B u, [/\ pfo_matrix fuel G w (NxInfo pl emb T outer) = Ok B, u = 1 \/ u = -1 &
    pf B = Ok (u * \sum_(c <- l) \prod_(e <- c) w e)].
Proof.
move=> num pe sp wr E0 hf en; have [B [e [h1 h2] skB _ [u uu h3]]] := C15_pfaffian pl outer num pe sp wr E0 hf.
exists B, u; split=> //.
  have : (u == 1) || (u == -1) by rewrite -eqf_sqr expr1n [u ^+ 2]uu.
  by case/orP => /eqP; [left|right].
have en' : n = size (gnodes G) by case: num => -> _ _; rewrite size_iota.
rewrite (pf_pfaffian h1 h2 skB) h3; congr (Ok (_ * _)).
by rewrite en' (hafnian_enum (numbered_simple num) w en).
Qed.

(* the perfect matching M uses only edges of T *)
Definition in_tree n (T : graph nat_eqType) (M : {set {set 'I_n}}) : bool :=
  [forall i, forall j, (i != j) && ([set i; j] \in M) ==> has_edge T i j].
Lemma in_treeP n (T : graph nat_eqType) (M : {set {set 'I_n}}) : reflect (inT T M) (in_tree T M).
Proof.
apply: (iffP idP) => [h i j ij hM|h].
  by move/forallP/(_ i)/forallP/(_ j)/implyP: h; apply; rewrite ij.
by apply/forallP => i; apply/forallP => j; apply/implyP => /andP[ij hM]; apply: h.
Qed.

Definition tree_skew n (T : graph nat_eqType) : 'M[C]_n :=
  \matrix_(i, j) if has_edge T i j then (if (i < j)%N then 1 else -1) else 0.

Lemma tree_skewT n G T : numbered n G -> spanning G T -> (tree_skew n T)^T = - tree_skew n T.
Proof.
move=> num [_ _ _ sub]; apply/matrixP => i j; rewrite !mxE has_edgeC; case: ifP => h; last by rewrite oppr0.
have [_ _ ne] := edge_lt num (sub _ _ h); by case: (ltngtP i j) ne => // _ _; rewrite ?opprK.
Qed.

Lemma tree_pfaffian n G T : numbered n G -> spanning G T -> gedges G <> [::] ->
  if [exists M : {set {set 'I_n}}, perfect_matching M && in_tree T M]
  then pfaffian (tree_skew n T) = 1 \/ pfaffian (tree_skew n T) = -1 else pfaffian (tree_skew n T) = 0.
Proof.
move=> num sp E0.
have w0 (M : {set {set 'I_n}}) : ~~ in_tree T M -> mweight (tree_skew n T) M = 0.
  move=> /forallPn[i /forallPn[j]]; rewrite negb_imply => /andP[/andP[ij hM] hT]; rewrite /mweight.
  case: (ltngtP i j) => [lt|lt|/val_inj e]; last by rewrite e eqxx in ij.
    by rewrite (bigD1 (i, j)) /edge /= ?lt //= mxE (negbTE hT) mul0r.
  by rewrite (bigD1 (j, i)) /edge /= ?lt 1?setUC //= mxE has_edgeC (negbTE hT) mul0r.
case: ifP => [/existsP[M /andP[pM tM]]|/negbT h]; last first.
  by apply: big1 => M pM; rewrite w0 ?mulr0 //; move/existsPn/(_ M): h; rewrite pM.
have -> : pfaffian (tree_skew n T) = (-1) ^+ crossings M.
  rewrite /pfaffian (bigD1 M) //= big1 ?addr0 => [|N /andP[pN NM]]; last first.
    rewrite w0 ?mulr0 //; apply: contra NM => /in_treeP tN; apply/eqP.
    by apply: (tree_matching num sp E0 pN pM tN); apply/in_treeP.
  rewrite /mweight big1 ?mulr1 // => -[i j] /andP[/= lt hM]; rewrite mxE lt.
  by move/in_treeP: tM => ->; rewrite // -val_eqE /= neq_ltn lt.
by rewrite -signr_odd; case: odd; rewrite ?expr0 ?expr1; [right|left].
Qed.

Lemma pf_raw n G emb T (w : weights C nat_eqType) fuel pl outer :
  numbered n G -> plane_embedding G emb -> spanning G T -> (forall e, w e \is Num.real) -> gedges G <> [::] ->
  (size (edgeset G) <= fuel)%N ->
  exists2 A, pfo_algorithm fuel G w (NxInfo pl emb T outer) = Ok A & pf A = Ok (pfaffian (tree_skew n T)).
Proof.
move=> num pe sp wr E0 hf.
have [F [A [_ _ _ h4 [r1 r2 hA _ hs]]]] := pfoP num pe sp wr E0 hf pl outer.
exists A => //.
rewrite -(ofM_toM r1 r2).
rewrite C73_skew_part; have -> : skew_part (toM n n A) = tree_skew n T.
  apply/matrixP => i j; rewrite !mxE; have := hs i j; have := hs j i; rewrite has_edgeC.
  case: ifP => h; last by move=> _ ->; rewrite subrr mulr0.
  have [_ _ _ sub] := sp; have [_ _ ne] := edge_lt num (sub _ _ h).
  have t0 : (2%:R : C) != 0 by rewrite pnatr_eq0.
  case: (ltngtP i j) ne => // _ _ -> ->; first by rewrite opprK -mulr2n mulVf.
  by rewrite -opprD mulrN -mulr2n mulVf.
by rewrite (@pf_pfaffian _ _ n) ?toM_ofM //; exact: tree_skewT num sp.
Qed.

(* Refuted, tutorial "Compute pfaffian (should equal number of matchings)": pf(pfo_algorithm(G)) itself is 1 or -1 if the
   spanning tree has a perfect matching and 0 otherwise, because the edges outside the tree get the same entry on
   both sides of the diagonal and pf sees only the antisymmetric part *)
Theorem C73_refuted_raw n G emb T (w : weights C nat_eqType) fuel pl outer :
  numbered n G -> plane_embedding G emb -> spanning G T -> (forall e, w e \is Num.real) -> gedges G <> [::] ->
  (size (edgeset G) <= fuel)%N ->
  exists A x, [/\ pfo_algorithm fuel G w (NxInfo pl emb T outer) = Ok A, pf A = Ok x &
    if [exists M : {set {set 'I_n}}, perfect_matching M && in_tree T M] then x = 1 \/ x = -1 else x = 0].
Proof.
move=> num pe sp wr E0 hf; have [A h1 h2] := pf_raw pl outer num pe sp wr E0 hf.
by exists A, (pfaffian (tree_skew n T)); split=> //; exact: tree_pfaffian num sp E0.
Qed.

(* so the claim fails whenever there are at least two perfect matchings *)
Theorem C73_refuted_value n G emb T fuel pl outer l A :
  numbered n G -> plane_embedding G emb -> spanning G T -> gedges G <> [::] -> (size (edgeset G) <= fuel)%N ->
  enumerates G l -> (1 < size l)%N -> pfo_algorithm fuel G (fun _ => 1 : C) (NxInfo pl emb T outer) = Ok A ->
  pf A <> Ok (size l)%:R.
Proof.
move=> num pe sp E0 hf en l2 hA; have w1 e : (fun _ => 1 : C) (e : nat * nat) \is Num.real by rewrite real1.
have [A' [x [h1 h2 h3]]] := C73_refuted_raw pl outer num pe sp w1 E0 hf.
move: h1; rewrite hA => -[e]; rewrite e h2 => -[ex]; move: h3; rewrite ex.
have h0 : (size l)%:R != 0 :> C by rewrite pnatr_eq0; case: (size l) l2.
have h1 : (size l)%:R != 1 :> C by rewrite pnatr_eq1; case: (size l) l2 => [|[]].
have hN : (size l)%:R != -1 :> C by rewrite -addr_eq0 -(natrD _ _ 1) pnatr_eq0 addn1.
by case: ifP => _; [case|] => h; [move: h1|move: hN|move: h0]; rewrite h eqxx.
Qed.
End Main.

(* square with a diagonal: two perfect matchings, pf = +-2 for the skew matrix but at most 1 for pfo_algorithm(G) *)
Example C73_example (C : numClosedFieldType) : exists (A B : arr C) (u : C),
  [/\ pfo_algorithm 10 sq4 (fun _ => 1) (NxInfo true (emb_of sq4_rot) sq4_tree [:: 3; 0; 2; 1]%N) = Ok A,
      pfo_matrix 10 sq4 (fun _ => 1) (NxInfo true (emb_of sq4_rot) sq4_tree [:: 3; 0; 2; 1]%N) = Ok B,
      u = 1 \/ u = -1, pf B = Ok (u * 2%:R) & pf A <> Ok 2%:R].
Proof.
have [num pe] := sq4_plane; have w1 e : (fun _ => 1 : C) (e : nat * nat) \is Num.real by rewrite real1.
have en := enumerates_brute (numbered_simple num) (isT : (size (gnodes sq4) <= 15)%N).
have E0 : gedges sq4 <> [::] by [].
have [A [x [h1 _ _]]] := C73_refuted_raw true [:: 3; 0; 2; 1]%N num pe sq4_span w1 E0 (isT : (size (edgeset sq4) <= 10)%N).
have [B [u [h2 h3 h4]]] := C73_count true [:: 3; 0; 2; 1]%N num pe sq4_span w1 E0 (isT : (size (edgeset sq4) <= 10)%N) en.
have el : size (find_perfect_matchings_brute sq4) = 2%N by vm_compute.
have hs : \sum_(c <- find_perfect_matchings_brute sq4) \prod_(e <- c) (1 : C) = 2%:R.
  rewrite (eq_bigr (fun _ => 1)) => [|c _]; last by rewrite big1.
  by rewrite big_const_seq count_predT iter_addr_0 el.
exists A, B, u; split; [exact: h1|exact: h2|exact: h3|by rewrite h4 hs|].
have := C73_refuted_value num pe sq4_span E0 (isT : (size (edgeset sq4) <= 10)%N) en _ h1.
by rewrite el; apply.
Qed.

(* the path 0 - 2 - 1 - 3 has one perfect matching and pf(pfo_algorithm(G)) = -1 *)
Definition p4 : graph nat_eqType := Graph [:: 0; 1; 2; 3]%N [:: (0, 2); (1, 2); (1, 3)]%N.
Definition p4_rot : seq (seq nat) := [:: [:: 2]; [:: 2; 3]; [:: 0; 1]; [:: 1]]%N.
Example C73_sign (C : numClosedFieldType) : exists2 A : arr C,
  pfo_algorithm 10 p4 (fun _ => 1) (NxInfo true (emb_of p4_rot) p4 [::]) = Ok A & pf A = Ok (-1).
Proof.
have [num pe] : numbered 4 p4 /\ plane_embedding p4 (emb_of p4_rot).
  by apply: (plane_checkP (F := [:: [:: (0, 2); (2, 1); (1, 3); (3, 1); (1, 2); (2, 0)]]%N)); vm_compute.
have sp : spanning p4 p4 by apply: span_checkP; vm_compute.
have w1 e : (fun _ => 1 : C) (e : nat * nat) \is Num.real by rewrite real1.
have [A h1 h2] := pf_raw true [::] num pe sp w1 ltac:(discriminate) (isT : (size (edgeset p4) <= 10)%N).
exists A; [exact: h1|rewrite h2; congr Ok].
have sk := tree_skewT C num sp.
rewrite (@pfaffian_expand _ 1 (tree_skew C 4 p4) sk) !big_ord_recl big_ord0 /= !mxE /=.
rewrite !mulr0 !mul0r add0r !addr0 mulr1 expr1 mulN1r; congr (- _).
rewrite (@pfaffian_expand _ 0 _ (@minor2_skew _ 1 _ _ sk)) big_ord_recl big_ord0 /= !mxE /= addr0 mul1r.
by rewrite pfaffian0 mulr1.
Qed.
