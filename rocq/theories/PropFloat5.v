(* PropFloat5.v -- property C99: covariance and correlation matrices in rounded arithmetic *)
Set Warnings "-notation-overridden,-ambiguous-paths".
From mathcomp Require Import all_ssreflect all_fingroup all_algebra.
From mathcomp.zify Require Import zify.
From Verif Require Import Base ArrC MLib OpFam JW FermAlg PropFloat MFloat2 PropFloat3 MFloat3.
Set Implicit Arguments.
Unset Strict Implicit.
Unset Printing Implicit Defensive.
Import Order.Theory GRing.Theory Num.Theory.
Local Open Scope ring_scope.

Section Float.
Variable C : numClosedFieldType.
Local Notation arr := (arr C).
Variable u : C.
Hypothesis u0 : 0 <= u.
Variables (fsub : C -> C -> C) (fmm : arr -> arr -> arr) (ftr : arr -> C) (m t : nat -> nat).
Hypothesis subP : rel_err u fsub (fun x y => x - y).
Hypothesis mmP : mm_err u fmm m.
(* a trace with t N roundings *)
Definition tr_err := forall N (X : 'M[C]_N), approx u (t N) (\sum_i `|X i i|) (ftr (ofM X)) (\tr X).
Hypothesis trP : tr_err.
Local Notation "'nrm' X" := (map_mx Num.norm X) (at level 10, X at level 9).

Lemma errD k l : err u (k + l) = err u k + err u l * (1 + err u k).
Proof.
rewrite /err exprD; move: (_ ^+ k) (_ ^+ l) => x y.
by rewrite [1 + (x - 1)]addrC subrK mulrBl mul1r [RHS]addrC addrA subrK mulrC.
Qed.

(* a perturbed value of an approximation: x' is within l roundings of x, relative to b0 >= |x| summed *)
Lemma approx_chain k l a x s z b : approx u k a x s -> `|z - x| <= err u l * b -> b <= (1 + err u k) * a -> approx u (k + l) a z s.
Proof.
move=> [h1 h2] h3 h4; split=> //.
have -> : z - s = (z - x) + (x - s) by rewrite addrA subrK.
apply: le_trans (ler_norm_add _ _) _; rewrite errD mulrDl addrC; apply: ler_add => //.
by apply: le_trans h3 _; rewrite -mulrA ler_wpmul2l // err_ge0.
Qed.

(* the product with an approximated left factor *)
Lemma mm_approx N k (P X S Y : 'M[C]_N) : mapprox u k P X S ->
  exists2 Z : 'M[C]_N, fmm (ofM X) (ofM Y) = ofM Z & mapprox u (k + m N) (P *m nrm Y) Z (S *m Y).
Proof.
move=> h; have [Z e hZ] := mmP X Y; exists Z => // a b.
apply: (@approx_chain k (m N) _ ((X *m Y) a b) _ _ ((nrm X *m nrm Y) a b)); last 2 first.
- by case: (hZ a b).
- rewrite !mxE mulr_sumr; apply: ler_sum => c _; rewrite !mxE mulrA ler_wpmul2r //; exact: (approx_norm (h a c)).
rewrite !mxE; split.
  rewrite -sumrB mulr_sumr; apply: le_trans (ler_norm_sum _ _ _) _; apply: ler_sum => c _.
  by rewrite -mulrBl normrM mxE mulrA ler_wpmul2r //; case: (h a c).
apply: le_trans (ler_norm_sum _ _ _) _; apply: ler_sum => c _; rewrite normrM mxE ler_wpmul2r //; by case: (h a c).
Qed.

Lemma tr_approx N k (P X S : 'M[C]_N) : mapprox u k P X S -> approx u (k + t N) (\tr P) (ftr (ofM X)) (\tr S).
Proof.
move=> h; apply: (@approx_chain k (t N) _ (\tr X) _ _ (\sum_i `|X i i|)); last 2 first.
- by case: (trP X).
- by rewrite mulr_sumr; apply: ler_sum => i _; exact: (approx_norm (h i i)).
split.
  rewrite -sumrB mulr_sumr; apply: le_trans (ler_norm_sum _ _ _) _; apply: ler_sum => i _; by case: (h i i).
by apply: le_trans (ler_norm_sum _ _ _) _; apply: ler_sum => i _; case: (h i i).
Qed.

Definition tr3 N (X Y Z : 'M[C]_N) : C := ftr (fmm (fmm (ofM X) (ofM Y)) (ofM Z)).
Lemma trace3_approx N (X Y Z : 'M[C]_N) :
  trace3_f fmm ftr (ofM X) (ofM Y) (ofM Z) = Ok (tr3 X Y Z) /\
  approx u (2 * m N + t N) (\tr (nrm X *m nrm Y *m nrm Z)) (tr3 X Y Z) (\tr (X *m Y *m Z)).
Proof.
have [W eW hW] := mm_approx Y (exact_approx u X); have [V eV hV] := mm_approx Z hW.
rewrite /trace3_f /tr3 /mm_f /= eqxx /= eW /= eqxx /= eV; split=> //.
by have := tr_approx hV; rewrite add0n addnn -mul2n.
Qed.

(* the sum of the moduli of all terms of Tr(X Y Z) *)
Definition abs3 N (X Y Z : 'M[C]_N) : C := \sum_a \sum_b \sum_c `|X a b| * `|Y b c| * `|Z c a|.
Lemma abs3E N (X Y Z : 'M[C]_N) : \tr (nrm X *m nrm Y *m nrm Z) = abs3 X Y Z.
Proof.
apply: eq_bigr => a _; rewrite mxE exchange_big /=; apply: eq_bigr => c _; rewrite !mxE mulr_suml.
by apply: eq_bigr => b _; rewrite !mxE.
Qed.

(* C99: compute_cov_matrix in rounded arithmetic: entry (i, j) is off by at most 2 m + t + 1 roundings of the moduli of all terms *)
Theorem C99_cov N n (A : nat -> 'M[C]_N) (rho : 'M[C]_N) :
  exists2 K : 'M[C]_(2 * n), compute_cov_matrix_f fsub fmm ftr (ofM rho) (Some n) (Some (ops A (2 * n))) = Ok (ofM K) &
  forall i j, `|K i j - (\tr (rho *m A i *m A j) - \tr (rho *m A j *m A i))| <=
    ((1 + u) ^+ (2 * m N + t N + 1) - 1) * (abs3 rho (A i) (A j) + abs3 rho (A j) (A i)).
Proof.
exists (\matrix_(i, j) fsub (tr3 rho (A i) (A j)) (tr3 rho (A j) (A i))).
  rewrite /compute_cov_matrix_f (fill_rows (g := fun i j => fsub (tr3 rho (A i) (A j)) (tr3 rho (A j) (A i)))) ?ofM_mk //.
  by move=> i j hi hj; rewrite !item_ops //= !(trace3_approx _ _ _).1.
move=> i j; rewrite mxE.
have [_ [h1 h2]] := trace3_approx rho (A i) (A j); have [_ [h3 h4]] := trace3_approx rho (A j) (A i).
rewrite -!abs3E addn1.
have [] // := @approx_round C u u0 (2 * m N + t N) (\tr (nrm rho *m nrm (A i) *m nrm (A j)) + \tr (nrm rho *m nrm (A j) *m nrm (A i))) _ _
  (\tr (rho *m A i *m A j) - \tr (rho *m A j *m A i)) (subP (tr3 rho (A i) (A j)) (tr3 rho (A j) (A i))).
  have D (x y s r : C) : x - y - (s - r) = (x - s) - (y - r) by rewrite !opprB addrACA [RHS]addrACA [- y - s]addrC.
  by rewrite D mulrDr; apply: le_trans (ler_norm_sub _ _) _; apply: ler_add.
by apply: le_trans (ler_norm_sub _ _) _; apply: ler_add.
Qed.

(* C99: compute_2corr_matrix with its three kinds of conjugation *)
Theorem C99_corr N n (A : nat -> 'M[C]_N) (rho : 'M[C]_N) (conj : option int) :
  let L i := if conj is Some c then if c < 0 then adjm (A i) else A i else A i in
  let R j := if conj is Some c then if c < 0 then A j else adjm (A j) else A j in
  exists2 K : 'M[C]_(2 * n), compute_2corr_matrix_f fmm ftr (ofM rho) n (Some (ops A (2 * n))) conj = Ok (ofM K) &
  forall i j, `|K i j - \tr (rho *m L i *m R j)| <= ((1 + u) ^+ (2 * m N + t N) - 1) * abs3 rho (L i) (R j).
Proof.
move=> L R; exists (\matrix_(i, j) tr3 rho (L i) (R j)).
  rewrite /compute_2corr_matrix_f (fill_rows (g := fun i j => tr3 rho (L i) (R j))) ?ofM_mk //.
  move=> i j hi hj; rewrite !item_ops //= /L /R.
  by case: conj @L @R => [c|] _ _; [case: ifP => _; rewrite ofM_adj|]; rewrite (trace3_approx _ _ _).1.
by move=> i j; rewrite mxE -abs3E; have [_ []] := trace3_approx rho (L i) (R j).
Qed.
End Float.

(* C99: the loop from 0 over the diagonal has at most N roundings, so the assumption on the trace can be met *)
Theorem C99_loop_trace (C : numClosedFieldType) (u : C) (fadd : C -> C -> C) : 0 <= u ->
  rel_err u fadd +%R -> tr_err u (tr_loop fadd) id.
Proof.
move=> u0 addP N X; rewrite /tr_loop /=.
have E (l : seq nat) k p z w : approx u k p z w ->
  approx u (k + size l) (p + \sum_(c <- l) `|get (ofM X) c c|) (foldl (fun acc k => fadd acc (get (ofM X) k k)) z l)
    (w + \sum_(c <- l) get (ofM X) c c).
  elim: l k p z w => [|c l IH] k p z w h /=; first by rewrite !big_nil !addr0 addn0.
  rewrite !big_cons !addrA addnS -addSn; apply: IH; apply: (approx_add u0 addP) => //.
  by apply: (approx_le u0 (leq0n k)); exact: approx_exact.
have := E (iota 0 N) 0%N 0 0 0 (approx0 u 0); rewrite !add0r size_iota add0n !big_iota.
have -> : \sum_(c < N) `|get (ofM X) c c| = \sum_i `|X i i| by apply: eq_bigr => c _; rewrite ofM_get.
by have -> : \sum_(c < N) get (ofM X) c c = \tr X by apply: eq_bigr => c _; rewrite ofM_get.
Qed.

Section Car.
Variable C : numClosedFieldType.

(* rows and columns of operators with the canonical anticommutation relations have norm at most 1 *)
Lemma car_rows N n (A : nat -> 'M[C]_N) i a : car n A -> (i < 2 * n)%N ->
  \sum_c `|A i a c| ^+ 2 + \sum_c `|A i c a| ^+ 2 = 1.
Proof.
move=> [h1 h2] hi; have := h1 i (sw n i) hi (sw_lt hi); rewrite -h2 // eqxx => /(congr1 (fun M : 'M_N => M a a)).
rewrite !mxE eqxx mulr1n => e; rewrite -[RHS]/(true%:R) -e; congr (_ + _); apply: eq_bigr => c _; rewrite !mxE normCK //.
by rewrite mulrC.
Qed.
Lemma car_abs3 N n (A : nat -> 'M[C]_N) (X : 'M[C]_N) i j : car n A -> (i < 2 * n)%N -> (j < 2 * n)%N ->
  abs3 X (A i) (A j) <= \sum_a \sum_b `|X a b|.
Proof.
move=> hA hi hj; apply: ler_sum => a _; apply: ler_sum => b _.
have -> : \sum_c `|X a b| * `|A i b c| * `|A j c a| = `|X a b| * \sum_c `|A i b c| * `|A j c a|.
  by rewrite mulr_sumr; apply: eq_bigr => c _; rewrite mulrA.
rewrite ler_pimulr //.
have r1 : \sum_c `|A i b c| ^+ 2 <= 1 by rewrite -(car_rows b hA hi) ler_addl sumr_ge0 // => c _; exact: exprn_ge0.
have r2 : \sum_c `|A j c a| ^+ 2 <= 1 by rewrite -(car_rows a hA hj) ler_addr sumr_ge0 // => c _; exact: exprn_ge0.
rewrite -(@ler_pmul2l _ 2%:R) ?ltr0n // mulr1 [X in _ <= X](_ : _ = 1 + 1) //.
apply: le_trans (ler_add r1 r2); rewrite -big_split /= mulr_sumr; apply: ler_sum => c _.
rewrite -subr_ge0; have -> : `|A i b c| ^+ 2 + `|A j c a| ^+ 2 - 2%:R * (`|A i b c| * `|A j c a|) = (`|A i b c| - `|A j c a|) ^+ 2.
  by rewrite sqrrB mulr_natl addrAC.
by rewrite -realEsqr rpredB // normr_real.
Qed.
End Car.

(* C99: with the Jordan-Wigner operators (the default, and the ones of correlation_matrix) the error of every entry is bounded by
   the sum of the moduli of the entries of rho *)
Theorem C99_jordan_wigner (C : numClosedFieldType) (u : C) fsub (fmm : arr C -> arr C -> arr C) ftr m t n (rho : 'M[C]_(2 ^ n)) :
  0 <= u -> rel_err u fsub (fun x y => x - y) -> mm_err u fmm m -> tr_err u ftr t ->
  let A := alphaM C n in let S := \sum_a \sum_b `|rho a b| in
  (exists2 K : 'M[C]_(2 * n), compute_cov_matrix_f fsub fmm ftr (ofM rho) (Some n) None = Ok (ofM K) &
   forall i j, `|K i j - (\tr (rho *m A i *m A j) - \tr (rho *m A j *m A i))| <=
    ((1 + u) ^+ (2 * m (2 ^ n)%N + t (2 ^ n)%N + 1) - 1) * (2%:R * S)) /\
  (exists2 K : 'M[C]_(2 * n), correlation_matrix_f fmm ftr (ofM rho) = Ok (ofM K) &
   forall i j, `|K i j - \tr (rho *m A i *m A j)| <= ((1 + u) ^+ (2 * m (2 ^ n)%N + t (2 ^ n)%N) - 1) * S).
Proof.
move=> u0 hs hm ht A S; have cA := alphas_car C n.
split.
  have [K e h] := C99_cov u0 hs hm ht n A rho; exists K.
    by rewrite -e /compute_cov_matrix_f alphas_ops.
  move=> i j; apply: le_trans (h i j) _; rewrite ler_wpmul2l ?(err_ge0 u0) // mulr_natl mulr2n.
  by apply: ler_add; apply: (car_abs3 _ cA).
have [K e h] := C99_corr u0 hm ht n A rho None; exists K.
  rewrite -e /correlation_matrix_f /= (_ : round_log2 _ = n) ?alphas_ops //.
  by rewrite /round_log2 trunc_expnK // -expnM ifT // ltn_exp2l //; lia.
move=> i j; apply: le_trans (h i j) _; rewrite ler_wpmul2l ?(err_ge0 u0) //.
exact: (car_abs3 _ cA).
Qed.
