(* PropFloat6.v -- property C99 in complex128 (53 bits, unbounded exponents) *)
Set Warnings "-notation-overridden,-ambiguous-paths".
From Coq Require Import Reals.
From mathcomp Require Import all_ssreflect all_fingroup all_algebra.
From mathcomp Require Import complex.
From mathcomp.zify Require Import zify.
From Verif Require Import RealC Base ArrC MLib OpFam JW FermAlg PropFloat PropFloat2 MFloat2 PropFloat3 PropFloat4 MFloat3 PropFloat5.
Set Implicit Arguments.
Unset Strict Implicit.
Unset Printing Implicit Defensive.
Import Order.Theory GRing.Theory Num.Theory.
Local Open Scope ring_scope.

Definition csub64 (x y : CR) : CR := cadd64 x (- y).
Lemma csub64_err : rel_err (toC uc64) csub64 (fun x y => x - y).
Proof. by move=> x y; have [_ h] := C97_complex128; exact: (h x (- y)). Qed.

(* C99 in complex128, products and traces by loops: the entries of the covariance and correlation matrices of n sites have the
   errors of 3 2^n + 3, resp. 3 2^n + 2, operations relative to the sum of the moduli of the entries of rho *)
Theorem C99_float64 n (rho : 'M[CR]_(2 ^ n)) : let A := alphaM CR n in let S := \sum_a \sum_b `|rho a b| in
  let mm := mm_loop cmul64 cadd64 in let tr := tr_loop cadd64 in
  (exists2 K : 'M[CR]_(2 * n), compute_cov_matrix_f csub64 mm tr (ofM rho) (Some n) None = Ok (ofM K) &
   forall i j, `|K i j - (\tr (rho *m A i *m A j) - \tr (rho *m A j *m A i))| <=
    ((1 + toC uc64) ^+ (3 * 2 ^ n + 3) - 1) * (2%:R * S)) /\
  (exists2 K : 'M[CR]_(2 * n), correlation_matrix_f mm tr (ofM rho) = Ok (ofM K) &
   forall i j, `|K i j - \tr (rho *m A i *m A j)| <= ((1 + toC uc64) ^+ (3 * 2 ^ n + 2) - 1) * S).
Proof.
move=> A S mm tr; have [hm ha] := C97_complex128; have u0 : 0 <= toC uc64 by rewrite toC_ge0 uc64_ge0.
have := @C99_jordan_wigner CR (toC uc64) csub64 mm tr _ _ n rho u0 csub64_err (C97_loop_product u0 hm ha) (C99_loop_trace u0 ha).
have E1 : (2 * (2 ^ n).+1 + id (2 ^ n)%N + 1 = 3 * 2 ^ n + 3)%N by rewrite /=; move: (2 ^ n)%N => x; lia.
have E2 : (2 * (2 ^ n).+1 + id (2 ^ n)%N = 3 * 2 ^ n + 2)%N by rewrite /=; move: (2 ^ n)%N => x; lia.
by rewrite E1 E2.
Qed.

(* the maximally mixed state of one site: eight operations *)
Example C99_example : exists2 K : 'M[CR]_(2 * 1), correlation_matrix_f (mm_loop cmul64 cadd64) (tr_loop cadd64) (ofM ((2%:R^-1)%:M : 'M[CR]_(2 ^ 1))) = Ok (ofM K) &
  forall i j, `|K i j - 2%:R^-1 * \tr (alphaM CR 1 i *m alphaM CR 1 j)| <= (1 + toC uc64) ^+ 8 - 1.
Proof.
have [_ [K e h]] := @C99_float64 1 (2%:R^-1)%:M; exists K => //.
move=> i j; have := h i j; rewrite mul_scalar_mx -scalemxAl mxtraceZ.
have -> : \sum_(a < 2 ^ 1) \sum_(b < 2 ^ 1) `|((2%:R^-1)%:M : 'M[CR]_(2 ^ 1)) a b| = 1; last by rewrite mulr1.
rewrite !big_ord_recl !big_ord0 !mxE /= !mulr0n !mulr1n normr0 normfV normr_nat !addr0 add0r.
by rewrite -[X in X + X]mul1r -mulrDl -[1 + 1]/(2%:R) mulfV // pnatr_eq0.
Qed.
