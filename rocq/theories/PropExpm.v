(* PropExpm.v -- the contracts of expm and logm are met: there is a matrix exponential and a logarithm of the unitary
   matrices over R[i] with the required properties *)
Set Warnings "-notation-overridden,-ambiguous-paths".
From Coq Require Import Reals.
From mathcomp Require Import all_ssreflect all_algebra.
From mathcomp Require Import complex.
From mathcomp.zify Require Import zify.
From Verif Require Import Base ArrC MLib JW OpFam Expm MRandom RndFacts RealC Limits RExp RLog PropRandom1.
Set Implicit Arguments.
Unset Strict Implicit.
Unset Printing Implicit Defensive.
Import Order.Theory GRing.Theory Num.Theory.
Local Open Scope ring_scope.

Local Notation C := CR.

(* the routine on square arrays given by a map on square matrices *)
Definition lift_routine (E : forall n, 'M[C]_n -> 'M[C]_n) (A : arr C) : arr C := ofM (E (nr A) (toM (nr A) (nr A) A)).

Lemma lift_routineE E n (A : 'M[C]_n) : lift_routine E (ofM A) = ofM (E n A).
Proof. by rewrite /lift_routine /= toM_ofM. Qed.

(* the entries of the exponential are the limits of those of the partial sums of the series sum_k A^k / k! *)
Theorem C46_expm_exists : exists (E : forall n, 'M[C]_n -> 'M[C]_n) (expm : arr C -> arr C),
  [/\ expm_spec E, computes expm E &
   forall n (A : 'M[C]_n.+1) i j eps, 0 < eps -> exists N, forall M, (N <= M)%N ->
     `|(\sum_(k < M) (k`!%:R)^-1 *: A ^+ k) i j - E n.+1 A i j| < eps].
Proof.
exists expmR, (lift_routine expmR); split=> [|n A|n A i j]; first exact: expmR_spec.
  exact: lift_routineE.
exact: (expS_cvg A i j).
Qed.

(* a logarithm for that exponential, on the unitary matrices; on the unit circle it is the principal one *)
Theorem C54_logm_exists : exists (E Lg : forall n, 'M[C]_n -> 'M[C]_n) (expm logm : arr C -> arr C),
  [/\ expm_spec E, computes expm E, logm_spec E Lg & computes_u logm Lg].
Proof.
exists expmR, logmR, (lift_routine expmR), (lift_routine logmR); split.
- exact: expmR_spec.
- by move=> n A; exact: lift_routineE.
- exact: logmR_spec.
by move=> n U _; exact: lift_routineE.
Qed.

(* all the contracts used by the random samplers hold together: the draws of the theorems on random_FF_rotation exist *)
Theorem C54_contracts : exists (G : gen C) (E Lg : forall n, 'M[C]_n -> 'M[C]_n) (expm logm : arr C -> arr C),
  [/\ gen_ok G, expm_spec E, computes expm E, logm_spec E Lg & computes_u logm Lg].
Proof.
by have [E [Lg [expm [logm [h1 h2 h3 h4]]]]] := C54_logm_exists; exists (const_gen C), E, Lg, expm, logm; split=> //;
  exact: gen_ok_satisfiable.
Qed.

(* a non-trivial value: exp(i t) = cos t + i sin t *)
Example C46_expm_value t : lift_routine expmR (ofM (('i * toC t)%:M : 'M[C]_1)) =
  ofM ((toC (cos t) + 'i * toC (sin t))%:M : 'M[C]_1).
Proof.
rewrite lift_routineE; congr ofM; apply/matrixP => i j; rewrite !ord1 [RHS]mxE mulr1n; exact: ce_i.
Qed.
