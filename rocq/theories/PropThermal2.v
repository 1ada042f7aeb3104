(* PropThermal2.v -- a value of property C70: Fermi-Dirac occupations with the real exponential *)
Set Warnings "-notation-overridden,-ambiguous-paths".
From Coq Require Import Reals Epsilon Classical.
From mathcomp Require Import all_ssreflect all_algebra.
From mathcomp Require Import complex.
From mathcomp.zify Require Import zify.
From Verif Require Import Base ArrC MLib JW OpFam FermAlg LibFacts Spectral RealC Expm Limits RExp NormalCalc RLog PropExpm PropThermal.
Set Implicit Arguments.
Unset Strict Implicit.
Unset Printing Implicit Defensive.
Import Order.Theory GRing.Theory Num.Theory.
Local Open Scope ring_scope.

Lemma cexp_real x : cexp expmR (toC x) = toC (exp x).
Proof.
apply: (@cvg_uniq CR (spsum (toC x))); last exact: spsum_cvg.
exact: ce_cvg.
Qed.

(* real energies e_k: the state of the library has <a_k^+ a_k> = 1 / (1 + exp e_k) *)
Theorem C70_values n (e : nat -> R) : (2 < n)%N -> (forall k, 2%:R * (10%:R ^+ 10)^-1 <= `|e k|) ->
  exists rho : 'M[CR]_(2 ^ n),
  generate_gaussian_state (lift_routine expmR) n (ofM (diag_mx (modes n (fun k => toC (e k) / 2%:R)))) None = Ok (Some (ofM rho)) /\
  forall k, (k < n)%N -> \tr (rho *m adjm (am CR n k) *m am CR n k) = toC ((1 + exp (e k))^-1).
Proof.
move=> n2 he; have re k : toC (e k) \is Num.real by exact: toC_real.
have se k : ~~ (`|toC (e k) / 2%:R| < (10%:R ^+ 10)^-1).
  rewrite -real_leNgt ?normr_real ?rpredV ?rpredX ?realn //.
  rewrite normf_div normr_nat ler_pdivl_mulr ?ltr0n // mulrC.
  have := he k; by rewrite -toC_le -toC_norm rmorphM fmorphV rmorphX /= !toC_nat.
have [rho [e1 _ h]] := C70_occupations expmR_spec (lift_routineE expmR) n2 re se.
exists rho; split=> // k /h ->; by rewrite cexp_real fmorphV rmorphD rmorph1.
Qed.

(* three modes with energies 1, 2 and 3 *)
Example C70_example : exists rho : 'M[CR]_(2 ^ 3),
  generate_gaussian_state (lift_routine expmR) 3 (ofM (diag_mx (modes 3 (fun k => toC k.+1%:R / 2%:R)))) None = Ok (Some (ofM rho)) /\
  forall k, (k < 3)%N -> \tr (rho *m adjm (am CR 3 k) *m am CR 3 k) = toC ((1 + exp k.+1%:R)^-1).
Proof.
apply: C70_values => // k; apply: (@le_trans _ _ 1); last by rewrite normr_nat ler1n.
by rewrite ler_pdivr_mulr ?mul1r -?natrX ?ler_nat ?ltr0n.
Qed.
