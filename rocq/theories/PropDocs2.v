(* PropDocs2.v -- property C75 with the real exponential: the two-site example of docs/examples.rst *)
Set Warnings "-notation-overridden,-ambiguous-paths".
From Coq Require Import Reals Epsilon Classical.
From mathcomp Require Import all_ssreflect all_algebra.
From mathcomp Require Import complex.
From mathcomp.zify Require Import zify.
From Verif Require Import Base ArrC MLib JW OpFam FermAlg LibFacts Spectral RealC Expm Limits RExp NormalCalc RLog PropExpm PropThermal PropThermal2 PropDocs.
Set Implicit Arguments.
Unset Strict Implicit.
Unset Printing Implicit Defensive.
Import Order.Theory GRing.Theory Num.Theory.
Local Open Scope ring_scope.

(* for every hopping amplitude other than 0 *)
Theorem C75_refuted_two_site_real (t : R) : t != 0 -> exists (H : 'M[CR]_(2 * 2)) (rho : 'M[CR]_(2 ^ 2)),
  [/\ build_H 2 (arr2 0 (- toC t) (- toC t) 0) None = Ok (ofM H), hermitian H,
      generate_gaussian_state (lift_routine expmR) 2 (ofM H) None = Ok (Some (ofM rho)) & parity CR 2 *m rho <> rho *m parity CR 2].
Proof.
move=> t0; apply: (C75_refuted_two_site expmR_spec (lift_routineE expmR)); first exact: toC_real.
rewrite -rmorphN !cexp_real; apply/eqP => /toC_inj /exp_inv.
move/eqP; rewrite -addr_eq0 -mulr2n -mulr_natl mulf_eq0 pnatr_eq0 (negbTE t0) //.
Qed.
