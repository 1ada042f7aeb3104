(* MGraphE.v -- count_perfect_matchings_planar, /repo/src/ff/ff_graph_theory.py 473-500, with a numerical eigenvalue routine *)
Set Warnings "-notation-overridden,-ambiguous-paths".
From Coq Require Import Reals.
From mathcomp Require Import all_ssreflect all_algebra.
From mathcomp Require Import complex.
From Verif Require Import Base MCombinatorics RealC MClean MGraph MGraphR.
Set Implicit Arguments.
Unset Strict Implicit.
Unset Printing Implicit Defensive.
Import Order.Theory GRing.Theory Num.Theory.
Local Open Scope ring_scope.

Section Numeric.
(* what np.linalg.eigvals returns (None: LinAlgError), np.prod on it and np.sqrt; the theorems assume error bounds for them *)
Variables (eig : arr CR -> option (seq CR)) (fprod : seq CR -> CR) (fsqrt : CR -> CR).

(* ff_combinatorics.py:180-212 dt_eigen *)
Definition dt_eigen_e (A : arr CR) : option CR :=
  if nr A != nc A then None else if eig A is Some l then Some (fprod l) else None.

(* ff_graph_theory.py:473-500; the eigenvalues form a complex array (numpy returns a real one if all imaginary parts are 0, whose
   negative product would have the square root nan: not modelled); the rounding inside clean is exact; np.sqrt(None) raises
   TypeError (the exception class of numpy for objects without a method sqrt) *)
Definition count_planar_e (fuel : nat) (G : graph nat_eqType) (w : dart -> R) (X : nxinfo) : res obj :=
  let* _ := assertM (nx_planar X) in
  if gnodes G is [::] then Ok (OInt 0) else
  let* B := pfo_matrix fuel G (fun e => toC (w e) : CR) X in
  match dt_eigen_e B with
  | None => Raise TypeError
  | Some q => let s := fsqrt q in clean_num (OCplx (re s, im s)) (TInt 10)
  end.
End Numeric.
