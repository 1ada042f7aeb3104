(* MDistG.v -- trace_distance (/repo/src/ff/ff_distance_measures.py 538-574) with rounded arithmetic.  castd is
   cast_to_density_matrix, exact (MUtils.v) or rounded (MUtilsF.v); differences, absolute values, np.sum, the product with 0.5 and
   np.linalg.eigvals are arguments; the theorems assume error bounds for them (no overflow or underflow). *)
Set Warnings "-notation-overridden,-ambiguous-paths".
From Coq Require Import Reals.
From mathcomp Require Import all_ssreflect all_algebra.
From mathcomp Require Import complex.
From Verif Require Import Base ArrC MUtils RealC.
Set Implicit Arguments.
Unset Strict Implicit.
Unset Printing Implicit Defensive.
Import Order.Theory GRing.Theory Num.Theory.
Local Open Scope ring_scope.

Section Float.
Local Notation arr := (arr CR).
Variables (castd : input CR -> res arr) (fsub : CR -> CR -> CR) (eigv : arr -> seq CR) (fabs : CR -> R) (fsum : seq R -> R)
  (fmul : R -> R -> R).

(* A - B with numpy broadcasting of square arrays *)
Definition sub_bcast_f (A B : arr) : res arr :=
  if (nr A == nr B) && (nc A == nc B) then Ok (mk (nr A) (nc A) (fun i j => fsub (get A i j) (get B i j)))
  else if (nr A == 1%N) && (nc A == 1%N) then Ok (mk (nr B) (nc B) (fun i j => fsub (get A 0 0) (get B i j)))
  else if (nr B == 1%N) && (nc B == 1%N) then Ok (mk (nr A) (nc A) (fun i j => fsub (get A i j) (get B 0 0)))
  else Raise ValueError.

(* ff_distance_measures.py:538-574 *)
Definition trace_distance_f (x y : input CR) : res R :=
  let* A := castd x in                                                   (* 567 *)
  let* B := castd y in                                                   (* 568 *)
  let* diff := sub_bcast_f A B in                                        (* 570 *)
  let evals := eigv diff in                                              (* 572 *)
  Ok (fmul 2%:R^-1 (fsum [seq fabs z | z <- evals])).                    (* 574 *)
End Float.
