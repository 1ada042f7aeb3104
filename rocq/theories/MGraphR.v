(* MGraphR.v -- model of count_perfect_matchings and count_perfect_matchings_planar,
   /repo/src/ff/ff_graph_theory.py 454-500, for real edge weights *)
Set Warnings "-notation-overridden,-ambiguous-paths".
From Coq Require Import Reals.
From mathcomp Require Import all_ssreflect all_algebra.
From mathcomp Require Import complex.
From Verif Require Import Base MCombinatorics RealC MClean MGraph.
Set Implicit Arguments.
Unset Strict Implicit.
Unset Printing Implicit Defensive.
Import Order.Theory GRing.Theory Num.Theory.
Local Open Scope ring_scope.

(* clean on a numerical scalar: strings do not occur *)
Definition clean_num (o : obj) (th : threshold) : res obj := clean (fun _ => None) (fun _ => String.EmptyString) o th.

(* 473-500 count_perfect_matchings_planar.  The product of the eigenvalues of a real matrix is a float or a complex
   number with imaginary part 0, its square root is taken with np.sqrt: a negative float would give nan; both cases
   are represented by mathcomp's sqrtC, which is the non-negative root here (the product is never negative, C15; see MGraphE.v for
   inexact eigenvalues).  np.sqrt(None) raises
   TypeError (dt_eigen returns None for a matrix that is not square, which does not happen). *)
Definition count_perfect_matchings_planar (fuel : nat) (G : graph nat_eqType) (w : dart -> R) (X : nxinfo) : res obj :=
  let* _ := assertM (nx_planar X) in                                     (* 484 *)
  if gnodes G is [::] then Ok (OInt 0) else                              (* 486-487 *)
  let* B := pfo_matrix fuel G (fun e => toC (w e) : CR) X in             (* 490-498 *)
  match dt_eigen B with
  | None => Raise TypeError
  | Some q => let s := sqrtC q in clean_num (OCplx (re s, im s)) (TInt 10)   (* 500 *)
  end.

(* 454-470 count_perfect_matchings; X is what networkx computes for the graph *)
Definition count_perfect_matchings (fuel : nat) (G : graph nat_eqType) (w : dart -> R) (X : nxinfo) : res obj :=
  if nx_planar X then count_perfect_matchings_planar fuel G w X
  else Ok (OInt (Z.of_nat (size (find_perfect_matchings_brute G)))).
