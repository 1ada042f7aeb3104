(* MDistF.v -- total_variation_distance and linear_entropy (/repo/src/ff/ff_distance_measures.py 320-395, 490-535) with rounded
   arithmetic.  cast_to_pdf is the argument castp: exact (pdf of MDist.v) or rounded (cast_to_pdf_f of MUtilsF.v).  Differences, products, square roots, np.sum and the dot product inside np.linalg.norm
   are arguments; the theorems assume error bounds for them (no overflow or underflow).  The comparisons of np.allclose are exact. *)
Set Warnings "-notation-overridden,-ambiguous-paths".
From Coq Require Import Reals.
From mathcomp Require Import all_ssreflect all_algebra.
From mathcomp Require Import complex.
From Verif Require Import Base ArrC MUtils RealC MDist.
Set Implicit Arguments.
Unset Strict Implicit.
Unset Printing Implicit Defensive.
Import Order.Theory GRing.Theory Num.Theory.
Local Open Scope ring_scope.

Section Float.
Variable castp : input CR -> res (seq R).
Variables (fmul fsub : R -> R -> R) (fsqrt : R -> R) (fsum fdot : seq R -> R).

(* ff_distance_measures.py:490-535; 0.5 * np.sum(np.abs(p - q)) *)
Definition total_variation_distance_f (x y : input CR) : res R :=
  let* p := castp x in
  let* q := castp y in
  let* pq := broadcast p q in
  Ok (fmul 2%:R^-1 (fsum [seq `|fsub z.1 z.2| | z <- pq])).

(* ff_distance_measures.py:377-395; np.linalg.norm(p, ord=2) is the square root of the dot product of p with itself; int() of a
   non-negative float is its integer part *)
Definition linear_entropy_f (x : input CR) : res R :=
  let* p := castp x in
  let d := size p in
  let sqrt_d := fsqrt d%:R in
  let* _ := assertM (rclose (fsub sqrt_d (IZR (Int_part sqrt_d))) 0) in     (* 382-384 *)
  let l2 := fsqrt (fdot p) in
  let l2_squared := fmul l2 l2 in                                          (* 387 *)
  let sL := fsub 1 l2_squared in
  let sL_alt := fsub 1 (fsum [seq fmul x x | x <- p]) in
  let* _ := assertM (rclose sL sL_alt) in                                  (* 393 *)
  Ok sL.
End Float.

(* loops from 0: one way to compute sums and dot products (numpy and BLAS may sum in another order) *)
Definition sum_loop (fadd : R -> R -> R) (l : seq R) : R := foldl fadd 0 l.
Definition dot_loop (fmul fadd : R -> R -> R) (l : seq R) : R := foldl (fun acc x => fadd acc (fmul x x)) 0 l.
