(* MPdf.v -- model of analyze_pdf, /repo/src/ff/ff_utils.py 260-370: the data handed to matplotlib.
   Scales, labels, colours and the title are not modelled. *)
Set Warnings "-notation-overridden,-ambiguous-paths".
From Coq Require Import Reals.
From mathcomp Require Import all_ssreflect all_algebra.
From mathcomp Require Import complex.
From Verif Require Import Base ArrC MUtils MClean MGraphR RealC.
Set Implicit Arguments.
Unset Strict Implicit.
Unset Printing Implicit Defensive.
Import Order.Theory GRing.Theory Num.Theory.
Local Open Scope ring_scope.

Local Notation arr := (arr CR).
Local Notation input := (input CR).

(* rho.size *)
Definition in_size (x : input) : nat := match x with V1 v => size v | V2 A => nr A * nc A end.

(* clean(x) with the default threshold 1e-6, on a 1-D complex resp. real array *)
Definition clean_default (o : obj) : res obj := clean_num o (TFlt (p10 (-6))).
Definition carr1 (l : seq CR) : obj := OArr [:: size l] true [seq (re z, im z) | z <- l].
Definition rarr1 (l : seq CR) : obj := OArr [:: size l] false [seq (re z, 0) | z <- l].
(* np.sort of a real 1-D array *)
Definition np_sort (o : obj) : seq R :=
  if o is OArr _ _ l then sort (fun x y : R => x <= y) [seq fst z | z <- l] else [::].

Section Analyze.
(* the eigenvalues returned by np.linalg.eigh *)
Variable eigh_vals : arr -> seq CR.

(* None: not an ndarray or a list.  The result is the argument `stem` and the two plotted series: diag(rho), then the
   eigenvalues *)
Definition analyze_pdf (rho : option input) (stem : bool) : res (bool * obj * seq R) :=
  if rho is Some x then                                                 (* 306-307 *)
    if in_size x == 0%N then Raise ValueError else                      (* 311-312 *)
    let* r := cast_to_density_matrix x in                               (* 314 *)
    let pdf := [seq get r i i | i <- iota 0 (nr r)] in                  (* 317 *)
    let eigenvals := eigh_vals r in                                     (* 318 *)
    let* pdf := clean_default (carr1 pdf) in                            (* 321 *)
    let* eigenvals := clean_default (rarr1 eigenvals) in                (* 322 *)
    Ok (stem, pdf, rev (np_sort eigenvals))                             (* 325-354 *)
  else Raise TypeError.
End Analyze.
