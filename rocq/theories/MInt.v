(* MInt.v -- model of pf, hf, pt, dt of /repo/src/ff/ff_combinatorics.py on arrays of fixed-width signed integers (numpy's
   int64, which np.array gives to nested lists of Python ints, int32, ...).  The entries read from such an array are numpy
   scalars, and products and sums of them are reduced to the width (with a RuntimeWarning, not modelled).  Python ints
   (the initial values 0 and 1, the result of sgn) take the type of the scalar they meet. *)
Set Warnings "-notation-overridden,-ambiguous-paths".
From mathcomp Require Import all_ssreflect all_algebra.
From Verif Require Import Base MCombinatorics.
Set Implicit Arguments.
Unset Strict Implicit.
Unset Printing Implicit Defensive.
Import GRing.Theory Num.Theory.
Local Open Scope ring_scope.

(* two's complement: the number in [-2^(w-1), 2^(w-1)) with the same last w bits *)
Definition wrap (w : nat) (z : int) : int := ((z + 2 ^+ w.-1) %% 2 ^+ w)%Z - 2 ^+ w.-1.

Section Word.
Variable w : nat.

(* prod = 1; for (i,j) in l: prod *= A[i, j]        lines 68-70, 108-110, 140-142, 172-174 *)
Definition prod_entries_w (A : arr int_Ring) (l : seq (nat * nat)) : res int :=
  foldM (fun acc e => let* a := idx A e.1 e.2 in Ok (wrap w (acc * a))) 1 l.

(* ff_combinatorics.py:116-145 pt *)
Definition pt_w (A : arr int_Ring) : res int :=
  let n := nr A in
  foldM (fun acc p =>
    let* x := prod_entries_w A [seq (i, nth 0%N p i) | i <- iota 0 n] in Ok (wrap w (acc + x)))
    0 (perms (iota 0 n)).

(* ff_combinatorics.py:148-177 dt *)
Definition dt_w (A : arr int_Ring) : res int :=
  let n := nr A in
  foldM (fun acc p =>
    let* x := prod_entries_w A [seq (i, nth 0%N p i) | i <- iota 0 n] in
    Ok (wrap w (acc + wrap w (sgn p * x))))
    0 (perms (iota 0 n)).

(* ff_combinatorics.py:36-73 pf; the quotient of line 73 is a float: its rounding is not modelled *)
Definition pf_w (A : arr int_Ring) : res rat :=
  let n_verts := nr A in
  if (n_verts %% 2 != 0)%N then Ok 0 else
  let n_edges := (n_verts %/ 2)%N in
  let* s := foldM (fun acc p =>
      let* x := prod_entries_w A (match_pairs p n_edges) in
      Ok (wrap w (acc + wrap w (sgn p * x))))
    0 (perms (iota 0 n_verts)) in
  Ok (s%:~R / (2 ^ n_edges * n_edges`!)%N%:R).

(* ff_combinatorics.py:76-113 hf *)
Definition hf_w (A : arr int_Ring) : res rat :=
  let n_verts := nr A in
  if (n_verts %% 2 != 0)%N then Ok 0 else
  let n_edges := (n_verts %/ 2)%N in
  let* s := foldM (fun acc p =>
      let* x := prod_entries_w A (match_pairs p n_edges) in
      Ok (wrap w (acc + x)))
    0 (perms (iota 0 n_verts)) in
  Ok (s%:~R / (2 ^ n_edges * n_edges`!)%N%:R).
End Word.
