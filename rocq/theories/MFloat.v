(* MFloat.v -- pf, hf, pt, dt (/repo/src/ff/ff_combinatorics.py 36-177) with rounded arithmetic.  Every `*`, `+` and `/` of the
   loops is an operation on numbers given as an argument (numpy's float64 or complex128 operations); the theorems assume an error
   bound for each operation, so overflow and underflow are excluded.  The divisor 2**k * k! of pf and hf is a Python int: it is
   taken to be exact (true in float64 for k up to 22). *)
Set Warnings "-notation-overridden,-ambiguous-paths".
From mathcomp Require Import all_ssreflect all_algebra.
From Verif Require Import Base MCombinatorics.
Set Implicit Arguments.
Unset Strict Implicit.
Unset Printing Implicit Defensive.
Import Order.Theory GRing.Theory Num.Theory.
Local Open Scope ring_scope.

Section Float.
Variable T : numFieldType.
Variables (fmul fadd fdiv : T -> T -> T).

(* prod = 1; for (i,j) in l: prod *= A[i, j]        lines 68-70, 108-110, 140-142, 172-174 *)
Definition prod_entries_f (A : arr T) (l : seq (nat * nat)) : res T :=
  foldM (fun acc e => let* a := idx A e.1 e.2 in Ok (fmul acc a)) 1 l.

(* ff_combinatorics.py:116-145 pt *)
Definition pt_f (A : arr T) : res T :=
  let n := nr A in
  foldM (fun acc p =>
    let* x := prod_entries_f A [seq (i, nth 0%N p i) | i <- iota 0 n] in Ok (fadd acc x))
    0 (perms (iota 0 n)).

(* ff_combinatorics.py:148-177 dt *)
Definition dt_f (A : arr T) : res T :=
  let n := nr A in
  foldM (fun acc p =>
    let* x := prod_entries_f A [seq (i, nth 0%N p i) | i <- iota 0 n] in
    Ok (fadd acc (fmul (sgn p)%:~R x)))
    0 (perms (iota 0 n)).

(* ff_combinatorics.py:36-73 pf *)
Definition pf_f (A : arr T) : res T :=
  let n_verts := nr A in
  if (n_verts %% 2 != 0)%N then Ok 0 else
  let n_edges := (n_verts %/ 2)%N in
  let* s := foldM (fun acc p =>
      let* x := prod_entries_f A (match_pairs p n_edges) in
      Ok (fadd acc (fmul (sgn p)%:~R x)))
    0 (perms (iota 0 n_verts)) in
  Ok (fdiv s (2 ^ n_edges * n_edges`!)%N%:R).

(* ff_combinatorics.py:76-113 hf *)
Definition hf_f (A : arr T) : res T :=
  let n_verts := nr A in
  if (n_verts %% 2 != 0)%N then Ok 0 else
  let n_edges := (n_verts %/ 2)%N in
  let* s := foldM (fun acc p =>
      let* x := prod_entries_f A (match_pairs p n_edges) in
      Ok (fadd acc x))
    0 (perms (iota 0 n_verts)) in
  Ok (fdiv s (2 ^ n_edges * n_edges`!)%N%:R).
End Float.
