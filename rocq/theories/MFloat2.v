(* MFloat2.v -- rotate_operators and build_op (/repo/src/ff/ff_lib.py 299-345, 758-794) with rounded arithmetic.  The products and
   sums of numbers, the product of two matrices (BLAS) and the test |c| < cutoff are arguments; the theorems assume error bounds
   for them, so overflow and underflow are excluded. *)
Set Warnings "-notation-overridden,-ambiguous-paths".
From mathcomp Require Import all_ssreflect all_algebra.
From Verif Require Import Base ArrC MLib.
Set Implicit Arguments.
Unset Strict Implicit.
Unset Printing Implicit Defensive.
Import Order.Theory GRing.Theory Num.Theory.
Local Open Scope ring_scope.

Section Float.
Variable C : numClosedFieldType.
Local Notation arr := (arr C).
Variables (fmul fadd : C -> C -> C) (fmm : arr -> arr -> arr) (small : C -> bool).

(* c * A and X += Y, entry by entry *)
Definition scale_f (c : C) (A : arr) : arr := mk (nr A) (nc A) (fun i j => fmul c (get A i j)).
Definition iadd_f (X Y : arr) : res arr :=
  if shp Y (nr X) (nc X) then Ok (mk (nr X) (nc X) (fun i j => fadd (get X i j) (get Y i j))) else Raise ValueError.
Definition mm_f (A B : arr) : res arr := if nc A == nr B then Ok (fmm A B) else Raise ValueError.

(* ff_lib.py:299-345 _perform_rotation *)
Definition perform_rotation_f (M : arr) (alphas : seq arr) : res (seq arr) :=
  let n := size alphas in
  mapM (fun j =>
    let* a0 := item alphas 0 in
    foldM (fun b i =>
      let* c := idx M j i in
      if small c then Ok b else
      let* al := item alphas i in iadd_f b (scale_f c al))
      (azeros (nr a0) (nc a0)) (iota 0 n)) (iota 0 n).

(* ff_lib.py:283-296 and 259-296 rotate_operators, in the order of MLib.rotate_operators; the conjugation is exact *)
Definition rotate_core_f (M : arr) (alphas : seq arr) (left : bool) : res (rotres C) :=
  let n := size alphas in
  if (nr M != n) && (nc M != n) && ~~ ((n < nr M)%N && (n < nc M)%N) then Ok (@RotZero C) else
  let M' := if left then aadj M else M in
  let* l := perform_rotation_f M' alphas in Ok (@Rot C l).
Definition rotate_operators_f (x y : pyarg C) (left : bool) : res (rotres C) :=
  match x, y with
  | @PList _ alphas, @PArr _ M => rotate_core_f M alphas left
  | @PArr _ M, @PList _ alphas => rotate_core_f M alphas left
  | _, _ => Raise TypeError
  end.

(* ff_lib.py:758-794 build_op *)
Definition build_op_f (n : nat) (R : arr) (alphas : seq arr) (direct : bool) : res arr :=
  let* a0 := item alphas 0 in
  foldM (fun acc i =>
    foldM (fun acc j =>
      let* r := idx R i j in
      if small r then Ok acc else
      let* ai := item alphas i in
      let* aj := item alphas j in
      let* p := if direct then mm_f ai aj else mm_f (aadj ai) aj in
      iadd_f acc (scale_f r p))
      acc (iota 0 (2 * n)))
    (azeros (nr a0) (nc a0)) (iota 0 (2 * n)).

(* one way to compute a matrix product: each entry by a loop from 0 (BLAS may order the sum differently) *)
Definition mm_loop (A B : arr) : arr :=
  mk (nr A) (nc B) (fun i j => foldl (fun acc k => fadd acc (fmul (get A i k) (get B k j))) 0 (iota 0 (nc A))).
End Float.
