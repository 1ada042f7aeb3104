(* MDtype.v -- model of the element types (dtypes) in the in-place sums of rotate_operators and build_op,
   /repo/src/ff/ff_lib.py 299-345 and 758-794.  The accumulator np.zeros_like(alphas[0]) has the type of the first operator, and
   numpy refuses `+=` when the type of the term is of a higher kind (UFuncTypeError, a TypeError).  Kinds: integers, real floats,
   complex floats; booleans, objects and different widths of one kind are not modelled.  Values are exact numbers. *)
Set Warnings "-notation-overridden,-ambiguous-paths".
From mathcomp Require Import all_ssreflect all_algebra.
From Verif Require Import Base ArrC MLib.
Set Implicit Arguments.
Unset Strict Implicit.
Unset Printing Implicit Defensive.
Import Order.Theory GRing.Theory Num.Theory.
Local Open Scope ring_scope.

Inductive dtype := DInt | DFlt | DCpx.
Definition rank (d : dtype) : nat := match d with DInt => 0 | DFlt => 1 | DCpx => 2 end.
(* the type of a product of two arrays (or of an array and a numpy scalar) *)
Definition promote (a b : dtype) : dtype := if (rank a <= rank b)%N then b else a.

Section Dtype.
Variable C : numClosedFieldType.
Local Notation arr := (arr C).

Record tarr := TArr { ty : dtype; data : arr }.

(* b += t; the types are compared before the shapes *)
Definition iadd_t (b t : tarr) : res tarr :=
  if (rank (ty t) <= rank (ty b))%N then let* d := iadd (data b) (data t) in Ok (TArr (ty b) d) else Raise TypeError.

(* ff_lib.py:299-345 _perform_rotation *)
Definition perform_rotation_t (M : tarr) (alphas : seq tarr) : res (seq tarr) :=
  let n := size alphas in
  mapM (fun j =>
    let* a0 := item alphas 0 in
    foldM (fun b i =>
      let* c := idx (data M) j i in
      if `|c| < eps9 C then Ok b else                                            (* 321 *)
      let* al := item alphas i in
      iadd_t b (TArr (promote (ty M) (ty al)) (ascale c (data al))))             (* 324 *)
      (TArr (ty a0) (azeros (nr (data a0)) (nc (data a0)))) (iota 0 n)) (iota 0 n).

(* ff_lib.py:283-296, after the arguments have been put in order; None is the returned integer 0 *)
Definition rotate_operators_t (M : tarr) (alphas : seq tarr) (left : bool) : res (option (seq tarr)) :=
  let n := size alphas in
  let X := data M in
  if (nr X != n) && (nc X != n) && ~~ ((n < nr X)%N && (n < nc X)%N) then Ok None else
  let M' := if left then TArr (ty M) (aadj X) else M in
  let* l := perform_rotation_t M' alphas in Ok (Some l).

(* ff_lib.py:758-794 build_op *)
Definition build_op_t (n : nat) (R : tarr) (alphas : seq tarr) (direct : bool) : res tarr :=
  let* a0 := item alphas 0 in
  foldM (fun acc i =>
    foldM (fun acc j =>
      let* r := idx (data R) i j in
      if `|r| < eps10 C then Ok acc else
      let* ai := item alphas i in
      let* aj := item alphas j in
      let* p := if direct then amul_chk (data ai) (data aj) else amul_chk (aadj (data ai)) (data aj) in
      iadd_t acc (TArr (promote (ty R) (promote (ty ai) (ty aj))) (ascale r p)))   (* 786, 788 *)
      acc (iota 0 (2 * n)))
    (TArr (ty a0) (azeros (nr (data a0)) (nc (data a0)))) (iota 0 (2 * n)).

(* np.kron, sums, differences and products of typed arrays; division by a number turns integers into floats *)
Definition kron_t (a b : tarr) : tarr := TArr (promote (ty a) (ty b)) (akron (data a) (data b)).
Definition add_t (a b : tarr) : tarr := TArr (promote (ty a) (ty b)) (aadd (data a) (data b)).
Definition sub_t (a b : tarr) : tarr := TArr (promote (ty a) (ty b)) (asub (data a) (data b)).
Definition scale_t (d : dtype) (c : C) (a : tarr) : tarr := TArr (promote d (ty a)) (ascale c (data a)).
Definition div_t (a : tarr) (c : C) : tarr := TArr (promote DFlt (ty a)) (ascale c^-1 (data a)).
Definition adj_t (a : tarr) : tarr := TArr (ty a) (aadj (data a)).

(* ff_lib.py:49-54 pauli_matrices: only sigma_y is complex *)
Definition pauli_x_t : tarr := TArr DInt (pauli_x C).
Definition pauli_y_t : tarr := TArr DCpx (pauli_y C).
Definition pauli_z_t : tarr := TArr DInt (pauli_z C).
(* ff_lib.py:190 *)
Definition Sminus_t : tarr := div_t (add_t pauli_x_t (scale_t DCpx 'i pauli_y_t)) 2%:R.
(* ff_lib.py:188-198; np.eye(2) is real *)
Definition jw_site_t (n i : nat) : tarr :=
  foldl (fun acc j => kron_t acc (if (j < i)%N then pauli_z_t else if j == i then Sminus_t else TArr DFlt (aeye 2)))
        (TArr DInt (aeye 1)) (iota 0 n).
(* ff_lib.py:173-219 *)
Definition jordan_wigner_lowering_t (n : nat) : seq tarr := [seq jw_site_t n i | i <- iota 0 n].
Definition jordan_wigner_alphas_t (n : nat) : seq tarr :=
  let lowering := jordan_wigner_lowering_t n in [seq adj_t c | c <- lowering] ++ lowering.
(* ff_lib.py:222-256 *)
Definition jordan_wigner_majoranas_t (n : nat) : seq tarr :=
  let a := jordan_wigner_lowering_t n in
  [seq div_t (add_t (adj_t x) x) (sqrt2 C) | x <- a] ++
  [seq div_t (scale_t DCpx (- 'i) (sub_t x (adj_t x))) (sqrt2 C) | x <- a].
End Dtype.
