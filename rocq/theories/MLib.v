(* MLib.v -- model of /repo/src/ff/ff_lib.py (lines 27-989), definitions only.
   C is the field of complex numbers (any numClosedFieldType).  verbose / print output is not modelled. *)
Set Warnings "-notation-overridden,-ambiguous-paths".
From mathcomp Require Import all_ssreflect all_algebra.
From Verif Require Import Base ArrC.
Set Implicit Arguments.
Unset Strict Implicit.
Unset Printing Implicit Defensive.
Import Order.Theory GRing.Theory Num.Theory.
Local Open Scope ring_scope.

(* l[i] with Python's bounds check (non-negative i) *)
Definition item (T : Type) (l : seq T) (i : nat) : res T :=
  match drop i l with x :: _ => Ok x | [::] => Raise IndexError end.

Section Lib.
Variable C : numClosedFieldType.
Local Notation arr := (arr C).

(* X += Y for arrays of equal shape.  Simplification: numpy would broadcast a Y with a dimension of length 1;
   here every other shape raises ValueError. *)
Definition iadd (X Y : arr) : res arr :=
  if shp Y (nr X) (nc X) then Ok (aadd X Y) else Raise ValueError.

(* ff_lib.py:27-46 permutation_to_matrix; entries are Python ints, None is returned on an out-of-range entry *)
Definition permutation_to_matrix (p : seq int) : option arr :=
  let n := size p in
  foldl (fun acc i =>
    match acc with
    | None => None
    | Some m => let v := nth 0 p i in
        if (0 <= v) && (v < n%:Z) then Some (upd m `|v|%N i 1) else None
    end) (Some (azeros n n)) (iota 0 n).

(* ff_lib.py:49-54 pauli_matrices *)
Definition pauli_x : arr := mk 2 2 (fun i j => if i == j then 0 else 1).
Definition pauli_y : arr := mk 2 2 (fun i j => if i == j then 0 else if (i < j)%N then - 'i else 'i).
Definition pauli_z : arr := mk 2 2 (fun i j => if i == j then (if i == 0%N then 1 else -1) else 0).

(* itertools.product(l, repeat=n): rightmost position varies fastest (Python standard library) *)
Fixpoint product (T : Type) (l : seq T) (n : nat) : seq (seq T) :=
  match n with
  | 0 => [:: [::]]
  | m.+1 => flatten [seq [seq x :: q | q <- product l m] | x <- l]
  end.

(* ff_lib.py:150-154: tensor product of a non-empty tuple of matrices, from the left *)
Definition tensor (l : seq arr) : arr :=
  match l with [::] => aeye 1 | x :: r => foldl (fun acc y => akron acc y) x r end.

(* ff_lib.py:57-170 generate_pauli_group; n is an int (a non-int argument raises TypeError in the code) *)
Definition generate_pauli_group (n : int) : res (seq arr) :=
  if n <= 0 then Raise ValueError else
  let paulis := [:: aeye 2; pauli_x; pauli_y; pauli_z] in
  Ok [seq tensor c | c <- product paulis `|n|%N].

(* ff_lib.py:190 Sminus = (sigma_x + 1j * sigma_y) / 2 *)
Definition Sminus : arr := ascale (2%:R)^-1 (aadd pauli_x (ascale 'i pauli_y)).

(* ff_lib.py:188-198, the operator a_i: np.kron(1, X) is X, so the scalar 1 is the 1x1 identity *)
Definition jw_site (n i : nat) : arr :=
  foldl (fun acc j => akron acc (if (j < i)%N then pauli_z else if j == i then Sminus else aeye 2))
        (aeye 1) (iota 0 n).

(* ff_lib.py:173-202 jordan_wigner_lowering *)
Definition jordan_wigner_lowering (n : nat) : seq arr := [seq jw_site n i | i <- iota 0 n].

(* ff_lib.py:205-219 jordan_wigner_alphas *)
Definition jordan_wigner_alphas (n : nat) : seq arr :=
  let lowering := jordan_wigner_lowering n in
  let raising := [seq aadj c | c <- lowering] in
  raising ++ lowering.

(* np.sqrt(2) *)
Definition sqrt2 : C := sqrtC 2%:R.

(* ff_lib.py:222-256 jordan_wigner_majoranas *)
Definition jordan_wigner_majoranas (n : nat) : seq arr :=
  let a := jordan_wigner_lowering n in
  [seq ascale sqrt2^-1 (aadd (aadj x) x) | x <- a] ++
  [seq ascale sqrt2^-1 (ascale (- 'i) (asub x (aadj x))) | x <- a].

(* ff_lib.py:321, 1e-9 *)
Definition eps9 : C := (10%:R ^+ 9)^-1.
(* ff_lib.py:782, 1e-10 *)
Definition eps10 : C := (10%:R ^+ 10)^-1.

(* ff_lib.py:299-345 _perform_rotation *)
Definition perform_rotation (M : arr) (alphas : seq arr) : res (seq arr) :=
  let n := size alphas in
  mapM (fun j =>
    let* a0 := item alphas 0 in
    foldM (fun b i =>
      let* c := idx M j i in
      if `|c| < eps9 then Ok b else
      let* al := item alphas i in iadd b (ascale c al))
      (azeros (nr a0) (nc a0)) (iota 0 n)) (iota 0 n).

(* a Python argument that is either a numpy array or a list of arrays *)
Inductive pyarg := PArr of arr | PList of seq arr.

(* result of rotate_operators: a list of operators, or the integer 0 *)
Inductive rotres := Rot of seq arr | RotZero.

(* ff_lib.py:283-296, after the arguments have been put in order *)
Definition rotate_core (M : arr) (alphas : seq arr) (left : bool) : res rotres :=
  let n := size alphas in
  if (nr M != n) && (nc M != n) && ~~ ((n < nr M)%N && (n < nc M)%N) then Ok RotZero else
  let M' := if left then aadj M else M in
  let* l := perform_rotation M' alphas in Ok (Rot l).

(* ff_lib.py:259-296 rotate_operators.  Argument pairs other than (array, list) and (list, array) end in an
   attribute error in the code and are modelled as TypeError. *)
Definition rotate_operators (x y : pyarg) (left : bool) : res rotres :=
  match x, y with
  | PList alphas, PArr M => rotate_core M alphas left
  | PArr M, PList alphas => rotate_core M alphas left
  | _, _ => Raise TypeError
  end.

(* ff_lib.py:366-377 / 401-411: the four block assignments; [bcast] models numpy's assignment to a slice *)
Definition blocks4 (n : nat) (a b c d : arr) : res arr :=
  let* a' := bcast a n n in
  let* b' := bcast b n n in
  let* c' := bcast c n n in
  let* d' := bcast d n n in
  Ok (ablock a' b' c' d').

(* ff_lib.py:348-377 build_V *)
Definition build_V (n : nat) (A : arr) (Z : option arr) : res arr :=
  let Z := match Z with Some Z => Z | None => azeros (nr A) (nc A) end in
  blocks4 n (aopp (aconj Z)) A (aopp (aconj A)) Z.

(* ff_lib.py:380-411 build_H *)
Definition build_H (n : nat) (A : arr) (B : option arr) : res arr :=
  let B := match B with Some B => B | None => azeros (nr A) (nc A) end in
  blocks4 n (aopp (aconj A)) B (aopp (aconj B)) A.

(* ff_lib.py:512-538 random_H_generator; the four real Gaussian n x n draws are arguments *)
Definition random_H_generator (n : nat) (fixedN : bool) (a1 a2 z1 z2 : arr) : res arr :=
  let A := aadd a1 (ascale 'i a2) in
  let Z := aadd z1 (ascale 'i z2) in
  let A := aadd A (aadj A) in
  let Z := asub Z (atr Z) in
  let Z := if fixedN then ascale 0 Z else Z in
  build_H n A (Some Z).

(* ff_lib.py:541-557 kitaev_chain.  A = -mu * np.eye(n) (544) is a float array unless mu is complex and
   B = np.zeros((n, n)) (552) is always one; the loops run only for n >= 2, and writing a complex number
   into an entry of a float array (548-549, 554-555) raises TypeError.  A number with zero imaginary
   part is taken to be a real Python number; numpy's complex scalars, for which the assignment only
   warns and drops the imaginary part, are not modelled. *)
Definition kitaev_chain (n : nat) (mu t delta : C) : res arr :=
  if (1 < n)%N && (((t \isn't Num.real) && (mu \is Num.real)) || (delta \isn't Num.real)) then Raise TypeError else
  let A := foldl (fun A i => upd (upd A i i.+1 (- t)) i.+1 i (- t)) (ascale (- mu) (aeye n)) (iota 0 (n - 1)) in
  let B := foldl (fun B i => upd (upd B i i.+1 delta) i.+1 i (- delta)) (azeros n n) (iota 0 (n - 1)) in
  build_H n A (Some B).

(* ff_lib.py:560-582 build_Omega *)
Definition build_Omega (n : nat) : arr :=
  let nu := sqrt2^-1 in
  ablock (ascale nu (aeye n)) (ascale nu (aeye n)) (ascale ('i * nu) (aeye n)) (ascale (- 'i * nu) (aeye n)).

(* ff_lib.py:585-601 build_reordering_xx_to_xp *)
Definition build_reordering (n : nat) : arr :=
  foldl (fun P i => upd (upd P i (2 * i) 1) (i + n) (2 * i + 1) 1)%N (azeros (2 * n) (2 * n)) (iota 0 n).

(* ff_lib.py:611-616, the 2x2 matrix w *)
Definition K_w : arr := ascale sqrt2^-1 (mk 2 2 (fun i j =>
  if i == j then (if i == 0%N then 1 else -1) else if i == 0%N then - 'i else 'i)).

(* ff_lib.py:604-627 build_K *)
Definition build_K (n : nat) : arr :=
  let P := build_reordering n in
  let W := akron (aeye n) K_w in
  let Phases := mk (2 * n) (2 * n) (fun i j => if i == j then (if (i < n)%N then 1 else - 'i) else 0) in
  amul (amul (amul Phases P) W) (build_Omega n).

(* the matrix S of is_symp, lines 659-661 (even dimension 2n) *)
Definition Smat (n : nat) : arr := ablock (azeros n n) (aeye n) (aeye n) (azeros n n).

(* np.allclose(A, B) with numpy broadcasting of dimensions of length 1 (shapes assumed compatible) *)
Definition bget (A : arr) i j := get A (if nr A == 1%N then 0%N else i) (if nc A == 1%N then 0%N else j).
Definition allclose_b (A B : arr) : bool :=
  all (fun i => all (fun j => close (bget A i j) (bget B i j)) (iota 0 (maxn (nc A) (nc B))))
      (iota 0 (maxn (nr A) (nr B))).

(* ff_lib.py:630-673 is_symp.  A non-square U always ends in ValueError (line 664 or 669: S has the shape of U,
   so U @ S does not exist).  The two assignments to S are numpy slice assignments ([bcast]). *)
Definition is_symp (U : arr) : res bool :=
  let n := (nr U %/ 2)%N in
  if nr U != nc U then Raise ValueError else
  let m := (nr U - n)%N in
  let aa := aslice U 0 0 n n in
  let bb := aslice U 0 n n m in
  let cc := aslice U n 0 m n in
  let dd := aslice U n n m m in
  let* top := bcast (aeye n) n m in
  let* bot := bcast (aeye n) m n in
  let S := ablock (azeros n n) top bot (azeros m m) in
  if allclose_b aa (aconj dd) && allclose_b cc (aconj bb) then
    if allclose (amul (amul U S) (atr U)) S then Ok true else Ok false
  else
    if allclose (amul (amul U S) (atr U)) S then Ok true else Ok false.

(* ff_lib.py:676-715 check_canonical_form *)
Definition check_canonical_form (L : arr) : bool :=
  if (nr L %% 2 != 0)%N then false else
  let n := (nr L %/ 2)%N in
  if (nc L != nr L) || ~~ allclose L (aconj L) || ~~ allclose L (aopp (atr L)) then false else
  let M := foldl (fun M j =>
      if (j %% 2 != 0)%N then upd M j (j - 1) (get L j (j - 1)) else upd M j (j + 1) (get L j (j + 1))%N)
    (azeros (nr L) (nc L)) (iota 0 (2 * n)) in
  if ~~ allclose M L then false else true.

(* ff_lib.py:758-794 build_op *)
Definition build_op (n : nat) (R : arr) (alphas : seq arr) (direct : bool) : res arr :=
  let* a0 := item alphas 0 in
  foldM (fun acc i =>
    foldM (fun acc j =>
      let* r := idx R i j in
      if `|r| < eps10 then Ok acc else
      let* ai := item alphas i in
      let* aj := item alphas j in
      let* p := if direct then amul_chk ai aj else amul_chk (aadj ai) aj in
      iadd acc (ascale r p))
      acc (iota 0 (2 * n)))
    (azeros (nr a0) (nc a0)) (iota 0 (2 * n)).

(* np.trace(X @ Y @ Z) *)
Definition trace3 (X Y Z : arr) : res C :=
  let* XY := amul_chk X Y in let* XYZ := amul_chk XY Z in Ok (atrace XYZ).

(* for i in range(m): for j in range(m): G[i, j] = f i j, starting from zeros((m, m)) *)
Definition fill (m : nat) (f : nat -> nat -> res C) : res arr :=
  foldM (fun G i => foldM (fun G j => let* v := f i j in Ok (upd G i j v)) G (iota 0 m))
        (azeros m m) (iota 0 m).

(* ff_lib.py:797-825 compute_cov_matrix.  n_sites=None: np.round(np.log2(N)) is a float, and both
   range(float) (line 816) and np.zeros((2*float, ...)) (line 818) raise TypeError. *)
Definition compute_cov_matrix (rho : arr) (n_sites : option nat) (alphas : option (seq arr)) : res arr :=
  match n_sites with
  | None => Raise TypeError
  | Some n =>
      let alphas := match alphas with Some a => a | None => jordan_wigner_alphas n end in
      fill (2 * n) (fun i j =>
        let* ai := item alphas i in
        let* aj := item alphas j in
        let* x := trace3 rho ai aj in
        let* y := trace3 rho aj ai in
        Ok (x - y))
  end.

(* ff_lib.py:850-889 compute_2corr_matrix; conjugation is None or a number (bools are ints) *)
Definition compute_2corr_matrix (rho : arr) (n : nat) (alphas : option (seq arr)) (conjugation : option int) : res arr :=
  let alphas := match alphas with Some a => a | None => jordan_wigner_alphas n end in
  fill (2 * n) (fun i j =>
    let* ai := item alphas i in
    let* aj := item alphas j in
    match conjugation with
    | None => trace3 rho ai aj
    | Some c => if c < 0 then trace3 rho (aadj ai) aj else trace3 rho ai (aadj aj)
    end).

(* int(np.round(np.log2(N))) for N >= 1 (N = 0 is not modelled): the integer nearest to log2 N (ties are impossible) *)
Definition round_log2 (N : nat) : nat :=
  let t := trunc_log 2 N in if (N ^ 2 < 2 ^ (2 * t + 1))%N then t else t.+1.

(* ff_lib.py:828-847 correlation_matrix *)
Definition correlation_matrix (rho : arr) : res arr :=
  let n := round_log2 (nr rho) in
  compute_2corr_matrix rho n (Some (jordan_wigner_alphas n)) None.

(* ff_lib.py:892-943 compute_algebra_S *)
Definition compute_algebra_S (alphas : seq arr) : res arr :=
  let m := (2 * (size alphas %/ 2))%N in
  let* a0 := item alphas 0 in
  foldM (fun S i => foldM (fun S j =>
      let* ai := item alphas i in
      let* aj := item alphas j in
      let* p := amul_chk ai aj in
      let* q := amul_chk aj ai in
      let* ac := iadd p q in
      if allclose ac (azeros (nr a0) (nc a0)) then Ok S
      else Ok (upd S i j (get ac 0 0))) S (iota 0 m))
    (azeros m m) (iota 0 m).

(* ff_lib.py:946-989 is_matchgate; np.linalg.det of a 2x2 array is the exact determinant *)
Definition is_matchgate (M : arr) : bool :=
  if ~~ shp M 4%N 4%N then false else
  let corner := mk 2 2 (fun i j => get M (3 * i) (3 * j))%N in
  let inner := aslice M 1 1 2 2 in
  close (\det (toM 2 2 inner)) (\det (toM 2 2 corner)).

(* ff_lib.py:718-755 generate_gaussian_state; expm is scipy.linalg.expm (argument), result None is the
   integer 0; a zero trace (nan/inf in numpy) is not modelled, it cannot occur for Hermitian H_op *)
Definition generate_gaussian_state (expm : arr -> arr) (n : nat) (H : arr) (alphas : option (seq arr)) :
    res (option arr) :=
  let alphas := match alphas with Some a => a | None => jordan_wigner_alphas n end in
  let* H_op := (if nr H == (2 * n)%N then let* o := build_op n H alphas false in Ok (Some o) else Ok None) in
  let H_op := if nr H == (2 ^ n)%N then Some H else H_op in
  match H_op with
  | None => Ok None
  | Some op => let rho := expm (aopp op) in Ok (Some (ascale (atrace rho)^-1 rho))
  end.

End Lib.
