(* MCombinatorics.v -- model of /repo/src/ff/ff_combinatorics.py (definitions only).
   Entries are exact elements of a ring / field; inputs are 2-D arrays (np.asarray of nested lists). *)
Set Warnings "-notation-overridden,-ambiguous-paths".
From mathcomp Require Import all_ssreflect all_algebra.
From Verif Require Import Base.
Set Implicit Arguments.
Unset Strict Implicit.
Unset Printing Implicit Defensive.
Import GRing.Theory Num.Theory.
Local Open Scope ring_scope.

(* itertools.permutations(l): all orderings of l, in itertools' order (lexicographic in positions).
   Python standard library, documented behaviour. *)
Fixpoint picks (T : Type) (l : seq T) : seq (T * seq T) :=
  match l with
  | [::] => [::]
  | x :: r => (x, r) :: [seq (p.1, x :: p.2) | p <- picks r]
  end.
Fixpoint perms_rec (T : Type) (k : nat) (l : seq T) : seq (seq T) :=
  match k with
  | 0 => [:: [::]]
  | k'.+1 => flatten [seq [seq p.1 :: q | q <- perms_rec k' p.2] | p <- picks l]
  end.
Definition perms (T : Type) (l : seq T) : seq (seq T) := perms_rec (size l) l.

(* ff_combinatorics.py:27-31, the inversion-counting double loop of sgn *)
Definition inversions (p : seq nat) : nat :=
  foldl (fun inv i =>
    foldl (fun inv j => if (nth 0 p j < nth 0 p i)%N then inv.+1 else inv) inv
          (iota i.+1 (size p - i.+1)))
    0%N (iota 0 (size p)).

(* ff_combinatorics.py:17-33 sgn *)
Definition sgn (p : seq nat) : int := if (inversions p %% 2 == 0)%N then 1 else -1.

Section Ring.
Variable T : comRingType.

(* prod = 1; for (i,j) in l: prod *= A[i, j]      (IndexError when out of range) *)
Definition prod_entries (A : arr T) (l : seq (nat * nat)) : res T :=
  foldM (fun acc e => let* a := idx A e.1 e.2 in Ok (acc * a)) 1 l.

(* ff_combinatorics.py:116-145 pt; n = len(A) is the number of rows *)
Definition pt (A : arr T) : res T :=
  let n := nr A in
  foldM (fun acc p =>
    let* w := prod_entries A [seq (i, nth 0%N p i) | i <- iota 0 n] in Ok (acc + w))
    0 (perms (iota 0 n)).

(* ff_combinatorics.py:148-177 dt *)
Definition dt (A : arr T) : res T :=
  let n := nr A in
  foldM (fun acc p =>
    let* w := prod_entries A [seq (i, nth 0%N p i) | i <- iota 0 n] in
    Ok (acc + (sgn p)%:~R * w))
    0 (perms (iota 0 n)).

End Ring.

Section Fld.
Variable T : fieldType.

(* index pairs (perm[2i], perm[2i+1]) for i in range(n_edges): lines 69-70 and 109-110 *)
Definition match_pairs (p : seq nat) (n_edges : nat) : seq (nat * nat) :=
  [seq (nth 0%N p (2 * i), nth 0%N p (2 * i + 1))%N | i <- iota 0 n_edges].

(* ff_combinatorics.py:36-73 pf *)
Definition pf (A : arr T) : res T :=
  let n_verts := nr A in
  if (n_verts %% 2 != 0)%N then Ok 0 else
  let n_edges := (n_verts %/ 2)%N in
  let* s := foldM (fun acc p =>
      let* w := prod_entries A (match_pairs p n_edges) in
      Ok (acc + (sgn p)%:~R * w))
    0 (perms (iota 0 n_verts)) in
  Ok (s / (2 ^ n_edges * n_edges`!)%N%:R).

(* ff_combinatorics.py:76-113 hf *)
Definition hf (A : arr T) : res T :=
  let n_verts := nr A in
  if (n_verts %% 2 != 0)%N then Ok 0 else
  let n_edges := (n_verts %/ 2)%N in
  let* s := foldM (fun acc p =>
      let* w := prod_entries A (match_pairs p n_edges) in
      Ok (acc + w))
    0 (perms (iota 0 n_verts)) in
  Ok (s / (2 ^ n_edges * n_edges`!)%N%:R).

End Fld.

Section Eig.
Variable C : numClosedFieldType.

(* np.linalg.eigvals(A) of a square array: the roots of the characteristic polynomial, with
   multiplicity, in some order (the order is the one chosen by closed_field_poly_normal). *)
Definition eigvals (n : nat) (A : 'M[C]_n) : seq C := sval (closed_field_poly_normal (char_poly A)).

(* ff_combinatorics.py:180-212 dt_eigen; None for non-square input; the LinAlgError branch (no
   convergence of LAPACK) cannot occur in exact arithmetic and is not modelled. *)
Definition dt_eigen (A : arr C) : option C :=
  if nr A != nc A then None
  else Some (foldl (fun acc l => acc * l) 1 (eigvals (toM (nr A) (nr A) A))).

End Eig.
