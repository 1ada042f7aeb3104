(* MUtils.v -- model of /repo/src/ff/ff_utils.py (the numerical helpers).
   Numbers are exact elements of a numClosedFieldType; arrays are the `arr` of Base.v.  Dtypes are not modelled.
   clean / print_custom are in MClean.v, analyze_pdf in MPdf.v, formatted_output in MFormat.v. *)
Set Warnings "-notation-overridden,-ambiguous-paths".
From mathcomp Require Import all_ssreflect all_algebra.
From mathcomp.zify Require Import zify.
From Verif Require Import Base ArrC MCombinatorics.
Set Implicit Arguments.
Unset Strict Implicit.
Unset Printing Implicit Defensive.
Import Order.Theory GRing.Theory Num.Theory.
Local Open Scope ring_scope.

Section MUtils.
Variable C : numClosedFieldType.
Local Notation arr := (arr C).

(* np.block([[a, b], [c, d]]): rows are concatenated horizontally (equal heights required), then stacked
   (equal total widths required); otherwise ValueError *)
Definition np_block (a b c d : arr) : res arr :=
  if [&& nr a == nr b, nr c == nr d & nc a + nc b == nc c + nc d]%N then
    Ok (mk (nr a + nr c) (nc a + nc b) (fun i j =>
      if (i < nr a)%N then (if (j < nc a)%N then get a i j else get b i (j - nc a))
      else if (j < nc c)%N then get c (i - nr a) j else get d (i - nr a) (j - nc c)))
  else Raise ValueError.

(* ff_utils.py 177-188: kron_plus(a, b) *)
Definition kron_plus (a b : arr) : res arr :=
  let Z01 := azeros (nr a) (nc b) in          (* 187 *)
  np_block a Z01 (atr Z01) b.                   (* 188 *)

(* AB[i0:i0+m, j0:j0+n] : Python slices are clipped to the array *)
Definition slice_clip (A : arr) i0 j0 m n : arr :=
  aslice A i0 j0 (minn m (nr A - i0)) (minn n (nc A - j0)).

(* int(D / d) == D / d  (ff_utils.py 408, 463): d = 0 raises ZeroDivisionError.
   D, d are taken to be natural numbers small enough for D/d to be exact in binary64 *)
Definition div_check (D d : nat) : res nat :=
  if d == 0%N then Raise ZeroDivisionError
  else let* _ := assertM (d %| D)%N in Ok (D %/ d)%N.

(* ff_utils.py 373-424: partial_trace_diagblocksum(AB, d) *)
Definition partial_trace_diagblocksum (AB : arr) (d : nat) : res arr :=
  let* d2 := div_check (nr AB) d in                                     (* 407-409 *)
  foldM (fun A j =>                                                     (* 413 *)
    let* S := bcast (slice_clip AB (j * d) (j * d) d d) d d in          (* 414-423 : A += AB[i0:i1, j0:j1] *)
    Ok (aadd A S)) (azeros d d) (iota 0 d2).                          (* 411 *)

(* "cast to real if possible", ff_utils.py 484-486: drop the imaginary parts if they are all close to 0 *)
Definition cast_real (B : arr) : arr :=
  if allclose (mk (nr B) (nc B) (fun i j => 'Im (get B i j))) (azeros (nr B) (nc B))
  then mk (nr B) (nc B) (fun i j => 'Re (get B i j)) else B.

(* ff_utils.py 427-488: partial_trace_blockTr(AB, d).  np.trace of a slice sums its min(rows, cols) diagonal
   entries (atrace: entries outside the slice count as 0) *)
Definition partial_trace_blockTr (AB : arr) (d : nat) : res arr :=
  let* d1 := div_check (nr AB) d in                                     (* 461-464 *)
  Ok (cast_real (mk d d (fun i j => atrace (slice_clip AB (i * d1) (j * d1) d1 d1)))).   (* 466-488 *)

(* ff_utils.py 155-174: generate_random_bitstring(n, k).  `draw` is the result of
   np.random.choice(n, size=k, replace=False) (line 172); None is returned for an invalid weight *)
Definition generate_random_bitstring (n k : int) (draw : seq nat) : option (seq nat) :=
  if (k < 0) || (n < k) then None                                       (* 167-168 *)
  else Some (foldl (fun s i => set_nth 0%N s i 1%N) (nseq `|n| 0%N) draw).   (* 170-174 *)

(* np.asarray(rho, dtype=complex) : a 1-D or a 2-D array (other ranks are not modelled) *)
Inductive input := V1 of seq C | V2 of arr.

(* rho.flatten() in C order *)
Definition flatten2 (A : arr) : seq C := [seq get A (k %/ nc A) (k %% nc A) | k <- iota 0 (nr A * nc A)].
Definition col_of (v : seq C) : arr := mk (size v) 1 (fun i _ => nth 0 v i).

Definition l1norm (v : seq C) : C := \sum_(x <- v) `|x|.
Definition l2norm (v : seq C) : C := sqrtC (\sum_(x <- v) `|x| ^+ 2).

(* the Hermitian matrix that np.linalg.eigvalsh(A) (UPLO='L') works on: lower triangle and real diagonal *)
Definition lower_herm (A : arr) : arr :=
  mk (nr A) (nr A) (fun i j => if i == j then 'Re (get A i i) else if (j < i)%N then get A i j else (get A j i)^*).

Definition psd_tol : C := (10%:R ^+ 12)^-1.

(* ff_utils.py 245-257 *)
Definition validate_state (rho : arr) : res arr :=
  if nr rho != nc rho then Raise ValueError else                        (* 246-249 *)
  let* _ := assertM (close 1 (atrace rho)) in                           (* 250 *)
  let* _ := assertM (allclose rho (aadj rho)) in                        (* 251 *)
  let* _ := assertM (all (fun x => - psd_tol <= x)                      (* 253-255 *)
       (eigvals (toM (nr rho) (nr rho) (lower_herm rho)))) in
  Ok rho.                                                               (* 257 *)

(* ff_utils.py 223-243 for a vector with flattened entries v *)
Definition cast_vector (v : seq C) : res arr :=
  if close (l2norm v) 1 then                                            (* 230 *)
    let* rho := amul_chk (col_of v) (aadj (col_of v)) in                (* 232-233 *)
    validate_state rho
  else if close (l1norm v) 1 then validate_state (adiag v)              (* 235-237 *)
  else Raise ValueError.                                                (* 239-243 *)

(* ff_utils.py 208-257: cast_to_density_matrix(rho) *)
Definition cast_to_density_matrix (rho : input) : res arr :=
  match rho with
  | V1 v => cast_vector v
  | V2 A => if minn (nr A) (nc A) == 1%N then cast_vector (flatten2 A) else validate_state A   (* 223 *)
  end.

(* ff_utils.py 191-205: cast_to_pdf(rho) *)
Definition cast_to_pdf (rho : input) : res (seq C) :=
  let* r := cast_to_density_matrix rho in                               (* 194 *)
  let pdf := [seq get r i i | i <- iota 0 (nr r)] in                    (* 195 *)
  if all (fun x => close x ('Re x)) pdf then Ok [seq 'Re x | x <- pdf]  (* 198-199 *)
  else Raise ValueError.                                                (* 200-203 *)

End MUtils.
