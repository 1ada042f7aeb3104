(* MUtilsF.v -- cast_to_density_matrix and cast_to_pdf (/repo/src/ff/ff_utils.py 191-257) with rounded arithmetic.  Products,
   square roots, the sums in the 1-norm and the 2-norm, np.trace and np.linalg.eigvalsh are arguments; the theorems assume error
   bounds for them, so overflow and underflow are excluded.  The comparisons (np.allclose, >= -1e-12) are exact. *)
Set Warnings "-notation-overridden,-ambiguous-paths".
From mathcomp Require Import all_ssreflect all_algebra.
From Verif Require Import Base ArrC MCombinatorics MUtils.
Set Implicit Arguments.
Unset Strict Implicit.
Unset Printing Implicit Defensive.
Import Order.Theory GRing.Theory Num.Theory.
Local Open Scope ring_scope.

Section Float.
Variable C : numClosedFieldType.
Local Notation arr := (arr C).
(* fsq2 v: the sum of the |x|^2, fabs1 v: the sum of the |x|; eig A: the eigenvalues of the Hermitian array A *)
Variables (fmul : C -> C -> C) (fsqrt : C -> C) (fsq2 fabs1 : seq C -> C) (ftr : arr -> C) (eig : arr -> seq C).

(* ff_utils.py 245-257; eigvalsh works on the Hermitian matrix with the lower triangle of rho *)
Definition validate_state_f (rho : arr) : res arr :=
  if nr rho != nc rho then Raise ValueError else                        (* 246-249 *)
  let* _ := assertM (close 1 (ftr rho)) in                              (* 250 *)
  let* _ := assertM (allclose rho (aadj rho)) in                        (* 251 *)
  let* _ := assertM (all (fun x => - psd_tol C <= x) (eig (lower_herm rho))) in   (* 253-255 *)
  Ok rho.                                                               (* 257 *)

(* ff_utils.py 223-243; the product of a column and a row is one rounded product per entry *)
Definition cast_vector_f (v : seq C) : res arr :=
  if close (fsqrt (fsq2 v)) 1 then                                      (* 227-230 *)
    validate_state_f (mk (size v) (size v) (fun i j => fmul (nth 0 v i) (nth 0 v j)^*))   (* 232-233 *)
  else if close (fabs1 v) 1 then validate_state_f (adiag v)             (* 226, 235-237 *)
  else Raise ValueError.                                                (* 239-243 *)

(* ff_utils.py 208-257 *)
Definition cast_to_density_matrix_f (rho : input C) : res arr :=
  match rho with
  | V1 v => cast_vector_f v
  | V2 A => if minn (nr A) (nc A) == 1%N then cast_vector_f (flatten2 A) else validate_state_f A
  end.

(* ff_utils.py 191-205; taking real parts and comparing is exact *)
Definition cast_to_pdf_f (rho : input C) : res (seq C) :=
  let* r := cast_to_density_matrix_f rho in
  let pdf := [seq get r i i | i <- iota 0 (nr r)] in
  if all (fun x => close x ('Re x)) pdf then Ok [seq 'Re x | x <- pdf]
  else Raise ValueError.
End Float.
