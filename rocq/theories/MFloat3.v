(* MFloat3.v -- compute_cov_matrix, compute_2corr_matrix and correlation_matrix (/repo/src/ff/ff_lib.py 797-889) with rounded
   arithmetic.  The difference of two numbers, the product of two matrices and the trace are arguments; the theorems assume error
   bounds for them, so overflow and underflow are excluded. *)
Set Warnings "-notation-overridden,-ambiguous-paths".
From mathcomp Require Import all_ssreflect all_algebra.
From Verif Require Import Base ArrC MLib MFloat2.
Set Implicit Arguments.
Unset Strict Implicit.
Unset Printing Implicit Defensive.
Import Order.Theory GRing.Theory Num.Theory.
Local Open Scope ring_scope.

Section Float.
Variable C : numClosedFieldType.
Local Notation arr := (arr C).
Variables (fsub : C -> C -> C) (fmm : arr -> arr -> arr) (ftr : arr -> C).

(* np.trace(X @ Y @ Z): the products from left to right *)
Definition trace3_f (X Y Z : arr) : res C :=
  let* XY := mm_f fmm X Y in let* XYZ := mm_f fmm XY Z in Ok (ftr XYZ).

(* ff_lib.py:797-825 compute_cov_matrix; the Jordan-Wigner operators are exact (entries 0, 1, -1) *)
Definition compute_cov_matrix_f (rho : arr) (n_sites : option nat) (alphas : option (seq arr)) : res arr :=
  match n_sites with
  | None => Raise TypeError
  | Some n =>
      let alphas := match alphas with Some a => a | None => jordan_wigner_alphas C n end in
      fill (2 * n) (fun i j =>
        let* ai := item alphas i in
        let* aj := item alphas j in
        let* x := trace3_f rho ai aj in
        let* y := trace3_f rho aj ai in
        Ok (fsub x y))
  end.

(* ff_lib.py:850-889 compute_2corr_matrix *)
Definition compute_2corr_matrix_f (rho : arr) (n : nat) (alphas : option (seq arr)) (conjugation : option int) : res arr :=
  let alphas := match alphas with Some a => a | None => jordan_wigner_alphas C n end in
  fill (2 * n) (fun i j =>
    let* ai := item alphas i in
    let* aj := item alphas j in
    match conjugation with
    | None => trace3_f rho ai aj
    | Some c => if c < 0 then trace3_f rho (aadj ai) aj else trace3_f rho ai (aadj aj)
    end).

(* ff_lib.py:828-847 correlation_matrix *)
Definition correlation_matrix_f (rho : arr) : res arr :=
  let n := round_log2 (nr rho) in
  compute_2corr_matrix_f rho n (Some (jordan_wigner_alphas C n)) None.
End Float.

(* one way to compute the trace: the diagonal summed by a loop from 0 (numpy may sum in pairs) *)
Definition tr_loop (C : numClosedFieldType) (fadd : C -> C -> C) (A : arr C) : C :=
  foldl (fun acc k => fadd acc (get A k k)) 0 (iota 0 (nr A)).
