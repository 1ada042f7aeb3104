(* Expm.v -- contract of scipy.linalg.expm (an external routine) and its consequences *)
Set Warnings "-notation-overridden,-ambiguous-paths".
From mathcomp Require Import all_ssreflect all_algebra.
From mathcomp.zify Require Import zify.
From Verif Require Import Base ArrC MLib JW OpFam.
Set Implicit Arguments.
Unset Strict Implicit.
Unset Printing Implicit Defensive.
Import Order.Theory GRing.Theory Num.Theory.
Local Open Scope ring_scope.

Section Expm.
Variable C : numClosedFieldType.

(* what is assumed of the matrix exponential: E 0 = 1, E (A + B) = E A E B for commuting A, B,
   E commutes with the adjoint and respects intertwiners *)
Record expm_spec (E : forall n, 'M[C]_n -> 'M[C]_n) : Prop := ExpmSpec {
  expm0 : forall n, E n 0 = 1%:M;
  expmD : forall n (A B : 'M[C]_n), A *m B = B *m A -> E n (A + B) = E n A *m E n B;
  expm_adj : forall n (A : 'M[C]_n), E n (adjm A) = adjm (E n A);
  expm_inter : forall m n (A : 'M[C]_m) (B : 'M[C]_n) (X : 'M[C]_(m, n)), A *m X = X *m B -> E m A *m X = X *m E n B }.

(* the array routine computes E *)
Definition computes (f : arr C -> arr C) (E : forall n, 'M[C]_n -> 'M[C]_n) :=
  forall n (A : 'M[C]_n), f (ofM A) = ofM (E n A).

Variable E : forall n, 'M[C]_n -> 'M[C]_n.
Hypothesis HE : expm_spec E.

Lemma expmN n (A : 'M[C]_n) : E (- A) *m E A = 1%:M.
Proof. by rewrite -(expmD HE) ?addNr ?(expm0 HE) // mulmxN mulNmx. Qed.
Lemma expmN' n (A : 'M[C]_n) : E A *m E (- A) = 1%:M.
Proof. by rewrite -(expmD HE) ?addrN ?(expm0 HE) // mulmxN mulNmx. Qed.

Lemma expm_unit n (A : 'M[C]_n) : E A \in unitmx.
Proof. exact: (mulmx1_unit (expmN' A)).1. Qed.

Lemma expm_herm n (A : 'M[C]_n) : hermitian A -> hermitian (E A).
Proof. by move=> h; rewrite /hermitian -(expm_adj HE) h. Qed.

(* exponential of an anti-Hermitian matrix is unitary *)
Lemma expm_anti_unitary n (A : 'M[C]_n) : adjm A = - A -> unitary (E A).
Proof. by move=> h; rewrite /unitary -(expm_adj HE) h expmN'. Qed.

Lemma expm_half n (A : 'M[C]_n) : E A = E (2%:R^-1 *: A) *m E (2%:R^-1 *: A).
Proof.
rewrite -(expmD HE) //; congr E; rewrite -scalerDl.
have h : (2%:R : C) != 0 by rewrite pnatr_eq0.
rewrite (_ : _ + _ = 1) ?scale1r //; by apply: (mulfI h); rewrite mulrDr mulfV // mulr1.
Qed.

Lemma half_real : (2%:R^-1 : C)^* = 2%:R^-1.
Proof. by apply: CrealP; rewrite rpredV realn. Qed.

Lemma expm_gram n (A : 'M[C]_n) : hermitian A ->
  E A = adjm (E (2%:R^-1 *: A)) *m E (2%:R^-1 *: A).
Proof. by move=> h; rewrite -(expm_adj HE) adjmZ h half_real -expm_half. Qed.

Lemma expm_psd n (A : 'M[C]_n) : hermitian A -> psd (E A).
Proof. by move=> h; rewrite expm_gram //; exact: psd_gram. Qed.

Lemma gram_trace n (B : 'M[C]_n) : \tr (adjm B *m B) = \sum_i \sum_j `|B j i| ^+ 2.
Proof.
apply: eq_bigr => i _; rewrite mxE; apply: eq_bigr => j _.
by rewrite !mxE mulrC -normCK.
Qed.

Lemma gram_trace_gt0 n (B : 'M[C]_n) : B != 0 -> 0 < \tr (adjm B *m B).
Proof.
move=> nz; rewrite lt0r gram_trace; apply/andP; split; last first.
  by apply: sumr_ge0 => i _; apply: sumr_ge0 => j _; rewrite exprn_ge0.
apply: contra nz => /eqP h; apply/eqP/matrixP => j i; rewrite mxE.
have h1 := psumr_eq0P _ h; have {h1}/h1 h1 : forall i : 'I_n, true -> 0 <= \sum_j `|B j i| ^+ 2.
  by move=> k _; apply: sumr_ge0 => j' _; rewrite exprn_ge0.
have {h1}h1 := h1 i isT; have h2 := psumr_eq0P _ h1.
have {h2}/h2 h2 : forall j : 'I_n, true -> 0 <= `|B j i| ^+ 2 by move=> k _; rewrite exprn_ge0.
by have /eqP := h2 j isT; rewrite expf_eq0 normr_eq0 /= => /eqP.
Qed.

Lemma expm_trace_gt0 n (A : 'M[C]_n) : (0 < n)%N -> hermitian A -> 0 < \tr (E A).
Proof.
move=> n0 h; rewrite expm_gram //; apply: gram_trace_gt0; apply: contraTneq (expm_unit (2%:R^-1 *: A)) => ->.
by case: n n0 A h => // n _ A h; rewrite unitmxE det0 unitr0.
Qed.

Lemma expm_density n (A : 'M[C]_n) : (0 < n)%N -> hermitian A -> density ((\tr (E A))^-1 *: E A).
Proof.
move=> n0 h; have t0 := expm_trace_gt0 n0 h; split; last by rewrite mxtraceZ mulVf // gt_eqF.
by apply: psdZ (expm_psd h); rewrite invr_ge0 ltW.
Qed.

(* what commutes with A commutes with exp A *)
Lemma expm_comm n (A B : 'M[C]_n) : A *m B = B *m A -> E A *m B = B *m E A.
Proof. exact: (expm_inter HE). Qed.

End Expm.
