(* NormalCalc.v -- functions of normal matrices, through unitary diagonalisations *)
Set Warnings "-notation-overridden,-ambiguous-paths".
From mathcomp Require Import all_ssreflect all_algebra.
From mathcomp.zify Require Import zify.
From Verif Require Import Base ArrC MLib JW OpFam Expm Spectral.
Set Implicit Arguments.
Unset Strict Implicit.
Unset Printing Implicit Defensive.
Import Order.Theory GRing.Theory Num.Theory.
Local Open Scope ring_scope.

Section Calc.
Variable C : numClosedFieldType.
Variable f : C -> C.

(* A = U^+ diag(d) U with U unitary *)
Definition diagonalised n (A U : 'M[C]_n) (d : 'rV[C]_n) := unitary U /\ A = adjm U *m diag_mx d *m U.
(* U^+ diag(f d) U *)
Definition fcalc n (U : 'M[C]_n) (d : 'rV[C]_n) : 'M[C]_n := adjm U *m diag_mx (map_mx f d) *m U.

Lemma unitary_left n (U : 'M[C]_n) : unitary U -> adjm U *m U = 1%:M.
Proof. exact: mulmx1C. Qed.

Lemma diag_inter m n (d : 'rV[C]_m) (e : 'rV[C]_n) (Y : 'M[C]_(m, n)) : diag_mx d *m Y = Y *m diag_mx e ->
  diag_mx (map_mx f d) *m Y = Y *m diag_mx (map_mx f e).
Proof.
rewrite !mul_diag_mx !mul_mx_diag => h; apply/matrixP => i j; rewrite !mxE.
have := congr1 (fun M : 'M_(m, n) => M i j) h; rewrite !mxE mulrC => /eqP.
rewrite -subr_eq0 -mulrBr mulf_eq0 subr_eq0 => /orP[/eqP->|/eqP->]; first by rewrite mulr0 mul0r.
by rewrite mulrC.
Qed.

Lemma fcalc_inter m n (A P : 'M[C]_m) d (B Q : 'M[C]_n) e (X : 'M[C]_(m, n)) :
  diagonalised A P d -> diagonalised B Q e -> A *m X = X *m B -> fcalc P d *m X = X *m fcalc Q e.
Proof.
move=> [uP ->] [uQ ->] h; have vP := unitary_left uP; have vQ := unitary_left uQ.
have hY : diag_mx d *m (P *m X *m adjm Q) = P *m X *m adjm Q *m diag_mx e.
  have := congr1 (fun M => P *m M *m adjm Q) h; rewrite !mulmxA uP mul1mx => ->.
  by rewrite -!mulmxA uQ mulmx1.
have := congr1 (fun M => adjm P *m M *m Q) (diag_inter hY); rewrite /fcalc !mulmxA vP mul1mx => <-.
by rewrite -!mulmxA vQ mulmx1.
Qed.

Lemma fcalc_uniq n (A P Q : 'M[C]_n) d e : diagonalised A P d -> diagonalised A Q e -> fcalc P d = fcalc Q e.
Proof. by move=> h1 h2; have := @fcalc_inter _ _ _ _ _ _ _ _ 1%:M h1 h2; rewrite !mulmx1 !mul1mx; apply. Qed.

Lemma conjK m n (M : 'M[C]_(m, n)) : map_mx conjC (map_mx conjC M) = M.
Proof. by apply/matrixP => i j; rewrite !mxE conjCK. Qed.
Lemma adj_conj m n (M : 'M[C]_(m, n)) : adjm (map_mx conjC M) = M^T.
Proof. by rewrite /adjm conjK. Qed.
Lemma adj_tr m n (M : 'M[C]_(m, n)) : (adjm M)^T = map_mx conjC M.
Proof. by rewrite /adjm trmxK. Qed.

Lemma diagonalised_tr n (A P : 'M[C]_n) d : diagonalised A P d -> diagonalised A^T (map_mx conjC P) d.
Proof.
move=> [u ->]; split; last by rewrite adj_conj !trmx_mul adj_tr tr_diag_mx mulmxA.
rewrite /unitary adj_conj -[P^T]conjK -map_trmx -map_mxM map_trmx.
by have := congr1 (fun M => map_mx conjC M) u; rewrite /adjm map_trmx => ->; rewrite map_mx1.
Qed.
Lemma fcalc_tr n (P : 'M[C]_n) d : fcalc (map_mx conjC P) d = (fcalc P d)^T.
Proof. by rewrite /fcalc adj_conj !trmx_mul adj_tr tr_diag_mx mulmxA. Qed.

Lemma diagonalised_adj n (A P : 'M[C]_n) d : diagonalised A P d -> diagonalised (adjm A) P (map_mx conjC d).
Proof. by move=> [u ->]; split=> //; rewrite !adjmM adjmK diag_adj mulmxA. Qed.
Lemma fcalc_adj n (P : 'M[C]_n) d : adjm (fcalc P d) = adjm P *m diag_mx (map_mx (conjC \o f) d) *m P.
Proof. by rewrite /fcalc !adjmM adjmK diag_adj mulmxA map_mx_comp. Qed.

(* diagonal entries of a unitary matrix have modulus 1 *)
Lemma unitary_diag n (A P : 'M[C]_n) d : diagonalised A P d -> unitary A -> forall i, `|d 0 i| = 1.
Proof.
move=> [u eA] uA i; have e : diag_mx d = P *m A *m adjm P by rewrite eA !mulmxA u mul1mx -mulmxA u mulmx1.
have : diag_mx d *m adjm (diag_mx d) = 1%:M.
  by rewrite e !adjmM adjmK !mulmxA -(mulmxA _ (adjm P)) (unitary_left u) mulmx1 -(mulmxA P) uA mulmx1 u.
rewrite diag_adj mulmx_diag => /(congr1 (fun M : 'M_n => M i i)); rewrite !mxE eqxx mulr1n -normCK => /eqP.
by rewrite sqrp_eq1 // => /eqP.
Qed.

Lemma diag_det1 n (A P : 'M[C]_n) d : diagonalised A P d -> \det (A + 1%:M) = \prod_i (d 0 i + 1).
Proof.
move=> [u ->]; have -> : adjm P *m diag_mx d *m P + 1%:M = adjm P *m diag_mx (d + const_mx 1) *m P.
  by rewrite raddfD /= mulmxDr mulmxDl diag_const_mx mulmx1 (unitary_left u).
rewrite !det_mulmx mulrAC -det_mulmx (unitary_left u) det1 mul1r det_diag.
by apply: eq_bigr => i _; rewrite !mxE.
Qed.

Lemma unitary_normal n (A : 'M[C]_n) : unitary A -> normal A.
Proof. by move=> u; rewrite /normal u (unitary_left u). Qed.

Lemma diagonalised_ex n (A : 'M[C]_n) : normal A -> exists U d, diagonalised A U d.
Proof. by case/spectral=> U u [d e]; exists U, d. Qed.
End Calc.

(* an exponential that meets the contract acts entrywise on diagonal matrices *)
Section ExpDiag.
Variable C : numClosedFieldType.
Variable E : forall n, 'M[C]_n -> 'M[C]_n.
Hypothesis HE : expm_spec E.
Definition cexp (z : C) : C := (E (z%:M : 'M[C]_1)) 0 0.

Lemma expm_diag n (d : 'rV[C]_n) : E (diag_mx d) = diag_mx (map_mx cexp d).
Proof.
apply/matrixP => i j; pose X : 'M[C]_(n, 1) := delta_mx j 0.
have h : diag_mx d *m X = X *m ((d 0 j)%:M : 'M[C]_1).
  apply/matrixP => k l; rewrite mul_diag_mx mul_mx_scalar !mxE; case: (altP (k =P j)) => [->|]; last by rewrite !mulr0.
  by [].
have := congr1 (fun M : 'M_(n, 1) => M i 0) (expm_inter HE h); rewrite !mxE.
rewrite (bigD1 j) //= big1 => [|k kj]; last by rewrite mxE (negbTE kj) mulr0.
rewrite mxE !eqxx mulr1 addr0 => ->; rewrite big_ord1 mxE eqxx andbT -/(cexp _).
by case: eqP => [->|_]; rewrite ?mul1r ?mulr1n // mul0r mulr0n.
Qed.

Lemma expm_conj n (P : 'M[C]_n) (d : 'rV[C]_n) : unitary P ->
  E (adjm P *m diag_mx d *m P) = adjm P *m diag_mx (map_mx cexp d) *m P.
Proof.
move=> u; have h : (adjm P *m diag_mx d *m P) *m adjm P = adjm P *m diag_mx d by rewrite -mulmxA u mulmx1.
have := expm_inter HE h; rewrite expm_diag => <-.
by rewrite -[in RHS](mulmxA (E _)) (unitary_left u) mulmx1.
Qed.
End ExpDiag.
