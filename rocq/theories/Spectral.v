(* Spectral.v -- spectral theorem for normal matrices over a numClosedFieldType; eigenvalues (eigvals) of a
   unitarily diagonalised matrix *)
Set Warnings "-notation-overridden,-ambiguous-paths".
From mathcomp Require Import all_ssreflect all_algebra.
From mathcomp.zify Require Import zify.
From Verif Require Import Base ArrC MCombinatorics.
Set Implicit Arguments.
Unset Strict Implicit.
Unset Printing Implicit Defensive.
Import Order.Theory GRing.Theory Num.Theory.
Local Open Scope ring_scope.

Section Spectral.
Variable C : numClosedFieldType.

(* squared norm of a row *)
Definition rn2 n (u : 'rV[C]_n) : C := (u *m adjm u) 0 0.
Lemma rn2E n (u : 'rV[C]_n) : rn2 u = \sum_j `|u 0 j| ^+ 2.
Proof. by rewrite /rn2 mxE; apply: eq_bigr => j _; rewrite !mxE normCK. Qed.
Lemma rn2_ge0 n (u : 'rV[C]_n) : 0 <= rn2 u.
Proof. by rewrite rn2E sumr_ge0 // => j _; rewrite exprn_ge0. Qed.
Lemma rn2_eq0 n (u : 'rV[C]_n) : (rn2 u == 0) = (u == 0).
Proof.
apply/eqP/eqP => [h|->]; last by rewrite /rn2 mul0mx mxE.
apply/matrixP => i j; rewrite ord1 mxE; rewrite rn2E in h.
have /psumr_eq0P := h => /(_ (fun k _ => exprn_ge0 2 (normr_ge0 (u 0 k)))) /(_ j isT) /eqP.
by rewrite expf_eq0 normr_eq0 => /eqP.
Qed.
Lemma rn2Z n c (u : 'rV[C]_n) : rn2 (c *: u) = `|c| ^+ 2 * rn2 u.
Proof. by rewrite /rn2 adjmZ -scalemxAl -scalemxAr scalerA mxE normCK. Qed.

Lemma mul11 (A B : 'M[C]_1) : A *m B = (A 0 0 * B 0 0)%:M.
Proof. by rewrite [A]mx11_scalar [B]mx11_scalar -scalar_mxM !mxE. Qed.

(* Householder: every unit row is the first row of a unitary matrix *)
Lemma unit_completion n (u : 'rV[C]_n.+1) : rn2 u = 1 ->
  exists2 U : 'M[C]_n.+1, unitary U & delta_mx 0 0 *m U = u.
Proof.
move=> hu.
have [w w1 hw] : exists2 w : C, `|w| = 1 & u 0 0 * w^* = `|u 0 0|.
  case: (eqVneq (u 0 0) 0) => [->|nz]; first by exists 1; rewrite ?normr1 // mul0r normr0.
  have n0 : `|u 0 0| != 0 by rewrite normr_eq0.
  exists (u 0 0 / `|u 0 0|); first by rewrite normrM normrV ?unitfE // normr_id mulfV.
  have rl : (`|u 0 0|^-1)^* = `|u 0 0|^-1 by apply/CrealP; rewrite realV normr_real.
  by rewrite rmorphM /= rl mulrA -normCK expr2 mulfK.
pose e : 'rV[C]_n.+1 := w *: delta_mx 0 0; pose r := `|u 0 0|.
have d0 : adjm (delta_mx 0 0 : 'rV[C]_n.+1) = delta_mx 0 0.
  by apply/matrixP => a b; rewrite !mxE conjC_nat andbC.
have ww : w * w^* = 1 by rewrite -normCK w1 expr1n.
have ee : e *m adjm e = 1%:M.
  rewrite /e adjmZ d0 -scalemxAl -scalemxAr scalerA ww scale1r mul_delta_mx.
  by apply/matrixP => a b; rewrite !ord1 !mxE.
have ue : u *m adjm e = r%:M.
  rewrite /e adjmZ d0 -scalemxAr -colE; apply/matrixP => a b; rewrite !ord1 !mxE /= mulrC; exact: hw.
have rr : r^* = r by apply/CrealP; rewrite normr_real.
have eu : e *m adjm u = r%:M by rewrite -[LHS]adjmK adjmM adjmK ue adjm_scalar rr.
have uu : u *m adjm u = 1%:M by rewrite [LHS]mx11_scalar -/(rn2 u) hu.
pose v := u - e.
have vv : v *m adjm v = ((1 - r) *+ 2)%:M.
  rewrite /v adjmB mulmxBl !mulmxBr uu ue eu ee -!raddfB /= opprB addrA; congr (_%:M).
  by rewrite mulr2n addrA.
have ev : e *m adjm v = (r - 1)%:M by rewrite /v adjmB mulmxBr eu ee -raddfB.
case: (eqVneq r 1) => [r1|r1].
  have v0 : v = 0 by apply/eqP; rewrite -rn2_eq0 /rn2 vv r1 subrr mul0rn mxE.
  exists (w%:M); first by rewrite /unitary adjm_scalar -scalar_mxM ww.
  by rewrite mul_mx_scalar -/e; apply/esym/eqP; rewrite -subr_eq0 -/v v0.
have d : (1 - r) *+ 2 != 0 by rewrite -mulr_natl mulf_neq0 ?pnatr_eq0 // subr_eq0 eq_sym.
pose k : C := 2%:R / ((1 - r) *+ 2).
have kr : k^* = k.
  apply/CrealP; rewrite /k rpredM ?realn //; by rewrite realV rpredMn // rpredB ?real1 // normr_real.
pose H : 'M[C]_n.+1 := 1%:M - k *: (adjm v *m v).
have Hh : adjm H = H by rewrite /H adjmB adjm1 adjmZ kr adjmM adjmK.
have HH : H *m H = 1%:M.
  pose P : 'M[C]_n.+1 := adjm v *m v; rewrite /H -/P.
  have PP : P *m P = ((1 - r) *+ 2) *: P by rewrite /P mulmxA -(mulmxA _ v) vv mul_mx_scalar -scalemxAl.
  have kk : k * (k * ((1 - r) *+ 2)) = k + k by rewrite /k divfK // -mulr2n mulr_natr.
  rewrite mulmxBl mul1mx mulmxBr mulmx1 -scalemxAl -scalemxAr PP !scalerA -mulrA kk scalerDl.
  by rewrite opprB addrK subrK.
exists (w *: H).
  by rewrite /unitary adjmZ Hh -scalemxAl -scalemxAr scalerA ww scale1r HH.
rewrite -scalemxAr scalemxAl -/e /H mulmxBr mulmx1 -scalemxAr mulmxA ev mul_scalar_mx scalerA.
have -> : k * (r - 1) = -1.
  rewrite -(opprB 1 r) mulrN /k -[(1 - r) *+ 2]mulr_natl; congr (- _).
  by rewrite invfM mulrA mulfV ?pnatr_eq0 // mul1r mulVf // subr_eq0 eq_sym.
by rewrite scaleN1r opprK /v addrC subrK.
Qed.

Definition normal n (A : 'M[C]_n) := A *m adjm A = adjm A *m A.

Lemma herm_normal n (A : 'M[C]_n) : hermitian A -> normal A.
Proof. by rewrite /hermitian /normal => ->. Qed.

Lemma eigen_row n (A : 'M[C]_n.+1) : exists2 u : 'rV[C]_n.+1, rn2 u = 1 & exists l, u *m A = l *: u.
Proof.
have [l hl] : exists l, root (char_poly A) l.
  by apply/closed_rootP; rewrite size_char_poly.
have /eigenvalueP[u hu nz] : eigenvalue A l by rewrite eigenvalue_root_char.
have p : 0 < rn2 u by rewrite lt0r rn2_eq0 nz rn2_ge0.
exists ((sqrtC (rn2 u))^-1 *: u); last by exists l; rewrite -scalemxAl hu scalerA mulrC -scalerA.
rewrite rn2Z normrV ?unitfE ?sqrtC_eq0 ?gt_eqF // exprVn ger0_norm ?sqrtC_ge0 ?ltW // sqrtCK.
by rewrite mulVf ?gt_eqF.
Qed.

Lemma unitary_block n (U : 'M[C]_n) : unitary U -> unitary (block_mx 1%:M 0 0 U : 'M[C]_(1 + n)).
Proof.
move=> h; rewrite /unitary /adjm map_block_mx tr_block_mx mulmx_block !map_mx0 !trmx0 map_mx1 trmx1.
rewrite !mul0mx !mulmx0 !mulmx1 !addr0 add0r -/(adjm U) h -scalar_mx_block; done.
Qed.

Lemma unitaryM n (U V : 'M[C]_n) : unitary U -> unitary V -> unitary (U *m V).
Proof. by move=> hU hV; rewrite /unitary adjmM mulmxA -(mulmxA U) hV mulmx1. Qed.
Lemma unitary_adj n (U : 'M[C]_n) : unitary U -> unitary (adjm U).
Proof. by move=> h; rewrite /unitary adjmK; exact: unitaryC. Qed.

Theorem spectral n (A : 'M[C]_n) : normal A ->
  exists2 U : 'M[C]_n, unitary U & exists d : 'rV[C]_n, A = adjm U *m diag_mx d *m U.
Proof.
elim: n A => [|n IH] A hA.
  by exists 1%:M; [rewrite /unitary adjm1 mulmx1|exists 0; apply/matrixP => -[]].
have [u hu [l hl]] := eigen_row A.
have [U uU e0U] := unit_completion hu.
have uU' := unitaryC uU.
pose B : 'M[C]_(1 + n) := U *m A *m adjm U.
have nB : normal B.
  rewrite /normal /B !adjmM adjmK !mulmxA -(mulmxA _ (adjm U) U) uU' mulmx1.
  by rewrite -(mulmxA _ (adjm U) U) uU' mulmx1 -(mulmxA U A) hA !mulmxA.
have r0 : delta_mx 0 0 *m B = l *: delta_mx 0 0 :> 'rV[C]_(1 + n).
  by rewrite /B !mulmxA e0U hl -scalemxAl -e0U -mulmxA uU mulmx1.
have eAB : A = adjm U *m B *m U by rewrite /B !mulmxA uU' mul1mx -mulmxA uU' mulmx1.
clearbody B.
have b1 : ulsubmx B = l%:M.
  apply/matrixP => i j; rewrite !ord1 !mxE /= !mulr1n.
  have := congr1 (fun M : 'rV_(1 + n) => M 0 0) r0; rewrite -rowE !mxE /= mulr1 => <-.
  by congr (B _ _); apply: val_inj.
have b2 : ursubmx B = 0.
  apply/matrixP => i j; rewrite !ord1 !mxE.
  have := congr1 (fun M : 'rV_(1 + n) => M 0 (rshift 1 j)) r0; rewrite -rowE !mxE /= mulr0 => <-.
  by congr (B _ _); apply: val_inj.
have b3 : dlsubmx B = 0.
  have z j : B 0 (rshift 1 j) = 0.
    by have := congr1 (fun M : 'M_(1, n) => M 0 j) b2; rewrite !mxE => <-; congr (B _ _); apply: val_inj.
  have := congr1 (fun M : 'M_(1 + n) => M 0 0) nB; rewrite !mxE !big_split_ord /= !big_ord1 !mxE.
  rewrite [X in _ + X = _]big1 => [|j _]; last by rewrite !mxE z mul0r.
  have -> : lshift n (0 : 'I_1) = 0 :> 'I_(1 + n) by apply: val_inj.
  rewrite addr0 mulrC -[LHS]addr0 => /addrI /esym.
  have p (i : 'I_n) : true -> 0 <= adjm B 0 (rshift 1 i) * B (rshift 1 i) 0.
    by move=> _; rewrite !mxE mulrC mul_conjC_ge0.
  move/psumr_eq0P => /(_ p) h; apply/matrixP => i j; rewrite ord1 !mxE.
  have := h i isT; rewrite !mxE mulrC -normCK => /eqP; rewrite expf_eq0 normr_eq0 /= => /eqP <-.
  by congr (B _ _); apply: val_inj.
pose A' := drsubmx B.
have eB : B = block_mx l%:M 0 0 A' by rewrite -[B]submxK b1 b2 b3.
have nA' : normal A'.
  move: nB; rewrite /normal eB /adjm map_block_mx tr_block_mx !mulmx_block !map_mx0 !trmx0.
  by rewrite !mul0mx !mulmx0 !addr0 !add0r => /eq_block_mx[_ _ _].
have [V uV [d hd]] := IH _ nA'.
pose W : 'M[C]_(1 + n) := block_mx 1%:M 0 0 V.
have uW : unitary W by exact: unitary_block.
exists (W *m U); first exact: unitaryM.
exists (row_mx (l%:M : 'rV_1) d).
suff eW : B = adjm W *m diag_mx (row_mx (l%:M : 'rV_1) d) *m W by rewrite eAB adjmM eW !mulmxA.
rewrite diag_mx_row eB /W /adjm map_block_mx tr_block_mx !map_mx0 !trmx0 map_mx1 trmx1 !mulmx_block.
rewrite !mul0mx !mulmx0 !addr0 !add0r !mul1mx !mulmx1 -/(adjm V) -hd; congr block_mx; last by rewrite mul0mx.
by apply/matrixP => i j; rewrite !ord1 !mxE eqxx.
Qed.

Lemma diag_adj n (d : 'rV[C]_n) : adjm (diag_mx d) = diag_mx (map_mx conjC d).
Proof.
apply/matrixP => i j; rewrite !mxE eq_sym; case: eqP => [->|_]; by rewrite ?mulr1n ?mulr0n ?rmorph0.
Qed.

Lemma hermitian_diag n (A U : 'M[C]_n) d : unitary U -> A = adjm U *m diag_mx d *m U ->
  hermitian A -> forall i, d 0 i \is Num.real.
Proof.
move=> uU eA hA i; apply/CrealP.
have e : diag_mx d = U *m A *m adjm U by rewrite eA !mulmxA uU mul1mx -mulmxA uU mulmx1.
have h : adjm (diag_mx d) = diag_mx d by rewrite e !adjmM adjmK hA mulmxA.
by have := congr1 (fun M : 'M_n => M i i) h; rewrite !mxE eqxx mulr1n.
Qed.

Theorem spectral_herm n (A : 'M[C]_n) : hermitian A ->
  exists2 U : 'M[C]_n, unitary U &
  exists2 d : 'rV[C]_n, (forall i, d 0 i \is Num.real) & A = adjm U *m diag_mx d *m U.
Proof.
move=> hA; have [U uU [d hd]] := spectral (herm_normal hA).
by exists U => //; exists d => //; exact: hermitian_diag uU hd hA.
Qed.

(* unique factorisation into linear factors *)
Lemma prod_XsubC_perm (r s : seq C) :
  \prod_(z <- r) ('X - z%:P) = \prod_(z <- s) ('X - z%:P) -> perm_eq r s.
Proof.
elim: r s => [|x r IH] s e.
  case: s e => [//|y s] /(congr1 (fun p : {poly C} => size p)).
  by rewrite big_nil size_poly1 size_prod_XsubC.
have xs : x \in s by rewrite -root_prod_XsubC -e root_prod_XsubC mem_head.
have p := perm_to_rem xs.
rewrite perm_sym (perm_trans p) // perm_cons perm_sym; apply: IH.
move: e; rewrite (perm_big _ p) !big_cons /=; apply: mulfI.
by rewrite polyXsubC_eq0.
Qed.

Lemma char_poly_conj n (A U : 'M[C]_n) (D : 'M[C]_n) : unitary U -> A = adjm U *m D *m U ->
  char_poly A = char_poly D.
Proof.
move=> uU ->; rewrite /char_poly /char_poly_mx.
have e : adjm U *m U = 1%:M by exact: unitaryC.
pose P M : 'M[{poly C}]_n := map_mx polyC M.
have h : P (adjm U) *m P U = 1%:M by rewrite -map_mxM e map_mx1.
have -> : 'X%:M - P (adjm U *m D *m U) = P (adjm U) *m ('X%:M - P D) *m P U.
  rewrite mulmxBr mulmxBl -!map_mxM; congr (_ - _).
  by rewrite mul_mx_scalar -scalemxAl h scalemx1.
rewrite !det_mulmx mulrAC -det_mulmx h det1 mul1r //.
Qed.

Lemma char_poly_diag n (d : 'rV[C]_n) : char_poly (diag_mx d) = \prod_i ('X - (d 0 i)%:P).
Proof.
rewrite /char_poly /char_poly_mx.
have -> : 'X%:M - map_mx polyC (diag_mx d) = diag_mx (\row_i ('X - (d 0 i)%:P)).
  apply/matrixP => i j; rewrite !mxE; case: eqP => [->|_]; by rewrite ?mulr1n // !mulr0n rmorph0 subr0.
by rewrite det_diag; apply: eq_bigr => i _; rewrite mxE.
Qed.

(* the eigenvalues, with multiplicity, of a unitarily diagonalised matrix *)
Theorem eigvals_diag n (A U : 'M[C]_n) d : unitary U -> A = adjm U *m diag_mx d *m U ->
  perm_eq (eigvals A) [seq d 0 i | i <- enum 'I_n].
Proof.
move=> uU eA; apply: prod_XsubC_perm; rewrite /eigvals.
case: closed_field_poly_normal => r /= h.
have -> : \prod_(z <- r) ('X - z%:P) = char_poly A.
  by rewrite [RHS]h (monicP (char_poly_monic A)) scale1r.
by rewrite (char_poly_conj uU eA) char_poly_diag big_map enumT.
Qed.

Lemma psd_diag n (A U : 'M[C]_n) d : unitary U -> A = adjm U *m diag_mx d *m U ->
  (psd A <-> forall i, 0 <= d 0 i).
Proof.
move=> uU eA; split=> [[hA q] i|h].
  have := q (adjm U *m delta_mx i 0); rewrite -quad_congr adjmK eA !mulmxA uU mul1mx -mulmxA uU mulmx1.
  rewrite /quad.
  have -> : adjm (delta_mx i 0 : 'cV[C]_n) = delta_mx 0 i.
    by apply/matrixP => a b; rewrite !mxE conjC_nat andbC.
  by rewrite -rowE -colE !mxE eqxx mulr1n.
have pd : psd (diag_mx d).
  split.
    rewrite /hermitian diag_adj; congr diag_mx; apply/matrixP => a b; rewrite ord1 mxE.
    by apply/CrealP; exact: ger0_real.
  move=> v; rewrite /quad -mulmxA mul_diag_mx mxE sumr_ge0 // => k _.
  by rewrite !mxE mulrCA mulr_ge0 // mulrC mul_conjC_ge0.
by rewrite eA; exact: psd_congr.
Qed.

(* a Hermitian matrix is positive semidefinite iff its eigenvalues are >= 0 *)
Theorem psd_eigvals n (A : 'M[C]_n) : hermitian A ->
  (psd A <-> forall x, x \in eigvals A -> 0 <= x).
Proof.
move=> hA; have [U uU [d _ eA]] := spectral_herm hA.
have p := eigvals_diag uU eA; rewrite (psd_diag uU eA); split=> [h x|h i].
  by rewrite (perm_mem p) => /mapP[i _ ->].
by apply: h; rewrite (perm_mem p); apply/mapP; exists i; rewrite ?mem_enum.
Qed.

Lemma eigvals_real n (A : 'M[C]_n) : hermitian A -> forall x, x \in eigvals A -> x \is Num.real.
Proof.
move=> hA; have [U uU [d rd eA]] := spectral_herm hA => x.
by rewrite (perm_mem (eigvals_diag uU eA)) => /mapP[i _ ->].
Qed.

Lemma trace_eigvals n (A : 'M[C]_n) : normal A -> \tr A = \sum_(x <- eigvals A) x.
Proof.
move=> hA; have [U uU [d eA]] := spectral hA.
rewrite (perm_big _ (eigvals_diag uU eA)) big_map big_enum /= {1}eA mxtrace_mulC mulmxA uU mul1mx.
by rewrite mxtrace_diag.
Qed.

End Spectral.
