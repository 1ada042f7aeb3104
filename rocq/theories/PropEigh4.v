(* PropEigh4.v -- properties C52, C53: concrete cases *)
Set Warnings "-notation-overridden,-ambiguous-paths".
From mathcomp Require Import all_ssreflect all_fingroup all_algebra.
From mathcomp.zify Require Import zify.
From Verif Require Import Base ArrC MCombinatorics MLib JW OpFam FermAlg LibFacts LibFacts2 LibFacts3 PropLib2 PropLib3 Spectral MEigh EighFacts PropEigh1 PropEigh2 PropEigh3.
Set Implicit Arguments.
Unset Strict Implicit.
Unset Printing Implicit Defensive.
Import Order.Theory GRing.Theory Num.Theory.
Local Open Scope ring_scope.

(* ------------------------------ concrete cases ------------------------------ *)
Section Examples.
Variable C : numClosedFieldType.
Variables (ss s0 : arr C -> arr C * arr C) (ev : arr C -> seq C) (as_ : seq C -> seq nat).
Hypothesis ssP : schur_sort_spec ss.
Hypothesis s0P : schur_spec s0.
Hypothesis evP : eigvalsh_spec ev.
Hypothesis asP : argsort_spec as_.

Lemma strad_sq (i j : 'I_(2 * 2)) :
  (strad (1 : C) *m strad 1) i j = if (i == j) && ((i == 1%N :> nat) || (i == 2%N :> nat)) then -1 else 0.
Proof.
rewrite mxE big_ord_recl big_ord_recl big_ord_recl big_ord_recl big_ord0 !mxE -(inj_eq val_inj) /=.
by case: i => -[|[|[|[|//]]]] //= hi; case: j => -[|[|[|[|//]]]] //= hj; rewrite ?(mul0r, mulr0, add0r, addr0, mulN1r, mulrN1, mulr1, opprK).
Qed.
Lemma strad_cube : strad (1 : C) *m strad 1 *m strad 1 = - strad 1.
Proof.
apply/matrixP => i j; rewrite mxE (bigD1 i) //= big1 ?addr0 => [|k nk]; last first.
  by rewrite strad_sq eq_sym (negbTE nk) mul0r.
rewrite strad_sq eqxx /= !mxE.
by case: i => -[|[|[|[|//]]]] //= hi; case: j => -[|[|[|[|//]]]] //= hj; rewrite ?(mul0r, mulr0, mulN1r, oppr0).
Qed.

(* G = [[0,0,0,0],[0,0,-i,0],[0,i,0,0],[0,0,0,0]] *)
Definition exG : 'M[C]_(2 * 2) := - 'i *: strad 1.
Definition exH : 'M[C]_(2 * 2) := adjm (OM C 2) *m exG *m OM C 2.
Lemma exG_cube : exG *m exG *m exG = exG.
Proof.
rewrite /exG -!(scalemxAl, scalemxAr) !scalerA strad_cube scalerN -scaleNr; congr (_ *: _).
by rewrite mulrNN -expr2 sqrCi mulrN1 opprK.
Qed.
Lemma cube_gapped m (M : 'M[C]_m) : M *m M *m M = M -> gapped M.
Proof.
move=> cM x /eigenvalueP[v ev' nv]; have e : v *m (M *m M *m M) = x ^+ 3 *: v.
  by rewrite !mulmxA ev' -!scalemxAl ev' -!scalemxAl ev' !scalerA !exprS expr0 mulr1 mulrA.
have : (x ^+ 3 - x) *: v = 0 by rewrite scalerBl -e cM ev' subrr.
have -> : x ^+ 3 - x = (x ^+ 2 - 1) * x by rewrite mulrBl mul1r -exprSr.
move/eqP; rewrite scaler_eq0 (negbTE nv) orbF mulf_eq0 => /orP[h|/eqP]; last by left.
right; have -> : `|x| = 1.
  by apply/eqP; rewrite -sqrp_eq1 // -normrX; move: h; rewrite subr_eq0 => /eqP ->; rewrite normr1.
by rewrite invf_lt1 ?exprn_gt0 ?ltr0n // exprn_egt1 // ltr1n.
Qed.
Lemma exG_maj : majorana_form exG. Proof. exact: (strad_maj (rpred1 _)). Qed.
Lemma exH_cube : exH *m exH *m exH = exH.
Proof.
rewrite /exH; have u : OM C 2 *m adjm (OM C 2) = 1%:M := Omega_unitary C 2.
have e (A B D E : 'M[C]_(2 * 2)) : A *m B *m OM C 2 *m (adjm (OM C 2) *m D *m E) = A *m (B *m D) *m E.
  by rewrite !mulmxA -[A *m B *m OM C 2 *m _]mulmxA u mulmx1.
by rewrite !e exG_cube.
Qed.

Example C52_example : exists (U : 'M[C]_(2 * 2)) S, eigh_sp ss ev as_ (ofM exH) = Ok (ofM (std_form 2 S), ofM U) /\
  S 0%N ^+ 2 + S 1%N ^+ 2 = 1.
Proof.
have [hH pH _] := GH_ok exG_maj; have n0 : (0 < 2)%N by [].
have [L [U [S [[e uU _ eL rS] dL]]]] := C52_diagonal ssP evP asP n0 hH pH (cube_gapped exH_cube).
have eL' : L = std_form 2 S by apply/matrixP => i j; rewrite dL mxE.
exists U, S; split; first by rewrite -eL'.
have t1 : \tr (L *m L) = \tr (exH *m exH).
  by rewrite eL !mulmxA -[_ *m U *m adjm U]mulmxA uU mulmx1 mxtrace_mulC !mulmxA uU mul1mx.
have t2 : \tr (exH *m exH) = \tr (exG *m exG).
  have u : OM C 2 *m adjm (OM C 2) = 1%:M := Omega_unitary C 2.
  by rewrite /exH !mulmxA -[_ *m OM C 2 *m adjm _]mulmxA u mulmx1 mxtrace_mulC !mulmxA u mul1mx.
have t3 : \tr (exG *m exG) = 1 + 1.
  rewrite /exG -!(scalemxAl, scalemxAr) scalerA mulrNN -expr2 sqrCi scaleN1r linearN /= /mxtrace.
  rewrite !big_ord_recl big_ord0 !strad_sq /=.
  by rewrite !(add0r, addr0) opprD opprK.
have t4 : \tr (L *m L) = (S 0%N ^+ 2 + S 1%N ^+ 2) *+ 2.
  rewrite eL' /mxtrace.
  have d (i : 'I_(2 * 2)) : (std_form 2 S *m std_form 2 S) i i = (std_form 2 S i i) ^+ 2.
    by rewrite mxE (bigD1 i) //= big1 ?addr0 ?expr2 // => k nk; rewrite [std_form _ _ i k]mxE eq_sym (negbTE nk) mul0r.
  rewrite (eq_bigr _ (fun i _ => d i)) !big_ord_recl big_ord0 !mxE !eqxx /= !sqrrN addr0 mulr2n.
  by rewrite -!addrA; congr (_ + (_ + _)).
have h2 : (2%:R : C) != 0 by rewrite pnatr_eq0.
by apply: (mulIf h2); rewrite !mulr_natr -t4 t1 t2 t3 mulr2n.
Qed.

Example C53_example : exists (O : 'M[C]_(2 * 2)) S, eigm_sp ss ev as_ (ofM exG) = Ok (ofM ('i *: Y_form 2 S), ofM O) /\
  O *m O^T = 1%:M.
Proof.
have n0 : (0 < 2)%N by [].
have [O [S [e rO oO _ _]]] := C53_eigm_sp_Y ssP evP asP n0 exG_maj (cube_gapped exG_cube).
by exists O, S.
Qed.
End Examples.
