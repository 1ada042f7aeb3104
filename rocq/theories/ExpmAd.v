(* ExpmAd.v -- conjugation by an exponential:  if [X, Y_k] = sum_j M_kj Y_j for all k then
   exp(X) Y_k exp(-X) = sum_j exp(M)_kj Y_j.  Proved from the contract [expm_spec] by stacking the Y_k. *)
Set Warnings "-notation-overridden,-ambiguous-paths".
From mathcomp Require Import all_ssreflect all_algebra.
From mathcomp Require Import mxtens.
From mathcomp.zify Require Import zify.
From Verif Require Import Base ArrC MLib JW OpFam Expm.
Set Implicit Arguments.
Unset Strict Implicit.
Unset Printing Implicit Defensive.
Import Order.Theory GRing.Theory Num.Theory.
Local Open Scope ring_scope.

Section Ad.
Variable C : numClosedFieldType.
Variable E : forall n, 'M[C]_n -> 'M[C]_n.
Hypothesis HE : expm_spec E.
Variables m N : nat.
Implicit Types (Y : 'I_m -> 'M[C]_N) (X : 'M[C]_N) (M : 'M[C]_m).

Definition stack Y : 'M[C]_(m * N, N) := \matrix_(r, c) Y (mxtens_unindex r).1 (mxtens_unindex r).2 c.

Lemma stack_inj Y Y' : stack Y = stack Y' -> forall k, Y k = Y' k.
Proof.
move=> h k; apply/matrixP => a c; move/matrixP: h => /(_ (mxtens_index (k, a)) c).
by rewrite !mxE mxtens_indexK.
Qed.
Lemma stackE Y Y' : (forall k, Y k = Y' k) -> stack Y = stack Y'.
Proof. by move=> h; apply/matrixP => r c; rewrite !mxE h. Qed.
Lemma stack_mulr Y X : stack Y *m X = stack (fun k => Y k *m X).
Proof. by apply/matrixP => r c; rewrite !mxE; apply: eq_bigr => a _; rewrite mxE. Qed.
Lemma stack_add Y Y' : stack Y + stack Y' = stack (fun k => Y k + Y' k).
Proof. by apply/matrixP => r c; rewrite !mxE. Qed.

Lemma sum_tens (F : 'I_(m * N) -> C) : \sum_r F r = \sum_k \sum_a F (mxtens_index (k, a)).
Proof.
rewrite pair_big /= (reindex (@mxtens_index m N)) /=; first by apply: eq_bigr => -[].
by exists (@mxtens_unindex m N) => x _; rewrite ?mxtens_indexK ?mxtens_unindexK.
Qed.

Lemma tensE A (B : 'M[C]_N) r s : (A *t B : 'M[C]_(m * N)) r s =
  A (mxtens_unindex r).1 (mxtens_unindex s).1 * B (mxtens_unindex r).2 (mxtens_unindex s).2.
Proof. by rewrite -{1}(mxtens_unindexK r) -{1}(mxtens_unindexK s) -tensmxE -!surjective_pairing. Qed.

Lemma tens1_stack X Y : ((1%:M : 'M[C]_m) *t X) *m stack Y = stack (fun k => X *m Y k).
Proof.
apply/matrixP => r c; rewrite !mxE sum_tens (bigD1 (mxtens_unindex r).1) //= [X in _ + X]big1 ?addr0.
  by apply: eq_bigr => a _; rewrite tensE mxtens_indexK !mxE mxtens_indexK eqxx mul1r.
by move=> k /negPf nk; apply: big1 => a _; rewrite tensE mxtens_indexK mxE eq_sym nk !mul0r.
Qed.
Lemma tensM_stack M Y : (M *t (1%:M : 'M[C]_N)) *m stack Y = stack (fun k => \sum_j M k j *: Y j).
Proof.
apply/matrixP => r c; rewrite !mxE sum_tens summxE; apply: eq_bigr => k _.
rewrite (bigD1 (mxtens_unindex r).2) //= big1 ?addr0 => [|a /negPf na].
  by rewrite tensE mxtens_indexK !mxE mxtens_indexK eqxx mulr1.
by rewrite tensE mxtens_indexK mxE eq_sym na mulr0 mul0r.
Qed.

Lemma expm_tens1 X Y : E ((1%:M : 'M[C]_m) *t X) *m stack Y = stack (fun k => E X *m Y k).
Proof.
pose d k0 : 'I_m -> 'M[C]_N := fun k => if k == k0 then 1%:M else 0.
have sd (Z : 'I_m -> 'M[C]_N) : stack Z = \sum_k stack (d k) *m Z k.
  apply/matrixP => r c; rewrite summxE !mxE (bigD1 (mxtens_unindex r).1) //= stack_mulr mxE /d eqxx mul1mx.
  by rewrite big1 ?addr0 // => k /negPf nk; rewrite stack_mulr mxE eq_sym nk mul0mx mxE.
have ed k : E ((1%:M : 'M[C]_m) *t X) *m stack (d k) = stack (d k) *m E X.
  apply: (expm_inter HE); rewrite tens1_stack stack_mulr; apply: stackE => j; rewrite /d.
  by case: eqP; rewrite ?mulmx1 ?mul1mx ?mulmx0 ?mul0mx.
by rewrite sd mulmx_sumr sd; apply: eq_bigr => k _; rewrite mulmxA ed -mulmxA.
Qed.

Lemma expm_tensM M Y : E (M *t (1%:M : 'M[C]_N)) *m stack Y = stack (fun k => \sum_j E M k j *: Y j).
Proof.
pose Q (a : 'I_N) : 'M[C]_(m * N, m) := \matrix_(r, j) (((mxtens_unindex r).1 == j) && ((mxtens_unindex r).2 == a))%:R.
have QM a (B : 'M[C]_m) : Q a *m B = \matrix_(r, j) (((mxtens_unindex r).2 == a)%:R * B (mxtens_unindex r).1 j).
  apply/matrixP => r j; rewrite !mxE (bigD1 (mxtens_unindex r).1) //= mxE eqxx /= big1 ?addr0 // => k /negPf nk.
  by rewrite mxE eq_sym nk mul0r.
have sQ (Z : 'I_m -> 'M[C]_N) : stack Z = \sum_a Q a *m (\matrix_(k, c) Z k a c).
  apply/matrixP => r c; rewrite summxE !mxE (bigD1 (mxtens_unindex r).2) //= big1 ?addr0 => [|a /negPf na].
    rewrite mxE (bigD1 (mxtens_unindex r).1) //= !mxE !eqxx mul1r big1 ?addr0 // => k /negPf nk.
    by rewrite !mxE eq_sym nk mul0r.
  by rewrite mxE big1 // => k _; rewrite !mxE [_.2 == _]eq_sym na andbF mul0r.
have eQ a : E (M *t (1%:M : 'M[C]_N)) *m Q a = Q a *m E M.
  apply: (expm_inter HE); rewrite QM; apply/matrixP => r j; rewrite [LHS]mxE [RHS]mxE sum_tens (bigD1 j) // [X in _ + X = _]big1 ?addr0.
    rewrite (bigD1 a) // [Q _ _ _]mxE tensE mxE mxtens_indexK !eqxx big1 ?addr0 => [|b /negPf nb].
      by rewrite mulr1 mulrC [LHS]addr0.
    by rewrite [Q _ _ _]mxE mxtens_indexK nb andbF mulr0.
  by move=> k /negPf nk; apply: big1 => b _; rewrite [Q _ _ _]mxE mxtens_indexK nk mulr0.
rewrite sQ mulmx_sumr sQ; apply: eq_bigr => a _; rewrite mulmxA eQ -mulmxA; congr (_ *m _).
by apply/matrixP => k c; rewrite !mxE summxE; apply: eq_bigr => j _; rewrite !mxE.
Qed.

Theorem expm_ad X Y M : (forall k, X *m Y k - Y k *m X = \sum_j M k j *: Y j) ->
  forall k, E X *m Y k *m E (- X) = \sum_j E M k j *: Y j.
Proof.
move=> h.
pose A := (1%:M : 'M[C]_m) *t X; pose B := M *t (1%:M : 'M[C]_N).
have AB : A *m B = B *m A by rewrite /A /B !tensmx_mul !mul1mx !mulmx1.
have st : (A - B) *m stack Y = stack Y *m X.
  rewrite mulmxBl tens1_stack tensM_stack stack_mulr; apply/eqP; rewrite subr_eq; apply/eqP.
  by rewrite stack_add; apply: stackE => k; rewrite -h addrC subrK.
have := expm_inter HE st; rewrite (expmD HE); last by rewrite mulmxN mulNmx AB.
move=> /(congr1 (mulmx (E B))); have -> : E A *m E (- B) = E (- B) *m E A.
  by rewrite -!(expmD HE) 1?addrC // mulmxN mulNmx AB.
rewrite !mulmxA (expmN' HE) mul1mx /A /B expm_tens1 expm_tensM stack_mulr => /stack_inj h' k.
by rewrite h' -mulmxA (expmN' HE) mulmx1.
Qed.

End Ad.
