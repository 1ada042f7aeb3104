(* LibFacts.v -- facts about the block matrices and operator lists of ff_lib *)
Set Warnings "-notation-overridden,-ambiguous-paths".
From mathcomp Require Import all_ssreflect all_algebra.
From mathcomp.zify Require Import zify.
From Verif Require Import Base ArrC MLib JW OpFam FermAlg.
Set Implicit Arguments.
Unset Strict Implicit.
Unset Printing Implicit Defensive.
Import Order.Theory GRing.Theory Num.Theory.
Local Open Scope ring_scope.

Section Facts.
Variable C : numClosedFieldType.
Local Notation arr := (arr C).
Add Ring cring : (ring_of C).

Lemma sqrt2_neq0 : sqrt2 C != 0.
Proof. by rewrite sqrtC_eq0 pnatr_eq0. Qed.
Lemma sqrt2_sqr : sqrt2 C * sqrt2 C = 2%:R.
Proof. by rewrite -expr2 sqrtCK. Qed.
Lemma nu2 : (sqrt2 C)^-1 * (sqrt2 C)^-1 = 2%:R^-1.
Proof. by rewrite -invfM sqrt2_sqr. Qed.
Lemma sqrt2_gt0 : 0 < sqrt2 C.
Proof. by rewrite sqrtC_gt0 ltr0n. Qed.
Lemma nu_real : ((sqrt2 C)^-1)^* = (sqrt2 C)^-1.
Proof. by apply: CrealP; rewrite ger0_real // invr_ge0 ltW // sqrt2_gt0. Qed.
Lemma half2 : 2%:R^-1 + 2%:R^-1 = 1 :> C.
Proof.
have h : (2%:R : C) != 0 by rewrite pnatr_eq0.
by apply: (mulfI h); rewrite mulrDr mulfV // mulr1.
Qed.
Lemma nu2D : (sqrt2 C)^-1 * (sqrt2 C)^-1 + (sqrt2 C)^-1 * (sqrt2 C)^-1 = 1.
Proof. by rewrite nu2 half2. Qed.

(* entries of a 2x2 block matrix with square blocks *)
Lemma get_block n (a b c d : arr) i j : nr a = n -> nc a = n -> nr c = n -> nc b = n ->
  (i < 2 * n)%N -> (j < 2 * n)%N ->
  get (ablock a b c d) i j =
    if (i < n)%N then if (j < n)%N then get a i j else get b i (j - n)
    else if (j < n)%N then get c (i - n) j else get d (i - n) (j - n).
Proof. by move=> e1 e2 e3 e4 hi hj; rewrite getE ?e1 ?e2 ?e3 ?e4 //; lia. Qed.

(* sums over range(2n) split in two halves *)
Lemma sum_2n (V : zmodType) n (F : nat -> V) : \sum_(i < 2 * n) F i = \sum_(i < n) (F i + F (i + n)%N).
Proof.
have -> : \sum_(i < 2 * n) F i = \sum_(i < n + n) F i by rewrite mul2n -addnn.
by rewrite big_split_ord big_split /=; congr (_ + _); apply: eq_bigr => i _; rewrite addnC.
Qed.

Lemma sum_pick (n : nat) (F : nat -> C) k : (k < n)%N -> (forall i, (i < n)%N -> i != k -> F i = 0) ->
  \sum_(i < n) F i = F k.
Proof.
move=> hk H; rewrite (bigD1 (Ordinal hk)) //= big1 ?addr0 // => i ni; apply: H => //.
Qed.

(* ------------------------------- Omega ------------------------------- *)
(* spec: (1/sqrt 2) [[1, 1], [i, -i]] *)
Definition om n i j : C :=
  (sqrt2 C)^-1 * ((i %% n == j %% n)%N%:R * (if (i < n)%N then 1 else if (j < n)%N then 'i else - 'i)).

Lemma modn_half n i : (i < 2 * n)%N -> (i %% n)%N = if (i < n)%N then i else (i - n)%N.
Proof.
move=> h; case: ltnP => h'; first exact: modn_small.
by rewrite -{1}(subnK h') modnDr modn_small //; lia.
Qed.

Lemma get_Omega n i j : (i < 2 * n)%N -> (j < 2 * n)%N -> get (build_Omega C n) i j = om n i j.
Proof.
move=> hi hj; rewrite (@get_block n) // /om !modn_half //.
case: (ltnP i n) => h1; case: (ltnP j n) => h2; rewrite !getE //=; try lia; rewrite ?getE //; try lia;
 rewrite ?mulr1 //.
  by xring C.
by xring C.
Qed.

Lemma conj_om n i j : (i < 2 * n)%N -> (j < 2 * n)%N -> (om n i j)^* = om n i (sw n j).
Proof.
move=> hi hj; rewrite /om !rmorphM /= nu_real conjC_nat; congr (_ * (_ * _)).
  by rewrite /sw; case: ltnP => h; rewrite ?modnDr // -{1}(subnK h) modnDr.
case: ifP => _; first by rewrite rmorph1.
rewrite /sw; case: (ltnP j n) => h; first by rewrite ifN ?conjCi // -leqNgt leq_addl.
by rewrite rmorphN conjCi opprK ifT //; lia.
Qed.

Lemma om_orth n i j : (i < 2 * n)%N -> (j < 2 * n)%N ->
  \sum_(a < 2 * n) om n i a * om n j (sw n a) = (i == j)%:R.
Proof.
move=> hi hj; have n0 : (0 < n)%N by lia.
rewrite (sum_2n n (fun a => om n i a * om n j (sw n a))) (sum_pick (k := (i %% n)%N) (F := fun a => om n i a * om n j (sw n a) + om n i (a + n) * om n j (sw n (a + n)))) ?ltn_mod //; last first.
  move=> a ha ne; rewrite /om !modnDr (modn_small ha) eq_sym (negbTE ne).
  by rewrite !mul0r mulr0 !mul0r addr0.
set a := (i %% n)%N; have ha : (a < n)%N by rewrite ltn_mod.
have e1 : sw n a = (a + n)%N by rewrite /sw ha.
have e2 : sw n (a + n) = a by rewrite /sw ltnNge leq_addl /= addnK.
rewrite e1 e2 /om !modnDr !(modn_small ha) ha [(a + n < n)%N]ltnNge leq_addl /= -/a eqxx mul1r.
case: (altP (i =P j)) => [<-|ne].
  rewrite -/a eqxx /=; case: ifP => _; first by transitivity ((sqrt2 C)^-1 * (sqrt2 C)^-1 + (sqrt2 C)^-1 * (sqrt2 C)^-1); [xring C|exact: nu2D].
  transitivity (- ('i * 'i) * ((sqrt2 C)^-1 * (sqrt2 C)^-1 + (sqrt2 C)^-1 * (sqrt2 C)^-1)); first by xring C.
  by rewrite nu2D -expr2 sqrCi opprK mulr1.
case: eqP => [e|_]; last by rewrite !mul0r mulr0 !mulr0 addr0.
rewrite mul1r; move: e; rewrite /a !modn_half //.
case: (ltnP i n) => h1; case: (ltnP j n) => h2 e; try (case/eqP: ne; lia).
  by rewrite /=; xring C.
by rewrite /=; xring C.
Qed.

Lemma Omega_unitary n : unitary (toM (2 * n) (2 * n) (build_Omega C n)).
Proof.
apply/matrixP => i j; rewrite !mxE -(om_orth (ltn_ord i) (ltn_ord j)); apply: eq_bigr => a _.
by rewrite !mxE !get_Omega // conj_om.
Qed.

(* S = [[0, 1], [1, 0]] *)
Lemma get_S n i j : (i < 2 * n)%N -> (j < 2 * n)%N -> get (Smat C n) i j = (j == sw n i)%:R.
Proof.
move=> hi hj; rewrite (@get_block n) // /sw.
case: (ltnP i n) => h1; case: (ltnP j n) => h2; rewrite getE //; try lia.
- by rewrite (_ : (j == _) = false) //; apply/eqP; lia.
- by congr ((nat_of_bool _)%:R); apply/eqP/eqP; lia.
- by congr ((nat_of_bool _)%:R); apply/eqP/eqP; lia.
by rewrite (_ : (j == _) = false) //; apply/eqP; lia.
Qed.

Definition SM n : 'M[C]_(2 * n) := toM _ _ (Smat C n).

Lemma SME n (i j : 'I_(2 * n)) : SM n i j = (j == sw n i :> nat)%:R.
Proof. by rewrite mxE get_S. Qed.

(* (U S V^T)_ij = sum_a U_ia V_j,sw(a) *)
Lemma mulS n (U V : 'M[C]_(2 * n)) i j (f : nat -> C) (g : nat -> C) :
  (forall a : 'I_(2 * n), U i a = f a) -> (forall a : 'I_(2 * n), V j a = g a) ->
  (U *m SM n *m V^T) i j = \sum_(a < 2 * n) f a * g (sw n a).
Proof.
move=> Hf Hg; rewrite mxE (eq_bigr (fun b : 'I_(2 * n) => f (sw n b) * g b)); last first.
  move=> b _; rewrite mxE (bigD1 (Ordinal (sw_lt (ltn_ord b)))) //= big1 ?addr0; last first.
    move=> a ne; rewrite SME (_ : (b == _ :> nat) = false) ?mulr0 //; apply/eqP => e.
    by case/eqP: ne; apply: val_inj; rewrite /= e swK.
  by rewrite SME /= swK // eqxx mulr1 Hf mxE Hg.
by rewrite (sum_sw n (fun b => f (sw n b) * g b)); apply: eq_bigr => a _; rewrite swK.
Qed.

Lemma S_sqr n : SM n *m SM n = 1%:M.
Proof.
apply/matrixP => i j; rewrite -[SM n in X in _ *m X]trmxK !mxE.
rewrite (bigD1 (Ordinal (sw_lt (ltn_ord i)))) //= big1 ?addr0; last first.
  move=> a ne; rewrite SME (negbTE (_ : a != sw n i :> nat)) ?mul0r //.
rewrite SME eqxx mul1r !mxE get_S ?sw_lt // swK //; congr ((nat_of_bool _)%:R).
by apply/eqP/eqP => [e|->] //; apply: val_inj.
Qed.

Lemma S_tr n : (SM n)^T = SM n.
Proof. by apply/matrixP => i j; rewrite mxE !SME sw_eq // eq_sym sw_eq // eq_sym. Qed.

Lemma S_adj n : adjm (SM n) = SM n.
Proof.
by rewrite -[RHS]S_tr; apply/matrixP => i j; rewrite !mxE get_S // conjC_nat.
Qed.

Lemma Omega_S n : toM (2 * n) (2 * n) (build_Omega C n) *m SM n *m (toM (2 * n) (2 * n) (build_Omega C n))^T = 1%:M.
Proof.
apply/matrixP => i j.
rewrite (@mulS _ _ _ _ _ (om n i) (om n j)) => [|a|a]; try by rewrite mxE get_Omega.
by rewrite om_orth // mxE.
Qed.

(* ------------------------------ rotated families ------------------------------ *)
Definition rot N (A : nat -> 'M[C]_N) m (M : nat -> nat -> C) (j : nat) : 'M[C]_N := \sum_(i < m) M j i *: A i.

Lemma rot_anti N n (A : nat -> 'M[C]_N) M j k : car n A -> 
  rot A (2 * n) M j *m rot A (2 * n) M k + rot A (2 * n) M k *m rot A (2 * n) M j
  = (\sum_(a < 2 * n) M j a * M k (sw n a))%:M.
Proof.
move=> H; rewrite /rot !mulmx_suml.
under eq_bigr do rewrite mulmx_sumr.
under [X in _ + X]eq_bigr do rewrite mulmx_sumr.
rewrite [X in _ + X]exchange_big /= -big_split /=.
rewrite (eq_bigr (fun a : 'I_(2 * n) => (M j a * M k (sw n a))%:M)); last first.
  move=> a _; rewrite -big_split /=.
  rewrite (eq_bigr (fun b : 'I_(2 * n) => ((b == sw n a :> nat)%:R : C) *: (M j a * M k b)%:M)).
    by rewrite (sum_delta (fun b => (M j a * M k b)%:M)) // sw_lt.
  move=> b _; rewrite -!scalemxAl -!scalemxAr !scalerA [M k b * _]mulrC -scalerDr H.1 //.
  by rewrite !scale_scalar_mx mulrC.
by rewrite -raddf_sum.
Qed.

Lemma rot_adj N n (A : nat -> 'M[C]_N) M j : car n A ->
  adjm (rot A (2 * n) M j) = \sum_(i < 2 * n) (M j (sw n i))^* *: A i.
Proof.
move=> H; rewrite /rot adjm_sum (sum_sw n (fun i => (M j (sw n i))^* *: A i)); apply: eq_bigr => i _.
by rewrite adjmZ H.2 // swK.
Qed.

(* ------------------------------ Majoranas ------------------------------ *)
Definition gam n := rot (alphaM C n) (2 * n) (om n).

Lemma gamE n j : (j < 2 * n)%N -> gam n j = if (j < n)%N then (sqrt2 C)^-1 *: (adjm (am C n j) + am C n j)
   else (sqrt2 C)^-1 *: (- 'i *: (am C n (j - n) - adjm (am C n (j - n)))).
Proof.
move=> hj; rewrite /gam /rot (sum_2n n (fun i => om n j i *: alphaM C n i)).
have n0 : (0 < n)%N by lia.
have hm : (j %% n < n)%N by rewrite ltn_mod.
rewrite (bigD1 (Ordinal hm)) //= big1 ?addr0; last first.
  move=> i ne; rewrite /om modnDr (modn_small (ltn_ord i)) eq_sym (negbTE (_ : i != (j %% n)%N :> nat)) //.
  by rewrite !mul0r mulr0 !scale0r addr0.
rewrite /om /alphaM modnDr !(modn_small hm) eqxx hm [(_ + n < n)%N]ltnNge leq_addl /= addnK modn_half //.
case: (ltnP j n) => h; first by rewrite !mul1r mulr1 -scalerDr.
rewrite !mul1r -!scalerA -scalerDr; congr (_ *: _); by rewrite scalerBr !scaleNr opprK addrC.
Qed.

Lemma majoranas_ops n : jordan_wigner_majoranas C n = ops (gam n) (2 * n).
Proof.
have sz : size (jordan_wigner_majoranas C n) = (2 * n)%N.
  by rewrite size_cat !size_map size_iota addnn -mul2n.
apply: (@eq_from_nth _ (azeros 0 0)); first by rewrite size_ops.
move=> i; rewrite sz => hi; rewrite nth_ops // gamE //.
rewrite nth_cat !size_map size_iota; case: ltnP => h.
  rewrite -map_comp (nth_map 0%N) ?size_iota // nth_iota // add0n /=.
  rewrite -(ofM_toM (nr_jw C n i) (nc_jw C n i)).
  by rewrite ofM_adj ofM_add ofM_scale.
have h' : (i - n < n)%N by lia.
rewrite -map_comp (nth_map 0%N) ?size_iota // nth_iota // add0n /=.
rewrite -(ofM_toM (nr_jw C n (i - n)) (nc_jw C n (i - n))).
by rewrite ofM_adj ofM_sub !ofM_scale.
Qed.

Lemma gam_anti n i j : (i < 2 * n)%N -> (j < 2 * n)%N -> gam n i *m gam n j + gam n j *m gam n i = ((i == j)%:R)%:M.
Proof. by move=> hi hj; rewrite (rot_anti _ _ _ (alphas_car C n)) om_orth. Qed.

Lemma gam_herm n i : (i < 2 * n)%N -> adjm (gam n i) = gam n i.
Proof.
move=> hi; rewrite (rot_adj _ _ (alphas_car C n)); apply: eq_bigr => a _.
by rewrite -conj_om // conjCK.
Qed.

Lemma thr_big (eps x : C) : ~~ (`|x| < eps) -> thr eps x = x.
Proof. by rewrite /thr => /negbTE ->. Qed.
Lemma thr0 (eps : C) : thr eps 0 = 0.
Proof. by rewrite /thr; case: ifP. Qed.

Lemma norm_nu : `|(sqrt2 C)^-1| = (sqrt2 C)^-1.
Proof. by rewrite ger0_norm // invr_ge0 ltW // sqrt2_gt0. Qed.

Lemma nu_gt_half : 2%:R^-1 <= (sqrt2 C)^-1.
Proof.
rewrite lef_pinv ?posrE ?sqrt2_gt0 ?ltr0n // -(@ler_pexpn2r _ 2) ?nnegrE ?ler0n //.
  by rewrite sqrtCK -natrX ler_nat.
by rewrite ltW // sqrt2_gt0.
Qed.

Lemma eps9_small : eps9 C <= 2%:R^-1.
Proof. by rewrite lef_pinv ?posrE ?exprn_gt0 ?ltr0n // -natrX ler_nat. Qed.

Lemma thr_om n i j : thr (eps9 C) (om n i j) = om n i j.
Proof.
rewrite /om; case: (altP (_ =P _)) => _; last by rewrite mul0r mulr0 thr0.
rewrite mul1r thr_big // normrM norm_nu (_ : `|_| = 1) ?mulr1.
  rewrite -real_leNgt ?(le_trans eps9_small nu_gt_half) ?ger0_real // ?invr_ge0 ?exprn_ge0 ?ler0n //.
  by rewrite ltW // sqrt2_gt0.
by case: ifP => _; [rewrite normr1|case: ifP => _; rewrite ?normrN normCi].
Qed.

End Facts.
