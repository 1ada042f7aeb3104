(* PropRandom1.v -- properties C54, C55, C63 of the random free-fermion rotations and states of ff_lib.py *)
Set Warnings "-notation-overridden,-ambiguous-paths".
From mathcomp Require Import all_ssreflect all_algebra.
From mathcomp.zify Require Import zify.
From Verif Require Import Base ArrC MCombinatorics MLib JW OpFam FermAlg LibFacts LibFacts2 LibFacts3 Expm ExpmAd.
From Verif Require Import PropLib1 PropLib2 PropLib3 MUtils MRandom RndFacts.
Set Implicit Arguments.
Unset Strict Implicit.
Unset Printing Implicit Defensive.
Import Order.Theory GRing.Theory Num.Theory.
Local Open Scope ring_scope.

Section Props.
Variable C : numClosedFieldType.
Local Notation arr := (arr C).
Add Ring cringPR1 : (ring_of C).

Variable G : gen C.
Hypothesis HG : gen_ok G.
Variables (E Lg : forall n, 'M[C]_n -> 'M[C]_n) (expm logm : arr -> arr).
Hypotheses (HE : expm_spec E) (HX : computes expm E) (HL : logm_spec E Lg) (HY : computes_u logm Lg).

(* ================================================================== *)
(* C54  random_FF_rotation                                             *)
(* ================================================================== *)
Local Notation eps := ((10%:R ^+ 10)^-1 : C).
Definition hamM n (O : 'M[C]_(2 * n)) : 'M[C]_(2 * n) := (2%:R^-1 * 'i) *: Lg (orbM O).
Definition genM n (O : 'M[C]_(2 * n)) : 'M[C]_(2 ^ n) := lift_spec (cutoff eps (hamM O)) (alphaM C n).
Definition rotM n (O : 'M[C]_(2 * n)) : 'M[C]_(2 ^ n) := E (- 'i *: genM O).

Lemma hamE n (O : 'M[C]_(2 * n)) : unitary O ->
  ascale 2%:R^-1 (aopp (ascale (- 'i)^-1 (aopp (logm (ofM (orbM O)))))) = ofM (hamM O).
Proof.
move=> u; rewrite HY; last exact: orb_unitary.
have e m (M : 'M[C]_m) : aopp (ofM M) = ofM (- M) by exact: ofM_opp.
have e2 m a (M : 'M[C]_m) : ascale a (ofM M) = ofM (a *: M) by exact: ofM_scale.
have e3 : ascale 2%:R^-1 (aopp (ascale (- 'i)^-1 (aopp (ofM (Lg (orbM O)))))) = ofM (2%:R^-1 *: - ((- 'i)^-1 *: - Lg (orbM O))).
  by rewrite -e2 -e -e2 -e.
by rewrite e3; congr ofM; rewrite !scalerN opprK scalerA invrN invCi opprK.
Qed.

Lemma ham_herm n (O : 'M[C]_(2 * n)) : unitary O -> hermitian (hamM O).
Proof.
move=> u; rewrite /hermitian /hamM adjmZ (logm_anti HL (orb_unitary u)) rmorphM /= conjCi half_real.
by rewrite scalerN mulrN scaleNr opprK.
Qed.

Lemma gen_herm n (O : 'M[C]_(2 * n)) : unitary O -> hermitian (genM O).
Proof.
move=> u; rewrite /genM lift_qlift; apply: lift_herm => i j hi hj.
rewrite -[i]/(val (Ordinal hi)) -[j]/(val (Ordinal hj)) !ofM_get.
by rewrite -[in RHS](cutoff_herm _ (ham_herm u)) !mxE.
Qed.

Lemma rot_unitary n (O : 'M[C]_(2 * n)) : unitary O -> unitary (rotM O).
Proof.
move=> u; apply: (expm_anti_unitary HE); rewrite adjmZ rmorphN /= conjCi opprK (gen_herm u) scaleNr opprK //.
Qed.

(* the call, for every outcome O of the sampler *)
Lemma rotationE n seed (s : st G) : (0 < n)%N -> seed_ok seed ->
  exists O : 'M[C]_(2 * n), [/\ special_orthogonal O, (g_ortho G (2 * n) (seeded seed s)).1 = ofM O & forall rH rO,
    random_FF_rotation expm logm n seed rH rO s =
    (Ok (if rO then ofM (orbM O) else ofM (if rH then genM O else rotM O)), (g_ortho G (2 * n) (seeded seed s)).2)].
Proof.
move=> n0 hs; have d2 : (1 < 2 * n)%N by lia.
have [O eO sO] := ortho_ok HG (seeded seed s) d2; exists O; split=> // rH rO.
rewrite /random_FF_rotation /rbind seed_optE // /ortho leqNgt d2 /= /sample /lift eO.
rewrite !OM_ofM ofM_adj ofM_mul_chk ofM_mul_chk -/(orbM O) C44_accepts; last by apply: orb_symp; case: sO.
rewrite /=; case: rO => //; rewrite hamE; last exact: so_unitary.
rewrite alphas_ops C47_lift //; last by lia.
by rewrite -/(genM O); case: rH => //; rewrite ofM_scale HX.
Qed.

(* for every draw: the call succeeds; the orbital matrix is unitary and symplectic; the generator is Hermitian; the
   returned operator is exp(-i H), unitary, and conserves the fermion parity *)
Theorem C54_rotation n seed (s : st G) : (0 < n)%N -> seed_ok seed ->
  exists (Cm : 'M[C]_(2 * n)) (H W : 'M[C]_(2 ^ n)), [/\
    (random_FF_rotation expm logm n seed false true s).1 = Ok (ofM Cm),
    (random_FF_rotation expm logm n seed true false s).1 = Ok (ofM H),
    (random_FF_rotation expm logm n seed false false s).1 = Ok (ofM W),
    unitary Cm /\ symplectic Cm &
    [/\ hermitian H, W = E (- 'i *: H), unitary W & parity C n *m W = W *m parity C n]].
Proof.
move=> n0 hs; have [O [sO _ e]] := rotationE s n0 hs; have u := so_unitary sO.
exists (orbM O), (genM O), (rotM O); rewrite !e; split=> //.
  by split; [exact: orb_unitary|apply: orb_symp; case: sO].
split=> //; [exact: gen_herm|exact: rot_unitary|].
apply/esym/(expm_comm HE); rewrite -scalemxAl -scalemxAr; congr (_ *: _); exact/esym/parity_lift.
Qed.

(* ... and it always acts on the Majorana operators by a real orthogonal matrix (free-fermion unitary) *)
Lemma rot_majorana n (O : 'M[C]_(2 * n)) : unitary O -> exists F : 'M[C]_(2 * n),
  [/\ forall i j, F i j \is Num.real, F *m F^T = 1%:M &
   forall k : 'I_(2 * n), adjm (rotM O) *m gam C n k *m rotM O = \sum_j F k j *: gam C n j].
Proof.
move=> u; have uW := rot_unitary u.
have aW : adjm (rotM O) = E (- (- 'i *: genM O)).
  by rewrite /rotM -(expm_adj HE) adjmZ (gen_herm u) rmorphN /= conjCi opprK scaleNr opprK.
have lX : - 'i *: genM O = lift_spec (- 'i *: cutoff eps (hamM O)) (alphaM C n).
  have := C47_linear (cutoff eps (hamM O)) 0 (alphaM C n) (- 'i) 0.
  by rewrite !scale0r !addr0 => ->.
have := lift_conj_ga HE (- 'i *: cutoff eps (hamM O)); rewrite /= -lX -aW -/(rotM O) => h.
by have [r o] := rotation_real uW h; eexists; split; [exact: r|exact: o|exact: h].
Qed.

Theorem C54_free_fermion n seed (s : st G) : (0 < n)%N -> seed_ok seed ->
  exists (W : 'M[C]_(2 ^ n)) (F : 'M[C]_(2 * n)), [/\
    (random_FF_rotation expm logm n seed false false s).1 = Ok (ofM W),
    forall i j, F i j \is Num.real, F *m F^T = 1%:M &
    forall k : 'I_(2 * n), adjm W *m gam C n k *m W = \sum_j F k j *: gam C n j].
Proof.
move=> n0 hs; have [O [sO _ e]] := rotationE s n0 hs; have u := so_unitary sO.
by have [F [r o h]] := rot_majorana u; exists (rotM O), F; split=> //; rewrite e.
Qed.

(* the logarithm of the orbital matrix is particle-hole antisymmetric when -1 is not an eigenvalue *)
Lemma log_ph n (O : 'M[C]_(2 * n)) : special_orthogonal O -> \det (O + 1%:M) != 0 -> ph_anti (Lg (orbM O)).
Proof.
move=> sO d; have u := orb_unitary (so_unitary sO); have sy := orb_symp (let: And3 _ o _ := sO in o).
have e : swapM C n *m (orbM O)^T *m swapM C n = adjm (orbM O).
  by rewrite -[LHS]mulmx1 -u mulmxA symp_inv // mul1mx.
have u' : unitary (adjm (orbM O)) := unitary_adj u.
have h : adjm (orbM O) *m swapM C n = swapM C n *m (orbM O)^T by rewrite -e -mulmxA swapM_sqr mulmx1.
have := logm_inter HL u' (unitary_tr u) h.
rewrite (logm_inv HL u) ?orb_det1 // (logm_tr HL u) => h'.
by rewrite /ph_anti -h' -mulmxA swapM_sqr mulmx1.
Qed.

(* when -1 is not an eigenvalue of the drawn rotation and the generator has no non-zero entries below the cutoff of
   build_op, the operator implements exactly the orbital rotation returned by returnOrb=True on the same draw *)
Theorem C54_implements n seed (s : st G) (O Cm : 'M[C]_(2 * n)) (W : 'M[C]_(2 ^ n)) : (0 < n)%N -> seed_ok seed ->
  (g_ortho G (2 * n) (seeded seed s)).1 = ofM O -> \det (O + 1%:M) != 0 ->
  (forall i j, Lg Cm i j = 0 \/ 2%:R * (10%:R ^+ 10)^-1 <= `|Lg Cm i j|) ->
  (random_FF_rotation expm logm n seed false true s).1 = Ok (ofM Cm) ->
  (random_FF_rotation expm logm n seed false false s).1 = Ok (ofM W) ->
  (forall k : 'I_(2 * n), adjm W *m alphaM C n k *m W = \sum_j Cm k j *: alphaM C n j) /\
  (forall k : 'I_(2 * n), adjm W *m gam C n k *m W = \sum_j O k j *: gam C n j).
Proof.
move=> n0 hs eO' d big; have [O1 [sO eO e]] := rotationE s n0 hs; rewrite !e /=.
move: eO'; rewrite eO => /ofM_inj ?; subst O1 => h1 h2; have ? := ofM_inj (okI h1); have ? := ofM_inj (okI h2); subst Cm W.
have u := so_unitary sO.
have cut : cutoff eps (hamM O) = hamM O.
  apply: C47_cutoff_id => i j; rewrite mxE; case: (big i j) => [->|h]; [by left; rewrite mulr0|right].
  rewrite normrM normrM normCi mulr1 ger0_norm ?invr_ge0 ?ler0n // -real_leNgt ?ger0_real ?mulr_ge0 ?invr_ge0 ?exprn_ge0 ?ler0n //.
  by rewrite ler_pdivl_mull ?ltr0n.
have aW : adjm (rotM O) = E (- (- 'i *: genM O)).
  by rewrite /rotM -(expm_adj HE) adjmZ (gen_herm u) rmorphN /= conjCi opprK scaleNr opprK.
have lX : - 'i *: genM O = lift_spec (2%:R^-1 *: Lg (orbM O)) (alphaM C n).
  have := C47_linear (hamM O) 0 (alphaM C n) (- 'i) 0; rewrite /genM cut !scale0r !addr0 => <-; congr lift_spec.
  by rewrite /hamM scalerA mulrCA mulNr -expr2 sqrCi opprK mulr1.
have ph := log_ph sO d.
have ad : adM (2%:R^-1 *: Lg (orbM O)) = Lg (orbM O).
  rewrite adM_ph ?scalerA ?mulfV ?scale1r ?pnatr_eq0 //.
  by rewrite /ph_anti linearZ /= -scalemxAr -scalemxAl ph scalerN.
have h k : adjm (rotM O) *m @al C n k *m rotM O = act (orbM O) (@al C n) k.
  by rewrite aW /rotM lX (lift_conj HE) ad (logm_exp HL) //; exact: orb_unitary.
split=> // k.
have := lift_conj_ga HE (2%:R^-1 *: Lg (orbM O)) k; rewrite -lX ad (logm_exp HL) ?orb_inv //; last exact: orb_unitary.
by rewrite /= aW /rotM.
Qed.

End Props.

(* a generator whose orthogonal draw is -1 in even dimension (an element of SO(2n)) *)
Section Refute.
Variable C : numClosedFieldType.
Definition neg_draw d : 'M[C]_d := (if odd d then 1 else -1)%:M.
Definition const_gen : gen C :=
  @Gen C unit (fun _ => tt) (fun m n s => (azeros m n, s)) (fun d s => (ofM (neg_draw d), s))
    (fun d s => (aeye d, s)) (fun m s => (1 :: nseq m.-1 0, s)) (fun s => (0, s)) (fun _ s => (0%N, s)).

Lemma neg_so d : special_orthogonal (neg_draw d).
Proof.
split=> [i j||].
- by rewrite mxE rpredMn //; case: (odd d); rewrite ?rpredN rpred1.
- by rewrite tr_scalar_mx -scalar_mxM -expr2; case: (odd d); rewrite ?sqrrN expr1n.
by rewrite det_scalar; case o: (odd d); rewrite ?expr1n // -signr_odd o.
Qed.

(* the assumptions on the samplers are satisfiable *)
Example gen_ok_satisfiable : gen_ok const_gen.
Proof.
split=> /=.
- by move=> m n s; split=> [|i j]; [rewrite /shp !eqxx|rewrite get_mk; case: ifP; rewrite rpred0].
- by move=> d s _; exists (neg_draw d) => //; exact: neg_so.
- by move=> d s _; exists 1%:M; [exact: ofM_eye|exact: unitary1].
- move=> m s m0; split; first by rewrite /= size_nseq prednK.
    by rewrite /= ler01; apply/allP => x /nseqP [-> _].
  by rewrite big_cons big_nseq iter_addr_0 mul0rn addr0.
- by [].
- by [].
Qed.

(* "the operator always implements the orbital rotation" is false: for a draw with eigenvalue -1 the two answers
   given by the same draw disagree, the orbital matrix being -1 and the operator commuting with every mode *)
Theorem C54_branch_cut_refuted (E Lg : forall n, 'M[C]_n -> 'M[C]_n) (expm logm : arr C -> arr C) n seed s :
  expm_spec E -> computes expm E -> logm_spec E Lg -> computes_u logm Lg -> (0 < n)%N -> seed_ok seed ->
  exists W : 'M[C]_(2 ^ n), [/\
    (@random_FF_rotation C const_gen expm logm n seed false true s).1 = Ok (ofM (- 1%:M : 'M[C]_(2 * n))),
    (@random_FF_rotation C const_gen expm logm n seed false false s).1 = Ok (ofM W),
    forall k : 'I_(2 * n), adjm W *m alphaM C n k *m W = alphaM C n k &
    ~ forall k : 'I_(2 * n), adjm W *m alphaM C n k *m W = \sum_j (- 1%:M : 'M[C]_(2 * n)) k j *: alphaM C n j].
Proof.
move=> HE HX HL HY n0 hs.
have [O [sO eO e]] := rotationE gen_ok_satisfiable HX HY s n0 hs; rewrite !e /=.
have eO1 : O = - 1%:M by apply: (@ofM_inj C); rewrite -eO /= /neg_draw oddM /= raddfN.
have u := so_unitary sO.
have o1 : orbM O = - 1%:M.
  by rewrite eO1 /orbM mulmxN mulmx1 mulNmx unitaryC //; exact: OM_u.
have cL (X : 'M[C]_(2 * n)) : Lg _ (orbM O) *m X = X *m Lg _ (orbM O).
  by apply: (logm_inter HL); rewrite ?o1 ?mulNmx ?mulmxN ?mul1mx ?mulmx1 // -o1; exact: orb_unitary.
have ent i j k l : Lg _ (orbM O) k i * (j == l)%:R = (k == i)%:R * Lg _ (orbM O) j l.
  have /matrixP/(_ k l) := cL (delta_mx i j); rewrite !mxE (bigD1 i) //= big1 => [|m /negPf h]; last by rewrite !mxE h mulr0.
  rewrite addr0 (bigD1 j) //= [X in _ = _ + X]big1 => [|m /negPf h]; last by rewrite !mxE h andbF mul0r.
  by rewrite addr0 !mxE !eqxx /= andbT (eq_sym l).
have lD i j : i != j -> Lg _ (orbM O) i j = 0.
  by move=> /negPf ij; have := ent j j i j; rewrite eqxx ij mulr1 mul0r.
have lC i j : Lg _ (orbM O) i i = Lg _ (orbM O) j j.
  by have := ent i j i j; rewrite !eqxx mulr1 mul1r.
have cG k : (k < 2 * n)%N -> genM Lg O *m alphaM C n k = alphaM C n k *m genM Lg O.
  move=> hk; apply/eqP; rewrite -subr_eq0 /genM lift_qlift lift_comm //; last exact: alphas_car.
  apply/eqP; apply: big1 => j _.
  have hj := sw_lt (ltn_ord j); have hk' := sw_lt hk.
  rewrite -[sw n j]/(val (Ordinal hj)) -[sw n k]/(val (Ordinal hk')) -[k]/(val (Ordinal hk)) !ofM_get !mxE.
  have lE i j' : Lg _ (orbM O) i j' = (i == j')%:R * Lg _ (orbM O) (Ordinal hk) (Ordinal hk).
    by case: eqVneq => [->|/lD ->]; rewrite ?mul0r // mul1r; exact: lC.
  rewrite (lE (Ordinal hj)) [in X in _ - X](lE (Ordinal hk)) (_ : (Ordinal hj == _) = (Ordinal hk == j)) ?subrr ?scale0r //.
  rewrite -!val_eqE /=; apply/eqP/eqP => [/(congr1 (sw n))|->//]; by rewrite !swK.
have cW k : (k < 2 * n)%N -> rotM E Lg O *m alphaM C n k = alphaM C n k *m rotM E Lg O.
  by move=> hk; apply: (expm_comm HE); rewrite -scalemxAl -scalemxAr cG.
have uW := unitaryC (rot_unitary HE HL u).
have aW (k : 'I_(2 * n)) : adjm (rotM E Lg O) *m alphaM C n k *m rotM E Lg O = alphaM C n k.
  by rewrite -mulmxA -cW // mulmxA uW mul1mx.
exists (rotM E Lg O); split=> //; first by rewrite o1.
have h0 : (0 < 2 * n)%N by lia.
move=> /(_ (Ordinal h0)); rewrite aW (bigD1 (Ordinal h0)) //= big1 => [|j /negPf h]; last first.
  by rewrite !mxE eq_sym h oppr0 scale0r.
rewrite addr0 !mxE eqxx scaleN1r => ha.
have z : alphaM C n 0 = 0.
  apply/eqP; have : (2%:R : C) *: alphaM C n 0 == 0 by rewrite scaler_nat mulr2n [X in _ + X]ha subrr.
  by rewrite scaler_eq0 pnatr_eq0.
have := car_adj (alphas_car C n) h0 h0; rewrite z mul0mx adjm0 mulmx0 addr0 eqxx.
rewrite -(raddf0 (@scalar_mx_additive C (2 ^ n))) => /(scalar_inj (pow2_gt0 n)) /eqP.
by rewrite eq_sym oner_eq0.
Qed.
End Refute.
