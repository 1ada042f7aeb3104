(* PropRandom2.v -- properties C55, C56, C57, C63: random free-fermion and qubit states are states; seeding *)
Set Warnings "-notation-overridden,-ambiguous-paths".
From mathcomp Require Import all_ssreflect all_algebra.
From mathcomp.zify Require Import zify.
From Verif Require Import Base ArrC MCombinatorics MLib JW OpFam FermAlg LibFacts LibFacts2 LibFacts3 Expm ExpmAd.
From Verif Require Import PropLib1 PropLib2 PropLib3 Spectral MUtils PropUtils2 MRandom RndFacts PropRandom1.
Set Implicit Arguments.
Unset Strict Implicit.
Unset Printing Implicit Defensive.
Import Order.Theory GRing.Theory Num.Theory.
Local Open Scope ring_scope.

Section Props.
Variable C : numClosedFieldType.
Local Notation arr := (arr C).

(* ------------------------------------------------------------------ *)
(* arrays of the samplers                                              *)
(* ------------------------------------------------------------------ *)
Lemma zeroE n : zero_state C n = ofM (e0 C n).
Proof.
apply: arrP => // i j /= hi hj; rewrite get_mk hi hj /= -[i]/(val (Ordinal hi)) -[j]/(val (Ordinal hj)) ofM_get mxE.
by rewrite -!val_eqE /= (_ : j == 0%N) ?andbT //; lia.
Qed.

Definition unit_vector m (psi : 'cV[C]_m) := adjm psi *m psi = 1%:M.

Lemma gram_cV m (psi : 'cV[C]_m) : (adjm psi *m psi) 0 0 = \sum_i `|psi i 0| ^+ 2.
Proof. by rewrite mxE; apply: eq_bigr => i _; rewrite !mxE mulrC -normCK. Qed.

Lemma fro_cV m (psi : 'cV[C]_m) : fro (ofM psi) = sqrtC ((adjm psi *m psi) 0 0).
Proof. by rewrite gram_cV /fro /=; congr sqrtC; apply: eq_bigr => i _; rewrite big_ord1 -[0%N]/(val (0 : 'I_1)) ofM_get. Qed.

Lemma fro_unit m (psi : 'cV[C]_m) : unit_vector psi -> fro (ofM psi) = 1.
Proof. by rewrite fro_cV => ->; rewrite mxE eqxx sqrtC1. Qed.

Lemma unit_mul m (U : 'M[C]_m) (psi : 'cV[C]_m) : unitary U -> unit_vector psi -> unit_vector (U *m psi).
Proof. by move=> u h; rewrite /unit_vector adjmM mulmxA -(mulmxA (adjm psi)) unitaryC // mulmx1. Qed.

Lemma unit_e0 n : unit_vector (e0 C n).
Proof.
apply/matrixP => i j; rewrite !ord1 gram_cV (bigD1 (Ordinal (pow2_gt0 n))) //= big1 => [|k /negPf h].
  by rewrite !mxE !eqxx /= normr1 expr1n addr0.
by rewrite !mxE h /= normr0 expr0n.
Qed.

Lemma normaliseE m (A : 'M[C]_m) : normalise (ofM A) = ofM ((\tr A)^-1 *: A).
Proof. by rewrite /normalise ofM_trace ofM_scale. Qed.

(* the number operator *)
Definition Nop n : 'M[C]_(2 ^ n) := \sum_(i < n) adjm (am C n i) *m am C n i.

Lemma Nop_lift n : Nop n = qlift (alphaM C n) (2 * n) (fun i j => ((i == j) && (n <= i)%N)%:R).
Proof.
pose F i := \sum_(j < 2 * n) (((i == j :> nat) && (n <= i)%N)%:R : C) *: (adjm (alphaM C n i) *m alphaM C n j).
transitivity (\sum_(i < 2 * n) F i); last by [].
rewrite -(big_mkord xpredT F) (_ : (2 * n = n + n)%N); last by lia.
rewrite (big_cat_nat _ _ _ (leq0n n) (leq_addr n n)) /= big_nat_cond big1 ?add0r => [|i /andP[/andP[_ h] _]]; last first.
  by apply: big1 => j _; rewrite (leqNgt n) h andbF scale0r.
have -> : \sum_(n <= i < n + n) F i = \sum_(0 <= i < n) F (i + n)%N by have := big_addn 0%N (n + n)%N n xpredT F; rewrite add0n addnK.
rewrite big_mkord; apply: eq_bigr => i _; rewrite /F.
have h : (i + n < 2 * n)%N by have := ltn_ord i; lia.
rewrite (bigD1 (Ordinal h)) //= big1 ?addr0 => [|j]; last first.
  by rewrite -val_eqE /= eq_sym => /negPf ->; rewrite scale0r.
by rewrite eqxx leq_addl scale1r /alphaM ltnNge leq_addl /= addnK.
Qed.

Lemma Nop_alpha n k : (k < 2 * n)%N ->
  Nop n *m alphaM C n k - alphaM C n k *m Nop n = (if (k < n)%N then 1 else -1) *: alphaM C n k.
Proof.
move=> hk; rewrite Nop_lift (lift_comm (alphas_car C n)) // (bigD1 (Ordinal hk)) //= big1 ?addr0 => [|j jk].
  by rewrite !eqxx /= {1}/sw; case: ltnP => h; rewrite ?leq_addl ?leq_addr ?subr0 // (leqNgt n) (_ : (k - n < n)%N) ?sub0r //; lia.
have e1 : (sw n j == sw n k) = false.
  by apply/negbTE; apply: contraNneq jk => /(congr1 (sw n)); rewrite !swK // => e; rewrite -val_eqE /= e.
by rewrite e1 (_ : (k == j) = false) ?subrr ?scale0r //; apply/negbTE; move: jk; rewrite -val_eqE /= eq_sym.
Qed.

(* a generator without pairing blocks conserves the particle number *)
Lemma Nop_lift_comm n (R : 'M[C]_(2 * n)) : (forall i j : 'I_(2 * n), (i < n)%N != (j < n)%N -> R i j = 0) ->
  lift_spec R (alphaM C n) *m Nop n = Nop n *m lift_spec R (alphaM C n).
Proof.
move=> bd; rewrite /lift_spec mulmx_suml mulmx_sumr; apply: eq_bigr => i _.
rewrite mulmx_suml mulmx_sumr; apply: eq_bigr => j _; rewrite -scalemxAl -scalemxAr.
have [ij|/bd ->] := boolP ((i < n)%N == (j < n)%N); last by rewrite !scale0r.
congr (_ *: _); have hi := ltn_ord i; have hj := ltn_ord j.
have hN : hermitian (Nop n).
  rewrite /hermitian /Nop adjm_sum; apply: eq_bigr => k _; by rewrite adjmM adjmK.
have ej := Nop_alpha hj; have ei := congr1 (@adjm _ _ _) (Nop_alpha hi).
move: ei; rewrite adjmD adjmN !adjmM hN adjmZ => ei.
set c := (if (i < n)%N then (1 : C) else -1) in ei.
have cr : c^* = c by rewrite /c; case: ifP; rewrite ?rmorphN ?conjC1.
have ec : (if (j < n)%N then (1 : C) else -1) = c by rewrite /c (eqP ij).
rewrite cr in ei; rewrite ec in ej.
have e1 : adjm (alphaM C n i) *m Nop n = Nop n *m adjm (alphaM C n i) + c *: adjm (alphaM C n i) by rewrite -ei addrC subrK.
have e2 : Nop n *m alphaM C n j = alphaM C n j *m Nop n + c *: alphaM C n j by rewrite -ej addrC subrK.
rewrite mulmxA -[RHS](addrK (c *: (adjm (alphaM C n i) *m alphaM C n j))).
rewrite [in RHS]scalemxAl -mulmxDl -e1 -!mulmxA e2 mulmxDr -scalemxAr.
by rewrite [in RHS]scalemxAl addrK.
Qed.

Variable G : gen C.
Hypothesis HG : gen_ok G.
Variables (E Lg : forall n, 'M[C]_n -> 'M[C]_n) (expm logm : arr -> arr).
Hypotheses (HE : expm_spec E) (HX : computes expm E) (HL : logm_spec E Lg) (HY : computes_u logm Lg).
Local Notation rff := (@random_FF_state C G expm logm).

(* ================================================================== *)
(* C55  random_FF_state                                                *)
(* ================================================================== *)
Lemma seeded2 seed (s : st G) : seeded seed (seeded seed s) = seeded seed s. Proof. by case: seed. Qed.

Lemma parity_rot n (O : 'M[C]_(2 * n)) : parity C n *m rotM E Lg O = rotM E Lg O *m parity C n.
Proof.
apply/esym/(expm_comm HE); rewrite -scalemxAl -scalemxAr; congr (_ *: _); exact/esym/parity_lift.
Qed.

Lemma pureE n fixedN seed (s : st G) : (0 < n)%N -> seed_ok seed -> exists O : 'M[C]_(2 * n), [/\
  special_orthogonal O, (g_ortho G (2 * n) (seeded seed s)).1 = ofM O,
  rff n fixedN seed false true s = (Ok (ofM (rotM E Lg O *m e0 C n), None), (g_ortho G (2 * n) (seeded seed s)).2) &
  rff n fixedN seed true true s = rbind (@random_FF_rotation C G expm logm n seed true false)
     (fun H => ret (ofM (rotM E Lg O *m e0 C n), Some H)) (g_ortho G (2 * n) (seeded seed s)).2].
Proof.
move=> n0 hs; have [O [sO eO e]] := rotationE HG HX HY (seeded seed s) n0 hs.
have u := rot_unitary HE HL (so_unitary sO).
rewrite seeded2 in eO e.
exists O; split=> //; rewrite /random_FF_state {1}/rbind seed_optE // {1}/rbind e {1}/rbind /lift zeroE ofM_mul_chk;
  by rewrite {1}/rbind /lift fro_unit ?close_refl //; apply: unit_mul => //; exact: unit_e0.
Qed.

(* pure=True: a unit vector of even parity; the argument fixedN has no effect *)
Theorem C55_pure n seed (s : st G) : (0 < n)%N -> seed_ok seed -> exists psi : 'cV[C]_(2 ^ n),
  [/\ forall fixedN, (rff n fixedN seed false true s).1 = Ok (ofM psi, None), unit_vector psi & parity C n *m psi = psi].
Proof.
move=> n0 hs; have [O [sO eO e _]] := pureE false s n0 hs.
exists (rotM E Lg O *m e0 C n); split=> [fixedN||].
- have [O' [_ eO' -> _]] := pureE fixedN s n0 hs; congr (Ok (ofM (rotM _ _ _ *m _), _)).
  by apply: (@ofM_inj C); rewrite -eO -eO'.
- apply: unit_mul; [exact: (rot_unitary HE HL (so_unitary sO))|exact: unit_e0].
by rewrite mulmxA parity_rot -mulmxA parity_e0.
Qed.

(* pure=True, returnH=True, with a seed: the returned generator is Hermitian and produces the returned vector *)
Theorem C55_pure_generator n fixedN z (s : st G) : (0 < n)%N -> seed_ok (Some z) ->
  exists (psi : 'cV[C]_(2 ^ n)) (H : 'M[C]_(2 ^ n)),
  [/\ (rff n fixedN (Some z) true true s).1 = Ok (ofM psi, Some (ofM H)), unit_vector psi, hermitian H &
      psi = E (- 'i *: H) *m e0 C n].
Proof.
move=> n0 hs; have [O [sO eO _ e]] := pureE fixedN s n0 hs.
exists (rotM E Lg O *m e0 C n), (genM Lg O); split=> //.
- rewrite e /rbind; have [O' [_ eO' ->]] := rotationE HG HX HY (g_ortho G (2 * n) (seeded (Some z) s)).2 n0 hs.
  by rewrite /=; congr (Ok (_, Some (ofM (genM _ _)))); apply: (@ofM_inj C); rewrite -eO -eO'.
- apply: unit_mul; [exact: (rot_unitary HE HL (so_unitary sO))|exact: unit_e0].
exact: (gen_herm HL (so_unitary sO)).
Qed.

(* without a seed the generator comes from the next, independent draw *)
Theorem C55_pure_generator_unseeded n fixedN (s : st G) : (0 < n)%N ->
  exists (O1 O2 : 'M[C]_(2 * n)) (H : 'M[C]_(2 ^ n)) (psi : 'cV[C]_(2 ^ n)), let s1 := (g_ortho G (2 * n) s).2 in
  [/\ (g_ortho G (2 * n) s).1 = ofM O1 /\ (g_ortho G (2 * n) s1).1 = ofM O2,
      (rff n fixedN None true true s).1 = Ok (ofM psi, Some (ofM H)), unit_vector psi,
      (rff n fixedN None false true s).1 = Ok (ofM psi, None) &
      (random_FF_rotation expm logm n None true false s1).1 = Ok (ofM H) /\ hermitian H].
Proof.
move=> n0; have hs : seed_ok None by []; have [O [sO eO e1 e]] := pureE fixedN s n0 hs.
have [O' [sO' eO' e']] := rotationE HG HX HY (g_ortho G (2 * n) s).2 n0 hs.
exists O, O', (genM Lg O'), (rotM E Lg O *m e0 C n); split=> //.
- by rewrite e /rbind [random_FF_rotation _ _ _ _ _ _ _]e'.
- apply: unit_mul; [exact: (rot_unitary HE HL (so_unitary sO))|exact: unit_e0].
- by rewrite e1.
by rewrite e'; split=> //; exact: (gen_herm HL (so_unitary sO')).
Qed.

(* mixed states *)
Definition gibbs n beta (H : 'M[C]_n) := (\tr (E (- beta *: H)))^-1 *: E (- beta *: H).

Lemma gibbs_density n beta (H : 'M[C]_n) : (0 < n)%N -> beta \is Num.real -> hermitian H -> density (gibbs beta H).
Proof. by move=> n0 /CrealP b h; apply: (expm_density HE n0); rewrite /hermitian adjmZ rmorphN /= b h. Qed.

Lemma gibbs_comm n beta (H X : 'M[C]_n) : H *m X = X *m H -> gibbs beta H *m X = X *m gibbs beta H.
Proof.
move=> h; rewrite /gibbs -scalemxAl -scalemxAr; congr (_ *: _); apply: (expm_comm HE).
by rewrite -scalemxAl -scalemxAr h.
Qed.

Lemma gibbsE n beta (H : 'M[C]_n) : normalise (expm (ascale (- beta) (ofM H))) = ofM (gibbs beta H).
Proof. by rewrite ofM_scale HX normaliseE. Qed.

(* the generator of the fixedN branch *)
Lemma draw_HE n fixedN seed (s : st G) : seed_ok seed -> exists (H : 'M[C]_(2 * n)) (s' : st G),
  [/\ draw_H_generator n fixedN seed s = (Ok (ofM H), s'), hermitian H &
      fixedN -> forall i j : 'I_(2 * n), (i < n)%N != (j < n)%N -> H i j = 0].
Proof.
move=> hs; rewrite /draw_H_generator /rbind seed_optE // /sample /lift.
case e1 : (g_randn G n n _) => [a1 s1] /=; case e2 : (g_randn G n n _) => [a2 s2] /=.
case e3 : (g_randn G n n _) => [z1 s3] /=; case e4 : (g_randn G n n _) => [z2 s4] /=.
have [h1 _] := randn_ok HG n n (seeded seed s); rewrite e1 /= in h1.
have [h2 _] := randn_ok HG n n s1; rewrite e2 /= in h2.
have [h3 _] := randn_ok HG n n s2; rewrite e3 /= in h3.
have [h4 _] := randn_ok HG n n s3; rewrite e4 /= in h4.
have [H [e sH hH _ bd]] := C42_random_H fixedN h1 h2 h3 h4.
have [r c] := shpP _ _ _ sH.
exists (toM (2 * n) (2 * n) H), s4; split=> //; first by rewrite e ofM_toM.
move=> f i j; rewrite mxE; have hi := ltn_ord i; have hj := ltn_ord j.
case: (ltnP i n) => h1'; case: (ltnP j n) => h2' // _.
  have h : (j - n < n)%N by lia.
  by have [<- _] := bd f i (j - n)%N h1' h; rewrite subnKC.
have h : (i - n < n)%N by lia.
by have [_ <-] := bd f (i - n)%N j h h2'; rewrite subnKC.
Qed.

(* pure=False: a density matrix, the Gibbs state at the drawn inverse temperature of the returned Hermitian generator,
   a quadratic form in the ladder operators; it conserves parity, and with fixedN=True also the particle number *)
Theorem C55_mixed n fixedN seed returnH (s : st G) : (0 < n)%N -> seed_ok seed ->
  exists (rho H : 'M[C]_(2 ^ n)) (beta : C), [/\
    (rff n fixedN seed returnH false s).1 = Ok (ofM rho, if returnH then Some (ofM H) else None),
    hermitian H /\ (exists R : 'M[C]_(2 * n), H = lift_spec R (alphaM C n)),
    (exists s', beta = (g_exponential G s').1) /\ rho = gibbs beta H, density rho &
    parity C n *m rho = rho *m parity C n /\ (fixedN -> rho *m Nop n = Nop n *m rho)].
Proof.
move=> n0 hs; rewrite /random_FF_state {1}/rbind seed_optE //.
have p0 := pow2_gt0 n.
case: fixedN.
  have [H [s' [e hH bd]]] := draw_HE n true (seeded seed s) hs.
  pose K := lift_spec (cutoff ((10%:R ^+ 10)^-1) H) (alphaM C n).
  have hK : hermitian K.
    rewrite /K lift_qlift; apply: lift_herm => i j hi hj.
    rewrite -[i]/(val (Ordinal hi)) -[j]/(val (Ordinal hj)) !ofM_get.
    by rewrite -[in RHS](cutoff_herm _ hH) !mxE.
  have b0 : 0 <= (g_exponential G s').1 := exponential_ok HG s'.
  exists (gibbs (g_exponential G s').1 K), K, (g_exponential G s').1; split=> //.
  - rewrite /rbind [draw_H_generator _ _ _ _]e /lift alphas_ops C47_lift //; last by lia.
    by rewrite /sample /= -/K gibbsE.
  - by split=> //; exists (cutoff ((10%:R ^+ 10)^-1) H).
  - by split=> //; exists s'.
  - exact: (gibbs_density p0 (ger0_real b0) hK).
  split; first by apply/esym/gibbs_comm/esym/parity_lift.
  move=> _; apply: gibbs_comm; apply: Nop_lift_comm => i j ij; rewrite mxE bd // normr0; by case: ifP.
have [O [sO eO e]] := rotationE HG HX HY (seeded seed s) n0 hs.
have hK := gen_herm HL (so_unitary sO).
set s' := (g_ortho G (2 * n) (seeded seed (seeded seed s))).2 in e.
have b0 : 0 <= (g_exponential G s').1 := exponential_ok HG s'.
exists (gibbs (g_exponential G s').1 (genM Lg O)), (genM Lg O), (g_exponential G s').1; split=> //.
- by rewrite /rbind [random_FF_rotation _ _ _ _ _ _ _]e /sample gibbsE.
- by split=> //; eexists; reflexivity.
- by split=> //; exists s'.
- exact: (gibbs_density p0 (ger0_real b0) hK).
by split=> //; apply/esym/gibbs_comm/esym/parity_lift.
Qed.


End Props.

(* at infinite temperature (beta = 0) the state is maximally mixed *)
Example C55_example (C : numClosedFieldType) (E Lg : forall n, 'M[C]_n -> 'M[C]_n) (expm logm : arr C -> arr C) n fixedN seed s :
  expm_spec E -> computes expm E -> logm_spec E Lg -> computes_u logm Lg -> (0 < n)%N -> seed_ok seed ->
  (@random_FF_state C (const_gen C) expm logm n fixedN seed false false s).1 =
  Ok (ofM ((2 ^ n)%:R^-1 *: (1%:M : 'M[C]_(2 ^ n))), None).
Proof.
move=> HE HX HL HY n0 hs.
have [rho [H [beta [-> _ [[s' eb] er] _ _]]]] := C55_mixed (gen_ok_satisfiable C) HE HX HL HY fixedN false s n0 hs.
by rewrite er eb /gibbs /= oppr0 scale0r (expm0 HE) mxtrace1.
Qed.
