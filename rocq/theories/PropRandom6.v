(* PropRandom6.v -- property C65: every pure state drawn by the free-fermion samplers has zero anti-flatness *)
Set Warnings "-notation-overridden,-ambiguous-paths".
From Coq Require Import Reals Epsilon Classical.
From mathcomp Require Import all_ssreflect all_algebra.
From mathcomp Require Import complex.
From mathcomp.zify Require Import zify.
From Verif Require Import Base ArrC MCombinatorics MLib JW OpFam FermAlg LibFacts LibFacts2 LibFacts3 MUtils Spectral RealC Info MDist.
From Verif Require Import PropLib1 PropLib2 PropLib3 PropUtils1 PropUtils2 PropDist1 PropDist2 Skew PropDist4 PropDist5.
From Verif Require Import Expm ExpmAd MRandom RndFacts PropRandom1 PropRandom2 PropRandom4.
Set Implicit Arguments.
Unset Strict Implicit.
Unset Printing Implicit Defensive.
Import Order.Theory GRing.Theory Num.Theory.
Local Open Scope ring_scope.

Local Notation arr := (arr CR).

(* a vector such that each of 2n orthonormal combinations of Majorana operators either annihilates it, or has an
   adjoint that annihilates it *)
Definition definite n (Z : 'M[CR]_(2 * n)) (psi : 'cV[CR]_(2 ^ n)) :=
  forall k, act Z (@ga CR n) k *m psi = 0 \/ adjm psi *m act Z (@ga CR n) k = 0.

Lemma cov_modes n (Z : 'M[CR]_(2 * n)) (psi : 'cV[CR]_(2 ^ n)) : unitary Z -> unit_vector psi -> definite Z psi ->
  (covM (psi *m adjm psi))^T *m covM (psi *m adjm psi) = 1%:M.
Proof.
move=> uZ up df; set rho := psi *m adjm psi.
have h : hermitian rho by rewrite /hermitian adjmM adjmK.
have t1 : \tr rho = 1 by rewrite /rho mxtrace_mulC up mxtrace1.
have dr k : act Z (@ga CR n) k *m rho = 0 \/ rho *m act Z (@ga CR n) k = 0.
  by case: (df k) => e; [left; rewrite /rho mulmxA e mul0mx|right; rewrite /rho -mulmxA e mulmx0].
move: rho h t1 dr => rho h t1 dr {psi up df}.
pose G : 'M[CR]_(2 * n) := \matrix_(i, j) \tr (rho *m gam CR n i *m gam CR n j).
have GT : G + G^T = 1%:M.
  apply/matrixP => i j; rewrite [LHS]mxE [X in X + _]mxE [X in _ + X]mxE [X in _ + X]mxE [RHS]mxE -!mulmxA -mxtraceD -mulmxDr gam_anti //.
  by rewrite mul_mx_scalar mxtraceZ t1 val_eqE mulr1.
have cE : covC rho = - 'i *: (G - G^T) by apply/matrixP => i j; rewrite !mxE.
have z k : covC rho *m (row k Z)^T = 'i *: (row k Z)^T \/ covC rho *m (row k Z)^T = - 'i *: (row k Z)^T.
  have GZ i : (G *m (row k Z)^T) i 0 = \tr (rho *m gam CR n i *m act Z (@ga CR n) k).
    rewrite mxE /act mulmx_sumr raddf_sum /=; apply: eq_bigr => j _; by rewrite !mxE -scalemxAr mxtraceZ mulrC.
  have GZ' i : (G^T *m (row k Z)^T) i 0 = \tr (rho *m act Z (@ga CR n) k *m gam CR n i).
    rewrite mxE /act [rho *m _]mulmx_sumr mulmx_suml raddf_sum /=; apply: eq_bigr => j _.
    by rewrite !mxE -scalemxAr -scalemxAl mxtraceZ mulrC.
  case: (dr k) => e; [left|right].
    have g0 : G *m (row k Z)^T = 0.
      by apply/matrixP => i j; rewrite ord1 GZ mxtrace_mulC mulmxA e mul0mx mxtrace0 mxE.
    have g1 : G^T *m (row k Z)^T = (row k Z)^T by rewrite -[RHS]mul1mx -GT mulmxDl g0 add0r.
    by rewrite cE -scalemxAl mulmxBl g0 g1 sub0r scalerN scaleNr opprK.
  have g0 : G^T *m (row k Z)^T = 0.
    by apply/matrixP => i j; rewrite ord1 GZ' e mul0mx mxtrace0 mxE.
  have g1 : G *m (row k Z)^T = (row k Z)^T by rewrite -[RHS]mul1mx -GT mulmxDl g0 addr0.
  by rewrite cE -scalemxAl mulmxBl g0 g1 subr0.
have cc : covC rho *m covC rho = - 1%:M.
  have e k : covC rho *m covC rho *m (row k Z)^T = - (row k Z)^T.
    rewrite -mulmxA; case: (z k) => e; rewrite e -scalemxAr e scalerA ?mulNr ?mulrN -expr2 sqrCi ?opprK scaleN1r //.
  have : (covC rho *m covC rho + 1%:M) *m Z^T = 0.
    apply/matrixP => i k; have := congr1 (fun M : 'cV_(2 * n) => M i 0) (e k); rewrite tr_row colE mulmxA -!colE.
    rewrite [LHS]mxE [RHS]mxE [col _ _ _ _]mxE => h1; by rewrite mulmxDl mul1mx [LHS]mxE h1 addNr mxE.
  move/(congr1 (fun M => M *m adjm Z^T)); rewrite mul0mx -mulmxA (unitary_tr uZ) mulmx1 => /eqP.
  by rewrite addr_eq0 => /eqP.
have cM : covM rho *m covM rho = - 1%:M.
  apply/matrixP => i j; apply: toC_inj; move/matrixP: cc => /(_ i j).
  rewrite covC_toC // -(map_mxM toC_rmorphism) mxE => ->.
  by rewrite !mxE raddfN /= toC_nat.
by rewrite covM_anti mulNmx cM opprK.
Qed.

Section Zero.
Variable schur : arr -> arr.
Hypothesis schurP : schur_spec schur.

Lemma FAF_definite n (Z : 'M[CR]_(2 * n)) (psi : 'cV[CR]_(2 ^ n)) k : unitary Z -> unit_vector psi -> definite Z psi ->
  (0 < k)%N -> FAF schur (V2 (ofM psi)) k = Ok 0.
Proof.
move=> uZ up df k0; pose v i := psi i 0.
have nv : \sum_i `|v i| ^+ 2 = 1 by have := gram_cV psi; rewrite up mxE eqxx => <-.
have [ec d] := C25_wavefunction nv.
have eo : outer v = psi *m adjm psi by apply/matrixP => i j; rewrite !mxE big_ord1 !mxE.
have [e2 _] := C25_columns v (pow2_gt0 n).
have ev : psi = \col_i v i by apply/matrixP => i j; rewrite ord1 mxE.
rewrite -ev ec eo in e2; rewrite eo in d.
by apply/(C36_zero schurP e2 d k0); exact: cov_modes uZ up df.
Qed.

(* occupation-number states of any set of modes that is linear in the Majorana operators *)
Lemma occ_zero m (a : 'M[CR]_m) (phi : 'cV[CR]_m) (b : bool) : a *m a = 0 -> adjm a *m a *m phi = b%:R *: phi ->
  if b then adjm a *m phi = 0 else a *m phi = 0.
Proof.
move=> aa; case: b => e.
  by rewrite scale1r in e; rewrite -e !mulmxA -[adjm a *m adjm a]adjmM aa adjm0 !mul0mx.
apply/eqP; case: (eqVneq (a *m phi) 0) => // nz; have := fro_gt0 nz.
by rewrite PropRandom2.fro_cV adjmM -mulmxA (mulmxA (adjm a)) e scale0r mulmx0 mxE sqrtC0 ltxx.
Qed.

Lemma definite_car n (Z : 'M[CR]_(2 * n)) (B : nat -> 'M[CR]_(2 ^ n)) (b : nat -> bool) (phi : 'cV[CR]_(2 ^ n)) :
  car n B -> (forall k : 'I_(2 * n), B k = act Z (@ga CR n) k) ->
  (forall j, (j < n)%N -> B j *m adjm (B j) *m phi = (b j)%:R *: phi) -> definite Z phi.
Proof.
move=> HB eB oc k; rewrite -eB; have hk := ltn_ord k.
have aux j : (j < n)%N -> B j *m phi = 0 \/ adjm (B j) *m phi = 0.
  move=> hj; have := @occ_zero _ (adjm (B j)) phi (b j) (ann_sq HB hj); rewrite adjmK => h.
  by case: (b j) (h (oc j hj)) => ?; [left|right].
case: (ltnP k n) => kn.
  by case: (aux k kn) => e; [left|right] => //; rewrite -[B k]adjmK -adjmM e adjm0.
have hj : (k - n < n)%N by lia.
have eBk : B k = adjm (B (k - n)%N).
  by rewrite HB.2 /sw ?hj ?subnK //; lia.
by case: (aux _ hj) => e; [right|left] => //; rewrite eBk // -adjmM e adjm0.
Qed.

Lemma definite_rot n (Z F : 'M[CR]_(2 * n)) (W : 'M[CR]_(2 ^ n)) (phi : 'cV[CR]_(2 ^ n)) : unitary W ->
  F *m F^T = 1%:M -> (forall k : 'I_(2 * n), adjm W *m gam CR n k *m W = \sum_j F k j *: gam CR n j) ->
  definite Z phi -> definite (Z *m F^T) (W *m phi).
Proof.
move=> uW oF hF df k.
have e (j : 'I_(2 * n)) : act F^T (@ga CR n) j = W *m ga CR j *m adjm W.
  have g i : ga CR i = W *m act F (@ga CR n) i *m adjm W.
    by rewrite /act -hF !mulmxA uW mul1mx -mulmxA uW mulmx1.
  rewrite (eq_act _ _ g) -act_conj act_mul (mulmx1C oF) act1; done.
have -> : act (Z *m F^T) (@ga CR n) k = W *m act Z (@ga CR n) k *m adjm W.
  by rewrite -act_mul (eq_act _ _ e) -act_conj.
have u2 := unitaryC uW.
case: (df k) => d; [left|right].
  by rewrite -!mulmxA (mulmxA (adjm W)) u2 mul1mx d mulmx0.
by rewrite adjmM !mulmxA -(mulmxA (adjm phi)) u2 mulmx1 d mul0mx.
Qed.

Lemma fock_definite n (phi : 'cV[CR]_(2 ^ n)) (b : nat -> bool) :
  (forall j, (j < n)%N -> adjm (am CR n j) *m am CR n j *m phi = (b j)%:R *: phi) -> definite (adjm (OM CR n)) phi.
Proof.
move=> h; apply: (@definite_car _ _ (alphaM CR n) b); [exact: alphas_car|by move=> k; rewrite -al_ga|].
by move=> j hj; rewrite /alphaM hj adjmK h.
Qed.

Variable G : gen CR.
Hypothesis HG : gen_ok G.
Variables (E Lg : forall n, 'M[CR]_n -> 'M[CR]_n) (expm logm : arr -> arr).
Hypotheses (HE : expm_spec E) (HX : computes expm E) (HL : logm_spec E Lg) (HY : computes_u logm Lg).

Lemma rot_definite n (O : 'M[CR]_(2 * n)) (phi : 'cV[CR]_(2 ^ n)) (b : nat -> bool) k : special_orthogonal O ->
  unit_vector phi ->
  (forall j, (j < n)%N -> adjm (am CR n j) *m am CR n j *m phi = (b j)%:R *: phi) -> (0 < k)%N ->
  FAF schur (V2 (ofM (rotM E Lg O *m phi))) k = Ok 0.
Proof.
move=> sO up h k0; have uW := rot_unitary HE HL (so_unitary sO).
have [F [rF oF hF]] := rot_majorana HE HL (so_unitary sO).
apply: (@FAF_definite _ (adjm (OM CR n) *m F^T)) => //.
- apply: unitary_mul; first exact: unitary_adj (OM_u CR n).
  by apply: unitary_tr; rewrite /unitary real_adj.
- exact: unit_mul.
- exact: (definite_rot uW oF hF (fock_definite h)).
Qed.

(* ================================================================== *)
(* C65  the pure free-fermion samplers have zero anti-flatness         *)
(* ================================================================== *)
Lemma rotation_inv n seed (s : st G) (W : 'M[CR]_(2 ^ n)) : (0 < n)%N -> seed_ok seed ->
  (random_FF_rotation expm logm n seed false false s).1 = Ok (ofM W) -> exists2 O, special_orthogonal O & W = rotM E Lg O.
Proof.
move=> n0 hs; have [O [sO _ ->]] := rotationE HG HX HY s n0 hs => /= e; exists O => //.
by have := ofM_inj (okI e).
Qed.

Theorem C65_W0 (n : int) seed (s : st G) k : 0 < n -> seed_ok seed -> (0 < k)%N ->
  exists psi : arr, (random_FF_pure_state_W0 expm logm (PInt n) seed s).1 = Ok psi /\ FAF schur (V2 psi) k = Ok 0.
Proof.
move=> n0 hs k0; have n1 : (0 < `|n|)%N by lia.
have [W [psi [eW e ep u p]]] := C58_W0 HG HE HX HL HY s n0 hs; exists (ofM psi); split=> //.
have [O sO eO] := rotation_inv n1 hs eW; rewrite ep eO.
apply: (@rot_definite _ _ _ (fun _ => false)) => //; first exact: unit_e0.
by move=> j hj; rewrite -mulmxA am_e0 // mulmx0 scale0r.
Qed.

Theorem C65_WN (n : int) N seed (s : st G) k : 0 < n -> valid_N n N -> seed_ok seed -> seed_ok (next_seed seed) -> (0 < k)%N ->
  exists psi : arr, (random_FF_pure_state_WN expm logm (PInt n) N seed s).1 = Ok psi /\ FAF schur (V2 psi) k = Ok 0.
Proof.
move=> n0 vN hs hs' k0; have n1 : (0 < `|n|)%N by lia.
have [m [W [phi [psi [_ [[s' eW] uW] [u o] e [ep _ _]]]]]] := C58_WN HG HE HX HL HY s n0 vN hs hs'.
exists (ofM psi); split=> //; have [O sO eO] := rotation_inv n1 hs' eW; rewrite ep eO.
exact: (@rot_definite _ _ _ (fun j => j < m)%N).
Qed.

Theorem C65_CN (n : nat) seed (s : st G) (O : 'M[CR]_(2 * n)) k : (0 < n)%N -> seed_ok seed -> seed_ok (next_seed seed) ->
  let s1 := (g_randint G n.+1 (seeded seed s)).2 in
  (g_ortho G (2 * n) (seeded (next_seed seed) s1)).1 = ofM O -> no_small ((10%:R ^+ 9)^-1) (ofM (orbM O)) -> (0 < k)%N ->
  exists (P : 'M[CR]_(2 ^ n)) (Y : 'cV[CR]_(2 ^ n)), [/\
    forall v : 'cV[CR]_(2 ^ n), P *m v = v <-> (forall j, (j < n)%N -> adjm (rotated (orbM O) j) *m v = 0),
    (exists s' : st G, (g_randn G (2 ^ n) 1 s').1 = ofM Y) &
    P *m Y != 0 -> exists psi : arr,
      (random_FF_pure_state_CN expm logm (PInt n%:Z) seed s).1 = Ok psi /\ FAF schur (V2 psi) k = Ok 0].
Proof.
move=> n0 hs hs' s1 eO ns k0; have [P [Y [[_ _ hP] hY H]]] := C59_CN HG HX HY n0 hs hs' eO ns.
exists P, Y; split=> // /H[psi [e u _ o]]; exists (ofM psi); split=> //.
have sO : special_orthogonal O.
  have d2 : (1 < 2 * n)%N by lia.
  have [O' eO' sO] := ortho_ok HG (seeded (next_seed seed) s1) d2.
  by rewrite (_ : O = O') //; apply: (@ofM_inj CR); rewrite -eO.
have uC := orb_unitary (so_unitary sO); have syC : symplectic (orbM O) by apply: orb_symp; case: sO.
apply: (@FAF_definite _ (orbM O *m adjm (OM CR n))) => //.
  by apply: unitary_mul => //; exact: unitary_adj (OM_u CR n).
apply: (@definite_car _ _ (rotated (orbM O)) (fun j => (j < (g_randint G n.+1 (seeded seed s)).1)%N)) => //.
  exact: rotated_car.
move=> i; rewrite -act_mul /rotated /rot; apply: eq_bigr => j _.
by rewrite ofM_get -al_ga.
Qed.

Theorem C65_state n fixedN seed (s : st G) k : (0 < n)%N -> seed_ok seed -> (0 < k)%N ->
  exists psi : arr, (random_FF_state expm logm n fixedN seed false true s).1 = Ok (psi, None) /\ FAF schur (V2 psi) k = Ok 0.
Proof.
move=> n0 hs k0; have [O [sO _ e _]] := pureE HG HE HX HL HY fixedN s n0 hs.
exists (ofM (rotM E Lg O *m e0 CR n)); rewrite e; split=> //.
apply: (@rot_definite _ _ _ (fun _ => false)) => //; first exact: unit_e0.
by move=> j hj; rewrite -mulmxA am_e0 // mulmx0 scale0r.
Qed.

Example C65_example (s : st G) : exists psi : arr,
  (random_FF_pure_state_WN expm logm (PInt 3) (Some (PInt 1)) None s).1 = Ok psi /\ FAF schur (V2 psi) 2 = Ok 0.
Proof. exact: C65_WN. Qed.
End Zero.
