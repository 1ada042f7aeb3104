(* RndFacts.v -- contracts of the random samplers and of logm, and the algebra of random free-fermion rotations *)
Set Warnings "-notation-overridden,-ambiguous-paths".
From mathcomp Require Import all_ssreflect all_algebra.
From mathcomp.zify Require Import zify.
From Verif Require Import Base ArrC MCombinatorics MLib JW OpFam FermAlg LibFacts LibFacts2 LibFacts3 Expm ExpmAd.
From Verif Require Import PropLib1 PropLib2 PropLib3 MUtils MRandom.
Set Implicit Arguments.
Unset Strict Implicit.
Unset Printing Implicit Defensive.
Import Order.Theory GRing.Theory Num.Theory.
Local Open Scope ring_scope.

Section Facts.
Variable C : numClosedFieldType.
Local Notation arr := (arr C).
Add Ring cringRF : (ring_of C).

Lemma okI T (x y : T) : Ok x = Ok y -> x = y.
Proof. by case. Qed.

(* a vector of probabilities *)
Definition prob_vector m (s : seq C) := [/\ size s = m, all (fun x => 0 <= x) s & \sum_(x <- s) x = 1].
(* real orthogonal of determinant 1 *)
Definition special_orthogonal n (O : 'M[C]_n) :=
  [/\ forall i j, O i j \is Num.real, O *m O^T = 1%:M & \det O = 1].

(* what is assumed of numpy's and scipy's samplers: every value they can produce is of the advertised kind *)
Record gen_ok (G : gen C) : Prop := GenOk {
  randn_ok : forall m n s, shp (g_randn G m n s).1 m n /\ forall i j, get (g_randn G m n s).1 i j \is Num.real;
  ortho_ok : forall d s, (1 < d)%N -> exists2 O : 'M[C]_d, (g_ortho G d s).1 = ofM O & special_orthogonal O;
  unitary_ok : forall d s, (0 < d)%N -> exists2 U : 'M[C]_d, (g_unitary G d s).1 = ofM U & unitary U;
  dirichlet_ok : forall m s, (0 < m)%N -> prob_vector m (g_dirichlet G m s).1;
  exponential_ok : forall s, 0 <= (g_exponential G s).1;
  randint_ok : forall m s, (0 < m)%N -> ((g_randint G m s).1 < m)%N }.

(* what is assumed of scipy.linalg.logm on unitary matrices (Lg), relative to the exponential E: it is the
   anti-Hermitian principal logarithm.  It respects intertwiners and transposition, and inverts U -> U^+ unless -1 is
   an eigenvalue (the branch cut). *)
Record logm_spec (E Lg : forall n, 'M[C]_n -> 'M[C]_n) : Prop := LogmSpec {
  logm_exp : forall n (U : 'M[C]_n), unitary U -> E n (Lg n U) = U;
  logm_anti : forall n (U : 'M[C]_n), unitary U -> adjm (Lg n U) = - Lg n U;
  logm_inter : forall m n (U : 'M[C]_m) (V : 'M[C]_n) (X : 'M[C]_(m, n)), unitary U -> unitary V ->
     U *m X = X *m V -> Lg m U *m X = X *m Lg n V;
  logm_tr : forall n (U : 'M[C]_n), unitary U -> Lg n U^T = (Lg n U)^T;
  logm_inv : forall n (U : 'M[C]_n), unitary U -> \det (U + 1%:M) != 0 -> Lg n (adjm U) = - Lg n U }.

(* the array routine computes Lg on unitary matrices *)
Definition computes_u (f : arr -> arr) (Lg : forall n, 'M[C]_n -> 'M[C]_n) :=
  forall n (U : 'M[C]_n), unitary U -> f (ofM U) = ofM (Lg n U).

(* seeds accepted by np.random.seed, and the state of the generator after "if seed is not None: np.random.seed(seed)" *)
Definition seed_ok (seed : option int) := if seed is Some z then (0 <= z) && (z < 2%:Z ^+ 32) else true.
Definition seeded (G : gen C) (seed : option int) (s : st G) := if seed is Some z then g_seed G z else s.

Lemma seed_optE (G : gen C) seed (s : st G) : seed_ok seed -> seed_opt seed s = (Ok tt, seeded seed s).
Proof. by case: seed => // z; rewrite /seed_ok /seed_opt /seeded => ->. Qed.

Lemma unitaryC n (U : 'M[C]_n) : unitary U -> adjm U *m U = 1%:M.
Proof. exact: mulmx1C. Qed.
Lemma unitary_adj n (U : 'M[C]_n) : unitary U -> unitary (adjm U).
Proof. by move=> u; rewrite /unitary adjmK; exact: unitaryC. Qed.
Lemma unitary_mul n (U V : 'M[C]_n) : unitary U -> unitary V -> unitary (U *m V).
Proof. by move=> u v; rewrite /unitary adjmM mulmxA -(mulmxA U) v mulmx1. Qed.
Lemma unitary1 n : unitary (1%:M : 'M[C]_n).
Proof. by rewrite /unitary adjm1 mulmx1. Qed.
Lemma unitary_tr n (U : 'M[C]_n) : unitary U -> unitary U^T.
Proof.
move=> u; have e : adjm U^T = (adjm U)^T by rewrite /adjm -map_trmx.
by rewrite /unitary e -trmx_mul unitaryC ?trmx1.
Qed.

Lemma real_adj m n (O : 'M[C]_(m, n)) : (forall i j, O i j \is Num.real) -> adjm O = O^T.
Proof. by move=> r; apply/matrixP => i j; rewrite !mxE; exact/CrealP. Qed.

Lemma so_unitary n (O : 'M[C]_n) : special_orthogonal O -> unitary O.
Proof. by case=> r o _; rewrite /unitary real_adj. Qed.

(* ------------------------------------------------------------------ *)
(* the orbital matrix C = Omega^+ O Omega                               *)
(* ------------------------------------------------------------------ *)
Definition orbM n (O : 'M[C]_(2 * n)) : 'M[C]_(2 * n) := adjm (OM C n) *m O *m OM C n.

Lemma OM_ofM n : build_Omega C n = ofM (OM C n).
Proof. by rewrite /OM ofM_toM ?nr_Om ?nc_Om. Qed.
Lemma OM_u n : unitary (OM C n). Proof. exact: Omega_unitary. Qed.

Lemma orb_unitary n (O : 'M[C]_(2 * n)) : unitary O -> unitary (orbM O).
Proof. by move=> u; apply: unitary_mul; [apply: unitary_mul=> //; apply: unitary_adj|]; exact: OM_u. Qed.

Lemma orb_symp n (O : 'M[C]_(2 * n)) : O *m O^T = 1%:M -> symplectic (orbM O).
Proof.
move=> o; rewrite /symplectic -SM_swap /orbM !trmx_mul.
have -> : adjm (OM C n) *m O *m OM C n *m SM C n *m ((OM C n)^T *m (O^T *m (adjm (OM C n))^T)) =
          adjm (OM C n) *m O *m (OM C n *m SM C n *m (OM C n)^T) *m (O^T *m (adjm (OM C n))^T) by rewrite !mulmxA.
rewrite [OM C n *m _ *m _](Omega_S C n) mulmx1 mulmxA -(mulmxA (adjm _)) o mulmx1.
have u := unitaryC (OM_u n).
rewrite -[X in X *m _]mulmx1 -[in X in X *m _ = _](Omega_S C n) -/(OM C n) !mulmxA u mul1mx -mulmxA -trmx_mul u.
by rewrite trmx1 mulmx1.
Qed.

Lemma orb_inv n (O : 'M[C]_(2 * n)) : OM C n *m orbM O *m adjm (OM C n) = O.
Proof. by rewrite /orbM !mulmxA (OM_u n) mul1mx -mulmxA (OM_u n) mulmx1. Qed.

Lemma orb_det1 n (O : 'M[C]_(2 * n)) : \det (orbM O + 1%:M) = \det (O + 1%:M).
Proof.
have -> : orbM O + 1%:M = adjm (OM C n) *m (O + 1%:M) *m OM C n.
  by rewrite mulmxDr mulmx1 mulmxDl (unitaryC (OM_u n)).
rewrite !det_mulmx mulrC mulrA -det_mulmx (OM_u n); by rewrite det1 mul1r.
Qed.

(* ------------------------------------------------------------------ *)
(* linear action of coefficient matrices on families of operators       *)
(* ------------------------------------------------------------------ *)
Definition act m N (F : 'M[C]_m) (Y : 'I_m -> 'M[C]_N) (k : 'I_m) : 'M[C]_N := \sum_j F k j *: Y j.

Lemma act_mul m N (F G : 'M[C]_m) (Y : 'I_m -> 'M[C]_N) k : act F (act G Y) k = act (F *m G) Y k.
Proof.
rewrite /act; under eq_bigr do rewrite scaler_sumr.
rewrite exchange_big /=; apply: eq_bigr => j _; rewrite mxE scaler_suml; apply: eq_bigr => i _.
by rewrite scalerA.
Qed.
Lemma act1 m N (Y : 'I_m -> 'M[C]_N) k : act 1%:M Y k = Y k.
Proof.
rewrite /act (bigD1 k) //= mxE eqxx scale1r big1 ?addr0 // => j /negPf nj.
by rewrite mxE eq_sym nj scale0r.
Qed.
Lemma eq_act m N (F : 'M[C]_m) (Y Z : 'I_m -> 'M[C]_N) k : Y =1 Z -> act F Y k = act F Z k.
Proof. by move=> e; apply: eq_bigr => j _; rewrite e. Qed.
Lemma act_conj m N (F : 'M[C]_m) (Y : 'I_m -> 'M[C]_N) k (A B : 'M[C]_N) :
  A *m act F Y k *m B = act F (fun j => A *m Y j *m B) k.
Proof. by rewrite mulmx_sumr mulmx_suml; apply: eq_bigr => j _; rewrite -scalemxAr -scalemxAl. Qed.

Definition al n (k : 'I_(2 * n)) := alphaM C n k.
Definition ga n (k : 'I_(2 * n)) := gam C n k.

Lemma ga_al n k : @ga n k = act (OM C n) (@al n) k.
Proof. by apply: eq_bigr => j _; rewrite mxE get_Omega. Qed.
Lemma al_ga n k : @al n k = act (adjm (OM C n)) (@ga n) k.
Proof. by rewrite (eq_act _ _ (@ga_al n)) act_mul (unitaryC (OM_u n)) act1. Qed.

(* conjugation by the exponential of a lift acts linearly on the ladder operators *)
Section Conj.
Variable E : forall n, 'M[C]_n -> 'M[C]_n.
Hypothesis HE : expm_spec E.

Definition adM n (R : 'M[C]_(2 * n)) : 'M[C]_(2 * n) := R - swapM C n *m R^T *m swapM C n.

Lemma lift_conj n (R : 'M[C]_(2 * n)) k : let X := lift_spec R (alphaM C n) in
  E (- X) *m al k *m E X = act (E (adM R)) (@al n) k.
Proof.
move=> X; rewrite -{2}[X]opprK; apply: (expm_ad HE) => i.
have := lift_comm (alphas_car C n) (get (ofM R)) (ltn_ord i); rewrite -lift_qlift -/X => h.
rewrite mulNmx mulmxN opprK addrC -opprB h -sumrN; apply: eq_bigr => j _; rewrite -scaleNr opprB; congr (_ *: _).
rewrite [RHS]mxE [X in _ = _ + X]mxE SXS ofM_get; congr (_ - _).
by rewrite mxE -[RHS]ofM_get.
Qed.

Lemma lift_conj_ga n (R : 'M[C]_(2 * n)) k : let X := lift_spec R (alphaM C n) in
  E (- X) *m ga k *m E X = act (OM C n *m E (adM R) *m adjm (OM C n)) (@ga n) k.
Proof.
move=> X; rewrite ga_al act_conj (eq_act _ _ (lift_conj R)) -act_mul -act_mul.
rewrite act_mul -act_mul; apply: eq_act => j; apply: eq_act => i; exact: al_ga.
Qed.

Lemma adM_ph n (R : 'M[C]_(2 * n)) : ph_anti R -> adM R = 2%:R *: R.
Proof. by move=> h; rewrite /adM h opprK scaler_nat mulr2n. Qed.
End Conj.

(* parity *)
Lemma parity_al n (k : 'I_(2 * n)) : parity C n *m al k = - (al k *m parity C n).
Proof.
have hk := ltn_ord k; rewrite /al /alphaM; case: ltnP => h; last by apply: parity_am; lia.
have := congr1 (@adjm C _ _) (parity_am C h); rewrite adjmN !adjmM parity_adj => e.
by rewrite e opprK.
Qed.

Lemma parity_adj_al n (k : 'I_(2 * n)) : parity C n *m adjm (al k) = - (adjm (al k) *m parity C n).
Proof.
by have := congr1 (@adjm C _ _) (parity_al k); rewrite adjmN !adjmM parity_adj => e; rewrite e opprK.
Qed.

Lemma parity_pair n (A B P : 'M[C]_(2 ^ n)) : P *m A = - (A *m P) -> P *m B = - (B *m P) ->
  P *m (A *m B) = A *m B *m P.
Proof. by move=> hA hB; rewrite mulmxA hA mulNmx -mulmxA hB mulmxN opprK mulmxA. Qed.

Lemma parity_lift n (R : 'M[C]_(2 * n)) : parity C n *m lift_spec R (alphaM C n) = lift_spec R (alphaM C n) *m parity C n.
Proof.
rewrite /lift_spec mulmx_sumr mulmx_suml; apply: eq_bigr => i _; rewrite mulmx_sumr mulmx_suml; apply: eq_bigr => j _.
by rewrite -scalemxAr -scalemxAl; congr (_ *: _); apply: parity_pair; [exact: parity_adj_al|exact: parity_al].
Qed.

(* ------------------------------------------------------------------ *)
(* real orthogonal rotations of the Majorana operators                  *)
(* ------------------------------------------------------------------ *)
Lemma act_anti n (F G : 'I_(2 * n) -> C) :
  (\sum_j F j *: @ga n j) *m (\sum_j G j *: @ga n j) + (\sum_j G j *: @ga n j) *m (\sum_j F j *: @ga n j)
  = (\sum_j F j * G j)%:M.
Proof.
rewrite !mulmx_suml; under eq_bigr do rewrite mulmx_sumr.
under [X in _ + X]eq_bigr do rewrite mulmx_sumr.
rewrite [X in _ + X]exchange_big /= -big_split /= raddf_sum; apply: eq_bigr => a _.
rewrite -big_split /= (bigD1 a) //= big1 ?addr0 => [|b ne].
  by rewrite -!scalemxAl -!scalemxAr !scalerA [G a * _]mulrC -scalerDr gam_anti // eqxx scale_scalar_mx mulr1.
by rewrite -!scalemxAl -!scalemxAr !scalerA [G b * _]mulrC -scalerDr gam_anti // val_eqE eq_sym (negPf ne) scale_scalar_mx mulr0 raddf0.
Qed.

Lemma scalar_inj N (a b : C) : (0 < N)%N -> (a%:M : 'M[C]_N) = b%:M -> a = b.
Proof. by move=> n0 /matrixP/(_ (Ordinal n0) (Ordinal n0)); rewrite !mxE eqxx !mulr1n. Qed.

(* a unitary that maps every Majorana operator to a combination of Majorana operators acts by a real orthogonal matrix *)
Lemma rotation_real n (W : 'M[C]_(2 ^ n)) (F : 'M[C]_(2 * n)) : unitary W ->
  (forall k, adjm W *m ga k *m W = act F (@ga n) k) -> (forall i j, F i j \is Num.real) /\ F *m F^T = 1%:M.
Proof.
move=> uW h; have W2 := unitaryC uW; have p0 := pow2_gt0 n.
have Gh (k : 'I_(2 * n)) : adjm (ga k) = ga k by exact: gam_herm.
have real k j : F k j \is Num.real.
  have hh : adjm (act F (@ga n) k) = act F (@ga n) k by rewrite -h !adjmM adjmK Gh mulmxA.
  have ha : adjm (act F (@ga n) k) = \sum_j (F k j)^* *: ga j.
    by rewrite adjm_sum; apply: eq_bigr => i _; rewrite adjmZ Gh.
  have d : \sum_i (F k i - (F k i)^*) *: ga i = 0 :> 'M[C]_(2 ^ n).
    by under eq_bigr do rewrite scalerBl; rewrite sumrB -ha hh -/(act F (@ga n) k) subrr.
  have := act_anti (fun i => F k i - (F k i)^*) (fun i => (i == j)%:R).
  rewrite d mul0mx mulmx0 addr0 => /esym; rewrite -(raddf0 (@scalar_mx_additive C (2 ^ n))) => /(scalar_inj p0).
  rewrite (bigD1 j) //= eqxx mulr1 big1 ?addr0 => [/eqP|i /negPf ->]; last by rewrite mulr0.
  by rewrite subr_eq0 => /eqP e; apply/CrealP.
split=> //; apply/matrixP => k l.
have aux a b : adjm W *m a *m W *m (adjm W *m b *m W) = adjm W *m (a *m b) *m W.
  by rewrite -!mulmxA (mulmxA W) uW mul1mx.
have := act_anti (F k) (F l); rewrite -!/(act _ _ _) -!h !aux -mulmxDl -mulmxDr gam_anti // mul_mx_scalar -scalemxAl W2 scalemx1.
move=> /(scalar_inj p0) e; rewrite !mxE -val_eqE e; apply: eq_bigr => j _; by rewrite mxE.
Qed.

End Facts.
