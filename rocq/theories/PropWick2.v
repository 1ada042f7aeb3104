(* PropWick2.v -- property C71 for the pure free-fermion samplers *)
Set Warnings "-notation-overridden,-ambiguous-paths".
From Coq Require Import Reals Epsilon Classical.
From mathcomp Require Import all_ssreflect all_algebra.
From mathcomp Require Import complex.
From mathcomp.zify Require Import zify.
From Verif Require Import Base ArrC MCombinatorics MLib JW OpFam FermAlg LibFacts LibFacts2 LibFacts3 MUtils Spectral RealC Info MDist.
From Verif Require Import PropLib1 PropLib2 PropLib3 PropUtils1 PropUtils2 PropDist1 PropDist2 Skew PropDist4 PropDist5.
From Verif Require Import Expm ExpmAd MRandom RndFacts PropRandom1 PropRandom2 PropRandom4 PropRandom6 Wick PropWick.
Set Implicit Arguments.
Unset Strict Implicit.
Unset Printing Implicit Defensive.
Import Order.Theory GRing.Theory Num.Theory.
Local Open Scope ring_scope.

Local Notation arr := (arr CR).

Lemma wick_pure n (Z : 'M[CR]_(2 * n)) (psi : 'cV[CR]_(2 ^ n)) : unitary Z -> unit_vector psi -> definite Z psi ->
  wick_state (psi *m adjm psi).
Proof.
move=> uZ up df; set rho := psi *m adjm psi.
have t1 : \tr rho = 1 by rewrite /rho mxtrace_mulC up mxtrace1.
have dr k : (\sum_j Z k j *: gam CR n j) *m rho = 0 \/ rho *m (\sum_j Z k j *: gam CR n j) = 0.
  by case: (df k) => e; [left; rewrite /rho mulmxA e mul0mx|right; rewrite /rho -mulmxA e mulmx0].
have sg (i j : 'I_(2 * n)) : gam CR n i *m gam CR n j + gam CR n j *m gam CR n i = ((i == j)%:R)%:M.
  by rewrite gam_anti.
have uz : Z \in unitmx by have [] := mulmx1_unit uZ.
have sp y : spanned (alphaM CR n) (2 * n) y -> spanned (gam CR n) (2 * n) y.
  move=> [c ->]; exists (fun k => \sum_j c j * adjm (OM CR n) j k).
  rewrite (eq_bigr (fun j => \sum_k (c j * adjm (OM CR n) j k) *: gam CR n k)); last first.
    by move=> j _; rewrite -[alphaM CR n j]/(al CR j) al_ga /act scaler_sumr; apply: eq_bigr => k _; rewrite scalerA.
  by rewrite exchange_big /=; apply: eq_bigr => k _; rewrite scaler_suml.
apply: wick_state_of => m x hx; first exact: (wick_definite t1 sg uz dr m (fun a => sp _ (hx a))).
move=> om; have -> : m = m./2.*2.+1 by rewrite -[LHS]odd_double_half om.
exact: (odd_definite t1 sg uz dr _ (fun a => sp _ (hx a))).
Qed.

Section Samplers.
Variable G : gen CR.
Hypothesis HG : gen_ok G.
Variables (E Lg : forall n, 'M[CR]_n -> 'M[CR]_n) (expm logm : arr -> arr).
Hypotheses (HE : expm_spec E) (HX : computes expm E) (HL : logm_spec E Lg) (HY : computes_u logm Lg).

Lemma rot_wick n (O : 'M[CR]_(2 * n)) (phi : 'cV[CR]_(2 ^ n)) (b : nat -> bool) : special_orthogonal O ->
  unit_vector phi ->
  (forall j, (j < n)%N -> adjm (am CR n j) *m am CR n j *m phi = (b j)%:R *: phi) ->
  wick_state (rotM E Lg O *m phi *m adjm (rotM E Lg O *m phi)).
Proof.
move=> sO up h; have uW := rot_unitary HE HL (so_unitary sO).
have [F [rF oF hF]] := rot_majorana HE HL (so_unitary sO).
apply: (@wick_pure _ (adjm (OM CR n) *m F^T)) => //.
- apply: unitary_mul; first exact: unitary_adj (OM_u CR n).
  by apply: unitary_tr; rewrite /unitary real_adj.
- exact: unit_mul.
- exact: (definite_rot uW oF hF (fock_definite h)).
Qed.

Theorem C71_W0 (n : int) seed (s : st G) : 0 < n -> seed_ok seed ->
  exists psi : 'cV[CR]_(2 ^ `|n|), (random_FF_pure_state_W0 expm logm (PInt n) seed s).1 = Ok (ofM psi) /\
    wick_state (psi *m adjm psi).
Proof.
move=> n0 hs; have n1 : (0 < `|n|)%N by lia.
have [W [psi [eW e ep u p]]] := C58_W0 HG HE HX HL HY s n0 hs; exists psi; split=> //.
have [O sO eO] := rotation_inv HG HX HY n1 hs eW; rewrite ep eO.
apply: (@rot_wick _ _ _ (fun _ => false)) => //; first exact: unit_e0.
by move=> j hj; rewrite -mulmxA am_e0 // mulmx0 scale0r.
Qed.

Theorem C71_WN (n : int) N seed (s : st G) : 0 < n -> valid_N n N -> seed_ok seed -> seed_ok (next_seed seed) ->
  exists psi : 'cV[CR]_(2 ^ `|n|), (random_FF_pure_state_WN expm logm (PInt n) N seed s).1 = Ok (ofM psi) /\
    wick_state (psi *m adjm psi).
Proof.
move=> n0 vN hs hs'; have n1 : (0 < `|n|)%N by lia.
have [m [W [phi [psi [_ [[s' eW] uW] [u o] e [ep _ _]]]]]] := C58_WN HG HE HX HL HY s n0 vN hs hs'.
exists psi; split=> //; have [O sO eO] := rotation_inv HG HX HY n1 hs' eW; rewrite ep eO.
exact: (@rot_wick _ _ _ (fun j => j < m)%N).
Qed.

Theorem C71_CN (n : nat) seed (s : st G) (O : 'M[CR]_(2 * n)) : (0 < n)%N -> seed_ok seed -> seed_ok (next_seed seed) ->
  let s1 := (g_randint G n.+1 (seeded seed s)).2 in
  (g_ortho G (2 * n) (seeded (next_seed seed) s1)).1 = ofM O -> no_small ((10%:R ^+ 9)^-1) (ofM (orbM O)) ->
  exists (P : 'M[CR]_(2 ^ n)) (Y : 'cV[CR]_(2 ^ n)), [/\
    forall v : 'cV[CR]_(2 ^ n), P *m v = v <-> (forall j, (j < n)%N -> adjm (rotated (orbM O) j) *m v = 0),
    (exists s' : st G, (g_randn G (2 ^ n) 1 s').1 = ofM Y) &
    P *m Y != 0 -> exists psi : 'cV[CR]_(2 ^ n),
      (random_FF_pure_state_CN expm logm (PInt n%:Z) seed s).1 = Ok (ofM psi) /\ wick_state (psi *m adjm psi)].
Proof.
move=> n0 hs hs' s1 eO ns; have [P [Y [[_ _ hP] hY H]]] := C59_CN HG HX HY n0 hs hs' eO ns.
exists P, Y; split=> // /H[psi [e u _ o]]; exists psi; split=> //.
have sO : special_orthogonal O.
  have d2 : (1 < 2 * n)%N by lia.
  have [O' eO' sO] := ortho_ok HG (seeded (next_seed seed) s1) d2.
  by rewrite (_ : O = O') //; apply: (@ofM_inj CR); rewrite -eO.
have uC := orb_unitary (so_unitary sO); have syC : symplectic (orbM O) by apply: orb_symp; case: sO.
apply: (@wick_pure _ (orbM O *m adjm (OM CR n))) => //.
  by apply: unitary_mul => //; exact: unitary_adj (OM_u CR n).
apply: (@definite_car _ _ (rotated (orbM O)) (fun j => (j < (g_randint G n.+1 (seeded seed s)).1)%N)) => //.
  exact: rotated_car.
move=> i; rewrite -act_mul /rotated /rot; apply: eq_bigr => j _.
by rewrite ofM_get -al_ga.
Qed.

Theorem C71_state n fixedN seed (s : st G) : (0 < n)%N -> seed_ok seed ->
  exists psi : 'cV[CR]_(2 ^ n), (random_FF_state expm logm n fixedN seed false true s).1 = Ok (ofM psi, None) /\
    wick_state (psi *m adjm psi).
Proof.
move=> n0 hs; have [O [sO _ e _]] := pureE HG HE HX HL HY fixedN s n0 hs.
exists (rotM E Lg O *m e0 CR n); rewrite e; split=> //.
apply: (@rot_wick _ _ _ (fun _ => false)) => //; first exact: unit_e0.
by move=> j hj; rewrite -mulmxA am_e0 // mulmx0 scale0r.
Qed.

(* density-density correlation of a sampled pure state *)
Example C71_pure_example (s : st G) : exists psi : 'cV[CR]_(2 ^ 3), let rho := psi *m adjm psi in
  let a := am CR 3 in let g X Y := \tr (rho *m X *m Y) in
  (random_FF_pure_state_WN expm logm (PInt 3) (Some (PInt 1)) None s).1 = Ok (ofM psi) /\
  \tr (rho *m adjm (a 0%N) *m a 0%N *m adjm (a 1%N) *m a 1%N) =
  g (adjm (a 0%N)) (a 0%N) * g (adjm (a 1%N)) (a 1%N) - g (adjm (a 0%N)) (adjm (a 1%N)) * g (a 0%N) (a 1%N) +
  g (adjm (a 0%N)) (a 1%N) * g (a 0%N) (adjm (a 1%N)).
Proof.
have [|psi [e w]] := @C71_WN 3 (Some (PInt 1)) None s isT _ isT isT; first by [].
exists psi; split=> //.
pose y k := alphaM CR 3 (nth 0%N [:: 0; 3; 1; 4]%N k).
have sp k : spanned (alphaM CR 3) (2 * 3) (y k).
  have hk : (nth 0 [:: 0; 3; 1; 4] k < 2 * 3)%N by case: k => [|[|[|[|k]]]] //=; rewrite nth_nil.
  exists (fun j => (j == Ordinal hk)%:R); rewrite (bigD1 (Ordinal hk)) //= eqxx scale1r big1 ?addr0 // => j /negbTE ->.
  by rewrite scale0r.
by have := C71_example w sp.
Qed.
End Samplers.
