(* PropDist9.v -- property C82: the anti-flatness of thermal states of free-fermion Hamiltonians *)
Set Warnings "-notation-overridden,-ambiguous-paths".
From Coq Require Import Reals Lra.
From mathcomp Require Import all_ssreflect all_algebra.
From mathcomp Require Import complex.
From mathcomp.zify Require Import zify.
From Verif Require Import Base ArrC MCombinatorics MLib JW OpFam FermAlg LibFacts LibFacts2 LibFacts3 MUtils Spectral NormalCalc Expm RealC Info MDist
  PropLib1 PropLib2 PropLib3 PropLib4 PropUtils1 PropUtils2 PropDist1 PropDist2 Skew MRandom ExpmAd RndFacts PropThermal PropEigh2 ManyBody PropModes
  Limits RExp RLog PropDist4 PropDist5 PropDist8 PropExpm.
Set Implicit Arguments.
Unset Strict Implicit.
Unset Printing Implicit Defensive.
Import Order.Theory GRing.Theory Num.Theory.
Local Open Scope ring_scope.

Section Gen.
Variable C : numClosedFieldType.
Variable E : forall n, 'M[C]_n -> 'M[C]_n.
Hypothesis HE : expm_spec E.
Variables (n : nat) (S : nat -> C).
Hypothesis rS : forall k, S k \is Num.real.

Let H : 'M[C]_(2 ^ n) := mode_sum (alphaM C n) S.
Let w (i : nat) : C := cexp E (2%:R * (if (i < n)%N then - S i else S (i - n)%N)).

Lemma std_adM : adM (std_form n S) = diag_mx (\row_i (2%:R * (if (i < n)%N then - S i else S (i - n)%N))).
Proof.
apply/matrixP => i j; rewrite [LHS]mxE [X in _ + X]mxE SXS !mxE.
have hi := ltn_ord i; have hj := ltn_ord j.
case: (eqVneq i j) => [<-|ij].
  rewrite !eqxx mulr1n /= /sw mulr_natl mulr2n; case: (ltnP i n) => h; first by rewrite ltnNge leq_addl /= addnK.
  by rewrite (_ : (i - n < n)%N) ?opprK //; lia.
rewrite mulr0n ifF ?subr0 //; apply/negP => /eqP/(congr1 val) /= e; case/eqP: ij; apply: val_inj.
by move: (congr1 (sw n) e); rewrite !swK.
Qed.

Lemma H_herm : hermitian H.
Proof.
rewrite /hermitian /H /mode_sum adjm_sum; apply: eq_bigr => k _.
by rewrite adjmZ adjmB !adjmM !adjmK (CrealP (rS _)).
Qed.

Lemma gibbs_pcorr (i j : 'I_(2 * n)) : 1 + w i != 0 /\
  \tr (gibbs E H *m alphaM C n i *m adjm (alphaM C n j)) = (i == j)%:R * (w i / (1 + w i)).
Proof.
have cA := alphas_car C n.
have [_ t1] : density (gibbs E H) by apply: gibbs_density => //; [exact: pow2_gt0|exact: H_herm].
have qf := gibbs_qf HE (std_form n S) cA; rewrite lift_std // -/H in qf.
have uF := expm_unit HE (adM (std_form n S)).
have u := qf_unit cA qf uF t1; have := qf_p cA qf t1.
have eF : E (adM (std_form n S)) = diag_mx (\row_i w i).
  by rewrite std_adM (expm_diag HE); congr diag_mx; apply/matrixP => a b; rewrite !mxE.
rewrite eF; rewrite eF in u.
have e1 : 1%:M + diag_mx (\row_i w i) = diag_mx (\row_i (1 + w i)) :> 'M_(2 * n).
  by apply/matrixP => a b; rewrite !mxE -mulrnDl.
rewrite e1; rewrite e1 unitmxE det_diag unitfE in u => e.
have w0 : 1 + w i != 0 by move/prodf_neq0: u => /(_ i isT); rewrite mxE.
split=> //; move/matrixP: e => /(_ i j); rewrite mul_diag_mx !mxE => e.
apply: (mulfI w0); rewrite e mulrCA [_ * (w i / _)]mulrC mulfVK //.
by case: eqP => [->|_]; rewrite ?mulr1n ?mul1r ?mulr0n ?mul0r.
Qed.
End Gen.

Lemma ce_real t : ce (toC t) = toC (exp t).
Proof.
have h1 : cvg (fun N => spsum (toC t) N.+1) (ce (toC t)).
  by apply: (cvg_shift (f := succn)) (ce_cvg _) => n.
have h2 : Un_cv (sum_f_R0 (fun i => Rmult (Rinv (INR (Factorial.fact i))) (pow t i))) (exp t).
  by rewrite /exp; case: (exist_exp t).
apply: cvg_uniq h1 _; apply: cvg_ext (cvg_toC h2) => N.
rewrite sum_toC spsumE; apply: eq_bigr => k _.
by rewrite cfE -exprRE rmorphM rmorphX.
Qed.

Lemma tanhE t : 1 - 2%:R * (exp (- (2%:R * t)) / (1 + exp (- (2%:R * t)))) = tanh t :> R.
Proof.
have e : exp (- (2%:R * t)) = exp (- t) * exp (- t) by rewrite -expRD; congr exp; rring.
have e0 := expR_gt0 (- t); have p : 0 < 1 + exp (- t) * exp (- t) by rewrite (lt_le_trans ltr01) // ler_addl mulr_ge0 ?ltW.
rewrite e /tanh /sinh /cosh; have -> : exp t = (exp (- t))^-1 by rewrite -expRN opprK.
have iE (z : R) : 0 < z -> z^-1 = Rinv z by move=> z0; rewrite -[z^-1]/(Rinvx z) /Rinvx gt_eqF.
rewrite -[Ropp t]/(- t); move: (exp (- t)) e0 p => y y0 p; rewrite !iE // natrZ.
move/RltP: y0 => y0.
change (Rminus (IZR 1) (Rmult (IZR 2) (Rmult (Rmult y y) (Rinv (Rplus (IZR 1) (Rmult y y))))) =
  Rdiv (Rdiv (Rminus (Rinv y) y) (IZR 2)) (Rdiv (Rplus (Rinv y) y) (IZR 2))).
move/RltP: p => p.
change (Rlt (IZR 0) (Rplus (IZR 1) (Rmult y y))) in p.
change (Rlt (IZR 0) y) in y0.
field; lra.
Qed.

Lemma density_rot m (W rho : 'M[CR]_m) : unitary W -> density rho -> density (W *m rho *m adjm W).
Proof.
move=> uW [p t]; have W2 : adjm W *m W = 1%:M := mulmx1C uW; split; last by rewrite mxtrace_mulC mulmxA W2 mul1mx.
by have := psd_congr (adjm W) p; rewrite adjmK.
Qed.

Lemma gibbs_rot (E : forall n, 'M[CR]_n -> 'M[CR]_n) m (W H : 'M[CR]_m) : expm_spec E -> unitary W ->
  gibbs E (W *m H *m adjm W) = W *m gibbs E H *m adjm W.
Proof.
move=> HE uW; have W2 : adjm W *m W = 1%:M := mulmx1C uW.
have e : E m (- (W *m H *m adjm W)) = W *m E m (- H) *m adjm W.
  have h : - (W *m H *m adjm W) *m W = W *m (- H) by rewrite mulNmx mulmxN -mulmxA W2 mulmx1.
  by have := expm_inter HE h => <-; rewrite -[RHS]mulmxA (uW : W *m adjm W = 1%:M) mulmx1.
by rewrite /gibbs e mxtrace_mulC mulmxA W2 mul1mx -scalemxAr -scalemxAl.
Qed.

(* thermal state of sum_j S_j (a_j^+ a_j - a_j a_j^+), or of a free-fermion rotation of it (for instance the operator of
   C72_modes): FAF is n - sum_j tanh(S_j)^(2k), without the terms |tanh S_j| <= 1e-10 *)
Theorem C82_thermal schur E expm n (W : 'M[CR]_(2 ^ n)) O (S : nat -> R) : schur_spec schur ->
  expm_spec E -> computes expm E -> (forall t : R, E 1%N (toC t)%:M = (toC (exp t))%:M) ->
  unitary W -> implements W O ->
  let H := W *m (\sum_(j < n) toC (S j) *: (adjm (am CR n j) *m am CR n j - am CR n j *m adjm (am CR n j))) *m adjm W in
  exists rho : 'M[CR]_(2 ^ n), generate_gaussian_state expm n (ofM H) None = Ok (Some (ofM rho)) /\
  forall k, (0 < k)%N -> FAF schur (V2 (ofM rho)) k =
    Ok (n%:R - \sum_(j < n | (10%:R ^+ 10)^-1 < `|tanh (S j)|) tanh (S j) ^+ (2 * k)).
Proof.
move=> sP HE Hf eE uW hO H; pose Sc k := toC (S k).
have rS k : Sc k \is Num.real by exact: toC_real.
pose H0 : 'M[CR]_(2 ^ n) := mode_sum (alphaM CR n) Sc.
have eH : H = W *m H0 *m adjm W.
  rewrite /H /H0 /mode_sum; congr (_ *m _ *m _); apply: eq_bigr => j _; by rewrite /alphaM ltn_ord adjmK.
have hH0 : hermitian H0 := H_herm n rS.
have hH : hermitian H by rewrite eH /hermitian !adjmM adjmK hH0 mulmxA.
exists (gibbs E H); split; first by have [] := C46_full HE Hf hH.
rewrite eH gibbs_rot //; have d : density (gibbs E H0) by apply: gibbs_density => //; exact: pow2_gt0.
pose f j : R := exp (- (2%:R * S j)) / (1 + exp (- (2%:R * S j))).
have pc := @gibbs_pcorr CR E HE n Sc rS.
have paa i j : (i < n)%N -> (j < n)%N -> \tr (gibbs E H0 *m (am CR n i *m am CR n j)) = 0.
  move=> hi hj; have hi' : (i + n < 2 * n)%N by lia. have hj' : (j < 2 * n)%N by lia.
  have [_] := pc (Ordinal hi') (Ordinal hj').
  by rewrite /alphaM /= ltnNge leq_addl /= addnK hj adjmK -mulmxA => ->; rewrite -val_eqE /= gtn_eqF ?mul0r //; lia.
have pda i j : (i < n)%N -> (j < n)%N -> \tr (gibbs E H0 *m (adjm (am CR n i) *m am CR n j)) = (i == j)%:R * toC (f i).
  move=> hi hj; have hi' : (i < 2 * n)%N by lia. have hj' : (j < 2 * n)%N by lia.
  have [_] := pc (Ordinal hi') (Ordinal hj').
  rewrite /alphaM /= hi hj adjmK -mulmxA => ->; rewrite -val_eqE /=; congr (_ * _).
  have -> : 2%:R * - Sc i = toC (- (2%:R * S i)) by rewrite rmorphN rmorphM /= toC_nat mulrN.
  rewrite /cexp eE mxE eqxx mulr1n /f rmorphM fmorphV rmorphD rmorph1 //.
have dr : density (W *m gibbs E H0 *m adjm W) by exact: density_rot.
have [_ h] := C82_modes sP uW hO d (C25_density dr) paa pda.
move=> k k0; rewrite (h k k0); congr (Ok (_ - _)).
by apply: eq_big => j; rewrite /f tanhE.
Qed.

(* the hypotheses on E are those of the exponential series *)
Lemma C82_exponential t : expmR ((toC t)%:M : 'M[CR]_1) = (toC (exp t))%:M.
Proof. by apply/matrixP => i j; rewrite !ord1 [RHS]mxE mulr1n; exact: ce_real. Qed.

Lemma implements_1 n : unitary (1%:M : 'M[CR]_(2 ^ n)) /\ implements (1%:M : 'M[CR]_(2 ^ n)) 1%:M.
Proof.
split; first by rewrite /unitary adjm1 mulmx1.
move=> j; rewrite adjm1 mul1mx mulmx1 (bigD1 j) //= mxE eqxx rmorph1 scale1r big1 ?addr0 // => l nl.
by rewrite mxE eq_sym (negPf nl) rmorph0 scale0r.
Qed.

Lemma tanh1 : 3%:R^-1 <= tanh 1 :> R.
Proof.
rewrite -tanhE mulr1; have h := expR_ge1 2%:R; have e0 := expR_gt0 (- 2%:R).
have e : exp (- 2%:R) * exp 2%:R = 1 by rewrite -expRD addNr expR0.
move: (exp (- 2%:R)) (exp 2%:R) e h e0 => y z e h y0.
have y3 : y * 3%:R <= 1.
  by rewrite -[X in _ <= X]e ler_pmul2l // mulrS.
have p : 0 < 1 + y by rewrite addr_gt0 // ltr01.
rewrite -(ler_pmul2r p) mulrBl mul1r -mulrA divfK ?gt_eqF //; rlra.
Qed.

(* n modes at S = 1: FAF = n (1 - tanh(1)^(2k)) *)
Example C82_example n : exists schur expm (rho : 'M[CR]_(2 ^ n)), [/\ schur_spec schur, computes expm expmR,
  generate_gaussian_state expm n (ofM (\sum_(j < n) (adjm (am CR n j) *m am CR n j - am CR n j *m adjm (am CR n j)))) None =
    Ok (Some (ofM rho)) &
  forall k, (0 < k)%N -> FAF schur (V2 (ofM rho)) k = Ok (n%:R * (1 - tanh 1 ^+ (2 * k)))].
Proof.
have [schur sP] := schur_exists; have Hf : computes (PropExpm.lift_routine expmR) expmR by move=> m A; exact: PropExpm.lift_routineE.
have [u1 i1] := implements_1 n.
have [rho [e1 e2]] := C82_thermal (fun _ => 1) sP expmR_spec Hf C82_exponential u1 i1.
exists schur, (PropExpm.lift_routine expmR), rho.
have e3 : generate_gaussian_state (PropExpm.lift_routine expmR) n
    (ofM (\sum_(j < n) (adjm (am CR n j) *m am CR n j - am CR n j *m adjm (am CR n j)))) None = Ok (Some (ofM rho)).
  by move: e1; rewrite adjm1 mulmx1 mul1mx; under eq_bigr do rewrite rmorph1 scale1r.
apply: (And4 sP Hf e3) => k k0; apply: etrans (e2 k k0) _; congr Ok.
have th : (10%:R ^+ 10)^-1 < `|tanh 1 : R|.
  have t := tanh1; have p : 0 < 3%:R^-1 :> R by rewrite invr_gt0 ltr0n.
  rewrite ger0_norm ?(le_trans (ltW p)) //; apply: lt_le_trans t.
  by rewrite ltf_pinv ?posrE ?exprn_gt0 ?ltr0n // (@lt_le_trans _ _ (10%:R ^+ 1)) ?ler_weexpn2l ?ltr_nat ?ler1n.
rewrite (eq_bigl xpredT) => [|j]; last by rewrite th.
by rewrite sumr_const card_ord mulrBr mulr1 mulr_natl.
Qed.
