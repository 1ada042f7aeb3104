(* PropThermal.v -- property C70: two-point correlations of the states built by generate_gaussian_state *)
Set Warnings "-notation-overridden,-ambiguous-paths".
From mathcomp Require Import all_ssreflect all_algebra.
From mathcomp.zify Require Import zify.
From Verif Require Import Base ArrC MLib JW OpFam FermAlg LibFacts LibFacts2 LibFacts3 Expm Spectral NormalCalc PropLib1 PropLib2 PropLib3 PropLib4
  MRandom ExpmAd RndFacts.
Set Implicit Arguments.
Unset Strict Implicit.
Unset Printing Implicit Defensive.
Import Order.Theory GRing.Theory Num.Theory.
Local Open Scope ring_scope.

Section Thermal.
Variable C : numClosedFieldType.
Local Notation arr := (arr C).

(* rho A_i = sum_k F_ik A_k rho *)
Definition quasifree N n (rho : 'M[C]_N) (A : nat -> 'M[C]_N) (F : 'M[C]_(2 * n)) :=
  forall i : 'I_(2 * n), rho *m A i = \sum_k F i k *: (A k *m rho).

Section Two.
Variables (N n : nat) (rho : 'M[C]_N) (A : nat -> 'M[C]_N) (F : 'M[C]_(2 * n)).
Hypotheses (cA : car n A) (qf : quasifree rho A F) (uF : F \in unitmx) (t1 : \tr rho = 1).

Lemma qf_tr (i : 'I_(2 * n)) (X : 'M[C]_N) : \tr (rho *m A i *m X) = \sum_k F i k * \tr (rho *m (X *m A k)).
Proof.
rewrite qf mulmx_suml raddf_sum /=; apply: eq_bigr => k _.
by rewrite -scalemxAl mxtraceZ -mulmxA mxtrace_mulC mulmxA.
Qed.

Lemma qf_p : (1%:M + F) *m pcorr rho A (2 * n) = F.
Proof.
have e : pcorr rho A (2 * n) + (hcorr rho A (2 * n))^T = 1%:M.
  apply/matrixP => i j; rewrite !mxE -raddfD /= -!mulmxA -mulmxDr (car_adj cA) //.
  by rewrite mul_mx_scalar mxtraceZ t1 mulr1.
have -> : (1%:M + F) *m pcorr rho A (2 * n) = F *m (hcorr rho A (2 * n))^T + F *m pcorr rho A (2 * n).
  rewrite mulmxDl mul1mx; congr (_ + _); apply/matrixP => i j; rewrite [LHS]mxE qf_tr mxE; apply: eq_bigr => k _.
  by rewrite !mxE mulmxA.
by rewrite -mulmxDr addrC e mulmx1.
Qed.

Lemma qf_unit : 1%:M + F \in unitmx.
Proof.
have := congr1 (fun M => \det M) qf_p; rewrite det_mulmx => e; move: uF; rewrite !unitmxE -e !unitfE.
by rewrite mulf_eq0 negb_or => /andP[].
Qed.
End Two.

Lemma corr_default n (rho : arr) c :
  compute_2corr_matrix rho n None c = compute_2corr_matrix rho n (Some (ops (alphaM C n) (2 * n))) c.
Proof. by rewrite -alphas_ops. Qed.

Lemma corr_pcorr N n (rho : 'M[C]_N) (A : nat -> 'M[C]_N) : car n A ->
  corr rho A (2 * n) = pcorr rho A (2 * n) *m swapM C n.
Proof.
move=> cA; apply/matrixP => i j; rewrite -SM_swap [RHS]mxE (bigD1 (Ordinal (sw_lt (ltn_ord j)))) //= big1 => [|k kj].
  by rewrite addr0 SME /= swK // eqxx mulr1 !mxE /= (cA.2 _ (sw_lt (ltn_ord j))) swK.
rewrite SME (_ : (j == sw n k :> nat) = false) ?mulr0 //; apply/negbTE; apply: contra kj => /eqP e.
by apply/eqP/val_inj; rewrite /= e swK.
Qed.

Section Gibbs.
Variables (E : forall n, 'M[C]_n -> 'M[C]_n) (f : arr -> arr).
Hypothesis HE : expm_spec E.
Hypothesis Hf : computes f E.

(* conjugation by the exponential of a lift, for every family of ladder operators *)
Lemma car_conj N n (R : 'M[C]_(2 * n)) (A : nat -> 'M[C]_N) (k : 'I_(2 * n)) : car n A -> let X := lift_spec R A in
  E (- X) *m A k *m E X = \sum_j E (adM R) k j *: A j.
Proof.
move=> cA X; rewrite -{2}[X]opprK; apply: (@expm_ad _ _ HE _ _ _ (fun i : 'I_(2 * n) => A i)) => i.
have := lift_comm cA (get (ofM R)) (ltn_ord i); rewrite -lift_qlift -/X => h.
rewrite mulNmx mulmxN opprK addrC -opprB h -sumrN; apply: eq_bigr => j _; rewrite -scaleNr opprB; congr (_ *: _).
rewrite [RHS]mxE [X in _ = _ + X]mxE SXS ofM_get; congr (_ - _).
by rewrite mxE -[RHS]ofM_get.
Qed.

Lemma gibbs_qf N n (R : 'M[C]_(2 * n)) (A : nat -> 'M[C]_N) : car n A -> quasifree (gibbs E (lift_spec R A)) A (E (adM R)).
Proof.
move=> cA i; rewrite /gibbs; set X := lift_spec R A; set z := _^-1.
have := congr1 (fun M => M *m E (- X)) (@car_conj N n R A i cA); rewrite -/X -[in X in X -> _]mulmxA (expmN' HE) mulmx1 => e.
rewrite -scalemxAl e mulmx_suml scaler_sumr; apply: eq_bigr => k _.
by rewrite -scalemxAl -scalemxAr !scalerA mulrC.
Qed.

(* coefficient matrix of a quadratic form, its particle-hole antisymmetric part: H - S H^T S; the occupations of the
   modes of the state exp(-H_op)/Tr follow the Fermi-Dirac function of that matrix *)
Theorem C70_fermi n (H : 'M[C]_(2 * n)) : (2 < n)%N -> hermitian H ->
  let K := adM (cutoff (10%:R ^+ 10)^-1 H) in
  exists (rho : 'M[C]_(2 ^ n)) (eta P : 'M[C]_(2 * n)),
  [/\ generate_gaussian_state f n (ofM H) None = Ok (Some (ofM rho)),
      compute_2corr_matrix (ofM rho) n None (Some (-1)) = Ok (ofM eta),
      compute_2corr_matrix (ofM rho) n None (Some 1) = Ok (ofM P),
      1%:M + E K \in unitmx &
      eta^T = invmx (1%:M + E K) /\ P = invmx (1%:M + E (- K))].
Proof.
move=> n2 h K; have cA := alphas_car C n.
have [O [eO eg dO]] := C46_coefficients HE Hf (alphaM C n) n2 (pow2_gt0 n) h.
have eO' : O = lift_spec (cutoff (10%:R ^+ 10)^-1 H) (alphaM C n).
  have m0 : (0 < 2 * n)%N by lia.
  have := C47_lift H (alphaM C n) m0 (leqnn _); rewrite eO => /(congr1 (fun r => if r is Ok M then toM (2 ^ n) (2 ^ n) M else 0)).
  by rewrite !toM_ofM.
have qf := gibbs_qf (cutoff (10%:R ^+ 10)^-1 H) cA; rewrite -eO' -/K in qf.
have [_ t1] := dO; have uF := expm_unit HE K; have u := qf_unit cA qf uF t1; have p := qf_p cA qf t1.
exists (gibbs E O), (hcorr (gibbs E O) (alphaM C n) (2 * n)), (pcorr (gibbs E O) (alphaM C n) (2 * n)).
have e : pcorr (gibbs E O) (alphaM C n) (2 * n) + (hcorr (gibbs E O) (alphaM C n) (2 * n))^T = 1%:M.
  apply/matrixP => i j; rewrite !mxE -raddfD /= -!mulmxA -mulmxDr (car_adj cA) //.
  by rewrite mul_mx_scalar mxtraceZ t1 mulr1.
split=> //.
- by rewrite C46_default.
- by rewrite corr_default corr_ops.
- by rewrite corr_default corr_ops.
have inv (M X : 'M[C]_(2 * n)) : M *m X = 1%:M -> X = invmx M.
  by move=> eM; have [uM _] := mulmx1_unit eM; apply: (can_inj (mulKmx uM)); rewrite eM mulmxV.
split; apply: inv; last first.
  by have := congr1 (mulmx (E (- K))) p; rewrite mulmxA mulmxDr mulmx1 (expmN HE) addrC.
have -> : (hcorr (gibbs E O) (alphaM C n) (2 * n))^T = 1%:M - pcorr (gibbs E O) (alphaM C n) (2 * n) by rewrite -e addrC addKr.
by rewrite mulmxBr mulmx1 p addrK.
Qed.

(* the covariance matrix is tanh(K/2) S = (exp K + 1)^-1 (exp K - 1) S *)
Theorem C70_covariance n (H : 'M[C]_(2 * n)) : (2 < n)%N -> hermitian H ->
  let K := adM (cutoff (10%:R ^+ 10)^-1 H) in
  exists (rho : 'M[C]_(2 ^ n)) (G : 'M[C]_(2 * n)),
  [/\ generate_gaussian_state f n (ofM H) None = Ok (Some (ofM rho)),
      compute_cov_matrix (ofM rho) (Some n) None = Ok (ofM G), 1%:M + E K \in unitmx &
      G = invmx (1%:M + E K) *m (E K - 1%:M) *m swapM C n].
Proof.
move=> n2 h K; have [rho [eta [P [e1 e2 e3 u [e4 e5]]]]] := C70_fermi n2 h; rewrite -/K in u e4 e5.
exists rho, (corr rho (alphaM C n) (2 * n) - (corr rho (alphaM C n) (2 * n))^T); split=> //.
  exact: C48_default_ops.
have cA := alphas_car C n.
have eP : P = pcorr rho (alphaM C n) (2 * n).
  move: e3; rewrite corr_default corr_ops // ofM_mk => /(congr1 (fun r => if r is Ok M then toM (2 * n) (2 * n) M else 0)).
  by rewrite !toM_ofM => <-; apply/matrixP => i j; rewrite !mxE.
have [G _ [eG sG]] := C49_gamma rho cA; rewrite eG in sG.
have t1 : \tr rho = 1.
  have [O [_ eg [_ t1]]] := C46_coefficients HE Hf (alphaM C n) n2 (pow2_gt0 n) h.
  move: e1; rewrite C46_default eg => /(congr1 (fun r => if r is Ok (Some M) then toM (2 ^ n) (2 ^ n) M else 0)).
  by rewrite !toM_ofM => <-.
have -> : (corr rho (alphaM C n) (2 * n))^T = swapM C n - corr rho (alphaM C n) (2 * n).
  by rewrite -[swapM C n]scale1r -t1 -sG addrC addKr.
rewrite opprB addrA -mulr2n corr_pcorr // -eP -scaler_nat scalemxAl -{2}[swapM C n]mul1mx -mulmxBl; congr (_ *m _).
apply: (can_inj (mulKmx u)); rewrite mulKVmx // mulmxBr mulmx1 -scalemxAr e5.
have -> : (1%:M + E K) *m invmx (1%:M + E (- K)) = E K.
  have w : 1%:M + E (- K) \in unitmx.
    have e : E (- K) *m (1%:M + E K) = 1%:M + E (- K) by rewrite mulmxDr mulmx1 (expmN HE) addrC.
    by rewrite -e unitmx_mul u (expm_unit HE).
  by apply: (can_inj (mulmxK w)); rewrite mulmxKV // mulmxDr mulmx1 (expmN' HE) addrC.
by rewrite scaler_nat mulr2n opprD addrA addrAC addrK.
Qed.

(* the particle-hole antisymmetric matrices without entries below the cutoff: K = 2 H *)
Theorem C70_coefficients n (H : 'M[C]_(2 * n)) : ph_anti H ->
  (forall i j, H i j = 0 \/ ~~ (`|H i j| < (10%:R ^+ 10)^-1)) -> adM (cutoff (10%:R ^+ 10)^-1 H) = 2%:R *: H.
Proof. by move=> p h; rewrite C47_cutoff_id // adM_ph. Qed.

(* modes with energies e_k: H_op = sum_k e_k (a_k^+ a_k - 1/2), and <a_k^+ a_k> = 1 / (1 + exp e_k) *)
Definition modes n (e : nat -> C) : 'rV[C]_(2 * n) := \row_i (if (i < n)%N then - e i else e (i - n)%N).

Lemma modes_ph n e : ph_anti (diag_mx (modes n e)).
Proof.
apply/matrixP => i j; rewrite SXS !mxE -!(inj_eq val_inj) /=; have hi := ltn_ord i; have hj := ltn_ord j.
case: (i =P j :> nat) => [eij|ne]; last first.
  rewrite (_ : (_ == _) = false) ?mulr0n ?oppr0 //; apply/eqP => h; apply: ne.
  by rewrite -(swK hi) -h swK.
rewrite eij eqxx !mulr1n /sw; case: (ltnP j n) => h; first by rewrite ltnNge leq_addl /= addnK opprK.
by rewrite ifT //; lia.
Qed.

Theorem C70_occupations n (e : nat -> C) : (2 < n)%N -> (forall k, e k \is Num.real) ->
  (forall k, ~~ (`|e k / 2%:R| < (10%:R ^+ 10)^-1)) -> exists rho : 'M[C]_(2 ^ n),
  [/\ generate_gaussian_state f n (ofM (diag_mx (modes n (fun k => e k / 2%:R)))) None = Ok (Some (ofM rho)),
      compute_2corr_matrix (ofM rho) n None (Some (-1)) = Ok (ofM (diag_mx (map_mx (fun x => (1 + cexp E x)^-1) (modes n e)))) &
      forall k, (k < n)%N -> \tr (rho *m adjm (am C n k) *m am C n k) = (1 + cexp E (e k))^-1].
Proof.
move=> n2 re se; set H := diag_mx _.
have hH : hermitian H.
  rewrite /hermitian /H diag_adj; congr diag_mx; apply/rowP => i; rewrite !mxE; apply: CrealP.
  by case: ifP => _; rewrite ?rpredN rpredM // rpredV realn.
have [rho [eta [P [e1 e2 _ u [e4 _]]]]] := C70_fermi n2 hH.
have cK : adM (cutoff (10%:R ^+ 10)^-1 H) = diag_mx (modes n e).
  rewrite C70_coefficients; [|exact: modes_ph|].
    rewrite /H -linearZ; congr diag_mx; apply/rowP => i; rewrite !mxE.
    by case: ifP => _; rewrite ?mulrN mulrCA mulfV ?mulr1 // pnatr_eq0.
  move=> i j; rewrite /H !mxE; case: eqP => [->|_]; last by left; rewrite mulr0n.
  by right; rewrite mulr1n; case: ifP => _; rewrite ?normrN.
rewrite cK in u e4.
have eD : 1%:M + E (diag_mx (modes n e)) = diag_mx (map_mx (fun x => 1 + cexp E x) (modes n e)).
  rewrite (expm_diag HE) -diag_const_mx -raddfD; congr diag_mx; apply/rowP => i; by rewrite !mxE.
rewrite eD in u e4.
have nz i : 1 + cexp E (modes n e 0 i) != 0.
  move: u; rewrite unitmxE det_diag unitfE => /prodf_neq0/(_ i isT); by rewrite mxE.
have eE : eta = diag_mx (map_mx (fun x => (1 + cexp E x)^-1) (modes n e)).
  rewrite -[eta]trmxK e4 -[RHS]tr_diag_mx; congr (_^T); apply: (can_inj (mulKmx u)); rewrite mulmxV // mulmx_diag -diag_const_mx.
  by congr diag_mx; apply/rowP => i; have := nz i; rewrite !mxE => h; rewrite mulfV.
exists rho; split=> //; first by rewrite -eE.
move=> k hk; have hk' : (n + k < 2 * n)%N by lia.
move: e2; rewrite corr_default corr_ops // ofM_mk => /(congr1 (fun r => if r is Ok M then toM (2 * n) (2 * n) M else 0)).
rewrite !toM_ofM eE => /(congr1 (fun M : 'M_(2 * n) => M (Ordinal hk') (Ordinal hk'))).
by rewrite !mxE eqxx mulr1n /= /alphaM ltnNge leq_addr /= addKn.
Qed.
End Gibbs.
End Thermal.
