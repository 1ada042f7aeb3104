(* PropWick.v -- property C71: Wick's theorem, with the Pfaffian computed by pf, for the Gaussian states of
   generate_gaussian_state and for the mixed and pure states drawn by the free-fermion samplers *)
Set Warnings "-notation-overridden,-ambiguous-paths".
From mathcomp Require Import all_ssreflect all_fingroup all_algebra.
From mathcomp.zify Require Import zify.
From Verif Require Import Base ArrC MCombinatorics Matching Pfaffian PfExpand MLib JW OpFam FermAlg LibFacts LibFacts2 LibFacts3
  Expm PropLib1 PropLib2 PropLib3 PropLib4 MRandom RndFacts PropRandom1 PropRandom2 PropRandom3 PropThermal Wick.
Set Implicit Arguments.
Unset Strict Implicit.
Unset Printing Implicit Defensive.
Import Order.Theory GRing.Theory Num.Theory.
Local Open Scope ring_scope.

(* pf along the first row: sum_j (-1)^j A_0(j+1) pf(A without rows and columns 0 and j+1) *)
Theorem C06_row_expansion (F : numFieldType) k (A : 'M[F]_(k.+1.*2)) : A^T = - A -> exists p : 'I_k.*2.+1 -> F,
  (forall j, pf (ofM (minor2 A j)) = Ok (p j)) /\
  pf (ofM A) = Ok (\sum_(j < k.*2.+1) (-1) ^+ j * A ord0 (fintype.lift ord0 j) * p j).
Proof.
move=> sA; exists (fun j => pfaffian (minor2 A j)); split=> [j|].
  rewrite (@pf_pfaffian _ (ofM _) k.*2) // toM_ofM //; apply/matrixP => a b; rewrite !mxE.
  by have := congr1 (fun M : 'M_(k.+1.*2) => M (fintype.lift ord0 (fintype.lift j a)) (fintype.lift ord0 (fintype.lift j b))) sA; rewrite !mxE.
by rewrite (@pf_pfaffian _ (ofM _) k.+1.*2) // toM_ofM // pfaffian_expand.
Qed.

Lemma pfaffian0 (F : numFieldType) (M : 'M[F]_0) : pfaffian M = 1.
Proof.
have sM : (M : 'M_(0.*2))^T = - M by apply/matrixP => -[].
have := @psumE _ 0 _ sM; rewrite mulr1n => <-.
have eS (y : 'S_(0.*2)) : y = 1%g by apply/perm.permP => -[].
rewrite /psum (bigD1 1%g) //= [X in _ + X]big1 => [|y /negP[]]; last by apply/eqP; exact: eS.
by rewrite big_ord0 odd_perm1 mulr1 addr0.
Qed.

Section Wick.
Variable C : numClosedFieldType.
Local Notation arr := (arr C).

(* the expectation of every product of linear combinations of ladder operators, in any order and with repetitions, is the
   value of pf on the matrix of their pairwise contractions *)
Definition wick_state n (rho : 'M[C]_(2 ^ n)) := forall m (x : nat -> 'M[C]_(2 ^ n)),
  (forall a, spanned (alphaM C n) (2 * n) (x a)) ->
  pf (ofM (contractions rho m x)) = Ok (\tr (rho *m oprod m x)).

Lemma al_sc n (i j : 'I_(2 * n)) : alphaM C n i *m alphaM C n j + alphaM C n j *m alphaM C n i = ((j == sw n i :> nat)%:R)%:M.
Proof. exact: (alphas_car C n).1. Qed.

(* odd products have no expectation in a state that conserves parity *)
Lemma odd_zero n (rho : 'M[C]_(2 ^ n)) m x : parity C n *m rho = rho *m parity C n ->
  (forall a, spanned (alphaM C n) (2 * n) (x a)) -> odd m -> \tr (rho *m oprod m x) = 0.
Proof.
move=> pr hx om; have pX : parity C n *m oprod m x = (-1) ^+ m *: (oprod m x *m parity C n).
  elim: m x hx {om} => [|m IH] x hx; first by rewrite /oprod !big_ord0 expr0 scale1r mulmx1 mul1mx.
  have p0 : parity C n *m x 0%N = - (x 0%N *m parity C n).
    have [c ->] := hx 0%N; rewrite mulmx_sumr mulmx_suml -sumrN; apply: eq_bigr => j _.
    by rewrite -scalemxAr (parity_al C j) -scalemxAl scalerN.
  rewrite oprodS mulmxA p0 mulNmx -mulmxA IH; last by move=> a; exact: hx.
  by rewrite -scalemxAr mulmxA -scaleNr exprS mulN1r.
have e : \tr (rho *m oprod m x) = - \tr (rho *m oprod m x).
  have e : parity C n *m (rho *m oprod m x) *m parity C n = - (rho *m oprod m x).
    rewrite mulmxA pr -(mulmxA rho) pX -signr_odd om expr1 scaleN1r mulmxN mulNmx -!mulmxA.
    by rewrite parity_sqr mulmx1.
  by rewrite -raddfN -e /= [RHS]mxtrace_mulC (mulmxA (parity C n) (parity C n)) parity_sqr mul1mx.
have : \tr (rho *m oprod m x) *+ 2 == 0 by rewrite mulr2n {1}e addNr.
by rewrite mulrn_eq0 /= => /eqP.
Qed.

Lemma wick_state_of n (rho : 'M[C]_(2 ^ n)) :
  (forall m x, (forall a, spanned (alphaM C n) (2 * n) (x a)) -> \tr (rho *m oprod m.*2 x) = pfaffian (contractions rho m.*2 x)) ->
  (forall m x, (forall a, spanned (alphaM C n) (2 * n) (x a)) -> odd m -> \tr (rho *m oprod m x) = 0) -> wick_state rho.
Proof.
move=> he ho m x hx; rewrite (@pf_pfaffian _ (ofM _) m) // toM_ofM ?contr_skew //; congr Ok.
have [om|em] := boolP (odd m); first by rewrite pfaffian_odd // ho.
have -> : m = m./2.*2 by rewrite -{1}(odd_double_half m) (negbTE em).
by rewrite he.
Qed.

Section State.
Variables (E Lg : forall n, 'M[C]_n -> 'M[C]_n) (f logm : arr -> arr).
Hypothesis HE : expm_spec E.
Hypothesis Hf : computes f E.

Lemma wick_gibbs n (R : 'M[C]_(2 * n)) : let rho := PropLib3.gibbs E (lift_spec R (alphaM C n)) in
  \tr rho = 1 -> wick_state rho.
Proof.
move=> rho t1; have qf := gibbs_qf HE R (alphas_car C n); rewrite -/rho in qf.
have u := qf_unit (alphas_car C n) qf (expm_unit HE _) t1.
apply: wick_state_of => m x hx; first exact: (wick_quasifree t1 (@al_sc n) qf u).
apply: odd_zero => //; rewrite /rho /PropLib3.gibbs; set O := lift_spec _ _.
have := expm_comm HE (A := - O) (B := parity C n); rewrite mulNmx mulmxN parity_lift => /(_ erefl) e.
by rewrite -scalemxAr -scalemxAl e.
Qed.

Theorem C71_gaussian n (H : 'M[C]_(2 * n)) : (2 < n)%N -> hermitian H -> exists rho : 'M[C]_(2 ^ n),
  generate_gaussian_state f n (ofM H) None = Ok (Some (ofM rho)) /\ wick_state rho.
Proof.
move=> n2 h; have [O [eO eg dO]] := C46_coefficients HE Hf (alphaM C n) n2 (pow2_gt0 n) h.
have eO' : O = lift_spec (cutoff (10%:R ^+ 10)^-1 H) (alphaM C n).
  have m0 : (0 < 2 * n)%N by lia.
  have := C47_lift H (alphaM C n) m0 (leqnn _); rewrite eO => /(congr1 (fun r => if r is Ok M then toM (2 ^ n) (2 ^ n) M else 0)).
  by rewrite !toM_ofM.
have [_ t1] := dO; exists (PropLib3.gibbs E O); split; first by rewrite C46_default.
by rewrite eO' in t1 *; exact: wick_gibbs.
Qed.

Variable G : gen C.
Hypotheses (HG : gen_ok G) (HL : logm_spec E Lg) (HY : computes_u logm Lg).

Theorem C71_mixed n fixedN seed (s : st G) : (0 < n)%N -> seed_ok seed -> exists rho : 'M[C]_(2 ^ n),
  (random_FF_state f logm n fixedN seed false false s).1 = Ok (ofM rho, None) /\ wick_state rho.
Proof.
move=> n0 hs; have [rho [H [beta [e [_ [R eR]] [_ er] [_ t1] _]]]] := C55_mixed HG HE Hf HL HY fixedN false s n0 hs.
exists rho; split=> //; have e2 : rho = PropLib3.gibbs E (lift_spec (beta *: R) (alphaM C n)).
  rewrite er eR /gibbs /PropLib3.gibbs; congr ((\tr (E _))^-1 *: E _); rewrite scaleNr; congr (- _);
    rewrite !lift_qlift scaler_sumr; apply: eq_bigr => i _; rewrite scaler_sumr; apply: eq_bigr => j _;
    by rewrite scalerA !ofM_get mxE.
by rewrite e2 in t1 *; exact: wick_gibbs.
Qed.

Theorem C71_randH (n : int) seed (s : st G) : 0 < n -> seed_ok seed -> exists rho : 'M[C]_(2 ^ `|n|),
  (random_FF_state_randH f (PInt n) seed s).1 = Ok (ofM rho) /\ wick_state rho.
Proof.
move=> n0 hs; have [rho [H [e [_ [R eR]] er [_ t1] _]]] := C57_randH HG HE Hf s n0 hs.
exists rho; split=> //; have e2 : rho = PropLib3.gibbs E (lift_spec R (alphaM C `|n|)) by rewrite er eR.
by rewrite e2 in t1 *; exact: wick_gibbs.
Qed.
End State.

(* four operators *)
Example C71_example n (rho : 'M[C]_(2 ^ n)) (x : nat -> 'M[C]_(2 ^ n)) :
  wick_state rho -> (forall a, spanned (alphaM C n) (2 * n) (x a)) ->
  let g a b := \tr (rho *m x a *m x b) in
  \tr (rho *m x 0%N *m x 1%N *m x 2%N *m x 3%N) =
  g 0%N 1%N * g 2%N 3%N - g 0%N 2%N * g 1%N 3%N + g 0%N 3%N * g 1%N 2%N.
Proof.
move=> w hx g; have := w 4%N x hx; rewrite (@pf_pfaffian _ (ofM _) 4) // toM_ofM ?contr_skew // => -[].
rewrite !oprodS {1}/oprod big_ord0 mulmx1 !mulmxA => <-.
have p2 (M : 'M[C]_(0.+1.*2)) : M^T = - M -> pfaffian M = M ord0 (fintype.lift ord0 ord0).
  by move=> sM; rewrite pfaffian_expand // big_ord1 expr0 mul1r pfaffian0 mulr1.
have sm j : (minor2 (contractions rho 4 x : 'M_(1.+1.*2)) j)^T = - minor2 (contractions rho 4 x : 'M_(1.+1.*2)) j.
  by apply/matrixP => a b; have := congr1 (fun M : 'M_4 => M (fintype.lift ord0 (fintype.lift j b)) (fintype.lift ord0 (fintype.lift j a))) (contr_skew rho 4 x); rewrite !mxE => ->; rewrite opprK.
rewrite (@pfaffian_expand _ 1) ?contr_skew // !big_ord_recl big_ord0 !p2 ?sm //.
by rewrite !mxE /= /bump /= ?add0n ?add1n /g expr0 expr1 sqrrN expr1n !mul1r mulN1r mulNr addr0 addrA.
Qed.
End Wick.
