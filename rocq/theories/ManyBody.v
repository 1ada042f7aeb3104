(* ManyBody.v -- occupation-number bases of a family of fermionic modes *)
Set Warnings "-notation-overridden,-ambiguous-paths".
From mathcomp Require Import all_ssreflect all_algebra.
From mathcomp.zify Require Import zify.
From Verif Require Import Base ArrC MLib JW OpFam FermAlg LibFacts LibFacts2 LibFacts3 Expm Spectral NormalCalc PropLib1 PropLib2 PropLib3 PropLib4
  MRandom RndFacts PropRandom1 PropRandom2 PropRandom4.
Set Implicit Arguments.
Unset Strict Implicit.
Unset Printing Implicit Defensive.
Import Order.Theory GRing.Theory Num.Theory.
Local Open Scope ring_scope.

Section Occ.
Variable C : numClosedFieldType.
Variables (N n : nat) (B : nat -> 'M[C]_N).
Hypothesis HB : car n B.

(* modes 0..n-1: B_k creates, its adjoint annihilates *)
Definition num k : 'M[C]_N := B k *m adjm (B k).

Lemma num_herm k : hermitian (num k).
Proof. by rewrite /hermitian /num adjmM adjmK. Qed.

Lemma num_cre k m : (k < n)%N -> (m < n)%N -> k != m -> num k *m B m = B m *m num k.
Proof.
move=> hk hm km; rewrite /num -mulmxA (cre_ann HB) // (negbTE km) raddf0 sub0r.
by rewrite mulmxN mulmxA [B k *m B m](cre_cre HB) // mulNmx opprK mulmxA.
Qed.
Lemma num_ann k m : (k < n)%N -> (m < n)%N -> k != m -> num k *m adjm (B m) = adjm (B m) *m num k.
Proof.
move=> hk hm km; have := congr1 (@adjm C N N) (num_cre hk hm km).
by rewrite adjmM [in RHS]adjmM (num_herm k : adjm (num k) = num k).
Qed.
Lemma num_num k m : (k < n)%N -> (m < n)%N -> num k *m num m = num m *m num k.
Proof.
move=> hk hm; case: (k =P m) => [-> //|/eqP km].
by rewrite {2}/num mulmxA num_cre // -mulmxA num_ann // mulmxA.
Qed.
(* adjm B_m B_m = 1 - num m *)
Lemma num_compl m : (m < n)%N -> adjm (B m) *m B m = 1%:M - num m.
Proof. by move=> hm; rewrite (cre_ann HB) // eqxx. Qed.
Lemma num_B m : (m < n)%N -> num m *m B m = B m.
Proof. by move=> hm; rewrite /num -mulmxA num_compl // mulmxBr mulmx1 /num mulmxA (cre_sq HB) // mul0mx subr0. Qed.
Lemma num_Bad m : (m < n)%N -> num m *m adjm (B m) = 0.
Proof. by move=> hm; rewrite /num -mulmxA (ann_sq HB) // mulmx0. Qed.

(* every pattern of occupations occurs *)
Lemma fock_ex (s : nat -> bool) m : (0 < N)%N -> (m <= n)%N ->
  exists v : 'cV[C]_N, v != 0 /\ forall k, (k < m)%N -> num k *m v = (s k)%:R *: v.
Proof.
move=> N0; elim: m => [|m IH] hm.
  exists (const_mx 1); split=> //; apply/eqP => /matrixP/(_ (Ordinal N0) 0); rewrite !mxE => /eqP.
  by rewrite oner_eq0.
have [v [v0 hv]] := IH (ltnW hm).
case: (boolP (s m)) => sm.
  have [z|nz] := eqVneq (num m *m v) 0; [exists (B m *m v)|exists (num m *m v)]; split.
  - apply/eqP => e; have := congr1 (mulmx (adjm (B m))) e; rewrite mulmxA num_compl // mulmxBl mul1mx z subr0 mulmx0.
    by move/eqP; apply/negP.
  - move=> k; rewrite ltnS leq_eqVlt => /orP[/eqP ->|hk]; first by rewrite mulmxA num_B // sm scale1r.
    by rewrite mulmxA num_cre ?(ltn_trans hk) ?neq_ltn ?hk // -mulmxA hv // -scalemxAr.
  - by [].
  - move=> k; rewrite ltnS leq_eqVlt => /orP[/eqP ->|hk].
      by rewrite mulmxA {2}/num mulmxA num_B // sm scale1r.
    by rewrite mulmxA num_num ?(ltn_trans hk) // -mulmxA hv // -scalemxAr.
have [z|nz] := eqVneq (adjm (B m) *m v) 0.
  exists v; split=> // k; rewrite ltnS leq_eqVlt => /orP[/eqP ->|hk]; last exact: hv.
  by rewrite (negbTE sm) scale0r /num -mulmxA z mulmx0.
exists (adjm (B m) *m v); split=> // k; rewrite ltnS leq_eqVlt => /orP[/eqP ->|hk].
  by rewrite (negbTE sm) scale0r mulmxA num_Bad // mul0mx.
by rewrite mulmxA num_ann ?(ltn_trans hk) ?neq_ltn ?hk // -mulmxA hv // -scalemxAr.
Qed.

Lemma fock_unit (s : {ffun 'I_n -> bool}) : (0 < N)%N ->
  exists v : 'cV[C]_N, unit_vector v /\ forall k : 'I_n, num k *m v = (s k)%:R *: v.
Proof.
move=> N0; have [v [v0 hv]] := fock_ex (fun k => oapp s false (insub k)) N0 (leqnn n).
pose c := (adjm v *m v) 0 0.
have c0 : 0 < c.
  have [i hi] : exists i, v i 0 != 0.
    apply/existsP; apply: contraR v0 => /existsPn h; apply/eqP/matrixP => i j; rewrite ord1 mxE.
    by apply/eqP; have := h i; rewrite negbK.
  rewrite /c gram_cV (bigD1 i) //= ltr_paddr ?exprn_gt0 ?normr_gt0 // sumr_ge0 // => j _; exact: exprn_ge0.
exists ((sqrtC c)^-1 *: v); split=> [|k]; last first.
  by rewrite -scalemxAr hv ?ltn_ord // scalerA mulrC -scalerA valK.
have sr : (sqrtC c)^-1^* = (sqrtC c)^-1 by apply/CrealP; rewrite rpredV ger0_real // sqrtC_ge0 ltW.
rewrite /unit_vector adjmZ sr -scalemxAl -scalemxAr scalerA; apply/matrixP => i j; rewrite !ord1 !mxE -/c.
have -> : \sum_j0 adjm v 0 j0 * v j0 0 = c by rewrite /c mxE.
by rewrite mulr1n -invfM -expr2 sqrtCK mulVf // gt_eqF.
Qed.
End Occ.

Section Basis.
Variable C : numClosedFieldType.
Variables (n : nat) (B : nat -> 'M[C]_(2 ^ n)).
Hypothesis HB : car n B.

Definition pattern := {ffun 'I_n -> bool}.
Lemma card_pattern : #|{: pattern}| = (2 ^ n)%N.
Proof. by rewrite card_ffun card_bool card_ord. Qed.
Definition pat (i : 'I_(2 ^ n)) : pattern := enum_val (cast_ord (esym card_pattern) i).
Definition rnk (s : pattern) : 'I_(2 ^ n) := cast_ord card_pattern (enum_rank s).
Lemma patK : cancel pat rnk.
Proof. by move=> i; rewrite /pat /rnk enum_valK cast_ordKV. Qed.
Lemma rnkK : cancel rnk pat.
Proof. by move=> s; rewrite /pat /rnk cast_ordK enum_rankK. Qed.

(* sum_k (+-) S_k *)
Definition energy (S : nat -> C) (s : pattern) : C := \sum_(k < n) if s k then S k else - S k.

Definition mode_sum (S : nat -> C) : 'M[C]_(2 ^ n) :=
  \sum_(k < n) S k *: (B k *m adjm (B k) - adjm (B k) *m B k).

Lemma fock_basis : exists (v : pattern -> 'cV[C]_(2 ^ n)) (V : 'M[C]_(2 ^ n)), [/\
  forall s (k : 'I_n), num B k *m v s = (s k)%:R *: v s, forall s, unit_vector (v s),
  unitary V & forall i, row i V = adjm (v (pat i))].
Proof.
have [v hv] := fin_all_exists (fun s : pattern => fock_unit HB s (pow2_gt0 n)).
pose V : 'M[C]_(2 ^ n) := \matrix_(i, j) (v (pat i) j 0)^*.
exists v, V; split=> [s k|s||i]; [exact: (hv s).2|exact: (hv s).1| |by apply/rowP => j; rewrite !mxE].
apply/matrixP => i j; rewrite [RHS]mxE.
have -> : (V *m adjm V) i j = (adjm (v (pat i)) *m v (pat j)) 0 0.
  by rewrite !mxE; apply: eq_bigr => k _; rewrite !mxE conjCK.
case: (i =P j) => [->|/eqP ij]; first by rewrite (hv (pat j)).1 mxE eqxx.
have [k nk] : exists k, pat i k != pat j k.
  apply/existsP; apply: contraR ij => /existsPn h; apply/eqP; apply: (can_inj patK); apply/ffunP => k.
  by apply/eqP; have := h k; rewrite negbK.
have e1 : adjm (v (pat i)) *m num B k = (pat i k)%:R *: adjm (v (pat i)).
  by have := congr1 (@adjm C _ _) ((hv (pat i)).2 k); rewrite adjmM (num_herm B k : adjm (num B k) = num B k) adjmZ rmorph_nat.
have := congr1 (mulmx (adjm (v (pat i)))) ((hv (pat j)).2 k); rewrite mulmxA e1 -scalemxAl -scalemxAr.
move/(congr1 (fun M : 'M[C]_1 => M 0 0)); rewrite !mxE; set x := \sum_j0 _.
by case: (pat i k) (pat j k) nk => [] [] //= _; rewrite ?mul1r ?mul0r ?mulr0n.
Qed.

Lemma mode_diag : exists2 V : 'M[C]_(2 ^ n), unitary V & forall S, mode_sum S = adjm V *m diag_mx (\row_i energy S (pat i)) *m V.
Proof.
have [v [V [hv _ uV rV]]] := fock_basis; exists V => // S.
have e : V *m mode_sum S = diag_mx (\row_i energy S (pat i)) *m V.
  apply/row_matrixP => i; rewrite !row_mul rV row_diag_mx -scalemxAl -rowE rV mxE /mode_sum mulmx_sumr scaler_suml.
  apply: eq_bigr => k _; rewrite -scalemxAr (num_compl HB) // -/(num B k) opprB addrA -mulr2n.
  have e1 : adjm (v (pat i)) *m num B k = (pat i k)%:R *: adjm (v (pat i)).
    by have := congr1 (@adjm C _ _) (hv (pat i) k); rewrite adjmM (num_herm B k : adjm (num B k) = num B k) adjmZ rmorph_nat.
  rewrite mulmxBr mulmx1 -scaler_nat -scalemxAr e1 scalerA scalerBr scalerA.
  case: (pat i k); rewrite ?mulr1 ?mulr0 ?scale0r ?sub0r ?scaleNr //.
  by rewrite -scalerBl mulrDr mulr1 addrK.
by rewrite -mulmxA -e mulmxA (unitary_left uV) mul1mx.
Qed.

(* the vacuum of the modes exists and is unique up to a factor *)
Lemma vacuum_unique : exists v : 'cV[C]_(2 ^ n), [/\ unit_vector v, forall k, (k < n)%N -> adjm (B k) *m v = 0 &
  forall w : 'cV[C]_(2 ^ n), (forall k, (k < n)%N -> adjm (B k) *m w = 0) -> exists c, w = c *: v].
Proof.
have [v [V [hv uv uV rV]]] := fock_basis; pose z : pattern := [ffun=> false]; exists (v z); split=> // [k hk|w hw].
  have := hv z (Ordinal hk); rewrite ffunE scale0r /num /= => e.
  have := congr1 (mulmx (adjm (B k))) e; rewrite !mulmxA (num_compl HB) // mulmxBl mul1mx (num_Bad HB) // subr0 mulmx0.
  by [].
exists ((V *m w) (rnk z) 0).
have e : V *m w = (V *m w) (rnk z) 0 *: delta_mx (rnk z) 0.
  apply/matrixP => i j; rewrite ord1 [RHS]mxE [X in _ * X]mxE eqxx andbT; case: (i =P rnk z) => [->|/eqP ne]; first by rewrite mulr1.
  have [k ki] : exists k, pat i k.
    apply/existsP; apply: contraR ne => /existsPn h; apply/eqP; apply: (can_inj patK); rewrite rnkK; apply/ffunP => k.
    by rewrite ffunE; exact/negbTE/h.
  have e1 : adjm (v (pat i)) *m num B k = adjm (v (pat i)).
    have := congr1 (@adjm C _ _) (hv (pat i) k); rewrite adjmM (num_herm B k : adjm (num B k) = num B k) adjmZ rmorph_nat ki.
    by rewrite scale1r.
  have -> : (V *m w) i 0 = (adjm (v (pat i)) *m w) 0 0 by rewrite -rV -row_mul [RHS]mxE.
  by rewrite -e1 /num -!mulmxA hw // !mulmx0 mxE mulr0.
have := congr1 (mulmx (adjm V)) e; rewrite mulmxA (unitary_left uV) mul1mx -scalemxAr => {1}->; congr (_ *: _).
rewrite -colE; apply/matrixP => i j; rewrite ord1 !mxE.
have := congr1 (fun M : 'rV_(2 ^ n) => M 0 i) (rV (rnk z)); rewrite !mxE rnkK => ->.
by rewrite conjCK.
Qed.

(* the spectrum: one eigenvalue sum_k (+-) S_k for every choice of signs *)
Lemma mode_char S : char_poly (mode_sum S) = \prod_(s : pattern) ('X - (energy S s)%:P).
Proof.
have [V uV eS] := mode_diag; rewrite (char_poly_conj uV (eS S)) char_poly_diag [RHS](reindex pat) /=.
  by apply: eq_bigr => i _; rewrite mxE.
by exists rnk => x _; [exact: patK|exact: rnkK].
Qed.

Section Exp.
Variable E : forall n, 'M[C]_n -> 'M[C]_n.
Hypothesis HE : expm_spec E.

Lemma cexpD x y : cexp E (x + y) = cexp E x * cexp E y.
Proof.
by rewrite /cexp raddfD /= (expmD HE) ?mxE ?big_ord1 // -!scalar_mxM mulrC.
Qed.
Lemma cexp0 : cexp E 0 = 1.
Proof. by rewrite /cexp raddf0 (expm0 HE) mxE eqxx. Qed.
Lemma cexp_sum (I : Type) (r : seq I) (P : pred I) (f : I -> C) :
  cexp E (\sum_(i <- r | P i) f i) = \prod_(i <- r | P i) cexp E (f i).
Proof. by elim/big_rec2: _ => [|i x y _ <-]; rewrite ?cexp0 // cexpD. Qed.

Lemma mode_exp S : \tr (E (mode_sum S)) = \prod_(k < n) (cexp E (S k) + cexp E (- S k)).
Proof.
have [V uV eS] := mode_diag; rewrite (eS S) (expm_conj HE) // mxtrace_mulC mulmxA uV mul1mx mxtrace_diag.
transitivity (\sum_(s : pattern) cexp E (energy S s)).
  rewrite [RHS](reindex pat) /=; first by apply: eq_bigr => i _; rewrite !mxE.
  by exists rnk => x _; [exact: patK|exact: rnkK].
transitivity (\sum_(s : pattern) \prod_(k < n) cexp E (if s k then S k else - S k)).
  by apply: eq_bigr => s _; rewrite /energy cexp_sum.
rewrite -(bigA_distr_bigA (fun (k : 'I_n) (b : bool) => cexp E (if b then S k else - S k))).
by apply: eq_bigr => k _; rewrite /index_enum !unlock /= addr0.
Qed.
End Exp.
End Basis.

Section Change.
Variable C : numClosedFieldType.
(* change of modes in a quadratic form *)
Lemma lift_change N n (U H : 'M[C]_(2 * n)) (A : nat -> 'M[C]_N) : unitary U ->
  lift_spec H A = lift_spec (adjm U *m H *m U) (rot A (2 * n) (get (ofM (adjm U)))).
Proof.
move=> uU; set L := adjm U *m H *m U.
have eH : H = U *m L *m adjm U by rewrite /L !mulmxA uU mul1mx -mulmxA uU mulmx1.
have eB (k : 'I_(2 * n)) : rot A (2 * n) (get (ofM (adjm U))) k = \sum_j (adjm U) k j *: A j.
  by apply: eq_bigr => j _; rewrite ofM_get.
rewrite /lift_spec; apply/esym.
transitivity (\sum_k \sum_l \sum_i \sum_j (U i k * L k l * adjm U l j) *: (adjm (A i) *m A j)).
  apply: eq_bigr => k _; apply: eq_bigr => l _; rewrite !eB adjm_sum mulmx_suml scaler_sumr; apply: eq_bigr => i _.
  rewrite mulmx_sumr scaler_sumr; apply: eq_bigr => j _.
  rewrite adjmZ -scalemxAl -scalemxAr !scalerA; congr (_ *: _).
  have -> : (adjm U k i)^* = U i k by rewrite !mxE conjCK.
  by rewrite [L k l * U i k]mulrC.
rewrite (eq_bigr (fun k => \sum_i \sum_l \sum_j (U i k * L k l * adjm U l j) *: (adjm (A i) *m A j))) => [|k _]; last by rewrite exchange_big.
rewrite exchange_big /=; apply: eq_bigr => i _.
rewrite (eq_bigr (fun k => \sum_j \sum_l (U i k * L k l * adjm U l j) *: (adjm (A i) *m A j))) => [|k _]; last by rewrite exchange_big.
rewrite exchange_big /=; apply: eq_bigr => j _.
transitivity (\sum_k \sum_l (U i k * L k l * adjm U l j) *: (adjm (A i) *m A j)) => //.
rewrite exchange_big /= [in RHS]eH mxE scaler_suml; apply: eq_bigr => l _.
have -> : (U *m L) i l = \sum_k U i k * L k l by rewrite mxE.
by rewrite mulr_suml scaler_suml.
Qed.
End Change.
