(* PropDist3.v -- property C35: the trace distance. *)
Set Warnings "-notation-overridden,-ambiguous-paths".
From Coq Require Import Reals.
From mathcomp Require Import all_ssreflect all_algebra.
From mathcomp Require Import complex.
From mathcomp.zify Require Import zify.
From Verif Require Import Base ArrC MCombinatorics MLib JW OpFam FermAlg LibFacts LibFacts3 MUtils Spectral RealC Info MDist PropLib1 PropUtils1 PropUtils2 PropDist1 PropDist2.
Set Implicit Arguments.
Unset Strict Implicit.
Unset Printing Implicit Defensive.
Import Order.Theory GRing.Theory Num.Theory.
Local Open Scope ring_scope.

Local Notation arr := (arr CR).
Local Notation input := (input CR).

(* sum of the absolute values of the eigenvalues *)
Definition tn n (A : 'M[CR]_n) : CR := \sum_(z <- eigvals A) `|z|.

Lemma tn_diag n (A U : 'M[CR]_n) d : unitary U -> A = adjm U *m diag_mx d *m U -> tn A = \sum_i `|d 0 i|.
Proof. by move=> uU eA; rewrite /tn (perm_big _ (eigvals_diag uU eA)) big_map big_enum. Qed.

Lemma tn_ge0 n (A : 'M[CR]_n) : 0 <= tn A.
Proof. by rewrite sumr_ge0 // => z _. Qed.

Lemma unitary_rows n (V : 'M[CR]_n) j : unitary V -> \sum_i `|V i j| ^+ 2 = 1.
Proof.
move=> /unitaryC/matrixP/(_ j j); rewrite !mxE eqxx => h; rewrite -[RHS]h; apply: eq_bigr => i _.
by rewrite !mxE normCKC.
Qed.

(* -1 <= S <= 1 *)
Definition contraction n (S : 'M[CR]_n) := psd (1%:M - S) /\ psd (1%:M + S).

Lemma tn_sup n (A S : 'M[CR]_n) : hermitian A -> contraction S -> `|\tr (S *m A)| <= tn A.
Proof.
move=> hA [P1 P2]; have [hS _] := P1; have [U uU [e _ eA]] := spectral_herm hA.
have hS' : hermitian S.
  by move: hS; rewrite /hermitian adjmB adjm1 => /(can_inj (subKr _)).
have [W uW [s sr eS]] := spectral_herm hS'.
have W1 := unitaryC uW.
have sh (c : CR) : 1%:M + c *: S = adjm W *m diag_mx (\row_i (1 + c * s 0 i)) *m W.
  have -> : diag_mx (\row_i (1 + c * s 0 i)) = 1%:M + c *: diag_mx s.
    apply/matrixP => i j; rewrite !mxE; case: eqP => _; by rewrite ?mulr1n ?mulr0n ?mulr0 ?addr0.
  by rewrite mulmxDr mulmx1 mulmxDl W1 -scalemxAr -scalemxAl -eS.
have sb i : `|s 0 i| <= 1.
  have q1 : forall i, 0 <= (\row_i (1 + 1 * s 0 i)) 0 i.
    by apply/(psd_diag uW (sh 1)); rewrite scale1r.
  have q2 : forall i, 0 <= (\row_i (1 + -1 * s 0 i)) 0 i.
    by apply/(psd_diag uW (sh (-1))); rewrite scaleN1r.
  have := q1 i; have := q2 i; rewrite !mxE mul1r mulN1r subr_ge0 -ler_subl_addl sub0r => h1 h2.
  by rewrite real_ler_norml ?h1 ?h2.
pose V := W *m adjm U; have uV : unitary V by apply: unitaryM => //; exact: unitary_adj.
have -> : \tr (S *m A) = \sum_i \sum_j s 0 i * (e 0 j * `|V i j| ^+ 2).
  have -> : \tr (S *m A) = \tr (V *m diag_mx e *m adjm V *m diag_mx s).
    have -> : \tr (V *m diag_mx e *m adjm V *m diag_mx s) = \tr (W *m (adjm U *m diag_mx e *m U *m adjm W *m diag_mx s)).
      by rewrite /V adjmM adjmK !mulmxA.
    by rewrite [RHS]mxtrace_mulC -eA [LHS]mxtrace_mulC eS !mulmxA.
  clearbody V; rewrite /mxtrace; apply: eq_bigr => i _; rewrite mul_mx_diag !mxE mulrC mulr_sumr; apply: eq_bigr => j _.
  by rewrite mul_mx_diag !mxE normCK; congr (_ * _); rewrite mulrAC [RHS]mulrC.
rewrite (tn_diag uU eA); apply: (le_trans (ler_norm_sum _ _ _)).
have -> : \sum_j `|e 0 j| = \sum_i \sum_j `|e 0 j| * `|V i j| ^+ 2.
  by rewrite exchange_big; apply: eq_bigr => j _; rewrite -mulr_sumr unitary_rows ?mulr1.
apply: ler_sum => i _; apply: (le_trans (ler_norm_sum _ _ _)); apply: ler_sum => j _.
by rewrite normrM normrM normrX normr_id ler_pimull // mulr_ge0 // exprn_ge0.
Qed.

(* the bound is attained by a reflection *)
Lemma tn_attained n (A : 'M[CR]_n) : hermitian A ->
  exists S, [/\ contraction S, hermitian S, S *m S = 1%:M & \tr (S *m A) = tn A].
Proof.
move=> hA; have [U uU [e re eA]] := spectral_herm hA; have U1 := unitaryC uU.
pose s : 'rV[CR]_n := \row_i (if 0 <= e 0 i then 1 else -1).
have ns : map_mx conjC s = s.
  by apply/matrixP => i j; rewrite !mxE; case: ifP => _; rewrite ?conjC1 // rmorphN1.
pose S := adjm U *m diag_mx s *m U.
have hS : hermitian S by rewrite /hermitian /S !adjmM adjmK diag_adj ns mulmxA.
have sh (c : CR) : 1%:M + c *: S = adjm U *m diag_mx (\row_i (1 + c * s 0 i)) *m U.
  have -> : diag_mx (\row_i (1 + c * s 0 i)) = 1%:M + c *: diag_mx s.
    apply/matrixP => i j; rewrite !mxE; case: eqP => _; by rewrite ?mulr1n ?mulr0n ?mulr0 ?addr0.
  by rewrite mulmxDr mulmx1 mulmxDl U1 -scalemxAr -scalemxAl.
exists S; split=> //.
- split.
    rewrite -[- S]scaleN1r; apply/(psd_diag uU (sh (-1))) => i; rewrite !mxE.
    by case: ifP => _; rewrite ?mulr1 ?mulrNN ?mulr1 ?subrr ?addr_ge0 ?ler01.
  rewrite -[S]scale1r; apply/(psd_diag uU (sh 1)) => i; rewrite !mxE.
  by case: ifP => _; rewrite ?mul1r ?subrr ?addr_ge0 ?ler01.
- rewrite /S -!mulmxA (mulmxA U) uU mul1mx (mulmxA (diag_mx s)) mulmx_diag.
  have -> : diag_mx (\row_j (s 0 j * s 0 j)) = 1%:M.
    apply/matrixP => i j; rewrite !mxE; case: ifP => _; by rewrite ?mulrNN mulr1.
  by rewrite mul1mx.
rewrite (tn_diag uU eA) {1}eA /S -!mulmxA (mulmxA U) uU mul1mx mxtrace_mulC -!mulmxA uU mulmx1 mulmx_diag mxtrace_diag.
apply: eq_bigr => i _; rewrite !mxE; case: ifP => h; first by rewrite mul1r ger0_norm.
by have := re i; rewrite realE h mulN1r => hl; rewrite ler0_norm.
Qed.

Lemma tdE n (x y : input) (M N : 'M[CR]_n) : cast_to_density_matrix x = Ok (ofM M) -> cast_to_density_matrix y = Ok (ofM N) ->
  trace_distance x y = Ok (2%:R^-1 * re (tn (M - N))).
Proof.
move=> ex ey; rewrite /trace_distance ex /= ey /= /sub_bcast /= !eqxx /= toM_sub // !toM_ofM; congr (Ok (_ * _)).
by rewrite /tn raddf_sum.
Qed.

Lemma hermB n (A B : 'M[CR]_n) : hermitian A -> hermitian B -> hermitian (A - B).
Proof. by rewrite /hermitian adjmB => -> ->. Qed.

Lemma tn_tri n (A B : 'M[CR]_n) : hermitian A -> hermitian B -> tn (A + B) <= tn A + tn B.
Proof.
move=> hA hB; have hAB : hermitian (A + B) by rewrite /hermitian adjmD hA hB.
have [S [cS _ _ e]] := tn_attained hAB; rewrite -(ger0_norm (tn_ge0 (A + B))) -e mulmxDr mxtraceD.
apply: (le_trans (ler_norm_add _ _)); apply: ler_add; exact: tn_sup.
Qed.

Lemma tnN n (A : 'M[CR]_n) : hermitian A -> tn (- A) = tn A.
Proof.
move=> hA; have [U uU [e _ eA]] := spectral_herm hA.
have eN : - A = adjm U *m diag_mx (- e) *m U by rewrite raddfN mulmxN mulNmx -eA.
by rewrite (tn_diag uU eA) (tn_diag uU eN); apply: eq_bigr => i _; rewrite mxE normrN.
Qed.

Lemma tn_psd n (A : 'M[CR]_n) : psd A -> tn A = \tr A.
Proof.
move=> pA; have [hA _] := pA; have [U uU [e _ eA]] := spectral_herm hA.
rewrite (trace_eigvals (herm_normal hA)) /tn big_seq [RHS]big_seq; apply: eq_bigr => z hz.
by rewrite ger0_norm //; have [h _] := psd_eigvals hA; exact: h.
Qed.

Lemma tn_eq0 n (A : 'M[CR]_n) : hermitian A -> (tn A = 0 <-> A = 0).
Proof.
move=> hA; have [U uU [e _ eA]] := spectral_herm hA; rewrite (tn_diag uU eA); split=> h.
  have -> : A = adjm U *m diag_mx e *m U by [].
  have -> : e = 0; last by rewrite raddf0 mulmx0 mul0mx.
  apply/matrixP => i j; rewrite ord1 mxE; apply/eqP; rewrite -normr_eq0.
  move/eqP: h; rewrite psumr_eq0 // => /allP/(_ j); rewrite mem_index_enum; exact.
have : diag_mx e = 0.
  have -> : diag_mx e = U *m A *m adjm U by rewrite eA !mulmxA uU mul1mx -mulmxA uU mulmx1.
  by rewrite h mulmx0 mul0mx.
move=> /matrixP d0; apply: big1 => i _; by have := d0 i i; rewrite !mxE eqxx mulr1n => ->; rewrite normr0.
Qed.

Lemma tn_conj n (A U : 'M[CR]_n) : unitary U -> tn (U *m A *m adjm U) = tn A.
Proof.
move=> uU; rewrite /tn /eigvals (@char_poly_conj _ _ (U *m A *m adjm U) (adjm U) A) ?adjmK //.
exact: unitary_adj.
Qed.

(* half the sum of the absolute eigenvalues of the difference *)
Theorem C35_value n (x y : input) (M N U : 'M[CR]_n) (e : 'rV[CR]_n) :
  cast_to_density_matrix x = Ok (ofM M) -> cast_to_density_matrix y = Ok (ofM N) ->
  unitary U -> M - N = adjm U *m diag_mx e *m U ->
  exists2 t, trace_distance x y = Ok t & toC t = 2%:R^-1 * \sum_i `|e 0 i|.
Proof.
move=> ex ey uU eD; exists (2%:R^-1 * re (tn (M - N))); first exact: tdE.
rewrite rmorphM fmorphV /= toC_nat toC_re ?(tn_diag uU eD) //.
by rewrite rpred_sum // => i _; rewrite normr_real.
Qed.

Lemma toCD (a b : R) : toC (a + b) = toC a + toC b. Proof. exact: rmorphD. Qed.
Lemma re_tn n (A : 'M[CR]_n) : toC (re (tn A)) = tn A.
Proof. by rewrite toC_re // ger0_real // tn_ge0. Qed.

Theorem C35_metric n (x y z : input) (A B C : 'M[CR]_n) :
  cast_to_density_matrix x = Ok (ofM A) -> cast_to_density_matrix y = Ok (ofM B) -> cast_to_density_matrix z = Ok (ofM C) ->
  density A -> density B -> density C ->
  exists dxy, exists dyz, exists dxz,
  [/\ trace_distance x y = Ok dxy, trace_distance y z = Ok dyz, trace_distance x z = Ok dxz,
      trace_distance y x = Ok dxy &
  [/\ 0 <= dxy <= 1, dxy = 0 <-> A = B & dxz <= dxy + dyz]].
Proof.
move=> ex ey ez [pA tA] [pB tB] [pC tC]; have [[hA _] [hB _] [hC _]] := And3 pA pB pC.
exists (2%:R^-1 * re (tn (A - B))), (2%:R^-1 * re (tn (B - C))), (2%:R^-1 * re (tn (A - C))).
split; [exact: tdE ex ey|exact: tdE ey ez|exact: tdE ex ez| |]; first by rewrite (tdE ey ex) -opprB tnN //; exact: hermB.
have h0 : 0 < 2%:R^-1 :> R by rewrite invr_gt0 ltr0n.
split.
- rewrite mulr_ge0 ?(ltW h0) ?re0 ?tn_ge0 //=; rewrite mulrC ler_pdivr_mulr ?ltr0n // mul1r -toC_le re_tn toC_nat.
  apply: (le_trans (tn_tri hA _)); first by rewrite /hermitian adjmN hB.
  by rewrite tnN // !tn_psd // tA tB -mulr2n.
- split=> [/eqP|->]; last first.
    by have [_ ->] := tn_eq0 (hermB hB hB); rewrite ?subrr // raddf0 mulr0.
  rewrite mulf_eq0 (gt_eqF h0) /= => /eqP e0; have [h _] := tn_eq0 (hermB hA hB).
  by apply/eqP; rewrite -subr_eq0 h // -re_tn e0 rmorph0.
rewrite -mulrDr (ler_pmul2l h0) -toC_le.
have -> : toC (re (tn (A - B)) + re (tn (B - C))) = tn (A - B) + tn (B - C).
  by rewrite toCD; congr (_ + _); exact: re_tn.
rewrite (re_tn (A - C)).
by apply: (le_trans _ (tn_tri (hermB hA hB) (hermB hB hC))); rewrite addrA subrK.
Qed.

(* operational meaning (Helstrom): the largest difference of acceptance probabilities over all effects 0 <= E <= 1,
   attained by a projection *)
Theorem C35_helstrom n (x y : input) (A B : 'M[CR]_n) :
  cast_to_density_matrix x = Ok (ofM A) -> cast_to_density_matrix y = Ok (ofM B) -> density A -> density B ->
  exists2 t, trace_distance x y = Ok t &
  (forall E, psd E -> psd (1%:M - E) -> `|\tr (E *m A) - \tr (E *m B)| <= toC t) /\
  (exists E, [/\ hermitian E, E *m E = E & \tr (E *m A) - \tr (E *m B) = toC t]).
Proof.
move=> ex ey [[hA _] tA] [[hB _] tB]; exists (2%:R^-1 * re (tn (A - B))); first exact: tdE.
have hD := hermB hA hB.
have tD : \tr (A - B) = 0 by rewrite raddfB /= tA tB subrr.
have eT : toC (2%:R^-1 * re (tn (A - B))) = 2%:R^-1 * tn (A - B) by rewrite rmorphM fmorphV /= toC_nat re_tn.
have h2 : 2%:R != 0 :> CR by rewrite pnatr_eq0.
rewrite eT; split=> [E pE pE'|].
  rewrite -raddfB -mulmxBr /=; pose S := 2%:R *: E - 1%:M.
  have psd2 (X : 'M[CR]_n) : psd X -> psd (2%:R *: X).
    move=> [hX qX]; split=> [|v]; first by rewrite /hermitian adjmZ hX conjC_nat.
    by rewrite /quad -scalemxAr -scalemxAl mxE mulr_ge0 ?ler0n //; exact: qX.
  have cS : contraction S.
    split; last by rewrite /S addrC subrK; exact: psd2.
    suff -> : 1%:M - S = 2%:R *: (1%:M - E) by exact: psd2.
    by rewrite /S opprB addrA -mulr2n -scaler_nat -scalerBr.
  have := tn_sup hD cS; rewrite /S mulmxBl mul1mx raddfB /= tD subr0 -scalemxAl mxtraceZ normrM normr_nat.
  by rewrite ler_pdivl_mull ?ltr0n.
have [S [_ hS S2 eS]] := tn_attained hD; exists (2%:R^-1 *: (1%:M + S)); split.
- by rewrite /hermitian adjmZ adjmD adjm1 hS fmorphV conjC_nat.
- rewrite -scalemxAl -scalemxAr scalerA mulmxDl mul1mx mulmxDr mulmx1 S2 [S + 1%:M]addrC.
  by rewrite -mulr2n -scaler_nat scalerA -mulrA mulVf // mulr1.
by rewrite -raddfB -mulmxBr /= -scalemxAl mxtraceZ mulmxDl mul1mx raddfD /= tD add0r eS.
Qed.

(* invariance under a change of basis *)
Theorem C35_unitary n (x y x' y' : input) (A B U : 'M[CR]_n) :
  cast_to_density_matrix x = Ok (ofM A) -> cast_to_density_matrix y = Ok (ofM B) -> unitary U ->
  cast_to_density_matrix x' = Ok (ofM (U *m A *m adjm U)) -> cast_to_density_matrix y' = Ok (ofM (U *m B *m adjm U)) ->
  trace_distance x' y' = trace_distance x y.
Proof.
move=> ex ey uU ex' ey'; rewrite (tdE ex ey) (tdE ex' ey') -mulmxBl -mulmxBr tn_conj //.
Qed.

Lemma pdf_cast n (x : input) (M : 'M[CR]_n) : cast_to_density_matrix x = Ok (ofM M) -> density M ->
  pdf x = Ok (rvec (fun i => re (M i i))).
Proof.
move=> ex d; have [<- _] := pdf_density d.
by rewrite /pdf /cast_to_pdf ex (C25_density d).
Qed.

Lemma herm_diag_real n (A : 'M[CR]_n) i : hermitian A -> A i i \is Num.real.
Proof. by move=> h; apply/CrealP; rewrite -[in RHS]h [RHS]mxE [RHS]mxE. Qed.

(* it dominates the total variation distance of the measurement distributions *)
Theorem C35_dominates_tv n (x y : input) (A B : 'M[CR]_n) :
  cast_to_density_matrix x = Ok (ofM A) -> cast_to_density_matrix y = Ok (ofM B) -> density A -> density B ->
  exists t, exists2 v, trace_distance x y = Ok t & total_variation_distance x y = Ok v /\ v <= t.
Proof.
move=> ex ey dA dB; have [[hA _] _] := dA; have [[hB _] _] := dB; have hD := hermB hA hB.
exists (2%:R^-1 * re (tn (A - B))), (2%:R^-1 * \sum_i `|re (A i i) - re (B i i)|); first exact: tdE ex ey.
split; first exact: (C27_value (pdf_cast ex dA) (pdf_cast ey dB)).
rewrite ler_pmul2l ?invr_gt0 ?ltr0n // -toC_le re_tn.
pose s : 'rV[CR]_n := \row_i (if 0 <= (A - B) i i then 1 else -1).
have cS : contraction (diag_mx s).
  have h (c : CR) : (c == 1) || (c == -1) -> psd (1%:M + c *: diag_mx s).
    move=> hc; have e : 1%:M + c *: diag_mx s = adjm 1%:M *m diag_mx (\row_i (1 + c * s 0 i)) *m 1%:M.
      rewrite adjm1 mul1mx mulmx1; apply/matrixP => i j; rewrite !mxE.
      by case: eqP => _; rewrite ?mulr1n ?mulr0n ?mulr0 ?addr0.
    have u1 : unitary (1%:M : 'M[CR]_n) by rewrite /unitary adjm1 mulmx1.
    apply/(psd_diag u1 e) => i; rewrite !mxE.
    by case/orP: hc => /eqP ->; case: ifP => _; rewrite ?mulrNN ?mulr1 ?mul1r ?subrr ?addr_ge0 ?ler01.
  by split; [rewrite -[- diag_mx s]scaleN1r|rewrite -[diag_mx s]scale1r]; apply: h; rewrite eqxx ?orbT.
have rD i : (A - B) i i \is Num.real.
  exact: herm_diag_real.
have := tn_sup hD cS; rewrite mul_diag_mx /mxtrace (eq_bigr (fun i => `|(A - B) i i|)) => [|i _]; last first.
  rewrite mxE [s 0 i]mxE; case: ifP => h; first by rewrite mul1r ger0_norm.
  by have := rD i; rewrite realE h mulN1r => hl; rewrite ler0_norm.
rewrite ger0_norm ?sumr_ge0 // => h; apply: (le_trans _ h); rewrite raddf_sum; apply: ler_sum => i _ /=.
rewrite -toC_norm raddfB /= !mxE !toC_re //; exact: herm_diag_real.
Qed.

(* different dimensions *)
Theorem C35_dimensions n m (x y : input) (A : 'M[CR]_n) (B : 'M[CR]_m) :
  cast_to_density_matrix x = Ok (ofM A) -> cast_to_density_matrix y = Ok (ofM B) -> n != m -> n != 1%N -> m != 1%N ->
  trace_distance x y = Raise ValueError.
Proof.
by move=> ex ey /negPf nm /negPf n1 /negPf m1; rewrite /trace_distance ex /= ey /= /sub_bcast /= nm n1 m1.
Qed.

(* a 1x1 argument in either position: the difference is taken with the constant matrix; the result is still symmetric *)
Theorem C35_broadcast n (x y : input) (A : 'M[CR]_1) (B : 'M[CR]_n) :
  cast_to_density_matrix x = Ok (ofM A) -> cast_to_density_matrix y = Ok (ofM B) -> hermitian A -> hermitian B ->
  trace_distance x y = trace_distance y x /\
  exists2 t, trace_distance y x = Ok t & toC t = 2%:R^-1 * tn (B - const_mx (A 0 0)).
Proof.
move=> ex ey hA hB; set c := const_mx (A 0 0).
have hc : hermitian c by apply/matrixP => i j; rewrite !mxE -[RHS](congr1 (fun M : 'M[CR]_1 => M 0 0) hA) !mxE.
have eyx : trace_distance y x = Ok (2%:R^-1 * re (tn (B - c))).
  have [n1|/negPf n1] := eqVneq n 1%N.
    subst n; rewrite (tdE ey ex); have -> : c = A by apply/matrixP => i j; rewrite mxE !ord1.
    by [].
  rewrite /trace_distance ex ey /= /sub_bcast /= n1 /=; congr (Ok (_ * _)); rewrite /tn raddf_sum.
  set D := toM _ _ _; suff -> : D = B - c by [].
  apply/matrixP => i j; rewrite [LHS]mxE getE //= [RHS]mxE [(- c) i j]mxE [c i j]mxE.
  by rewrite -[0%N]/(val (ord0 : 'I_1)) !ofM_get.
have exy : trace_distance x y = Ok (2%:R^-1 * re (tn (c - B))).
  have [n1|/negPf n1] := eqVneq n 1%N.
    subst n; rewrite (tdE ex ey); have -> : c = A by apply/matrixP => i j; rewrite mxE !ord1.
    by [].
  rewrite /trace_distance ex ey /= /sub_bcast /= eq_sym n1 /=; congr (Ok (_ * _)); rewrite /tn raddf_sum.
  set D := toM _ _ _; suff -> : D = c - B by [].
  apply/matrixP => i j; rewrite [LHS]mxE getE //= [RHS]mxE [(- B) i j]mxE [c i j]mxE.
  by rewrite -[0%N]/(val (ord0 : 'I_1)) !ofM_get.
split; first by rewrite exy eyx -opprB tnN //; exact: hermB.
by rewrite eyx; eexists; first by []; rewrite rmorphM /= re_tn fmorphV /= toC_nat.
Qed.

(* a 1-dimensional state against a 4-dimensional one is not rejected and the bound 1 is exceeded *)
Theorem C35_broadcast_refuted : exists x y : input, exists A : 'M[CR]_1, exists B : 'M[CR]_4,
  [/\ cast_to_density_matrix x = Ok (ofM A), cast_to_density_matrix y = Ok (ofM B), density A, density B &
      exists2 t, trace_distance x y = Ok t & 1 < t].
Proof.
pose A : 'M[CR]_1 := 1%:M; pose B : 'M[CR]_4 := (4%:R^-1)%:M.
have u1 k : unitary (1%:M : 'M[CR]_k) by rewrite /unitary adjm1 mulmx1.
have ps k (c : CR) : 0 <= c -> psd (c%:M : 'M[CR]_k).
  move=> c0; have e : c%:M = adjm 1%:M *m diag_mx (const_mx c) *m 1%:M :> 'M[CR]_k.
    by rewrite adjm1 mul1mx mulmx1 diag_const_mx.
  by apply/(psd_diag (u1 k) e) => i; rewrite mxE.
have dA : density A by split; [apply: ps; exact: ler01|rewrite mxtrace1].
have dB : density B.
  split; first by apply: ps; rewrite invr_ge0 ler0n.
  by rewrite mxtrace_scalar -[_ *+ 4]mulr_natl mulfV // pnatr_eq0.
exists (V2 (ofM A)), (V2 (ofM B)), A, B; split=> //; try exact: C25_density.
rewrite /trace_distance (C25_density dA) (C25_density dB) /= /sub_bcast /=.
eexists; first by [].
set D := toM _ _ _.
have eD : D = const_mx 1 - B.
  apply/matrixP => i j; rewrite mxE getE //= mxE [const_mx _ _ _]mxE [(- B) i j]mxE.
  by rewrite -[0%N]/(val (ord0 : 'I_1)) !ofM_get mxE eqxx.
have hD : hermitian D.
  rewrite eD; apply: hermB; last by case: dB => -[].
  by apply/matrixP => i j; rewrite !mxE conjC1.
have c1 : contraction (1%:M : 'M[CR]_4).
  split; last by rewrite -(raddfD (scalar_mx_additive _ _)); apply: ps; rewrite addr_ge0 ?ler01.
  by rewrite subrr; have := @ps 4%N 0 (lexx _); rewrite raddf0.
have := tn_sup hD c1; rewrite mul1mx eD raddfB /= dB.2.
have -> : \tr (const_mx 1 : 'M[CR]_4) = 4%:R.
  by rewrite /mxtrace (eq_bigr (fun=> 1)) ?sumr_const ?card_ord // => i _; rewrite mxE.
have -> : 4%:R - 1 = 3%:R :> CR by rewrite -(natrB _ (isT : (1 <= 4)%N)).
rewrite normr_nat -eD -[\sum_(z <- _) _]/(\sum_(z <- eigvals D) re `|z|) -raddf_sum -/(tn D) -re_tn -toC_nat toC_le => h.
by apply: (lt_le_trans (_ : 1 < 2%:R^-1 * 3%:R)); [rlra|rewrite ler_pmul2l ?invr_gt0 ?ltr0n].
Qed.

(* two different basis states in any dimension are at distance 1 *)
Example C35_basis_states n (i j : 'I_n) : i != j ->
  trace_distance (V1 (vec (fun k : 'I_n => (k == i)%:R : CR))) (V1 (vec (fun k : 'I_n => (k == j)%:R : CR))) = Ok 1.
Proof.
move=> ij; pose v (a : 'I_n) := fun k : 'I_n => (k == a)%:R : CR.
have nv a : \sum_k `|v a k| ^+ 2 = 1.
  rewrite (bigD1 a) //= /v eqxx normr1 expr1n big1 ?addr0 // => k /negPf ->; by rewrite normr0 expr0n.
have [ei _] := C25_wavefunction (nv i); have [ej _] := C25_wavefunction (nv j).
have u1 : unitary (1%:M : 'M[CR]_n) by rewrite /unitary adjm1 mulmx1.
pose e : 'rV[CR]_n := \row_k (v i k - v j k).
have eD : outer (v i) - outer (v j) = adjm 1%:M *m diag_mx e *m 1%:M.
  rewrite adjm1 mul1mx mulmx1; apply/matrixP => a b; rewrite !mxE /v !conjC_nat -!natrM !mulnb.
  case: (eqVneq a b) => [->|ab]; first by rewrite !andbb mulr1n.
  rewrite mulr0n; have h c : (a == c) && (b == c) = false by apply/negP => /andP[/eqP h1 /eqP h2]; case/eqP: ab; rewrite h1 h2.
  by rewrite !h subrr.
have [t -> et] := C35_value ei ej u1 eD; congr Ok; apply: toC_inj; rewrite et rmorph1.
rewrite (bigD1 i) //= (bigD1 j) 1?eq_sym //= big1 => [|k /andP[/negPf ki /negPf kj]]; last first.
  by rewrite mxE /v ki kj subrr normr0.
rewrite !mxE /v !eqxx (negPf ij) eq_sym (negPf ij) subr0 sub0r normrN normr1 addr0 mulVf //.
by rewrite pnatr_eq0.
Qed.
