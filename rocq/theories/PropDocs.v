(* PropDocs.v -- property C75: the workflows shown in docs/tutorials.rst and docs/examples.rst *)
Set Warnings "-notation-overridden,-ambiguous-paths".
From mathcomp Require Import all_ssreflect all_algebra.
From mathcomp.zify Require Import zify.
From Verif Require Import Base ArrC MLib JW OpFam FermAlg LibFacts LibFacts2 LibFacts3 Expm Spectral NormalCalc.
From Verif Require Import PropLib1 PropLib2 PropLib3 PropLib4 MEigh EighFacts PropEigh1 RndFacts.
Set Implicit Arguments.
Unset Strict Implicit.
Unset Printing Implicit Defensive.
Import Order.Theory GRing.Theory Num.Theory.
Local Open Scope ring_scope.

Section Docs.
Variable C : numClosedFieldType.
Local Notation arr := (arr C).

(* ================================================================== *)
(* C75  documented workflows                                           *)
(* ================================================================== *)
(* docs/examples.rst "Correlation Function Analysis": occupations = np.diag(gamma)[n_sites:] and
   corr = gamma[i, j + n_sites].  The second expression is <a_i^+ a_j> as its comment says; the first is not
   <a_i^+ a_i> but <a_i a_i> = 0, for every state. *)
Theorem C75_gamma n (rho : 'M[C]_(2 ^ n)) : exists2 G : 'M[C]_(2 * n),
  compute_2corr_matrix (ofM rho) n None None = Ok (ofM G) &
  (forall i, G i i = 0) /\
  forall i j : 'I_(2 * n), (i < n <= j)%N -> G i j = \tr (rho *m adjm (am C n i) *m am C n (j - n)).
Proof.
exists (corr rho (alphaM C n) (2 * n)).
  have -> : compute_2corr_matrix (ofM rho) n None None = compute_2corr_matrix (ofM rho) n (Some (ops (alphaM C n) (2 * n))) None.
    by rewrite /compute_2corr_matrix alphas_ops.
  by rewrite corr_ops // ofM_mk.
split=> [i|i j /andP[hi hj]]; last by rewrite mxE /alphaM hi ltnNge hj.
rewrite mxE -mulmxA; suff -> : alphaM C n i *m alphaM C n i = 0 by rewrite mulmx0 mxtrace0.
have sq k : (k < n)%N -> am C n k *m am C n k = 0.
  move=> hk; have /eqP := am_anti C hk hk.
  by rewrite -mulr2n -scaler_nat scaler_eq0 pnatr_eq0 => /eqP.
have hi := ltn_ord i; rewrite /alphaM; case: ltnP => h; last by apply: sq; lia.
by rewrite -adjmM sq // adjm0.
Qed.

(* one occupied site: the documented expression gives 0, the occupation is 1 and sits off the diagonal *)
Example C75_example : exists2 G : 'M[C]_(2 * 1),
  compute_2corr_matrix (ofM (diag_mx (\row_i (i == 1 :> nat)%N%:R) : 'M[C]_(2 ^ 1))) 1 None None = Ok (ofM G) &
  G (inord 1) (inord 1) = 0 /\ G (inord 0) (inord 1) = 1.
Proof.
have [G e [d o]] := @C75_gamma 1 (diag_mx (\row_i (i == 1 :> nat)%N%:R)); exists G => //; split=> //.
rewrite o inordK // inordK // subnn /mxtrace 2!big_ord_recl big_ord0.
rewrite -!mulmxA !mul_diag_mx !mxE /= mul0r add0r mul1r addr0 -[X in X = _]mulr1.
have := @num_get C 1 0 (lift ord0 ord0) (lift ord0 ord0) isT; rewrite mxE => ->.
by rewrite eqxx /bit /= mulr1.
Qed.

(* "Generate the ground state": the density matrix has full rank and is not a projector, so it is never the ground state
   (for n <= 2 it need not even be a function of the operator: C46_small) *)
Variables (E : forall n, 'M[C]_n -> 'M[C]_n) (f : arr -> arr).
Hypotheses (HE : expm_spec E) (Hf : computes f E).
Theorem C75_refuted_ground n (H : 'M[C]_(2 * n)) : (0 < n)%N -> hermitian H -> exists rho : 'M[C]_(2 ^ n),
  [/\ generate_gaussian_state f n (ofM H) None = Ok (Some (ofM rho)), density rho,
      forall v : 'cV[C]_(2 ^ n), rho *m v = 0 -> v = 0 & rho *m rho <> rho].
Proof.
move=> n0 h; suff [O hO e] : exists2 O : 'M[C]_(2 ^ n), hermitian O & generate_gaussian_state f n (ofM H) None = Ok (Some (ofM (gibbs E O))).
  have d := gibbs_density HE (pow2_gt0 n) hO; exists (gibbs E O).
  have hn : hermitian (- O) by rewrite /hermitian adjmN hO.
  have t0 : \tr (E (- O)) != 0 by rewrite gt_eqF // expm_trace_gt0 // pow2_gt0.
  have K v : gibbs E O *m v = 0 -> v = 0.
    move/eqP; rewrite -scalemxAl scaler_eq0 invr_eq0 (negbTE t0) /= => /eqP e0.
    by rewrite -[v]mul1mx -(expmN HE (- O)) -mulmxA e0 mulmx0.
  split; [exact: e|exact: d|by move=> v; exact: K|move=> sq]; have e1 : gibbs E O = 1%:M.
    by apply/eqP; rewrite -subr_eq0; apply/eqP; apply: (K (2 ^ n)%N); rewrite mulmxBr sq mulmx1 subrr.
  have := d.2; rewrite e1 mxtrace1 => /eqP; rewrite -[X in _ == X]/(1%:R) eqr_nat -[1%N]/(2 ^ 0)%N eqn_exp2l //.
  by rewrite (gtn_eqF n0).
case: (ltnP 2 n) => h2.
  have [O [e1 e2 _]] := C46_coefficients HE Hf (alphaM C n) h2 (pow2_gt0 n) h.
  exists O; last by rewrite C46_default.
  have [||O' e1' hO'] := @C47_hermitian C (2 ^ n) n H (alphaM C n) (2 * n)%N h; try lia.
  by move: e1; rewrite e1' => e1; rewrite -(ofM_inj (okI e1)).
move: (C46_small Hf H); rewrite n0 h2 => /(_ isT).
have e2 : (2 * n = 2 ^ n)%N by case: (n) n0 h2 => [|[|[|]]].
move: H h; rewrite e2 => H h e; exists H => //; exact: e.
Qed.

(* "Two-Site System Analysis": H = build_H(2, [[0, -t], [-t, 0]]); the returned matrix mixes even and odd particle
   numbers, unlike every function of the hopping operator (2n = 2^n here, see C46_small) *)
Theorem C75_refuted_two_site (t : C) : t \is Num.real -> cexp E t != cexp E (- t) ->
  exists (H : 'M[C]_(2 * 2)) (rho : 'M[C]_(2 ^ 2)),
  [/\ build_H 2 (arr2 0 (- t) (- t) 0) None = Ok (ofM H), hermitian H,
      generate_gaussian_state f 2 (ofM H) None = Ok (Some (ofM rho)) & parity C 2 *m rho <> rho *m parity C 2].
Proof.
move=> rt ne; have [//|//|H0 eH hb] := @C42_build_H C 2%N (arr2 0 (- t) (- t) 0) (azeros 2 2).
have hg := has_blocks_get hb; pose H := toM (2 * 2) (2 * 2) H0; have [r c _] := hb.
have ht : t^* = t by apply/CrealP.
have hH : hermitian H.
  apply: (@C42_hermitian _ 2%N (arr2 0 (- t) (- t) 0) (azeros 2 2)) => //.
    apply/matrixP => -[[|[|i]] hi] [[|[|j]] hj] //; rewrite !mxE !getE //= ?rmorphN ?rmorph0 ?ht //.
  by apply/matrixP => i j; rewrite !mxE !getE // oppr0.
exists H; have e := C46_small Hf H isT; eexists; split; [|exact: hH|exact: e|].
  by rewrite C42_build_H_default // eH /H ofM_toM.
have t0 : (\tr (E (- H)))^-1 != 0 by rewrite invr_eq0 gt_eqF // expm_trace_gt0 // /hermitian adjmN hH.
rewrite -scalemxAl -scalemxAr => /(scalerI t0) k.
pose v (s : C) : 'cV[C]_4 := \col_i (if (i == 0 :> nat)%N then 1 else if (i == 1 :> nat)%N then s else 0).
have ev s : s * s = 1 -> E (- H) *m v s = cexp E (- (s * t)) *: v s.
  move=> ss; have h : (- H) *m v s = v s *m (- (s * t))%:M.
    rewrite mul_mx_scalar; apply/matrixP => i j; rewrite mxE 4!big_ord_recl big_ord0.
    rewrite [in X in _ = X]mxE.
    have g a : (- H) i a = - (if (i < 2)%N then if (a < 2)%N then - (get (arr2 0 (- t) (- t) 0) i a)^* else 0 else
      if (a < 2)%N then 0 else get (arr2 0 (- t) (- t) 0) (i - 2) (a - 2)).
      by rewrite mxE hg; case: i => i hi; case: a => a ha /=; case: ltnP => h1; case: ltnP => h2 //; rewrite getE ?rmorph0 ?oppr0 //; lia.
    rewrite !g ![v s _ _]mxE.
    case: i {g} => [[|[|[|[|i]]]] hi] //=; rewrite ?getE //= ?rmorphN ?ht ?rmorph0 ?(mulr0, mul0r, mulr1, addr0, add0r, oppr0, opprK, mulNr) //.
      by rewrite mulrC.
    by rewrite mulrAC ss mul1r.
  by rewrite (expm_inter HE h) [X in v s *m X]mx11_scalar mul_mx_scalar.
have pv s : parity C 2 *m v s = v (- s).
  apply/matrixP => i j; rewrite !mxE 4!big_ord_recl big_ord0 !mxE !ts_get //= !big_ord_recl !big_ord0 pzE /bit /=.
  by case: i => [[|[|[|[|i]]]] hi] //=; rewrite !getE //= ?(mulr0, mul0r, mulr1, mul1r, addr0, add0r, mulrN, mulNr, opprK, oppr0).
have := congr1 (fun M : 'M_4 => (M *m v 1) ord0 ord0) k; rewrite /= -!mulmxA ev ?mulr1 // -scalemxAr pv ev ?mulrNN ?mulr1 //.
by rewrite mul1r mulN1r opprK !mxE /= !mulr1 => e1; rewrite e1 eqxx in ne.
Qed.

(* check_canonical_form applied to the first output of eigh_sp, diag(-S, S) *)
Lemma canonical_diag n (L : 'M[C]_(2 * n)) : check_canonical_form (ofM L) -> forall i, `|L i i| <= (10%:R ^+ 8)^-1.
Proof.
move/C45_decides => [_ h _] i; have := h i i; rewrite /np_close opprK normrN -mulr2n normrMn => k.
have l : (10%:R ^+ 5)^-1 * `|L i i| <= `|L i i|.
  by apply: ler_pimull => //; rewrite invf_le1 ?exprn_gt0 ?ltr0n // -natrX ler1n.
by have := le_trans k (ler_add (lexx _) l); rewrite mulr2n ler_add2r.
Qed.

Variables (schur_sort : arr -> arr * arr) (eigvalsh : arr -> seq C) (argsort : seq C -> seq nat).
Hypotheses (schurP : schur_sort_spec schur_sort) (evP : eigvalsh_spec eigvalsh) (asP : argsort_spec argsort).

(* "Check canonical form": for every H with an entry above 2n 1e-8 the printed answer is False *)
Theorem C75_refuted_canonical n (H : 'M[C]_(2 * n)) : (0 < n)%N -> hermitian H -> ph_symmetric H ->
  (exists i j, (2 * n)%:R * (10%:R ^+ 8)^-1 < `|H i j|) -> exists L U : 'M[C]_(2 * n),
  [/\ eigh_sp schur_sort eigvalsh argsort (ofM H) = Ok (ofM L, ofM U), is_symp (ofM U) = Ok true &
      check_canonical_form (ofM L) = false].
Proof.
move=> n0 hH pH [i0 [j0 big]]; have [L [U [S [e uU [sU _] eL [_ _ oL]]]]] := C52_eigh_sp schurP evP asP n0 hH pH.
exists L, U; split=> //; first by exact: C44_accepts.
apply/negP => /canonical_diag dL; move: big; set c : C := (10%:R ^+ 8)^-1 in dL *.
have c0 : 0 <= c by rewrite invr_ge0 exprn_ge0 ?ler0n.
have aL i j : `|L i j| <= c.
  case: (i =P j) => [<-|/eqP ij]; first exact: dL.
  apply: le_trans (oL i j ij) _; rewrite -[10%N]/(8 + 2)%N exprD invfM mulrCA -/c ler_pimulr //.
  by rewrite ler_pdivr_mulr ?exprn_gt0 ?ltr0n // mul1r -natrX ler_nat.
have t : \tr (adjm H *m H) = \tr (adjm L *m L).
  have -> : adjm L *m L = adjm U *m (adjm H *m H) *m U.
    by rewrite eL !adjmM adjmK !mulmxA -(mulmxA (adjm U *m adjm H) U (adjm U)) uU mulmx1.
  by rewrite [RHS]mxtrace_mulC !mulmxA uU mul1mx.
have : `|H i0 j0| ^+ 2 <= ((2 * n)%:R * c) ^+ 2.
  apply: le_trans (_ : \tr (adjm H *m H) <= _).
    rewrite gram_trace (bigD1 j0) //= (bigD1 i0) //= -addrA ler_addl addr_ge0 ?sumr_ge0 // => [i _|i _]; rewrite ?exprn_ge0 //.
    by rewrite sumr_ge0 // => k _; rewrite exprn_ge0.
  rewrite t gram_trace; apply: (@le_trans _ _ (\sum_(i < 2 * n) \sum_(j < 2 * n) c ^+ 2)).
    by apply: ler_sum => i _; apply: ler_sum => j _; rewrite ler_expn2r ?nnegrE ?normr_ge0.
  by rewrite !sumr_const !card_ord exprMn -mulrnA -[c ^+ 2 *+ _]mulr_natl natrM.
rewrite ler_sqr ?nnegrE ?normr_ge0 ?mulr_ge0 ?ler0n // => l1 l2.
by have := lt_le_trans l2 l1; rewrite ltxx.
Qed.
End Docs.
