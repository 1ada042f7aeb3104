(* PropDist2.v -- properties C33-C36: stabilizer distribution, SRE, trace distance, covariance distribution and FAF. *)
Set Warnings "-notation-overridden,-ambiguous-paths".
From Coq Require Import Reals.
From mathcomp Require Import all_ssreflect all_algebra.
From mathcomp Require Import complex.
From mathcomp.zify Require Import zify.
From Verif Require Import Base ArrC MCombinatorics MLib JW OpFam FermAlg LibFacts LibFacts3 MUtils Spectral RealC Info MDist PropLib1 PropUtils1 PropUtils2 PropDist1.
Set Implicit Arguments.
Unset Strict Implicit.
Unset Printing Implicit Defensive.
Import Order.Theory GRing.Theory Num.Theory.
Local Open Scope ring_scope.

Local Notation arr := (arr CR).
Local Notation input := (input CR).

(* ================================================================== *)
(* C33  stabilizer distribution                                        *)
(* ================================================================== *)
(* the k-th n-qubit Pauli string (C38) *)
Definition pauli n k : 'M[CR]_(2 ^ n) := toM (2 ^ n) (2 ^ n) (pstr CR n k).

Lemma tr_herm_real n (A B : 'M[CR]_n) : hermitian A -> hermitian B -> \tr (A *m B) \is Num.real.
Proof. by move=> hA hB; apply/CrealP; rewrite -trace_adjm adjmM hA hB mxtrace_mulC. Qed.

Lemma pauli_herm n k : (k < 4 ^ n)%N -> hermitian (pauli n k).
Proof. by move=> h; rewrite /hermitian /pauli -toM_adj ?nr_pstr ?nc_pstr // pstr_adj. Qed.
Lemma ofM_pauli n k : ofM (pauli n k) = pstr CR n k.
Proof. by rewrite /pauli ofM_toM ?nr_pstr ?nc_pstr. Qed.

(* Parseval in the Pauli basis *)
Lemma pauli_parseval n (X : 'M[CR]_(2 ^ n)) : \sum_(k < 4 ^ n) \tr (pauli n k *m X) ^+ 2 = 2%:R ^+ n * \tr (X *m X).
Proof.
have nz : 2%:R ^+ n != 0 :> CR by rewrite expf_neq0 // pnatr_eq0.
have -> : \tr (X *m X) = (2%:R ^+ n)^-1 * \sum_(k < 4 ^ n) \tr (pauli n k *m X) ^+ 2.
  have -> : \tr (X *m X) = \tr (((2%:R ^+ n)^-1 *: \sum_(k < 4 ^ n) \tr (pauli n k *m X) *: pauli n k) *m X).
    by rewrite -pauli_expand.
  rewrite -scalemxAl mxtraceZ mulmx_suml raddf_sum; congr (_ * _).
  by apply: eq_bigr => k _; rewrite -scalemxAl /= mxtraceZ expr2.
by rewrite mulrA mulfV // mul1r.
Qed.

Lemma pauli_sqr n k : pauli n k *m pauli n k = 1%:M.
Proof. by apply: ofM_inj; rewrite -ofM_mul ofM_pauli pstr_sqr ofM_eye. Qed.

Lemma real_traceE n (X Y : 'M[CR]_n) : \tr (X *m Y) \is Num.real ->
  real_trace (ofM X) (ofM Y) = Ok (re (\tr (X *m Y))).
Proof.
move=> h; rewrite /real_trace ofM_mul_chk /= ofM_trace -(toC_re h) im_toC normr0 invr_gt0 exprn_gt0 //.
by rewrite ltr0n.
Qed.

Lemma mapM_mkseq (A B : Type) (f : A -> res B) (g : nat -> A) (h : nat -> B) m :
  (forall k, (k < m)%N -> f (g k) = Ok (h k)) -> mapM f (mkseq g m) = Ok (mkseq h m).
Proof.
rewrite /mkseq; elim: m => // m IH e; rewrite -addn1 iotaD !map_cat /= add0n.
have -> (l1 l2 : seq A) : mapM f (l1 ++ l2) = let* u := mapM f l1 in let* v := mapM f l2 in Ok (u ++ v).
  elim: l1 => [|a l1 IH1] /=; first by case: (mapM f l2).
  by case: (f a) => //= b; rewrite IH1; case: (mapM f l1) => //= u; case: (mapM f l2).
rewrite IH /=; first by rewrite e.
by move=> k hk; apply: e; rewrite ltnS ltnW.
Qed.
Lemma rvec_mkseq m (F : nat -> R) : rvec (fun k : 'I_m => F k) = mkseq F m.
Proof. by rewrite /mkseq -val_enum_ord -[RHS]map_comp. Qed.

Lemma purity_gt0 n (M : 'M[CR]_n) : density M -> 0 < re (\tr (M *m M)).
Proof.
move=> [[hM _] t1]; have e : \tr (M *m M) = \sum_i \sum_j `|M i j| ^+ 2.
  rewrite -{2}hM /mxtrace; apply: eq_bigr => i _; rewrite mxE; apply: eq_bigr => j _.
  by rewrite !mxE normCK.
have ge : 0 <= \tr (M *m M).
  by rewrite e; apply: sumr_ge0 => i _; apply: sumr_ge0 => j _; rewrite exprn_ge0.
rewrite lt_def re0 // andbT; apply/eqP => h.
have z : \tr (M *m M) = 0 by rewrite -(toC_re (ger0_real ge)) h rmorph0.
have : M = 0.
  apply/matrixP => i j; apply/eqP; rewrite mxE -normr_eq0; suff: `|M i j| ^+ 2 == 0 by rewrite expf_eq0.
  move: z; rewrite e => /eqP; rewrite psumr_eq0 => [|k _]; last by apply: sumr_ge0 => l _; rewrite exprn_ge0.
  move=> /allP/(_ i); rewrite mem_index_enum => /(_ isT) /=; rewrite psumr_eq0 => [|k _]; last by rewrite exprn_ge0.
  by move=> /allP/(_ j); rewrite mem_index_enum => /(_ isT).
by move=> M0; move: t1; rewrite M0 mxtrace0 => /esym/eqP; rewrite oner_eq0.
Qed.

Definition xi n (M : 'M[CR]_(2 ^ n)) (k : 'I_(4 ^ n)) : R :=
  re (\tr (pauli n k *m M)) ^+ 2 / (2%:R ^+ n * re (\tr (M *m M))).

Lemma xi_dist n (M : 'M[CR]_(2 ^ n)) : density M -> dist (xi M).
Proof.
move=> d; have p0 := purity_gt0 d; have [[hM _] _] := d.
have d0 : 0 < 2%:R ^+ n * re (\tr (M *m M)) by rewrite mulr_gt0 ?exprn_gt0 ?ltr0n.
split=> [k|]; first by rewrite divr_ge0 ?sqr_ge0 // ltW.
rewrite /xi -mulr_suml; apply: (canLR (mulfK (lt0r_neq0 d0))); rewrite mul1r; apply: toC_inj.
rewrite raddf_sum rmorphM rmorphX /= toC_nat toC_re; last exact: tr_herm_real.
rewrite -pauli_parseval; apply: eq_bigr => k _; rewrite rmorphX /= toC_re //.
by apply: tr_herm_real => //; exact: pauli_herm.
Qed.

Lemma rclose_refl (a : R) : rclose a a.
Proof.
by rewrite /rclose subrr normr0 addr_ge0 ?mulr_ge0 ?invr_ge0 ?exprn_ge0 ?ler0n.
Qed.

Lemma stabE n (x : input) (M : 'M[CR]_(2 ^ n)) : (0 < n)%N -> cast_to_density_matrix x = Ok (ofM M) -> density M ->
  stabilizer_distribution x = Ok (rvec (xi M)).
Proof.
move=> n0 ex d; have [[hM _] _] := d; rewrite /stabilizer_distribution ex /= trunc_expnK //.
rewrite real_traceE /=; last exact: tr_herm_real.
rewrite pauli_groupE //=.
pose h k := re (\tr (pauli n k *m M)) ^+ 2 / (2%:R ^+ n * re (\tr (M *m M))).
rewrite (@mapM_mkseq _ _ _ _ h) => [|k hk]; last first.
  by rewrite -ofM_pauli real_traceE ?natrX //; apply: tr_herm_real => //; exact: pauli_herm.
rewrite /= -(@rvec_mkseq (4 ^ n) h) -/(xi M) (rvec_sum _ id) (xi_dist d).2 rclose_refl /=; done.
Qed.

(* for every n-qubit state: 4^n probabilities, xi_k proportional to <P_k>^2, P_k the k-th Pauli string (C38) *)
Theorem C33_distribution n (x : input) (M : 'M[CR]_(2 ^ n)) l : (0 < n)%N ->
  cast_to_density_matrix x = Ok (ofM M) -> density M -> generate_pauli_group CR n%:Z = Ok l ->
  let P k := toM (2 ^ n) (2 ^ n) (nth (azeros 0 0) l k) in
  exists2 xi : 'I_(4 ^ n) -> R, stabilizer_distribution x = Ok (rvec xi) &
  [/\ forall k, 0 <= xi k, \sum_k xi k = 1 &
      forall k, toC (xi k) = \tr (P k *m M) ^+ 2 / (2%:R ^+ n * \tr (M *m M))].
Proof.
move=> n0 ex d eg P; exists (xi M); first exact: stabE.
have [p s] := xi_dist d; have [[hM _] _] := d; split=> // k.
have -> : P k = pauli n k by rewrite /P; move: eg; rewrite pauli_groupE // => -[<-]; rewrite nth_mkseq.
rewrite /xi rmorphM fmorphV rmorphX rmorphM rmorphX /= toC_nat !toC_re //; apply: tr_herm_real => //; exact: pauli_herm.
Qed.

(* dimensions other than 2, 4, 8, ... : ValueError *)
Theorem C33_dimension N (x : input) (M : 'M[CR]_N) : cast_to_density_matrix x = Ok (ofM M) -> density M ->
  (forall n, (0 < n)%N -> N != 2 ^ n)%N -> stabilizer_distribution x = Raise ValueError.
Proof.
move=> ex d hN; have [[hM _] t1] := d; rewrite /stabilizer_distribution ex /= real_traceE /=; last exact: tr_herm_real.
have N0 : (0 < N)%N.
  by rewrite lt0n; apply/eqP => e; subst N; move: t1; rewrite /mxtrace big_ord0 => /esym/eqP; rewrite oner_eq0.
case: (posnP (trunc_log 2 N)) => [->|t0]; first by rewrite /generate_pauli_group.
rewrite pauli_groupE //=.
have : (0 < 4 ^ trunc_log 2 N)%N by rewrite expn_gt0.
case: (4 ^ _)%N => // m _; rewrite /mkseq /= {1}/real_trace /amul_chk nc_pstr /=.
by rewrite eq_sym (negPf (hN _ t0)).
Qed.

(* ================================================================== *)
(* C34  stabilizer Renyi entropy                                       *)
(* ================================================================== *)
Lemma tr_psd n (A : 'M[CR]_n) (B : 'M[CR]_n) : psd A -> 0 <= \tr (adjm B *m A *m B).
Proof.
move=> [hA q]; rewrite /mxtrace; apply: sumr_ge0 => i _.
have := q (col i B); rewrite /quad; suff -> : (adjm (col i B) *m A *m col i B) 0 0 = (adjm B *m A *m B) i i by [].
rewrite !mxE; apply: eq_bigr => j _; rewrite !mxE; congr (_ * _); apply: eq_bigr => k _; by rewrite !mxE.
Qed.

(* expectation of a reflection lies in [-1, 1] *)
Lemma tr_reflection n (M P : 'M[CR]_n) : density M -> hermitian P -> P *m P = 1%:M -> `|\tr (P *m M)| <= 1.
Proof.
move=> [pM t1] hP P2; have [hM _] := pM.
have h (s : CR) : s \is Num.real -> s * s = 1 -> 0 <= 1 + s * \tr (P *m M).
  move=> sr s2; pose B := 1%:M + s *: P.
  have hB : adjm B = B by rewrite adjmD adjm1 adjmZ hP (CrealP sr).
  have B2 : B *m B = 2%:R *: B.
    rewrite /B mulmxDl mul1mx mulmxDr mulmx1 -scalemxAl -scalemxAr P2 scalerA s2 scale1r.
    by rewrite scaler_nat mulr2n [s *: P + _]addrC.
  have := @tr_psd n M B pM; rewrite hB mxtrace_mulC mulmxA B2 -scalemxAl mxtraceZ.
  by rewrite pmulr_rge0 ?ltr0n // /B mulmxDl mul1mx mxtraceD t1 -scalemxAl mxtraceZ.
rewrite real_ler_norml; last exact: tr_herm_real.
have h1 := h 1 (rpred1 _) (mulr1 _).
have h2 : 0 <= 1 + -1 * \tr (P *m M) by apply: h; rewrite ?rpredN ?rpred1 // mulrNN mulr1.
by rewrite mul1r -ler_subl_addl sub0r in h1; rewrite mulN1r subr_ge0 in h2; rewrite h1.
Qed.

(* pure states: M^2 = M *)
Lemma xi_pure n (M : 'M[CR]_(2 ^ n)) k : density M -> M *m M = M ->
  xi M k = re (\tr (pauli n k *m M)) ^+ 2 / 2%:R ^+ n /\ xi M k <= (2%:R ^+ n)^-1.
Proof.
move=> d M2; have [_ t1] := d.
have e : xi M k = re (\tr (pauli n k *m M)) ^+ 2 / 2%:R ^+ n by rewrite /xi M2 t1 mulr1.
split=> //; rewrite e ler_pimull ?invr_ge0 ?exprn_ge0 ?ler0n //.
have h := tr_reflection d (pauli_herm (ltn_ord k)) (pauli_sqr n k).
have r : \tr (pauli n k *m M) \is Num.real by case: d => -[hM _] _; exact: tr_herm_real (pauli_herm (ltn_ord k)) hM.
rewrite -(ger0_norm (sqr_ge0 _)) normrX expr_le1 // -toC_le -toC_norm rmorph1 toC_re //.
Qed.

Lemma pdf_xi n (M : 'M[CR]_(2 ^ n)) : (0 < n)%N -> density M -> M *m M = M -> pdf (vin (rvec (xi M))) = Ok (rvec (xi M)).
Proof.
move=> n0 d M2; have dx := xi_dist d; apply: pdf_vin => //; apply: far.
have : (2%:R ^+ n)^-1 <= 2%:R^-1 :> R.
  by rewrite lef_pinv ?posrE ?exprn_gt0 ?ltr0n // ler_eexpr // ler1n.
have -> : (2%:R ^+ n)^-1 = \sum_k xi M k * (2%:R ^+ n)^-1 by rewrite -mulr_suml dx.2 mul1r.
apply: le_trans; apply: ler_sum => k _.
by rewrite expr2 ler_wpmul2l ?dx.1 //; exact: (xi_pure k d M2).2.
Qed.

Lemma xi_count n (M : 'M[CR]_(2 ^ n)) : (0 < n)%N -> density M -> M *m M = M ->
  count (fun t => t != 0) (rvec (xi M)) != 1%N.
Proof.
move=> n0 d M2; rewrite rvec_count; apply/eqP => c1.
have dx := xi_dist d; have [k pk] := dist_pos dx.
have : xi M k = 1.
  rewrite -dx.2 (bigD1 k) //= big1 ?addr0 // => j jk.
  apply/eqP; apply/negPn/negP => pj.
  have : (2 <= #|[pred i | xi M i != 0%R]|)%N.
    by apply/card_gt1P; exists j, k; rewrite !inE pj gt_eqF.
  by rewrite c1.
move=> e; have [_] := xi_pure k d M2; rewrite e leNgt invf_lt1 ?exprn_gt0 ?ltr0n //.
by rewrite exprn_egt1 ?ltr1n // -lt0n n0.
Qed.

Lemma SRE_pureE n (x : input) (M : 'M[CR]_(2 ^ n)) a : (0 < n)%N -> cast_to_density_matrix x = Ok (ofM M) ->
  density M -> M *m M = M -> SRE x a = let* s := renyi_entropy (vin (rvec (xi M))) a in Ok (esubr s (ln (2%:R ^+ n))).
Proof.
move=> n0 ex d M2; rewrite /SRE ex /= (stabE n0 (C25_density d) d) /= (negPf (xi_count n0 d M2)).
by rewrite natrX.
Qed.

Theorem C34_pure n (x : input) (M : 'M[CR]_(2 ^ n)) (a : order) : (0 < n)%N ->
  cast_to_density_matrix x = Ok (ofM M) -> density M -> M *m M = M -> (if a is Ord a then 0 <= a else true) ->
  exists2 s, SRE x a = Ok (Fin s) & 0 <= s.
Proof.
move=> n0 ex d M2 a0; rewrite (SRE_pureE _ n0 ex d M2).
have dx := xi_dist d; have px := pdf_xi n0 d M2.
have lo := fun t => @S_max _ (xi M) t _ dx (fun k => (xi_pure k d M2).2).
have D0 : 0 < 2%:R ^+ n :> R by rewrite exprn_gt0 ?ltr0n.
case: a a0 => [a|] a0.
  rewrite (C31_value px dx a0) /=; eexists; first by [].
  by rewrite subr_ge0 renyi_S //; have := lo (a - 1); rewrite lnV // opprK.
have [m -> [pm [i em]]] := C31_inf px dx; eexists; first by [].
have m0 : 0 < m by have [j pj] := dist_pos dx; exact: lt_le_trans pj (pm j).
by rewrite subr_ge0 -[ln (2%:R ^+ n)]opprK -lnV // ler_opp2 ler_ln ?invr_gt0 // -em; exact: (xi_pure i d M2).2.
Qed.

Lemma pauli0 n : pauli n 0 = 1%:M.
Proof.
apply: ofM_inj; rewrite ofM_pauli -ofM_eye /pstr -ts_eye; apply: eq_ts => j _.
by rewrite /dig div0n mod0n.
Qed.

(* infinite order: zero for every pure state, so it detects nothing *)
Theorem C34_inf n (x : input) (M : 'M[CR]_(2 ^ n)) : (0 < n)%N ->
  cast_to_density_matrix x = Ok (ofM M) -> density M -> M *m M = M -> SRE x OInf = Ok (Fin 0).
Proof.
move=> n0 ex d M2; rewrite (SRE_pureE _ n0 ex d M2).
have dx := xi_dist d; have px := pdf_xi n0 d M2; have [m -> [pm [i em]]] := C31_inf px dx.
have h4 : (0 < 4 ^ n)%N by rewrite expn_gt0.
have [x0 _] := xi_pure (Ordinal h4) d M2; have [_ t1] := d.
rewrite /= pauli0 mul1mx t1 expr1n mul1r in x0.
have -> : m = (2%:R ^+ n)^-1.
  by apply/eqP; rewrite eq_le -{1}em (xi_pure i d M2).2 -x0 pm.
by rewrite /= lnV ?exprn_gt0 ?ltr0n // opprK subrr.
Qed.

(* stabilizer states: every Pauli expectation is 0, 1 or -1; zero for every order, and only for them when the order is finite *)
Theorem C34_stabilizer n (x : input) (M : 'M[CR]_(2 ^ n)) l (a : order) : (0 < n)%N ->
  cast_to_density_matrix x = Ok (ofM M) -> density M -> M *m M = M -> (if a is Ord a then 0 <= a else true) ->
  generate_pauli_group CR n%:Z = Ok l ->
  let P k := toM (2 ^ n) (2 ^ n) (nth (azeros 0 0) l k) in
  let stab := forall k, (k < 4 ^ n)%N -> \tr (P k *m M) \in [:: 0; 1; -1] in
  (stab -> SRE x a = Ok (Fin 0)) /\
  ((if a is Ord _ then true else false) -> SRE x a = Ok (Fin 0) -> stab).
Proof.
move=> n0 ex d M2 a0 eg P stab; have dx := xi_dist d; have px := pdf_xi n0 d M2.
have eP k : (k < 4 ^ n)%N -> P k = pauli n k.
  by move=> hk; rewrite /P; move: eg; rewrite pauli_groupE // => -[<-]; rewrite nth_mkseq.
have D0 : 0 < 2%:R ^+ n :> R by rewrite exprn_gt0 ?ltr0n.
split=> [st|a2].
  rewrite (SRE_pureE _ n0 ex d M2) (C31_flat px dx a0 (c := (2%:R ^+ n)^-1)) => [|k].
    by rewrite /= lnV // opprK subrr.
  have [-> _] := xi_pure k d M2; have := st k (ltn_ord k); rewrite eP // !inE.
  case/or3P => /eqP ->; [left|right|right]; rewrite ?raddfN ?raddf0 ?sqrrN ?expr0n ?mul0r //.
    by rewrite expr1n mul1r.
  by rewrite expr1n mul1r.
case: a a0 a2 => // a a0 a2; rewrite (SRE_pureE _ n0 ex d M2) (C31_value px dx a0) /= => -[] /eqP.
rewrite renyi_S // subr_eq0 => /eqP e.
have fl : forall k, xi M k = 0 \/ xi M k = (2%:R ^+ n)^-1.
  apply: (@St_flat _ _ _ (Num.max (a - 1) 1)) => // [|k|]; first by rewrite lt_maxr ltr01 orbT.
    exact: (xi_pure k d M2).2.
  by rewrite lnV // opprK -e; apply: S_anti => //; rewrite le_maxr lexx.
move=> k hk; rewrite eP // !inE; pose i := Ordinal hk; have [e1 _] := xi_pure i d M2.
have r : \tr (pauli n k *m M) \is Num.real by case: d => -[hM _] _; exact: tr_herm_real (pauli_herm hk) hM.
have nz : (2%:R ^+ n)^-1 != 0 :> R by rewrite gt_eqF // invr_gt0.
case: (fl i) => e2; move: e1; rewrite e2 /=.
  move/esym/eqP; rewrite mulf_eq0 (negPf nz) orbF expf_eq0 /= => /eqP e3.
  by rewrite -(toC_re r) e3 rmorph0 eqxx.
rewrite -{1}[_^-1]mul1r => /(mulIf nz)/esym/eqP; rewrite sqrf_eq1.
by case/orP => /eqP h; rewrite -(toC_re r) h ?rmorphN rmorph1 eqxx ?orbT.
Qed.

Lemma eps_tenth : (10%:R ^+ 8)^-1 + (10%:R ^+ 5)^-1 <= 10%:R^-1 :> R.
Proof.
have h k : (10%:R ^+ k.+2)^-1 <= (10%:R * 10%:R)^-1 :> R.
  have p1 : (1 : R) <= 10%:R ^+ k by rewrite exprn_ege1 // ler1n.
  have -> : 10%:R ^+ k.+2 = (10%:R * 10%:R) * 10%:R ^+ k :> R by rewrite !exprS mulrA.
  have p0 : 0 < 10%:R * 10%:R :> R by rewrite mulr_gt0 ?ltr0n.
  by rewrite lef_pinv ?posrE ?ler_pemulr ?(ltW p0) // mulr_gt0 // (lt_le_trans ltr01).
have h8 := h 6%N; have h5 := h 3%N; apply: (le_trans (ler_add h8 h5)); clear; rewrite invfM; rlra.
Qed.

Lemma far45 (s : R) : s <= 4%:R / 5%:R -> ~~ (`|Num.sqrt s - 1| <= (10%:R ^+ 8)^-1 + (10%:R ^+ 5)^-1).
Proof.
move=> h; rewrite -ltNge (le_lt_trans eps_tenth) //.
have s34 : Num.sqrt s <= 179%:R / 200%:R.
  have e : 179%:R / 200%:R = Num.sqrt ((179%:R / 200%:R) ^+ 2) :> R by rewrite sqrtr_sqr ger0_norm // divr_ge0 ?ler0n.
  rewrite e ler_wsqrtr //; apply: (le_trans h); clear; rewrite expr2; rlra.
rewrite distrC; apply: lt_le_trans (ler_norm _); rewrite ltr_subr_addl; apply: (le_lt_trans (ler_add s34 (lexx _))).
clear; rlra.
Qed.

Lemma xi0 n (M : 'M[CR]_(2 ^ n)) (h4 : (0 < 4 ^ n)%N) : density M ->
  xi M (Ordinal h4) = (2%:R ^+ n * re (\tr (M *m M)))^-1.
Proof. by move=> [_ t1]; rewrite /xi /= pauli0 mul1mx t1 expr1n mul1r. Qed.

Lemma xi_le n (M : 'M[CR]_(2 ^ n)) k : density M -> xi M k <= (2%:R ^+ n * re (\tr (M *m M)))^-1.
Proof.
move=> d; have p0 := purity_gt0 d; rewrite /xi ler_pimull ?invr_ge0 ?mulr_ge0 ?exprn_ge0 ?ler0n ?(ltW p0) //.
have h := tr_reflection d (pauli_herm (ltn_ord k)) (pauli_sqr n k).
have r : \tr (pauli n k *m M) \is Num.real by case: d => -[hM _] _; exact: tr_herm_real (pauli_herm (ltn_ord k)) hM.
by rewrite -(ger0_norm (sqr_ge0 _)) normrX expr_le1 // -toC_le -toC_norm rmorph1 toC_re.
Qed.

(* mixed states: SRE_2 is negative on a whole range of purities, so non-negativity for all states is refuted *)
Theorem C34_mixed_refuted n (x : input) (M : 'M[CR]_(2 ^ n)) : (0 < n)%N ->
  cast_to_density_matrix x = Ok (ofM M) -> density M ->
  let purity := re (\tr (M *m M)) in 5%:R / 4%:R <= 2%:R ^+ n * purity -> 2%:R ^+ n * purity ^+ 2 < 1 ->
  exists2 s, SRE x (Ord 2%:R) = Ok (Fin s) & s < 0.
Proof.
move=> n0 ex d pur p1 p2; have dx := xi_dist d; have h4 : (0 < 4 ^ n)%N by rewrite expn_gt0.
have e0 := xi0 h4 d; have le0 := fun k => xi_le k d; rewrite -/pur in e0 le0; set k0 := Ordinal h4 in e0.
set D := 2%:R ^+ n * pur in p1 e0 le0.
have D0 : 0 < D by rewrite (lt_le_trans _ p1) // divr_gt0 ?ltr0n.
have x45 : D^-1 <= 4%:R / 5%:R.
  by rewrite -[4%:R / _]invrK lef_pinv ?posrE ?invr_gt0 ?divr_gt0 ?ltr0n // invf_div.
have sq : \sum_k xi M k ^+ 2 <= D^-1.
  have -> : D^-1 = \sum_k xi M k * D^-1 by rewrite -mulr_suml dx.2 mul1r.
  by apply: ler_sum => k _; rewrite expr2 ler_wpmul2l ?dx.1.
have px : pdf (vin (rvec (xi M))) = Ok (rvec (xi M)).
  by apply: pdf_vin => //; apply: far45; exact: le_trans sq x45.
have c1 : count (fun t => t != 0) (rvec (xi M)) != 1%N.
  rewrite rvec_count; apply/eqP => c1.
  have : xi M k0 = 1.
    rewrite -dx.2 (bigD1 k0) //= big1 ?addr0 // => j jk.
    apply/eqP; apply/negPn/negP => pj.
    have : (2 <= #|[pred i | xi M i != 0%R]|)%N.
      by apply/card_gt1P; exists j, k0; rewrite !inE pj e0 invr_eq0 gt_eqF.
    by rewrite c1.
  move=> e; move: x45; rewrite -e0 e => h; clear -h; suff: 1 <= 0 :> R by rewrite ler10.
  rlra.
rewrite /SRE ex /= (stabE n0 (C25_density d) d) /= (negPf c1) (C31_value px dx) ?ler0n //= natrX.
eexists; first by [].
rewrite subr_lt0 renyi_S // /S.
have -> : 2%:R - 1 = 1 :> R by rewrite -addrA addrN addr0.
rewrite oner_eq0 divr1.
have P0 : 0 < 2%:R ^+ n :> R by rewrite exprn_gt0 ?ltr0n.
have z : D^-1 ^+ 2 <= Zf (xi M) 1.
  rewrite /Zf (bigD1 k0) //= e0 mul1r expRK ?invr_gt0 // -expr2 ler_addl sumr_ge0 // => k _.
  by rewrite mulr_ge0 ?dx.1 ?expR_ge0.
have i0 : 0 < D^-1 ^+ 2 by rewrite exprn_gt0 ?invr_gt0.
rewrite -lnV ?(lt_le_trans i0 z) // ltr_ln ?invr_gt0 ?(lt_le_trans i0 z) //.
have : (Zf (xi M) 1)^-1 <= D ^+ 2.
  by rewrite -[leRHS]invrK -exprVn lef_pinv ?posrE ?(lt_le_trans i0 z).
move/le_lt_trans; apply; rewrite /D exprMn expr2 -mulrA -[ltRHS]mulr1 ltr_pmul2l //.
Qed.

Theorem C34_maximally_mixed n (x : input) a : (0 < n)%N ->
  cast_to_density_matrix x = Ok (ofM ((2%:R ^+ n)^-1%:M : 'M[CR]_(2 ^ n))) -> SRE x a = Ok (Fin 0).
Proof.
move=> n0 ex; set M := (_%:M) in ex.
have P0 : 0 < 2%:R ^+ n :> CR by rewrite exprn_gt0 ?ltr0n.
have d : density M.
  split; last by rewrite mxtrace_scalar -[_ *+ _]mulr_natl natrX mulfV ?gt_eqF.
  apply/(@psd_diag _ _ _ 1%:M (const_mx (2%:R ^+ n)^-1)); rewrite ?/unitary ?adjm1 ?mulmx1 ?mul1mx ?diag_const_mx //.
  by move=> i; rewrite mxE invr_ge0 ltW.
rewrite /SRE ex /= (stabE n0 (C25_density d) d) /= ifT // rvec_count.
have h4 : (0 < 4 ^ n)%N by rewrite expn_gt0.
apply/eqP/(@eq_card1 _ (Ordinal h4)) => k; rewrite !inE -val_eqE /=.
have -> : xi M k = if val k == 0%N then 1 else 0.
  have tk : \tr (pauli n k) = if val k == 0%N then 2%:R ^+ n else 0 :> CR.
    by have := @pstr_trace CR n k 0 (ltn_ord k) h4; rewrite -!ofM_pauli ofM_mul ofM_trace pauli0 mulmx1.
  have [dx _] := xi_dist d.
  case: ifP tk => [/eqP k0 _|_ tk]; last first.
    by rewrite /xi /M mul_mx_scalar mxtraceZ tk mulr0 raddf0 expr0n mul0r.
  have -> : k = Ordinal h4 by apply: val_inj.
  rewrite xi0 // /M -scalar_mxM mxtrace_scalar -[(_ / _) *+ _]mulr_natr natrX -mulrA mulVf ?gt_eqF // mulr1.
  have -> : (2%:R ^+ n)^-1 = toC (2%:R ^+ n)^-1 by rewrite fmorphV rmorphX /= toC_nat.
  by rewrite reK mulfV ?invr1 // expf_neq0 // pnatr_eq0.
by case: (val k == 0%N); rewrite ?eqxx ?oner_eq0.
Qed.

(* a concrete instance: the qubit diag(3/4, 1/4) *)
Example C34_mixed_ex : exists2 s, SRE (V2 (ofM (diag_mx (\row_(i < 2 ^ 1) (if val i == 0%N then 3%:R / 4%:R else 4%:R^-1 : CR))))) (Ord 2%:R) = Ok (Fin s) & s < 0.
Proof.
set M := diag_mx _.
have d : density M.
  split.
    apply/(@psd_diag _ _ _ 1%:M (\row_(i < 2 ^ 1) (if val i == 0%N then 3%:R / 4%:R else 4%:R^-1 : CR)));
      rewrite ?/unitary ?adjm1 ?mulmx1 ?mul1mx //.
    by move=> i; rewrite mxE; case: ifP => _; rewrite ?divr_ge0 ?invr_ge0 ?ler0n.
  rewrite /M mxtrace_diag big_ord_recl big_ord1 !mxE /= -{2}[4%:R^-1]mul1r -mulrDl.
  have -> : 3%:R + 1 = 4%:R :> CR by rewrite -(natrD _ 3 1).
  rewrite mulfV //.
  by rewrite pnatr_eq0.
have p : re (\tr (M *m M)) = 5%:R / 8%:R.
  have -> : \tr (M *m M) = 3%:R / 4%:R * (3%:R / 4%:R) + 4%:R^-1 * 4%:R^-1.
    by rewrite /M mulmx_diag mxtrace_diag big_ord_recl big_ord1 !mxE.
  have -> : 3%:R / 4%:R * (3%:R / 4%:R) + 4%:R^-1 * 4%:R^-1 = toC (3%:R / 4%:R * (3%:R / 4%:R) + 4%:R^-1 * 4%:R^-1) :> CR.
    by rewrite rmorphD !rmorphM !fmorphV /= !toC_nat.
  rewrite reK; rlra.
apply: (@C34_mixed_refuted 1 _ M) => //; first exact: C25_density.
  rewrite p expr1; rlra.
rewrite p expr1 expr2; rlra.
Qed.
(* |0...0> is a stabilizer state: a concrete case of C33 and of C34_stabilizer for every n and every order *)
Example C34_zero_state n (a : order) (k0 : 'I_(2 ^ n)) : (0 < n)%N -> val k0 = 0%N -> (if a is Ord a then 0 <= a else true) ->
  SRE (V1 (vec (fun i : 'I_(2 ^ n) => (i == k0)%:R : CR))) a = Ok (Fin 0).
Proof.
move=> n0 e0 a0; set v := fun i => _.
have nv : \sum_i `|v i| ^+ 2 = 1.
  rewrite (bigD1 k0) //= /v eqxx normr1 expr1n big1 ?addr0 // => i /negPf ->; by rewrite normr0 expr0n.
have [ec d] := C25_wavefunction nv.
have M2 : outer v *m outer v = outer v.
  apply/matrixP => i j; rewrite !mxE (bigD1 k0) //= big1 ?addr0 => [|k /negPf nk]; last first.
    by rewrite !mxE /v nk conjC0 mulr0 mul0r.
  by rewrite !mxE /v eqxx conjC1 !mulr1 mul1r.
have [st _] := C34_stabilizer n0 ec d M2 a0 (pauli_groupE CR n0).
apply: st => k hk; rewrite nth_mkseq //.
have -> : \tr (toM (2 ^ n) (2 ^ n) (pstr CR n k) *m outer v) = get (pstr CR n k) 0 0.
  rewrite /mxtrace (bigD1 k0) //= big1 ?addr0 => [|i /negPf ni]; last first.
    by rewrite mxE big1 // => j _; rewrite !mxE /v ni conjC0 !mulr0.
  rewrite mxE (bigD1 k0) //= big1 ?addr0 => [|j /negPf nj]; last by rewrite !mxE /v nj mul0r mulr0.
  by rewrite !mxE /v eqxx conjC1 !mulr1 e0.
have h2 : (0 < 2 ^ n)%N by rewrite expn_gt0.
rewrite (ts_get (pstr2 CR n k)) //; apply: (big_ind (fun z => z \in [:: 0; 1; -1])); first by rewrite !inE eqxx orbT.
  by move=> x y; rewrite !inE => /or3P[]/eqP -> /or3P[]/eqP ->; rewrite ?mulr0 ?mul0r ?mulr1 ?mul1r ?mulrNN ?mulr1 eqxx ?orbT.
move=> j _; rewrite /bit !div0n !mod0n; have : (dig n k j < 4)%N by rewrite ltn_mod.
by case: (dig n k j) => [|[|[|[|]]]] // _; rewrite /sig /= !inE ?getE //= eqxx ?orbT.
Qed.
