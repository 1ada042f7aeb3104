(* PropZero.v -- property C91: what generate_gaussian_state returns is the state of least free energy, and at low temperature it
   approaches the ground state *)
Set Warnings "-notation-overridden,-ambiguous-paths".
From Coq Require Import Reals Lra.
From mathcomp Require Import all_ssreflect all_algebra.
From mathcomp Require Import complex.
From mathcomp.zify Require Import zify.
From Verif Require Import PropEigh1.
From Verif Require Import Base ArrC MCombinatorics MLib JW OpFam FermAlg LibFacts LibFacts2 LibFacts3 MUtils Spectral NormalCalc Expm RealC Info MDist
  PropLib1 PropLib2 PropLib3 PropLib4 PropUtils1 PropUtils2 PropDist1 PropDist2 Skew MRandom ExpmAd RndFacts PropThermal PropEigh2 ManyBody PropModes
  Limits RExp RLog PropRandom2 PropDist3 PropDist4 PropDist5 PropDist8 PropDist9 PropExpm PropGround.
Set Implicit Arguments.
Unset Strict Implicit.
Unset Printing Implicit Defensive.
Import Order.Theory GRing.Theory Num.Theory.
Local Open Scope ring_scope.

Local Notation gibbs := PropLib3.gibbs.
Local Notation gibbs_density := PropLib3.gibbs_density.
Local Notation kept H := (cutoff (10%:R ^+ 10)^-1 H).
Local Notation arr := (arr CR).
Local Notation input := (input CR).

Section Spectrum.
Variable E : forall n, 'M[CR]_n -> 'M[CR]_n.
Hypothesis HE : expm_spec E.
Hypothesis eE : forall t : R, @E 1 (toC t)%:M = (toC (exp t))%:M.
Variables (N : nat) (U : 'M[CR]_N) (d : 'I_N -> R).
Hypothesis N0 : (0 < N)%N.
Hypothesis uU : unitary U.

Definition dg (f : 'I_N -> R) : 'M[CR]_N := diag_mx (\row_i toC (f i)).
Let H := adjm U *m dg d *m U.
Definition part : R := \sum_i exp (- d i).
Definition occ i : R := exp (- d i) / part.

Lemma part_gt0 : 0 < part.
Proof.
rewrite /part (bigD1 (Ordinal N0)) //= ltr_spaddl ?expR_gt0 //; apply: sumr_ge0 => i _; exact: expR_ge0.
Qed.
Lemma occ_gt0 i : 0 < occ i. Proof. by rewrite divr_gt0 ?expR_gt0 ?part_gt0. Qed.
Lemma occ_sum : \sum_i occ i = 1.
Proof. by rewrite -mulr_suml divff // gt_eqF // part_gt0. Qed.
Lemma occ_dist : dist occ.
Proof. by split; [move=> i; exact: ltW (occ_gt0 i)|exact: occ_sum]. Qed.
Lemma ln_occ i : ln (occ i) = - d i - ln part.
Proof. by rewrite /occ ln_div ?expR_gt0 ?part_gt0 // lnRK. Qed.

Lemma dg_trace f : \tr (dg f) = toC (\sum_i f i).
Proof. by rewrite mxtrace_diag rmorph_sum; apply: eq_bigr => i _; rewrite mxE. Qed.

Lemma dg_herm f : hermitian (adjm U *m dg f *m U).
Proof.
rewrite /hermitian !adjmM adjmK mulmxA; congr (_ *m _ *m _).
apply/matrixP => i j; rewrite !mxE eq_sym; case: eqP => [->|_]; rewrite ?mulr1n ?mulr0n ?rmorph0 //.
by rewrite (CrealP (toC_real _)).
Qed.

Lemma expm_dg : E (- H) = adjm U *m dg (fun i => exp (- d i)) *m U.
Proof.
have -> : - H = adjm U *m diag_mx (- (\row_i toC (d i))) *m U by rewrite raddfN mulmxN mulNmx.
rewrite (expm_conj HE) //; congr (_ *m diag_mx _ *m _); apply/matrixP => a b.
by rewrite !mxE -rmorphN /= /cexp eE mxE mulr1n.
Qed.

Lemma tr_dg f : \tr (adjm U *m dg f *m U) = toC (\sum_i f i).
Proof. by rewrite mxtrace_mulC mulmxA uU mul1mx dg_trace. Qed.

Lemma gibbs_dg : gibbs E H = adjm U *m dg occ *m U.
Proof.
rewrite /gibbs expm_dg tr_dg scalemxAl scalemxAr; congr (_ *m _ *m _).
apply/matrixP => i j; rewrite !mxE -/part; case: eqP => _; last by rewrite !mulr0n mulr0.
by rewrite !mulr1n /occ mulrC rmorphM fmorphV.
Qed.

Lemma tr_gen (W : 'M[CR]_N) f g : \tr (dg f *m (W *m dg g *m adjm W)) =
  \sum_i \sum_j toC (f i) * (W i j * (W i j)^* * toC (g j)).
Proof.
rewrite /mxtrace; apply: eq_bigr => i _; rewrite mul_diag_mx !mxE mulr_sumr.
by apply: eq_bigr => j _; rewrite mul_mx_diag !mxE; congr (_ * _); rewrite -!mulrA; congr (_ * _); rewrite mulrC.
Qed.

Lemma dg_comm (W : 'M[CR]_N) f g : dg f *m W = W *m dg g <-> forall i j, W i j = 0 \/ f i = g j.
Proof.
split=> [/matrixP e i j|h].
  have := e i j; rewrite mul_diag_mx mul_mx_diag !mxE mulrC => e'.
  case: (eqVneq (W i j) 0) => [w0|wn]; [by left|right].
  by apply: toC_inj; exact: (mulfI wn).
apply/matrixP => i j; rewrite mul_diag_mx mul_mx_diag !mxE mulrC.
by case: (h i j) => ->; rewrite ?mul0r.
Qed.

(* free energy of a state with eigenvalues q: a sum of relative entropies *)
Section Free.
Variables (V : 'M[CR]_N) (q : 'I_N -> R).
Hypothesis uV : unitary V.
Let W := V *m adjm U.
Let w i j : R := re `|W i j| ^+ 2.

Lemma wE i j : toC (w i j) = W i j * (W i j)^*.
Proof. by rewrite /w rmorphX /= toC_re_norm normCK. Qed.
Lemma w_ge0 i j : 0 <= w i j. Proof. by rewrite sqr_ge0. Qed.

Lemma W_unit : unitary W.
Proof. by rewrite /unitary /W adjmM adjmK mulmxA -(mulmxA V) (unitaryC uU) mulmx1. Qed.

Lemma w_row i : \sum_j w i j = 1.
Proof.
apply: toC_inj; rewrite rmorph_sum rmorph1 /=; move/matrixP: W_unit => /(_ i i); rewrite !mxE eqxx => h; rewrite -[RHS]h.
by apply: eq_bigr => j _; rewrite wE !mxE.
Qed.
Lemma w_col j : \sum_i w i j = 1.
Proof.
apply: toC_inj; rewrite rmorph_sum rmorph1 /=; move/matrixP: (unitaryC W_unit) => /(_ j j); rewrite !mxE eqxx => h; rewrite -[RHS]h.
by apply: eq_bigr => i _; rewrite wE !mxE mulrC.
Qed.

Lemma tr_energy : \tr (adjm V *m dg q *m V *m H) = toC (\sum_i \sum_j q i * (w i j * d j)).
Proof.
have -> : \tr (adjm V *m dg q *m V *m H) = \tr (dg q *m (W *m dg d *m adjm W)).
  by rewrite /H /W adjmM adjmK -!mulmxA mxtrace_mulC -!mulmxA.
rewrite tr_gen rmorph_sum; apply: eq_bigr => i _; rewrite rmorph_sum; apply: eq_bigr => j _.
by rewrite (rmorphM toC_rmorphism) (rmorphM toC_rmorphism) /= wE.
Qed.

Hypothesis dq : dist q.

Lemma free_sum : \sum_i \sum_j q i * (w i j * d j) - (- mean q) = \sum_i \sum_j w i j * klterm (q i) (occ j) - ln part.
Proof.
have [q0 q1] := dq.
have -> : ln part = \sum_i \sum_j w i j * (q i * ln part).
  rewrite (eq_bigr (fun i => q i * ln part)) => [|i _]; last by rewrite -mulr_suml w_row mul1r.
  by rewrite -mulr_suml q1 mul1r.
rewrite opprK /mean -sumrB -big_split; apply: eq_bigr => i _ /=.
rewrite -sumrB -[q i * ln (q i)]mul1r -(w_row i) mulr_suml -big_split; apply: eq_bigr => j _ /=.
rewrite /klterm; case: eqP => [->|/eqP qn]; first by rewrite !mul0r !mulr0 subr0 addr0.
rewrite ln_div ?occ_gt0 // ?lt0r ?qn ?q0 // ln_occ; rring.
Qed.

Let gapt i j := klterm (q i) (occ j) - (q i - occ j).
Lemma gapt_ge0 i j : 0 <= gapt i j.
Proof. by rewrite subr_ge0 klterm_ge ?dq.1 // ?(ltW (occ_gt0 j)) // => e; have := occ_gt0 j; rewrite e ltxx. Qed.

Lemma free_gap : \sum_i \sum_j q i * (w i j * d j) - (- mean q) = - ln part + \sum_i \sum_j w i j * gapt i j.
Proof.
rewrite free_sum addrC; congr (_ + _).
have z : \sum_i \sum_j w i j * (q i - occ j) = 0.
  under eq_bigr do (under eq_bigr do rewrite mulrBr; rewrite sumrB -mulr_suml w_row mul1r).
  rewrite sumrB dq.2 exchange_big /=; under eq_bigr do rewrite -mulr_suml w_col mul1r.
  by rewrite occ_sum subrr.
rewrite -[LHS]subr0 -[X in _ - X = _]z -sumrB; apply: eq_bigr => i _; rewrite -sumrB; apply: eq_bigr => j _.
by rewrite -mulrBr.
Qed.

Lemma free_ge : - ln part <= \sum_i \sum_j q i * (w i j * d j) - (- mean q).
Proof.
rewrite free_gap ler_addl; apply: sumr_ge0 => i _; apply: sumr_ge0 => j _.
by rewrite mulr_ge0 ?w_ge0 ?gapt_ge0.
Qed.

Lemma free_min : \sum_i \sum_j q i * (w i j * d j) - (- mean q) = - ln part <-> adjm V *m dg q *m V = gibbs E H.
Proof.
have -> : (adjm V *m dg q *m V = gibbs E H) <-> (forall i j, w i j = 0 \/ q i = occ j).
  rewrite gibbs_dg; have uU' := unitaryC uU; have uV' := unitaryC uV.
  have -> : (adjm V *m dg q *m V = adjm U *m dg occ *m U) <-> (dg q *m W = W *m dg occ).
    split=> e.
      have := congr1 (fun X => V *m X *m adjm U) e; rewrite /W -!mulmxA uU mulmx1 !mulmxA uV mul1mx //.
    have := congr1 (fun X => adjm V *m X *m U) e; rewrite /W -!mulmxA uU' mulmx1 !mulmxA uV' mul1mx //.
  have w0 i j : w i j = 0 <-> W i j = 0.
    split=> [h|h]; last by rewrite /w h normr0 raddf0 expr0n.
    by have := wE i j; rewrite h rmorph0 -normCK => /esym/eqP; rewrite expf_eq0 normr_eq0 /= => /eqP.
  rewrite dg_comm; split=> h i j; by case: (h i j) => [/w0|] h'; [left|right].
rewrite free_gap; split=> [e i j|h].
  have z : \sum_i \sum_j w i j * gapt i j = 0 by apply: (addrI (- ln part)); rewrite addr0.
  have g0 a b : 0 <= w a b * gapt a b by rewrite mulr_ge0 ?w_ge0 ?gapt_ge0.
  have /psumr_eq0P z1 := z; have := z1 (fun a _ => sumr_ge0 _ (fun b _ => g0 a b)) i isT => /psumr_eq0P z2.
  have := z2 (fun b _ => g0 i b) j isT => /eqP; rewrite mulf_eq0 => /orP[/eqP->|h]; [by left|right].
  move: h; rewrite /gapt subr_eq0 => /eqP; apply: klterm_eq; rewrite ?dq.1 ?(ltW (occ_gt0 j)) //.
  by move=> e0; have := occ_gt0 j; rewrite e0 ltxx.
rewrite [X in _ + X]big1 ?addr0 // => i _; apply: big1 => j _; case: (h i j) => [->|e]; first by rewrite mul0r.
rewrite /gapt e subrr /klterm gt_eqF ?occ_gt0 // divff ?gt_eqF ?occ_gt0 // lnR1 mulr0 subr0 mulr0 //.
Qed.
End Free.
End Spectrum.

Lemma herm_dg N (H : 'M[CR]_N) : hermitian H -> exists2 U : 'M[CR]_N, unitary U & exists d : 'I_N -> R, H = adjm U *m dg d *m U.
Proof.
move=> hH; have [U uU [d rd e]] := spectral_herm hH; exists U => //; exists (fun i => re (d 0 i)).
by rewrite e; congr (_ *m diag_mx _ *m _); apply/matrixP => a b; rewrite !mxE ord1 toC_re.
Qed.

(* C91: the state returned for H is the only one of least free energy <H> - S; S is the entropy of the eigenvalues, which
   renyi_entropy of order 1 computes for the state written in an eigenbasis, and the least value is - ln sum_i exp(- d_i) over the
   eigenvalues d_i of H *)
Theorem C91_variational E expm n (H : 'M[CR]_(2 ^ n)) : expm_spec E -> computes expm E ->
  (forall t : R, E 1%N (toC t)%:M = (toC (exp t))%:M) -> hermitian H -> exists (rho : 'M[CR]_(2 ^ n)) (d : 'I_(2 ^ n) -> R),
  [/\ generate_gaussian_state expm n (ofM H) None = Ok (Some (ofM rho)), density rho,
      char_poly H = \prod_i ('X - (toC (d i))%:P) &
      forall sigma V : 'M[CR]_(2 ^ n), density sigma -> unitary V -> is_diag_mx (V *m sigma *m adjm V) ->
        exists2 s, renyi_entropy (V2 (ofM (V *m sigma *m adjm V))) (Ord 1) = Ok (Fin s) &
          - ln (\sum_i exp (- d i)) <= re (\tr (sigma *m H)) - s /\
          (re (\tr (sigma *m H)) - s = - ln (\sum_i exp (- d i)) <-> sigma = rho)].
Proof.
move=> HE Hf eE hH; have [U uU [d eH]] := herm_dg hH; have N0 : (0 < 2 ^ n)%N := pow2_gt0 n.
exists (gibbs E H), d; have [g dg'] := C46_full HE Hf hH; split=> //.
  by rewrite (Spectral.char_poly_conj uU eH) char_poly_diag; apply: eq_bigr => i _; rewrite mxE.
move=> sigma V ds uV /is_diag_mxP dV; set T := V *m sigma *m adjm V.
have dT : density T by exact: density_rot.
have [pT dq] := pdf_density dT; set q := fun i => re (T i i) in dq.
have es : sigma = adjm V *m dg q *m V.
  have uV' := unitaryC uV.
  have -> : dg q = T.
    apply/matrixP => i j; rewrite [LHS]mxE [X in X *+ _]mxE; case: (eqVneq i j) => [<-|ij]; last by rewrite mulr0n [RHS]dV.
    by rewrite mulr1n /q toC_re //; have [[hT _] _] := dT; apply/CrealP; move/matrixP: hT => /(_ i i); rewrite !mxE.
  by rewrite /T !mulmxA uV' mul1mx -mulmxA uV' mulmx1.
exists (- mean q).
  by rewrite (C31_value pT dq ler01) renyi_S // /S subrr eqxx.
have eT : re (\tr (sigma *m H)) = \sum_i \sum_j q i * (re `|(V *m adjm U) i j| ^+ 2 * d j).
  by rewrite {1}es eH (tr_energy U d V q).
rewrite eT es eH; split; first exact: (free_ge d N0 uU uV dq).
exact: (free_min HE eE d N0 uU uV dq).
Qed.

Lemma quad_dg N (x : 'cV[CR]_N) f : (adjm x *m (dg f *m x)) 0 0 = \sum_i toC (f i) * `|x i 0| ^+ 2.
Proof. by rewrite mxE; apply: eq_bigr => i _; rewrite mul_diag_mx !mxE mulrCA normCKC. Qed.
Lemma norm_col N (x : 'cV[CR]_N) : (adjm x *m x) 0 0 = \sum_i `|x i 0| ^+ 2.
Proof. by rewrite mxE; apply: eq_bigr => i _; rewrite !mxE normCKC. Qed.

(* ground state v of a diagonalised operator: an eigenvector that occurs once, gap above it *)
Section Ground.
Variables (N : nat) (U : 'M[CR]_N) (d : 'I_N -> R) (v : 'cV[CR]_N) (e0 gap : R).
Hypothesis uU : unitary U.
Let H := adjm U *m dg d *m U.
Hypothesis uv : unit_vector v.
Hypothesis ev : H *m v = toC e0 *: v.
Hypothesis gv : forall w : 'cV[CR]_N, adjm v *m w = 0 -> toC (e0 + gap) * (adjm w *m w) 0 0 <= quad H w.
Hypothesis gp : 0 < gap.

Lemma ground_coord : exists2 c : 'cV[CR]_N, v = adjm U *m c & \sum_i `|c i 0| ^+ 2 = 1 /\
  forall i, (toC (d i) - toC e0) * c i 0 = 0.
Proof.
exists (U *m v); first by rewrite mulmxA (unitaryC uU) mul1mx.
split.
  have := uv; rewrite /unit_vector -[X in adjm X](mul1mx v) -(unitaryC uU) -mulmxA adjmM adjmK -mulmxA => /matrixP/(_ 0 0).
  rewrite [LHS]mxE [RHS]mxE mulr1n => h; rewrite -[RHS]h; apply: eq_bigr => i _; by rewrite [X in _ = X * _]mxE [X in _ = X * _]mxE normCKC.
move=> i; have := congr1 (fun X => U *m X) ev; rewrite /H !mulmxA uU mul1mx -!mulmxA -scalemxAr => /matrixP/(_ i 0).
by rewrite mul_diag_mx [LHS]mxE [RHS]mxE [X in X * _]mxE mulrBl => ->; rewrite subrr.
Qed.

Lemma ground_index : exists i0, [/\ d i0 = e0, forall j, j != i0 -> e0 + gap <= d j &
  v *m adjm v = adjm U *m dg (fun i => (i == i0)%:R) *m U].
Proof.
have [c ec [c1 cd]] := ground_coord.
have [i0 ci0] : exists i0, c i0 0 != 0.
  apply/existsP; rewrite -negb_forall; apply/negP => /forallP h; move: c1.
  by rewrite big1 => [|i _]; [move/esym/eqP; rewrite oner_eq0|rewrite (eqP (h i)) normr0 expr0n].
have dE j : c j 0 != 0 -> d j = e0.
  by move=> cj; have /eqP := cd j; rewrite mulf_eq0 (negPf cj) orbF subr_eq0 => /eqP/toC_inj.
have hj j : j != i0 -> c j 0 = 0 /\ e0 + gap <= d j.
  move=> ji; pose x : 'cV[CR]_N := (c j 0)^* *: delta_mx i0 0 - (c i0 0)^* *: delta_mx j 0.
  have xE i : x i 0 = (c j 0)^* * (i == i0)%:R - (c i0 0)^* * (i == j)%:R by rewrite !mxE eqxx !andbT.
  have s2 (F : 'I_N -> CR) : (forall i, i != i0 -> i != j -> F i = 0) -> \sum_i F i = F i0 + F j.
    by move=> h; rewrite (bigD1 i0) //= (bigD1 j) //= big1 ?addr0 // => i /andP[a b]; exact: h.
  have x0 i : i != i0 -> i != j -> x i 0 = 0 by move=> a b; rewrite xE (negPf a) (negPf b) !mulr0 subrr.
  have xi0 : x i0 0 = (c j 0)^* by rewrite xE eqxx eq_sym (negPf ji) mulr1 mulr0 subr0.
  have xj : x j 0 = - (c i0 0)^* by rewrite xE eqxx (negPf ji) mulr1 mulr0 sub0r.
  have orth : adjm v *m (adjm U *m x) = 0.
    rewrite ec adjmM adjmK -mulmxA (mulmxA U) uU mul1mx; apply/matrixP => a b; rewrite !ord1 [LHS]mxE [RHS]mxE.
    rewrite s2 => [|i a1 a2]; last by rewrite x0 // mulr0.
    by rewrite xi0 xj !mxE mulrN [X in _ - X]mulrC subrr.
  have := gv orth; rewrite adjmM adjmK -mulmxA (mulmxA U) uU mul1mx.
  have -> : quad H (adjm U *m x) = \sum_i toC (d i) * `|x i 0| ^+ 2.
    rewrite /quad /H adjmM adjmK -!mulmxA (mulmxA U (adjm U)) uU mul1mx (mulmxA U (adjm U)) uU mul1mx.
    exact: quad_dg.
  have -> : (adjm x *m x) 0 0 = \sum_i `|x i 0| ^+ 2.
    exact: norm_col.
  rewrite !s2; try by move=> i a b; rewrite x0 // normr0 expr0n /= ?mulr0.
  rewrite xi0 xj normrN !norm_conjC dE // => h.
  have p0 : 0 < `|c i0 0| ^+ 2 by rewrite exprn_gt0 ?normr_gt0.
  case: (eqVneq (c j 0) 0) => [cj|cj].
    by split=> //; move: h; rewrite cj normr0 expr0n /= mulr0 !add0r ler_pmul2r // toC_le.
  move: h; rewrite (dE j) // -mulrDr ler_pmul2r; last by rewrite ltr_paddl // exprn_ge0.
  by rewrite toC_le -[X in _ <= X]addr0 ler_add2l leNgt gp.
exists i0; split; [exact: dE|by move=> j /hj[]|].
have c1' : `|c i0 0| ^+ 2 = 1.
  by rewrite -c1 (bigD1 i0) //= big1 ?addr0 // => j /hj[-> _]; rewrite normr0 expr0n.
rewrite ec adjmM adjmK !mulmxA; congr (_ *m _); rewrite -mulmxA; congr (_ *m _).
apply/matrixP => i j; rewrite !mxE big_ord1 !mxE; case: (eqVneq i j) => [<-|ij]; last first.
  rewrite mulr0n; case: (eqVneq i i0) => [ei|/hj[-> _]]; last by rewrite mul0r.
  by have [|-> _] := hj j; rewrite ?rmorph0 ?mulr0 // -ei eq_sym.
rewrite mulr1n; case: (eqVneq i i0) => [->|/hj[-> _]]; last by rewrite mul0r rmorph0.
by rewrite -normCK c1' rmorph1.
Qed.
End Ground.

(* trace distance of a mixture of orthogonal vectors to one of them *)
Lemma td_pure N (U M P : 'M[CR]_N) (p : 'I_N -> R) i0 (x y : input) : unitary U -> dist p ->
  cast_to_density_matrix x = Ok (ofM M) -> cast_to_density_matrix y = Ok (ofM P) ->
  M = adjm U *m dg p *m U -> P = adjm U *m dg (fun i => (i == i0)%:R) *m U -> trace_distance x y = Ok (1 - p i0).
Proof.
move=> uU dp ex ey eM eP.
have ed : M - P = adjm U *m diag_mx (\row_i toC (p i - (i == i0)%:R)) *m U.
  rewrite eM eP -mulmxBl -mulmxBr; congr (_ *m _ *m _); apply/matrixP => i j; rewrite !mxE.
  by case: eqP => _; rewrite ?mulr1n ?mulr0n ?subrr // rmorphB.
have [t -> vt] := C35_value ex ey uU ed; congr Ok.
apply: toC_inj; rewrite vt (bigD1 i0) //= mxE eqxx -opprB rmorphN normrN.
have o1 : p i0 <= 1 := dist_le1 i0 dp.
rewrite [X in X + _]ger0_norm ?toC_ge0 ?subr_ge0 //.
rewrite (eq_bigr (fun i => toC (p i))) => [|i /negPf ni]; last first.
  by rewrite mxE ni subr0 ger0_norm // toC_ge0 dp.1.
have -> : \sum_(i | i != i0) toC (p i) = toC (1 - p i0).
  rewrite -rmorph_sum; congr toC; apply/eqP; rewrite eq_sym subr_eq -dp.2; apply/eqP.
  by rewrite [LHS](bigD1 i0) //= addrC.
by rewrite /= -[X in _ * X]mulr2n -[X in _ * X]mulr_natl mulrA mulVf ?mul1r // pnatr_eq0.
Qed.

Lemma occ_rest N (d : 'I_N -> R) i0 : (0 < N)%N -> 1 - occ d i0 = \sum_(j | j != i0) occ d j.
Proof. by move=> N0; rewrite -(occ_sum d N0) (bigD1 i0) //= addrC addKr. Qed.

(* thermal occupation of everything but the ground state *)
Lemma occ_ground N (d : 'I_N -> R) i0 (g : R) : (forall j, j != i0 -> d i0 + g <= d j) ->
  1 - occ d i0 <= (N%:R - 1) * exp (- g).
Proof.
move=> h; have N0 : (0 < N)%N by apply: leq_ltn_trans (ltn_ord i0).
rewrite occ_rest //.
have -> : (N%:R - 1) * exp (- g) = \sum_(j < N | j != i0) exp (- g).
  rewrite sumr_const cardC1 card_ord -[in N%:R](prednK N0) -addn1 natrD addrK mulr_natl //.
apply: ler_sum => j ji; rewrite /occ ler_pdivr_mulr ?part_gt0 //.
apply: (@le_trans _ _ (exp (- g) * exp (- d i0))).
  by rewrite -expRD ler_expR -opprD ler_opp2 addrC h.
rewrite ler_pmul2l ?expR_gt0 // /part (bigD1 i0) //= ler_addl; apply: sumr_ge0 => k _; exact: expR_ge0.
Qed.

(* C91: H has the ground state v of energy e0 and every vector orthogonal to it has energy at least e0 + gap.  At inverse temperature
   beta the trace distance of what generate_gaussian_state returns for beta H to the ground state is one minus the overlap, and at
   most (2^n - 1) exp(- beta gap) *)
Theorem C91_ground E expm n (H : 'M[CR]_(2 ^ n)) (v : 'cV[CR]_(2 ^ n)) (e0 gap beta : R) (x : input) :
  expm_spec E -> computes expm E -> (forall t : R, E 1%N (toC t)%:M = (toC (exp t))%:M) ->
  hermitian H -> unit_vector v -> H *m v = toC e0 *: v -> 0 < gap ->
  (forall w : 'cV[CR]_(2 ^ n), adjm v *m w = 0 -> toC (e0 + gap) * (adjm w *m w) 0 0 <= (adjm w *m H *m w) 0 0) ->
  0 <= beta -> cast_to_density_matrix x = Ok (ofM (v *m adjm v)) -> exists rho t,
  [/\ generate_gaussian_state expm n (ofM (toC beta *: H)) None = Ok (Some (ofM rho)),
      trace_distance (V2 (ofM rho)) x = Ok t, toC t = 1 - (adjm v *m rho *m v) 0 0 &
      0 <= t <= ((2 ^ n)%:R - 1) * exp (- (beta * gap))].
Proof.
move=> HE Hf eE hH uv ev gp gv b0 ex; have [U uU [d eH]] := herm_dg hH; have N0 : (0 < 2 ^ n)%N := pow2_gt0 n.
rewrite eH in ev gv; have [i0 [di0 dj evv]] := ground_index uU uv ev gv gp.
pose db i := beta * d i.
have eb : toC beta *: H = adjm U *m dg db *m U.
  rewrite eH scalemxAl scalemxAr; congr (_ *m _ *m _); apply/matrixP => i j; rewrite !mxE.
  by case: eqP => _; rewrite ?mulr1n ?mulr0n ?mulr0 // rmorphM.
have hb : hermitian (toC beta *: H) by rewrite eb; exact: dg_herm.
have [g dn] := C46_full HE Hf hb; exists (gibbs E (toC beta *: H)).
have er : gibbs E (toC beta *: H) = adjm U *m dg (occ db) *m U by rewrite eb gibbs_dg.
have et : trace_distance (V2 (ofM (gibbs E (toC beta *: H)))) x = Ok (1 - occ db i0).
  exact: (td_pure uU (occ_dist db N0) (C25_density dn) ex er evv).
exists (1 - occ db i0); split=> //.
  rewrite rmorphB rmorph1 -trace_mx11 -mulmxA mxtrace_mulC -mulmxA evv er.
  have -> : adjm U *m dg (occ db) *m U *m (adjm U *m dg (fun i => (i == i0)%:R) *m U) =
      adjm U *m dg (fun i => occ db i * (i == i0)%:R) *m U.
    rewrite !mulmxA -(mulmxA (_ *m dg _) U) uU mulmx1 -(mulmxA (adjm U)); congr (_ *m _ *m _).
    rewrite /dg mulmx_diag; congr diag_mx; apply/rowP => a; rewrite !mxE; exact: (esym (rmorphM toC_rmorphism _ _)).
  by rewrite tr_dg // (bigD1 i0) //= eqxx mulr1 big1 ?addr0 // => j /negPf ->; rewrite mulr0.
rewrite subr_ge0 (dist_le1 _ (occ_dist db N0)) /=; apply: occ_ground => j ji.
by rewrite -mulrDr ler_wpmul2l // di0 dj.
Qed.

(* C91: arbitrarily close to the ground state at low temperature *)
Theorem C91_limit E expm n (H : 'M[CR]_(2 ^ n)) (v : 'cV[CR]_(2 ^ n)) (e0 gap eps : R) (x : input) :
  expm_spec E -> computes expm E -> (forall t : R, E 1%N (toC t)%:M = (toC (exp t))%:M) ->
  hermitian H -> unit_vector v -> H *m v = toC e0 *: v -> 0 < gap ->
  (forall w : 'cV[CR]_(2 ^ n), adjm v *m w = 0 -> toC (e0 + gap) * (adjm w *m w) 0 0 <= (adjm w *m H *m w) 0 0) ->
  cast_to_density_matrix x = Ok (ofM (v *m adjm v)) -> 0 < eps -> exists beta0 : R, forall beta : R, beta0 <= beta ->
  exists (rho : 'M[CR]_(2 ^ n)) t,
  [/\ generate_gaussian_state expm n (ofM (toC beta *: H)) None = Ok (Some (ofM rho)),
      trace_distance (V2 (ofM rho)) x = Ok t & t <= eps].
Proof.
move=> HE Hf eE hH uv ev gp gv ex e0'; have N1 : 0 <= (2 ^ n)%:R - 1 :> R by rewrite subr_ge0 ler1n pow2_gt0.
have eg : 0 < eps * gap by rewrite mulr_gt0.
exists (((2 ^ n)%:R - 1) / (eps * gap)) => beta; rewrite ler_pdivr_mulr // => hb.
have b0 : 0 <= beta by rewrite -(pmulr_lge0 _ eg) (le_trans N1).
have [rho [t [e1 e2 _ /andP[_ h]]]] := C91_ground HE Hf eE hH uv ev gp gv b0 ex.
exists rho, t; split=> //; apply: le_trans h _; rewrite expRN ler_pdivr_mulr ?expR_gt0 //.
apply: le_trans hb _; apply: (@le_trans _ _ (eps * (1 + beta * gap))).
  by rewrite mulrDr mulr1 mulrC -mulrA ler_paddl ?(ltW e0') // [gap * _]mulrC.
by rewrite ler_pmul2l // expR_ge1.
Qed.

Lemma tanh_bounds (s : R) : `|tanh s| < 1 /\ 1 - `|tanh s| <= 2%:R * exp (- (2%:R * `|s|)).
Proof.
have th (t : R) : 0 <= t -> [/\ 0 <= tanh t, tanh t < 1 & 1 - tanh t <= 2%:R * exp (- (2%:R * t))].
  move=> t0; rewrite -tanhE; have := expR_gt0 (- (2%:R * t)); have : exp (- (2%:R * t)) <= 1.
    by rewrite -[X in _ <= X]expR0 ler_expR oppr_le0 mulr_ge0 ?ler0n.
  move: (exp _) => y y1 y0; have p : 0 < 1 + y by rewrite addr_gt0 // ltr01.
  have q : 0 < y / (1 + y) by rewrite divr_gt0.
  have q1 : y / (1 + y) <= 2%:R^-1.
    by rewrite ler_pdivr_mulr // ler_pdivl_mull ?ltr0n // mulr_natl mulr2n ler_add2r.
  have q2 : y / (1 + y) <= y by rewrite ler_pdivr_mulr // ler_pmulr // ler_addl ltW.
  split.
  - by rewrite subr_ge0 -ler_pdivl_mull ?ltr0n // mulr1.
  - by rewrite ltr_subl_addr ltr_addl mulr_gt0 // ltr0n.
  by rewrite opprB addrC subrK ler_pmul2l ?ltr0n.
have tN (t : R) : tanh (- t) = - tanh t.
  rewrite /tanh /sinh /cosh; have c0 := exp_pos t; have c1 := exp_pos (- t)%R; rewrite Ropp_involutive.
  apply: (etrans (y := Ropp (Rdiv (Rdiv (Rminus (exp t) (exp (- t)%R)) (IZR 2)) (Rdiv (Rplus (exp t) (exp (- t)%R)) (IZR 2))))) => //.
  by field; lra.
case: (leP 0 s) => hs; first by have [h1 h2 h3] := th s hs; rewrite !ger0_norm.
have hs' : 0 <= - s by rewrite oppr_ge0 ltW.
have [h1 h2 h3] := th _ hs'; rewrite (ltr0_norm hs) -normrN -tN ger0_norm //.
Qed.

Lemma bernoulli (a : R) m : 0 <= a <= 1 -> 1 - a ^+ m <= m%:R * (1 - a).
Proof.
move=> /andP[a0 a1]; elim: m => [|m IH]; first by rewrite expr0 subrr mul0r.
have -> : 1 - a ^+ m.+1 = (1 - a ^+ m) + a ^+ m * (1 - a) by rewrite exprSr; rring.
rewrite mulrSr mulrDl mul1r ler_add // ler_pimull ?subr_ge0 // exprn_ile1 //.
Qed.

(* C91: anti-flatness of a thermal state of free fermions: positive (it is never a pure Gaussian state), and exponentially small in the
   mode energies *)
Theorem C91_FAF schur E expm n (W : 'M[CR]_(2 ^ n)) O (S : nat -> R) k : schur_spec schur ->
  expm_spec E -> computes expm E -> (forall t : R, E 1%N (toC t)%:M = (toC (exp t))%:M) ->
  unitary W -> implements W O -> (0 < k)%N ->
  let H := W *m (\sum_(j < n) toC (S j) *: (adjm (am CR n j) *m am CR n j - am CR n j *m adjm (am CR n j))) *m adjm W in
  exists (rho : 'M[CR]_(2 ^ n)) F, [/\ generate_gaussian_state expm n (ofM H) None = Ok (Some (ofM rho)),
    FAF schur (V2 (ofM rho)) k = Ok F, (0 < n)%N -> 0 < F & F <= (4 * k)%:R * \sum_(j < n) exp (- (2%:R * `|S j|))].
Proof.
move=> sP HE Hf eE uW hO k0 H; have [rho [e1 e2]] := C82_thermal S sP HE Hf eE uW hO.
pose F : R := n%:R - \sum_(j < n | (10%:R ^+ 10)^-1 < `|tanh (S j)|) tanh (S j) ^+ (2 * k).
exists rho, F; rewrite (e2 k k0) -/F.
pose P (j : 'I_n) := (10%:R ^+ 10)^-1 < `|tanh (S j)|.
have eF : F = \sum_(j < n) (1 - (if P j then tanh (S j) ^+ (2 * k) else 0)).
  by rewrite /F sumrB sumr_const card_ord -big_mkcond.
have tp (j : 'I_n) : tanh (S j) ^+ (2 * k) = `|tanh (S j)| ^+ (2 * k) by rewrite !exprM real_normK ?num_real.
have pos (j : 'I_n) : 0 < 1 - (if P j then tanh (S j) ^+ (2 * k) else 0).
  have [h1 _] := tanh_bounds (S j); case: ifP => _; rewrite subr_gt0 ?ltr01 // tp exprn_ilt1 //; lia.
split=> //.
  move=> n0; rewrite eF (bigD1 (Ordinal n0)) //= ltr_spaddl ?pos //; apply: sumr_ge0 => j _; exact: ltW.
rewrite eF mulr_sumr; apply: ler_sum => j _; have [h1 h2] := tanh_bounds (S j).
have k1 : 1 <= k%:R :> R by rewrite ler1n.
have e4 : (4 * k)%:R * exp (- (2%:R * `|S j|)) = (2 * k)%:R * (2%:R * exp (- (2%:R * `|S j|))) :> R.
  by rewrite mulrA -natrM; congr (_%:R * _); lia.
rewrite e4; have K0 : 0 <= (2 * k)%:R :> R by rewrite ler0n.
case: ifP => [hP|/negbT]; last first.
  rewrite -leNgt subr0 => hP; apply: (@le_trans _ _ ((2 * k)%:R * (1 - `|tanh (S j)|))); last exact: ler_wpmul2l.
  have h3 : `|tanh (S j)| <= 2%:R^-1.
    apply: le_trans hP _; rewrite lef_pinv ?posrE ?exprn_gt0 ?ltr0n //.
    by apply: (@le_trans _ _ (10%:R ^+ 1)); [rewrite ler_nat|rewrite ler_weexpn2l // ler1n].
  move: h3; rewrite natrM; move: (`|_|) => a h3.
  have h4 : 2%:R^-1 <= 1 - a by rewrite ler_subr_addr -ler_subr_addl; apply: (le_trans h3); rewrite [X in _ <= X - _](splitr 1) mul1r addrK.
  apply: (@le_trans _ _ (2%:R * k%:R * 2%:R^-1)); last by rewrite ler_wpmul2l // mulr_ge0 ?ler0n.
  by rewrite mulrAC mulfV ?mul1r // pnatr_eq0.
rewrite tp; apply: le_trans (bernoulli _ _) _; first by rewrite normr_ge0 ltW.
exact: ler_wpmul2l.
Qed.

(* H = 1 - |0><0| has gap 1 *)
Example C91_projector n (beta : R) : 0 <= beta -> exists expm (rho : 'M[CR]_(2 ^ n)) t,
  let v : 'cV[CR]_(2 ^ n) := delta_mx (Ordinal (pow2_gt0 n)) 0 in
  [/\ computes expm expmR, generate_gaussian_state expm n (ofM (toC beta *: (1%:M - v *m adjm v))) None = Ok (Some (ofM rho)),
      trace_distance (V2 (ofM rho)) (V2 (ofM (v *m adjm v))) = Ok t & t <= ((2 ^ n)%:R - 1) * exp (- beta)].
Proof.
move=> b0; have Hf : computes (PropExpm.lift_routine expmR) expmR by move=> m A; exact: PropExpm.lift_routineE.
pose v : 'cV[CR]_(2 ^ n) := delta_mx (Ordinal (pow2_gt0 n)) 0; pose H := 1%:M - v *m adjm v.
have uv : unit_vector v.
  rewrite /unit_vector; apply/matrixP => i j; rewrite !ord1 norm_col mxE (bigD1 (Ordinal (pow2_gt0 n))) //= big1 => [|k kn].
    by rewrite mxE !eqxx normr1 expr1n addr0.
  by rewrite mxE (negPf kn) normr0 expr0n.
have hv : hermitian H by rewrite /hermitian /H adjmB adjm1 adjmM adjmK.
have ev : H *m v = toC 0 *: v by rewrite /H mulmxBl mul1mx -mulmxA uv mulmx1 subrr rmorph0 scale0r.
have gv (w : 'cV[CR]_(2 ^ n)) : adjm v *m w = 0 -> toC (0 + 1) * (adjm w *m w) 0 0 <= (adjm w *m H *m w) 0 0.
  by move=> h; rewrite /H mulmxBr mulmx1 mulmxBl -!mulmxA h !mulmx0 subr0 add0r rmorph1 mul1r.
have dv : density (v *m adjm v) := pure_density uv.
have [rho [t [e1 e2 _ /andP[_ h]]]] := C91_ground expmR_spec Hf C82_exponential hv uv ev ltr01 gv b0 (C25_density dv).
exists (PropExpm.lift_routine expmR), rho, t; split=> //.
by rewrite mulr1 in h.
Qed.

Lemma expR_sum (I : finType) (F : I -> R) : exp (\sum_i F i) = \prod_i exp (F i).
Proof. by elim/big_rec2: _ => [|i x y _ <-]; rewrite ?expR0 // expRD. Qed.

Lemma prod_gap (I : finType) (a : I -> R) : (forall i, 0 <= a i <= 1) ->
  0 <= \prod_i a i <= 1 /\ 1 - \prod_i a i <= \sum_i (1 - a i).
Proof.
move=> ha; elim/big_rec2: _ => [|i y x _ [/andP[x0 x1] h]]; first by rewrite ler01 lexx subrr.
have /andP[a0 a1] := ha i; split; first by rewrite mulr_ge0 // mulr_ile1.
have -> : 1 - a i * x = (1 - a i) + a i * (1 - x) by rring.
by rewrite ler_add2l (le_trans _ h) // ler_pimull // subr_ge0.
Qed.

(* C91: generate_gaussian_state for a coefficient matrix H: the exact trace distance to the ground state of build_op(H) *)
Theorem C91_quadratic E expm n (H : 'M[CR]_(2 * n)) : expm_spec E -> computes expm E ->
  (forall t : R, E 1%N (toC t)%:M = (toC (exp t))%:M) -> (2 < n)%N -> hermitian H -> ph_symmetric H ->
  exists (O : 'M[CR]_(2 ^ n)) (S : nat -> R) (v : 'cV[CR]_(2 ^ n)) (rho : 'M[CR]_(2 ^ n)), let e0 := - (\sum_(k < n) S k) in
  [/\ build_op n (ofM H) (jordan_wigner_alphas CR n) false = Ok (ofM O),
      (forall k, 0 <= S k) /\ char_poly (kept H) = \prod_(k < n) ('X^2 - (toC (S k) ^+ 2)%:P),
      [/\ unit_vector v, O *m v = toC e0 *: v & forall sigma, density sigma -> toC e0 <= \tr (sigma *m O)],
      generate_gaussian_state expm n (ofM H) None = Ok (Some (ofM rho)) &
      forall x, cast_to_density_matrix x = Ok (ofM (v *m adjm v)) -> exists2 t, trace_distance (V2 (ofM rho)) x = Ok t &
        t = 1 - \prod_(k < n) (1 + exp (- (2%:R * S k)))^-1 /\ t <= \sum_(k < n) exp (- (2%:R * S k))].
Proof.
move=> HE Hf eE n2 hH pH; have n0 : (0 < n)%N by lia.
have [B [Sc [[cB sB] S0 eO cp]]] := bdg_modes n0 (cutoff_herm (10%:R ^+ 10)^-1 hH) (cutoff_ph (10%:R ^+ 10)^-1 pH).
pose S k := re (Sc k); have eS k : toC (S k) = Sc k by rewrite toC_re // ger0_real.
pose O := mode_sum B Sc; have bO : build_op n (ofM H) (jordan_wigner_alphas CR n) false = Ok (ofM O).
  by rewrite alphas_ops C47_lift ?eO //; lia.
have [O' [bO' gO dO]] := C46_coefficients HE Hf (alphaM CR n) n2 (pow2_gt0 n) hH.
have {O' bO' dO} gO : generate_gaussian_state expm n (ofM H) None = Ok (Some (ofM (gibbs E O))) /\ density (gibbs E O).
  have eOO : O' = O by apply: ofM_inj; move: bO'; rewrite -alphas_ops bO => e; exact: (congr1 (fun r => if r is Ok a then a else ofM O') (esym e)).
  by rewrite (C46_default _ H) gO -eOO.
have [V uV /(_ Sc)] := mode_diag cB; rewrite -/O.
pose d i : R := \sum_(k < n) if pat i k then S k else - S k.
have -> : diag_mx (\row_i energy Sc (pat i)) = dg d.
  congr diag_mx; apply/rowP => i; rewrite !mxE rmorph_sum; apply: eq_bigr => k _.
  by case: ifP => _; rewrite -eS ?rmorphN.
move=> eV; pose i0 : 'I_(2 ^ n) := rnk [ffun _ => false]; pose v : 'cV[CR]_(2 ^ n) := adjm V *m delta_mx i0 0.
have di0 : d i0 = - (\sum_(k < n) S k) by rewrite /d -sumrN; apply: eq_bigr => k _; rewrite rnkK ffunE.
have evv : v *m adjm v = adjm V *m dg (fun i => (i == i0)%:R) *m V.
  rewrite /v adjmM adjmK !mulmxA; congr (_ *m _); rewrite -mulmxA; congr (_ *m _).
  apply/matrixP => i j; rewrite !mxE big_ord1 !mxE eqxx !andbT; case: (eqVneq i j) => [<-|ij].
    by rewrite mulr1n rmorph_nat; case: eqP => _; rewrite ?mulr1 ?mulr0 ?rmorph1 ?rmorph0.
  rewrite mulr0n; case: eqP => [ei|_]; last by rewrite mul0r.
  by rewrite -ei eq_sym (negPf ij) rmorph0 mulr0.
exists O, S, v, (gibbs E O); split=> //.
- by split=> [k|]; [rewrite -toC_ge0 eS|rewrite cp; apply: eq_bigr => k _; rewrite eS].
- split.
  + rewrite /unit_vector /v adjmM adjmK -mulmxA (mulmxA V) uV mul1mx; apply/matrixP => i j.
    rewrite !ord1 norm_col mxE (bigD1 i0) //= big1 => [|k kn]; last by rewrite mxE (negPf kn) normr0 expr0n.
    by rewrite mxE !eqxx normr1 expr1n addr0.
  + rewrite eV /v -!mulmxA (mulmxA V) uV mul1mx scalemxAr -di0; congr (_ *m _).
    apply/matrixP => i j; rewrite mul_diag_mx !mxE; case: eqP => [->|_] //; by rewrite !mulr0.
  + move=> sigma [p t1]; rewrite (mode_energy _ cB) // rmorphN rmorph_sum /= (eq_bigr (fun k : 'I_n => Sc k)) // ler_addl.
    by apply: sumr_ge0 => k _; rewrite !mulr_ge0 ?ler0n // num_ge0.
- exact: gO.1.
move=> x ex; have N0 := pow2_gt0 n; have er : gibbs E O = adjm V *m dg (occ d) *m V by rewrite eV gibbs_dg.
exists (1 - occ d i0); first exact: (td_pure uV (occ_dist d N0) (C25_density gO.2) ex er evv).
have eo : occ d i0 = \prod_(k < n) (1 + exp (- (2%:R * S k)))^-1.
  have ep : part d = \prod_(k < n) (exp (- S k) + exp (S k)).
    transitivity (\sum_(s : pattern n) \prod_(k < n) exp (if s k then - S k else S k)).
      rewrite [RHS](reindex (@pat n)) /=; last by exists (@rnk n) => s _; [exact: patK|exact: rnkK].
      by apply: eq_bigr => i _; rewrite -expR_sum -sumrN; congr exp; apply: eq_bigr => k _; case: ifP => _; rewrite ?opprK.
    rewrite -(bigA_distr_bigA (fun (k : 'I_n) (b : bool) => exp (if b then - S k else S k))).
    by apply: eq_bigr => k _; rewrite /index_enum !unlock /= addr0.
  rewrite /occ ep di0 opprK expR_sum -prodf_div; apply: eq_bigr => k _.
  have -> : exp (- S k) + exp (S k) = exp (S k) * (1 + exp (- (2%:R * S k))).
    by rewrite mulrDr mulr1 -expRD addrC; congr (_ + exp _); rring.
  by rewrite invfM mulrA divff ?mul1r // gt_eqF // expR_gt0.
split; first by rewrite eo.
have y0 k : 0 < exp (- (2%:R * S k)) by exact: expR_gt0.
have p k : 0 < 1 + exp (- (2%:R * S k)) by rewrite addr_gt0 // ltr01.
rewrite eo; have [|_ h] := @prod_gap _ (fun k : 'I_n => (1 + exp (- (2%:R * S k)))^-1).
  by move=> k; rewrite invr_ge0 ltW //= invf_le1 // ler_addl ltW.
apply: le_trans h _; apply: ler_sum => k _.
rewrite ler_subl_addr -ler_subl_addl -(ler_pmul2r (p k)) mulVf ?gt_eqF // mulrBl mul1r mulrDr mulr1.
by rewrite opprD addrA addrK ler_subl_addr ler_addl mulr_ge0 // ltW.
Qed.
