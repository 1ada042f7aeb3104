(* PropGround.v -- property C89: ground states of the many-body operators built by build_op *)
Set Warnings "-notation-overridden,-ambiguous-paths".
From Coq Require Import Reals.
From mathcomp Require Import all_ssreflect all_algebra.
From mathcomp Require Import complex.
From mathcomp.zify Require Import zify.
From Verif Require Import Base ArrC MCombinatorics MLib JW OpFam FermAlg LibFacts LibFacts2 LibFacts3 MUtils Spectral RealC Info MDist.
From Verif Require Import PropLib1 PropLib2 PropLib3 PropUtils1 PropUtils2 PropDist1 PropDist2 Skew PropDist4 PropDist5.
From Verif Require Import MEigh EighFacts PropEigh1 PropEigh2 PropEigh3 MRandom RndFacts PropRandom1 PropRandom2 PropRandom4 ManyBody Wick PropWick PropWick2.
From Verif Require Import PropModes PropKitaev PropDist11.
Set Implicit Arguments.
Unset Strict Implicit.
Unset Printing Implicit Defensive.
Import Order.Theory GRing.Theory Num.Theory.
Local Open Scope ring_scope.

Local Notation input := (input CR).
Local Notation mode := PropModes.mode.

(* ------------------------------------------------------------------ *)
Section Gen.
Variable C : numClosedFieldType.

(* the coefficients that build_op keeps *)
Lemma cutoff_ph eps n (H : 'M[C]_(2 * n)) : ph_symmetric H -> ph_symmetric (cutoff eps H).
Proof.
move=> p; apply/matrixP => i j; rewrite SXS !mxE.
have /matrixP/(_ i j) := p; rewrite SXS !mxE => e.
have -> : `|H (Ordinal (sw_lt (ltn_ord i))) (Ordinal (sw_lt (ltn_ord j)))| = `|H i j| by rewrite -norm_conjC e normrN.
by case: ifP; rewrite ?rmorph0 ?oppr0.
Qed.

Lemma scale_gap m (H : 'M[C]_m) : exists2 c : C, 1 <= c & gapped (c *: H).
Proof.
have [r er] := closed_field_poly_normal (char_poly H).
pose c : C := 1 + \sum_(x <- r) `|x|^-1; have c1 : 1 <= c.
  by rewrite ler_addl; apply: sumr_ge0 => x _; rewrite invr_ge0.
have c0 : 0 < c := lt_le_trans ltr01 c1.
exists c => // y /eigenvalueP[v ev v0].
have yc : eigenvalue H (y / c).
  apply/eigenvalueP; exists v => //; rewrite [y / c]mulrC -scalerA -ev -scalemxAr scalerA mulVf ?scale1r //; exact: lt0r_neq0.
have [->|yn] := eqVneq y 0; [by left|right].
have yr : y / c \in r.
  by move: yc; rewrite eigenvalue_root_char er (monicP (char_poly_monic H)) scale1r root_prod_XsubC.
have le x : x \in r -> `|x|^-1 <= c.
  move=> xr; rewrite /c (perm_big _ (perm_to_rem xr)) big_cons /= addrCA ler_addl addr_ge0 ?ler01 //; apply: sumr_ge0 => z _; rewrite invr_ge0; exact: normr_ge0.
have h : 1 <= `|y|.
  have := le _ yr; rewrite normf_div (gtr0_norm c0) invf_div ler_pdivr_mulr ?normr_gt0 // -{1}[c]mulr1 ler_pmul2l //.
by apply: lt_le_trans h; rewrite /eps10 invf_lt1 ?exprn_gt0 ?ltr0n // exprn_egt1 // ltr1n.
Qed.

Lemma scale_above m (H : 'M[C]_m) : exists2 c : C, 0 < c & above (c *: H).
Proof.
pose c : C := 1 + \sum_i \sum_j `|H i j|^-1.
have s0 i : 0 <= \sum_j `|H i j|^-1 by apply: sumr_ge0 => j _; rewrite invr_ge0.
have c0 : 0 < c by apply: ltr_paddr ltr01; apply: sumr_ge0 => i _; exact: s0.
exists c => // i j; rewrite mxE; have [->|hn] := eqVneq (H i j) 0; [by left; rewrite mulr0|right].
rewrite -real_leNgt ?normr_real ?rpredV ?rpredX ?realn // normrM (gtr0_norm c0).
apply: (@le_trans _ _ 1); first by rewrite invf_le1 ?exprn_gt0 ?ltr0n // exprn_ege1 // ler1n.
rewrite -ler_pdivr_mulr ?normr_gt0 // mul1r /c (bigD1 i) //= (bigD1 j) //= addrCA -addrA ler_addl !addr_ge0 ?ler01 //.
  by apply: sumr_ge0 => k _; rewrite invr_ge0.
by apply: sumr_ge0 => k _; exact: s0.
Qed.

Lemma std_ph n (S : nat -> C) : (forall k, S k \is Num.real) -> ph_symmetric (std_form n S).
Proof.
move=> rS; apply/matrixP => i j; rewrite SXS !mxE -!(inj_eq val_inj) /=.
have -> : (sw n i == sw n j) = (i == j :> nat) by rewrite sw_eq ?sw_lt // swK // eq_sym.
have hi := ltn_ord i; case: (i =P j :> nat) => [_|]; last by rewrite rmorph0 oppr0.
rewrite /sw; case: (ltnP i n) => h; first by rewrite ltnNge leq_addl addnK opprK (CrealP (rS _)).
by rewrite ifT ?rmorphN ?(CrealP (rS _)) //; lia.
Qed.

Lemma conj_ph n (U L : 'M[C]_(2 * n)) : unitary U -> symplectic U -> ph_symmetric L -> ph_symmetric (U *m L *m adjm U).
Proof.
move=> uU sU pL; have e : swapM C n *m U^T *m swapM C n = adjm U.
  by rewrite -[LHS]mulmx1 -uU mulmxA symp_inv // mul1mx.
have SS : swapM C n *m swapM C n = 1%:M by exact: swapM_sqr.
have e1 : U^T *m swapM C n = swapM C n *m adjm U by rewrite -e !mulmxA SS mul1mx.
have rS : map_mx conjC (swapM C n) = swapM C n by apply/matrixP => i j; rewrite !mxE rmorph_nat.
have tS : (swapM C n)^T = swapM C n by apply/matrixP => i j; rewrite !mxE orbC.
have cU : map_mx conjC (adjm U) = U^T by apply/matrixP => i j; rewrite !mxE conjCK.
have e2 : swapM C n *m map_mx conjC U = U *m swapM C n.
  have := congr1 trmx (congr1 (map_mx conjC) e1); rewrite !map_mxM cU rS !trmx_mul trmxK tS map_trmx trmxK => ->; done.
rewrite /ph_symmetric !map_mxM cU !mulmxA e2 -!mulmxA e1 !mulmxA -(mulmxA U) -(mulmxA U) pL.
by rewrite mulmxN mulNmx.
Qed.
End Gen.

(* every Hermitian particle-hole symmetric matrix has a symplectic unitary diagonalisation *)
Lemma bdg_diag n (H : 'M[CR]_(2 * n)) : (0 < n)%N -> hermitian H -> ph_symmetric H -> exists U S,
  [/\ unitary U, symplectic U, forall k, S k \is Num.real & adjm U *m H *m U = std_form n S].
Proof.
move=> n0 hH pH; have [c c1 g] := scale_gap H; have c0 : 0 < c := lt_le_trans ltr01 c1; have cr : c^* = c by apply/CrealP; exact: gtr0_real.
have hc : hermitian (c *: H) by rewrite /hermitian adjmZ cr hH.
have pc : ph_symmetric (c *: H) by rewrite /ph_symmetric map_mxZ cr -scalemxAr -scalemxAl pH scalerN.
have [ss ssP] := C52_schur_sort_exists; have [ev evP] := C52_eigvalsh_exists CR; have [as_ asP] := C52_argsort_exists CR.
have [L [U [S [[_ uU [sU _] eL rS] dL]]]] := C52_diagonal ssP evP asP n0 hc pc g.
exists U, (fun k => c^-1 * S k); split=> // [k|]; first by rewrite rpredM ?rpredV // gtr0_real.
have -> : H = c^-1 *: (c *: H) by rewrite scalerA mulVf ?scale1r // lt0r_neq0.
rewrite -scalemxAr -scalemxAl -eL; apply/matrixP => i j; rewrite !mxE dL; case: ifP => _; last by rewrite mulr0.
by case: ifP; rewrite ?mulrN.
Qed.

(* ------------------------------------------------------------------ *)
(* creation and annihilation operators of some modes exchanged          *)
Section Flip.
Variable C : numClosedFieldType.
Variables (n : nat) (P : nat -> bool).
Definition fl k := if P (if (k < n)%N then k else (k - n)%N) then sw n k else k.

Lemma fl_lt k : (k < 2 * n)%N -> (fl k < 2 * n)%N.
Proof. by rewrite /fl => h; case: ifP => // _; exact: sw_lt. Qed.
Lemma fl_sw k : (k < 2 * n)%N -> fl (sw n k) = sw n (fl k).
Proof.
move=> h; rewrite /fl.
have -> : (if (sw n k < n)%N then sw n k else (sw n k - n)%N) = if (k < n)%N then k else (k - n)%N.
  by rewrite /sw; case: (ltnP k n) => h1; case: ltnP => h2; lia.
by case: (P _).
Qed.
Lemma flK k : (k < 2 * n)%N -> fl (fl k) = k.
Proof.
move=> h; rewrite {2}/fl; case: ifP => p; last by rewrite /fl p.
by rewrite fl_sw // /fl p swK.
Qed.
Lemma fl_inj i j : (i < 2 * n)%N -> (j < 2 * n)%N -> (fl i == fl j) = (i == j).
Proof. by move=> hi hj; apply/eqP/eqP => [e|-> //]; rewrite -(flK hi) e flK. Qed.

Lemma fl_car N (A : nat -> 'M[C]_N) : car n A -> car n (A \o fl).
Proof.
move=> [a1 a2]; split=> [i j hi hj|i hi] /=.
  by rewrite a1 ?fl_lt // -fl_sw // fl_inj // sw_lt.
by rewrite a2 ?fl_lt // fl_sw.
Qed.

Lemma fl_sum (A : nat -> 'M[C]_(2 ^ n)) (S S' : nat -> C) : car n A ->
  (forall k, (k < n)%N -> S' k = if P k then - S k else S k) -> mode_sum (A \o fl) S' = mode_sum A S.
Proof.
move=> [_ a2] h; apply: eq_bigr => k _; have hk := ltn_ord k; have hk2 : (k < 2 * n)%N by lia.
rewrite h //= /fl hk; case: (P k) => //.
by rewrite -a2 // adjmK scaleNr -scalerN opprB.
Qed.
End Flip.

(* n modes with non-negative energies *)
Lemma bdg_modes n (H : 'M[CR]_(2 * n)) : (0 < n)%N -> hermitian H -> ph_symmetric H -> exists B S,
  [/\ fermi_modes B, forall k, 0 <= S k, lift_spec H (alphaM CR n) = mode_sum B S &
    char_poly H = \prod_(k < n) ('X^2 - (S k ^+ 2)%:P)].
Proof.
move=> n0 hH pH; have [U [S [uU sU rS eL]]] := bdg_diag n0 hH pH.
have cM := PropModes.mode_car uU sU; pose P k := S k < 0.
have es k : `|S k| = if P k then - S k else S k.
  rewrite /P; have := real_ltP (rS k) (real0 _); case => h; [by rewrite ltr0_norm|by rewrite ger0_norm].
exists (mode U \o fl n P), (fun k => `|S k|); split=> //.
- split; first exact: fl_car.
  move=> k hk /=; have h := fl_lt P hk; by exists (fun i => get (ofM (adjm U)) (fl n P k) i).
- rewrite (fl_sum cM (S := S)) => [|k _]; last exact: es.
  by rewrite (lift_change _ _ uU) eL -[rot _ _ _]/(mode U) lift_std.
have -> : char_poly H = char_poly (std_form n S).
  apply/esym; apply: (Spectral.char_poly_conj uU); exact: esym.
rewrite std_char big_cat !big_map (_ : iota 0 n = index_iota 0 n) ?/index_iota ?subn0 // -[in X in X = _](subn0 n) -/(index_iota 0 n) !big_mkord -big_split /=; apply: eq_bigr => k _.
have -> : (`|S k| ^+ 2)%:P = (S k)%:P ^+ 2 :> {poly CR} by rewrite real_normK // rmorphX.
by rewrite subr_sqr mulrC rmorphN opprK.
Qed.

(* ------------------------------------------------------------------ *)
Section Energy.
Variable C : numClosedFieldType.
Variables (n : nat) (B : nat -> 'M[C]_(2 ^ n)) (S : nat -> C).
Hypothesis cB : car n B.

Lemma mode_energy (rho : 'M[C]_(2 ^ n)) : \tr rho = 1 ->
  \tr (rho *m mode_sum B S) = - (\sum_(k < n) S k) + \sum_(k < n) 2%:R * S k * \tr (rho *m num B k).
Proof.
move=> t1; rewrite /mode_sum mulmx_sumr raddf_sum /= -sumrN -big_split /=; apply: eq_bigr => k _.
rewrite (num_compl cB) // -/(num B k) opprB addrA -scalemxAr linearZ /= mulmxBr mulmx1 linearB /= t1 mulmxDr linearD /= -mulr2n.
by rewrite mulrBr mulr1 addrC -[_ *+ 2]mulr_natl mulrA [S k * _]mulrC.
Qed.

Lemma num_ge0 (rho : 'M[C]_(2 ^ n)) k : psd rho -> 0 <= \tr (rho *m num B k).
Proof. by move=> p; rewrite /num mulmxA mxtrace_mulC mulmxA; apply: psd_trace_ge0; exact: psd_congr. Qed.
End Energy.

Lemma pure_density m (v : 'cV[CR]_m) : unit_vector v -> density (v *m adjm v).
Proof.
move=> u; split; first by have := psd_gram (adjm v); rewrite adjmK.
by rewrite mxtrace_mulC u mxtrace1.
Qed.

(* the weights of an invertible matrix do not vanish *)
Lemma weights_unit n (H : 'M[CR]_(2 * n)) (S : nat -> CR) : char_poly H = \prod_(k < n) ('X^2 - (S k ^+ 2)%:P) ->
  (H \in unitmx) = [forall k : 'I_n, S k != 0].
Proof.
move=> cp; have e : (char_poly H).[0] == 0 = (\det H == 0).
  rewrite /char_poly -horner_evalE -det_map_mx (_ : map_mx _ _ = - H).
    by rewrite -scaleN1r detZ mulf_eq0 signr_eq0.
  by apply/matrixP => i j; rewrite !mxE /= horner_evalE !hornerE hornerMn hornerX mul0rn sub0r.
rewrite unitmxE unitfE -e cp horner_prod prodf_seq_eq0; apply/hasPn/forallP => h k.
  by have := h k (mem_index_enum k); rewrite /= hornerD hornerN hornerC hornerXn expr0n /= sub0r oppr_eq0 sqrf_eq0.
by move=> _; rewrite /= hornerD hornerN hornerC hornerXn expr0n /= sub0r oppr_eq0 sqrf_eq0; exact: h.
Qed.

Section Main.
Variable schur : arr CR -> arr CR.
Hypothesis schurP : PropDist4.schur_spec schur.
Local Notation kept H := (cutoff (10%:R ^+ 10)^-1 H).

(* the vacuum of the modes *)
Lemma vac_FAF n (B : nat -> 'M[CR]_(2 ^ n)) v (x : input) k : mode_vacuum B v -> (0 < k)%N ->
  cast_to_density_matrix x = Ok (ofM (v *m adjm v)) -> FAF schur x k = Ok 0.
Proof.
move=> mv k0 ex; have [_ uv _] := mv; apply/(C84_zero schurP ex (pure_density uv) k0); by exists B, v.
Qed.

Lemma vac_parity n (B : nat -> 'M[CR]_(2 ^ n)) v : mode_vacuum B v -> exists2 s : bool, True & parity CR n *m v = (-1) ^+ s *: v.
Proof.
move=> mv; have [_ uv _] := mv; have d := pure_density uv; have ex := C25_density d.
have [_ _ p] := C84_wick schurP ex d (ltn0Sn 0) (vac_FAF mv (ltn0Sn 0) ex).
have e (M : 'M[CR]_(2 ^ n)) c : M *m (v *m adjm v) = c *: (v *m adjm v) -> M *m v = c *: v.
  by move/(congr1 (mulmx^~ v)); rewrite -scalemxAl -!mulmxA uv mulmx1.
case: p => h; [exists false|exists true] => //; apply: e; rewrite h ?expr0 ?scale1r // expr1 scaleN1r //.
Qed.

(* C89: the lowest energy of build_op(H) and the states that have it *)
Theorem C89_ground n (H : 'M[CR]_(2 * n)) : (0 < n)%N -> hermitian H -> ph_symmetric H ->
  exists (O : 'M[CR]_(2 ^ n)) (S : nat -> CR), let E := - (\sum_(k < n) S k) in
  [/\ build_op n (ofM H) (jordan_wigner_alphas CR n) false = Ok (ofM O),
      (forall k, 0 <= S k) /\ char_poly (kept H) = \prod_(k < n) ('X^2 - (S k ^+ 2)%:P),
      (forall rho, density rho -> E <= \tr (rho *m O)),
      kept H \in unitmx -> exists v, [/\ unit_vector v, exists s : bool, parity CR n *m v = (-1) ^+ s *: v,
        forall rho, density rho -> (\tr (rho *m O) = E <-> rho = v *m adjm v) &
        forall x k, cast_to_density_matrix x = Ok (ofM (v *m adjm v)) -> (0 < k)%N -> FAF schur x k = Ok 0]
    & kept H \notin unitmx -> exists v w, [/\ unit_vector v /\ unit_vector w,
        exists s : bool, parity CR n *m v = (-1) ^+ s *: v /\ parity CR n *m w = - ((-1) ^+ s *: w),
        \tr (v *m adjm v *m O) = E /\ \tr (w *m adjm w *m O) = E &
        forall x k, cast_to_density_matrix x = Ok (ofM (v *m adjm v)) \/ cast_to_density_matrix x = Ok (ofM (w *m adjm w)) ->
          (0 < k)%N -> FAF schur x k = Ok 0]].
Proof.
move=> n0 hH pH; have [B [S [fB S0 eO cp]]] := bdg_modes n0 (cutoff_herm (10%:R ^+ 10)^-1 hH) (cutoff_ph (10%:R ^+ 10)^-1 pH).
have [cB sB] := fB; have uH := weights_unit cp; have [v [uv av un]] := vacuum_unique cB.
have mv : mode_vacuum B v by split.
have tn w k : unit_vector w -> adjm (B k) *m w = 0 -> \tr (w *m adjm w *m num B k) = 0 :> CR.
  by move=> _ h; rewrite -mulmxA mxtrace_mulC /num mulmxA -[_ *m B k *m _ *m w]mulmxA h mulmx0 mxtrace0.
exists (mode_sum B S), S; split=> //.
- rewrite alphas_ops C47_lift ?eO //; lia.
- move=> rho [p t1]; rewrite (mode_energy _ cB) // ler_addl; apply: sumr_ge0 => k _.
  by rewrite !mulr_ge0 ?ler0n // num_ge0.
- rewrite uH => /forallP Sp; exists v; split=> //; first by have [s _] := vac_parity mv; exists s.
    move=> rho d; have [p t1] := d; rewrite (mode_energy _ cB) //; split=> [e|->].
      have [v' [uv' av'] un'] := null_pure cB.
      have ar rho' : density rho' -> - (\sum_(k < n) S k) + \sum_(k < n) 2%:R * S k * \tr (rho' *m num B k) = - (\sum_(k < n) S k) ->
          forall k, (k < n)%N -> adjm (B k) *m rho' = 0.
        move=> [p' _] e' k hk; apply: psd_null => //; rewrite adjmK -/(num B k).
        have z : \sum_(k < n) 2%:R * S k * \tr (rho' *m num B k) = 0.
          by apply: (addrI (- (\sum_(k < n) S k))); rewrite e' addr0.
        have /psumr_eq0P h : \sum_(k < n) 2%:R * S k * \tr (rho' *m num B k) = 0 := z.
        have := h _ (Ordinal hk) isT; rewrite /= => hz; have {hz} := hz (fun i _ => mulr_ge0 (mulr_ge0 (ler0n _ _) (S0 _)) (num_ge0 _ _ p')).
        move/eqP; rewrite mulf_eq0 mulf_eq0 pnatr_eq0 /= (negPf (Sp (Ordinal hk))) /= => /eqP //.
      rewrite (un' _ d (ar _ d e)) -(un' _ (pure_density uv)) // => k hk; by rewrite mulmxA av // mul0mx.
    by rewrite [X in _ + X]big1 ?addr0 // => k _; rewrite tn ?mulr0 ?av.
  by move=> x k ex k0; exact: (vac_FAF mv k0 ex).
- rewrite uH negb_forall => /existsP[k0]; rewrite negbK => /eqP Sk0.
  have hk0 : (k0 < n)%N := ltn_ord k0; have hk02 : (k0 < 2 * n)%N by lia.
  pose P k := k == k0 :> nat; have cF : car n (B \o fl n P) := fl_car P cB.
  pose w := B k0 *m v.
  have uw : unit_vector w.
    by rewrite /unit_vector /w adjmM !mulmxA -(mulmxA (adjm v)) (num_compl cB) // mulmxBr mulmx1 mulmxBl uv /num -!mulmxA av // !mulmx0 subr0.
  have aw k : (k < n)%N -> adjm ((B \o fl n P) k) *m w = 0.
    move=> hk; have hk2 : (k < 2 * n)%N by lia.
    have [a1 a2] := cB; rewrite /w /= /fl hk /P; case: eqP => [->|/eqP ne].
      by rewrite a2 ?sw_lt // swK // mulmxA -[B k0]adjmK; have := cre_sq cB hk0; rewrite adjmK => ->; rewrite mul0mx.
    have := a1 (sw n k) k0 (sw_lt hk2) hk02; rewrite swK // eq_sym (negPf ne) raddf0 -a2 // => /eqP; rewrite addr_eq0 => /eqP e.
    by rewrite mulmxA e mulNmx -mulmxA av // mulmx0 oppr0.
  have mw : mode_vacuum (B \o fl n P) w.
    by split=> //; split=> // k hk; apply: sB; exact: fl_lt.
  have eF : mode_sum (B \o fl n P) S = mode_sum B S.
    by apply: fl_sum => // k hk; rewrite /P; case: eqP => // ->; rewrite Sk0 oppr0.
  exists v, w; split=> //.
  + have [s _ ps] := vac_parity mv; exists s; split=> //.
    by rewrite /w mulmxA (parity_spanned (sB _ hk02)) mulNmx -mulmxA ps -scalemxAr.
  + split.
      by rewrite (mode_energy _ cB) ?(pure_density uv).2 // [X in _ + X]big1 ?addr0 // => k _; rewrite tn ?mulr0 ?av.
    rewrite -eF (mode_energy _ cF) ?(pure_density uw).2 // [X in _ + X]big1 ?addr0 // => k _.
    by rewrite -mulmxA mxtrace_mulC /num mulmxA -[_ *m _ *m _ *m w]mulmxA aw // mulmx0 mxtrace0 mulr0.
  + by move=> x k [] ex kp; [exact: (vac_FAF mv kp ex)|exact: (vac_FAF mw kp ex)].
Qed.

(* ladder operators spanned by the Jordan-Wigner ones are a symplectic rotation of them *)
Lemma modes_symp n (B : nat -> 'M[CR]_(2 ^ n)) : fermi_modes B -> exists Z : 'M[CR]_(2 * n),
  [/\ unitary Z, symplectic Z & forall k, (k < 2 * n)%N -> B k = rot (alphaM CR n) (2 * n) (get (ofM Z)) k].
Proof.
move=> [cB sB]; have [a1 a2] := cB; have [d1 d2] := alphas_car CR n.
have /fin_all_exists[c hc] : forall k : 'I_(2 * n), exists c : 'I_(2 * n) -> CR, B k = \sum_j c j *: alphaM CR n j.
  by move=> k; exact: sB.
pose Z : 'M[CR]_(2 * n) := \matrix_(k, j) c k j.
have hZ k : (k < 2 * n)%N -> B k = rot (alphaM CR n) (2 * n) (get (ofM Z)) k.
  by move=> hk; rewrite -[k]/(val (Ordinal hk)) hc; apply: eq_bigr => j _; rewrite ofM_get mxE.
have scal (a b : CR) : (a%:M : 'M[CR]_(2 ^ n)) = b%:M -> a = b.
  by move/matrixP/(_ (Ordinal (pow2_gt0 n)) (Ordinal (pow2_gt0 n))); rewrite !mxE eqxx !mulr1n.
exists Z; split=> //; last first.
  apply/matrixP => i j; rewrite -SM_swap SME; apply: scal; rewrite -a1 // !hZ // (rot_anti _ _ _ (alphas_car CR n)); congr (_%:M).
  by apply: mulS => a; rewrite -ofM_get.
apply/matrixP => i j; rewrite [RHS]mxE; apply: scal.
have -> : ((i == j)%:R)%:M = B i *m adjm (B j) + adjm (B j) *m B i.
  rewrite a2 // a1 ?sw_lt // sw_eq ?sw_lt // swK // val_eqE; done.
rewrite mxE !hc adjm_sum mulmx_suml [X in _ = _ + X]mulmx_sumr -big_split raddf_sum /=; apply: eq_bigr => k _.
rewrite mulmx_sumr mulmx_suml -big_split /= (bigD1 k) //= big1 ?addr0 => [|l lk]; rewrite adjmZ d2 //.
  by rewrite -!scalemxAl -!scalemxAr !scalerA [(_)^* * _]mulrC -scalerDr d1 ?sw_lt // eqxx scale_scalar_mx mulr1 !mxE.
rewrite -!scalemxAl -!scalemxAr !scalerA [(_)^* * _]mulrC -scalerDr d1 ?sw_lt // sw_eq ?sw_lt // swK // val_eqE eq_sym (negPf lk).
by rewrite raddf0 scaler0.
Qed.

(* C89: every state of zero anti-flatness is the only ground state of build_op(H) for some H *)
Theorem C89_parent n (x : input) (rho : 'M[CR]_(2 ^ n)) k : (0 < n)%N -> cast_to_density_matrix x = Ok (ofM rho) -> density rho ->
  (0 < k)%N -> FAF schur x k = Ok 0 ->
  exists (H : 'M[CR]_(2 * n)) (O : 'M[CR]_(2 ^ n)) (c : CR), [/\ hermitian H, ph_symmetric H, H *m H = (c ^+ 2)%:M /\ 0 < c,
    build_op n (ofM H) (jordan_wigner_alphas CR n) false = Ok (ofM O) &
    forall sigma, density sigma -> - (n%:R * c) <= \tr (sigma *m O) /\ (\tr (sigma *m O) = - (n%:R * c) <-> sigma = rho)].
Proof.
move=> n0 ex d k0 /(C84_zero schurP ex d k0)[B [v [mv ->]]]; have [[cB sB] uv av] := mv.
have [Z [uZ sZ hZ]] := modes_symp (conj cB sB).
have uU := unitary_adj uZ; have sU := symp_adj uZ sZ; set U := adjm Z in uU sU.
have r1 : forall k : nat, (fun=> 1 : CR) k \is Num.real by move=> _; exact: rpred1.
have hS : hermitian (std_form n (fun=> 1 : CR)).
  apply/matrixP => i j; rewrite !mxE eq_sym; case: ifP => [/eqP ->|_]; last by rewrite rmorph0.
  by case: ifP; rewrite ?rmorphN rmorph1.
pose H1 := U *m std_form n (fun=> 1) *m adjm U.
have h1 : hermitian H1 by rewrite /hermitian /H1 !adjmM adjmK hS mulmxA.
have p1 : ph_symmetric H1 by apply: conj_ph => //; exact: std_ph.
have [c c0 aH] := scale_above H1; have cr : c^* = c by apply/CrealP; exact: gtr0_real.
have U1 : adjm U *m U = 1%:M := mulmx1C uU.
have eO : lift_spec (c *: H1) (alphaM CR n) = mode_sum B (fun=> c).
  rewrite (lift_change _ _ uU) (_ : adjm U *m (c *: H1) *m U = std_form n (fun=> c)).
    rewrite -(lift_std _ cB); apply: eq_bigr => i _; apply: eq_bigr => j _; rewrite !hZ //; by rewrite /U adjmK.
  rewrite -scalemxAr -scalemxAl /H1 !mulmxA U1 mul1mx -mulmxA U1 mulmx1; apply/matrixP => i j; rewrite !mxE.
  by case: ifP => _; rewrite ?mulr0 //; case: ifP => _; rewrite ?mulrN mulr1.
exists (c *: H1), (mode_sum B (fun=> c)), c; split.
- by rewrite /hermitian adjmZ cr h1.
- by rewrite /ph_symmetric map_mxZ cr -scalemxAr -scalemxAl p1 scalerN.
- split=> //; rewrite -scalemxAl -scalemxAr scalerA -expr2 /H1 !mulmxA -(mulmxA _ (adjm U)) U1 mulmx1 -(mulmxA U).
  rewrite (_ : std_form n _ *m std_form n _ = 1%:M) ?mulmx1 ?uU ?scalemx1 //.
  apply/matrixP => i j; rewrite !mxE (bigD1 i) //= big1 => [|l li]; last by rewrite mxE eq_sym (negPf li) mul0r.
  rewrite !mxE eqxx addr0; case: eqP => [_|]; last by rewrite mulr0.
  by case: ifP => _; rewrite ?mulrNN mulr1.
- rewrite alphas_ops C47_lift; [|lia|lia]; rewrite C47_cutoff_id ?eO //.
move=> sigma ds; have [p t1] := ds; rewrite (mode_energy _ cB) // sumr_const card_ord -[c *+ n]mulr_natl.
have g0 (i : 'I_n) : 0 <= 2%:R * c * \tr (sigma *m num B i) by rewrite !mulr_ge0 ?ler0n ?(ltW c0) // num_ge0.
split; first by rewrite ler_addl; apply: sumr_ge0.
have [v' [uv' av'] un] := null_pure cB; split=> [e|->]; last first.
  rewrite [X in _ + X]big1 ?addr0 // => i _.
  by rewrite -mulmxA [\tr _]mxtrace_mulC /num mulmxA -[_ *m B i *m _ *m v]mulmxA av // mulmx0 mxtrace0 mulr0.
have z : \sum_(i < n) 2%:R * c * \tr (sigma *m num B i) = 0 by apply: (addrI (- (n%:R * c))); rewrite e addr0.
rewrite (un _ ds) => [|i hi].
  by rewrite -(un _ (pure_density uv)) // => i hi; rewrite mulmxA av // mul0mx.
apply: psd_null => //; rewrite adjmK -/(num B i).
have /(_ (Ordinal hi) isT)/eqP := psumr_eq0P (fun i _ => g0 i) z.
by rewrite mulf_eq0 mulf_eq0 pnatr_eq0 /= (negPf (lt0r_neq0 c0)) /= => /eqP.
Qed.

(* the Kitaev chain at mu = 0, delta = t has two Gaussian ground states of opposite parities *)
Example C89_kitaev n (t : CR) : (0 < n)%N -> t \is Num.real -> big t -> exists (H : 'M[CR]_(2 * n)) (O : 'M[CR]_(2 ^ n)) E v w,
  [/\ kitaev_chain n 0 t t = Ok (ofM H), build_op n (ofM H) (jordan_wigner_alphas CR n) false = Ok (ofM O),
      (forall rho, density rho -> E <= \tr (rho *m O)) /\ (\tr (v *m adjm v *m O) = E /\ \tr (w *m adjm w *m O) = E),
      exists s : bool, parity CR n *m v = (-1) ^+ s *: v /\ parity CR n *m w = - ((-1) ^+ s *: w)
    & [/\ unit_vector v, unit_vector w & forall k, (0 < k)%N ->
        FAF schur (V2 (ofM (v *m adjm v))) k = Ok 0 /\ FAF schur (V2 (ofM (w *m adjm w))) k = Ok 0]].
Proof.
move=> n0 rt bt; have [H [eH hH pH cH]] := C76_spectrum n0 rt.
have aH : above H := kitaev_above (storable_tt 0 rt) (big0 _) bt bt eH.
have [O [S [eO _ lo _ hi]]] := C89_ground n0 hH pH.
rewrite C47_cutoff_id // in hi; have nu : H \notin unitmx.
  have r0 : root (char_poly H) 0 by rewrite cH rootE hornerM hornerXn expr0n mulr0.
  have /eigenvalueP[v ev v0] : eigenvalue H 0 by rewrite eigenvalue_root_char.
  by apply/negP => u; case/eqP: v0; rewrite -[v]mulmx1 -(mulmxV u) mulmxA ev scale0r mul0mx.
have [v [w [[uv uw] ps [e1 e2] f]]] := hi nu; exists H, O, (- (\sum_(k < n) S k)), v, w; split=> //; split=> // k k0.
by split; apply: f => //; [left|right]; apply: C25_density; exact: pure_density.
Qed.

(* n uncoupled sites: one ground state *)
Example C89_sites n : (0 < n)%N -> exists (O : 'M[CR]_(2 ^ n)) E v, [/\ unit_vector v,
  build_op n (ofM (std_form n (fun=> 1 : CR))) (jordan_wigner_alphas CR n) false = Ok (ofM O) &
  forall rho, density rho -> E <= \tr (rho *m O) /\ (\tr (rho *m O) = E <-> rho = v *m adjm v)].
Proof.
move=> n0; set H := std_form _ _.
have HH : H *m H = 1%:M.
  apply/matrixP => i j; rewrite !mxE (bigD1 i) //= big1 => [|l li]; last by rewrite mxE eq_sym (negPf li) mul0r.
  by rewrite !mxE eqxx addr0; case: eqP => [_|]; rewrite ?mulr0 //; case: ifP => _; rewrite ?mulrNN mulr1.
have hH : hermitian H.
  apply/matrixP => i j; rewrite !mxE eq_sym; case: ifP => [/eqP ->|_]; last by rewrite rmorph0.
  by case: ifP; rewrite ?rmorphN rmorph1.
have aH : above H.
  move=> i j; rewrite mxE; case: ifP => _; [right|by left].
  have -> : `|if (i < n)%N then - 1 else 1 : CR| = 1 by case: ifP; rewrite ?normrN normr1.
  by rewrite -real_leNgt ?rpredV ?rpredX ?realn ?rpred1 // invf_le1 ?exprn_gt0 ?ltr0n // exprn_ege1 // ler1n.
have [O [S [eO _ lo hi _]]] := C89_ground n0 hH (std_ph n (fun=> rpred1 _)).
rewrite C47_cutoff_id // in hi; have u : H \in unitmx by case/mulmx1_unit: HH.
by have [v [uv _ g _]] := hi u; exists O, (- (\sum_(k < n) S k)), v; split=> // rho d; split; [exact: lo|exact: g].
Qed.
End Main.
