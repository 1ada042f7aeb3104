(* PropMatchgate.v -- property C74: the two-site operators built by the library are matchgates *)
Set Warnings "-notation-overridden,-ambiguous-paths".
From mathcomp Require Import all_ssreflect all_fingroup all_algebra.
From mathcomp.zify Require Import zify.
From Verif Require Import Base ArrC MCombinatorics MLib JW OpFam FermAlg LibFacts LibFacts2 LibFacts3 Expm ExpmAd.
From Verif Require Import PropLib1 PropLib2 PropLib3 PropLib4 MUtils MRandom RndFacts PropRandom1 PropRandom2.
From Verif Require Import Spectral NormalCalc ManyBody.
Set Implicit Arguments.
Unset Strict Implicit.
Unset Printing Implicit Defensive.
Import Order.Theory GRing.Theory Num.Theory.
Local Open Scope ring_scope.

Section Props.
Variable C : numClosedFieldType.
Local Notation arr := (arr C).
Add Ring cringPMg : (ring_of C).

Variables (E : forall n, 'M[C]_n -> 'M[C]_n).
Hypotheses (HE : expm_spec E).

(* Jacobi's formula for normal matrices: det exp A = exp (tr A) *)
Lemma det_expm n (A : 'M[C]_n) : normal A -> \det (E A) = cexp E (\tr A).
Proof.
move=> /(@spectral C) [U u [d eA]].
rewrite eA (expm_conj HE) // [in RHS]mxtrace_mulC mulmxA u mul1mx mxtrace_diag cexp_sum //.
rewrite det_mulmx mulrC -det_mulmx mulmxA u mul1mx det_diag.
by apply: eq_bigr => i _; rewrite mxE.
Qed.

(* the projector on the corner (even) block *)
Definition corner (i : 'I_4) : bool := i \in [:: inord 0; inord 3 : 'I_4].
Definition blk (b : bool) : 'M[C]_4 := diag_mx (\row_i (corner i == b)%:R).

Lemma blk_block b (X : 'M[C]_4) : parity_block X -> X *m blk b = blk b *m X.
Proof.
move=> p; apply/matrixP => i j; rewrite mul_mx_diag mul_diag_mx !mxE.
case: (boolP (corner i == corner j)) => [/eqP -> |h]; first by rewrite mulrC.
by rewrite (p i j h) mulr0 mul0r.
Qed.
Lemma blk_compl b : blk b + blk (~~ b) = 1%:M.
Proof.
apply/matrixP => i j; rewrite !mxE -mulrnDl; congr (_ *+ _).
by case: (corner i); case: b; rewrite /= ?addr0 ?add0r.
Qed.
Lemma blk_idem b : blk b *m blk b = blk b.
Proof.
apply/matrixP => i j; rewrite mul_mx_diag !mxE; case: (i =P j) => [<-|_]; last by rewrite !mulr0n mul0r.
by rewrite !mulr1n; case: (_ == _); rewrite ?mulr1 ?mulr0.
Qed.

Lemma det_mx3 (A : 'M[C]_3) (a : nat -> nat -> C) : (forall i j : 'I_3, A i j = a i j) ->
  \det A = a 0%N 0%N * (a 1%N 1%N * a 2%N 2%N - a 1%N 2%N * a 2%N 1%N) - a 0%N 1%N * (a 1%N 0%N * a 2%N 2%N - a 1%N 2%N * a 2%N 0%N)
    + a 0%N 2%N * (a 1%N 0%N * a 2%N 1%N - a 1%N 1%N * a 2%N 0%N).
Proof.
move=> h; rewrite (expand_det_row _ ord0) 3!big_ord_recl big_ord0 addr0 /cofactor.
have D (B : 'M[C]_2) : \det B = B 0 0 * B 1 1 - B 0 1 * B 1 0.
  rewrite (expand_det_row _ ord0) 2!big_ord_recl big_ord0 addr0 /cofactor !det_mx11 !mxE /= expr0 expr1 mul1r mulN1r mulrN.
  by congr (_ * B _ _ - B _ _ * B _ _); apply: val_inj.
rewrite !D !mxE !h /= /bump /= -[(1 %% 2)%N]/1%N !(addn0, add0n, add1n) expr0 expr1 sqrrN expr1n.
xring C.
Qed.

Lemma det_block (M : 'M[C]_4) : parity_block M -> \det M = corner_det M * inner_det M.
Proof.
move=> p; pose a i j := M (inord i) (inord j); have h (i j : 'I_4) : M i j = a i j by rewrite /a !inord_val.
have z i j : (i < 4)%N -> (j < 4)%N -> ((i \in [:: 0; 3]) != (j \in [:: 0; 3]))%N -> a i j = 0.
  by move=> hi hj; rewrite !inE => d; apply: p; rewrite !inE -!(inj_eq val_inj) /= !inordK.
rewrite (expand_det_row _ ord0) 4!big_ord_recl big_ord0 addr0 !h /=.
rewrite (z 0%N 1%N) // (z 0%N 2%N) // !mul0r !add0r /cofactor.
rewrite (@det_mx3 _ (fun i j => a (bump 0 i) (bump 0 j))); last by move=> i j; rewrite !mxE h.
rewrite (@det_mx3 _ (fun i j => a (bump 0 i) (bump 3 j))); last by move=> i j; rewrite !mxE h.
rewrite /corner_det /inner_det -!/(a _ _) /bump /= !(addn0, add0n, add1n) (z 1%N 0%N) // (z 2%N 0%N) // (z 1%N 3%N) // (z 2%N 3%N) // (z 3%N 1%N) // (z 3%N 2%N) //.
rewrite expr0 !exprS expr0.
xring C.
Qed.

Lemma block_blk (X : 'M[C]_4) : X *m blk true = blk true *m X -> parity_block X.
Proof.
move=> e i j h; have := congr1 (fun M : 'M_4 => M i j) e; rewrite /= mul_mx_diag mul_diag_mx !mxE.
rewrite -/(corner i) -/(corner j) in h.
by move: h; case: (corner i); case: (corner j); rewrite //= ?mulr1 ?mulr0 ?mul1r ?mul0r.
Qed.

Lemma expm_block (X : 'M[C]_4) : parity_block X -> parity_block (E X).
Proof. by move=> p; apply: block_blk; apply: (expm_comm HE); apply: blk_block. Qed.

Lemma expm_blk b (X : 'M[C]_4) : parity_block X -> E (X *m blk b) = blk b *m E X + blk (~~ b).
Proof.
move=> p; rewrite -[LHS]mulmx1 -(blk_compl b) mulmxDr; congr (_ + _).
  by apply: (expm_inter HE); rewrite -mulmxA blk_idem blk_block.
rewrite -[RHS]mulmx1 -(expm0 HE); apply: (expm_inter HE); rewrite mulmx0 -mulmxA.
suff -> : blk b *m blk (~~ b) = 0 by rewrite mulmx0.
apply/matrixP => i j; rewrite mul_mx_diag !mxE; case: (i =P j) => [<-|_]; last by rewrite !mulr0n mul0r.
by rewrite !mulr1n -natrM; case: (corner i); case: b.
Qed.

Lemma blk_det b (M : 'M[C]_4) : parity_block M ->
  \det (blk b *m M + blk (~~ b)) = if b then corner_det M else inner_det M.
Proof.
move=> p; rewrite det_block; last first.
  move=> i j h; rewrite mxE mul_diag_mx !mxE (p i j h) mulr0 add0r.
  by case: (i =P j) h => [->|//]; rewrite eqxx.
have g i j : (blk b *m M + blk (~~ b)) i j = (corner i == b)%:R * M i j + (corner i == ~~ b)%:R *+ (i == j).
  by rewrite mxE mul_diag_mx !mxE.
by rewrite /corner_det /inner_det !g /corner !inE -!(inj_eq val_inj) /= !inordK //;
  clear g; case: b => /=; set x := M _ _; set y := M _ _; set z := M _ _; set t := M _ _; xring C.
Qed.

(* the exponential of a matrix that respects the two blocks and has the same trace on both is a matchgate *)
Lemma expm_matchgate (X : 'M[C]_4) : parity_block X -> normal X -> \tr (X *m blk true) = \tr (X *m blk false) ->
  matchgate (E X).
Proof.
move=> p nX e; split; first exact: expm_block.
have nb b : normal (X *m blk b).
  have ab : adjm (blk b) = blk b.
    by rewrite diag_adj; congr diag_mx; apply/matrixP => i j; rewrite !mxE rmorph_nat.
  have c := blk_block b p; have ca : adjm X *m blk b = blk b *m adjm X by rewrite -{1}ab -adjmM -c adjmM ab.
  rewrite /normal adjmM ab mulmxA -(mulmxA X) blk_idem -(mulmxA X) -ca mulmxA nX.
  by rewrite -(mulmxA (adjm X)) -(mulmxA (adjm X)) c (mulmxA (blk b)) blk_idem.
rewrite -[inner_det _](blk_det false (expm_block p)) -[corner_det _](blk_det true (expm_block p)).
by rewrite -!expm_blk // !det_expm // e.
Qed.

(* ------------------------------------------------------------------ *)
(* two-site quadratic operators                                        *)
(* ------------------------------------------------------------------ *)
Lemma parity2E : parity C 2 = blk true - blk false.
Proof.
apply/matrixP => i j; rewrite !mxE ts_get //= 2!big_ord_recl big_ord0 mulr1 pzE /bit /corner !inE -!(inj_eq val_inj) /= !inordK //.
by case: i j => [[|[|[|[|i]]]] hi] [[|[|[|[|j]]]] hj] //=; rewrite !getE //= ?mulr0n ?mulr1n ?(mulr0, mul0r, mulr1, mul1r, subr0, sub0r) ?mulrNN ?mulr1.
Qed.

(* a two-site quadratic operator has no component along the fermion parity *)
Definition alf (k s : nat) : arr := if (k < 2)%N then aadj (jwf C k s) else jwf C (k - 2) s.
Lemma alf2 k : site2 (alf k).
Proof. by rewrite /alf; case: ltnP => _; [exact: jwfa2|exact: jwf2]. Qed.
Lemma alphaM2 k : alphaM C 2 k = toM (2 ^ 2) (2 ^ 2) (ts 2 (alf k)).
Proof.
by rewrite /alphaM /alf; case: ltnP => _ //; rewrite -am_adj jw_siteE ts_adj.
Qed.

Lemma trace_parity_lift (R : 'M[C]_(2 * 2)) : \tr (parity C 2 *m lift_spec R (alphaM C 2)) = 0.
Proof.
rewrite /lift_spec mulmx_sumr raddf_sum /= big1 // => i _; rewrite mulmx_sumr raddf_sum /= big1 // => j _.
rewrite -scalemxAr mxtraceZ; apply/eqP; rewrite mulf_eq0; apply/orP; right; apply/eqP.
rewrite !alphaM2 -toM_adj ?nr_ts ?nc_ts //; try exact: alf2.
have a2 : site2 (fun k => aadj (alf i k)) by move=> k; rewrite /= (alf2 i k).1 (alf2 i k).2.
have m2 : site2 (fun k => amul (aadj (alf i k)) (alf j k)) by apply: mul22 => //; exact: alf2.
rewrite ts_adj -toM_jmul ?nr_ts ?nc_ts //; try exact: alf2.
rewrite ts_mul //; last exact: alf2.
rewrite -toM_jmul ?nr_ts ?nc_ts // ts_mul // -atraceE ?nr_ts //; last by apply: mul22.
rewrite atrace_ts; last by apply: mul22.
rewrite 2!big_ord_recl big_ord0 mulr1 /=.
by case: i j {a2 m2} => [[|[|[|[|i]]]] hi] [[|[|[|[|j]]]] hj] //; rewrite /alf /jwf /=; arr2s; rewrite !arr2_trace ?(addr0, mulr0, mul0r, subrr, mul1r).
Qed.

Lemma block_parity (X : 'M[C]_4) : parity C 2 *m X = X *m parity C 2 -> parity_block X.
Proof.
move=> e; apply: block_blk; have b1 : (2%:R : C) *: blk true = 1%:M + parity C 2.
  by rewrite parity2E -(blk_compl true) addrC addrA [_ - _ + _]addrAC subrK -[2%:R]/(1 + 1) scalerDl scale1r.
have n2 : (2%:R : C) != 0 by rewrite pnatr_eq0.
apply: (scalerI n2); rewrite scalemxAr scalemxAl b1 mulmxDr mulmxDl mulmx1 mul1mx; congr (_ + _).
exact/esym.
Qed.

Lemma matchgateZ c (M : 'M[C]_4) : matchgate M -> matchgate (c *: M).
Proof.
move=> [p e]; split; first by move=> i j h; rewrite mxE p ?mulr0.
rewrite /inner_det /corner_det !mxE; rewrite /inner_det /corner_det in e; move: e.
set x := M _ _; set y := M _ _; set z := M _ _; set t := M _ _.
set x' := M _ _; set y' := M _ _; set z' := M _ _; set t' := M _ _ => e.
have -> : c * x * (c * y) - c * z * (c * t) = c * c * (x * y - z * t) by xring C.
rewrite e; xring C.
Qed.

Lemma matchgate_passes (M : 'M[C]_4) : matchgate M -> is_matchgate (ofM M).
Proof. by move=> [_ e]; apply/C51_decides; rewrite e; exact/closeE/close_refl. Qed.

(* ================================================================== *)
(* C74  two-site free-fermion operators are matchgates                 *)
(* ================================================================== *)
(* every exponential of a Hermitian quadratic two-site operator, with any complex prefactor *)
Theorem C74_exponential (R : 'M[C]_(2 * 2)) (c : C) : hermitian (lift_spec R (alphaM C 2)) ->
  matchgate (E (c *: lift_spec R (alphaM C 2)) : 'M[C]_4) /\ is_matchgate (ofM (E (c *: lift_spec R (alphaM C 2)))).
Proof.
move=> h; suff K : matchgate (E (c *: lift_spec R (alphaM C 2)) : 'M[C]_4) by split=> //; apply: matchgate_passes.
have t0 := trace_parity_lift R; have pc := parity_lift R.
move: {R} (lift_spec R (alphaM C 2)) h t0 pc => X h t0 pc.
apply: expm_matchgate.
- by apply: block_parity; rewrite -scalemxAl -scalemxAr pc.
- by rewrite /normal adjmZ h -!scalemxAl -!scalemxAr !scalerA mulrC.
apply/eqP; rewrite -subr_eq0 -linearB /= -mulmxBr -parity2E -scalemxAl linearZ /= mxtrace_mulC t0 mulr0 //.
Qed.

(* occupation of the first site, c a_0^ a_0: the gate diag(1, 1, e^c, e^c) *)
Definition occ0 : 'M[C]_(2 * 2) := \matrix_(i, j) ((i == 2 :> nat) && (j == 2 :> nat))%N%:R.
Lemma occ0E : lift_spec occ0 (alphaM C 2) = diag_mx (\row_i (1 < i)%N%:R).
Proof.
rewrite /lift_spec (bigD1 (inord 2)) //= [X in _ + X]big1 ?addr0 => [|i hi]; last first.
  rewrite big1 // => j _; rewrite mxE; move: hi; rewrite -(inj_eq val_inj) /= inordK // => /negbTE ->; exact: scale0r.
rewrite (bigD1 (inord 2)) //= [X in _ + X]big1 ?addr0 => [|j hj]; last first.
  by rewrite mxE; move: hj; rewrite -(inj_eq val_inj) /= !inordK // => /negbTE ->; rewrite scale0r.
rewrite mxE !inordK // scale1r /alphaM /= subnn; apply/matrixP => i j; rewrite num_get // !mxE.
rewrite /bit; case: (i =P j) => _; rewrite ?mulr0n //=.
by case: i => [[|[|[|[|i]]]] hi].
Qed.
Example C74_example (c : C) : let W := E (c *: lift_spec occ0 (alphaM C 2)) : 'M[C]_4 in
  is_matchgate (ofM W) /\ (forall i j : 'I_4, W i j = if i == j then (if (1 < i)%N then cexp E c else 1) else 0).
Proof.
move=> W; split.
  by have [|_ //] := @C74_exponential occ0 c; rewrite /hermitian occ0E diag_adj; congr diag_mx; apply/matrixP => i j; rewrite !mxE rmorph_nat.
move=> i j; rewrite /W occ0E -linearZ (expm_diag HE) !mxE; case: eqP => _; rewrite ?mulr0n // mulr1n.
by case: ifP => _; rewrite ?mulr1 // mulr0 cexp0.
Qed.

(* the quadratic form is needed: the density-density interaction c n_0 n_1 = diag(0, 0, 0, c) is Hermitian for real c
   and conserves parity, but its exponential diag(1, 1, 1, e^c) has corner determinant e^c and inner determinant 1 *)
Theorem C74_refuted_interaction (c : C) : let W := E (diag_mx (\row_i (if (i == 3 :> nat)%N then c else 0))) : 'M[C]_4 in
  [/\ parity_block W, inner_det W = 1 & corner_det W = cexp E c].
Proof.
move=> W; have g (i j : 'I_4) : W i j = if i == j then (if (i == 3 :> nat)%N then cexp E c else 1) else 0.
  rewrite /W (expm_diag HE) !mxE; case: (i == j); rewrite ?mulr0n // mulr1n.
  by case: ifP => _; rewrite ?cexp0.
split; first by move=> i j; rewrite g; case: (i =P j) => [->|//]; rewrite eqxx.
  by rewrite /inner_det !g -!(inj_eq val_inj) /= !inordK //= mul0r mulr1 subr0.
by rewrite /corner_det !g -!(inj_eq val_inj) /= !inordK //= mul0r mul1r subr0.
Qed.

(* the normalised exponential *)
Lemma gibbs_matchgate (R : 'M[C]_(2 * 2)) beta : hermitian (lift_spec R (alphaM C 2)) ->
  matchgate (PropRandom2.gibbs E beta (lift_spec R (alphaM C 2)) : 'M[C]_4).
Proof. by move=> h; apply: matchgateZ; case: (C74_exponential (- beta) h). Qed.

Variable G : gen C.
Hypothesis HG : gen_ok G.
Variables (Lg : forall n, 'M[C]_n -> 'M[C]_n) (expm logm : arr -> arr).
Hypotheses (HX : computes expm E) (HL : logm_spec E Lg) (HY : computes_u logm Lg).
Local Notation rot2 seed s := (@random_FF_rotation C G expm logm 2 seed false false s).

(* random_FF_rotation(2): a unitary matchgate for every seed and every draw *)
Theorem C74_rotation seed (s : st G) : seed_ok seed -> exists W : 'M[C]_4,
  [/\ (rot2 seed s).1 = Ok (ofM W), unitary W, matchgate W & is_matchgate (ofM W)].
Proof.
move=> hs; have [O [sO _ e]] := @rotationE C G HG E Lg expm logm HX HY 2 seed s isT hs.
have u := so_unitary sO; have h := gen_herm HL u.
have [m i] := C74_exponential (- 'i) h.
by exists (rotM E Lg O); split=> //; [rewrite e|exact: (rot_unitary HE HL u)].
Qed.

(* circuits: any product of such rotations passes the test, whatever the number of gates *)
Theorem C74_circuit (Ws : seq 'M[C]_4) :
  (forall W, W \in Ws -> exists seed s, seed_ok seed /\ (rot2 seed s).1 = Ok (ofM W)) ->
  matchgate (\big[mulmx/1%:M]_(W <- Ws) W) /\ is_matchgate (ofM (\big[mulmx/1%:M]_(W <- Ws) W)).
Proof.
elim: Ws => [|W Ws IH] h.
  rewrite big_nil; suff m : matchgate (1%:M : 'M[C]_4) by split=> //; apply: matchgate_passes.
  split; first by move=> i j; case: (i =P j) => [->|/eqP ij _]; rewrite ?eqxx // mxE (negbTE ij).
  by rewrite /inner_det /corner_det !mxE -!(inj_eq val_inj) /= !inordK.
rewrite big_cons; apply: C51_product; last by apply IH => V hV; apply: h; rewrite inE hV orbT.
have [seed [s [hs e]]] := h W (mem_head _ _).
have [V [eV _ m _]] := C74_rotation s hs; rewrite e in eV.
by rewrite (ofM_inj (okI eV)).
Qed.

(* random_FF_state(2, pure=False): the density matrix is a (non-unitary) matchgate too, with and without fixedN *)
Theorem C74_state fixedN seed returnH (s : st G) : seed_ok seed -> exists (rho : 'M[C]_4) (H : option arr),
  [/\ (@random_FF_state C G expm logm 2 fixedN seed returnH false s).1 = Ok (ofM rho, H), density rho, matchgate rho &
      is_matchgate (ofM rho)].
Proof.
move=> hs; have [rho [H [beta [e [h [R eR]] [_ er] d _]]]] := C55_mixed HG HE HX HL HY fixedN returnH s (isT : 0 < 2)%N hs.
have m : matchgate (rho : 'M[C]_4) by rewrite er eR; apply: gibbs_matchgate; rewrite -eR.
by exists rho; eexists; split=> //; [exact: e|exact: matchgate_passes].
Qed.

(* generate_gaussian_state(2, H) for a quadratic Hermitian two-site operator H *)
Theorem C74_gaussian (R : 'M[C]_(2 * 2)) : hermitian (lift_spec R (alphaM C 2)) -> exists rho : 'M[C]_4,
  [/\ generate_gaussian_state expm 2 (ofM (lift_spec R (alphaM C 2))) None = Ok (Some (ofM rho)), density rho, matchgate rho &
      is_matchgate (ofM rho)].
Proof.
move=> h; have [e d] := @C46_full C E expm HE HX 2 _ h; eexists; split; [exact: e|exact: d| |].
  by apply: matchgateZ; case: (C74_exponential (-1) h); rewrite scaleN1r.
by apply: matchgate_passes; apply: matchgateZ; case: (C74_exponential (-1) h); rewrite scaleN1r.
Qed.

(* for any other number of sites the test rejects the rotation because of its shape *)
Theorem C74_other_sizes n seed (s : st G) : (0 < n)%N -> n != 2%N -> seed_ok seed -> exists2 W : 'M[C]_(2 ^ n),
  (@random_FF_rotation C G expm logm n seed false false s).1 = Ok (ofM W) & is_matchgate (ofM W) = false.
Proof.
move=> n0 n2 hs; have [Cm [H [W [_ _ e _ _]]]] := C54_rotation HG HE HX HL HY s n0 hs.
exists W => //; apply: C51_shape; rewrite orbb -[4%N]/(2 ^ 2)%N eqn_exp2l //.
Qed.
End Props.
