(* PropLib4.v -- properties C48-C51 of ff_lib.py *)
Set Warnings "-notation-overridden,-ambiguous-paths".
From mathcomp Require Import all_ssreflect all_algebra.
From mathcomp.zify Require Import zify.
From Verif Require Import Base ArrC MLib JW OpFam FermAlg LibFacts LibFacts2 LibFacts3 Expm PropLib1 PropLib2 PropLib3.
Set Implicit Arguments.
Unset Strict Implicit.
Unset Printing Implicit Defensive.
Import Order.Theory GRing.Theory Num.Theory.
Local Open Scope ring_scope.

Section Props.
Variable C : numClosedFieldType.
Local Notation arr := (arr C).
Add Ring cringP4 : (ring_of C).

(* ================================================================== *)
(* C48  compute_cov_matrix                                             *)
(* ================================================================== *)
(* Gamma_ij = Tr(rho A_i A_j) *)
Definition corr N (rho : 'M[C]_N) (A : nat -> 'M[C]_N) m : 'M[C]_m := \matrix_(i, j) \tr (rho *m A i *m A j).

Theorem C48_cov N n (rho : 'M[C]_N) (A : nat -> 'M[C]_N) m : (2 * n <= m)%N ->
  compute_cov_matrix (ofM rho) (Some n) (Some (ops A m)) =
  Ok (ofM (corr rho A (2 * n) - (corr rho A (2 * n))^T)).
Proof.
by move=> h; rewrite cov_ops // ofM_mk; congr (Ok (ofM _)); apply/matrixP => i j; rewrite !mxE.
Qed.

Theorem C48_antisymmetric N n (rho : 'M[C]_N) (A : nat -> 'M[C]_N) m : (2 * n <= m)%N ->
  exists2 K : 'M[C]_(2 * n), compute_cov_matrix (ofM rho) (Some n) (Some (ops A m)) = Ok (ofM K) & K^T = - K.
Proof.
by move=> h; eexists; [exact: C48_cov|rewrite linearB /= trmxK opprB].
Qed.

Theorem C48_default_ops n (rho : 'M[C]_(2 ^ n)) :
  compute_cov_matrix (ofM rho) (Some n) None =
  Ok (ofM (corr rho (alphaM C n) (2 * n) - (corr rho (alphaM C n) (2 * n))^T)).
Proof. by rewrite /compute_cov_matrix alphas_ops -/(compute_cov_matrix _ (Some n) (Some _)) C48_cov. Qed.

(* the documented default n_sites=None never works *)
Theorem C48_default_refuted rho alphas : compute_cov_matrix (rho : arr) None alphas = Raise TypeError.
Proof. by []. Qed.

(* vacuum of one site: Gamma = [[0, 0], [1, 0]], covariance [[0, -1], [1, 0]] *)
Example C48_example : compute_cov_matrix (arr2 1 0 0 0) (Some 1%N) None = Ok (arr2 0 (-1) 1 0 : arr).
Proof.
have e : jw_site C 1 0 = arr2 0 1 0 0.
  by rewrite /jw_site /= smE; apply: arr2P => //; rewrite getE //= !getE //= mul1r.
rewrite /compute_cov_matrix /jordan_wigner_alphas /jordan_wigner_lowering /= e arr2_adj !rmorph0 rmorph1.
rewrite (@fill_rows _ _ _ (fun i j => if i == j then 0 else if i == 0%N then -1 else 1)); last first.
  move=> [|[|]] // [|[|]] // _ _; rewrite /trace3 /amul_chk /= !arr2_mul !arr2_trace;
  by rewrite !(mulr0, mul0r, mulr1, addr0, add0r, subr0, sub0r, subrr).
by congr Ok; apply: arr2P => //; rewrite getE.
Qed.

(* ================================================================== *)
(* C49  two-point correlation matrices                                 *)
(* ================================================================== *)
Theorem C49_gamma N n (rho : 'M[C]_N) (A : nat -> 'M[C]_N) : car n A ->
  exists2 G : 'M[C]_(2 * n), compute_2corr_matrix (ofM rho) n (Some (ops A (2 * n))) None = Ok (ofM G) &
    G = corr rho A (2 * n) /\ G + G^T = \tr rho *: swapM C n.
Proof.
move=> cA; exists (corr rho A (2 * n)); first by rewrite corr_ops.
split=> //; apply/matrixP => i j; rewrite -SM_swap !mxE -/(SM C n) -raddfD /= -!mulmxA -mulmxDr cA.1 //.
by rewrite mul_mx_scalar mxtraceZ get_S // mulrC.
Qed.

Lemma trace_conjC N (M : 'M[C]_N) : (\tr M)^* = \tr (adjm M).
Proof. by rewrite trace_adjm. Qed.

(* P_ij = Tr(rho A_i A_j^+), eta_ij = Tr(rho A_i^+ A_j) *)
Definition pcorr N (rho : 'M[C]_N) (A : nat -> 'M[C]_N) m : 'M[C]_m := \matrix_(i, j) \tr (rho *m A i *m adjm (A j)).
Definition hcorr N (rho : 'M[C]_N) (A : nat -> 'M[C]_N) m : 'M[C]_m := \matrix_(i, j) \tr (rho *m adjm (A i) *m A j).

Lemma pcorr_psd N (rho : 'M[C]_N) A m : psd rho -> psd (pcorr rho A m).
Proof.
move=> p; have [h _] := p; split.
  by apply/matrixP => i j; rewrite !mxE trace_conjC !adjmM adjmK h mulmxA mxtrace_mulC mulmxA.
move=> v; pose Y : 'M[C]_N := \sum_(i < m) (v i 0)^* *: A i.
have -> : quad (pcorr rho A m) v = \tr (adjm Y *m rho *m Y).
  rewrite -mulmxA mxtrace_mulC /Y -mulmxA adjm_sum mulmx_suml mulmx_sumr raddf_sum /= /quad mxE.
  rewrite (eq_bigr (fun j => \sum_i (v i 0)^* * pcorr rho A m i j * v j 0)); last first.
    by move=> j _; rewrite mxE big_distrl /=; apply: eq_bigr => i _; rewrite !mxE.
  rewrite exchange_big /=; apply: eq_bigr => i _.
  rewrite mulmx_sumr mulmx_sumr raddf_sum /=; apply: eq_bigr => j _.
  rewrite adjmZ conjCK -!scalemxAl -!scalemxAr !mxtraceZ mxE mulmxA.
  by rewrite -mulrA [_ * v j 0]mulrC.
exact: psd_trace_ge0 (psd_congr _ p).
Qed.

Lemma hcorr_pcorr N (rho : 'M[C]_N) A m : hcorr rho A m = pcorr rho (fun i => adjm (A i)) m.
Proof. by apply/matrixP => i j; rewrite !mxE adjmK. Qed.

Lemma conj_psd m (M : 'M[C]_m) : psd M -> psd M^T.
Proof.
move=> [h p]; split; first by apply/matrixP => i j; rewrite !mxE -[in RHS]h !mxE.
move=> v; have := p (map_mx conjC v); rewrite /quad (_ : adjm (map_mx _ v) = v^T); last first.
  by apply/matrixP => i j; rewrite !mxE conjCK.
move=> p'; rewrite -[X in 0 <= X](_ : (v^T *m M *m map_mx conjC v) 0 0 = _) //.
have -> : v^T *m M *m map_mx conjC v = (adjm v *m M^T *m v)^T by rewrite !trmx_mul !trmxK mulmxA.
by rewrite mxE.
Qed.

Theorem C49_sum_rule N n (rho : 'M[C]_N) (A : nat -> 'M[C]_N) (c c' : int) : car n A -> 0 <= c -> c' < 0 ->
  exists P : 'M[C]_(2 * n), exists eta : 'M[C]_(2 * n),
  [/\ compute_2corr_matrix (ofM rho) n (Some (ops A (2 * n))) (Some c) = Ok (ofM P),
      compute_2corr_matrix (ofM rho) n (Some (ops A (2 * n))) (Some c') = Ok (ofM eta),
      P + eta^T = \tr rho *: 1%:M, psd rho -> psd P & psd rho -> psd (\tr rho *: 1%:M - P)].
Proof.
move=> cA c0 c1; exists (pcorr rho A (2 * n)), (hcorr rho A (2 * n)).
have S : pcorr rho A (2 * n) + (hcorr rho A (2 * n))^T = \tr rho *: 1%:M.
  apply/matrixP => i j; rewrite !mxE -raddfD /= -!mulmxA -mulmxDr (car_adj cA) //.
  by rewrite mul_mx_scalar mxtraceZ mulrC.
split=> //.
- by rewrite corr_ops // ltNge c0.
- by rewrite corr_ops // c1.
- exact: pcorr_psd.
by move=> p; rewrite -S addrC addKr hcorr_pcorr; exact: conj_psd (pcorr_psd _ _ p).
Qed.

(* correlation_matrix uses the Jordan-Wigner operators of round(log2 N) sites *)
Theorem C49_correlation_matrix n (rho : 'M[C]_(2 ^ n)) :
  correlation_matrix (ofM rho) = Ok (ofM (corr rho (alphaM C n) (2 * n))).
Proof.
rewrite /correlation_matrix /= (_ : round_log2 _ = n) ?alphas_ops ?corr_ops //.
by rewrite /round_log2 trunc_expnK // -expnM ifT // ltn_exp2l //; lia.
Qed.

(* vacuum of one site: only <a a^+> is 1 *)
Example C49_example : correlation_matrix (arr2 1 0 0 0) = Ok (arr2 0 0 1 0 : arr).
Proof.
have e : jw_site C 1 0 = arr2 0 1 0 0.
  by rewrite /jw_site /= smE; apply: arr2P => //; rewrite getE //= !getE //= mul1r.
rewrite /correlation_matrix (_ : round_log2 _ = 1%N) //.
rewrite /compute_2corr_matrix /jordan_wigner_alphas /jordan_wigner_lowering /= e arr2_adj !rmorph0 rmorph1.
rewrite (@fill_rows _ _ _ (fun i j => if (i == 1%N) && (j == 0%N) then 1 else 0)); last first.
  move=> [|[|]] // [|[|]] // _ _; rewrite /trace3 /amul_chk /= !arr2_mul !arr2_trace;
  by rewrite !(mulr0, mul0r, mulr1, addr0, add0r).
by congr Ok; apply: arr2P => //; rewrite getE.
Qed.

(* ================================================================== *)
(* C50  compute_algebra_S                                              *)
(* ================================================================== *)
Lemma fill_cond m (F : arr -> nat -> nat -> res arr) (c : nat -> nat -> bool) (g : nat -> nat -> C) :
  (forall S i j, (i < m)%N -> (j < m)%N -> F S i j = Ok (if c i j then S else upd S i j (g i j))) ->
  foldM (fun S i => foldM (fun S j => F S i j) S (iota 0 m)) (azeros m m) (iota 0 m)
  = Ok (mk m m (fun i j => if c i j then 0 else g i j)).
Proof.
move=> H; set h := fun i j => if c i j then 0 else g i j.
pose st i0 : arr := mk m m (fun i j => if (i < i0)%N then h i j else 0).
have row i0 : (i0 < m)%N -> foldM (fun S j => F S i0 j) (st i0) (iota 0 m) = Ok (st i0.+1).
  move=> hi.
  pose st2 j0 : arr := mk m m (fun i j => if (i < i0)%N || ((i == i0) && (j < j0)%N) then h i j else 0).
  suff K j0 : (j0 <= m)%N -> foldM (fun S j => F S i0 j) (st i0) (iota 0 j0) = Ok (st2 j0).
    rewrite K //; congr Ok; apply: eq_mk => i j _ hj; by rewrite hj andbT ltnS (leq_eqVlt i i0) orbC.
  elim: j0 => [|j0 IH] hj; first by congr Ok; apply: eq_mk => i j _ _; rewrite ltn0 andbF orbF.
  rewrite -addn1 iotaD foldM_cat IH; last exact: ltnW.
  rewrite /= add0n H //=; congr Ok; case: ifP => hc.
    apply: eq_mk => i j hi' hj'; rewrite addn1 ltnS (leq_eqVlt j j0).
    case: (i =P i0) => [->|] //=; case: (j =P j0) => [->|] //=.
    by rewrite !ltnn /= /h hc.
  apply: eq_mk => i j hi' hj'.
  case: (i =P i0) => [->|] /=; last by rewrite !getE //= => /eqP/negbTE ->.
  rewrite ltnn /= addn1 ltnS leq_eqVlt; case: eqP => [->|_] //=; first by rewrite /h hc.
  by rewrite getE //= ltnn eqxx.
suff K i0 : (i0 <= m)%N ->
   foldM (fun S i => foldM (fun S j => F S i j) S (iota 0 m)) (azeros m m) (iota 0 i0) = Ok (st i0).
  by rewrite K //; congr Ok; apply: eq_mk => i j -> _.
elim: i0 => [|i0 IH] hi; first by congr Ok; apply: eq_mk => i j _ _; rewrite ltn0.
rewrite -addn1 iotaD foldM_cat IH /=; last exact: ltnW.
by rewrite add0n row // addn1.
Qed.

(* a family with scalar anticommutators s_ij: the scalars are returned, those of modulus <= 1e-8 as 0 *)
Theorem C50_scalar N n (A : nat -> 'M[C]_N) (s : nat -> nat -> C) : (0 < N)%N -> (0 < n)%N ->
  (forall i j, (i < 2 * n)%N -> (j < 2 * n)%N -> A i *m A j + A j *m A i = (s i j)%:M) ->
  compute_algebra_S (ops A (2 * n)) =
  Ok (ofM (\matrix_(i < 2 * n, j < 2 * n) (if `|s i j| <= (10%:R ^+ 8)^-1 then 0 else s i j))).
Proof.
move=> N0 n0 H; rewrite /compute_algebra_S size_ops mulKn // item_ops /=; last lia.
pose i0 := Ordinal N0.
rewrite (@fill_cond _ _ (fun i j => `|s i j| <= atol) s) // => S i j hi hj.
rewrite !item_ops //= !ofM_mul_chk /= ofM_iadd /= H //.
have -> : allclose (ofM ((s i j)%:M : 'M[C]_N)) (azeros N N) = (`|s i j| <= atol).
  rewrite ofM_zeros; apply/allclose_ofM/idP => [/(_ i0 i0)|h a b].
    by rewrite /np_close !mxE eqxx subr0 normr0 mulr0 addr0.
  rewrite /np_close !mxE subr0 normr0 mulr0 addr0; case: eqP => _ //=.
  by rewrite mulr0n normr0 ltW // atol_gt0.
case: ifP => // _; congr (Ok (upd _ _ _ _)).
by rewrite -[0%N]/(val i0) ofM_get mxE eqxx.
Qed.

Lemma nat_big (b : bool) : (if `|b%:R : C| <= (10%:R ^+ 8)^-1 then 0 else b%:R) = b%:R :> C.
Proof.
case: b; last by rewrite if_same.
rewrite normr1 ifF //; apply: negbTE; rewrite -real_ltNge ?real1 ?realV ?rpredX ?realn //.
by rewrite invf_lt1 ?exprn_gt0 ?ltr0n // exprn_egt1 // ltr1n.
Qed.

Theorem C50_jw n : (0 < n)%N -> compute_algebra_S (jordan_wigner_alphas C n) = Ok (ofM (swapM C n)).
Proof.
move=> n0; rewrite alphas_ops (@C50_scalar _ _ _ (fun i j => (j == sw n i)%:R)) //; last 1 first.
- by case: (alphas_car C n).
- by congr (Ok (ofM _)); apply/matrixP => i j; rewrite -SM_swap SME mxE nat_big.
by rewrite expn_gt0.
Qed.

Theorem C50_majoranas n : (0 < n)%N -> compute_algebra_S (jordan_wigner_majoranas C n) = Ok (ofM (1%:M : 'M[C]_(2 * n))).
Proof.
move=> n0; rewrite majoranas_ops (@C50_scalar _ _ _ (fun i j => (i == j)%:R)) ?expn_gt0 //; last first.
  by move=> i j hi hj; rewrite gam_anti.
by congr (Ok (ofM _)); apply/matrixP => i j; rewrite !mxE nat_big.
Qed.

Example C50_example : exists2 S : 'M[C]_(2 * 2), compute_algebra_S (jordan_wigner_alphas C 2) = Ok (ofM S) &
  get (ofM S) 0 2 = 1 /\ get (ofM S) 0 1 = 0.
Proof.
exists (swapM C 2); first exact: C50_jw.
have g (i j : 'I_(2 * 2)) : get (ofM (swapM C 2)) i j = swapM C 2 i j := ofM_get _ _ _.
by split; [have := g ord0 (inord 2)|have := g ord0 (inord 1)]; rewrite inordK // => ->; rewrite mxE /= inordK.
Qed.

Theorem C50_empty : compute_algebra_S ([::] : seq arr) = Raise IndexError.
Proof. by []. Qed.

(* ================================================================== *)
(* C51  is_matchgate                                                   *)
(* ================================================================== *)
Definition inner_det (M : 'M[C]_4) := M (inord 1) (inord 1) * M (inord 2) (inord 2) - M (inord 1) (inord 2) * M (inord 2) (inord 1).
Definition corner_det (M : 'M[C]_4) := M (inord 0) (inord 0) * M (inord 3) (inord 3) - M (inord 0) (inord 3) * M (inord 3) (inord 0).

Lemma get_inord (M : 'M[C]_4) i j : (i < 4)%N -> (j < 4)%N -> get (ofM M) i j = M (inord i) (inord j).
Proof. by move=> hi hj; rewrite -[in LHS](inordK hi) -[in LHS](inordK hj) ofM_get. Qed.

Theorem C51_decides (M : 'M[C]_4) : is_matchgate (ofM M) <-> np_close (inner_det M) (corner_det M).
Proof.
rewrite /is_matchgate /=.
have D (f : nat -> nat -> C) : \det (toM 2 2 (mk 2 2 f)) = f 0%N 0%N * f 1%N 1%N - f 0%N 1%N * f 1%N 0%N.
  rewrite (expand_det_row _ ord0) 2!big_ord_recl big_ord0 addr0 /cofactor !det_mx11 !mxE !getE //=.
  by rewrite expr0 expr1 mul1r mulN1r mulrN.
by rewrite !D /= !get_inord.
Qed.

(* gates that preserve parity: only the corner and the inner block are non-zero *)
Definition parity_block (M : 'M[C]_4) := forall i j : 'I_4,
  (i \in [:: inord 0; inord 3 : 'I_4]) != (j \in [:: inord 0; inord 3 : 'I_4]) -> M i j = 0.
(* exact matchgates *)
Definition matchgate (M : 'M[C]_4) := parity_block M /\ inner_det M = corner_det M.

Lemma sum4 (F : 'I_4 -> C) : \sum_i F i = F (inord 0) + F (inord 1) + F (inord 2) + F (inord 3).
Proof.
rewrite 4!big_ord_recl big_ord0 addr0 !addrA; congr (F _ + F _ + F _ + F _); apply: val_inj; by rewrite /= inordK.
Qed.

Theorem C51_product (M M' : 'M[C]_4) : matchgate M -> matchgate M' ->
  matchgate (M *m M') /\ is_matchgate (ofM (M *m M')).
Proof.
suff K : matchgate M -> matchgate M' -> matchgate (M *m M').
  move=> h h'; have [hp e] := K h h'; split=> //; apply/C51_decides; rewrite e; exact/closeE/close_refl.
have z N (p : parity_block N) : [/\ N (inord 0) (inord 1) = 0, N (inord 0) (inord 2) = 0, N (inord 3) (inord 1) = 0 &
    N (inord 3) (inord 2) = 0] /\ [/\ N (inord 1) (inord 0) = 0, N (inord 2) (inord 0) = 0, N (inord 1) (inord 3) = 0 &
    N (inord 2) (inord 3) = 0].
  by split; split; apply: p; rewrite !inE -!(inj_eq val_inj) /= !inordK.
move=> [p e] [p' e']; split.
  move=> i j hij; rewrite mxE big1 // => k _.
  case: (boolP ((i \in [:: inord 0; inord 3 : 'I_4]) == (k \in [:: inord 0; inord 3 : 'I_4]))) => [/eqP h|h].
    by rewrite (p' k j) ?mulr0 // -h.
  by rewrite (p i k) ?mul0r.
have [[a1 a2 a3 a4] [a5 a6 a7 a8]] := z M p; have [[b1 b2 b3 b4] [b5 b6 b7 b8]] := z M' p'.
have -> : inner_det (M *m M') = inner_det M * inner_det M'.
  rewrite /inner_det !mxE !sum4 a5 a6 a7 a8 !mul0r !add0r !addr0.
  set x1 := M _ _; set x2 := M _ _; set x3 := M _ _; set x4 := M _ _; set y1 := M' _ _; set y2 := M' _ _; set y3 := M' _ _; set y4 := M' _ _.
  xring C.
have -> : corner_det (M *m M') = corner_det M * corner_det M'.
  rewrite /corner_det !mxE !sum4 a1 a2 a3 a4 !mul0r !addr0.
  set x1 := M _ _; set x2 := M _ _; set x3 := M _ _; set x4 := M _ _; set y1 := M' _ _; set y2 := M' _ _; set y3 := M' _ _; set y4 := M' _ _.
  xring C.
by rewrite e e'.
Qed.

Theorem C51_shape r c (M : 'M[C]_(r, c)) : (r != 4%N) || (c != 4%N) -> is_matchgate (ofM M) = false.
Proof. by move=> h; rewrite /is_matchgate /shp /= negb_and h. Qed.

(* the identity is a matchgate, SWAP = diag(1, X, 1) is not *)
Example C51_example : is_matchgate (aeye 4 : arr) /\
  is_matchgate (mk 4 4 (fun i j => (j == nth 0%N [:: 0; 2; 1; 3]%N i)%:R) : arr) = false.
Proof.
split; first by rewrite ofM_eye; apply/C51_decides; rewrite /inner_det /corner_det !mxE -!(inj_eq val_inj) /= !inordK // ; apply/closeE/close_refl.
apply/negP; rewrite ofM_mk => /C51_decides; rewrite /np_close /inner_det /corner_det !mxE !inordK //=.
rewrite !mul0r !mulr1 !subr0 sub0r -opprD normrN normr1 mulr1 -[1 + 1]/(2%:R) normr_nat.
have l a : (0 < a)%N -> (10%:R ^+ a)^-1 < 1 :> C.
  by move=> h; rewrite invf_lt1 ?exprn_gt0 ?ltr0n // exprn_egt1 ?ltr1n // -lt0n.
move/le_lt_trans => /(_ (1 + 1)); rewrite ltr_add ?l // => /(_ isT).
by rewrite -[1 + 1]/(2%:R) ltxx.
Qed.

End Props.
