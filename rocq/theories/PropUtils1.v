(* PropUtils1.v -- kron_plus (C20), partial traces (C21, C22), random bit strings (C24) *)
Set Warnings "-notation-overridden,-ambiguous-paths".
From mathcomp Require Import all_ssreflect all_algebra.
From mathcomp.zify Require Import zify.
From Verif Require Import Base ArrC MUtils Spectral.
Set Implicit Arguments.
Unset Strict Implicit.
Unset Printing Implicit Defensive.
Import Order.Theory GRing.Theory Num.Theory.
Local Open Scope ring_scope.

Section PropUtils1.
Variable C : numClosedFieldType.
Local Notation arr := (arr C).

Lemma get_ofM m n (M : 'M[C]_(m, n)) (i : 'I_m) (j : 'I_n) : get (ofM M) i j = M i j.
Proof. by rewrite /get !valK. Qed.

(* ---------- C20 ---------- *)

(* for square a, b : the direct sum [[a, 0], [0, b]] *)
Theorem C20_direct_sum m n (a : 'M[C]_m) (b : 'M[C]_n) :
  kron_plus (ofM a) (ofM b) = Ok (ofM (block_mx a 0 0 b)).
Proof.
rewrite /kron_plus /np_block /= !eqxx /=; congr Ok; apply: arrP => // i j /= hi hj.
rewrite getE // -[i]/(val (Ordinal hi)) -[j]/(val (Ordinal hj)) get_ofM /=.
rewrite -(splitK (Ordinal hi)) -(splitK (Ordinal hj)).
case: splitP => /= i' ei; case: splitP => /= j' ej; rewrite ?block_mxEul ?block_mxEur ?block_mxEdl ?block_mxEdr.
- by rewrite ei ej !ltn_ord get_ofM.
- by rewrite ei ltn_ord ej ltnNge leq_addr /= addKn !mxE get_mk ltn_ord ltn_ord.
- by rewrite ei ltnNge leq_addr /= addKn ej ltn_ord !mxE !get_mk !ltn_ord.
- by rewrite ei ej !ltnNge !leq_addr /= !addKn get_ofM.
Qed.

(* it succeeds exactly on pairs of square matrices: the documented direct sum of rectangular matrices fails *)
Theorem C20_only_square (a b : arr) :
  if (nr a == nc a) && (nr b == nc b) then exists r, kron_plus a b = Ok r
  else kron_plus a b = Raise ValueError.
Proof.
rewrite /kron_plus /np_block /= eqxx /= eqn_add2r [nc b == nr b]eq_sym [nc a == nr a]eq_sym.
by case: (nr a == nc a); case: (nr b == nc b) => //=; eexists.
Qed.

Theorem C20_rectangular_refuted : exists a b : arr, kron_plus a b = Raise ValueError.
Proof. by exists (azeros 1 2), (azeros 1 1); have := C20_only_square (azeros 1 2) (azeros 1 1). Qed.

Theorem C20_multiplicative m n (a a' : 'M[C]_m) (b b' : 'M[C]_n) :
  exists r r' : 'M[C]_(m + n),
  [/\ kron_plus (ofM a) (ofM b) = Ok (ofM r), kron_plus (ofM a') (ofM b') = Ok (ofM r'),
      kron_plus (ofM (a *m a')) (ofM (b *m b')) = Ok (ofM (r *m r')),
      \det r = \det a * \det b & \tr r = \tr a + \tr b].
Proof.
exists (block_mx a 0 0 b), (block_mx a' 0 0 b'); rewrite !C20_direct_sum; split => //.
- by rewrite mulmx_block !mul0mx !mulmx0 !addr0 !add0r.
- by rewrite det_ublock.
- by rewrite mxtrace_block.
Qed.

Example C20_example : exists2 r : arr, kron_plus (aeye 1) (mk 1 1 (fun _ _ => 2%:R)) = Ok r &
  [/\ nr r = 2%N, nc r = 2%N, get r 0 0 = 1, get r 0 1 = 0 & get r 1 1 = 2%:R].
Proof.
eexists; first by rewrite /kron_plus /np_block /=; reflexivity.
by split=> //; rewrite get_mk /= ?get_mk.
Qed.

(* ---------- C21 : partial traces ---------- *)

(* index of |i>|k> in the product basis *)
Definition prI d e (i : 'I_d) (k : 'I_e) : 'I_(d * e) :=
  Ordinal (ltac:(have := ltn_ord i; have := ltn_ord k; nia) : (i * e + k < d * e)%N).
(* specification: partial trace over the second / the first factor *)
Definition ptr2 d e (M : 'M[C]_(d * e)) : 'M[C]_d := \matrix_(i, j) \sum_(k < e) M (prI i k) (prI j k).
Definition ptr1 d e (M : 'M[C]_(e * d)) : 'M[C]_d := \matrix_(i, j) \sum_(k < e) M (prI k i) (prI k j).
(* product A (x) B, in the ordering of np.kron *)
Definition tens d e (A : 'M[C]_d) (B : 'M[C]_e) : 'M[C]_(d * e) :=
  toM (d * e) (d * e) (akron (ofM A) (ofM B)).

Lemma tensE d e (A : 'M[C]_d) (B : 'M[C]_e) i j k l : tens A B (prI i k) (prI j l) = A i j * B k l.
Proof.
rewrite /tens mxE getE /=; try by have := ltn_ord (prI i k); have := ltn_ord (prI j l).
have hk := ltn_ord k; have hl := ltn_ord l; have e0 : (0 < e)%N by lia.
by rewrite !divnMDl // !modnMDl !divn_small // !modn_small // !addn0 !get_ofM.
Qed.

Lemma ptr2_tens d e (A : 'M[C]_d) (B : 'M[C]_e) : ptr2 (tens A B) = \tr B *: A.
Proof.
apply/matrixP => i j; rewrite !mxE mulrC /mxtrace big_distrr /=.
by apply: eq_bigr => k _; rewrite tensE.
Qed.
Lemma ptr1_tens d e (A : 'M[C]_d) (B : 'M[C]_e) : ptr1 (tens A B) = \tr A *: B.
Proof.
by apply/matrixP => i j; rewrite !mxE /mxtrace big_distrl /=; apply: eq_bigr => k _; rewrite tensE.
Qed.

Lemma ptr2_linear d e c (M N : 'M[C]_(d * e)) : ptr2 (c *: M + N) = c *: ptr2 M + ptr2 N.
Proof.
apply/matrixP => i j; rewrite !mxE big_distrr -big_split /=; by apply: eq_bigr => k _; rewrite !mxE.
Qed.
Lemma ptr1_linear d e c (M N : 'M[C]_(e * d)) : ptr1 (c *: M + N) = c *: ptr1 M + ptr1 N.
Proof.
apply/matrixP => i j; rewrite !mxE big_distrr -big_split /=; by apply: eq_bigr => k _; rewrite !mxE.
Qed.

Lemma sum_prI d e (F : 'I_(d * e) -> C) : \sum_i F i = \sum_a \sum_b F (prI a b).
Proof.
pose G k := oapp F 0 (insub k); pose H (a b : nat) := G (a * e + b)%N.
transitivity (\sum_(k < d * e) H (k %/ e)%N (k %% e)%N).
  by apply: eq_bigr => k _; rewrite /H -divn_eq /G valK.
rewrite sum_divmod; apply: eq_bigr => a _; apply: eq_bigr => b _.
by rewrite /H /G -[(a * e + b)%N]/(val (prI a b)) valK.
Qed.

Lemma ptr2_trace d e (M : 'M[C]_(d * e)) : \tr (ptr2 M) = \tr M.
Proof. by rewrite /mxtrace sum_prI; apply: eq_bigr => i _; rewrite mxE. Qed.
Lemma ptr1_trace d e (M : 'M[C]_(e * d)) : \tr (ptr1 M) = \tr M.
Proof.
rewrite /mxtrace sum_prI exchange_big; apply: eq_bigr => i _; rewrite mxE; exact: eq_bigr.
Qed.

(* partial_trace_diagblocksum(AB, d) is the partial trace over the first factor *)
Theorem C21_diagblocksum d e (M : 'M[C]_(e * d)) : (0 < d)%N ->
  partial_trace_diagblocksum (ofM M) d = Ok (ofM (ptr1 M)).
Proof.
move=> d0; rewrite /partial_trace_diagblocksum /div_check /=.
rewrite -[d == 0%N]negbK -lt0n d0 /= dvdn_mull //= mulnK //.
pose S j := aslice (ofM M) (j * d) (j * d) d d.
rewrite (foldM_ok (g := fun A j => aadd A (S j))); last first.
  move=> A j /In_mem; rewrite mem_iota add0n => /andP[_ hj].
  have hh : (d <= e * d - j * d)%N by rewrite -mulnBl leq_pmull // subn_gt0.
  rewrite /slice_clip /= (minn_idPl hh) bcast_id //=.
congr Ok.
have gen k : (k <= e)%N -> foldl (fun A j => aadd A (S j)) (azeros d d) (iota 0 k) =
    mk d d (fun i j => \sum_(a < k) get (ofM M) (a * d + i) (a * d + j)).
  elim: k => [|k IH] hk; first by apply: eq_mk => i j _ _; rewrite big_ord0.
  rewrite -addn1 iotaD foldl_cat /= IH 1?ltnW // add0n addn1; apply: eq_mk => i j hi hj.
  by rewrite big_ord_recr /= getE // getE.
rewrite gen //; apply: arrP => // i j /= hi hj; rewrite getE //.
rewrite -[i in RHS]/(val (Ordinal hi)) -[j in RHS]/(val (Ordinal hj)) get_ofM mxE.
by apply: eq_bigr => k _; rewrite -get_ofM.
Qed.

(* partial_trace_blockTr(AB, d) is the partial trace over the second factor, followed by the "cast to real" *)
Lemma blockTr_ptr2 d e (M : 'M[C]_(d * e)) : (0 < d)%N ->
  partial_trace_blockTr (ofM M) d = Ok (cast_real (ofM (ptr2 M))).
Proof.
move=> d0; rewrite /partial_trace_blockTr /div_check /=.
rewrite -[d == 0%N]negbK -lt0n d0 /= dvdn_mulr //= mulKn //; congr (Ok (cast_real _)).
apply: arrP => // i j /= hi hj; rewrite getE //.
rewrite -[i in RHS]/(val (Ordinal hi)) -[j in RHS]/(val (Ordinal hj)) get_ofM mxE /atrace /slice_clip /=.
have hh k : (k < d)%N -> (e <= d * e - k * e)%N by move=> hk; rewrite -mulnBl leq_pmull // subn_gt0.
rewrite (minn_idPl (hh _ hi)) (minn_idPl (hh _ hj)); apply: eq_bigr => k _; rewrite getE //.
by rewrite -get_ofM.
Qed.

(* the result of the cast: unchanged, or real with every dropped imaginary part at most 1e-8 *)
Lemma cast_realP m n (M : 'M[C]_(m, n)) :
  cast_real (ofM M) = ofM (map_mx (fun x => 'Re x) M) /\ (forall i j, `|'Im (M i j)| <= atol) \/
  cast_real (ofM M) = ofM M /\ (exists i j, ~ `|'Im (M i j)| <= atol).
Proof.
rewrite /cast_real; case: ifP => [/allcloseP h|/negbT h].
  left; split; first by apply: arrP => // i j /= hi hj; rewrite getE // -[i]/(val (Ordinal hi)) -[j]/(val (Ordinal hj)) !get_ofM mxE.
  move=> i j; have := h i j (ltn_ord i) (ltn_ord j).
  by rewrite /close !getE ?ltn_ord //= subr0 normr0 mulr0 addr0 get_ofM.
right; split=> //; move: h; rewrite /allclose /=.
case/allPn => i; rewrite mem_iota add0n /= => hi /allPn[j]; rewrite mem_iota add0n /= => hj.
rewrite /close !getE ?hi ?hj //= subr0 normr0 mulr0 addr0 => /negP h.
by exists (Ordinal hi), (Ordinal hj); rewrite -get_ofM.
Qed.

Lemma norm_Re_sub (x : C) : `|'Re x - x| = `|'Im x|.
Proof. by rewrite {2}[x]Crect opprD addrA subrr sub0r normrN normrM normCi mul1r. Qed.

Theorem C21_blockTr d e (M : 'M[C]_(d * e)) : (0 < d)%N -> exists2 R : 'M[C]_d,
  partial_trace_blockTr (ofM M) d = Ok (ofM R) &
  [/\ forall i j, `|R i j - ptr2 M i j| <= atol,
      (forall i j, ptr2 M i j \is Num.real) -> R = ptr2 M,
      (exists i j, atol < `|'Im (ptr2 M i j)|) -> R = ptr2 M &
      R = ptr2 M \/ forall i j, R i j = 'Re (ptr2 M i j)].
Proof.
move=> d0; rewrite blockTr_ptr2 //; set P := ptr2 M.
have a0 : 0 <= atol :> C by exact: ltW (atol_gt0 C).
case: (cast_realP P) => -[-> h].
  exists (map_mx (fun x => 'Re x) P) => //; split.
  - by move=> i j; rewrite mxE norm_Re_sub.
  - by move=> r; apply/matrixP => i j; rewrite mxE; apply/Creal_ReP.
  - by case=> i [j] /lt_le_trans /(_ (h i j)); rewrite ltxx.
  - by right=> i j; rewrite mxE.
by exists P => //; split=> //; [move=> i j; rewrite subrr normr0|left].
Qed.

(* partial traces undo the Kronecker product *)
Theorem C21_kron d e (A : 'M[C]_d) (B : 'M[C]_e) : (0 < d)%N -> (0 < e)%N ->
  partial_trace_diagblocksum (akron (ofM A) (ofM B)) e = Ok (ofM (\tr A *: B)) /\
  exists2 R : 'M[C]_d, partial_trace_blockTr (akron (ofM A) (ofM B)) d = Ok (ofM R) &
    (forall i j, `|R i j - \tr B * A i j| <= atol) /\
    ((forall i j, \tr B * A i j \is Num.real) -> R = \tr B *: A).
Proof.
move=> d0 e0; have -> : akron (ofM A) (ofM B) = ofM (tens A B) by rewrite /tens ofM_toM.
rewrite C21_diagblocksum // ptr1_tens; split=> //.
have [R -> [h1 h2 _ _]] := C21_blockTr (tens A B) d0; rewrite ptr2_tens in h1 h2.
exists R => //; split=> [i j|h]; first by have := h1 i j; rewrite !mxE.
by apply: h2 => i j; rewrite mxE.
Qed.

(* linear and trace preserving *)
Theorem C21_linear_trace d e c (M N : 'M[C]_(e * d)) : (0 < d)%N ->
  exists rM rN r : 'M[C]_d,
  [/\ partial_trace_diagblocksum (ofM M) d = Ok (ofM rM), partial_trace_diagblocksum (ofM N) d = Ok (ofM rN),
      partial_trace_diagblocksum (ofM (c *: M + N)) d = Ok (ofM r), r = c *: rM + rN & \tr rM = \tr M].
Proof.
move=> d0; exists (ptr1 M), (ptr1 N), (ptr1 (c *: M + N)); rewrite !C21_diagblocksum //.
by split=> //; [exact: ptr1_linear|exact: ptr1_trace].
Qed.

Theorem C21_blockTr_trace d e (M : 'M[C]_(d * e)) : (0 < d)%N -> exists2 R : 'M[C]_d,
  partial_trace_blockTr (ofM M) d = Ok (ofM R) & \tr R = \tr M \/ \tr R = 'Re (\tr M).
Proof.
move=> d0; have [R -> [_ _ _ h]] := C21_blockTr M d0; exists R => //.
case: h => [->|h]; [left; exact: ptr2_trace|right].
by rewrite -ptr2_trace /mxtrace raddf_sum; apply: eq_bigr => i _; rewrite h.
Qed.

Theorem C21_errors (A : arr) d :
  (d = 0%N -> partial_trace_diagblocksum A d = Raise ZeroDivisionError /\
              partial_trace_blockTr A d = Raise ZeroDivisionError) /\
  ((0 < d)%N -> ~~ (d %| nr A)%N -> partial_trace_diagblocksum A d = Raise AssertionError /\
              partial_trace_blockTr A d = Raise AssertionError).
Proof.
rewrite /partial_trace_diagblocksum /partial_trace_blockTr /div_check; split=> [->//|].
by rewrite lt0n => /negPf -> /negPf ->.
Qed.

(* the exact identity and exact linearity fail for blockTr: small imaginary parts are dropped *)
Theorem C21_blockTr_refuted : exists A : 'M[C]_(1 * 1), exists R : 'M[C]_1,
  [/\ A != 0, partial_trace_blockTr (ofM A) 1 = Ok (ofM (0 : 'M[C]_1)),
      partial_trace_blockTr (ofM (A + A)) 1 = Ok (ofM R) & R != 0].
Proof.
pose x : C := 'i * atol; have a0 := atol_gt0 C.
have ar : atol \is @Num.real C by rewrite ger0_real // ltW.
have rr (y : C) : y \is Num.real -> 'Re ('i * y) = 0 /\ 'Im ('i * y) = y.
  by move=> ry; rewrite -[X in 'Re X]add0r -[X in 'Im X]add0r Re_rect ?Im_rect ?real0.
have nz (y : C) n : y != 0 -> (const_mx y : 'M[C]_n.+1) != 0 :> 'M[C]_n.+1.
  by move=> y0; apply/eqP => /matrixP/(_ 0 0); rewrite !mxE => /eqP; exact/negP.
have p y : ptr2 (const_mx y : 'M[C]_(1 * 1)) = const_mx y :> 'M_1.
  by apply/matrixP => i j; rewrite !mxE big_ord1 mxE.
have x0 : x != 0 by rewrite mulf_neq0 ?neq0Ci ?gt_eqF.
have xx0 : x + x != 0 by rewrite -mulr2n -mulr_natl mulf_neq0 ?pnatr_eq0.
exists (const_mx x), (const_mx (x + x)); split; [exact: nz| | |exact: nz].
- rewrite blockTr_ptr2 // p; case: (cast_realP (const_mx x : 'M[C]_1)) => -[-> h].
    congr (Ok (ofM _)); apply/matrixP => i j; rewrite !mxE; exact: (rr _ ar).1.
  case: h => i [j] []; rewrite mxE (rr _ ar).2 ger0_norm // ltW //.
- have -> : const_mx x + const_mx x = const_mx (x + x) :> 'M[C]_(1 * 1).
    by apply/matrixP => i j; rewrite !mxE.
  rewrite blockTr_ptr2 // p; case: (cast_realP (const_mx (x + x) : 'M[C]_1)) => -[-> h] //.
  exfalso; have := h ord0 ord0; rewrite mxE -mulrDr (rr _ (rpredD ar ar)).2 ger0_norm; last by rewrite addr_ge0 // ltW.
  by rewrite -subr_ge0 opprD addrA subrr sub0r oppr_ge0 => /le_lt_trans/(_ a0); rewrite ltxx.
Qed.

Example C21_example : partial_trace_diagblocksum (akron (aeye 2) (mk 1 1 (fun _ _ => 3%:R : C))) 1 =
  Ok (mk 1 1 (fun _ _ => 6%:R)).
Proof.
have -> : aeye 2 = ofM (1%:M : 'M[C]_2) by rewrite -toM_eye ofM_toM.
have -> : mk 1 1 (fun _ _ => 3%:R : C) = ofM (3%:R%:M : 'M[C]_1).
  apply: arrP => // i j /= hi hj; rewrite getE // -[i]/(val (Ordinal hi)) -[j]/(val (Ordinal hj)) get_ofM.
  by rewrite !mxE !ord1.
have [-> _] := C21_kron (1%:M : 'M[C]_2) (3%:R%:M : 'M[C]_1) isT isT.
congr Ok; apply: arrP => // i j /= hi hj.
rewrite getE // -[i]/(val (Ordinal hi)) -[j]/(val (Ordinal hj)) get_ofM !mxE mxtrace1 !ord1 /=.
by rewrite -natrM.
Qed.

(* ---------- C22 ---------- *)

Lemma psd_sum n (I : Type) (r : seq I) (F : I -> 'M[C]_n) : (forall i, psd (F i)) -> psd (\sum_(i <- r) F i).
Proof.
move=> h; elim: r => [|x r IH]; last by rewrite big_cons; apply: psdD.
rewrite big_nil; split; first by rewrite /hermitian adjm0.
by move=> v; rewrite /quad mulmx0 mul0mx mxE.
Qed.

Lemma ptr2_psd d e (M : 'M[C]_(d * e)) : psd M -> psd (ptr2 M).
Proof.
move=> pM; pose E (k : 'I_e) : 'M[C]_(d * e, d) := \matrix_(a, i) (a == prI i k)%:R.
have -> : ptr2 M = \sum_k adjm (E k) *m M *m E k.
  apply/matrixP => i j; rewrite mxE summxE; apply: eq_bigr => k _.
  rewrite -mulmxA mxE (bigD1 (prI i k)) //= big1 => [|a /negPf ne]; last by rewrite !mxE ne conjC0 mul0r.
  rewrite !mxE eqxx conjC1 mul1r addr0 (bigD1 (prI j k)) //= big1 => [|a /negPf ne]; last by rewrite !mxE ne mulr0.
  by rewrite !mxE eqxx mulr1 addr0.
by apply: psd_sum => k; exact: psd_congr.
Qed.
Lemma ptr1_psd d e (M : 'M[C]_(e * d)) : psd M -> psd (ptr1 M).
Proof.
move=> pM; pose E (k : 'I_e) : 'M[C]_(e * d, d) := \matrix_(a, i) (a == prI k i)%:R.
have -> : ptr1 M = \sum_k adjm (E k) *m M *m E k.
  apply/matrixP => i j; rewrite mxE summxE; apply: eq_bigr => k _.
  rewrite -mulmxA mxE (bigD1 (prI k i)) //= big1 => [|a /negPf ne]; last by rewrite !mxE ne conjC0 mul0r.
  rewrite !mxE eqxx conjC1 mul1r addr0 (bigD1 (prI k j)) //= big1 => [|a /negPf ne]; last by rewrite !mxE ne mulr0.
  by rewrite !mxE eqxx mulr1 addr0.
by apply: psd_sum => k; exact: psd_congr.
Qed.

Lemma psd_tr m (M : 'M[C]_m) : psd M -> psd M^T.
Proof.
move=> [h p]; split; first by apply/matrixP => i j; rewrite !mxE -[in RHS]h !mxE.
move=> v; have := p (map_mx conjC v); rewrite /quad (_ : adjm (map_mx _ v) = v^T); last first.
  by apply/matrixP => i j; rewrite !mxE conjCK.
move=> p'; rewrite -[X in 0 <= X](_ : (v^T *m M *m map_mx conjC v) 0 0 = _) //.
have -> : v^T *m M *m map_mx conjC v = (adjm v *m M^T *m v)^T by rewrite !trmx_mul !trmxK mulmxA.
by rewrite mxE.
Qed.

Lemma psd_Re n (M R : 'M[C]_n) : psd M -> (forall i j, R i j = 'Re (M i j)) -> psd R.
Proof.
move=> pM h; have -> : R = 2%:R^-1 *: (M + M^T).
  apply/matrixP => i j; rewrite h !mxE ReE mulrC; congr (_ * (_ + _)).
  by have [hM _] := pM; rewrite -[in RHS]hM !mxE.
by apply: psdZ; [rewrite invr_ge0 ler0n|apply: psdD => //; exact: psd_tr].
Qed.

(* reduced matrices of a bipartite density matrix are density matrices *)
Theorem C22_states d e (M : 'M[C]_(d * e)) : (0 < d)%N -> (0 < e)%N -> density M ->
  exists RA : 'M[C]_d, exists RB : 'M[C]_e,
  [/\ partial_trace_blockTr (ofM M) d = Ok (ofM RA), partial_trace_diagblocksum (ofM M) e = Ok (ofM RB),
      density RA & density RB].
Proof.
move=> d0 e0 [pM tM].
have [R -> [_ _ _ h]] := C21_blockTr M d0; exists R, (ptr1 M); rewrite C21_diagblocksum //; split=> //.
  case: h => [->|h]; first by split; [exact: ptr2_psd|rewrite ptr2_trace].
  split; first exact: psd_Re (ptr2_psd pM) h.
  have -> : \tr R = 'Re (\tr M) by rewrite -ptr2_trace /mxtrace raddf_sum; apply: eq_bigr => i _; rewrite h.
  by rewrite tM; apply/Creal_ReP; rewrite real1.
by split; [exact: ptr1_psd|rewrite ptr1_trace].
Qed.

(* the two-qubit Bell state reduces to the maximally mixed qubit *)
Definition bell : 'M[C]_(2 * 2) := \matrix_(i, j)
  if (val i \in [:: 0%N; 3%N]) && (val j \in [:: 0%N; 3%N]) then 2%:R^-1 else 0.
Example C22_example : partial_trace_diagblocksum (ofM bell) 2 = Ok (ofM (2%:R^-1%:M : 'M[C]_2)).
Proof.
rewrite C21_diagblocksum //; congr (Ok (ofM _)); apply/matrixP => i j; rewrite !mxE !big_ord_recl big_ord0 !mxE /=.
by case: i => -[|[|//]] hi; case: j => -[|[|//]] hj; rewrite /= ?addr0 ?add0r.
Qed.

(* ---------- C24 ---------- *)

(* what np.random.choice(n, size=k, replace=False) returns *)
Definition valid_draw (n k : int) (draw : seq nat) :=
  [/\ uniq draw, (size draw)%:Z = k & all (fun i => i%:Z < n) draw].

Lemma nth_foldl_set (draw : seq nat) s i : nth 0%N (foldl (fun s i => set_nth 0%N s i 1%N) s draw) i =
  if i \in draw then 1%N else nth 0%N s i.
Proof.
elim: draw s => [|x d IH] s //=; rewrite IH in_cons nth_set_nth /=; case: ifP; rewrite ?orbT // orbF //.
Qed.
Lemma size_foldl_set (draw : seq nat) s n : size s = n -> all (fun i => i < n)%N draw ->
  size (foldl (fun s i => set_nth 0%N s i 1%N) s draw) = n.
Proof.
elim: draw s => [|x d IH] s //= hs /andP[hx hd]; apply: IH => //; rewrite size_set_nth hs; exact/maxn_idPr.
Qed.

Theorem C24_bitstring (n k : int) draw : valid_draw n k draw ->
  ((k < 0) || (n < k) = (generate_random_bitstring n k draw == None)) /\
  forall b, generate_random_bitstring n k draw = Some b ->
    [/\ (size b)%:Z = n, all (fun x => x \in [:: 0%N; 1%N]) b, (count_mem 1%N b)%:Z = k &
        forall i, nth 0%N b i = (i \in draw)].
Proof.
move=> [ud sd ld]; rewrite /generate_random_bitstring; case: ifP => // h; split=> // b [<-].
have [m em] : exists m : nat, n = m%:Z by exists `|n|%N; lia.
rewrite em /= in ld *.
have ld' : all (fun i => i < m)%N draw by [].
have sz : size (foldl (fun s i => set_nth 0%N s i 1%N) (nseq m 0%N) draw) = m.
  by apply: size_foldl_set => //; rewrite size_nseq.
have nt i : nth 0%N (foldl (fun s i => set_nth 0%N s i 1%N) (nseq m 0%N) draw) i = (i \in draw).
  by rewrite nth_foldl_set nth_nseq; case: ifP => // _; case: ifP.
split=> //.
- by rewrite sz.
- by apply/(all_nthP 0%N) => i hi; rewrite nt; case: (i \in draw).
- rewrite -sd; congr (_%:Z).
  have -> : foldl (fun s i => set_nth 0%N s i 1%N) (nseq m 0%N) draw = [seq (i \in draw : nat) | i <- iota 0 m].
    apply: (@eq_from_nth _ 0%N); rewrite ?size_map ?size_iota // sz => i hi.
    by rewrite nt (nth_map 0%N) ?size_iota // nth_iota.
  rewrite count_map -size_filter.
  have -> : size draw = size [seq i <- iota 0 m | i \in draw].
    apply/perm_size/uniq_perm => //; first by rewrite filter_uniq // iota_uniq.
    move=> i; rewrite mem_filter mem_iota add0n /=; case hi: (i \in draw) => //=.
    by rewrite (allP ld').
  by congr size; apply: eq_filter => i /=; case: (i \in draw).
Qed.

(* every bit string of weight k arises from some draw *)
Theorem C24_surjective (b : seq nat) : all (fun x => x \in [:: 0%N; 1%N]) b ->
  exists2 draw, valid_draw (size b)%:Z (count_mem 1%N b)%:Z draw &
  generate_random_bitstring (size b)%:Z (count_mem 1%N b)%:Z draw = Some b.
Proof.
move=> hb; pose d := [seq i <- iota 0 (size b) | nth 0%N b i == 1%N].
have vd : valid_draw (size b)%:Z (count_mem 1%N b)%:Z d.
  split; first by rewrite filter_uniq ?iota_uniq.
    congr (_%:Z); rewrite size_filter; rewrite -{3}[b](mkseq_nth 0%N) /mkseq count_map.
    by apply: eq_count.
  by apply/allP => i; rewrite mem_filter mem_iota => /and3P[].
exists d => //; have [h1 h2] := C24_bitstring vd.
case E: generate_random_bitstring h1 h2 => [b'|] h1 h2; last first.
  by exfalso; move: h1 (count_size (pred1 1%N) b); rewrite eqxx ltz_nat => /orP[] //; rewrite ltnNge => /negPf ->.
have [e1 _ _ e2] := h2 b' erefl; congr Some.
have e1' : size b' = size b by lia.
apply: (@eq_from_nth _ 0%N) => // i hi; rewrite e2 mem_filter mem_iota add0n -e1' hi andbT.
by have := allP hb (nth 0%N b i) (mem_nth _ _); rewrite -e1' => /(_ hi); rewrite !inE => /orP[]/eqP->.
Qed.

Example C24_example : generate_random_bitstring 4 2 [:: 3; 1]%N = Some [:: 0; 1; 0; 1]%N /\
  generate_random_bitstring 4 5 [::] = None.
Proof. by []. Qed.

End PropUtils1.
