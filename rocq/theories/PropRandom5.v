(* PropRandom5.v -- properties C60-C62: get_orthogonal_vectors, build_unitary_path, build_linear_path *)
Set Warnings "-notation-overridden,-ambiguous-paths".
From mathcomp Require Import all_ssreflect all_algebra.
From mathcomp.zify Require Import zify.
From Verif Require Import Base ArrC MCombinatorics MLib JW OpFam FermAlg LibFacts LibFacts2 LibFacts3 Expm ExpmAd.
From Verif Require Import PropLib1 PropLib2 PropLib3 PropLib4 Spectral MUtils PropUtils2 MRandom RndFacts PropRandom1 PropRandom2.
From Verif Require Import PropRandom4.
Set Implicit Arguments.
Unset Strict Implicit.
Unset Printing Implicit Defensive.
Import Order.Theory GRing.Theory Num.Theory.
Local Open Scope ring_scope.

Section Paths.
Variable C : numClosedFieldType.
Local Notation arr := (arr C).

(* what is assumed of np.linalg.qr on square matrices: A = Q R, Q unitary, R upper triangular *)
Definition qr_fact n (A Q R : 'M[C]_n) := [/\ unitary Q, A = Q *m R & forall i j : 'I_n, (j < i)%N -> R i j = 0].
Definition qr_spec (qr : arr -> arr) :=
  forall n (A : 'M[C]_n), exists Q R : 'M[C]_n, qr (ofM A) = ofM Q /\ qr_fact A Q R.

(* a factorisation always exists *)
Lemma qr_exists n (A : 'M[C]_n) : exists Q R : 'M[C]_n, qr_fact A Q R.
Proof.
elim: n A => [|n IH] A.
  by exists 1%:M, A; split; [exact: unitary1|rewrite mul1mx|case].
have [U uU [c hc]] : exists2 U : 'M[C]_n.+1, unitary U & exists c, adjm U *m col 0 A = c *: delta_mx 0 0.
  have [z|nz] := eqVneq (col 0 A) 0.
    by exists 1%:M; [exact: unitary1|exists 0; rewrite z mulmx0 scale0r].
  have f0 := fro_gt0 nz; pose c := fro (ofM (col 0 A)); pose u := c^-1 *: adjm (col 0 A).
  have ru : rn2 u = 1.
    have := unit_normalise nz; rewrite /unit_vector -/c adjmZ => /matrixP/(_ 0 0).
    rewrite -scalemxAl -scalemxAr scalerA mxE [X in _ = X -> _]mxE eqxx => e; rewrite rn2Z /rn2 adjmK -[RHS]e normCK.
    by rewrite [_ * c^-1]mulrC.
  have [U uU eu] := unit_completion ru; exists (adjm U); first exact: unitary_adj.
  exists c; rewrite adjmK; have := congr1 (@adjm C _ _) eu.
  rewrite /u adjmM adjmZ adjmK (CrealP _) ?ger0_real ?invr_ge0 ?ltW // => e.
  have -> : col 0 A = c *: (adjm U *m adjm (delta_mx 0 0)) by rewrite e scalerA divff ?scale1r // gt_eqF.
  rewrite -scalemxAr mulmxA uU mul1mx; congr (_ *: _).
  by apply/matrixP => i j; rewrite !mxE andbC conjC_nat.
pose B : 'M[C]_(1 + n) := adjm U *m A.
have B0 : dlsubmx B = 0.
  apply/matrixP => i j; rewrite !mxE ord1; have := congr1 (fun M : 'cV_n.+1 => M (rshift 1 i) 0) hc.
  rewrite !mxE => e; rewrite (_ : (rshift 1 i == 0 :> 'I_n.+1) = false) // mulr0 in e; rewrite -[RHS]e.
  by apply: eq_bigr => k _; rewrite !mxE; congr (_ * A _ _); apply: val_inj.
have [Q [R [uQ eB tR]]] := IH (drsubmx B).
exists (U *m (block_mx 1%:M 0 0 Q : 'M[C]_(1 + n))), (block_mx (ulsubmx B) (ursubmx B) 0 R : 'M[C]_(1 + n)); split.
- by apply: unitaryM => //; exact: unitary_block.
- have -> : U *m (block_mx 1%:M 0 0 Q : 'M[C]_(1 + n)) *m (block_mx (ulsubmx B) (ursubmx B) 0 R : 'M[C]_(1 + n)) = U *m B.
    have blk : block_mx 1%:M 0 0 Q *m block_mx (ulsubmx B) (ursubmx B) 0 R = B.
      by rewrite mulmx_block !mul1mx !mul0mx !mulmx0 !addr0 !add0r -eB -B0 submxK.
    by rewrite -mulmxA; exact: (congr1 (mulmx U) blk).
  by rewrite /B mulmxA uU mul1mx.
move=> i j ij; have hi := ltn_ord i; have hj := ltn_ord j.
have [i' ei] : exists i' : 'I_n, i = rshift 1 i' :> nat.
  have h : (i.-1 < n)%N by lia.
  by exists (Ordinal h) => /=; lia.
have -> : i = rshift 1 i' by apply: val_inj.
case: (posnP j) => [j0|j0].
  have -> : j = lshift n (0 : 'I_1) by apply: val_inj; rewrite /= j0.
  by have := block_mxEdl (ulsubmx B) (ursubmx B) 0 R i' 0; rewrite [X in _ = X -> _]mxE.
have h : (j.-1 < n)%N by lia.
have -> : j = rshift 1 (Ordinal h) by apply: val_inj; rewrite /=; lia.
have := block_mxEdr (ulsubmx B) (ursubmx B) 0 R i' (Ordinal h); rewrite tR //=; move: ei => /=; lia.
Qed.


(* ... so the assumption is satisfiable *)
Definition qr_b n (A : 'M[C]_n) (p : 'M[C]_n * 'M[C]_n) : bool :=
  [&& p.1 *m adjm p.1 == 1%:M, A == p.1 *m p.2 & [forall i : 'I_n, forall j : 'I_n, (j < i)%N ==> (p.2 i j == 0)]].
Lemma qr_bP n (A : 'M[C]_n) p : qr_b A p <-> qr_fact A p.1 p.2.
Proof.
split=> [/and3P[/eqP u /eqP e /forallP t]|[u e t]].
  by split=> // i j ij; have /forallP/(_ j) := t i; rewrite ij => /eqP.
by apply/and3P; split; [exact/eqP|exact/eqP|apply/forallP => i; apply/forallP => j; apply/implyP => /t ->].
Qed.
Lemma qr_bE n (A : 'M[C]_n) : exists p, qr_b A p.
Proof. by have [Q [R h]] := qr_exists A; exists (Q, R); apply/qr_bP. Qed.

Example qr_spec_satisfiable : qr_spec (fun X => ofM (xchoose (qr_bE (toM (nr X) (nr X) X))).1).
Proof.
move=> n A /=; set p := xchoose _; exists p.1, p.2; split=> //.
by apply/qr_bP; have := xchooseP (qr_bE (toM n n (ofM A))); rewrite -/p toM_ofM.
Qed.

(* v followed by the columns 1.. of Q *)
Definition comp n (v : 'cV[C]_n.+1) (Q : 'M[C]_n.+1) : 'M[C]_n.+1 := \matrix_(i, j) if j == 0 then v i 0 else Q i j.

Lemma ofM_getn r c (M : 'M[C]_(r, c)) i j (hi : (i < r)%N) (hj : (j < c)%N) :
  get (ofM M) i j = M (Ordinal hi) (Ordinal hj).
Proof. exact: (ofM_get M (Ordinal hi) (Ordinal hj)). Qed.

Lemma hstackE n (v : 'cV[C]_n.+1) (Q : 'M[C]_n.+1) :
  hstack (ofM v) (aslice (ofM Q) 0 1 n.+1 (n.+1 - 1)) = Ok (ofM (comp v Q)).
Proof.
rewrite /hstack /= eqxx; congr Ok; rewrite subn1; apply: arrP => //= i j hi hj.
rewrite get_mk hi hj /= (ofM_getn _ hi hj) mxE; case: ltnP => h.
  rewrite (ofM_getn _ hi h) (_ : Ordinal h = 0) ?ifT //; last by apply/val_inj => /=; lia.
  by apply/eqP/val_inj => /=; lia.
rewrite ifF; last by apply/eqP => /(congr1 val) /=; lia.
have e : (1 + (j - 1))%N = j by lia.
by rewrite get_mk hi (_ : (j - 1 < n)%N) /= ?add0n ?e ?(ofM_getn _ hi hj) //; lia.
Qed.

Lemma comp_unitary n (v : 'cV[C]_n.+1) (A Q R : 'M[C]_n.+1) : qr_fact A Q R -> col 0 A = v -> unit_vector v ->
  unitary (comp v Q).
Proof.
move=> [uQ eA tR] eV uv; pose c := R 0 0.
have ev : v = c *: col 0 Q.
  apply/matrixP => i j; rewrite -eV ord1 !mxE eA mxE (bigD1 0) //= big1 ?addr0 1?[RHS]mulrC // => k k0.
  by rewrite tR ?mulr0 // lt0n; apply: contra k0 => /eqP h; apply/eqP/val_inj.
have c1 : c * c^* = 1.
  have := uv; rewrite ev /unit_vector adjmZ -scalemxAl -scalemxAr scalerA mulrC.
  have -> : adjm (col 0 Q) *m col 0 Q = 1%:M.
    apply/matrixP => i j; rewrite !ord1 !mxE; have /matrixP/(_ 0 0) := unitaryC uQ; rewrite !mxE => <-.
    by apply: eq_bigr => k _; rewrite !mxE.
  by move=> /matrixP/(_ 0 0); rewrite !mxE eqxx mulr1 mulrC.
pose d : 'rV[C]_n.+1 := \row_j if j == 0 then c else 1.
have -> : comp v Q = Q *m diag_mx d.
  rewrite mul_mx_diag; apply/matrixP => i j; rewrite !mxE; case: eqP => [->|_]; last by rewrite mulr1.
  by rewrite ev !mxE mulrC.
apply: unitaryM => //; rewrite /unitary diag_adj mulmx_diag; apply/matrixP => i j; rewrite !mxE.
by case: eqP => [->|_]; rewrite ?mulr0n //; case: eqP => _; rewrite ?c1 ?conjC1 ?mulr1.
Qed.

Variable qr : arr -> arr.
Hypothesis HQ : qr_spec qr.

(* ================================================================== *)
(* C60  get_orthogonal_vectors                                         *)
(* ================================================================== *)
Lemma orthE n (x : input C) (v : 'cV[C]_n.+2) (Q : 'M[C]_n.+2) : as_column x = ofM v -> (10%:R ^+ 8)^-1 < fro (ofM v) ->
  let vh := (fro (ofM v))^-1 *: v in qr (ofM (comp vh 1%:M)) = ofM Q ->
  get_orthogonal_vectors qr x = Ok (OArr (ofM (comp vh Q))).
Proof.
move=> ex hv vh eq; have f0 : 0 < fro (ofM v) by rewrite (le_lt_trans _ hv) ?invr_ge0 ?exprn_ge0 ?ler0n.
rewrite /get_orthogonal_vectors ex /=.
have -> : close (fro (ofM v)) 0 = false.
  by rewrite /close subr0 normr0 mulr0 addr0 gtr0_norm //; apply: lt_geF.
by rewrite ofM_scale -/vh ofM_eye hstackE /= eq hstackE.
Qed.

(* a vector of dimension >= 2 and norm > 1e-8, given as a 1-D array or as a column, is completed to a unitary matrix
   whose first column is v / |v| *)
Theorem C60_basis n (x : input C) (v : 'cV[C]_n.+2) : as_column x = ofM v -> (10%:R ^+ 8)^-1 < fro (ofM v) ->
  exists W : 'M[C]_n.+2, [/\ get_orthogonal_vectors qr x = Ok (OArr (ofM W)), unitary W &
    col 0 W = (fro (ofM v))^-1 *: v].
Proof.
move=> ex hv; have f0 : 0 < fro (ofM v) by rewrite (le_lt_trans _ hv) ?invr_ge0 ?exprn_ge0 ?ler0n.
have nz : v != 0 by apply: contraTneq f0 => ->; rewrite fro_cV mulmx0 mxE sqrtC0 ltxx.
set vh := _ *: v; have [Q [R [eQ hQ]]] := HQ (comp vh 1%:M).
exists (comp vh Q); split; first exact: orthE.
  apply: comp_unitary hQ _ _; last exact: unit_normalise.
  by apply/matrixP => i j; rewrite !mxE ord1 eqxx.
by apply/matrixP => i j; rewrite !mxE ord1 eqxx.
Qed.

(* a vector of norm at most 1e-8, in particular the zero vector, gives the identity *)
Theorem C60_small n (x : input C) (v : 'cV[C]_n.+2) : as_column x = ofM v -> fro (ofM v) <= (10%:R ^+ 8)^-1 ->
  get_orthogonal_vectors qr x = Ok (OArr (ofM (1%:M : 'M[C]_n.+2))).
Proof.
move=> ex hv; rewrite /get_orthogonal_vectors ex /=.
have -> : close (fro (ofM v)) 0 = true; last by rewrite ofM_eye.
rewrite /close subr0 normr0 mulr0 addr0 ger0_norm //.
by rewrite fro_cV sqrtC_ge0 gram_cV; apply: sumr_ge0 => i _; exact: exprn_ge0.
Qed.

(* "every non-zero vector": refuted, a short non-zero vector is treated as zero *)
Theorem C60_nonzero_refuted n : exists2 v : 'cV[C]_n.+2, v != 0 & exists W : 'M[C]_n.+2,
  get_orthogonal_vectors qr (V2 (ofM v)) = Ok (OArr (ofM W)) /\ forall c : C, col 0 W <> c *: v.
Proof.
pose e : C := (10%:R ^+ 8)^-1; pose v : 'cV[C]_n.+2 := e *: delta_mx 1 0.
have e0 : 0 < e by rewrite invr_gt0 exprn_gt0 // ltr0n.
exists v; first by apply/eqP => /matrixP/(_ 1 0); rewrite !mxE !eqxx mulr1 => /eqP; rewrite gt_eqF.
exists 1%:M; split; last first.
  by move=> c /matrixP/(_ 0 0); rewrite !mxE eqxx /= !mulr0 => /eqP; rewrite oner_eq0.
apply: (@C60_small _ _ v) => //; rewrite fro_cV gram_cV (bigD1 1) //= big1 => [|i /negPf i1]; last first.
  by rewrite !mxE i1 mulr0 normr0 expr0n.
by rewrite addr0 !mxE !eqxx mulr1 gtr0_norm // sqrCK // ltW.
Qed.

(* dimension 1 gives the empty array *)
Theorem C60_dim1 (x : input C) (v : 'cV[C]_1) : as_column x = ofM v -> get_orthogonal_vectors qr x = Ok (@OEmpty C).
Proof. by move=> ex; rewrite /get_orthogonal_vectors ex. Qed.

Example C60_example : exists W : 'M[C]_3, [/\
  get_orthogonal_vectors qr (V1 [:: 0; 3%:R; 4%:R * 'i]) = Ok (OArr (ofM W)), unitary W, W 0 0 = 0, W 1 0 = 3%:R / 5%:R &
  W (inord 2) 0 = 4%:R / 5%:R * 'i].
Proof.
pose v : 'cV[C]_3 := \col_i nth 0 [:: 0; 3%:R; 4%:R * 'i] i.
have ex : as_column (V1 [:: 0; 3%:R; 4%:R * 'i]) = ofM v.
  apply: arrP => //= i j hi hj; by rewrite (ofM_getn _ hi hj) mxE get_mk /= hi hj.
have f5 : fro (ofM v) = 5%:R.
  rewrite fro_cV gram_cV !big_ord_recl big_ord0 !mxE /= normr0 expr0n /= add0r addr0 normrM normCi mulr1.
  by rewrite !normr_nat -!natrX -natrD (_ : 3 ^ 2 + 4 ^ 2 = 5 ^ 2)%N // natrX sqrCK // ler0n.
have [|W [e u c]] := C60_basis ex.
  rewrite f5; apply: (@le_lt_trans _ _ 1); last by rewrite (ltr_nat _ 1).
  by rewrite invf_le1 ?exprn_gt0 ?ltr0n // exprn_ege1 // ler1n.
exists W; split=> //; have h i := congr1 (fun M : 'cV_3 => M i 0) c.
- by have := h 0; rewrite !mxE /= mulr0.
- by have := h 1; rewrite !mxE /= f5 mulrC.
by have := h (inord 2); rewrite !mxE /= inordK // f5 /= mulrA [_^-1 * _]mulrC.
Qed.


(* ================================================================== *)
(* C61  build_unitary_path                                             *)
(* ================================================================== *)
Variables (E Lg : forall n, 'M[C]_n -> 'M[C]_n) (expm logm svdproj : arr -> arr).
Hypotheses (HE : expm_spec E) (HX : computes expm E) (HL : logm_spec E Lg) (HY : computes_u logm Lg).

Lemma fro_normal n (v : 'cV[C]_n) : v != 0 -> fro (ofM ((fro (ofM v))^-1 *: v)) = 1.
Proof. by move=> nz; apply: fro_unit; exact: unit_normalise. Qed.

Lemma column_atE n (W : 'M[C]_n) i (hi : (i < n)%N) : column_at (OArr (ofM W)) i n = Ok (ofM (col (Ordinal hi) W)).
Proof.
rewrite /column_at /= leqNgt hi /= eqxx /=; congr Ok; apply: arrP => //= k j hk hj.
rewrite get_mk hk hj /= add0n (ofM_getn _ hk hj) mxE (_ : (i + j)%N = i); last by lia.
exact: ofM_getn.
Qed.

Lemma half_bound : (10%:R ^+ 8)^-1 < 1 :> C.
Proof. by rewrite invf_lt1 ?exprn_gt0 ?ltr0n // exprn_egt1 // ltr1n. Qed.

Lemma path_run n (x y : input C) (w v : 'cV[C]_n.+2) (W V : 'M[C]_n.+2) : as_column x = ofM w -> as_column y = ofM v ->
  let wh := (fro (ofM w))^-1 *: w in let vh := (fro (ofM v))^-1 *: v in
  get_orthogonal_vectors qr (V2 (ofM wh)) = Ok (OArr (ofM W)) -> get_orthogonal_vectors qr (V2 (ofM vh)) = Ok (OArr (ofM V)) ->
  unitary W -> unitary V ->
  exists2 p : C -> arr, build_unitary_path expm logm qr svdproj x y = Ok p &
    forall t, p t = ofM (E (t *: Lg (V *m adjm W)) *m wh).
Proof.
move=> ex ey wh vh eW eV uW uV; rewrite /build_unitary_path ex ey !ofM_scale -/wh -/vh eW eV.
have -> : maxn (nr (ofM wh)) (nc (ofM wh)) = n.+2 by [].
cbn beta iota zeta delta [bind].
pose U := V *m adjm W.
have uU : unitary U by apply: unitaryM => //; exact: unitary_adj.
rewrite [foldM _ _ _](_ : _ = Ok (ofM U)); last first.
  rewrite ofM_zeros (@foldM_sumM _ _ _ _ (fun i => col (inord i) V *m adjm (col (inord i) W))) => [|M i]; last first.
    rewrite mem_iota add0n leq0n andTb => hi; rewrite !(column_atE _ hi) /bind ofM_adj ofM_mul_chk ofM_add.
    by rewrite (_ : inord i = Ordinal hi) //; apply: val_inj; rewrite /= inordK.
  congr (Ok (ofM _)); rewrite add0r big_iota; apply/matrixP => i j; rewrite summxE /U mxE; apply: eq_bigr => k _.
  by rewrite mxE big_ord1 inord_val !mxE.
rewrite /gram !ofM_adj !ofM_mul_chk /bind uW uV -ofM_eye !allclose_refl /assertM.
have eU : amul (ofM U) (aadj (ofM U)) = aeye n.+2 by rewrite ofM_adj ofM_mul uU -ofM_eye.
rewrite !(eU, allclose_refl).
rewrite HY // ofM_scale ofM_adj ofM_sub -/U.
set L := Lg U; have aL : adjm L = - L := logm_anti HL uU.
have -> : 'i *: L - adjm ('i *: L) = 0.
  by rewrite adjmZ aL conjCi scaleNr scalerN opprK subrr.
rewrite -ofM_zeros allclose_refl.
have iL : - 'i *: ('i *: L) = L by rewrite scalerA mulNr -expr2 sqrCi opprK scale1r.
exists (fun t => amul (expm (ascale t (ascale (- 'i) (ofM ('i *: L))))) (ofM wh)) => //.
by move=> t; rewrite (ofM_scale (- 'i)) iL ofM_scale HX ofM_mul.
Qed.

Theorem C61_path n (x y : input C) (w v : 'cV[C]_n.+2) : as_column x = ofM w -> as_column y = ofM v -> w != 0 -> v != 0 ->
  exists (p : C -> arr) (P : C -> 'cV[C]_n.+2), [/\ build_unitary_path expm logm qr svdproj x y = Ok p,
    forall t, p t = ofM (P t), P 0 = (fro (ofM w))^-1 *: w, P 1 = (fro (ofM v))^-1 *: v &
    (forall t, t \is Num.real -> unit_vector (P t)) /\
    exists2 L : 'M[C]_n.+2, adjm L = - L & forall s t, P (s + t) = E (s *: L) *m P t].
Proof.
move=> ex ey w0 v0; pose wh := (fro (ofM w))^-1 *: w; pose vh := (fro (ofM v))^-1 *: v.
have [uw uv] : unit_vector wh /\ unit_vector vh by split; exact: unit_normalise.
have [|W [eW uW cW]] := @C60_basis n (V2 (ofM wh)) wh (erefl _); first by rewrite fro_unit // half_bound.
have [|V [eV uV cV]] := @C60_basis n (V2 (ofM vh)) vh (erefl _); first by rewrite fro_unit // half_bound.
rewrite fro_unit // invr1 scale1r in cW; rewrite fro_unit // invr1 scale1r in cV.
have [p ep pE] := path_run ex ey eW eV uW uV.
pose U := V *m adjm W.
have uU : unitary U by apply: unitaryM => //; exact: unitary_adj.
have Uw : U *m wh = vh.
  have e0 (M : 'M[C]_n.+2) : col 0 M = M *m delta_mx 0 0 by rewrite colE.
  by rewrite /U -cW e0 -mulmxA [adjm W *m _]mulmxA unitaryC // mul1mx -e0.
pose L := Lg U; have aL : adjm L = - L := logm_anti HL uU.
exists p, (fun t => E (t *: L) *m wh); split=> //.
- by rewrite scale0r (expm0 HE) mul1mx.
- by rewrite scale1r (logm_exp HL uU).
split=> [t rt|].
  by apply: unit_mul => //; apply: (expm_anti_unitary HE); rewrite adjmZ aL scalerN (CrealP rt).
exists L => // s t; rewrite mulmxA -(expmD HE) ?scalerDl //.
by rewrite -!scalemxAl -!scalemxAr !scalerA mulrC.
Qed.

Example C61_example : exists (p : C -> arr) (P : C -> 'cV[C]_2), [/\
  build_unitary_path expm logm qr svdproj (V1 [:: 1; 0]) (V1 [:: 0; 2%:R * 'i]) = Ok p,
  forall t, p t = ofM (P t), P 0 = delta_mx 0 0, P 1 = 'i *: delta_mx 1 0 & forall t, t \is Num.real -> unit_vector (P t)].
Proof.
pose w : 'cV[C]_2 := delta_mx 0 0; pose v : 'cV[C]_2 := (2%:R * 'i) *: delta_mx 1 0.
have ew : as_column (V1 [:: 1; 0]) = ofM w.
  apply: arrP => //= i j hi hj; rewrite (ofM_getn _ hi hj) mxE get_mk /= hi hj ord1 andbT.
  by case: i hi => [|[|i]].
have ev : as_column (V1 [:: 0; 2%:R * 'i]) = ofM v.
  apply: arrP => //= i j hi hj; rewrite (ofM_getn _ hi hj) !mxE get_mk /= hi hj ord1 andbT.
  by case: i hi => [|[|i]] //= _; rewrite ?mulr0 ?mulr1.
have fw : fro (ofM w) = 1.
  by rewrite fro_cV gram_cV !big_ord_recl big_ord0 !mxE /= normr0 normr1 expr0n expr1n /= !addr0 sqrtC1.
have fv : fro (ofM v) = 2%:R.
  rewrite fro_cV gram_cV !big_ord_recl big_ord0 !mxE /= mulr0 normr0 mulr1 normrM normCi mulr1 normr_nat.
  by rewrite expr0n /= add0r addr0 sqrCK // ler0n.
have nz (u : 'cV[C]_2) : fro (ofM u) != 0 -> u != 0.
  by apply: contraNneq => ->; rewrite fro_cV mulmx0 mxE sqrtC0.
have [||p [P [e pE P0 P1 [u _]]]] := C61_path ew ev; try by apply: nz; rewrite ?fw ?fv ?oner_eq0 ?pnatr_eq0.
exists p, P; split=> //; first by rewrite P0 fw invr1 scale1r.
by rewrite P1 fv scalerA mulrA mulVf ?pnatr_eq0 // mul1r.
Qed.

(* dimension 1: IndexError *)
Theorem C61_dim1 (x y : input C) (w v : 'cV[C]_1) : as_column x = ofM w -> as_column y = ofM v ->
  build_unitary_path expm logm qr svdproj x y = Raise IndexError.
Proof. by move=> ex ey; rewrite /build_unitary_path ex ey !ofM_scale. Qed.

(* vectors of different dimensions (>= 2): ValueError *)
Theorem C61_mismatch m n (x y : input C) (w : 'cV[C]_m.+2) (v : 'cV[C]_n.+2) : as_column x = ofM w -> as_column y = ofM v ->
  w != 0 -> v != 0 -> m != n -> build_unitary_path expm logm qr svdproj x y = Raise ValueError.
Proof.
move=> ex ey w0 v0 mn; rewrite /build_unitary_path ex ey !ofM_scale; set wh := _ *: w; set vh := _ *: v.
have [uw uv] : unit_vector wh /\ unit_vector vh by split; exact: unit_normalise.
have [|W [-> uW cW]] := @C60_basis m (V2 (ofM wh)) wh (erefl _); first by rewrite fro_unit // half_bound.
have [|V [-> uV cV]] := @C60_basis n (V2 (ofM vh)) vh (erefl _); first by rewrite fro_unit // half_bound.
rewrite /bind (_ : maxn (nr (ofM wh)) (nc (ofM wh)) = m.+2) //.
have fc f (a : arr) l : foldM f a (0%N :: l) = let* b := f a 0%N in foldM f b l by [].
rewrite -[iota _ _]/(0%N :: iota 1 m.+1) fc (column_atE _ (ltn0Sn _)) /column_at /bind /=.
by rewrite !eqSS eq_sym mn.
Qed.

(* ================================================================== *)
(* C62  build_linear_path                                              *)
(* ================================================================== *)
Lemma baddE m n (A B : 'M[C]_(m, n)) : badd (ofM A) (ofM B) = Ok (ofM (A + B)).
Proof.
rewrite /badd /= !eqxx /=; congr Ok; rewrite -ofM_add; apply: arrP => /=; try by case: eqP.
move=> i j; rewrite !if_same => hi hj; rewrite !get_mk /= hi hj /bget /=.
have -> : (if m == 1%N then 0%N else i) = i by case: eqP => //; lia.
by have -> : (if n == 1%N then 0%N else j) = j by case: eqP => //; lia.
Qed.

Theorem C62_path n (x y : input C) (w v : 'cV[C]_n) (s : C) : as_column x = ofM w -> as_column y = ofM v -> w != 0 -> v != 0 ->
  let u := s *: ((fro (ofM v))^-1 *: v) + (1 - s) *: ((fro (ofM w))^-1 *: w) in
  (u != 0 -> exists P : 'cV[C]_n, [/\ build_linear_path x y s = Ok (Num (ofM P)), unit_vector P & exists2 c : C, 0 < c & P = c *: u])
  /\ (u = 0 -> build_linear_path x y s = Ok (@NaN C)).
Proof.
move=> ex ey w0 v0 u; rewrite /build_linear_path ex ey !(ofM_scale _ v) !(ofM_scale _ w).
rewrite (ofM_scale s) (ofM_scale (1 - s)) baddE -/u /bind.
have fr (z : 'cV[C]_n) : z != 0 -> (fro (ofM z) == 0) = false by move=> nz; rewrite gt_eqF // fro_gt0.
rewrite (fr w) // (fr v) //=; split=> [nz|->]; last by rewrite fro_cV mulmx0 mxE sqrtC0 eqxx.
rewrite fr // ofM_scale; exists ((fro (ofM u))^-1 *: u); split=> //; first exact: unit_normalise.
by exists (fro (ofM u))^-1; rewrite ?invr_gt0 ?fro_gt0.
Qed.

Theorem C62_ends n (x y : input C) (w v : 'cV[C]_n) : as_column x = ofM w -> as_column y = ofM v -> w != 0 -> v != 0 ->
  build_linear_path x y 0 = Ok (Num (ofM ((fro (ofM w))^-1 *: w))) /\
  build_linear_path x y 1 = Ok (Num (ofM ((fro (ofM v))^-1 *: v))).
Proof.
move=> ex ey w0 v0; rewrite /build_linear_path ex ey !(ofM_scale _ v) !(ofM_scale _ w).
rewrite (ofM_scale 0) !(ofM_scale 1) !(ofM_scale (1 - _)) !baddE /bind.
have fr (z : 'cV[C]_n) : z != 0 -> (fro (ofM z) == 0) = false by move=> nz; rewrite gt_eqF // fro_gt0.
rewrite (fr w) // (fr v) // subr0 subrr !scale0r !scale1r add0r addr0 !fro_normal // oner_eq0 /=.
by rewrite !(ofM_scale 1^-1) invr1 !scale1r.
Qed.

(* "for every s": refuted at the midpoint of two antipodal vectors *)
Theorem C62_all_s_refuted n (v : 'cV[C]_n) : v != 0 -> build_linear_path (V2 (ofM v)) (V2 (ofM (- v))) 2%:R^-1 = Ok (@NaN C).
Proof.
move=> v0; have v1 : - v != 0 by rewrite oppr_eq0.
have [_ -> //] := @C62_path n (V2 (ofM v)) (V2 (ofM (- v))) v (- v) 2%:R^-1 (erefl _) (erefl _) v0 v1.
rewrite (_ : fro (ofM (- v)) = fro (ofM v)); last by rewrite !fro_cV adjmN mulmxN mulNmx opprK.
rewrite (_ : 1 - 2%:R^-1 = 2%:R^-1 :> C); last first.
  by apply: (mulIf (_ : 2%:R != 0)); rewrite ?pnatr_eq0 // mulrBl mulVf ?pnatr_eq0 // mul1r mulr2n addrK.
by rewrite !scalerN addNr.
Qed.

Example C62_example : let w : 'cV[C]_2 := delta_mx 0 0 in let v : 'cV[C]_2 := delta_mx 1 0 in
  exists P : 'cV[C]_2, [/\ build_linear_path (V2 (ofM w)) (V2 (ofM v)) 2%:R^-1 = Ok (Num (ofM P)), unit_vector P & P 0 0 = P 1 0].
Proof.
move=> w v; have d i : (delta_mx i 0 : 'cV[C]_2) != 0.
  by apply/eqP => /matrixP/(_ i 0); rewrite !mxE !eqxx => /eqP; rewrite oner_eq0.
have f i : fro (ofM (delta_mx i 0 : 'cV[C]_2)) = 1.
  apply: fro_unit; rewrite /unit_vector; apply/matrixP => a b; rewrite !ord1 [RHS]mxE eqxx gram_cV (bigD1 i) //= big1.
    by rewrite mxE !eqxx normr1 expr1n addr0.
  by move=> j /negPf ji; rewrite mxE ji normr0 expr0n.
have [H _] := @C62_path 2 (V2 (ofM w)) (V2 (ofM v)) w v 2%:R^-1 (erefl _) (erefl _) (d 0) (d 1).
move: H; rewrite !f invr1 !scale1r (_ : 1 - 2%:R^-1 = 2%:R^-1 :> C); last first.
  by apply: (mulIf (_ : 2%:R != 0)); rewrite ?pnatr_eq0 // mulrBl mulVf ?pnatr_eq0 // mul1r mulr2n addrK.
case=> [|P [e u [c _ ep]]].
  apply/eqP => /matrixP/(_ 0 0); rewrite !mxE /= mulr0 add0r mulr1 => /eqP; by rewrite invr_eq0 pnatr_eq0.
by exists P; split=> //; rewrite ep !mxE /= mulr0 add0r addr0.
Qed.

End Paths.

(* ================================================================== *)
(* C66  "the path is the shortest geodesic on the unit sphere"         *)
(* ================================================================== *)
Section Geodesic.
Variable C : numClosedFieldType.
Local Notation arr := (arr C).
Add Ring geo_ring : (ring_of C).
Variables (E Lg : forall n, 'M[C]_n -> 'M[C]_n) (expm logm svdproj : arr -> arr).
Hypotheses (HE : expm_spec E) (HX : computes expm E) (HL : logm_spec E Lg) (HY : computes_u logm Lg).

Definition mx2 (a b c d : C) : 'M[C]_2 := \matrix_(i, j) (if i == 0 then (if j == 0 then a else b) else (if j == 0 then c else d)).
Definition cv2 (a b : C) : 'cV[C]_2 := \col_i (if i == 0 then a else b).

Lemma mx2P (A B : 'M[C]_2) : A 0 0 = B 0 0 -> A 0 1 = B 0 1 -> A 1 0 = B 1 0 -> A 1 1 = B 1 1 -> A = B.
Proof.
move=> h1 h2 h3 h4; have o (i : 'I_2) : i = 0 \/ i = 1 by case: i => [[|[|i]]] hi //; [left|right]; apply: val_inj.
by apply/matrixP => i j; case: (o i) => ->; case: (o j) => ->.
Qed.

(* the QR factorisation of [v e1] by a Householder reflection, and of the identity by the identity *)
Definition house (c s : C) (X : arr) : arr :=
  if (nr X == 2%N) && (nc X == 2%N) && (toM 2 2 X == mx2 c 0 s 1) then ofM (mx2 c s s (- c))
  else if (nr X == 2%N) && (nc X == 2%N) && (toM 2 2 X == 1%:M) then ofM (1%:M : 'M[C]_2)
  else ofM (xchoose (qr_bE (toM (nr X) (nr X) X))).1.

Lemma house_unitary (c s : C) : c \is Num.real -> s \is Num.real -> c ^+ 2 + s ^+ 2 = 1 -> unitary (mx2 c s s (- c)).
Proof.
move=> rc rs e; apply: mx2P; rewrite !mxE !big_ord_recl big_ord0 !mxE /= ?addr0 ?rmorphN /= ?(CrealP rc) ?(CrealP rs) -?expr2 //.
- by rewrite mulrN [s * c]mulrC subrr.
- by rewrite mulNr [s * c]mulrC subrr.
- by rewrite sqrrN addrC.
Qed.

Lemma house_spec (c s : C) : c \is Num.real -> s \is Num.real -> c ^+ 2 + s ^+ 2 = 1 -> qr_spec (house c s).
Proof.
move=> rc rs e n A; rewrite /house /=; case: ifP => [/andP[/andP[/eqP n2 _] /eqP h]|_].
  subst n; rewrite toM_ofM in h; exists (mx2 c s s (- c)), (mx2 1 s 0 (- c)); split=> //; split.
  - exact: house_unitary.
  - rewrite h; apply: mx2P; rewrite !mxE !big_ord_recl big_ord0 !mxE /= ?addr0 ?mulr1 ?mulr0 ?addr0 //.
      by rewrite mulrN mulrC subrr.
    by rewrite mulNr mulrN opprK -!expr2 addrC.
  by move=> i j; case: i => [[|[|i]]] // hi; case: j => [[|[|j]]] // hj _; rewrite mxE.
case: ifP => [/andP[/andP[/eqP n2 _] /eqP h]|_].
  subst n; rewrite toM_ofM in h; exists 1%:M, 1%:M; split=> //; split; [exact: unitary1|by rewrite h mul1mx|].
  by move=> i j ij; rewrite mxE -val_eqE /= gtn_eqF.
exact: (qr_spec_satisfiable A).
Qed.

Theorem C66_geodesic_refuted (c s : C) : c \is Num.real -> s \is Num.real -> c ^+ 2 + s ^+ 2 = 1 -> s != 0 ->
  exists (p : C -> arr) (P : C -> 'cV[C]_2), [/\ qr_spec (house c s),
    build_unitary_path expm logm (house c s) svdproj (V2 (ofM (cv2 1 0))) (V2 (ofM (cv2 c s))) = Ok p,
    forall t, p t = ofM (P t),
    P 0 = cv2 1 0 /\ P 1 = cv2 c s &
    forall k : C, P 2%:R^-1 <> k *: (P 0 + P 1)].
Proof.
move=> rc rs e s0; have hq := house_spec rc rs e; set Q := mx2 c s s (- c).
have uQ : unitary Q := house_unitary rc rs e.
have fw : fro (ofM (cv2 1 0)) = 1.
  by rewrite fro_cV gram_cV !big_ord_recl big_ord0 !mxE /= normr0 normr1 expr0n expr1n /= !addr0 sqrtC1.
have fv : fro (ofM (cv2 c s)) = 1.
  by rewrite fro_cV gram_cV !big_ord_recl big_ord0 !mxE /= !normCK ?(CrealP rc) ?(CrealP rs) -?expr2 addr0 e sqrtC1.
have b u : fro (ofM u) = 1 -> (10%:R ^+ 8)^-1 < fro (ofM (u : 'cV[C]_2)) by move=> ->; exact: half_bound.
have nrm u : fro (ofM (u : 'cV[C]_2)) = 1 -> (fro (ofM u))^-1 *: u = u by move=> ->; rewrite invr1 scale1r.
have hA : (1%:M == mx2 c 0 s 1 :> 'M[C]_2) = false.
  by apply/eqP => /matrixP/(_ 1 0); rewrite !mxE /= => /esym/eqP; rewrite (negPf s0).
have eW : get_orthogonal_vectors (house c s) (V2 (ofM (cv2 1 0))) = Ok (OArr (ofM (1%:M : 'M[C]_2))).
  have -> : 1%:M = comp (cv2 1 0) 1%:M by apply: mx2P; rewrite !mxE.
  rewrite -{2}(nrm _ fw); apply: orthE => //; first exact: b.
  rewrite nrm // (_ : comp (cv2 1 0) 1%:M = 1%:M); last by apply: mx2P; rewrite !mxE.
  by rewrite /house /= toM_ofM hA eqxx.
have eV : get_orthogonal_vectors (house c s) (V2 (ofM (cv2 c s))) = Ok (OArr (ofM Q)).
  have -> : Q = comp (cv2 c s) Q by apply: mx2P; rewrite !mxE.
  rewrite -{2}(nrm _ fv); apply: orthE => //; first exact: b.
  rewrite nrm // (_ : comp (cv2 c s) 1%:M = mx2 c 0 s 1); last by apply: mx2P; rewrite !mxE.
  by rewrite /house /= toM_ofM eqxx.
rewrite -{1}(nrm _ fw) in eW; rewrite -{1}(nrm _ fv) in eV.
have [p ep pE] := path_run svdproj HX HL HY (erefl _ : as_column (V2 (ofM (cv2 1 0))) = _) (erefl _ : as_column (V2 (ofM (cv2 c s))) = _) eW eV (unitary1 _ 2) uQ.
rewrite adjm1 mulmx1 nrm // in pE.
have Qw : Q *m cv2 1 0 = cv2 c s.
  by apply/matrixP => i j; rewrite !mxE !big_ord_recl big_ord0 !mxE /= !mulr0 !addr0; case: eqP => _; rewrite mulr1.
exists p, (fun t => E (t *: Lg Q) *m cv2 1 0); rewrite scale0r (expm0 HE) mul1mx scale1r (logm_exp HL uQ) Qw; split=> // k.
pose S := E (2%:R^-1 *: Lg Q).
have SS : S *m S = Q by rewrite /S -(expm_half HE) (logm_exp HL uQ).
have cS : S *m Q = Q *m S.
  apply: (expm_comm HE); rewrite -scalemxAl -scalemxAr; congr (_ *: _).
  by apply: (logm_inter HL).
rewrite -/S => h.
have e2 (A B : 'M[C]_2) i j : (A *m B) i j = A i 0 * B 0 j + A i 1 * B 1 j.
  by rewrite mxE !big_ord_recl big_ord0 addr0; congr (_ + A i _ * B _ j); apply: val_inj.
have v2 (A : 'M[C]_2) i : (A *m cv2 1 0) i 0 = A i 0.
  by rewrite mxE !big_ord_recl big_ord0 !mxE /= mulr1 mulr0 !addr0.
have S00 : S 0 0 = k * (1 + c) by rewrite -v2 h !mxE.
have S10 : S 1 0 = k * s by rewrite -v2 h !mxE /= add0r.
have m2 (M N : 'M[C]_2) i j : M = N -> M i j = N i j by move->.
have S01 : S 0 1 = k * s.
  have := m2 _ _ 0 0 cS; rewrite !e2 !mxE /= [S 0 0 * c]mulrC => /addrI; rewrite mulrC => /(mulfI s0) ->; exact: S10.
have S11 : S 1 1 = k * (1 - c).
  have := m2 _ _ 0 1 cS; rewrite !e2 !mxE /= S00 S01 => h1; apply: (mulfI s0).
  have -> : s * S 1 1 = (c * (k * s) + s * S 1 1) - c * (k * s) by rewrite addrC addKr.
  by rewrite -h1; xring C.
have kk : 2%:R * k ^+ 2 = 1.
  have := m2 _ _ 0 1 SS; rewrite e2 S00 S01 S11 !mxE /= => h1; apply: (mulIf s0); rewrite mul1r -[RHS]h1; xring C.
have := m2 _ _ 0 0 SS; rewrite e2 S00 S01 S10 !mxE /= => h1.
have : 2%:R * k ^+ 2 * (1 + c) = c.
  rewrite -[RHS]h1; have -> : k * s * (k * s) = k ^+ 2 * s ^+ 2 by xring C.
  by rewrite -(addKr (c ^+ 2) (s ^+ 2)) e; xring C.
by rewrite kk mul1r -[RHS]add0r => /addIr/eqP; rewrite oner_eq0.
Qed.
End Geodesic.
