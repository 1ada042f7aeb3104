(* PropDist7.v -- property C81: the trace distance under quantum operations, partial traces, mixtures and products;
   its value on wavefunctions. *)
Set Warnings "-notation-overridden,-ambiguous-paths".
From Coq Require Import Reals.
From mathcomp Require Import all_ssreflect all_algebra.
From mathcomp Require Import complex mxtens.
From mathcomp.zify Require Import zify.
From Verif Require Import Base ArrC MCombinatorics MLib JW OpFam FermAlg LibFacts LibFacts3 MUtils Spectral RealC Info MDist.
From Verif Require Import PropLib1 PropUtils1 PropUtils2 PropDist1 PropDist2 PropDist3.
Set Implicit Arguments.
Unset Strict Implicit.
Unset Printing Implicit Defensive.
Import Order.Theory GRing.Theory Num.Theory.
Local Open Scope ring_scope.

Local Notation arr := (arr CR).
Local Notation input := (input CR).

Lemma psd_sumI n (I : finType) (F : I -> 'M[CR]_n) : (forall i, psd (F i)) -> psd (\sum_i F i).
Proof. by move=> h; exact: psd_sum. Qed.

(* ---------- quantum operations in Kraus form ---------- *)
Section Kraus.
Variables (I : finType) (m n : nat) (K : I -> 'M[CR]_(m, n)).
Hypothesis HK : \sum_k adjm (K k) *m K k = 1%:M.
Definition kraus (X : 'M[CR]_n) : 'M[CR]_m := \sum_k K k *m X *m adjm (K k).

Lemma krausB X Y : kraus (X - Y) = kraus X - kraus Y.
Proof. by rewrite /kraus -sumrB; apply: eq_bigr => k _; rewrite mulmxBr mulmxBl. Qed.
Lemma kraus_psd X : psd X -> psd (kraus X).
Proof. by move=> pX; apply: psd_sumI => k; rewrite -{1}[K k]adjmK; exact: psd_congr. Qed.
Lemma kraus_herm X : hermitian X -> hermitian (kraus X).
Proof. by move=> hX; rewrite /hermitian adjm_sum; apply: eq_bigr => k _; rewrite !adjmM adjmK hX mulmxA. Qed.
Lemma kraus_dual S X : \tr (S *m kraus X) = \tr ((\sum_k adjm (K k) *m S *m K k) *m X).
Proof.
rewrite mulmx_sumr mulmx_suml !raddf_sum /=; apply: eq_bigr => k _.
by rewrite !mulmxA mxtrace_mulC !mulmxA.
Qed.
Lemma kraus_tr X : \tr (kraus X) = \tr X.
Proof.
rewrite -[kraus X]mul1mx kraus_dual; congr (\tr _).
by under eq_bigr do rewrite mulmx1; rewrite HK mul1mx.
Qed.
Lemma kraus_density X : density X -> density (kraus X).
Proof. by move=> [pX tX]; split; [exact: kraus_psd|rewrite kraus_tr]. Qed.

Lemma tn_kraus X : hermitian X -> tn (kraus X) <= tn X.
Proof.
move=> hX; have [S [[c1 c2] _ _ e]] := tn_attained (kraus_herm hX).
rewrite -(ger0_norm (tn_ge0 (kraus X))) -e kraus_dual; apply: tn_sup => //.
have h (c : CR) : 1%:M + c *: (\sum_k adjm (K k) *m S *m K k) = \sum_k adjm (K k) *m (1%:M + c *: S) *m K k.
  rewrite -HK scaler_sumr -big_split; apply: eq_bigr => k _ /=.
  by rewrite mulmxDr mulmxDl mulmx1 -scalemxAr -scalemxAl.
split.
  rewrite -[- _]scaleN1r h; apply: psd_sumI => k; rewrite scaleN1r; exact: psd_congr.
by rewrite -[X in _ + X]scale1r h; apply: psd_sumI => k; rewrite scale1r; exact: psd_congr.
Qed.
End Kraus.

Lemma half_le (a b : CR) : a <= b -> 2%:R^-1 * re a <= 2%:R^-1 * re b :> R.
Proof. by move=> h; rewrite ler_pmul2l ?half_gt0 //; exact: re_le. Qed.

(* ================================================================== *)
(* C81                                                                 *)
(* ================================================================== *)
(* a quantum operation (Kraus form, any number of terms) applied to both states brings them closer *)
Theorem C81_operation k m n (K : 'I_k -> 'M[CR]_(m, n)) (x y x' y' : input) (A B : 'M[CR]_n) :
  \sum_i adjm (K i) *m K i = 1%:M -> density A -> density B ->
  cast_to_density_matrix x = Ok (ofM A) -> cast_to_density_matrix y = Ok (ofM B) ->
  cast_to_density_matrix x' = Ok (ofM (\sum_i K i *m A *m adjm (K i))) ->
  cast_to_density_matrix y' = Ok (ofM (\sum_i K i *m B *m adjm (K i))) ->
  exists t, exists2 t', trace_distance x y = Ok t /\ trace_distance x' y' = Ok t' & t' <= t.
Proof.
move=> HK [[hA _] _] [[hB _] _] ex ey ex' ey'.
exists (2%:R^-1 * re (tn (A - B))), (2%:R^-1 * re (tn (kraus K A - kraus K B))).
  by split; [exact: tdE ex ey|exact: tdE ex' ey'].
by rewrite -krausB; apply: half_le; apply: tn_kraus => //; exact: hermB.
Qed.

(* the two partial traces in Kraus form *)
Definition Kfst d e (k : 'I_e) : 'M[CR]_(d, d * e) := adjm (\matrix_(a, i) (a == prI i k)%:R).
Definition Ksnd d e (k : 'I_e) : 'M[CR]_(d, e * d) := adjm (\matrix_(a, i) (a == prI k i)%:R).

Lemma prI_inj d e (i j : 'I_d) (k l : 'I_e) : (prI i k == prI j l) = (i == j) && (k == l).
Proof.
rewrite -!val_eqE /=; have hk := ltn_ord k; have hl := ltn_ord l.
apply/eqP/andP => [h|[/eqP -> /eqP ->] //].
have e0 : (0 < e)%N by lia.
have /(congr1 (divn^~ e)) := h; rewrite /= !divnMDl // !divn_small // !addn0 => ->.
by have /(congr1 (modn^~ e)) := h; rewrite /= !modnMDl !modn_small // => ->.
Qed.
Lemma prIP d e (r : 'I_(d * e)) : exists i k, r = @prI d e i k.
Proof.
have e0 : (0 < e)%N by have := leq_ltn_trans (leq0n _) (ltn_ord r); rewrite muln_gt0 => /andP[].
have hi : (r %/ e < d)%N by rewrite ltn_divLR.
exists (Ordinal hi), (Ordinal (ltn_pmod r e0)); apply/val_inj => /=; exact: divn_eq.
Qed.

Lemma Kfst_sum d e : \sum_(k < e) adjm (@Kfst d e k) *m @Kfst d e k = 1%:M.
Proof.
apply/matrixP => r s; have [i [k ->]] := prIP r; have [j [l ->]] := prIP s; rewrite summxE.
transitivity (\sum_(a < e) \sum_(b < d) ((i == b) && (k == a))%:R * ((j == b) && (l == a))%:R : CR).
  by apply: eq_bigr => a _; rewrite mxE; apply: eq_bigr => b _; rewrite !mxE !prI_inj !conjCK conjC_nat.
rewrite (bigD1 k) //= (bigD1 i) //= !big1 ?addr0; first 1 last.
- by move=> a /negPf ne; rewrite big1 // => b _; rewrite [k == a]eq_sym ne andbF mul0r.
- by move=> b /negPf ne; rewrite [i == b]eq_sym ne mul0r.
by rewrite !eqxx mul1r !mxE prI_inj [i == j]eq_sym [k == l]eq_sym.
Qed.
Lemma Ksnd_sum d e : \sum_(k < e) adjm (@Ksnd d e k) *m @Ksnd d e k = 1%:M.
Proof.
apply/matrixP => r s; have [i [k ->]] := prIP r; have [j [l ->]] := prIP s; rewrite summxE.
transitivity (\sum_(a < e) \sum_(b < d) ((i == a) && (k == b))%:R * ((j == a) && (l == b))%:R : CR).
  by apply: eq_bigr => a _; rewrite mxE; apply: eq_bigr => b _; rewrite !mxE !prI_inj !conjCK conjC_nat.
rewrite (bigD1 i) //= (bigD1 k) //= !big1 ?addr0; first 1 last.
- by move=> a /negPf ne; rewrite big1 // => b _; rewrite [i == a]eq_sym ne mul0r.
- by move=> b /negPf ne; rewrite [k == b]eq_sym ne andbF mul0r.
by rewrite !eqxx mul1r !mxE prI_inj [i == j]eq_sym [k == l]eq_sym.
Qed.
Lemma Kfst_ptr d e (M : 'M[CR]_(d * e)) : kraus (@Kfst d e) M = ptr2 M.
Proof.
apply/matrixP => i j; rewrite mxE summxE; apply: eq_bigr => k _; rewrite adjmK.
rewrite -mulmxA mxE (bigD1 (prI i k)) //= big1 => [|a /negPf ne]; last by rewrite !mxE ne conjC0 mul0r.
rewrite !mxE eqxx conjC1 mul1r addr0 (bigD1 (prI j k)) //= big1 => [|a /negPf ne]; last by rewrite !mxE ne mulr0.
by rewrite !mxE eqxx mulr1 addr0.
Qed.
Lemma Ksnd_ptr d e (M : 'M[CR]_(e * d)) : kraus (@Ksnd d e) M = ptr1 M.
Proof.
apply/matrixP => i j; rewrite mxE summxE; apply: eq_bigr => k _; rewrite adjmK.
rewrite -mulmxA mxE (bigD1 (prI k i)) //= big1 => [|a /negPf ne]; last by rewrite !mxE ne conjC0 mul0r.
rewrite !mxE eqxx conjC1 mul1r addr0 (bigD1 (prI k j)) //= big1 => [|a /negPf ne]; last by rewrite !mxE ne mulr0.
by rewrite !mxE eqxx mulr1 addr0.
Qed.

(* reduced states are at most as far apart as the states: sum of the diagonal blocks *)
Theorem C81_diagblocksum d e (x y : input) (M N : 'M[CR]_(e * d)) : (0 < d)%N -> density M -> density N ->
  cast_to_density_matrix x = Ok (ofM M) -> cast_to_density_matrix y = Ok (ofM N) ->
  exists r s, [/\ partial_trace_diagblocksum (ofM M) d = Ok r, partial_trace_diagblocksum (ofM N) d = Ok s &
  exists t, exists2 t', trace_distance x y = Ok t /\ trace_distance (V2 r) (V2 s) = Ok t' & t' <= t].
Proof.
move=> d0 dM dN ex ey; exists (ofM (ptr1 M)), (ofM (ptr1 N)); rewrite !C21_diagblocksum //; split=> //.
have c (X : 'M[CR]_(e * d)) : density X -> cast_to_density_matrix (V2 (ofM (ptr1 X))) = Ok (ofM (kraus (@Ksnd d e) X)).
  by move=> dX; rewrite Ksnd_ptr; apply: C25_density; rewrite -Ksnd_ptr; apply: kraus_density => //; exact: Ksnd_sum.
exact: (C81_operation (Ksnd_sum d e) dM dN ex ey (c _ dM) (c _ dN)).
Qed.

(* sum of the absolute values of the entries *)
Lemma tn_entries n (X : 'M[CR]_n) : hermitian X -> tn X <= \sum_i \sum_j `|X i j|.
Proof.
move=> hX; have [S [_ hS S2 e]] := tn_attained hX.
have uS : unitary S by rewrite /unitary hS.
have S1 i j : `|S i j| <= 1.
  rewrite -(@ler_pexpn2r _ 2) ?nnegrE ?ler01 // expr1n -(unitary_rows j uS) (bigD1 i) //= ler_addl sumr_ge0 // => l _.
  by rewrite exprn_ge0.
rewrite -(ger0_norm (tn_ge0 X)) -e /mxtrace exchange_big /=; apply: le_trans (ler_norm_sum _ _ _) _; apply: ler_sum => j _.
rewrite mxE; apply: le_trans (ler_norm_sum _ _ _) _; apply: ler_sum => i _; by rewrite normrM ler_pimull.
Qed.

(* the other partial trace drops imaginary parts below 1e-8 ("cast to real if possible") *)
Theorem C81_blockTr d e (x y : input) (M N : 'M[CR]_(d * e)) : (0 < d)%N -> (0 < e)%N -> density M -> density N ->
  cast_to_density_matrix x = Ok (ofM M) -> cast_to_density_matrix y = Ok (ofM N) ->
  exists r s, [/\ partial_trace_blockTr (ofM M) d = Ok r, partial_trace_blockTr (ofM N) d = Ok s &
  exists t, exists2 t', trace_distance x y = Ok t /\ trace_distance (V2 r) (V2 s) = Ok t' &
    t' <= t + (d * d)%:R * (10%:R ^+ 8)^-1 /\
    ((forall i j, M i j \is Num.real) -> (forall i j, N i j \is Num.real) -> t' <= t)].
Proof.
move=> d0 e0 dM dN ex ey.
have [RM eM [aM rM _ _]] := C21_blockTr M d0; have [RN eN [aN rN _ _]] := C21_blockTr N d0.
have [RA [_ [eM' _ dRM _]]] := C22_states d0 e0 dM; have [RB [_ [eN' _ dRN _]]] := C22_states d0 e0 dN.
have oi (X Y : 'M[CR]_d) : Ok (ofM X) = Ok (ofM Y) -> X = Y by move/(congr1 (fun r => if r is Ok a then toM d d a else 0)); rewrite !toM_ofM.
have eA : RA = RM by apply: oi; rewrite -eM -eM'.
have eB : RB = RN by apply: oi; rewrite -eN -eN'.
subst RA RB; exists (ofM RM), (ofM RN); split=> //.
exists (2%:R^-1 * re (tn (M - N))), (2%:R^-1 * re (tn (RM - RN))).
  by split; [exact: tdE ex ey|exact: (tdE (C25_density dRM) (C25_density dRN))].
have hM : hermitian (ptr2 M) by case: dM => /ptr2_psd [].
have hN : hermitian (ptr2 N) by case: dN => /ptr2_psd [].
have [[hRM _] _] := dRM; have [[hRN _] _] := dRN.
have le : tn (ptr2 M - ptr2 N) <= tn (M - N).
  rewrite -!Kfst_ptr -krausB; apply: tn_kraus; first exact: Kfst_sum.
  by apply: hermB; [case: dM => -[]|case: dN => -[]].
split; last first.
  move=> hrM hrN; rewrite rM ?rN; first exact: half_le.
  - by move=> i j; rewrite mxE rpred_sum.
  - by move=> i j; rewrite mxE rpred_sum.
have en (R P : 'M[CR]_d) : hermitian R -> hermitian P -> (forall i j, `|R i j - P i j| <= atol) ->
  tn (R - P) <= (d * d)%:R * atol.
  move=> hR hP h; apply: le_trans (tn_entries (hermB hR hP)) _.
  apply: (@le_trans _ _ (\sum_(i < d) \sum_(j < d) atol)).
    by apply: ler_sum => i _; apply: ler_sum => j _; rewrite !mxE.
  by rewrite !sumr_const !card_ord -mulrnA mulr_natl.
have tri : tn (RM - RN) <= tn (M - N) + ((d * d)%:R * atol + (d * d)%:R * atol).
  have -> : RM - RN = (ptr2 M - ptr2 N) + ((RM - ptr2 M) + (ptr2 N - RN)).
    by rewrite addrA [ptr2 M - ptr2 N + _]addrC [RM - ptr2 M + _]addrA subrK addrA subrK.
  apply: le_trans (tn_tri _ _) _; [exact: hermB|by apply: hermD; exact: hermB|].
  rewrite ler_add // (le_trans (tn_tri _ _)) //; try exact: hermB.
  rewrite ler_add ?en // => i j; rewrite distrC; exact: aN.
set c : R := (d * d)%:R * _.
have ec : (d * d)%:R * atol = toC c by rewrite /c rmorphM fmorphV rmorphX /= !toC_nat.
have h : re (tn (RM - RN)) <= re (tn (M - N)) + (c + c) by rewrite -toC_le !toCD !re_tn -ec.
by rewrite -(half2 c) -mulrDr ler_pmul2l ?half_gt0.
Qed.

(* mixing: at most the same mixture of the distances *)
Theorem C81_mixture k n (p : 'I_k -> R) (x y : 'I_k -> input) (x' y' : input) (A B : 'I_k -> 'M[CR]_n) :
  (forall i, 0 <= p i) -> (forall i, density (A i)) -> (forall i, density (B i)) ->
  (forall i, cast_to_density_matrix (x i) = Ok (ofM (A i))) -> (forall i, cast_to_density_matrix (y i) = Ok (ofM (B i))) ->
  cast_to_density_matrix x' = Ok (ofM (\sum_i toC (p i) *: A i)) ->
  cast_to_density_matrix y' = Ok (ofM (\sum_i toC (p i) *: B i)) ->
  exists t : 'I_k -> R, exists2 t', (forall i, trace_distance (x i) (y i) = Ok (t i)) /\ trace_distance x' y' = Ok t' &
  t' <= \sum_i p i * t i.
Proof.
move=> p0 dA dB ex ey ex' ey'; exists (fun i => 2%:R^-1 * re (tn (A i - B i))).
eexists; first by split=> [i|]; [exact: tdE (ex i) (ey i)|exact: tdE ex' ey'].
have hD i : hermitian (A i - B i) by apply: hermB; [case: (dA i) => -[]|case: (dB i) => -[]].
have tz (c : R) X : 0 <= c -> hermitian X -> hermitian (toC c *: X) /\ tn (toC c *: X) = toC c * tn X :> CR.
  move=> c0 hX; have cc : (toC c)^* = toC c by apply/CrealP; exact: toC_real.
  split; first by rewrite /hermitian adjmZ hX cc.
  have [U uU [e _ eX]] := spectral_herm hX.
  have eZ : toC c *: X = adjm U *m diag_mx (toC c *: e) *m U by rewrite linearZ /= -scalemxAr -scalemxAl -eX.
  rewrite (tn_diag uU eX) (tn_diag uU eZ) mulr_sumr; apply: eq_bigr => i _.
  by rewrite mxE normrM ger0_norm // -[0]/(toC 0) toC_le.
have : tn (\sum_i toC (p i) *: (A i - B i)) <= \sum_i toC (p i) * tn (A i - B i) /\ hermitian (\sum_i toC (p i) *: (A i - B i)).
  apply: (big_ind2 (fun X (u : CR) => tn X <= u /\ hermitian X)).
  - have [_ h] := tn_eq0 (hermB (adjm0 _ n n) (adjm0 _ n n)); move: h; rewrite subrr => -> //; split=> //; exact: adjm0.
  - move=> X u Y v [hu hX] [hv hY]; split; last exact: hermD.
    by apply: le_trans (tn_tri hX hY) _; exact: ler_add.
  - by move=> i _; have [h1 h2] := tz _ _ _ (p0 i) (hD i); rewrite h2.
move=> [h _].
have -> : \sum_i p i * (2%:R^-1 * re (tn (A i - B i))) = 2%:R^-1 * re (\sum_i toC (p i) * tn (A i - B i)).
  rewrite raddf_sum mulr_sumr; apply: eq_bigr => i _ /=; rewrite mulrCA; congr (_ * _).
  have -> : toC (p i) * tn (A i - B i) = toC (p i * re (tn (A i - B i))) by rewrite rmorphM /= re_tn.
  by rewrite reK.
by apply: half_le; move: h; under eq_bigr do rewrite scalerBr; rewrite sumrB.
Qed.

(* ---------- products ---------- *)
Lemma akron_tens m n (A : 'M[CR]_m) (B : 'M[CR]_n) : akron (ofM A) (ofM B) = ofM (A *t B).
Proof.
apply: arrP => // i j /= hi hj; rewrite getE // -[i in RHS]/(val (Ordinal hi)) -[j in RHS]/(val (Ordinal hj)) get_ofM.
rewrite mxE -!get_ofM //.
Qed.
Lemma adjm_tens m n (A : 'M[CR]_m) (B : 'M[CR]_n) : adjm (A *t B) = adjm A *t adjm B.
Proof. by rewrite /adjm map_mxT trmx_tens. Qed.
Lemma tens11 m n : (1%:M : 'M[CR]_m) *t (1%:M : 'M[CR]_n) = 1%:M.
Proof.
apply/matrixP => r s; case: (mxtens_indexP r) => i k; case: (mxtens_indexP s) => j l; rewrite tensmxE !mxE.
by rewrite (can_eq (@mxtens_indexK _ _)) xpair_eqE -natrM mulnb.
Qed.
Lemma tn_tens m n (X : 'M[CR]_m) (C : 'M[CR]_n) : hermitian X -> hermitian C -> tn (X *t C) = tn X * tn C.
Proof.
move=> hX hC; have [U uU [e _ eX]] := spectral_herm hX; have [V uV [f _ eC]] := spectral_herm hC.
pose g : 'rV[CR]_(m * n) := \row_k (e 0 (mxtens_unindex k).1 * f 0 (mxtens_unindex k).2).
have dg : diag_mx e *t diag_mx f = diag_mx g.
  apply/matrixP => r s; rewrite !mxE; case: (mxtens_indexP r) => i k; case: (mxtens_indexP s) => j l.
  rewrite !mxtens_indexK /= (can_eq (@mxtens_indexK _ _)) xpair_eqE.
  by case: (i == j); case: (k == l); rewrite ?mulr1n ?mulr0n ?mulr0 ?mul0r.
have eT : X *t C = adjm (U *t V) *m diag_mx g *m (U *t V).
  by rewrite -dg adjm_tens !tensmx_mul -eX -eC.
have uT : unitary (U *t V) by rewrite /unitary adjm_tens tensmx_mul uU uV tens11.
rewrite (tn_diag uU eX) (tn_diag uV eC) (tn_diag uT eT) big_distrlr pair_big /=.
rewrite (reindex (@mxtens_index m n)) /=; last first.
  by exists (@mxtens_unindex m n) => k _; rewrite ?mxtens_indexK ?mxtens_unindexK.
by apply: eq_bigr => -[i j] _; rewrite mxE mxtens_indexK normrM.
Qed.

(* an independent third system changes nothing; pairs of independent systems: at most the sum *)
Theorem C81_product m n (x y z w u v : input) (A B : 'M[CR]_m) (C D : 'M[CR]_n) :
  density A -> density B -> density C -> density D ->
  cast_to_density_matrix x = Ok (ofM A) -> cast_to_density_matrix y = Ok (ofM B) ->
  cast_to_density_matrix z = Ok (ofM C) -> cast_to_density_matrix w = Ok (ofM D) ->
  cast_to_density_matrix u = Ok (akron (ofM A) (ofM C)) -> cast_to_density_matrix v = Ok (akron (ofM B) (ofM D)) ->
  (C = D -> trace_distance u v = trace_distance x y) /\
  exists t, exists s, exists2 r, [/\ trace_distance x y = Ok t, trace_distance z w = Ok s & trace_distance u v = Ok r] &
    r <= t + s.
Proof.
rewrite !akron_tens => dA dB dC dD ex ey ez ew eu ev.
have [[hA _] _] := dA; have [pB tB] := dB; have [pC tC] := dC; have [[hD _] _] := dD; have [hB _] := pB; have [hC _] := pC.
have Cl : A *t C - B *t C = (A - B) *t C by apply/matrixP => r s; rewrite !mxE mulrBl.
have Cr : B *t C - B *t D = B *t (C - D) by apply/matrixP => r s; rewrite !mxE mulrBr.
split=> [e|].
  subst D; rewrite (tdE eu ev) (tdE ex ey) Cl tn_tens //; last exact: hermB.
  by rewrite (tn_psd pC) tC mulr1.
exists (2%:R^-1 * re (tn (A - B))), (2%:R^-1 * re (tn (C - D))), (2%:R^-1 * re (tn (A *t C - B *t D))).
  by rewrite (tdE eu ev) (tdE ex ey) (tdE ez ew).
rewrite -mulrDr -raddfD; apply: half_le.
have -> : A *t C - B *t D = (A *t C - B *t C) + (B *t C - B *t D) by rewrite addrA subrK.
have ht (p q : nat) (X : 'M[CR]_p) (Y : 'M[CR]_q) : hermitian X -> hermitian Y -> hermitian (X *t Y).
  by move=> hX hY; rewrite /hermitian adjm_tens hX hY.
rewrite Cl Cr; apply: le_trans (tn_tri _ _) _; try by apply: ht => //; exact: hermB.
by rewrite !tn_tens //; try exact: hermB; rewrite (tn_psd pC) tC mulr1 (tn_psd pB) tB mul1r.
Qed.

(* ---------- wavefunctions ---------- *)
Lemma outerM (C : numClosedFieldType) n (a b : 'I_n -> C) : outer a *m outer b *m outer a = (`|\sum_i (a i)^* * b i| ^+ 2) *: outer a.
Proof.
pose c (u : 'I_n -> C) : 'cV[C]_n := \col_i u i.
have oE u : outer u = c u *m adjm (c u) by apply/matrixP => i j; rewrite !mxE big_ord1 !mxE.
have ip u v : adjm (c u) *m c v = (\sum_i (u i)^* * v i)%:M.
  apply/matrixP => i j; rewrite !ord1 !mxE eqxx mulr1n; by apply: eq_bigr => k _; rewrite !mxE.
rewrite !oE !mulmxA -(mulmxA (c a) _ (c b)) ip -(mulmxA _ _ (c a)) ip mul_mx_scalar -!scalemxAl mul_mx_scalar.
rewrite -!scalemxAl scalerA; congr (_ *: _).
rewrite normCK mulrC; congr (_ * _); rewrite rmorph_sum; apply: eq_bigr => i _; by rewrite rmorphM conjCK mulrC.
Qed.

Lemma tn_pure n (a b : 'I_n -> CR) : \sum_i `|a i| ^+ 2 = 1 -> \sum_i `|b i| ^+ 2 = 1 ->
  `|\sum_i (a i)^* * b i| <= 1 /\ tn (outer a - outer b) = 2%:R * sqrtC (1 - `|\sum_i (a i)^* * b i| ^+ 2).
Proof.
move=> na nb; set z := \sum_i (a i)^* * b i; set A := outer a; set B := outer b; set F := `|z| ^+ 2.
have self (u : 'I_n -> CR) : \sum_i `|u i| ^+ 2 = 1 -> \sum_i (u i)^* * u i = 1.
  by move=> <-; apply: eq_bigr => i _; rewrite normCKC.
have sq (u : 'I_n -> CR) : \sum_i `|u i| ^+ 2 = 1 -> outer u *m outer u = outer u.
  move=> nu; apply/matrixP => i j; rewrite !mxE.
  transitivity (u i * (u j)^* * \sum_k (u k)^* * u k); last by rewrite self // mulr1.
  by rewrite mulr_sumr; apply: eq_bigr => k _; rewrite !mxE -!mulrA; congr (_ * _); rewrite mulrA mulrC.
have AA := sq _ na; have BB := sq _ nb.
have ABA : A *m B *m A = F *: A by exact: outerM.
have BAB : B *m A *m B = F *: B.
  rewrite outerM; congr (_ *: _); congr (_ ^+ 2); rewrite -norm_conjC rmorph_sum; congr `| _ |.
  by apply: eq_bigr => i _; rewrite rmorphM conjCK mulrC.
have hA : hermitian A by case: (outer_psd a).
have hB : hermitian B by case: (outer_psd b).
have hD := hermB hA hB; set D := A - B in hD *.
have D2 : D *m D = A - A *m B - (B *m A - B) by rewrite mulmxBl !mulmxBr AA BB.
have D3 : D *m D *m D = (1 - F) *: D.
  rewrite D2 /D mulmxBr !mulmxBl AA BB ABA BAB -!(mulmxA B A A) -!(mulmxA A B B) AA BB !subrr subr0 sub0r opprB.
  by rewrite scalerBr !scalerBl !scale1r.
have tD : \tr (D *m D) = 2%:R * (1 - F).
  have tA : \tr A = 1 by rewrite outer_trace.
  have tB : \tr B = 1 by rewrite outer_trace.
  have tAB : \tr (A *m B) = F by have := congr1 mxtrace ABA; rewrite mxtrace_mulC mulmxA AA mxtraceZ tA mulr1.
  by rewrite D2 !raddfB /= [\tr (B *m A)]mxtrace_mulC tAB tA tB opprK [- F + 1]addrC mulr_natl mulr2n.
have [U uU [e re eD]] := spectral_herm hD.
have conj X Y : X *m U = Y *m U -> X = Y by move=> h; rewrite -[X]mulmx1 -[Y]mulmx1 -uU !mulmxA h.
have eD2 : D *m D = adjm U *m diag_mx (\row_i (e 0 i * e 0 i)) *m U.
  by rewrite {1 2}eD -!mulmxA (mulmxA U) uU mul1mx (mulmxA (diag_mx e)) mulmx_diag.
have te : \sum_i e 0 i * e 0 i = 2%:R * (1 - F).
  by rewrite -tD eD2 mxtrace_mulC mulmxA uU mul1mx mxtrace_diag; apply: eq_bigr => i _; rewrite mxE.
have e3 i : e 0 i * e 0 i * e 0 i = (1 - F) * e 0 i.
  have : U *m (D *m D *m D) *m adjm U = U *m ((1 - F) *: D) *m adjm U by rewrite D3.
  rewrite eD2 {1}eD {1}eD -!mulmxA uU mulmx1 (mulmxA U (adjm U)) uU mul1mx (mulmxA U (adjm U)) uU mul1mx mulmx_diag.
  rewrite -scalemxAl -scalemxAr -!mulmxA uU mulmx1 (mulmxA U) uU mul1mx => /matrixP/(_ i i).
  by rewrite !mxE eqxx !mulr1n.
have F1 : 0 <= 1 - F.
  have : 0 <= 2%:R * (1 - F) by rewrite -te sumr_ge0 // => i _; rewrite -expr2 real_exprn_even_ge0.
  by rewrite pmulr_rge0 ?ltr0n.
split; first by rewrite -(@ler_pexpn2r _ 2) ?nnegrE ?ler01 // expr1n -subr_ge0.
set s := sqrtC (1 - F); have s0 : 0 <= s by rewrite sqrtC_ge0.
have s2 : s ^+ 2 = 1 - F by exact: sqrtCK.
have en i : `|e 0 i| * s = e 0 i * e 0 i.
  case: (eqVneq (e 0 i) 0) => [->|nz]; first by rewrite normr0 !mul0r.
  have /(mulIf nz) : e 0 i * e 0 i * e 0 i = s ^+ 2 * e 0 i by rewrite e3 s2.
  rewrite -expr2 => h; have : `|e 0 i| ^+ 2 = s ^+ 2 by rewrite real_normK.
  by move/eqP; rewrite eqr_expn2 // => /eqP ->; rewrite -expr2.
rewrite (tn_diag uU eD).
have es : (\sum_i `|e 0 i|) * s = 2%:R * s * s by rewrite mulr_suml (eq_bigr _ (fun i _ => en i)) te -s2 expr2 mulrA.
case: (eqVneq s 0) => [z0|nz]; last exact: (mulIf nz).
rewrite z0 mulr0 big1 // => i _; have := en i; rewrite z0 mulr0 => /esym/eqP; rewrite mulf_eq0 orbb => /eqP ->.
exact: normr0.
Qed.

(* wavefunctions: determined by the overlap, and bounded below by the distributions of outcomes *)
Theorem C81_wavefunctions n (a b : 'I_n -> CR) : \sum_i `|a i| ^+ 2 = 1 -> \sum_i `|b i| ^+ 2 = 1 ->
  let ov : R := re `|\sum_i (a i)^* * b i| in
  exists2 c, bhattacharyya_coeff (V1 (vec a)) (V1 (vec b)) = Ok (Fin c) &
  [/\ trace_distance (V1 (vec a)) (V1 (vec b)) = Ok (Num.sqrt (1 - ov ^+ 2)), 0 <= ov <= 1, ov <= c &
      (forall i, 0 <= a i) -> (forall i, 0 <= b i) -> ov = c].
Proof.
move=> na nb ov; have [ca da] := C25_wavefunction na; have [cb db] := C25_wavefunction nb.
have [le1 eT] := tn_pure na nb.
have pa := pdf_cast ca da; have pb := pdf_cast cb db.
have [_ ddA] := pdf_density da; have [_ ddB] := pdf_density db.
have [c [t _ [[ec _] [eb _] _ _ _]]] := C30_bc pa pb ddA ddB.
have oii (u : 'I_n -> CR) i : re (outer u i i) = re `|u i| ^+ 2.
  rewrite mxE -normCK; have -> : `|u i| ^+ 2 = toC (re `|u i| ^+ 2) by rewrite rmorphX /= toC_re_norm.
  by rewrite reK.
have n0 (x : CR) : 0 <= re `|x| by apply: re0.
have {}eb : c = \sum_i re `|a i| * re `|b i|.
  rewrite eb; apply: eq_bigr => i _; rewrite !oii -exprMn sqrtr_sqr ger0_norm // mulr_ge0 //.
have tc : toC c = \sum_i `|a i| * `|b i|.
  by rewrite eb rmorph_sum; apply: eq_bigr => i _; rewrite rmorphM /= !toC_re_norm.
exists c => //; split.
- rewrite (tdE ca cb) eT; congr Ok.
  have F1 : 0 <= 1 - ov ^+ 2.
    by rewrite subr_ge0 expr_le1 ?n0 // -toC_le toC_re_norm.
  have -> : 1 - `|\sum_i (a i)^* * b i| ^+ 2 = toC (1 - ov ^+ 2).
    by rewrite rmorphB rmorphX rmorph1 /= toC_re_norm.
  rewrite toC_sqrt //.
  have -> : 2%:R * toC (Num.sqrt (1 - ov ^+ 2)) = toC (2%:R * Num.sqrt (1 - ov ^+ 2)) by rewrite rmorphM /= toC_nat.
  by rewrite reK mulrA mulVf ?mul1r // pnatr_eq0.
- by rewrite n0 -toC_le toC_re_norm.
- rewrite -toC_le toC_re_norm tc; apply: le_trans (ler_norm_sum _ _ _) _; apply: ler_sum => i _.
  by rewrite normrM norm_conjC.
move=> a0 b0; have : toC ov = toC c; last by move/(congr1 re); rewrite !reK.
rewrite toC_re_norm tc ger0_norm; last by apply: sumr_ge0 => i _; rewrite mulr_ge0 // conjC_ge0.
by apply: eq_bigr => i _; rewrite !ger0_norm // (CrealP _) // ger0_real.
Qed.

(* |0> and (|0> + |1>)/sqrt 2: overlap 1/sqrt 2 *)
Example C81_example : let h : CR := (sqrtC 2%:R)^-1 in
  trace_distance (V1 (vec (fun i : 'I_2 => (i == ord0)%:R))) (V1 (vec (fun _ : 'I_2 => h))) = Ok (Num.sqrt 2%:R^-1).
Proof.
move=> h; have h0 : 0 < h by rewrite invr_gt0 sqrtC_gt0 ltr0n.
have h2 : `|h| ^+ 2 = 2%:R^-1 by rewrite ger0_norm ?(ltW h0) // exprVn sqrtCK.
have n1 : \sum_(i < 2) `|(i == ord0)%:R : CR| ^+ 2 = 1.
  by rewrite !big_ord_recr big_ord0 /= normr1 normr0 expr1n expr0n /= add0r addr0.
have n2 : \sum_(i < 2) `|h| ^+ 2 = 1 by rewrite sumr_const card_ord h2 -[_ *+ 2]mulr_natl mulfV // pnatr_eq0.
have [c _ [-> _ _ _]] := C81_wavefunctions n1 n2; congr (Ok (Num.sqrt _)).
have -> : \sum_(i < 2) ((i == ord0)%:R : CR)^* * h = h.
  by rewrite !big_ord_recr big_ord0 !conjC_nat /= mul1r mul0r add0r addr0.
have -> : re `|h| ^+ 2 = 2%:R^-1.
  have : toC (re `|h| ^+ 2) = toC 2%:R^-1 by rewrite rmorphX /= toC_re_norm h2 fmorphV /= toC_nat.
  by move/(congr1 re); rewrite !reK.
by rewrite -{1}(half2 1) mulrDr mulr1 addrK.
Qed.
