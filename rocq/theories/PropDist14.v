(* PropDist14.v -- property C88: the two parts of a pure state: Schmidt spectra, covariance spectra and FAF *)
Set Warnings "-notation-overridden,-ambiguous-paths".
From Coq Require Import Reals.
From mathcomp Require Import all_ssreflect all_fingroup all_algebra.
From mathcomp Require Import complex.
From mathcomp.zify Require Import zify.
From Verif Require Import Base ArrC MCombinatorics MLib JW OpFam FermAlg LibFacts LibFacts2 LibFacts3 MUtils Spectral RealC Info MDist.
From Verif Require Import PropUtils1 PropUtils2 PropDist1 PropDist2 PropDist4 PropDist5 PropDist8 PropDist10 PropDist11 PropDist12.
Set Implicit Arguments.
Unset Strict Implicit.
Unset Printing Implicit Defensive.
Import Order.Theory GRing.Theory Num.Theory.
Local Open Scope ring_scope.

Local Notation input := (input CR).

(* ------------------------------------------------------------------ *)
(* X Y and Y X                                                          *)
Lemma det_swap (T : comRingType) p q (y : T) (X : 'M[T]_(p, q)) (Y : 'M[T]_(q, p)) :
  y ^+ q * \det (y%:M + X *m Y) = y ^+ p * \det (y%:M + Y *m X).
Proof.
pose P := block_mx (y%:M : 'M_p) (- X) Y (1%:M : 'M_q).
have e1 : P *m block_mx 1%:M 0 (- Y) 1%:M = block_mx (y%:M + X *m Y) (- X) 0 1%:M.
  by rewrite mulmx_block !mulmx1 !mulmx0 !mul1mx mulmxN mulNmx opprK subrr ?add0r ?addr0.
have e2 : P *m block_mx 1%:M X 0 y%:M = block_mx y%:M 0 Y (y%:M + Y *m X).
  by rewrite mulmx_block !mulmx1 !mulmx0 !mul1mx mul_scalar_mx mul_mx_scalar scalerN subrr ?addr0 ?add0r; congr block_mx; rewrite ?addNr ?addr0 1?addrC.
have d1 := congr1 determinant e1; have d2 := congr1 determinant e2.
rewrite det_mulmx det_lblock det_ublock !det1 !mulr1 in d1; rewrite det_mulmx det_lblock det_ublock det1 mul1r !det_scalar in d2.
by rewrite -d1 mulrC d2.
Qed.

Lemma char_swap (F : fieldType) p q (X : 'M[F]_(p, q)) (Y : 'M[F]_(q, p)) :
  'X^q * char_poly (X *m Y) = 'X^p * char_poly (Y *m X).
Proof.
pose c (r s : nat) (A : 'M[F]_(r, s)) : 'M[{poly F}]_(r, s) := map_mx polyC A.
have e r s (A : 'M[F]_(r, s)) (B : 'M[F]_(s, r)) : char_poly (A *m B) = \det ('X%:M + (- c _ _ A) *m c _ _ B).
  by rewrite /char_poly /char_poly_mx map_mxM mulNmx.
rewrite !e det_swap; congr (_ * \det (_ + _)); by rewrite mulmxN mulNmx.
Qed.

Lemma char_tr (F : fieldType) m (A : 'M[F]_m) : char_poly A^T = char_poly A.
Proof. by rewrite /char_poly -det_tr; congr (\det _); apply/matrixP => i j; rewrite !mxE eq_sym. Qed.

Lemma psd_eigenvalues m (A : 'M[CR]_m) : psd A -> exists s, [/\ eigenvalues A s, size s = m, all (fun z => 0 <= z) s &
  \sum_(z <- s) z = \tr A].
Proof.
move=> p; have [h _] := p; have [U uU [d _ e]] := spectral_herm h; have /(psd_diag uU e) d0 := p.
have U1 : adjm U *m U = 1%:M := mulmx1C uU.
exists [seq d 0 i | i <- enum 'I_m]; split.
- rewrite /eigenvalues -char_poly_diagR e.
  have cU : map_mx polyC (adjm U) *m map_mx polyC U = 1%:M by rewrite -map_mxM U1 map_mx1.
  rewrite /char_poly /char_poly_mx !map_mxM.
  have -> : 'X%:M = map_mx polyC (adjm U) *m 'X%:M *m map_mx polyC U by rewrite mul_mx_scalar -scalemxAl cU scalemx1.
  rewrite -mulmxBl -mulmxBr !det_mulmx mulrAC -det_mulmx cU det1 mul1r; congr (\det (_ - _)).
  by rewrite mul_mx_scalar -scalemxAl cU scalemx1.
- by rewrite size_map size_enum_ord.
- by apply/allP => z /mapP[i _ ->].
- by rewrite big_map big_enum e mxtrace_mulC mulmxA uU mul1mx mxtrace_diag.
Qed.

Lemma filter_split (s : seq CR) : perm_eq s (filter (fun z => z != 0) s ++ nseq (size s - size (filter (fun z => z != 0) s)) 0).
Proof.
rewrite -(perm_filterC (fun z => z != 0) s) perm_cat2l (_ : filter _ s = nseq (size s - size (filter (fun z => z != 0) s)) 0) //.
have -> : (size s - size (filter (fun z => z != 0%R) s))%N = size (filter (predC (fun z => z != 0)) s).
  by rewrite !size_filter -(count_predC (fun z : CR => z != 0) s) addKn.
by apply/all_pred1P/allP => z; rewrite mem_filter /= negbK => /andP[].
Qed.

(* C88: both parts of a pure state have the same non-zero eigenvalues *)
Theorem C88_schmidt d e (psi : 'I_(d * e) -> CR) : (0 < d)%N -> (0 < e)%N -> \sum_i `|psi i| ^+ 2 = 1 ->
  exists (A RA : 'M[CR]_d) (B : 'M[CR]_e) (s : seq CR),
  [/\ [/\ partial_trace_blockTr (ofM (outer psi)) d = Ok (ofM RA), forall i j, `|RA i j - A i j| <= (10%:R ^+ 8)^-1 &
          (forall i, psi i \is Num.real) -> RA = A],
      partial_trace_diagblocksum (ofM (outer psi)) e = Ok (ofM B),
      [/\ all (fun z => 0 < z) s, \sum_(z <- s) z = 1 & (size s <= minn d e)%N],
      char_poly A = \prod_(z <- s) ('X - z%:P) * 'X^(d - size s)
    & char_poly B = \prod_(z <- s) ('X - z%:P) * 'X^(e - size s)] /\ \tr (A *m A) = \tr (B *m B).
Proof.
move=> d0 e0 n1; have [RA eR [R1 R2 _ _]] := C21_blockTr (outer psi) d0.
exists (ptr2 (outer psi)), RA, (ptr1 (outer psi)).
pose W : 'M[CR]_(d, e) := \matrix_(i, k) psi (prI i k).
have eA : ptr2 (outer psi) = W *m adjm W.
  by apply/matrixP => i j; rewrite !mxE; apply: eq_bigr => k _; rewrite !mxE.
have eB : ptr1 (outer psi) = (adjm W *m W)^T.
  by apply/matrixP => i j; rewrite !mxE; apply: eq_bigr => k _; rewrite !mxE mulrC.
have pA := ptr2_psd (outer_psd psi); have pB := ptr1_psd (outer_psd psi).
have [sA [hA zA gA tA]] := psd_eigenvalues pA; have [sB [hB zB gB tB]] := psd_eigenvalues pB.
rewrite ptr2_trace outer_trace n1 in tA; rewrite ptr1_trace outer_trace n1 in tB.
have pm : perm_eq (nseq e 0 ++ sA) (nseq d 0 ++ sB).
  apply: prod_perm; rewrite !big_cat /= -hA -hB !big_nseq !iter_mulr_1 !subr0 eA eB char_tr; exact: char_swap.
pose s := filter (fun z => z != 0) sA.
have ps : perm_eq s (filter (fun z => z != 0) sB).
  have := perm_filter (fun z => z != 0) pm; rewrite !filter_cat.
  have z (k : nat) : filter (fun z : CR => z != 0) (nseq k 0) = [::] by elim: k => //= k ->; rewrite eqxx.
  by rewrite !z.
have cp m (M : 'M[CR]_m) t : eigenvalues M t -> size t = m -> perm_eq s (filter (fun z => z != 0) t) ->
    char_poly M = \prod_(z <- s) ('X - z%:P) * 'X^(m - size s).
  move=> -> <- p; rewrite (perm_big _ (filter_split t)) big_cat /= (perm_size p) -(perm_big _ p) big_nseq iter_mulr_1 subr0; done.
exists s; split; last first.
  by rewrite eA eB -trmx_mul mxtrace_tr !mulmxA mxtrace_mulC !mulmxA.
split.
- split=> // rp; apply: R2 => i j; rewrite mxE rpred_sum // => k _; rewrite mxE rpredM ?rp // (CrealP (rp _)); exact: rp.
- exact: C21_diagblocksum.
- split.
  + by apply/allP => z; rewrite mem_filter lt0r => /andP[-> /(allP gA)].
  + rewrite -[RHS]tA big_filter [RHS](bigID (fun z => z != 0)) /= [X in _ + X]big1 ?addr0 // => z; by rewrite negbK => /eqP.
  + by rewrite leq_min {2}(perm_size ps) !size_filter -{1}zA -zB !count_size.
- by apply: cp hA zA _; exact: perm_refl.
- exact: cp hB zB ps.
Qed.

(* ------------------------------------------------------------------ *)
(* covariance matrices of the two parts of a pure Gaussian state        *)
Section Parts.
Variables (n m : nat) (M : 'M[CR]_(2 ^ n * 2 ^ m)).
Let K := covM (joint M).
Let A := covM (ptr2 M).
Let D := covM (ptr1 M).
Let C : 'M[R]_(2 * m, 2 * n) := \matrix_(i, j) K (ib n i) (ia m j).

Lemma covM_fst i j : K (ia m i) (ia m j) = A i j.
Proof. by rewrite /K /A mxE [covC _ _ _]mxE !(joint_aa M (@gam_fst n m)) [RHS]mxE [covC _ _ _]mxE. Qed.
Lemma covM_snd i j : K (ib n i) (ib n j) = D i j.
Proof. by rewrite /K /D mxE [covC _ _ _]mxE !(joint_bb M (@gam_snd n m)) [RHS]mxE [covC _ _ _]mxE. Qed.

Lemma sum_place (F : 'I_(2 * (n + m)) -> R) : \sum_k F k = \sum_i F (ia m i) + \sum_j F (ib n j).
Proof.
have c : (#|'I_(2 * (n + m))| <= #|'I_(2 * n + 2 * m)|)%N by rewrite !card_ord; lia.
have bj : bijective (@place n m) := inj_card_bij (@place_inj n m) c.
rewrite (reindex (@place n m)) /=; last exact: onW_bij.
rewrite big_split_ord /=; congr (_ + _); apply: eq_bigr => i _; congr F; rewrite /place.
  by case: splitP => j e; [congr (ia m _); apply: val_inj|exfalso; have := ltn_ord i; rewrite /= in e; lia].
by case: splitP => j e; [exfalso; have := ltn_ord j; rewrite /= in e; lia|congr (ib n _); apply: val_inj; move/eqP: e; rewrite eqn_add2l => /eqP].
Qed.

Hypothesis KK : K^T *m K = 1%:M.

Lemma part_fst : A^T *m A + C^T *m C = 1%:M.
Proof.
apply/matrixP => i j; have /matrixP/(_ (ia m i) (ia m j)) := KK; rewrite [LHS]mxE sum_place [X in _ = X -> _]mxE => h.
have e : (ia m i == ia m j) = (i == j).
  by apply/eqP/eqP => [/(congr1 val) /=|-> //]; have := ltn_ord i; have := ltn_ord j; case: (ltnP i n); case: (ltnP j n) => *; apply: val_inj => /=; lia.
rewrite e in h; rewrite [RHS]mxE -h [LHS]mxE; congr (_ + _); rewrite mxE; apply: eq_bigr => k _.
  by rewrite ![(_)^T _ _]mxE !covM_fst.
by rewrite ![(_)^T _ _]mxE [C _ _]mxE [C _ _]mxE.
Qed.

Lemma part_snd : D^T *m D + C *m C^T = 1%:M.
Proof.
apply/matrixP => i j; have /matrixP/(_ (ib n i) (ib n j)) := KK; rewrite [LHS]mxE sum_place [X in _ = X -> _]mxE => h.
have e : (ib n i == ib n j) = (i == j).
  by apply/eqP/eqP => [/(congr1 val) /=|-> //]; have := ltn_ord i; have := ltn_ord j; case: (ltnP i m); case: (ltnP j m) => *; apply: val_inj => /=; lia.
have an k l : K k l = - K l k by have /matrixP/(_ l k) := covM_anti (joint M); rewrite mxE [X in _ = X -> _]mxE.
rewrite e in h; rewrite [RHS]mxE -h [LHS]mxE addrC; congr (_ + _); rewrite mxE; apply: eq_bigr => k _.
  by rewrite ![(_)^T _ _]mxE [C _ _]mxE [C _ _]mxE (an (ia m k) (ib n i)) (an (ia m k) (ib n j)) mulrNN.
by rewrite ![(_)^T _ _]mxE !covM_snd.
Qed.

Lemma part_spec s t : eigenvalues (A^T *m A) s -> eigenvalues (D^T *m D) t -> perm_eq (s ++ nseq (2 * m) 1) (t ++ nseq (2 * n) 1).
Proof.
move=> hs ht; apply: prod_perm; rewrite !big_cat /= -hs -ht !big_nseq !iter_mulr_1.
have e p q (X : 'M[R]_p) (Y : 'M[R]_(p, q)) (Z : 'M[R]_(q, p)) : X + Y *m Z = 1%:M ->
    char_poly X = \det (('X - 1%:P)%:M + map_mx polyC Y *m map_mx polyC Z).
  move=> h; have -> : X = 1%:M - Y *m Z by rewrite -h addrK.
  rewrite /char_poly /char_poly_mx map_mxB map_mxM map_scalar_mx; congr (\det _).
  by rewrite opprB addrCA -raddfB /= addrC.
by rewrite (e _ _ _ _ _ part_fst) (e _ _ _ _ _ part_snd) mulrC [RHS]mulrC det_swap.
Qed.
End Parts.

Lemma density_cast p q (e : p = q) (M : 'M[CR]_p) : density M -> density (castmx (e, e) M).
Proof. by case: _ / e => h; rewrite castmx_id. Qed.

(* C88: the two parts of a state of zero anti-flatness have the same distribution, up to ones, and the same anti-flatness *)
Theorem C88_FAF schur n m (x y z : input) (M : 'M[CR]_(2 ^ n * 2 ^ m)) k0 : schur_spec schur -> density M ->
  cast_to_density_matrix z = Ok (ofM M) -> (0 < k0)%N -> FAF schur z k0 = Ok 0 ->
  cast_to_density_matrix x = Ok (ofM (ptr2 M)) -> cast_to_density_matrix y = Ok (ofM (ptr1 M)) ->
  (exists l1 l2, [/\ cov_distribution schur x = Ok l1, cov_distribution schur y = Ok l2 &
    perm_eq (l1 ++ nseq m 1) (l2 ++ nseq n 1)]) /\
  forall k, (0 < k)%N -> exists2 f, FAF schur x k = Ok f & FAF schur y k = Ok f.
Proof.
move=> sP dM ez k00 z0 ex ey; rewrite -(jointE M) in ez.
have dJ : density (joint M) by apply: density_cast.
have KK := (C36_zero sP ez dJ k00).1 z0.
have dA : density (ptr2 M) by case: dM => p t; split; [exact: ptr2_psd|rewrite ptr2_trace].
have dB : density (ptr1 M) by case: dM => p t; split; [exact: ptr1_psd|rewrite ptr1_trace].
have [[s1 e1] [l1 h1 c1]] := C82_spectrum sP ex dA; have [[s2 e2] [l2 h2 c2]] := C82_spectrum sP ey dB.
have pm := part_spec KK e1 e2.
have pl : perm_eq (l1 ++ nseq m 1) (l2 ++ nseq n 1).
  apply: perm_half => v; have /seq.permP/(_ (pred1 v)) := pm; rewrite !count_cat !count_nseq.
  have := c1 _ e1 v; have := c2 _ e2 v.
  case: ifP => [_|lv].
    by move=> q2 q1 q; rewrite !mulnDr (mulnCA 2%N _ m) (mulnCA 2%N _ n); apply: etrans (etrans q _); [congr (_ + _)%N|congr (_ + _)%N].
  have -> : pred1 v 1 = false.
    by apply/negP => /eqP v1; rewrite -v1 invf_lt1 ?exprn_gt0 ?ltr0n // exprn_egt1 ?ltr1n in lv.
  by move=> q2 q1 _; rewrite !mul0n !addn0; apply: etrans q1 _.
split.
  exists [seq toC u | u <- l1], [seq toC u | u <- l2]; split=> //.
  have := perm_map toC pl; rewrite !map_cat !map_nseq rmorph1; done.
move=> k kp; exists (n%:R - \sum_(u <- l1) u ^+ k).
  exact: (FAF_sum ex dA kp (dist_ge0 sP ex dA h1) h1).
apply: etrans (FAF_sum ey dB kp (dist_ge0 sP ey dB h2) h2) _; congr Ok.
have := perm_big _ pl : \sum_(u <- l1 ++ nseq m 1) u ^+ k = \sum_(u <- l2 ++ nseq n 1) u ^+ k.
rewrite !big_cat /= !big_nseq !iter_addr_0 !expr1n => h.
by apply/eqP; rewrite subr_eq addrAC eq_sym subr_eq; rewrite addrC [X in _ == X]addrC h addrC.
Qed.

(* the same with the partial traces of the code *)
Theorem C88_code schur n m (z : input) (M : 'M[CR]_(2 ^ n * 2 ^ m)) k0 : schur_spec schur -> density M ->
  cast_to_density_matrix z = Ok (ofM M) -> (0 < k0)%N -> FAF schur z k0 = Ok 0 ->
  (forall i j, ptr2 M i j \is Num.real) \/ (exists i j, (10%:R ^+ 8)^-1 < `|'Im (ptr2 M i j)|) ->
  exists A B : arr CR, [/\ partial_trace_blockTr (ofM M) (2 ^ n) = Ok A, partial_trace_diagblocksum (ofM M) (2 ^ m) = Ok B &
    forall k, (0 < k)%N -> exists2 f, FAF schur (V2 A) k = Ok f & FAF schur (V2 B) k = Ok f].
Proof.
move=> sP dM ez k00 z0 re_im; have [RA eR [_ R2 R3 _]] := C21_blockTr M (pow2_gt0 n).
have e : RA = ptr2 M by case: re_im => h; [exact: R2|exact: R3].
have dA : density (ptr2 M) by case: dM => p t; split; [exact: ptr2_psd|rewrite ptr2_trace].
have dB : density (ptr1 M) by case: dM => p t; split; [exact: ptr1_psd|rewrite ptr1_trace].
have [_ h] := C88_FAF sP dM ez k00 z0 (C25_density dA) (C25_density dB).
exists (ofM RA), (ofM (ptr1 M)); split=> // [|k kp]; first exact: (C21_diagblocksum _ (pow2_gt0 m)).
by rewrite e; exact: h.
Qed.

(* a Bell state: both parts are maximally mixed *)
Definition bell (i : 'I_(2 * 2)) : CR := if (val i == 0%N) || (val i == 3%N) then (sqrtC 2%:R)^-1 else 0.
Lemma bell_parts_gen (C : numClosedFieldType) (c h : C) (w := fun i : 'I_(2 * 2) => if (val i == 0%N) || (val i == 3%N) then c else 0) :
  c * c^* = h -> ptr2 (outer w) = h%:M /\ ptr1 (outer w) = h%:M.
Proof.
move=> h2; split; apply/matrixP => i j; rewrite !mxE big_ord_recl big_ord1 !mxE /w.
  by case: i j => [[|[|]]] //= hi [[|[|]]] //= hj; rewrite ?mul0r ?rmorph0 ?mulr0 ?addr0 ?add0r ?h2 ?mulr1n ?mulr0n.
by case: i j => [[|[|]]] //= hi [[|[|]]] //= hj; rewrite ?mul0r ?rmorph0 ?mulr0 ?addr0 ?add0r ?h2 ?mulr1n ?mulr0n.
Qed.
Example C88_bell : \sum_i `|bell i| ^+ 2 = 1 /\
  ptr2 (outer bell) = 2%:R^-1%:M /\ ptr1 (outer bell) = 2%:R^-1%:M /\
  char_poly (ptr2 (outer bell)) = ('X - (2%:R^-1)%:P) ^+ 2.
Proof.
have h2 : (sqrtC 2%:R)^-1 * ((sqrtC 2%:R)^-1 : CR)^* = 2%:R^-1.
  have r : ((sqrtC 2%:R)^-1 : CR)^* = (sqrtC 2%:R)^-1 by apply/CrealP; rewrite rpredV ger0_real // sqrtC_ge0 ler0n.
  by rewrite r -invfM -expr2 sqrtCK.
have [e2 e1] := bell_parts_gen h2.
split.
  by rewrite -outer_trace -ptr2_trace e2 mxtrace_scalar -mulr_natl mulfV // pnatr_eq0.
split=> //; split=> //; rewrite e2 /char_poly /char_poly_mx map_scalar_mx -raddfB /= det_scalar; done.
Qed.

(* every free-fermion rotation of the vacuum of n + m sites *)
Example C88_rotated schur n m (x y : input) (W : 'M[CR]_(2 ^ (n + m))) O (M : 'M[CR]_(2 ^ n * 2 ^ m)) k : schur_spec schur ->
  unitary W -> implements W O -> joint M = W *m vacuum (n + m) *m adjm W -> density M -> (0 < k)%N ->
  cast_to_density_matrix x = Ok (ofM (ptr2 M)) -> cast_to_density_matrix y = Ok (ofM (ptr1 M)) -> FAF schur x k = FAF schur y k.
Proof.
move=> sP uW iW eM dM k0 ex ey; have ez := C25_density dM.
have z0 : FAF schur (V2 (ofM M)) k = Ok 0 by apply: (C36_gaussian sP uW iW k0); rewrite -eM jointE.
by have [_ /(_ k k0)[f -> ->]] := C88_FAF sP dM ez k0 z0 ex ey.
Qed.
