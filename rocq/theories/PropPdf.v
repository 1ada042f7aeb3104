(* PropPdf.v -- property C77: the series plotted by analyze_pdf *)
Set Warnings "-notation-overridden,-ambiguous-paths".
From Coq Require Import Reals Lra.
From mathcomp Require Import all_ssreflect all_algebra.
From mathcomp Require Import complex.
From mathcomp.zify Require Import zify.
From Verif Require Import Base ArrC MUtils MClean PropClean MGraphR RealC OpFam Spectral PropLib3 PropEigh1 PropUtils2 MPdf.
Set Implicit Arguments.
Unset Strict Implicit.
Unset Printing Implicit Defensive.
Import Order.Theory GRing.Theory Num.Theory.

(* rounding is monotone *)
Lemma rnd_mono x y : Rle x y -> Z.le (rnd x) (rnd y).
Proof.
move=> h; case: (Z.le_gt_cases (rnd x) (rnd y)) => // lt.
have l : Z.le (Z.add (rnd y) 1) (rnd x) by apply: Zlt_le_succ.
have {}l := IZR_le _ _ l; rewrite plus_IZR in l.
have e : x = y.
  apply: Rle_antisym => //; move: (rnd_spec x) (rnd_spec y); rewrite /Rabs; do 2 case: Rcase_abs => ?; lra.
by move: lt; rewrite e => /Z.lt_irrefl.
Qed.
Lemma np_round_mono x y k : Rle x y -> Rle (np_round x k) (np_round y k).
Proof.
move=> h; apply: Rmult_le_compat_r; first by left; apply: Rinv_0_lt_compat; exact: p10_gt0.
apply: IZR_le; apply: rnd_mono; apply: Rmult_le_compat_r => //; by left; exact: p10_gt0.
Qed.

(* half a unit of the sixth decimal *)
Definition hp : R := Rdiv (p10 (Z.opp 6)) (IZR 2).
Lemma hp2 : Rplus hp hp = p10 (Z.opp 6).
Proof. rewrite /hp; field. Qed.
Lemma round_bounds x : Rle (np_round x 6) (Rplus x hp) /\ Rle x (Rplus (np_round x 6) hp).
Proof. by have := np_round_err x 6; rewrite /hp /Rabs; case: Rcase_abs => h1 h2; split; lra. Qed.

Lemma round_half : np_round (Rinv (IZR 2)) 6 = Rinv (IZR 2).
Proof.
have -> : Rinv (IZR 2) = Rmult (IZR 500000) (p10 (Z.opp 6)).
  by rewrite /p10 /=; field.
exact: np_round_fix.
Qed.

Local Open Scope ring_scope.

(* ------------------------------------------------------------------ *)
(* Schur: the diagonal of a Hermitian matrix is majorised by its eigenvalues *)
(* ------------------------------------------------------------------ *)
Section Majorise.
Variable C : numClosedFieldType.

Definition pos (x : C) := if 0 <= x then x else 0.
Lemma pos_ge (w x : C) : x \is Num.real -> 0 <= w <= 1 -> w * x <= pos x.
Proof.
move=> rx /andP[w0 w1]; rewrite /pos; case: ifP => h; first by rewrite ler_pimull.
have x0 : x <= 0 by case: (real_ge0P rx) h => // /ltW.
by rewrite mulr_ge0_le0.
Qed.

Lemma schur_major n (M : 'M[C]_n) (ev : seq C) : hermitian M ->
  all (fun x => x \is Num.real) ev -> sorted <=%O ev -> size ev = n -> char_poly M = \prod_(x <- ev) ('X - x%:P) ->
  forall I : {set 'I_n}, \sum_(i in I) M i i <= \sum_(k < #|I|) nth 0 (rev ev) k.
Proof.
move=> hM /allP re se sz ch I.
have [U uU [d rd eM]] := spectral_herm hM.
have pm : perm_eq [seq d 0 j | j <- enum 'I_n] ev.
  apply: prod_XsubC_perm; rewrite -ch (char_poly_conj uU eM) char_poly_diag big_map enumT.
  by apply: eq_bigr.
have [k0|kp] := posnP #|I|.
  by rewrite k0 big_ord0; move/eqP: k0; rewrite cards_eq0 => /eqP->; rewrite big_set0.
set k := #|I| in kp *; set r := rev ev.
have kn : (k <= n)%N by rewrite -[n]card_ord max_card.
have szr : size r = n by rewrite size_rev.
have rr i : (i < n)%N -> nth 0 r i \is Num.real.
  by move=> hi; apply: re; rewrite -mem_rev mem_nth // szr.
have sr i j : (i <= j)%N -> (j < n)%N -> nth 0 r j <= nth 0 r i.
  move=> ij jn; rewrite !nth_rev ?sz //; try lia.
  by apply: (sorted_leq_nth le_trans le_refl) => //; rewrite ?inE ?sz; lia.
pose c := nth 0 r k.-1; have rc : c \is Num.real by apply: rr; lia.
pose w j := \sum_(i in I) `|U j i| ^+ 2.
have eS : \sum_(i in I) M i i = \sum_j w j * d 0 j.
  rewrite /w; under [RHS]eq_bigr do rewrite mulr_suml.
  rewrite exchange_big /=; apply: eq_bigr => i _.
  rewrite eM -mulmxA mxE; apply: eq_bigr => j _.
  by rewrite mul_diag_mx !mxE normCK mulrCA [RHS]mulrC [_^* * _]mulrC.
have colU i : \sum_j `|U j i| ^+ 2 = 1.
  have := congr1 (fun A : 'M[C]_n => A i i) (unitaryC uU); rewrite !mxE eqxx mulr1n => <-.
  by apply: eq_bigr => j _; rewrite !mxE normCK mulrC.
have rowU j : \sum_i `|U j i| ^+ 2 = 1.
  have := congr1 (fun A : 'M[C]_n => A j j) uU; rewrite !mxE eqxx mulr1n => <-.
  by apply: eq_bigr => i _; rewrite !mxE normCK.
have w01 j : 0 <= w j <= 1.
  rewrite sumr_ge0 /= => [|i _]; last by rewrite exprn_ge0.
  rewrite -(rowU j) /w [X in _ <= X](bigID (mem I)) /= ler_addl sumr_ge0 // => i _; by rewrite exprn_ge0.
have ws : \sum_j w j = k%:R.
  rewrite /w exchange_big /= (eq_bigr (fun=> 1)) => [|i _]; last exact: colU.
  by rewrite sumr_const.
have -> : \sum_(i in I) M i i = \sum_j w j * (d 0 j - c) + k%:R * c.
  by rewrite eS -ws mulr_suml -big_split; apply: eq_bigr => j _; rewrite /= mulrBr subrK.
have dr := rd.
have le1 : \sum_j w j * (d 0 j - c) <= \sum_j pos (d 0 j - c).
  by apply: ler_sum => j _; apply: pos_ge => //; rewrite rpredB.
apply: (le_trans (ler_add le1 (lexx _))).
have -> : \sum_j pos (d 0 j - c) = \sum_(i < n) pos (nth 0 r i - c).
  transitivity (\sum_(x <- ev) pos (x - c)); first by rewrite -(perm_big _ pm) /= big_map enumT.
  rewrite -(perm_big _ (permEl (perm_rev ev))) /= -/r (big_nth 0) szr big_mkord //.
rewrite (bigID (fun i : 'I_n => (i < k)%N)) /= [X in _ + X + _]big1 ?addr0 => [|i hi]; last first.
  have h : nth 0 r i <= c by apply: sr => //; lia.
  rewrite /pos; case: ifP => // h'; apply/eqP; rewrite eq_le h' andbT subr_le0 //.
have -> : k%:R * c = \sum_(i < n | (i < k)%N) c.
  by rewrite -(big_ord_widen n (fun=> c) kn) sumr_const card_ord mulr_natl.
rewrite -big_split /= (big_ord_widen n (fun i => nth 0 r i) kn); apply: ler_sum => i hi.
by rewrite /pos subr_ge0 sr ?subrK //; lia.
Qed.

Lemma tr_eigen n (M : 'M[C]_n) (ev : seq C) : hermitian M -> char_poly M = \prod_(x <- ev) ('X - x%:P) ->
  \tr M = \sum_(x <- ev) x.
Proof.
move=> hM ch; have [U uU [d rd eM]] := spectral_herm hM.
have pm : perm_eq [seq d 0 j | j <- enum 'I_n] ev.
  apply: prod_XsubC_perm; rewrite -ch (char_poly_conj uU eM) char_poly_diag big_map enumT.
  by apply: eq_bigr.
rewrite -(perm_big _ pm) /= big_map enumT eM mxtrace_mulC mulmxA uU mul1mx mxtrace_diag.
by apply: eq_bigr.
Qed.

(* the smallest eigenvalue is below every diagonal entry *)
Lemma schur_min n (M : 'M[C]_n) (ev : seq C) : hermitian M ->
  all (fun x => x \is Num.real) ev -> sorted <=%O ev -> size ev = n -> char_poly M = \prod_(x <- ev) ('X - x%:P) ->
  forall i, nth 0 (rev ev) n.-1 <= M i i.
Proof.
move=> hM re se sz ch i.
have h := schur_major hM re se sz ch (~: [set i]).
have ci : #|~: [set i]| = n.-1 by rewrite cardsC1 card_ord.
have t : \sum_(j in ~: [set i]) M j j + M i i = \sum_(k < n.-1) nth 0 (rev ev) k + nth 0 (rev ev) n.-1.
  transitivity (\tr M).
    rewrite /mxtrace [RHS](bigD1 i) //= addrC; congr (_ + _); apply: eq_bigl => j; by rewrite !inE.
  rewrite (tr_eigen hM ch) -(perm_big _ (permEl (perm_rev ev))) /= (big_nth 0) size_rev sz.
  have e : n = n.-1.+1 by have := ltn_ord i; lia.
  by rewrite [in index_iota 0 n]e big_nat_recr //= big_mkord.
rewrite ci in h; have := ler_add (lexx (nth 0 (rev ev) n.-1)) h.
by rewrite [X in _ <= X]addrC -t [X in _ <= X]addrC ler_add2r.
Qed.

Lemma bits_sorted (s : seq C) : all (fun x => (x == 0) || (x == 1)) s -> sorted <=%O s ->
  exists b, s = nseq (size s - b) 0 ++ nseq b 1 /\ b%:R = \sum_(x <- s) x.
Proof.
elim: s => [|x s IH] /=; first by exists 0%N; rewrite big_nil.
move=> /andP[hx hs] ps; have [b [es eb]] := IH hs (path_sorted ps).
case/orP: hx => /eqP ex.
  exists b; rewrite big_cons ex add0r -eb; split=> //.
  have hb : (b <= size s)%N by rewrite es size_cat !size_nseq leq_addl.
  by rewrite subSn //= {1}es.
have a1 : all (pred1 1) s.
  apply/allP => y hy /=; have := allP (order_path_min le_trans ps) y hy; rewrite ex.
  by have /orP[/eqP ->|//] := allP hs y hy; rewrite ler10.
exists (size s).+1; rewrite subnn /= big_cons ex; have es1 := all_pred1P _ _ a1.
rewrite {1}es1; split=> //.
have -> : \sum_(y <- s) y = (size s)%:R by rewrite {1}es1 big_nseq iter_addr addr0.
by rewrite mulrS.
Qed.

Lemma pure_eigen n (M : 'M[C]_n) (ev : seq C) : hermitian M -> M *m M = M -> \tr M = 1 ->
  all (fun x => x \is Num.real) ev -> sorted <=%O ev -> size ev = n -> char_poly M = \prod_(x <- ev) ('X - x%:P) ->
  rev ev = 1 :: nseq n.-1 0.
Proof.
move=> hM M2 t re se sz ch.
have [|b [e eb]] := bits_sorted (s := ev) _ se.
  apply/allP => x hx; have : eigenvalue M x by rewrite eigenvalue_root_char ch root_prod_XsubC.
  move=> /eigenvalueP[v ev' v0]; have : (x * x) *: v = x *: v by rewrite -scalerA -ev' scalemxAl -ev' -mulmxA M2.
  move=> h; have : (x * (x - 1)) *: v == 0 by rewrite mulrBr mulr1 scalerBl h subrr.
  by rewrite scaler_eq0 (negbTE v0) orbF mulf_eq0 subr_eq0.
move: eb; rewrite -(tr_eigen hM ch) t => /eqP; rewrite -[1]/(1%:R) eqr_nat => /eqP b1.
by rewrite e b1 sz rev_cat !rev_nseq subn1.
Qed.
End Majorise.

Local Notation input := (input CR).

Lemma lmapE (S T : Type) (f : S -> T) (l : seq S) : List.map f l = [seq f x | x <- l].
Proof. by elim: l => //= x l ->. Qed.

Lemma all_small0 t (l : seq (R * R)) : Rlt 0 t -> all (fun z => z.2 == 0) l -> all_small_im t l = true.
Proof.
move=> t0; elim: l => //= -[a b] l IH /= /andP[/eqP -> h]; rewrite IH // andbT.
by case: Rlt_dec => // n; case: n; rewrite Rabs_R0.
Qed.

Lemma clean_arr sh cx (l : seq (R * R)) : all (fun z => z.2 == 0) l ->
  clean_default (OArr sh cx l) = Ok (OArr sh false [seq (np_round z.1 6, 0) | z <- l]).
Proof.
move=> h; rewrite /clean_default /clean_num (C23_power_threshold _ _ _ 6) /clean /digits all_small0 ?lmapE //; exact: p10_gt0.
Qed.

Lemma validate_ok (A r : arr CR) : validate_state A = Ok r -> r = A /\ nr A = nc A.
Proof.
rewrite /validate_state; case: eqP => //= e; do 3 (case: (assertM _) => //= _).
by case=> <-; split.
Qed.
Lemma cast_vector_size (v : seq CR) r : cast_vector v = Ok r -> nr r = size v.
Proof.
rewrite /cast_vector; case: ifP => _; last by case: ifP => // _ /validate_ok[-> _].
by rewrite /amul_chk /= => /validate_ok[-> _].
Qed.
Lemma cast_size (x : input) r : cast_to_density_matrix x = Ok r -> in_size x = 0%N -> nr r = 0%N.
Proof.
case: x => [v|A] /= => [/cast_vector_size->//|]; case: ifP => _.
  by move=> /cast_vector_size ->; rewrite size_map size_iota.
by move=> /validate_ok[-> ->] /eqP; rewrite muln_eq0 orbb => /eqP.
Qed.

Section Plot.
Variable ev : arr CR -> seq CR.
Hypothesis evP : eigvalsh_spec ev.

Theorem C77_series n (x : input) (M : 'M[CR]_n) stem : cast_to_density_matrix x = Ok (ofM M) -> density M ->
  analyze_pdf ev (Some x) stem =
  Ok (stem, OArr [:: n] false [seq (np_round (re (M i i)) 6, 0) | i <- enum 'I_n],
      rev [seq np_round (re e) 6 | e <- ev (ofM M)]).
Proof.
move=> e [pM tM].
have n0 : (0 < n)%N.
  case: n M e pM tM => // M _ _ /eqP; by rewrite /mxtrace big_ord0 eq_sym oner_eq0.
have [hM _] := pM.
have [ea es sz ch] := evP n0 hM.
rewrite /analyze_pdf; case: eqP => [/(cast_size e) /= z|_]; first by rewrite z in n0.
have im0 (z : CR) : z \is Num.real -> im z = 0 by move=> h; rewrite -(toC_re h) im_toC.
have rM i : M i i \is Num.real by apply/CrealP; rewrite -{2}hM !mxE.
rewrite e /= /carr1 /rarr1 size_map size_iota !clean_arr /=.
- congr (Ok (_, OArr _ _ _, rev _)).
    rewrite -val_enum_ord -[LHS]map_comp -[LHS]map_comp -[LHS]map_comp; apply: eq_map => i; by rewrite /= ofM_get.
  rewrite /np_sort -!map_comp sorted_sort //; first exact: le_trans.
  move: es ea; case: (ev (ofM M)) => //= y l; elim: l y => //= z l IH y /andP[yz h] /and3P[ry rz h'].
  by rewrite IH ?rz // andbT; apply/RleP; apply: np_round_mono; apply/RleP; exact: re_le.
- by rewrite all_map; apply/allP => z _ /=.
rewrite !all_map; apply/allP => i; rewrite mem_iota => /= hi; apply/eqP.
have -> : get (ofM M) i i = M (Ordinal hi) (Ordinal hi) by rewrite -ofM_get.
exact: im0.
Qed.

Theorem C77_majorised n (x : input) (M : 'M[CR]_n) stem sh cx red black : cast_to_density_matrix x = Ok (ofM M) -> density M ->
  analyze_pdf ev (Some x) stem = Ok (stem, OArr sh cx red, black) ->
  [/\ size red = n /\ size black = n, cx = false /\ sorted (fun a b => b <= a) black,
      forall i, (i < n)%N -> nth 0 black n.-1 <= (nth (0, 0) red i).1 <= nth 0 black 0,
      forall i : 'I_n, 2%:R * `|(nth (0, 0) red i).1 - re (M i i)| <= p10 (- 6) &
      forall I : {set 'I_n}, \sum_(i in I) (nth (0, 0) red i).1 <= \sum_(k < #|I|) nth 0 black k + #|I|%:R * p10 (- 6)].
Proof.
move=> e dM; rewrite (C77_series _ e dM) => -[_ <- <- <-].
have [pM tM] := dM; have [hM _] := pM.
have n0 : (0 < n)%N.
  case: (n) (M) tM => // N /eqP; by rewrite /mxtrace big_ord0 eq_sym oner_eq0.
have [ea es sz ch] := evP n0 hM.
have rM i : M i i \is Num.real by apply/CrealP; rewrite -{2}hM !mxE.
have er (i : 'I_n) : nth (0 : R, 0 : R) [seq (np_round (re (M i i)) 6, 0 : R) | i <- enum 'I_n] i = (np_round (re (M i i)) 6, 0 : R).
  by rewrite (nth_map i) ?size_enum_ord // nth_ord_enum.
have eb k : (k < n)%N -> nth 0 (rev [seq np_round (re e) 6 | e <- ev (ofM M)]) k = np_round (re (nth 0 (rev (ev (ofM M))) k)) 6.
  by move=> hk; rewrite -map_rev (nth_map 0) // size_rev sz.
have rb (y : R) : np_round y 6 <= y + hp /\ y <= np_round y 6 + hp.
  by have [h1 h2] := round_bounds y; split; apply/RleP.
split.
- by rewrite size_map size_rev size_map sz size_enum_ord.
- split=> //; rewrite rev_sorted.
  move: es ea; case: (ev (ofM M)) => //= y l; elim: l y => //= z l IH y /andP[yz h] /and3P[ry rz h'].
  by rewrite IH ?rz // andbT; apply/RleP; apply: np_round_mono; apply/RleP; exact: re_le.
- move=> i hi; rewrite (er (Ordinal hi)) /= !eb //; last by lia.
  have h1 := schur_min hM ea es sz ch (Ordinal hi).
  have h2 := schur_major hM ea es sz ch [set Ordinal hi]; rewrite cards1 big_set1 big_ord1 in h2.
  by apply/andP; split; apply/RleP; apply: np_round_mono; apply/RleP; apply: re_le.
- move=> i; rewrite er /=; have [h1 h2] := rb (re (M i i)).
  have h : `|np_round (re (M i i)) 6 - re (M i i)| <= hp.
    by rewrite ler_norml ler_subl_addl h1 andbT ler_subr_addl ler_subl_addr.
  by have := ler_add h h; rewrite -[Y in _ <= Y]/(Rplus hp hp) hp2 -mulr2n mulr_natl.
move=> I; have h := schur_major hM ea es sz ch I.
have kn : (#|I| <= n)%N by have := max_card (mem I); rewrite card_ord.
have l1 : \sum_(i in I) (nth (0 : R, 0 : R) [seq (np_round (re (M i i)) 6, 0 : R) | i <- enum 'I_n] i).1 <= re (\sum_(i in I) M i i) + hp *+ #|I|.
  rewrite raddf_sum -sumr_const -big_split /=; apply: ler_sum => i _; rewrite er; exact: (rb _).1.
have l2 : re (\sum_(k < #|I|) nth 0 (rev (ev (ofM M))) k) <= 
    \sum_(k < #|I|) nth 0 (rev [seq np_round (re e) 6 | e <- ev (ofM M)]) k + hp *+ #|I|.
  rewrite raddf_sum (_ : hp *+ #|I| = \sum_(k < #|I|) hp); last by rewrite sumr_const card_ord.
  rewrite -big_split /=; apply: ler_sum => k _.
  by rewrite eb; [exact: (rb _).2|exact: (leq_trans (ltn_ord k) kn)].
apply: (le_trans l1); apply: (le_trans (ler_add (le_trans (re_le h) l2) (lexx _))).
by rewrite -addrA ler_add2l -mulrnDl -[hp + hp]/(Rplus hp hp) hp2 mulr_natl.
Qed.

(* pure states: one eigenvalue 1, the others 0; the probabilities |v_i|^2 *)
Theorem C77_pure n (v : 'I_n -> CR) stem : \sum_i `|v i| ^+ 2 = 1 ->
  analyze_pdf ev (Some (V1 (vec v))) stem =
  Ok (stem, OArr [:: n] false [seq (np_round (re (`|v i| ^+ 2)) 6, 0) | i <- enum 'I_n], 1 :: nseq n.-1 0).
Proof.
move=> h; have [e d] := C25_wavefunction h; rewrite (C77_series _ e d); have [pM tM] := d; have [hM _] := pM.
have n0 : (0 < n)%N.
  by case: (n) (v) h => // w /eqP; rewrite big_ord0 eq_sym oner_eq0.
have [ea es sz ch] := evP n0 hM.
congr (Ok (_, OArr _ _ _, _)); first by apply: eq_map => i; rewrite mxE normCK.
have M2 : outer v *m outer v = outer v.
  apply/matrixP => i j; rewrite !mxE -[RHS]mulr1 -h mulr_sumr; apply: eq_bigr => k _.
  by rewrite !mxE normCK -!mulrA; congr (_ * _); rewrite mulrC -mulrA mulrCA.
rewrite -map_rev (pure_eigen hM M2 tM ea es sz ch) /= map_nseq.
by congr (_ :: nseq _ _); [exact: (np_round_int 1)|exact: np_round0].
Qed.

(* the example of the docstring: psi = (1, 1) / sqrt 2 *)
Example C77_example stem : analyze_pdf ev (Some (V1 (vec (fun _ : 'I_2 => (sqrtC 2%:R)^-1 : CR)))) stem =
  Ok (stem, OArr [:: 2%N] false [:: (2%:R^-1, 0); (2%:R^-1, 0)], [:: 1; 0]).
Proof.
have e : `|(sqrtC 2%:R)^-1 : CR| ^+ 2 = toC 2%:R^-1.
  by rewrite -normrX exprVn sqrtCK normfV normr_nat fmorphV rmorph_nat.
rewrite C77_pure; last by rewrite big_ord_recl big_ord1 e -rmorphD -mulr2n -mulr_natl divff ?rmorph1 // pnatr_eq0.
rewrite e reK (_ : np_round 2%:R^-1 6 = 2%:R^-1).
  by rewrite enum_ordSl enum_ordSl enum_ord0 /=.
by rewrite (_ : 2%:R^-1 = Rinv (IZR 2)) ?round_half // natrVZ.
Qed.

Theorem C77_errors (x : input) stem :
  [/\ analyze_pdf ev None stem = Raise TypeError,
      in_size x = 0%N -> analyze_pdf ev (Some x) stem = Raise ValueError &
      forall er, in_size x != 0%N -> cast_to_density_matrix x = Raise er -> analyze_pdf ev (Some x) stem = Raise er].
Proof. by rewrite /analyze_pdf; split=> // [->|er /negbTE -> ->]. Qed.
End Plot.
