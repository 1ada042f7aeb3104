(* PropGraph13.v -- property C98: the planar count with numerical errors in the determinant and the square root *)
Set Warnings "-notation-overridden,-ambiguous-paths".
From Coq Require Import Reals Lra.
From mathcomp Require Import all_ssreflect all_algebra.
From mathcomp Require Import complex.
From mathcomp.zify Require Import zify.
From Verif Require Import Base ArrC MCombinatorics Matching Pfaffian Bipartite RealC Info MClean PropClean MGraph MGraphR MGraphE GraphBrute GraphBfs.
From Verif Require Import GraphCount PropGraph2 PropGraph4 PropGraph5 Planar GraphMap GraphPfo PlaneCheck PropGraph6 PropGraph7.
From Verif Require Import PropFloat.
Set Implicit Arguments.
Unset Strict Implicit.
Unset Printing Implicit Defensive.
Import Order.Theory GRing.Theory Num.Theory.
Local Open Scope ring_scope.

Lemma re_le_norm (z : CR) : toC `|re z| <= `|z|. Proof. exact: normc_ge_Re. Qed.
Lemma im_le_norm (z : CR) : toC `|im z| <= `|z|.
Proof.
rewrite [X in _ <= X]normc_def -/(toC _) toC_le -sqrtr_sqr ler_wsqrtr //.
by rewrite -/(im z) ler_addr sqr_ge0.
Qed.

(* a root with non-negative real part of a number near h^2 is near h *)
Lemma root_near (s : CR) (h d : R) : 0 <= re s -> 0 < h -> `|s ^+ 2 - toC (h ^+ 2)| <= toC d -> `|s - toC h| <= toC (d / h).
Proof.
move=> s0 h0; rewrite rmorphX subr_sqr normrM rmorphM fmorphV => hd.
rewrite ler_pdivl_mulr ?toC_lt -?[0]/(toC 0) ?toC_lt //; apply: le_trans hd; apply: ler_wpmul2l => //.
apply: le_trans (re_le_norm _); have -> : re (s + toC h) = re s + h by case: (s).
by rewrite toC_le ger0_norm ?ler_addr // addr_ge0 // ltW.
Qed.

Lemma grid_int (m k : Z) : Z.le 0 k -> IZR m = Rmult (IZR (Z.mul m (Z.pow 10 k))) (p10 (Z.opp k)).
Proof.
move=> hk; have p := p10_gt0 k.
rewrite p10_N mult_IZR /p10 -(Z2Nat.id k hk) -pow_IZR -pow_powerRZ; field.
by apply: pow_nonzero; lra.
Qed.
Lemma np_round_near (x : R) (m : Z) : `|x - IZR m| < 2%:R^-1 * p10 (- 10) -> np_round x 10 = IZR m.
Proof.
move/RltP => h; have p := p10_gt0 10; have pN : p10 (- 10) = Rinv (p10 10) := p10_N 10.
have E : IZR m = Rmult (IZR (Z.mul m (Z.pow 10 10))) (p10 (- 10)) by apply: grid_int.
rewrite /np_round (_ : MClean.rnd _ = Z.mul m (Z.pow 10 10)); first by rewrite [RHS]E pN.
apply: rnd_unique.
have -> : Rminus (Rmult x (p10 10)) (IZR (Z.mul m (Z.pow 10 10))) = Rmult (Rminus x (IZR m)) (p10 10).
  by rewrite E pN; move: (p10 10) p => b hb; field; lra.
rewrite Rabs_mult (Rabs_pos_eq (p10 10)); last by lra.
have -> : Rdiv (IZR 1) (IZR 2) = Rmult (Rmult (Rinv (IZR 2)) (p10 (- 10))) (p10 10) by rewrite pN; move: (p10 10) p => b hb; field; lra.
apply: Rmult_lt_compat_r => //; move: h; by rewrite natrVZ.
Qed.

Lemma clean_near (z : CR) (h e : R) : `|z - toC h| <= toC e -> e < p10 (- 10) ->
  clean_num (OCplx (re z, im z)) (TInt 10) = Ok (OFloat (np_round (re z) 10)) /\ `|re z - h| <= e.
Proof.
move=> hz he; split; last first.
  have := le_trans (re_le_norm _) hz; rewrite toC_le.
  by have -> : re (z - toC h) = re z - h by case: (z).
have hi : `|im z| <= e.
  have := le_trans (im_le_norm _) hz; rewrite toC_le.
  by have -> : im (z - toC h) = im z by rewrite -[RHS]subr0; case: (z).
rewrite /clean_num /clean /=; case: Rlt_dec => // n; case: n; apply/RltP; exact: le_lt_trans hi he.
Qed.

Lemma half_p10 : 2%:R^-1 * p10 (- 10) <= p10 (- 10).
Proof.
have p0 : 0 < p10 (- 10) by apply/RltP; exact: p10_gt0.
by rewrite ger_pmull // invf_le1 ?ltr0n // ler1n.
Qed.

Section Count.
Variables (eig : arr CR -> option (seq CR)) (fprod : seq CR -> CR) (fsqrt : CR -> CR).
Variables v d : R.
Hypothesis v0 : 0 <= v.
(* np.sqrt: relative error v with respect to the root with non-negative real part *)
Definition sqrt_err := forall q, exists s, [/\ s ^+ 2 = q, 0 <= re s & `|fsqrt q - s| <= toC v * `|s|].
(* eigvals and prod: the computed determinant of an n x n array B is off by at most d *)
Definition det_err n (B : arr CR) := exists2 l, eig B = Some l & `|fprod l - \det (toM n n B)| <= toC d.
Hypothesis sqrtP : sqrt_err.

Lemma fsqrt_near q (h : R) : 0 < h -> `|q - toC (h ^+ 2)| <= toC d -> `|fsqrt q - toC h| <= toC (v * (h + d / h) + d / h).
Proof.
move=> h0 hq; have [s [e s0 hs]] := sqrtP q; rewrite -e in hq; have hr := root_near s0 h0 hq.
have ns : `|s| <= toC (h + d / h).
  rewrite -(subrK (toC h) s) addrC rmorphD; apply: le_trans (ler_norm_add _ _) _; apply: ler_add => //.
  by rewrite toC_norm gtr0_norm.
have -> : fsqrt q - toC h = (fsqrt q - s) + (s - toC h) by rewrite addrA subrK.
rewrite rmorphD; apply: le_trans (ler_norm_add _ _) _; apply: ler_add => //.
by apply: le_trans hs _; rewrite rmorphM ler_wpmul2l // toC_ge0.
Qed.

Lemma fsqrt_zero q : `|q| <= toC d -> `|fsqrt q| <= toC ((1 + v) * Num.sqrt d).
Proof.
move=> hq; have [s [e s0 hs]] := sqrtP q.
have d0 : 0 <= d by rewrite -toC_ge0; apply: le_trans hq.
have ns : `|s| <= toC (Num.sqrt d).
  rewrite -(@ler_pexpn2r CR 2 isT) ?nnegrE ?normr_ge0 ?toC_ge0 ?sqrtr_ge0 //.
  by rewrite -normrX e -rmorphX sqr_sqrtr.
rewrite -(subrK s (fsqrt q)) mulrDl mul1r addrC rmorphD; apply: le_trans (ler_norm_add _ _) _; apply: ler_add => //.
by apply: le_trans hs _; rewrite rmorphM ler_wpmul2l // toC_ge0.
Qed.

Section Graph.
Variables (n : nat) (G T : graph nat_eqType) (emb : embedding) (fuel : nat) (outer : seq nat) (l : seq (seq dart)).
Hypotheses (num : numbered n G) (pe : plane_embedding G emb) (sp : spanning G T) (E0 : gedges G <> [::]).
Hypotheses (hf : (size (edgeset G) <= fuel)%N) (en : enumerates G l).

Lemma countE (w : dart -> R) :
  (forall B, pfo_matrix fuel G (fun e => toC (w e) : CR) (NxInfo true emb T outer) = Ok B -> det_err n B) ->
  exists2 q, `|q - toC (`|\sum_(c <- l) \prod_(e <- c) w e| ^+ 2)| <= toC d &
  count_planar_e eig fprod fsqrt fuel G w (NxInfo true emb T outer) =
  clean_num (OCplx (re (fsqrt q), im (fsqrt q))) (TInt 10).
Proof.
move=> hd; have [e1 _ hl] := num.
have nn : gnodes G <> [::].
  case E: (gedges G) E0 => [//|e s] _ h; have [_ hE] := numbered_ok num.
  by have [h1 _] := hE e ltac:(by rewrite E mem_head); rewrite h in h1.
have wr (e : dart) : (toC (w e) : CR) \is Num.real by apply: toC_real.
have [B [eB h2 h3 h4]] := C15_det true outer num pe sp wr E0 hf.
have [x hx he] := hd B eB.
have sG := numbered_simple num.
have en' : n = size (gnodes G) by rewrite e1 size_iota.
have eh : hafnian (toM n n (adjacency_matrix G (fun e => toC (w e) : CR))) = toC (\sum_(c <- l) \prod_(e <- c) w e).
  rewrite en' (hafnian_enum sG _ en) rmorph_sum; apply: eq_bigr => c _; by rewrite rmorph_prod.
exists (fprod x).
  by move: he; rewrite h4 eh -rmorphX real_normK ?num_real.
rewrite /count_planar_e [bind _ _]/=; case E: (gnodes G) nn => [//|y s] _ {E}.
by rewrite eB [bind _ _]/= /dt_eigen_e h2 h3 eqxx /= hx.
Qed.

(* C98: weighted graphs: the result is a float within the stated distance of the modulus h of the sum over all perfect matchings *)
Theorem C98_weighted (w : dart -> R) : let h := `|\sum_(c <- l) \prod_(e <- c) w e| in
  (forall B, pfo_matrix fuel G (fun e => toC (w e) : CR) (NxInfo true emb T outer) = Ok B -> det_err n B) ->
  0 < h -> v * (h + d / h) + d / h < p10 (- 10) ->
  exists2 r, count_planar_e eig fprod fsqrt fuel G w (NxInfo true emb T outer) = Ok (OFloat r) &
    `|r - h| <= v * (h + d / h) + d / h + 2%:R^-1 * p10 (- 10).
Proof.
move=> h hd h0 he; have [q hq ->] := countE hd.
have [-> hr] := clean_near (fsqrt_near h0 hq) he; eexists; first by [].
have -> : np_round (re (fsqrt q)) 10 - h = (re (fsqrt q) - h) + (np_round (re (fsqrt q)) 10 - re (fsqrt q)) by rewrite [RHS]addrC addrA subrK.
apply: le_trans (ler_norm_add _ _) _; apply: ler_add => //.
by apply/RleP; have := np_round_err (re (fsqrt q)) 10; rewrite natrVZ /Rdiv Rmult_1_l.
Qed.

(* C98: unweighted graphs with m > 0 perfect matchings: exactly m is returned as long as the errors stay below half of 1e-10 *)
Theorem C98_exact : let m := (size l)%:R in
  (forall B, pfo_matrix fuel G (fun=> toC 1 : CR) (NxInfo true emb T outer) = Ok B -> det_err n B) ->
  (0 < size l)%N -> v * (m + d / m) + d / m < 2%:R^-1 * p10 (- 10) ->
  count_planar_e eig fprod fsqrt fuel G (fun=> 1) (NxInfo true emb T outer) = Ok (OFloat (IZR (Z.of_nat (size l)))).
Proof.
move=> m hd l0 he; have [q hq ->] := countE hd.
have em : `|\sum_(c <- l) \prod_(e <- c) 1| = m :> R.
  rewrite (eq_bigr (fun=> 1)) => [|c _]; last by rewrite big1.
  by rewrite big_const_seq count_predT iter_addr_0 normr_nat.
rewrite em in hq; have m0 : 0 < m by rewrite ltr0n.
have he' := lt_le_trans he half_p10.
have [-> hr] := clean_near (fsqrt_near m0 hq) he'; congr (Ok (OFloat _)); apply: np_round_near.
by rewrite -natrZ; exact: le_lt_trans hr he.
Qed.

(* C98: without perfect matchings 0 is returned only if the determinant is off by less than 1e-20 / 4 *)
Theorem C98_none : 
  (forall B, pfo_matrix fuel G (fun=> toC 1 : CR) (NxInfo true emb T outer) = Ok B -> det_err n B) ->
  l = [::] -> (1 + v) * Num.sqrt d < 2%:R^-1 * p10 (- 10) ->
  count_planar_e eig fprod fsqrt fuel G (fun=> 1) (NxInfo true emb T outer) = Ok (OFloat 0).
Proof.
move=> hd l0 he; have [q hq ->] := countE hd.
move: hq; rewrite l0 big_nil normr0 expr0n /= rmorph0 subr0 => /fsqrt_zero hq.
have he' := lt_le_trans he half_p10.
have hq' : `|fsqrt q - toC 0| <= toC ((1 + v) * Num.sqrt d) by rewrite rmorph0 subr0.
have [-> hr] := clean_near hq' he'; congr (Ok (OFloat _)); apply: (@np_round_near _ Z0).
exact: le_lt_trans hr he.
Qed.
End Graph.
End Count.

(* the principal square root *)
Definition nsqrt (q : CR) : CR := let s := sqrtC q in if 0 <= re s then s else - s.
Lemma nsqrtP : sqrt_err nsqrt 0.
Proof.
move=> q; exists (nsqrt q); split; last by rewrite subrr normr0 rmorph0 mul0r.
  by rewrite /nsqrt; case: ifP => _; rewrite ?sqrrN sqrtCK.
rewrite /nsqrt; case: ifP => // /negbT; rewrite -ltNge => h.
have -> : re (- sqrtC q) = - re (sqrtC q) by case: (sqrtC q).
by rewrite oppr_ge0 ltW.
Qed.

(* C98: an error of 1e-18 in the determinant is enough to report 1e-9 perfect matchings for any graph that has none, although the
   square root and the eigenvalues are exact: the absolute error allowed for m > 0 (about m / 2 * 1e-10) does not suffice *)
Theorem C98_none_refuted n G T emb fuel outer : numbered n G -> plane_embedding G emb -> spanning G T -> gedges G <> [::] ->
  (size (edgeset G) <= fuel)%N -> enumerates G [::] ->
  exists eig fprod, let d := p10 (- 9) ^+ 2 in
  (forall B, pfo_matrix fuel G (fun=> toC 1 : CR) (NxInfo true emb T outer) = Ok B -> det_err eig fprod d n B) /\
  count_planar_e eig fprod nsqrt fuel G (fun=> 1) (NxInfo true emb T outer) = Ok (OFloat (p10 (- 9))).
Proof.
move=> num pe sp E0 hf en; pose t := p10 (- 9); have t0 : 0 < t by apply/RltP; exact: p10_gt0.
exists (fun B => Some (eigvals (toM (nr B) (nr B) B))), (fun x => foldl (fun a b => a * b) 1 x + toC (t ^+ 2)) => d.
have wr (e : dart) : (toC 1 : CR) \is Num.real by apply: toC_real.
have [B [eB h2 h3 h4]] := C15_det true outer num pe sp wr E0 hf.
have sG := numbered_simple num; have [e1 _ _] := num.
have en' : n = size (gnodes G) by rewrite e1 size_iota.
have z : \det (toM n n B) = 0.
  by rewrite h4 en' (hafnian_enum sG _ en) big_nil expr0n.
split=> [B'|].
  rewrite eB => -[<-]; eexists; first by [].
  rewrite foldl_prod mul1r h2 det_eigvals addrAC subrr add0r toC_norm toC_le ger0_norm ?sqr_ge0 //.
rewrite /count_planar_e [bind _ _]/=.
have nn : gnodes G <> [::].
  case E: (gedges G) E0 => [//|e s] _ h; have [_ hE] := numbered_ok num.
  by have [h1 _] := hE e ltac:(by rewrite E mem_head); rewrite h in h1.
case E: (gnodes G) nn => [//|y s] _ {E}.
rewrite eB [bind _ _]/= /dt_eigen_e h2 h3 eqxx /= foldl_prod mul1r det_eigvals z add0r.
have -> : nsqrt (toC (t ^+ 2)) = toC t.
  by rewrite /nsqrt toC_sqrt ?sqr_ge0 // sqrtr_sqr gtr0_norm // reK ltW.
rewrite clean_nonneg ?toC_ge0 ?ltW // reK; congr (Ok (OFloat _)).
have := np_round_fix 10 10; have -> // : Rmult (IZR 10) (p10 (- 10)) = t.
rewrite /t (p10_N 10 : p10 (- 10) = _) (p10_N 9 : p10 (- 9) = _).
have -> : p10 10 = Rmult (IZR 10) (p10 9).
  have -> : p10 10 = powerRZ (IZR 10) (Z.add 1 9) by [].
  by rewrite powerRZ_add ?powerRZ_1 //; lra.
by have := p10_gt0 9; move: (p10 9) => p hp; field; lra.
Qed.

(* C98: computed eigenvalues with relative error u and rounded products: the determinant of an n x n array has relative error
   (1 + u)^(2n) - 1 *)
Theorem C98_eigenvalues (u : CR) (fmul : CR -> CR -> CR) (lam comp : seq CR) : 0 <= u -> rel_err u fmul *%R ->
  size comp = size lam -> (forall i, `|nth 0 comp i - nth 0 lam i| <= u * `|nth 0 lam i|) ->
  `|foldl fmul 1 comp - \prod_(x <- lam) x| <= ((1 + u) ^+ (2 * size lam) - 1) * `|\prod_(x <- lam) x|.
Proof.
move=> u0 mulP.
have H k a x t : approx u k a x t -> size comp = size lam -> (forall i, `|nth 0 comp i - nth 0 lam i| <= u * `|nth 0 lam i|) ->
    approx u (k + 2 * size lam) (a * `|\prod_(x <- lam) x|) (foldl fmul x comp) (t * \prod_(x <- lam) x).
  elim: comp lam k a x t => [|c comp IH] [|y lam] k a x t h //=; first by rewrite big_nil normr1 !mulr1 muln0 addn0.
  move=> [es] hi; rewrite big_cons normrM !mulrA mulnS addnA; apply: IH => // [|i]; last exact: (hi i.+1).
  have h1 : approx u k.+1 (a * `|y|) (x * c) (t * y).
    case: h => h1 h2; apply: (approx_round u0 (w := x * y)); last by rewrite normrM ler_wpmul2r.
      by rewrite -mulrBr !normrM mulrCA ler_wpmul2l //; exact: (hi 0%N).
    by rewrite -mulrBl normrM mulrA ler_wpmul2r.
  by case: h1 => h1 h2; rewrite addn2; apply: (approx_round u0 (mulP x c)).
move=> es hi; have [] := H 0%N `|1| 1 1 (approx_exact u 1) es hi; by rewrite normr1 !mul1r add0n.
Qed.

(* the square 0-1-2-3: two perfect matchings; a determinant off by 5e-11 still gives exactly 2 *)
Example C98_example (eig : arr CR -> option (seq CR)) (fprod : seq CR -> CR) :
  (forall B, det_err eig fprod (2%:R^-1 * p10 (- 10)) 4 B) ->
  count_planar_e eig fprod nsqrt 10 sq4 (fun=> 1) (NxInfo true (emb_of sq4_rot) sq4_tree [:: 3; 0; 2; 1]%N) = Ok (OFloat (IZR 2)).
Proof.
move=> hd; have [num pe] := sq4_plane; have en := enumerates_brute (numbered_simple num) (isT : (size (gnodes sq4) <= 15)%N).
have := @C98_exact eig fprod nsqrt 0 (2%:R^-1 * p10 (- 10)) (lexx 0) nsqrtP 4 sq4 sq4_tree (emb_of sq4_rot) 10 [:: 3; 0; 2; 1]%N _ num pe sq4_span
  _ isT en (fun B _ => hd B) isT; apply=> //.
have p0 : 0 < p10 (- 10) by apply/RltP; exact: p10_gt0.
rewrite mul0r add0r ltr_pdivr_mulr ?ltr0n // ltr_pmulr ?ltr1n //.
by rewrite mulr_gt0 // invr_gt0 ltr0n.
Qed.

Lemma eigvals_size (C : numClosedFieldType) n (A : 'M[C]_n) : size (eigvals A) = n.
Proof.
rewrite /eigvals; case: closed_field_poly_normal => l /= E.
by have := size_char_poly A; rewrite E (monicP (char_poly_monic A)) scale1r size_prod_XsubC => -[].
Qed.

(* C98: if every eigenvalue has relative error u, like every product, then the count m is exact, also for m = 0, as long as
   m ((1 + u)^(2n) - 1) and the error of the square root stay below half of 1e-10 *)
Theorem C98_relative n G T emb fuel outer l (u v : R) (fmul : CR -> CR -> CR) eig fsqrt :
  numbered n G -> plane_embedding G emb -> spanning G T -> gedges G <> [::] -> (size (edgeset G) <= fuel)%N -> enumerates G l ->
  0 <= u -> 0 <= v -> rel_err (toC u) fmul *%R -> sqrt_err fsqrt v ->
  (forall B, exists lam comp, [/\ perm_eq lam (eigvals (toM n n B)), eig B = Some comp, size comp = size lam &
     forall i, `|nth 0 comp i - nth 0 lam i| <= toC u * `|nth 0 lam i| ]) ->
  let m := (size l)%:R in let eta := (1 + u) ^+ (2 * n) - 1 in v * (m + eta * m) + eta * m < 2%:R^-1 * p10 (- 10) ->
  count_planar_e eig (foldl fmul 1) fsqrt fuel G (fun=> 1) (NxInfo true emb T outer) = Ok (OFloat (IZR (Z.of_nat (size l)))).
Proof.
move=> num pe sp E0 hf en u0 v0 mulP sq he m eta hc.
have sG := numbered_simple num; have [e1 _ _] := num.
have en' : n = size (gnodes G) by rewrite e1 size_iota.
have wr (e : dart) : (toC 1 : CR) \is Num.real by apply: toC_real.
have D B : pfo_matrix fuel G (fun=> toC 1 : CR) (NxInfo true emb T outer) = Ok B -> det_err eig (foldl fmul 1) (eta * m ^+ 2) n B.
  move=> eB; have [lam [comp [hp ec es hi]]] := he B; exists comp => //.
  have uC : 0 <= toC u by rewrite toC_ge0.
  have := C98_eigenvalues uC mulP es hi.
  rewrite (perm_big _ hp) /= (perm_size hp) eigvals_size det_eigvals.
  have [B' [eB' _ _ h4]] := C15_det true outer num pe sp wr E0 hf; move: eB'; rewrite eB => -[eB']; rewrite -eB' in h4.
  have -> : `|\det (toM n n B)| = toC (m ^+ 2).
    have hh : hafnian (toM n n (adjacency_matrix G (fun=> toC 1 : CR))) = toC m.
      rewrite en' (hafnian_enum sG _ en) (eq_bigr (fun=> 1)) => [|c _]; last by rewrite big1.
      by rewrite big_const_seq count_predT iter_addr_0 rmorph_nat.
    by rewrite h4 hh -rmorphX toC_norm ger0_norm // sqr_ge0.
  have -> // : toC (eta * m ^+ 2) = ((1 + toC u) ^+ (2 * n) - 1) * toC (m ^+ 2).
  by rewrite rmorphM /eta rmorphB /= rmorphX /= rmorphD /= rmorph1.
case: (posnP (size l)) => [z|l0].
  have l_nil : l = [::] by case: (l) z.
  rewrite z /= ; apply: (C98_none v0 sq num pe sp E0 hf en D l_nil).
  rewrite /m z expr0n mulr0 sqrtr0 mulr0 mulr_gt0 ?invr_gt0 ?ltr0n //.
  by apply/RltP; exact: p10_gt0.
apply: (C98_exact v0 sq num pe sp E0 hf en D l0).
have -> // : eta * m ^+ 2 / m = eta * m by rewrite expr2 mulrA mulfK // pnatr_eq0 -lt0n.
Qed.

(* C98: the other outcomes: AssertionError for a graph that is not planar, 0 for the empty graph, and TypeError when the eigenvalue
   routine fails (dt_eigen returns None, whose square root is taken) *)
Theorem C98_failures eig fprod fsqrt fuel G w X :
  [/\ ~~ nx_planar X -> count_planar_e eig fprod fsqrt fuel G w X = Raise AssertionError,
      nx_planar X -> gnodes G = [::] -> count_planar_e eig fprod fsqrt fuel G w X = Ok (OInt 0) &
      forall B, nx_planar X -> gnodes G <> [::] -> pfo_matrix fuel G (fun e => toC (w e) : CR) X = Ok B -> eig B = None ->
        count_planar_e eig fprod fsqrt fuel G w X = Raise TypeError].
Proof.
rewrite /count_planar_e; split=> [/negPf -> //|-> -> //|B -> nn eB eN]; case: (gnodes G) nn => [//|x s] _.
by rewrite eB /= /dt_eigen_e eN; case: ifP.
Qed.
