(* Info2.v -- inequalities between total variation, Kullback-Leibler and Jensen-Shannon divergence and the Bhattacharyya
   coefficient of finite distributions; coarse graining and products *)
Set Warnings "-notation-overridden,-ambiguous-paths".
From Coq Require Import Reals Lra.
From mathcomp Require Import all_ssreflect all_algebra.
From mathcomp Require Import mxtens.
From mathcomp.zify Require Import zify.
From Verif Require Import Base RealC Info.
Set Implicit Arguments.
Unset Strict Implicit.
Unset Printing Implicit Defensive.

(* ------------------------------------------------------------------ *)
(* the scalar inequality behind Pinsker's (Coq's notations for reals)  *)
(* ------------------------------------------------------------------ *)
Section Scalar.
Local Open Scope R_scope.
Lemma g_lim x : 0 < x -> derivable_pt_lim (fun x => (x + 1) * ln x - 2 * (x - 1)) x (ln x + / x - 1).
Proof.
move=> x0; have l1 := derivable_pt_lim_ln _ x0.
have e : ln x + / x - 1 = ((1 + 0) * ln x + (x + 1) * / x) - (0 * (x - 1) + 2 * (1 - 0)) by field; lra.
rewrite e; apply: derivable_pt_lim_minus.
  apply: derivable_pt_lim_mult; [|exact: l1].
  by apply: derivable_pt_lim_plus; [exact: derivable_pt_lim_id|exact: derivable_pt_lim_const].
apply: derivable_pt_lim_mult; first exact: derivable_pt_lim_const.
by apply: derivable_pt_lim_minus; [exact: derivable_pt_lim_id|exact: derivable_pt_lim_const].
Qed.

Lemma g'_ge0 x : 0 < x -> 0 <= ln x + / x - 1.
Proof.
move=> x0; have := exp_ineq1_le (Ropp (ln x)); rewrite exp_Ropp exp_ln //; lra.
Qed.

Lemma g_sign x : 0 < x -> 0 <= ((x + 1) * ln x - 2 * (x - 1)) * (x - 1).
Proof.
move=> x0; pose g := fun x => (x + 1) * ln x - 2 * (x - 1); pose g' := fun x => ln x + / x - 1.
have g1 : g 1 = 0 by rewrite /g ln_1; lra.
rewrite -/(g x); case: (Rtotal_order x 1) => [lt|[->|gt]]; last 2 first.
- by rewrite g1; lra.
- have [c [hc [c1 c2]]] := MVT_cor2 g g' (IZR 1) x gt (fun c h => g_lim (x := c) (ltac:(case: h; lra))).
  have := g'_ge0 (x := c) ltac:(lra); rewrite -/(g' c) => h.
  have hm : 0 <= g' c * (x - 1) by apply: Rmult_le_pos; lra.
  by apply: Rmult_le_pos; lra.
have [c [hc [c1 c2]]] := MVT_cor2 g g' x (IZR 1) lt (fun c h => g_lim (x := c) (ltac:(case: h; lra))).
have := g'_ge0 (x := c) ltac:(lra); rewrite -/(g' c) => h.
have hg : 0 <= g' c * (1 - x) by apply: Rmult_le_pos; lra.
have -> : g x * (x - 1) = (- g x) * (1 - x) by ring.
by apply: Rmult_le_pos; lra.
Qed.

Lemma f_lim x : 0 < x -> derivable_pt_lim (fun x => (4 + 2 * x) * (x * ln x - (x - 1)) - 3 * ((x - 1) * (x - 1))) x
  (4 * ((x + 1) * ln x - 2 * (x - 1))).
Proof.
move=> x0; have l1 := derivable_pt_lim_ln _ x0.
have id := derivable_pt_lim_id x; have k c := derivable_pt_lim_const c x.
have e : 4 * ((x + 1) * ln x - 2 * (x - 1)) =
  ((0 + (0 * x + 2 * 1)) * (x * ln x - (x - 1)) + (4 + 2 * x) * ((1 * ln x + x * / x) - (1 - 0))) -
  (0 * ((x - 1) * (x - 1)) + 3 * ((1 - 0) * (x - 1) + (x - 1) * (1 - 0))) by field; lra.
rewrite e; have xm := derivable_pt_lim_minus _ _ _ _ _ id (k (IZR 1)).
have h1 := derivable_pt_lim_plus _ _ _ _ _ (k (IZR 4)) (derivable_pt_lim_mult _ _ _ _ _ (k (IZR 2)) id).
have h2 := derivable_pt_lim_minus _ _ _ _ _ (derivable_pt_lim_mult _ _ _ _ _ id l1) xm.
have h3 := derivable_pt_lim_mult _ _ _ _ _ (k (IZR 3)) (derivable_pt_lim_mult _ _ _ _ _ xm xm).
exact: (derivable_pt_lim_minus _ _ _ _ _ (derivable_pt_lim_mult _ _ _ _ _ h1 h2) h3).
Qed.

Lemma f_ge0 x : 0 < x -> 3 * ((x - 1) * (x - 1)) <= (4 + 2 * x) * (x * ln x - (x - 1)).
Proof.
move=> x0; pose f := fun x => (4 + 2 * x) * (x * ln x - (x - 1)) - 3 * ((x - 1) * (x - 1)).
pose f' := fun x => 4 * ((x + 1) * ln x - 2 * (x - 1)).
have f1 : f 1 = 0 by rewrite /f ln_1; ring.
suff : 0 <= f x by rewrite /f; lra.
case: (Rtotal_order x 1) => [lt|[->|gt]]; last 2 first.
- by rewrite f1; lra.
- have [c [hc [c1 c2]]] := MVT_cor2 f f' (IZR 1) x gt (fun c h => f_lim (x := c) (ltac:(case: h; lra))).
  have := g_sign (x := c) ltac:(lra) => h.
  have hp : 0 <= (c + 1) * ln c - 2 * (c - 1) by nra.
  have : 0 <= f' c * (x - 1) by apply: Rmult_le_pos; rewrite /f'; lra.
  lra.
have [c [hc [c1 c2]]] := MVT_cor2 f f' x (IZR 1) lt (fun c h => f_lim (x := c) (ltac:(case: h; lra))).
have := g_sign (x := c) ltac:(lra) => h.
have hp : (c + 1) * ln c - 2 * (c - 1) <= 0 by nra.
have : f' c * (1 - x) <= 0 by rewrite /f'; nra.
lra.
Qed.
End Scalar.

Import Order.Theory GRing.Theory Num.Theory.
Local Open Scope ring_scope.

(* ---------- Cauchy-Schwarz ---------- *)
Section CS.
Variable F : realFieldType.
Add Ring F_ring : (ring_of F).
Lemma cs (I : finType) (a b : I -> F) : (\sum_i a i * b i) ^+ 2 <= (\sum_i a i ^+ 2) * (\sum_i b i ^+ 2).
Proof.
have h : 0 <= \sum_i \sum_j (a i * b j - a j * b i) ^+ 2 by apply: sumr_ge0 => i _; apply: sumr_ge0 => j _; exact: sqr_ge0.
suff e : \sum_i \sum_j (a i * b j - a j * b i) ^+ 2 =
  2%:R * ((\sum_i a i ^+ 2) * (\sum_i b i ^+ 2) - (\sum_i a i * b i) ^+ 2).
  by move: h; rewrite e pmulr_rge0 ?ltr0n // subr_ge0.
rewrite expr2 !big_distrlr /= -sumrB mulr_sumr.
transitivity (\sum_i (\sum_j (a i ^+ 2 * b j ^+ 2 - a i * b i * (a j * b j)) + \sum_j (a j ^+ 2 * b i ^+ 2 - a i * b i * (a j * b j)))).
  apply: eq_bigr => i _; rewrite -big_split; apply: eq_bigr => j _ /=; xring F.
rewrite big_split /= [X in _ + X]exchange_big /=.
rewrite -big_split; apply: eq_bigr => i _ /=; rewrite -sumrB mulr_natl mulr2n; congr (_ + _).
by apply: eq_bigr => j _; rewrite [a j * b j * _]mulrC.
Qed.
Lemma pin1 (x y : F) : 3%:R * (x - y) ^+ 2 = 3%:R * ((x - y) * (x - y)). Proof. by rewrite expr2. Qed.
Lemma tvbc_id (s t : F) : 4%:R * (1 - s ^+ 2) = (2%:R - 2%:R * s) * (2%:R + 2%:R * s). Proof. xring F. Qed.
End CS.

Section Ineq.
Lemma cs_sqrt (I : finType) (c u v : I -> R) : (forall i, 0 <= u i) -> (forall i, 0 <= v i) -> (forall i, 0 <= c i) ->
  (forall i, c i ^+ 2 <= u i * v i) -> (\sum_i c i) ^+ 2 <= (\sum_i u i) * (\sum_i v i).
Proof.
move=> u0 v0 c0 h; have := cs (fun i => Num.sqrt (u i)) (fun i => Num.sqrt (v i)).
have sq (w : I -> R) : (forall i, 0 <= w i) -> \sum_i Num.sqrt (w i) ^+ 2 = \sum_i w i.
  by move=> w0; apply: eq_bigr => i _; rewrite sqr_sqrtr.
rewrite !sq //; apply: le_trans; rewrite ler_sqr ?nnegrE ?sumr_ge0 //; last first.
  by move=> i _; rewrite mulr_ge0 ?sqrtr_ge0.
apply: ler_sum => i _; rewrite -sqrtrM // -(ger0_norm (c0 i)) -sqrtr_sqr; exact: ler_wsqrtr.
Qed.

(* ---------- the terms of the Kullback-Leibler divergence ---------- *)
Lemma klterm0 y : klterm 0 y = 0. Proof. by rewrite /klterm eqxx. Qed.
Lemma klterm_pos x y : 0 < x -> klterm x y = x * ln (x / y). Proof. by move=> x0; rewrite /klterm gt_eqF. Qed.
Lemma klterm_scale x y c : 0 <= x -> 0 <= y -> (y = 0 -> x = 0) -> 0 < c -> klterm x (c * y) = klterm x y - x * ln c.
Proof.
move=> x0 y0 h c0; move: x0; rewrite le_eqVlt => /orP[/eqP <-|xp]; first by rewrite !klterm0 mul0r subrr.
have yp : 0 < y by rewrite lt_def y0 andbT; apply: contraTneq xp => /h ->; rewrite ltxx.
by rewrite !klterm_pos // !ln_div ?mulr_gt0 // lnM //; rring.
Qed.
Lemma klterm_scale2 x y c : 0 <= c -> klterm (x * c) (y * c) = c * klterm x y.
Proof.
rewrite le_eqVlt => /orP[/eqP <-|c0]; first by rewrite !mulr0 mul0r klterm0.
rewrite /klterm mulf_eq0 (gt_eqF c0) orbF; case: eqP => [_|_]; first by rewrite mulr0.
by rewrite invfM mulrACA mulfV ?gt_eqF // mulr1 mulrA [c * x]mulrC.
Qed.

(* the log-sum inequality *)
Lemma logsum (I : finType) (P : pred I) (a b : I -> R) : (forall i, 0 <= a i) -> (forall i, 0 <= b i) ->
  (forall i, b i = 0 -> a i = 0) -> klterm (\sum_(i | P i) a i) (\sum_(i | P i) b i) <= \sum_(i | P i) klterm (a i) (b i).
Proof.
move=> a0 b0 h; set A := \sum_(i | P i) a i; set B := \sum_(i | P i) b i.
have A0 : 0 <= A by exact: sumr_ge0.
have := A0; rewrite le_eqVlt => /orP[/eqP e|Ap].
  have z i : P i -> a i = 0.
    by move=> Pi; have /eqP := esym e; rewrite psumr_eq0 // => /allP/(_ i (mem_index_enum _)); rewrite Pi => /eqP.
  by rewrite -e klterm0 big1 // => i Pi; rewrite z // klterm0.
have Bp : 0 < B.
  rewrite lt_def sumr_ge0 // andbT; apply: contraTneq Ap => /eqP; rewrite psumr_eq0 // => /allP z.
  by rewrite -leNgt /A big1 // => i Pi; apply: h; have := z i (mem_index_enum _); rewrite Pi => /eqP.
have cp : 0 < A / B by rewrite divr_gt0.
have t i : P i -> a i - A / B * b i <= klterm (a i) (b i) - a i * ln (A / B).
  move=> _; rewrite -klterm_scale //; last exact: h.
  apply: klterm_ge => //; first by rewrite mulr_ge0 // ltW.
  by move/eqP; rewrite mulf_eq0 gt_eqF //= => /eqP/h.
have : \sum_(i | P i) (a i - A / B * b i) <= \sum_(i | P i) (klterm (a i) (b i) - a i * ln (A / B)) by exact: ler_sum.
rewrite !sumrB -mulr_sumr -/A -/B mulfVK ?gt_eqF // subrr -mulr_suml -/A subr_ge0.
by rewrite klterm_pos.
Qed.

(* ---------- Pinsker ---------- *)
Lemma pinsker_term x y : 0 <= x -> 0 <= y -> (y = 0 -> x = 0) ->
  3%:R * (x - y) ^+ 2 <= (4%:R * y + 2%:R * x) * (klterm x y - (x - y)).
Proof.
move=> x0 y0 h; have := y0; rewrite le_eqVlt => /orP[/eqP e|yp].
  by rewrite -e h // klterm0 subrr subrr expr0n !mulr0.
have := x0; rewrite le_eqVlt => /orP[/eqP <-|xp].
  rewrite klterm0; have -> : (4%:R * y + 2%:R * 0) * (0 - (0 - y)) = 4%:R * y ^+ 2 by rring.
  have -> : 3%:R * (0 - y) ^+ 2 = 3%:R * y ^+ 2 by rring.
  by rewrite ler_wpmul2r ?sqr_ge0 // ler_nat.
have tp : 0 < x / y by rewrite divr_gt0.
have := f_ge0 (x := x / y) (elimT (RltP _ _) tp) => /RleP hs.
move: hs; have -> : IZR 3 = 3%:R :> R by rewrite natrZ.
have -> : IZR 4 = 4%:R :> R by rewrite natrZ.
have -> : IZR 2 = 2%:R :> R by rewrite natrZ.
set t := x / y => hs; have ex : x = t * y by rewrite /t mulfVK ?gt_eqF.
have y2 : 0 <= y ^+ 2 by exact: sqr_ge0.
have := ler_wpmul2r y2 hs; rewrite klterm_pos // -/t.
have -> : 3%:R * (x - y) ^+ 2 = (3%:R * ((t - 1) * (t - 1))) * y ^+ 2 by rewrite ex; rring.
have -> // : (4%:R * y + 2%:R * x) * (x * ln t - (x - y)) = ((4%:R + 2%:R * t) * (t * ln t - (t - 1))) * y ^+ 2.
by rewrite {1 2 3}ex; rring.
Qed.

Section D.
Variable n : nat.
Implicit Types p q : 'I_n -> R.
Lemma pinsker p q : dist p -> dist q -> (forall i, q i = 0 -> p i = 0) -> 2%:R * tv p q ^+ 2 <= kl p q.
Proof.
move=> dp dq h.
have := @cs_sqrt _ (fun i => `|p i - q i|) (fun i => 3%:R^-1 * (4%:R * q i + 2%:R * p i)) (fun i => klterm (p i) (q i) - (p i - q i)).
have -> : \sum_i (3%:R^-1 * (4%:R * q i + 2%:R * p i)) = 2%:R.
  rewrite -mulr_sumr big_split -!mulr_sumr /= dp.2 dq.2; have := mulVf (_ : 3%:R != 0 :> R); rewrite pnatr_eq0 => /(_ isT) e.
  by transitivity ((3%:R^-1 * 3%:R) * 2%:R : R); [rring|rewrite e mul1r].
have -> : \sum_i (klterm (p i) (q i) - (p i - q i)) = kl p q by rewrite !sumrB dp.2 dq.2 subrr subr0.
move=> H; have {H} : (\sum_i `|p i - q i|) ^+ 2 <= 2%:R * kl p q.
  apply: H => [i|i|//|i].
  - by rewrite mulr_ge0 ?invr_ge0 ?ler0n // addr_ge0 // mulr_ge0 ?ler0n ?dp.1 ?dq.1.
  - by rewrite subr_ge0; apply: klterm_ge; [exact: dp.1|exact: dq.1|exact: h].
  - rewrite real_normK ?num_real // -mulrA -ler_pdivr_mull ?invr_gt0 ?ltr0n // invrK.
    by apply: pinsker_term; [exact: dp.1|exact: dq.1|exact: h].
rewrite /tv exprMn mulrA; set X := (\sum_i _) ^+ 2; have -> : 2%:R * 2%:R^-1 ^+ 2 = 2%:R^-1 :> R.
  by rewrite expr2 mulrA mulfV ?mul1r ?pnatr_eq0.
by rewrite ler_pdivr_mull ?ltr0n.
Qed.

Lemma sum_sqrt_sq p q (e : R) : dist p -> dist q -> e ^+ 2 = 1 ->
  \sum_i (Num.sqrt (p i) + e * Num.sqrt (q i)) ^+ 2 = 2%:R + 2%:R * e * bc p q.
Proof.
move=> dp dq e1; rewrite /bc mulr_sumr.
transitivity (\sum_i p i + \sum_i q i + \sum_i 2%:R * e * Num.sqrt (p i * q i)); last by rewrite dp.2 dq.2.
rewrite -!big_split; apply: eq_bigr => i _ /=; rewrite sqrtrM ?dp.1 // sqrrD exprMn e1 mul1r !sqr_sqrtr ?dp.1 ?dq.1 //.
by rewrite addrAC; congr (_ + _); rring.
Qed.

Lemma tv_bc2 p q : dist p -> dist q -> tv p q ^+ 2 <= 1 - bc p q ^+ 2.
Proof.
move=> dp dq.
have := @cs_sqrt _ (fun i => `|p i - q i|) (fun i => (Num.sqrt (p i) + -1 * Num.sqrt (q i)) ^+ 2) (fun i => (Num.sqrt (p i) + 1 * Num.sqrt (q i)) ^+ 2).
rewrite !sum_sqrt_sq // ?sqrrN ?expr1n // => H.
have {H} : (\sum_i `|p i - q i|) ^+ 2 <= 4%:R * (1 - bc p q ^+ 2).
  have -> : 4%:R * (1 - bc p q ^+ 2) = (2%:R + 2%:R * -1 * bc p q) * (2%:R + 2%:R * 1 * bc p q) by rring.
  apply: H => [i|i|//|i]; rewrite ?sqr_ge0 // -exprMn real_normK ?num_real // mul1r mulN1r -subr_sqr.
  by rewrite !sqr_sqrtr ?dp.1 ?dq.1.
rewrite /tv exprMn; set X := (\sum_i _) ^+ 2; have -> : 2%:R^-1 ^+ 2 = 4%:R^-1 :> R by rewrite exprVn -natrX.
by rewrite ler_pdivr_mull ?ltr0n.
Qed.

Lemma kl_bc p q : dist p -> dist q -> (forall i, q i = 0 -> p i = 0) -> - (2%:R * ln (bc p q)) <= kl p q.
Proof.
move=> dp dq h; have bp : 0 < bc p q.
  rewrite lt_def bc_ge0 andbT; apply/eqP => /(bc_eq0 dp dq) z; have [i pi] := dist_pos dp.
  by case: (z i) => [e|/h e]; move: pi; rewrite e ltxx.
set c := bc p q in bp *.
have t i : 2%:R * (p i - Num.sqrt (p i * q i) / c - p i * ln c) <= klterm (p i) (q i).
  have := dp.1 i; rewrite le_eqVlt => /orP[/eqP <-|pi]; first by rewrite klterm0 !mul0r sqrtr0 mul0r !subr0 mulr0.
  have qi : 0 < q i by rewrite lt_def dq.1 andbT; apply: contraTneq pi => /h ->; rewrite ltxx.
  rewrite klterm_pos //; set r := Num.sqrt (q i / p i).
  have rp : 0 < r by rewrite sqrtr_gt0 divr_gt0.
  have rc : 0 < r / c by rewrite divr_gt0.
  have := ln_le rc; rewrite ln_div // => l1.
  have e1 : ln (p i / q i) = - (2%:R * ln r).
    by rewrite -lnX // sqr_sqrtr ?divr_ge0 ?ltW // -invf_div lnV ?divr_gt0.
  have e2 : Num.sqrt (p i * q i) = p i * r.
    rewrite /r -{2}(ger0_norm (ltW pi)) -sqrtr_sqr -sqrtrM ?sqr_ge0 //; congr Num.sqrt.
    by rewrite expr2 -mulrA [p i * (q i / _)]mulrC mulfVK // gt_eqF.
  rewrite e1 e2 -subr_ge0; set u := r / c in l1 *.
  have -> : p i * - (2%:R * ln r) - 2%:R * (p i - p i * r / c - p i * ln c) = 2%:R * p i * (u - 1 - (ln r - ln c)).
    by rewrite -mulrA -/u; rring.
  by rewrite mulr_ge0 ?subr_ge0 // mulr_ge0 ?ler0n // ltW.
have : \sum_i 2%:R * (p i - Num.sqrt (p i * q i) / c - p i * ln c) <= kl p q by exact: ler_sum.
by rewrite -mulr_sumr !sumrB -!mulr_suml dp.2 -/(bc p q) -/c mulfV ?gt_eqF // subrr sub0r mul1r mulrN.
Qed.

(* ---------- Jensen-Shannon and total variation ---------- *)
Lemma js_term (x y : R) : 0 <= x -> 0 <= y ->
  klterm x (2%:R^-1 * (x + y)) + klterm y (2%:R^-1 * (x + y)) <= ln 2%:R * `|x - y|.
Proof.
have g (a b : R) : 0 <= b -> b <= a ->
  klterm a (2%:R^-1 * (a + b)) + klterm b (2%:R^-1 * (a + b)) <= ln 2%:R * (a - b).
  move=> b0 ab; have a0 := le_trans b0 ab; set m := 2%:R^-1 * (a + b).
  have d0 : 0 <= a - b by rewrite subr_ge0.
  have m2 : m = b + 2%:R^-1 * (a - b) by rewrite /m -{2}(half2 b) -mulrDr; congr (_ * _); rring.
  have bm : b <= m by rewrite m2 ler_addl mulr_ge0 ?(ltW half_gt0).
  have h1 : klterm b m <= 0.
    move: (b0); rewrite le_eqVlt => /orP[/eqP <-|bp]; first by rewrite klterm0.
    have mp := lt_le_trans bp bm.
    rewrite klterm_pos // pmulr_rle0 //; apply: ln_le0; first by rewrite divr_gt0.
    by rewrite ler_pdivr_mulr // mul1r.
  have h2 : klterm a m <= ln 2%:R * (a - b).
    pose u := fun i : bool => if i then b else a - b; pose v := fun i : bool => if i then b else 2%:R^-1 * (a - b).
    have := @logsum _ predT u v; rewrite !big_bool /= -m2 [b + _]addrC subrK => H; apply: le_trans (H _ _ _) _.
    - by case.
    - by case=> //=; rewrite mulr_ge0 ?(ltW half_gt0).
    - by case=> //= /eqP; rewrite mulf_eq0 gt_eqF ?half_gt0 //= => /eqP.
    rewrite klterm_scale ?half_gt0 // /klterm.
    have z (w : R) : (if w == 0 then 0 else w * ln (w / w)) = 0.
      by case: eqP => // /eqP nz; rewrite mulfV // lnR1 mulr0.
    by rewrite !z add0r sub0r lnV ?ltr0n // mulrN opprK mulrC.
  by rewrite -[X in _ <= X]addr0 ler_add.
move=> x0 y0; case/orP: (le_total x y) => xy; last by rewrite ger0_norm ?subr_ge0 //; exact: g.
by rewrite distrC ger0_norm ?subr_ge0 // addrC [x + y]addrC; exact: g.
Qed.

Lemma js_tv p q : dist p -> dist q -> js p q <= ln 2%:R * tv p q.
Proof.
move=> dp dq; rewrite /js /tv mulrCA ler_pmul2l ?half_gt0 // /kl -big_split mulr_sumr; apply: ler_sum => i _ /=.
by apply: js_term; [exact: dp.1|exact: dq.1].
Qed.

Lemma tv_mid p q : tv p (mid p q) = 2%:R^-1 * tv p q.
Proof.
rewrite /tv; congr (_ * _); rewrite mulr_sumr; apply: eq_bigr => i _.
rewrite -[X in X * `| _ |](gtr0_norm half_gt0) -normrM; congr `| _ |; rewrite /mid -{1}(half2 (p i)) -mulrBr; congr (_ * _); rring.
Qed.
Lemma js_pinsker p q : dist p -> dist q -> 2%:R^-1 * tv p q ^+ 2 <= js p q.
Proof.
move=> dp dq; have dm := dist_mid dp dq.
have h1 := pinsker dp dm (fun i => mid0 dp dq (i := i)).
have h2 := pinsker dq dm (fun i => mid0r dp dq (i := i)).
have e2 : tv q (mid p q) = 2%:R^-1 * tv p q.
  by rewrite (tv_sym p) -tv_mid /tv; congr (_ * _); apply: eq_bigr => i _; rewrite midC.
rewrite tv_mid in h1; rewrite e2 in h2; rewrite /js ler_pmul2l ?half_gt0 //.
apply: le_trans (ler_add h1 h2); move: (tv p q) => t; rewrite exprMn mulrA.
have -> : 2%:R * 2%:R^-1 ^+ 2 = 2%:R^-1 :> R by rewrite expr2 mulrA mulfV ?mul1r ?pnatr_eq0.
by rewrite -mulrDr half2.
Qed.
End D.

(* ---------- a stochastic map applied to a distribution ---------- *)
Definition chan n m (W : 'I_n -> 'I_m -> R) (p : 'I_n -> R) (j : 'I_m) : R := \sum_i p i * W i j.

Section Chan.
Variables (n m : nat) (W : 'I_n -> 'I_m -> R).
Hypothesis HW : forall i, dist (W i).
Implicit Types p q : 'I_n -> R.
Lemma chan_dist p : dist p -> dist (chan W p).
Proof.
move=> dp; split=> [j|]; first by apply: sumr_ge0 => i _; rewrite mulr_ge0 ?dp.1 ?(HW i).1.
by rewrite exchange_big /= -dp.2; apply: eq_bigr => i _; rewrite -mulr_sumr (HW i).2 mulr1.
Qed.
Lemma chan_abs p q : (forall i, 0 <= p i) -> (forall i, 0 <= q i) -> (forall i, q i = 0 -> p i = 0) -> forall j, chan W q j = 0 -> chan W p j = 0.
Proof.
move=> p0 q0 h j /eqP; rewrite psumr_eq0 => [/allP z|i _]; last by rewrite mulr_ge0 ?(HW i).1.
apply: big1 => i _; have := z i (mem_index_enum _) => /=; rewrite mulf_eq0 => /orP[/eqP/h ->|/eqP ->]; by rewrite ?mul0r ?mulr0.
Qed.
Lemma chan_tv p q : tv (chan W p) (chan W q) <= tv p q.
Proof.
rewrite ler_pmul2l ?half_gt0 //.
apply: (@le_trans _ _ (\sum_j \sum_i `|p i - q i| * W i j)).
  apply: ler_sum => j _; rewrite -sumrB; apply: le_trans (ler_norm_sum _ _ _) _; apply: ler_sum => i _.
  by rewrite -mulrBl normrM [`|W i j|]ger0_norm // (HW i).1.
by rewrite exchange_big /=; apply: ler_sum => i _; rewrite -mulr_sumr (HW i).2 mulr1.
Qed.
Lemma chan_kl p q : (forall i, 0 <= p i) -> (forall i, 0 <= q i) -> (forall i, q i = 0 -> p i = 0) ->
  kl (chan W p) (chan W q) <= kl p q.
Proof.
move=> p0 q0 h; apply: (@le_trans _ _ (\sum_j \sum_i W i j * klterm (p i) (q i))).
  apply: ler_sum => j _.
  have -> : \sum_i W i j * klterm (p i) (q i) = \sum_i klterm (p i * W i j) (q i * W i j).
    by apply: eq_bigr => i _; rewrite klterm_scale2 // (HW i).1.
  apply: logsum => [i|i|i]; rewrite ?mulr_ge0 ?(HW i).1 //.
  by move/eqP; rewrite mulf_eq0 => /orP[/eqP/h ->|/eqP ->]; rewrite ?mul0r ?mulr0.
by rewrite exchange_big /=; apply: ler_sum => i _; rewrite -mulr_suml (HW i).2 mul1r.
Qed.
Lemma chan_mid p q : chan W (mid p q) =1 mid (chan W p) (chan W q).
Proof.
by move=> j; rewrite /mid /chan -big_split mulr_sumr; apply: eq_bigr => i _ /=; rewrite -mulrA mulrDl.
Qed.
Lemma chan_js p q : dist p -> dist q -> js (chan W p) (chan W q) <= js p q.
Proof.
move=> dp dq; have dm := dist_mid dp dq.
have e (r : 'I_n -> R) : kl (chan W r) (mid (chan W p) (chan W q)) = kl (chan W r) (chan W (mid p q)).
  by apply: eq_bigr => j _; rewrite chan_mid.
rewrite ler_pmul2l ?half_gt0 // !e ler_add // chan_kl //; try exact: dp.1; try exact: dq.1; try exact: dm.1.
  by move=> i; exact: mid0.
by move=> i; exact: mid0r.
Qed.
Lemma chan_bc p q : dist p -> dist q -> bc p q <= bc (chan W p) (chan W q).
Proof.
move=> dp dq; apply: (@le_trans _ _ (\sum_j \sum_i Num.sqrt (p i * q i) * W i j)).
  by rewrite exchange_big /=; apply: ler_sum => i _; rewrite -mulr_sumr (HW i).2 mulr1.
apply: ler_sum => j _.
have := @cs_sqrt _ (fun i => Num.sqrt (p i * q i) * W i j) (fun i => p i * W i j) (fun i => q i * W i j) => H.
have s0 : 0 <= \sum_i Num.sqrt (p i * q i) * W i j by apply: sumr_ge0 => i _; rewrite mulr_ge0 ?sqrtr_ge0 ?(HW i).1.
rewrite -[X in X <= _](ger0_norm s0) -sqrtr_sqr; apply: ler_wsqrtr; apply: H => i.
- by rewrite mulr_ge0 ?dp.1 ?(HW i).1.
- by rewrite mulr_ge0 ?dq.1 ?(HW i).1.
- by rewrite mulr_ge0 ?sqrtr_ge0 ?(HW i).1.
by rewrite exprMn sqr_sqrtr ?mulr_ge0 ?dp.1 ?dq.1 // expr2 mulrACA.
Qed.
End Chan.

(* ---------- independent pairs: entry i*m + j is p_i r_j ---------- *)
Definition pr n m (p : 'I_n -> R) (r : 'I_m -> R) (k : 'I_(n * m)) : R := p (mxtens_unindex k).1 * r (mxtens_unindex k).2.

Section Prod.
Variables n m : nat.
Implicit Types (p q : 'I_n -> R) (r s : 'I_m -> R).
Lemma sum_pair (F : 'I_(n * m) -> R) : \sum_k F k = \sum_i \sum_j F (mxtens_index (i, j)).
Proof.
rewrite pair_big /= (reindex (@mxtens_index n m)) /=; first by apply: eq_bigr => -[i j].
by exists (@mxtens_unindex n m) => k _; rewrite ?mxtens_indexK ?mxtens_unindexK.
Qed.
Lemma prE p r i j : pr p r (mxtens_index (i, j)) = p i * r j. Proof. by rewrite /pr mxtens_indexK. Qed.
Lemma pr_dist p r : dist p -> dist r -> dist (pr p r).
Proof.
move=> dp dr; split=> [k|]; first by rewrite mulr_ge0 ?dp.1 ?dr.1.
rewrite sum_pair -dp.2; apply: eq_bigr => i _; rewrite -[RHS]mulr1 -dr.2 mulr_sumr; apply: eq_bigr => j _; exact: prE.
Qed.
Lemma pr_abs p q r s : (forall i, q i = 0 -> p i = 0) -> (forall i, s i = 0 -> r i = 0) -> forall k, pr q s k = 0 -> pr p r k = 0.
Proof. by move=> h g k /eqP; rewrite /pr mulf_eq0 => /orP[/eqP/h ->|/eqP/g ->]; rewrite ?mul0r ?mulr0. Qed.
Lemma pr_kl p q r s : dist p -> dist q -> dist r -> dist s -> (forall i, q i = 0 -> p i = 0) -> (forall i, s i = 0 -> r i = 0) ->
  kl (pr p r) (pr q s) = kl p q + kl r s.
Proof.
move=> dp dq dr ds h g; rewrite /kl sum_pair.
transitivity (\sum_i \sum_j (r j * klterm (p i) (q i) + p i * klterm (r j) (s j))).
  apply: eq_bigr => i _; apply: eq_bigr => j _; rewrite !prE.
  have := dp.1 i; rewrite le_eqVlt => /orP[/eqP <-|pi]; first by rewrite mul0r !klterm0 mulr0 mul0r addr0.
  have := dr.1 j; rewrite le_eqVlt => /orP[/eqP <-|rj]; first by rewrite mulr0 !klterm0 mulr0 mul0r addr0.
  have qi : 0 < q i by rewrite lt_def dq.1 andbT; apply: contraTneq pi => /h ->; rewrite ltxx.
  have sj : 0 < s j by rewrite lt_def ds.1 andbT; apply: contraTneq rj => /g ->; rewrite ltxx.
  by rewrite !klterm_pos ?mulr_gt0 // !ln_div ?mulr_gt0 // !lnM //; rring.
under eq_bigr do rewrite big_split -mulr_suml -mulr_sumr dr.2 mul1r /=.
by rewrite big_split -mulr_suml dp.2 mul1r.
Qed.
Lemma pr_bc p q r s : dist p -> dist q -> bc (pr p r) (pr q s) = bc p q * bc r s.
Proof.
move=> dp dq; rewrite /bc sum_pair big_distrlr; apply: eq_bigr => i _; apply: eq_bigr => j _.
by rewrite !prE mulrACA sqrtrM // mulr_ge0 ?dp.1 ?dq.1.
Qed.
Lemma pr_tv p q r s : dist p -> dist q -> dist r -> dist s -> tv (pr p r) (pr q s) <= tv p q + tv r s.
Proof.
move=> dp dq dr ds; rewrite -mulrDr ler_pmul2l ?half_gt0 // sum_pair.
apply: (@le_trans _ _ (\sum_i \sum_j (`|p i - q i| * r j + q i * `|r j - s j|))).
  apply: ler_sum => i _; apply: ler_sum => j _; rewrite !prE.
  have -> : p i * r j - q i * s j = (p i - q i) * r j + q i * (r j - s j) by rring.
  by apply: le_trans (ler_norm_add _ _) _; rewrite !normrM [`|r j|]ger0_norm ?dr.1 // [`|q i|]ger0_norm ?dq.1.
under eq_bigr do rewrite big_split -!mulr_sumr dr.2 mulr1 /=.
by rewrite big_split -mulr_suml dq.2 mul1r.
Qed.
Lemma pr_S p r t : dist p -> dist r -> S (pr p r) t = S p t + S r t.
Proof.
move=> dp dr.
have z (x y u : R) : 0 <= x -> 0 <= y -> x * y * exp (u * ln (x * y)) = (x * exp (u * ln x)) * (y * exp (u * ln y)).
  rewrite le_eqVlt => /orP[/eqP <-|xp]; first by rewrite !mul0r.
  rewrite le_eqVlt => /orP[/eqP <-|yp]; first by rewrite mulr0 !mul0r mulr0.
  by rewrite lnM // mulrDr expRD mulrACA.
have eZ : Zf (pr p r) t = Zf p t * Zf r t.
  rewrite /Zf sum_pair big_distrlr; apply: eq_bigr => i _; apply: eq_bigr => j _.
  by rewrite prE z ?dp.1 ?dr.1.
have em : mean (pr p r) = mean p + mean r.
  rewrite /mean sum_pair; transitivity (\sum_i \sum_j (r j * (p i * ln (p i)) + p i * (r j * ln (r j)))).
    apply: eq_bigr => i _; apply: eq_bigr => j _; rewrite prE.
    have := dp.1 i; rewrite le_eqVlt => /orP[/eqP <-|pi]; first by rewrite !mul0r mulr0 addr0.
    have := dr.1 j; rewrite le_eqVlt => /orP[/eqP <-|rj]; first by rewrite !(mul0r, mulr0) addr0.
    by rewrite lnM //; rring.
  under eq_bigr do rewrite big_split -mulr_suml -mulr_sumr dr.2 mul1r /=.
  by rewrite big_split -mulr_suml dp.2 mul1r.
rewrite /S; case: eqP => _; first by rewrite em opprD.
by rewrite eZ lnM ?Zf_gt0 // mulrDl opprD.
Qed.
End Prod.
End Ineq.
