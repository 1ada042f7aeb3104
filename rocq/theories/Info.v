(* Info.v -- real analysis for finite probability distributions: logarithm, powers, Gibbs' inequality,
   Renyi entropies, Bhattacharyya coefficient, total variation.  Specification-side mathematics only. *)
Set Warnings "-notation-overridden,-ambiguous-paths".
From Coq Require Import Reals Lra.
From mathcomp Require Import all_ssreflect all_algebra.
From Verif Require Import RealC.
Set Implicit Arguments.
Unset Strict Implicit.
Unset Printing Implicit Defensive.
Import Order.Theory GRing.Theory Num.Theory.
Local Open Scope ring_scope.

(* ---------- transfer to Coq's Reals ---------- *)
Lemma RinvE (x : R) : x != 0 -> x^-1 = Rinv x.
Proof. by move=> h; rewrite -[x^-1]/(Rinvx x) /Rinvx h. Qed.

Lemma expR_gt0 x : 0 < exp x. Proof. exact/RltP/exp_pos. Qed.
Lemma expR_ge0 x : 0 <= exp x. Proof. exact: ltW (expR_gt0 x). Qed.
Lemma expRD x y : exp (x + y) = exp x * exp y. Proof. exact: exp_plus. Qed.
Lemma expR0 : exp 0 = 1. Proof. exact: exp_0. Qed.
Lemma expRN x : exp (- x) = (exp x)^-1.
Proof. by rewrite RinvE ?gt_eqF ?expR_gt0 //; exact: exp_Ropp. Qed.
Lemma expR_ge1 x : 1 + x <= exp x. Proof. exact/RleP/exp_ineq1_le. Qed.
Lemma expR_gt1 x : x != 0 -> 1 + x < exp x. Proof. by move=> /eqP h; exact/RltP/exp_ineq1. Qed.
Lemma lnRK x : ln (exp x) = x. Proof. exact: ln_exp. Qed.
Lemma expRK x : 0 < x -> exp (ln x) = x. Proof. by move=> /RltP; exact: exp_ln. Qed.
Lemma lnM x y : 0 < x -> 0 < y -> ln (x * y) = ln x + ln y.
Proof. by move=> /RltP hx /RltP hy; exact: ln_mult. Qed.
Lemma lnV x : 0 < x -> ln x^-1 = - ln x.
Proof. by move=> hx; rewrite RinvE ?gt_eqF //; apply: ln_Rinv; exact/RltP. Qed.
Lemma ln_div x y : 0 < x -> 0 < y -> ln (x / y) = ln x - ln y.
Proof. by move=> hx hy; rewrite lnM ?invr_gt0 // lnV. Qed.
Lemma lnR1 : ln 1 = 0. Proof. exact: ln_1. Qed.
Lemma lnX x k : 0 < x -> ln (x ^+ k) = k%:R * ln x.
Proof.
move=> h; elim: k => [|k IH]; first by rewrite expr0 lnR1 mul0r.
by rewrite exprS lnM ?exprn_gt0 // IH -addn1 natrD mulrDl mul1r addrC.
Qed.
Lemma ltr_expR x y : (exp x < exp y) = (x < y).
Proof. by apply/idP/idP => /RltP h; apply/RltP; [exact: exp_lt_inv|exact: exp_increasing]. Qed.
Lemma ler_expR x y : (exp x <= exp y) = (x <= y). Proof. by rewrite !leNgt ltr_expR. Qed.
Lemma ltr_ln x y : 0 < x -> 0 < y -> (ln x < ln y) = (x < y).
Proof. by move=> hx hy; rewrite -ltr_expR !expRK. Qed.
Lemma ler_ln x y : 0 < x -> 0 < y -> (ln x <= ln y) = (x <= y).
Proof. by move=> hx hy; rewrite -ler_expR !expRK. Qed.
Lemma ln_inj x y : 0 < x -> 0 < y -> ln x = ln y -> x = y.
Proof. by move=> hx hy e; rewrite -(expRK hx) e expRK. Qed.
Lemma ln_ge0 x : 1 <= x -> 0 <= ln x.
Proof. by move=> h; rewrite -lnR1 ler_ln ?ltr01 ?(lt_le_trans ltr01 h). Qed.
Lemma ln_le0 x : 0 < x -> x <= 1 -> ln x <= 0.
Proof. by move=> h0 h; rewrite -lnR1 ler_ln ?ltr01. Qed.
Lemma ln_le x : 0 < x -> ln x <= x - 1.
Proof. by move=> h; rewrite ler_subr_addl -{2}(expRK h) expR_ge1. Qed.
Lemma ln_lt x : 0 < x -> x != 1 -> ln x < x - 1.
Proof.
move=> h n1; rewrite ltr_subr_addl -{2}(expRK h) expR_gt1 //.
by apply: contra n1 => /eqP e; rewrite -(expRK h) e expR0.
Qed.
Lemma sqrtE x : Num.sqrt x = sqrt x :> R.
Proof.
case: (lerP 0 x) => h; last first.
  rewrite ler0_sqrtr ?(ltW h) //; symmetry; apply: sqrt_neg_0; apply/RleP; exact: ltW.
apply/eqP; rewrite -(eqr_expn2 (ltn0Sn 1)) ?sqrtr_ge0 // ?sqr_sqrtr //.
  by rewrite expr2; apply/eqP; symmetry; apply: sqrt_sqrt; exact/RleP.
by apply/RleP/sqrt_pos.
Qed.

(* ---------- powers x^a of x >= 0, with 0^a = 0 ---------- *)
Definition rpow (x a : R) : R := if x == 0 then 0 else exp (a * ln x).

Lemma rpow_gt0 x a : 0 < x -> 0 < rpow x a.
Proof. by move=> h; rewrite /rpow gt_eqF // expR_gt0. Qed.
Lemma rpow_ge0 x a : 0 <= rpow x a.
Proof. by rewrite /rpow; case: eqP => // _; exact: expR_ge0. Qed.
Lemma ln_rpow x a : 0 < x -> ln (rpow x a) = a * ln x.
Proof. by move=> h; rewrite /rpow gt_eqF // lnRK. Qed.
Lemma rpow1 x : 0 <= x -> rpow x 1 = x.
Proof. by rewrite le_eqVlt /rpow => /orP[/eqP <-|h]; rewrite ?eqxx // gt_eqF // mul1r expRK. Qed.
Lemma rpow_nat x (k : nat) : 0 <= x -> (0 < k)%N -> rpow x k%:R = x ^+ k.
Proof.
rewrite le_eqVlt => /orP[/eqP <-|h] k0; first by rewrite /rpow eqxx expr0n eqn0Ngt k0.
by rewrite /rpow gt_eqF // -lnX // expRK // exprn_gt0.
Qed.
Lemma rpowM x a b : 0 <= x -> rpow (rpow x a) b = rpow x (a * b).
Proof.
rewrite le_eqVlt => /orP[/eqP <-|h]; first by rewrite /rpow eqxx eqxx.
by rewrite {1}/rpow gt_eqF ?rpow_gt0 // ln_rpow // /rpow (gt_eqF h) mulrA [b * a]mulrC.
Qed.

(* ---------- finite distributions ---------- *)
Definition dist n (p : 'I_n -> R) := (forall i, 0 <= p i) /\ \sum_i p i = 1.

Section Distr.
Variable n : nat.
Implicit Types p q : 'I_n -> R.

Lemma dist_le1 p i : dist p -> p i <= 1.
Proof. by case=> p0 <-; rewrite (bigD1 i) //= ler_addl sumr_ge0. Qed.
Lemma dist_pos p : dist p -> exists i, 0 < p i.
Proof.
case=> p0 p1; apply/existsP; case: (boolP [exists i, 0 < p i]) => // /existsPn h.
have : \sum_i p i = 0 by apply: big1 => i _; apply/eqP; rewrite eq_le p0 leNgt h.
by rewrite p1 => /eqP; rewrite oner_eq0.
Qed.

(* Gibbs *)
Definition klterm (x y : R) : R := if x == 0 then 0 else x * ln (x / y).
Definition kl p q := \sum_i klterm (p i) (q i).

Lemma klterm_ge x y : 0 <= x -> 0 <= y -> (y = 0 -> x = 0) -> x - y <= klterm x y.
Proof.
move=> x0 y0 h; rewrite /klterm; case: eqP => [->|nx]; first by rewrite sub0r oppr_le0.
have xp : 0 < x by rewrite lt_def x0 andbT; apply/eqP.
have yp : 0 < y by rewrite lt_def y0 andbT; apply/eqP => e; exact: nx (h e).
have -> : x / y = (y / x)^-1 by rewrite invf_div.
rewrite lnV ?divr_gt0 // mulrN ler_oppr opprB.
have -> : y - x = x * (y / x - 1) by rewrite mulrBr mulr1 mulrC divfK // gt_eqF.
by rewrite ler_pmul2l // ln_le // divr_gt0.
Qed.

Lemma klterm_eq x y : 0 <= x -> 0 <= y -> (y = 0 -> x = 0) -> klterm x y = x - y -> x = y.
Proof.
move=> x0 y0 h; rewrite /klterm; case: eqP => [->|nx].
  by rewrite sub0r => /eqP; rewrite eq_sym oppr_eq0 => /eqP ->.
have xp : 0 < x by rewrite lt_def x0 andbT; apply/eqP.
have yp : 0 < y by rewrite lt_def y0 andbT; apply/eqP => e; exact: nx (h e).
have -> : x / y = (y / x)^-1 by rewrite invf_div.
rewrite lnV ?divr_gt0 // mulrN => /eqP; rewrite eqr_oppLR opprB => /eqP.
have -> : y - x = x * (y / x - 1) by rewrite mulrBr mulr1 mulrC divfK // gt_eqF.
move/(mulfI (negbT (gt_eqF xp))) => e.
have : y / x = 1.
  case: (eqVneq (y / x) 1) => // n1; have := ln_lt (divr_gt0 yp xp) n1; by rewrite e ltxx.
by move=> {}e; rewrite -[y](divfK (negbT (gt_eqF xp))) e mul1r.
Qed.

Lemma kl_ge0 p q : dist p -> dist q -> (forall i, q i = 0 -> p i = 0) -> 0 <= kl p q.
Proof.
move=> [p0 p1] [q0 q1] h; have {1}-> : 0 = \sum_i (p i - q i) by rewrite sumrB p1 q1 subrr.
by apply: ler_sum => i _; apply: klterm_ge => //; exact: h.
Qed.

Lemma kl_eq0 p q : dist p -> dist q -> (forall i, q i = 0 -> p i = 0) -> (kl p q = 0 <-> forall i, p i = q i).
Proof.
move=> [p0 p1] [q0 q1] h; split=> [e i|e].
  have ge j : 0 <= klterm (p j) (q j) - (p j - q j) by rewrite subr_ge0 klterm_ge //; exact: h.
  have /eqP : \sum_j (klterm (p j) (q j) - (p j - q j)) = 0 by rewrite sumrB -/(kl p q) e sumrB p1 q1 !subrr.
  rewrite psumr_eq0 // => /allP/(_ i (mem_index_enum _)) /=; rewrite subr_eq0 => /eqP.
  by apply: klterm_eq => //; exact: h.
rewrite /kl big1 // => i _; rewrite /klterm -e; case: eqP => // /eqP n0.
by rewrite divff // lnR1 mulr0.
Qed.

(* ---------- Renyi ---------- *)
(* cumulant generating function of ln p under p *)
Definition Zf p t := \sum_i p i * exp (t * ln (p i)).
Definition mean p := \sum_i p i * ln (p i).

Lemma exp_conv r y : 0 <= r -> r <= 1 -> exp (r * y) <= 1 - r + r * exp y.
Proof.
move=> r0 r1; set m := r * y.
have e1 : exp m * (1 + (y - m)) <= exp y.
  by rewrite -{2}(subrK m y) expRD [exp _ * exp m]mulrC ler_pmul2l ?expR_gt0 // expR_ge1.
have e2 : exp m * (1 - m) <= 1.
  by rewrite -[X in _ <= X]expR0 -(subrr m) expRD ler_pmul2l ?expR_gt0 // expR_ge1.
have r1' : 0 <= 1 - r by rewrite subr_ge0.
have := ler_add (ler_wpmul2l r1' e2) (ler_wpmul2l r0 e1); rewrite mulr1; apply: le_trans.
rewrite le_eqVlt; apply/orP; left; apply/eqP; rewrite /m; move: (exp _) => e; rring.
Qed.

Lemma Zf_gt0 p t : dist p -> 0 < Zf p t.
Proof.
move=> dp; have [i pi] := dist_pos dp; case: dp => p0 _.
rewrite /Zf (bigD1 i) //= ltr_spaddl ?mulr_gt0 ?expR_gt0 // sumr_ge0 // => j _.
by rewrite mulr_ge0 ?expR_ge0.
Qed.

Lemma Zf_pow p t r : dist p -> 0 <= r -> r <= 1 -> ln (Zf p (r * t)) <= r * ln (Zf p t).
Proof.
move=> dp r0 r1; have zp := Zf_gt0 t dp; set Z := Zf p t in zp *.
rewrite -ler_expR expRK ?Zf_gt0 //.
have : \sum_i p i * exp (r * (t * ln (p i) - ln Z)) <= \sum_i p i * (1 - r + r * exp (t * ln (p i) - ln Z)).
  by apply: ler_sum => i _; apply: ler_wpmul2l; [case: dp|exact: exp_conv].
have -> : \sum_i p i * exp (r * (t * ln (p i) - ln Z)) = Zf p (r * t) / exp (r * ln Z).
  rewrite /Zf mulr_suml; apply: eq_bigr => i _; rewrite mulrBr expRD expRN mulrA; congr (_ * exp _ * _).
  by rewrite mulrA.
have -> : \sum_i p i * (1 - r + r * exp (t * ln (p i) - ln Z)) = 1.
  rewrite (eq_bigr (fun i => p i * (1 - r) + (p i * exp (t * ln (p i))) * (r / Z))); last first.
    by move=> i _; rewrite mulrDr expRD expRN expRK // -!mulrA; congr (_ + _ * _); rewrite mulrCA.
  rewrite big_split /= -!mulr_suml -/(Zf p t) -/Z dp.2 mul1r mulrCA mulfV ?gt_eqF // mulr1.
  exact: subrK.
by rewrite ler_pdivr_mulr ?expR_gt0 // mul1r.
Qed.

Lemma Zf_tangent p t : dist p -> t * mean p <= ln (Zf p t).
Proof.
move=> dp; rewrite -ler_expR expRK ?Zf_gt0 //; set m := t * mean p.
have -> : exp m = \sum_i p i * (exp m * (1 + (t * ln (p i) - m))).
  rewrite (eq_bigr (fun i => exp m * (p i * (1 - m) + t * (p i * ln (p i))))); last first.
    by move=> i _; rring.
  rewrite -mulr_sumr big_split /= -mulr_suml -mulr_sumr dp.2 -/(mean p) -/m mul1r.
  by rewrite subrK mulr1.
apply: ler_sum => i _; apply: ler_wpmul2l; first by case: dp.
set y := t * _; have -> : exp y = exp m * exp (y - m) by rewrite -expRD addrC subrK.
by rewrite ler_pmul2l ?expR_gt0 // expR_ge1.
Qed.

(* the entropy of order a = t + 1 *)
Definition S p t : R := if t == 0 then - mean p else - (ln (Zf p t) / t).

Lemma S_anti p s t : dist p -> s <= t -> S p t <= S p s.
Proof.
move=> dp; rewrite le_eqVlt => /orP[/eqP ->//|st]; rewrite /S.
case: (ltrgtP s 0) => [s0|s0|s0]; last first.
- (* s = 0 < t *) rewrite ifF; last by rewrite gt_eqF // -s0.
  have t0 : 0 < t by rewrite -s0.
  by rewrite ler_opp2 ler_pdivl_mulr // mulrC; exact: Zf_tangent.
- (* 0 < s < t *) have t0 : 0 < t := lt_trans s0 st.
  rewrite gt_eqF // ler_opp2 ler_pdivr_mulr // mulrAC ler_pdivl_mulr //.
  have := @Zf_pow p t (s / t) dp (ltW (divr_gt0 s0 t0)).
  rewrite ler_pdivr_mulr // mul1r divfK ?gt_eqF // => /(_ (ltW st)).
  by rewrite mulrAC ler_pdivl_mulr // [s * _]mulrC.
case: (ltrgtP t 0) => [t0|t0|t0].
- (* s < t < 0 *)
  rewrite ler_opp2 ler_ndivl_mulr // mulrAC ler_ndivl_mulr //.
  have := @Zf_pow p s (t / s) dp.
  rewrite -mulrNN -invrN divr_ge0 ?oppr_ge0 ?(ltW s0) ?(ltW t0) // => /(_ isT).
  rewrite ler_pdivr_mulr ?oppr_gt0 // mul1r ler_opp2 (ltW st) => /(_ isT).
  rewrite invrN mulrNN divfK ?lt_eqF // => h.
  by have := ler_wnmul2r (ltW s0) h; rewrite mulrAC divfK ?lt_eqF // [t * _]mulrC.
- (* s < 0 < t *)
  rewrite ler_opp2; apply: (@le_trans _ _ (mean p)).
    by rewrite ler_ndivr_mulr // mulrC; exact: Zf_tangent.
  by rewrite ler_pdivl_mulr // mulrC; exact: Zf_tangent.
- by rewrite ler_opp2 ler_ndivr_mulr // mulrC; exact: Zf_tangent.
Qed.

(* order infinity *)
Lemma S_max p t m : dist p -> (forall i, p i <= m) -> - ln m <= S p t.
Proof.
move=> dp pm; have [i0 pi0] := dist_pos dp; have m0 : 0 < m := lt_le_trans pi0 (pm i0).
apply: (@le_trans _ _ (S p (Num.max t 1))); last by apply: S_anti => //; rewrite le_maxr lexx.
have t0 : 0 < Num.max t 1 by rewrite lt_maxr ltr01 orbT.
move: (Num.max t 1) t0 => {}t t0.
rewrite /S gt_eqF // ler_opp2 ler_pdivr_mulr // -ler_expR expRK ?Zf_gt0 //.
rewrite -[X in _ <= X]mul1r -dp.2 mulr_suml /Zf; apply: ler_sum => i _.
have := dp.1 i; rewrite le_eqVlt => /orP[/eqP <-|pi]; first by rewrite !mul0r.
by rewrite ler_pmul2l // ler_expR [ln m * _]mulrC ler_pmul2l // ler_ln.
Qed.

(* order 0: support size *)
Lemma S_supp p : dist p -> S p (-1) = ln (#|[pred i | p i != 0]|%:R).
Proof.
move=> dp; rewrite /S oppr_eq0 oner_eq0 invrN1 mulrN1 opprK; congr ln.
rewrite /Zf (bigID (fun i => p i == 0)) /= big1 ?add0r; last by move=> i /eqP ->; rewrite mul0r.
rewrite (eq_bigr (fun=> 1)) ?big_const_idem; last first.
  move=> i ni; have pi : 0 < p i by rewrite lt_def ni dp.1.
  by rewrite mulN1r expRN expRK // mulfV.
by rewrite sumr_const.
Qed.

Lemma supp_gt0 p : dist p -> (0 < #|[pred i | p i != 0%R]|)%N.
Proof. by move=> dp; have [i pi] := dist_pos dp; apply/card_gt0P; exists i; rewrite inE gt_eqF. Qed.

Lemma S_le p t : dist p -> -1 <= t -> S p t <= ln n%:R.
Proof.
move=> dp h; apply: (le_trans (S_anti dp h)); rewrite S_supp //.
have c : (#|[pred i | p i != 0%R]| <= n)%N by rewrite -[X in (_ <= X)%N](card_ord n) max_card.
by rewrite ler_ln ?ltr0n ?ler_nat ?supp_gt0 // (leq_trans (supp_gt0 dp) c).
Qed.

Lemma S_ge0 p t : dist p -> 0 <= S p t.
Proof. by move=> dp; have := @S_max p t 1 dp; rewrite lnR1 oppr0; apply=> i; exact: dist_le1. Qed.

(* flat distributions *)
Lemma S_flat p t c : dist p -> (forall i, p i = 0 \/ p i = c) -> S p t = - ln c.
Proof.
move=> dp fl.
have m : mean p = ln c.
  rewrite -[RHS]mul1r -dp.2 mulr_suml; apply: eq_bigr => i _.
  by case: (fl i) => ->; rewrite ?mul0r.
rewrite /S m; case: eqP => // /eqP t0; congr (- _).
have -> : Zf p t = exp (t * ln c).
  rewrite -[RHS]mul1r -dp.2 mulr_suml; apply: eq_bigr => i _.
  by case: (fl i) => ->; rewrite ?mul0r.
by rewrite lnRK mulrC mulKf.
Qed.

(* a positive t: S p t equals -ln max only for flat distributions *)
Lemma St_flat p m t : dist p -> 0 < t -> (forall i, p i <= m) -> S p t <= - ln m -> forall i, p i = 0 \/ p i = m.
Proof.
move=> dp t0 pm; rewrite /S gt_eqF // ler_opp2 ler_pdivl_mulr //; have [i0 pi0] := dist_pos dp.
have m0 : 0 < m := lt_le_trans pi0 (pm i0).
rewrite -ler_expR expRK ?Zf_gt0 // => h i; set M := exp _ in h.
have ge j : 0 <= p j * (M - exp (t * ln (p j))).
  have := dp.1 j; rewrite le_eqVlt => /orP[/eqP <-|pj]; first by rewrite !mul0r.
  by rewrite mulr_ge0 ?subr_ge0 ?(ltW pj) // ler_expR [ln m * t]mulrC ler_pmul2l // ler_ln.
have s0 : \sum_j p j * (M - exp (t * ln (p j))) <= 0.
  rewrite (eq_bigr (fun j => p j * M - p j * exp (t * ln (p j)))); last by move=> j _; rewrite mulrBr.
  by rewrite sumrB -mulr_suml dp.2 mul1r subr_le0.
have /eqP : \sum_j p j * (M - exp (t * ln (p j))) = 0 by apply/eqP; rewrite eq_le s0 sumr_ge0.
rewrite psumr_eq0 // => /allP/(_ i (mem_index_enum _)) /=; rewrite mulf_eq0 subr_eq0.
case/orP=> [/eqP ->|/eqP e]; [by left|].
have := dp.1 i; rewrite le_eqVlt => /orP[/eqP <-|pi]; [by left|right].
have : t * ln m = t * ln (p i) by rewrite -[LHS]lnRK -[RHS]lnRK -e /M [ln m * t]mulrC.
by move/(mulfI (lt0r_neq0 t0)) => e2; rewrite -(expRK pi) -e2 expRK.
Qed.

End Distr.

Section Distances.
Variable n : nat.
Implicit Types p q r : 'I_n -> R.

Definition tv p q : R := 2%:R^-1 * \sum_i `|p i - q i|.

Lemma half_gt0 : 0 < 2%:R^-1 :> R. Proof. by rewrite invr_gt0 ltr0n. Qed.
Lemma half2 (x : R) : 2%:R^-1 * (x + x) = x.
Proof. by rewrite -[x + x]mulr2n -[x *+ 2]mulr_natl mulrA mulVf ?mul1r // pnatr_eq0. Qed.

Lemma tv_sym p q : tv p q = tv q p.
Proof. by rewrite /tv; congr (_ * _); apply: eq_bigr => i _; rewrite distrC. Qed.
Lemma tv_ge0 p q : 0 <= tv p q.
Proof. by rewrite mulr_ge0 ?(ltW half_gt0) // sumr_ge0. Qed.
Lemma tv_eq0 p q : tv p q = 0 <-> forall i, p i = q i.
Proof.
split=> [/eqP|e]; last by rewrite /tv big1 ?mulr0 // => i _; rewrite e subrr normr0.
rewrite mulf_eq0 gt_eqF ?half_gt0 //= psumr_eq0 // => /allP h i.
by have := h i (mem_index_enum _); rewrite /= normr_eq0 subr_eq0 => /eqP.
Qed.
Lemma tv_tri p q r : tv p r <= tv p q + tv q r.
Proof.
rewrite -mulrDr ler_pmul2l ?half_gt0 // -big_split /=; apply: ler_sum => i _.
exact: ler_dist_add.
Qed.

Definition prob p (A : {set 'I_n}) := \sum_(i in A) p i.

Lemma prob_diff p q A : dist p -> dist q ->
  prob p A - prob q A = 2%:R^-1 * (\sum_(i in A) (p i - q i) - \sum_(i in ~: A) (p i - q i)).
Proof.
move=> [_ p1] [_ q1]; rewrite /prob -sumrB.
have : \sum_i (p i - q i) = 0 by rewrite sumrB p1 q1 subrr.
rewrite (bigID (mem A)) /= => /eqP; rewrite addr_eq0 => /eqP e.
have -> : \sum_(i in ~: A) (p i - q i) = \sum_(i | i \notin A) (p i - q i).
  by apply: eq_bigl => i; rewrite inE.
by rewrite -[X in _ = _ * (_ + X)]e half2.
Qed.

Lemma tv_event p q A : dist p -> dist q -> `|prob p A - prob q A| <= tv p q.
Proof.
move=> dp dq; rewrite prob_diff // normrM gtr0_norm ?half_gt0 // ler_pmul2l ?half_gt0 //.
apply: (le_trans (ler_norm_sub _ _)).
rewrite [X in _ <= X](bigID (mem A)) /= ler_add //; first exact: ler_norm_sum.
apply: (le_trans (ler_norm_sum _ _ _)); rewrite le_eqVlt; apply/orP; left; apply/eqP.
by apply: eq_bigl => i; rewrite inE.
Qed.

Lemma tv_attained p q : dist p -> dist q -> exists A, prob p A - prob q A = tv p q.
Proof.
move=> dp dq; exists [set i | q i <= p i]; rewrite prob_diff //; congr (_ * _).
rewrite [RHS](bigID (fun i => q i <= p i)) /= -sumrN; congr (_ + _).
  by apply: eq_big => i; rewrite inE // => h; rewrite ger0_norm // subr_ge0.
by apply: eq_big => i; rewrite !inE // -ltNge => h; rewrite ltr0_norm // subr_lt0.
Qed.

Lemma tv_le1 p q : dist p -> dist q -> tv p q <= 1.
Proof.
move=> [p0 p1] [q0 q1]; rewrite -[X in _ <= X](half2 1) ler_pmul2l ?half_gt0 // -{1}p1 -q1 -big_split /=.
by apply: ler_sum => i _; rewrite (le_trans (ler_norm_sub _ _)) // !ger0_norm.
Qed.

(* Jensen-Shannon *)
Definition mid p q i := 2%:R^-1 * (p i + q i).
Definition js p q := 2%:R^-1 * (kl p (mid p q) + kl q (mid p q)).

Lemma midC p q i : mid p q i = mid q p i. Proof. by rewrite /mid addrC. Qed.
Lemma dist_mid p q : dist p -> dist q -> dist (mid p q).
Proof.
move=> [p0 p1] [q0 q1]; split=> [i|]; first by rewrite mulr_ge0 ?(ltW half_gt0) // addr_ge0.
by rewrite -mulr_sumr big_split /= p1 q1 half2.
Qed.
Lemma mid0 p q i : dist p -> dist q -> mid p q i = 0 -> p i = 0.
Proof.
move=> [p0 _] [q0 _] /eqP; rewrite mulf_eq0 gt_eqF ?half_gt0 //= paddr_eq0 //.
by move=> /andP[/eqP].
Qed.
Lemma mid0r p q i : dist p -> dist q -> mid p q i = 0 -> q i = 0.
Proof. by move=> dp dq; rewrite midC; exact: mid0. Qed.
Lemma js_sym p q : js p q = js q p.
Proof.
rewrite /js addrC; congr (_ * (_ + _)); apply: eq_bigr => i _; by rewrite midC.
Qed.
Lemma js_ge0 p q : dist p -> dist q -> 0 <= js p q.
Proof.
move=> dp dq; have dm := dist_mid dp dq.
by rewrite mulr_ge0 ?(ltW half_gt0) // addr_ge0 // kl_ge0 // => i; [exact: mid0|exact: mid0r].
Qed.
Lemma js_eq0 p q : dist p -> dist q -> (js p q = 0 <-> forall i, p i = q i).
Proof.
move=> dp dq; have dm := dist_mid dp dq.
have hp i : mid p q i = 0 -> p i = 0 by exact: mid0.
have hq i : mid p q i = 0 -> q i = 0 by exact: mid0r.
split=> [/eqP|e].
  rewrite mulf_eq0 gt_eqF ?half_gt0 //= paddr_eq0 ?kl_ge0 // => /andP[/eqP k1 /eqP k2] i.
  have [h1 _] := kl_eq0 dp dm hp; have [h2 _] := kl_eq0 dq dm hq.
  by rewrite h1 // h2.
have em i : p i = mid p q i by rewrite /mid -e half2.
have [_ h1] := kl_eq0 dp dm hp; have [_ h2] := kl_eq0 dq dm hq.
by rewrite /js h1 // h2 ?addr0 ?mulr0 // => i; rewrite -e em.
Qed.
Lemma kl_mid_le p q : dist p -> dist q -> kl p (mid p q) <= ln 2%:R.
Proof.
move=> dp dq; have -> : ln 2%:R = \sum_i p i * ln 2%:R by rewrite -mulr_suml dp.2 mul1r.
apply: ler_sum => i _; rewrite /klterm; case: eqP => [->|/eqP n0]; first by rewrite mul0r.
have pi : 0 < p i by rewrite lt_def n0 dp.1.
have mi : 0 < mid p q i by rewrite mulr_gt0 ?half_gt0 // ltr_spaddl // dq.1.
rewrite ler_pmul2l // ler_ln ?divr_gt0 ?ltr0n // ler_pdivr_mulr // mulrA mulfV ?pnatr_eq0 // mul1r.
by rewrite ler_addl dq.1.
Qed.
Lemma js_le p q : dist p -> dist q -> js p q <= ln 2%:R.
Proof.
move=> dp dq; rewrite -[X in _ <= X]half2 ler_pmul2l ?half_gt0 // ler_add ?kl_mid_le //.
suff -> : kl q (mid p q) = kl q (mid q p) by exact: kl_mid_le.
by apply: eq_bigr => i _; rewrite midC.
Qed.

(* Bhattacharyya *)
Definition bc p q := \sum_i Num.sqrt (p i * q i).

Lemma sqrtM_le (x y : R) : 0 <= x -> 0 <= y -> Num.sqrt (x * y) <= 2%:R^-1 * (x + y).
Proof.
move=> x0 y0; rewrite sqrtrM // -subr_ge0.
have -> : 2%:R^-1 * (x + y) - Num.sqrt x * Num.sqrt y = 2%:R^-1 * (Num.sqrt x - Num.sqrt y) ^+ 2.
  rewrite sqrrB !sqr_sqrtr // mulr2n addrAC mulrBr half2 //.
by rewrite mulr_ge0 ?(ltW half_gt0) // sqr_ge0.
Qed.
Lemma sqrtM_eq (x y : R) : 0 <= x -> 0 <= y -> Num.sqrt (x * y) = 2%:R^-1 * (x + y) -> x = y.
Proof.
move=> x0 y0; rewrite sqrtrM // => e.
have : 2%:R^-1 * (Num.sqrt x - Num.sqrt y) ^+ 2 = 0.
  by rewrite sqrrB !sqr_sqrtr // mulr2n addrAC mulrBr half2 -e subrr.
move/eqP; rewrite mulf_eq0 gt_eqF ?half_gt0 //= sqrf_eq0 subr_eq0 => /eqP {}e.
by rewrite -(sqr_sqrtr x0) e sqr_sqrtr.
Qed.

Lemma bc_sym p q : bc p q = bc q p.
Proof. by apply: eq_bigr => i _; rewrite mulrC. Qed.
Lemma bc_ge0 p q : 0 <= bc p q. Proof. by apply: sumr_ge0 => i _; exact: sqrtr_ge0. Qed.
Lemma bc_gap p q : dist p -> dist q -> 1 - bc p q = \sum_i (mid p q i - Num.sqrt (p i * q i)).
Proof. by move=> dp dq; rewrite sumrB (dist_mid dp dq).2. Qed.
Lemma bc_le1 p q : dist p -> dist q -> bc p q <= 1.
Proof.
move=> dp dq; rewrite -subr_ge0 bc_gap // sumr_ge0 // => i _.
by rewrite subr_ge0; apply: sqrtM_le; [exact: dp.1|exact: dq.1].
Qed.
Lemma bc_eq1 p q : dist p -> dist q -> (bc p q = 1 <-> forall i, p i = q i).
Proof.
move=> dp dq; split=> [e i|e].
  have /eqP : \sum_i (mid p q i - Num.sqrt (p i * q i)) = 0 by rewrite -bc_gap // e subrr.
  rewrite psumr_eq0 => [/allP/(_ i (mem_index_enum _)) /=|j _].
    rewrite subr_eq0 => /eqP h; apply: sqrtM_eq; [exact: dp.1|exact: dq.1|by rewrite -h].
  by rewrite subr_ge0; apply: sqrtM_le; [exact: dp.1|exact: dq.1].
rewrite -dp.2; apply: eq_bigr => i _; by rewrite -e -expr2 sqrtr_sqr ger0_norm // dp.1.
Qed.
Lemma bc_eq0 p q : dist p -> dist q -> (bc p q = 0 <-> forall i, p i = 0 \/ q i = 0).
Proof.
move=> dp dq; split=> [/eqP|e]; last first.
  by rewrite /bc big1 // => i _; case: (e i) => ->; rewrite ?mulr0 ?mul0r sqrtr0.
rewrite psumr_eq0 => [/allP h i|i _]; last exact: sqrtr_ge0.
have /= := h i (mem_index_enum _); rewrite sqrtr_eq0 => le0.
have /eqP : p i * q i = 0 by apply/eqP; rewrite eq_le le0 mulr_ge0 //; [exact: dp.1|exact: dq.1].
by rewrite mulf_eq0 => /orP[/eqP|/eqP]; [left|right].
Qed.
(* 1 - TV = sum of minima <= BC *)
Lemma bc_tv p q : dist p -> dist q -> 1 - bc p q <= tv p q.
Proof.
move=> dp dq; rewrite bc_gap // /tv mulr_sumr; apply: ler_sum => i _.
have := dp.1 i; have := dq.1 i; rewrite /mid; move: (p i) (q i) => x y y0 x0.
have h (a b : R) : 0 <= a -> a <= b -> 2%:R^-1 * (a + b) - Num.sqrt (a * b) <= 2%:R^-1 * `|a - b|.
  move=> a0 ab; have s : a <= Num.sqrt (a * b).
    by rewrite -{1}(ger0_norm a0) -sqrtr_sqr ler_wsqrtr // expr2 ler_wpmul2l.
  rewrite distrC ger0_norm ?subr_ge0 // ler_subl_addr (le_trans _ (ler_add (lexx _) s)) //.
  by rewrite -[X in _ <= _ + X]half2 -mulrDr addrA subrK addrC.
case/orP: (le_total x y) => xy; first exact: h.
by rewrite [x + y]addrC [x * y]mulrC distrC; exact: h.
Qed.

End Distances.
