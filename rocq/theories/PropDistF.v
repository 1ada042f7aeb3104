(* PropDistF.v -- property C100: total_variation_distance and linear_entropy in rounded arithmetic *)
Set Warnings "-notation-overridden,-ambiguous-paths".
From Coq Require Import Reals.
From mathcomp Require Import all_ssreflect all_fingroup all_algebra.
From mathcomp Require Import complex.
From mathcomp.zify Require Import zify.
From Verif Require Import RealC Info Base ArrC MUtils MDist MDistF PropDist1 PropFloat PropFloat2.
Set Implicit Arguments.
Unset Strict Implicit.
Unset Printing Implicit Defensive.
Import Order.Theory GRing.Theory Num.Theory.
Local Open Scope ring_scope.

Notation RF := R_numFieldType.
Local Notation approx := (@approx RF).
Local Notation err := (@err RF).

Section Chain.
Variable u : R.
Hypothesis u0 : 0 <= u.
Lemma errDR k l : err u (k + l) = err u k + err u l * (1 + err u k).
Proof.
rewrite /err exprD; move: (_ ^+ k) (_ ^+ l) => x y.
by rewrite [1 + (x - 1)]addrC subrK mulrBl mul1r [RHS]addrC addrA subrK mulrC.
Qed.
Lemma chain k l (a x s z b : R) : approx u k a x s -> `|z - x| <= err u l * b -> b <= (1 + err u k) * a -> approx u (k + l) a z s.
Proof.
move=> [h1 h2] h3 h4; split=> //.
have -> : z - s = (z - x) + (x - s) by rewrite addrA subrK.
apply: le_trans (ler_norm_add _ _) _; rewrite errDR mulrDl addrC; apply: ler_add => //.
by apply: le_trans h3 _; rewrite -mulrA ler_wpmul2l // err_ge0.
Qed.

Variable castp : input CR -> res (seq R).
Variables (fmul fsub : R -> R -> R) (fsqrt : R -> R) (fsum fdot : seq R -> R) (t : nat -> nat).
Hypothesis mulP : @rel_err RF u fmul *%R.
Hypothesis subP : @rel_err RF u fsub (fun x y => x - y).
(* sums and dot products with t n roundings *)
Definition sum_err := forall l, approx u (t (size l)) (\sum_(x <- l) `|x|) (fsum l) (\sum_(x <- l) x).
Definition dot_err := forall l, approx u (t (size l)) (\sum_(x <- l) x ^+ 2) (fdot l) (\sum_(x <- l) x ^+ 2).
Hypothesis sumP : sum_err.

(* a sum of approximations *)
Lemma sum_chain (I : Type) k (l : seq I) (a x s : I -> R) : (forall i, approx u k (a i) (x i) (s i)) ->
  approx u (k + t (size l)) (\sum_(i <- l) a i) (fsum [seq x i | i <- l]) (\sum_(i <- l) s i).
Proof.
move=> h; have [h1 _] := sumP [seq x i | i <- l]; rewrite size_map !big_map in h1.
apply: (chain _ h1).
  split; last by apply: le_trans (ler_norm_sum _ _ _) _; apply: ler_sum => i _; case: (h i).
  by rewrite -sumrB mulr_sumr; apply: le_trans (ler_norm_sum _ _ _) _; apply: ler_sum => i _; case: (h i).
by rewrite mulr_sumr; apply: ler_sum => i _; exact: (approx_norm (h i)).
Qed.

(* C100: the total variation distance has a small relative error: n + 2 operations for loops *)
Theorem C100_tvd (x y : input CR) p q : castp x = Ok p -> castp y = Ok q -> size p = size q ->
  let d := 2%:R^-1 * \sum_(z <- zip p q) `|z.1 - z.2| in
  exists2 r, total_variation_distance_f castp fmul fsub fsum x y = Ok r & `|r - d| <= ((1 + u) ^+ (t (size p) + 2) - 1) * d.
Proof.
move=> ex ey es d; rewrite /total_variation_distance_f ex ey /= /broadcast es eqxx /=; eexists; first by [].
have h z : approx u 1 `|z.1 - z.2| `|fsub z.1 z.2| `|z.1 - z.2|.
  split; last by rewrite normr_id.
  have -> : err u 1 = u by rewrite /err expr1 [1 + u]addrC addrK.
  apply: le_trans (_ : `|fsub z.1 z.2 - (z.1 - z.2)| <= _); first exact: ler_dist_dist.
  exact: (subP z.1 z.2).
have := sum_chain (zip p q) h; rewrite size_zip es minnn => h'.
have [+ _] := approx_mull u0 mulP 2%:R^-1 h'.
have -> : `|2%:R^-1 : RF| = 2%:R^-1 by rewrite ger0_norm // invr_ge0 ler0n.
by have -> : (1 + t (size q)).+1 = (t (size q) + 2)%N by lia.
Qed.

(* C100: so it is 0 exactly for equal distributions *)
Theorem C100_tvd_zero (x y : input CR) p q : castp x = Ok p -> castp y = Ok q -> size p = size q ->
  (1 + u) ^+ (t (size p) + 2) < 2%:R -> (total_variation_distance_f castp fmul fsub fsum x y = Ok 0 <-> p = q).
Proof.
move=> ex ey es hu; have [r -> hr] := C100_tvd ex ey es; set d := 2%:R^-1 * _ in hr.
have i0 : 0 < 2%:R^-1 :> RF by rewrite invr_gt0 ltr0n.
have d0 : 0 <= d by rewrite mulr_ge0 ?(ltW i0) // sumr_ge0.
split=> [[e]|e].
  have {}d0 : d = 0.
    apply/eqP; rewrite eq_le d0 andbT leNgt; apply/negP => dp.
    move: hr; rewrite e sub0r normrN ger0_norm // leNgt => /negP; apply.
    by rewrite -[X in _ < X]mul1r ltr_pmul2r // ltr_subl_addr.
  have {}d0 : \sum_(z <- zip p q) `|z.1 - z.2| = 0.
    by apply/eqP; move/eqP: d0; rewrite mulf_eq0 (gt_eqF i0).
  elim: p q es d0 {ex ey hu r hr d e} => [|a p IH] [|b q] //= [es]; rewrite big_cons => /eqP.
  rewrite paddr_eq0 ?sumr_ge0 // normr_eq0 subr_eq0 => /andP[/eqP /= -> /eqP h].
  by rewrite (IH q).
have {}d0 : d = 0.
  rewrite /d e big1_seq ?mulr0 // => z; rewrite andTb => hz.
  suff -> : z.1 = z.2 by rewrite subrr normr0.
  by elim: q hz {hr d d0 e es ey} => //= b q IH; rewrite inE => /orP[/eqP->|/IH].
by move: hr; rewrite d0 mulr0 subr0 normr_le0 => /eqP->.
Qed.

Hypothesis dotP : dot_err.
Hypothesis sqrtP : forall x, 0 <= x -> `|fsqrt x - Num.sqrt x| <= u * Num.sqrt x.

Lemma sqrt_sq k (S x : R) : 0 <= x -> approx u k S x S -> approx u (k + 3) S (fmul (fsqrt x) (fsqrt x)) S.
Proof.
move=> x0 h; set l := fsqrt x; set r := Num.sqrt x.
have r0 : 0 <= r by exact: sqrtr_ge0.
have e : r ^+ 2 = x by exact: sqr_sqrtr.
have hl : `|l - r| <= u * r := sqrtP x0.
have h2 : approx u (k + 2) S (l * l) S.
  apply: (chain h (b := x)); last by rewrite -(ger0_norm x0); exact: (approx_norm h).
  rewrite -e -expr2 subr_sqr normrM.
  have hs : `|l + r| <= (u + 2%:R) * r.
    have -> : l + r = (l - r) + r *+ 2 by rewrite mulr2n addrA subrK.
    apply: le_trans (ler_norm_add _ _) _; rewrite mulrDl; apply: ler_add => //.
    by rewrite normrMn ger0_norm // mulr_natl.
  apply: le_trans (ler_pmul _ _ hl hs) _ => //.
  have -> : u * r * ((u + 2%:R) * r) = err u 2 * r ^+ 2; last by [].
  by rewrite /err; rring.
by case: h2 => h1 hb; rewrite -addn1 addnA addn1; apply: (approx_round u0 (mulP l l)).
Qed.

(* 1 - y *)
Lemma one_minus k (S y : R) : 0 <= S -> approx u k S y S -> approx u k.+1 (1 + S) (fsub 1 y) (1 - S).
Proof.
move=> S0 [h1 h2]; apply: (approx_round u0 (subP 1 y)).
  have -> : 1 - y - (1 - S) = - (y - S) :> R by rring.
  by rewrite normrN; apply: le_trans h1 _; rewrite ler_wpmul2l ?err_ge0 // ler_addr ler01.
apply: le_trans (ler_norm_sub _ _) _.
by rewrite normr1 (ger0_norm S0).
Qed.

(* C100: linear_entropy on k^2 values: the assertions hold and the result is close to 1 - sum p^2 *)
Theorem C100_linear (x : input CR) p k : castp x = Ok p -> size p = (k * k)%N -> fsqrt (k * k)%:R = k%:R ->
  let S := \sum_(z <- p) z ^+ 2 in let e := ((1 + u) ^+ (t (k * k)%N + 4) - 1) * (1 + S) in
  2%:R * e <= (10%:R ^+ 8)^-1 ->
  exists2 s, linear_entropy_f castp fmul fsub fsqrt fsum fdot x = Ok s & `|s - (1 - S)| <= e.
Proof.
move=> ex es ek S e he; set n := (k * k)%N in es ek e he *.
have S0 : 0 <= S by apply: sumr_ge0 => z _; exact: sqr_ge0.
have e1 : err u (t n) <= 1.
  have h1 : err u (t n) <= e.
    apply: (@le_trans _ _ (err u (t n + 4))); first by apply: err_le => //; rewrite leq_addr.
    by rewrite ler_pemulr ?err_ge0 // ler_addl.
  have e0 : 0 <= e by apply: le_trans h1; exact: err_ge0.
  apply: le_trans h1 _; apply: le_trans (_ : e <= 2%:R * e) _; first by rewrite ler_pemull // ler1n.
  by apply: le_trans he _; rewrite invf_le1 ?exprn_gt0 ?ltr0n // exprn_ege1 // ler1n.
have hd := dotP p; rewrite es -/S in hd.
have d0 : 0 <= fdot p.
  have [h _] := hd; have : `|fdot p - S| <= S by apply: le_trans h _; rewrite ler_pimull.
  by rewrite ler_distl subrr => /andP[].
have h1 := one_minus S0 (sqrt_sq d0 hd).
have sq z : approx u 1 (z ^+ 2) (fmul z z) (z ^+ 2).
  have := @approx_mul RF u u0 fmul mulP 0 `|z| z z z (@approx_exact RF u z).
  by rewrite -normrM -expr2 ger0_norm ?sqr_ge0.
have h2 := sum_chain p sq; rewrite es -/S in h2; have {}h2 := one_minus S0 h2.
have {}h2 := @approx_le RF u u0 _ (t n + 4) _ _ _ _ h2.
rewrite /linear_entropy_f ex /= es ek natrINR Int_part_INR -INR_IZR_INZ.
have -> : rclose (fsub (INR k) (INR k)) 0.
  have := subP (INR k) (INR k); rewrite subrr normr0 mulr0 normr_le0 => /eqP.
  by rewrite /rclose subr0 => ->; rewrite !normr0 mulr0 addr0 invr_ge0 exprn_ge0 // ler0n.
rewrite [assertM true]/= [bind (Ok tt) _]/=.
set sL := fsub 1 (fmul _ _) in h1 *; set sA := fsub 1 (fsum _) in h2 *.
have [{}h1 _] : approx u (t n + 4) (1 + S) sL (1 - S) by rewrite addnS.
have [|{}h2 _] := h2; first by rewrite addnC -addnS leq_add2l.
have -> : rclose sL sA.
  rewrite /rclose; apply: le_trans (_ : 2%:R * e <= _).
    have -> : sL - sA = (sL - (1 - S)) - (sA - (1 - S)) by rring.
    by apply: le_trans (ler_norm_sub _ _) _; rewrite mulr_natl mulr2n ler_add.
  by apply: le_trans he _; rewrite ler_addl mulr_ge0 // invr_ge0 exprn_ge0 // ler0n.
by exists sL.
Qed.
End Chain.

(* summation loops *)
Section Loops.
Variables (u : R) (fmul fadd : R -> R -> R).
Hypothesis u0 : 0 <= u.
Hypothesis mulP : @rel_err RF u fmul *%R.
Hypothesis addP : @rel_err RF u fadd +%R.
Lemma loop_approx (g : R -> R) (a s : R -> R) k l b acc v : (forall x, approx u k (a x) (g x) (s x)) -> approx u k b acc v ->
  approx u (k + size l) (b + \sum_(x <- l) a x) (foldl (fun acc x => fadd acc (g x)) acc l) (v + \sum_(x <- l) s x).
Proof.
move=> h; elim: l k b acc v h => [|x l IH] k b acc v h h'; first by rewrite !big_nil !addr0 addn0.
rewrite !big_cons !addrA /= addnS -addSn; apply: IH.
  by move=> y; apply: approx_le (h y).
exact: (approx_add u0 addP h' (h x)).
Qed.
Lemma sum_loop_err : sum_err u (sum_loop fadd) succn.
Proof.
move=> l; have := @loop_approx id (fun x => `|x|) id 0 l 0 0 0 (@approx_exact RF u) (@approx0 RF u 0).
by rewrite !add0r; apply: approx_le => //; rewrite add0n.
Qed.
Lemma dot_loop_err : dot_err u (dot_loop fmul fadd) succn.
Proof.
move=> l; have sq z : approx u 1 (z ^+ 2) (fmul z z) (z ^+ 2).
  have := @approx_mul RF u u0 fmul mulP 0 `|z| z z z (@approx_exact RF u z).
  by rewrite -normrM -expr2 ger0_norm ?sqr_ge0.
by have := loop_approx l sq (@approx0 RF u 1); rewrite !add0r add1n.
Qed.
End Loops.

(* float64 *)
Definition sub64 (x y : R) : R := rnd (x - y).
Definition sqrt64 (x : R) : R := rnd (Num.sqrt x).
Definition tvd64 castp := total_variation_distance_f castp mul64 sub64 (sum_loop add64).
Definition linear64 castp := linear_entropy_f castp mul64 sub64 sqrt64 (sum_loop add64) (dot_loop mul64 add64).

Lemma sqrt64_sq k : (k < 2 ^ 53)%N -> sqrt64 (k * k)%:R = k%:R.
Proof.
move=> h; rewrite /sqrt64 natrM -expr2 sqrtr_sqr ger0_norm ?ler0n //.
by have := @rnd_int k; rewrite -!pmulrn; apply; move: (2 ^ 53)%N h => m; lia.
Qed.
Lemma u64_small m : (m <= 2 ^ 23)%N -> (1 + u64) ^+ m - 1 <= (2%:R ^+ 29)^-1.
Proof.
move=> hm; have p29 : 0 < (2%:R ^+ 30)^-1 :> RF by rewrite invr_gt0 exprn_gt0 // ltr0n.
have h : m%:R * u64 <= (2%:R ^+ 30)^-1.
  apply: le_trans (_ : (2 ^ 23)%:R * u64 <= _); first by rewrite ler_wpmul2r ?u64_ge0 // ler_nat.
  rewrite /u64 natrX; have -> : 53%N = (23 + 30)%N by [].
  by rewrite exprD invfM mulrA divff ?mul1r // expf_eq0 pnatr_eq0 andbF.
have e2 : (2%:R ^+ 29)^-1 = 2%:R * (2%:R ^+ 30)^-1 :> RF.
  rewrite [in RHS]exprS; move: (2%:R ^+ 29) => a.
  by rewrite [(2%:R * a)^-1]invfM mulrA divff ?mul1r // pnatr_eq0.
have h2 : (2%:R ^+ 30)^-1 <= 2%:R^-1 :> RF.
  by rewrite exprS invfM ler_pimulr ?invr_ge0 ?ler0n // invf_le1 ?exprn_gt0 ?ltr0n // exprn_ege1 // ler1n.
have m0 : 0 <= m%:R * u64 by rewrite mulr_ge0 ?u64_ge0 // ler0n.
move: (m%:R * u64) (@C96_factor RF u64 u64_ge0 m) h m0 => y F h m0.
have y2 : y <= 2%:R^-1 := le_trans h h2.
have y1 : y < 1 by apply: le_lt_trans y2 _; rewrite invf_lt1 ?ltr0n // ltr1n.
apply: le_trans (F y1) _; rewrite e2 mulrC; apply: ler_pmul => //.
  by rewrite invr_ge0 subr_ge0 ltW.
rewrite -[X in _ <= X]invrK lef_pinv ?posrE ?invr_gt0 ?ltr0n ?subr_gt0 //.
rewrite ler_subr_addr; apply: le_trans (_ : 2%:R^-1 + 2%:R^-1 <= _); first by rewrite ler_add2l.
by rewrite -[X in _ <= X](@divff RF 2%:R) ?pnatr_eq0 // mulr_natl mulr2n.
Qed.

(* C100 in float64: k^2 <= 2^22 values whose sum of squares is at most 3/2 *)
Theorem C100_float64_any (castp : input CR -> res (seq R)) (x : input CR) p k : castp x = Ok p -> size p = (k * k)%N -> (k <= 2 ^ 11)%N ->
  let S := \sum_(z <- p) z ^+ 2 in S <= 3%:R / 2%:R ->
  exists2 s, linear64 castp x = Ok s & `|s - (1 - S)| <= ((1 + u64) ^+ (k * k + 5) - 1) * (1 + S).
Proof.
move=> ex es hk S S1; have [mP aP _] := rel64.
have sP : @rel_err RF u64 sub64 (fun x y => x - y) by move=> y z; exact: rnd_err.
have qP (z : R) : 0 <= z -> `|sqrt64 z - Num.sqrt z| <= u64 * Num.sqrt z.
  by move=> _; rewrite -[X in _ <= _ * X]ger0_norm ?sqrtr_ge0 //; exact: rnd_err.
have kk : (k * k <= 2 ^ 22)%N by rewrite -[22%N]/(11 + 11)%N expnD leq_mul.
have hm : ((k * k).+1 + 4 <= 2 ^ 23)%N by rewrite addSnnS expnS mul2n -addnn; exact: leq_add.
have -> : (k * k + 5 = (k * k).+1 + 4)%N by lia.
apply: (C100_linear u64_ge0 mP sP (sum_loop_err u64_ge0 aP) (dot_loop_err u64_ge0 mP aP) qP ex es).
  by apply: sqrt64_sq; apply: leq_ltn_trans hk _; rewrite ltn_exp2l.
have h := u64_small hm; have u0 : 0 <= (1 + u64) ^+ ((k * k).+1 + 4) - 1 := @err_ge0 RF u64 u64_ge0 _.
move: ((1 + u64) ^+ _ - 1) h u0 => y h y0.
apply: le_trans (_ : 2%:R * ((2%:R ^+ 29)^-1 * (5%:R / 2%:R)) <= _).
  rewrite ler_wpmul2l ?ler0n //; apply: ler_pmul => //.
    by rewrite addr_ge0 ?ler01 // sumr_ge0 // => z _; rewrite sqr_ge0.
  have -> : 5%:R / 2%:R = 1 + 3%:R / 2%:R :> R by rlra.
  by rewrite ler_add2l.
have -> : 2%:R * ((2%:R ^+ 29)^-1 * (5%:R / 2%:R)) = 5%:R / 2%:R ^+ 29 :> R.
  by move: ((2%:R ^+ 29)^-1) => a; rewrite [a * _]mulrC !mulrA [2%:R * 5%:R]mulrC mulfK // pnatr_eq0.
rewrite ler_pdivr_mulr ?exprn_gt0 ?ltr0n // mulrC ler_pdivl_mulr ?exprn_gt0 ?ltr0n //.
have mE (a b : R) : a * b = Rmult a b by [].
by apply/RleP; rewrite !exprRE !natrZ !pow_IZR mE -mult_IZR; apply: IZR_le.
Qed.

(* C100 in float64: distributions of k^2 <= 2^22 values pass the assertions of linear_entropy *)
Theorem C100_float64 (castp : input CR -> res (seq R)) (x : input CR) p k : castp x = Ok p -> size p = (k * k)%N -> (k <= 2 ^ 11)%N ->
  (forall z, z \in p -> 0 <= z) -> \sum_(z <- p) z = 1 -> let S := \sum_(z <- p) z ^+ 2 in
  exists2 s, linear64 castp x = Ok s & `|s - (1 - S)| <= ((1 + u64) ^+ (k * k + 5) - 1) * (1 + S).
Proof.
move=> ex es hk p0 p1 S; apply: C100_float64_any => //.
have p1' z : z \in p -> z <= 1.
  move=> hz; rewrite -p1 (big_rem z hz) /= ler_addl big_seq sumr_ge0 // => y /mem_rem; exact: p0.
apply: (@le_trans _ _ 1); last by rlra.
rewrite -p1 /S big_seq [X in _ <= X]big_seq; apply: ler_sum => z hz.
by rewrite expr2 ler_pimull ?p0 ?p1'.
Qed.

(* C100 in float64: the total variation distance of distributions with up to 2^22 values is 0 exactly when they are equal *)
Theorem C100_float64_tvd (castp : input CR -> res (seq R)) (x y : input CR) p q : castp x = Ok p -> castp y = Ok q -> size p = size q ->
  let d := 2%:R^-1 * \sum_(z <- zip p q) `|z.1 - z.2| in
  (exists2 r, tvd64 castp x y = Ok r & `|r - d| <= ((1 + u64) ^+ (size p + 3) - 1) * d) /\
  ((size p <= 2 ^ 22)%N -> (tvd64 castp x y = Ok 0 <-> p = q)).
Proof.
move=> ex ey es d; have [mP aP _] := rel64.
have sP : @rel_err RF u64 sub64 (fun x y => x - y) by move=> v z; exact: rnd_err.
have sm := sum_loop_err u64_ge0 aP.
split; first by have := C100_tvd u64_ge0 mP sP sm ex ey es; rewrite addSnnS.
move=> hs; apply: (C100_tvd_zero u64_ge0 mP sP sm ex ey es).
rewrite -[2%:R]/(1 + 1) -ltr_subl_addr; apply: le_lt_trans (_ : (2%:R ^+ 29)^-1 < _).
  apply: u64_small; rewrite addSnnS [(2 ^ 23)%N]expnS mul2n -addnn; exact: leq_add.
by rewrite invf_lt1 ?exprn_gt0 ?ltr0n // exprn_egt1 // ltr1n.
Qed.

(* the uniform distribution on 4 values: 3/4 up to 9 roundings, and not at distance 0 from a point mass *)
Example C100_example :
  (exists2 s, linear64 pdf (vin (rvec (@uni (2 * 2)))) = Ok s & `|s - 3%:R / 4%:R| <= ((1 + u64) ^+ 9 - 1) * (5%:R / 4%:R)) /\
  tvd64 pdf (vin (rvec (@uni (2 * 2)))) (vin (rvec (fun i : 'I_(2 * 2) => (i == ord0)%:R))) <> Ok 0.
Proof.
have pu := pdf_uni (isT : (1 < 2 * 2)%N); have [d0 d1] := @dist_uni (2 * 2) isT.
have S : \sum_(z <- rvec (@uni (2 * 2))) z ^+ 2 = 4%:R^-1.
  by rewrite big_map big_enum /uni sumr_const card_ord -[_ *+ (2 * 2)]mulr_natl -[(2 * 2)%N]/4%N; rlra.
split.
  have [||||s e] := C100_float64 (k := 2) pu.
  - by rewrite size_rvec.
  - by [].
  - by move=> z /mapP[i _ ->].
  - by rewrite big_map big_enum.
  rewrite S => h; exists s; first exact: e.
  have -> : 3%:R / 4%:R = 1 - 4%:R^-1 :> R by rlra.
  by have -> : 5%:R / 4%:R = 1 + 4%:R^-1 :> R by rlra.
have [|_ H] := C100_float64_tvd pu (pdf_delta (ord0 : 'I_(2 * 2))); first by rewrite !size_rvec.
move=> e; have h : (size (rvec (@uni (2 * 2))) <= 2 ^ 22)%N by rewrite size_rvec.
have := congr1 (fun l => \sum_(z <- l) z ^+ 2) ((H h).1 e); rewrite S rvec_sum (bigD1 ord0) //= big1 => [|i /negPf->].
  by rewrite expr1n addr0 => /eqP; rewrite invr_eq1 (eqr_nat _ 4 1).
by rewrite expr0n.
Qed.
