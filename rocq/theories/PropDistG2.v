(* PropDistG2.v -- property C102: trace_distance in rounded arithmetic, zero distances and complex128 *)
Set Warnings "-notation-overridden,-ambiguous-paths".
From Coq Require Import Reals.
From Flocq Require Import Core.
From mathcomp Require Import all_ssreflect all_fingroup all_algebra.
From mathcomp Require Import complex.
From mathcomp.zify Require Import zify.
From Verif Require Import RealC Info Base ArrC MCombinatorics MUtils Spectral PropUtils1 PropUtils2 PropDist3 PropFloat PropFloat2
  PropFloat4 PropFloat6 MDistF PropDistF PropUtilsF PropUtilsF2 MDistG PropDistG.
Set Implicit Arguments.
Unset Strict Implicit.
Unset Printing Implicit Defensive.
Import Order.Theory GRing.Theory Num.Theory.
Local Open Scope ring_scope.

(* C102: the result is 0 exactly for equal states *)
Theorem C102_zero (u : R) castd fsub eigv fabs fsum fmul t d n (x y : input CR) (A B : 'M[CR]_n) : 0 <= u ->
  rel_err (toC u) fsub (fun x y => x - y) -> (forall x y : CR, fsub x^* y^* = (fsub x y)^*) ->
  (forall z : CR, `|fabs z - re `|z| | <= u * re `|z|) -> sum_err u fsum t -> @rel_err RF u fmul *%R ->
  (forall n, 0 <= d n) -> eigv_err eigv d ->
  castd x = Ok (ofM A) -> castd y = Ok (ofM B) -> hermitian A -> hermitian B ->
  (1 + Num.sqrt n%:R * u) * (1 + n%:R * d n) * (1 + u) ^+ (t n + 2) < 2%:R ->
  (trace_distance_f castd fsub eigv fabs fsum fmul x y = Ok 0 <-> A = B).
Proof.
move=> u0 subP subC absP sumP mulP d0 eigP ex ey hA hB.
have [r ->] := C102_value u0 subP subC absP sumP mulP d0 eigP ex ey hA hB.
set D := 2%:R^-1 * _; set e := _ * (1 + u) ^+ _ => hr he.
have i0 : 0 < 2%:R^-1 :> RF by rewrite invr_gt0 ltr0n.
have D0 : 0 <= D by rewrite mulr_ge0 ?(ltW i0) //; apply: re0; exact: tn_ge0.
split=> [[er]|eAB]; last first.
  have D1 : D = 0 by have [_ h] := tn_eq0 (hermB hB hB); rewrite /D eAB h ?subrr // raddf0 mulr0.
  by move: hr; rewrite D1 mulr0 subr0 normr_le0 => /eqP->.
have D1 : D = 0.
  apply/eqP; rewrite eq_le D0 andbT leNgt; apply/negP => dp.
  move: hr; rewrite er sub0r normrN ger0_norm // leNgt => /negP; apply.
  by rewrite -[X in _ < X]mul1r ltr_pmul2r // ltr_subl_addr.
have : tn (A - B) = 0.
  rewrite -re_tn; move/eqP: D1; rewrite mulf_eq0 (gt_eqF i0) /= => /eqP->; exact: rmorph0.
by move/(tn_eq0 (hermB hA hB)) => /eqP; rewrite subr_eq0 => /eqP.
Qed.

(* complex128 *)
Definition abs64 (z : CR) : R := rnd (re `|z|).
Definition td64 castd eigv := trace_distance_f castd csub64 eigv abs64 (sum_loop add64) mul64.

Lemma rnd_opp (x : R) : rnd (- x) = - rnd x.
Proof. exact: (round_NE_opp radix2 (FLX_exp 53) x). Qed.
Lemma csub64_conj (x y : CR) : csub64 x^* y^* = (csub64 x y)^*.
Proof.
case: x y => [a b] [c e]; rewrite /csub64 /cadd64 /=; congr (Complex _ _).
by rewrite /add64 -opprD rnd_opp.
Qed.
Lemma err_mono k : @err RF u64 k <= @err RF uc64 k.
Proof.
rewrite ler_sub // ler_expn2r ?nnegrE ?addr_ge0 ?ler01 ?u64_ge0 ?uc64_ge0 // ler_add2l.
exact: u64_uc.
Qed.
Lemma approx_u k (a x s : R) : @approx RF u64 k a x s -> @approx RF uc64 k a x s.
Proof.
move=> h; have a0 := approx_ge0 h; case: h => h1 h2; split=> //; apply: le_trans h1 _; rewrite ler_wpmul2r //.
exact: err_mono.
Qed.

(* C102: complex128 arithmetic with any sufficiently accurate eigenvalue routine *)
Theorem C102_complex128 castd eigv d n (x y : input CR) (A B : 'M[CR]_n) : (forall n, 0 <= d n) -> eigv_err eigv d ->
  castd x = Ok (ofM A) -> castd y = Ok (ofM B) -> hermitian A -> hermitian B ->
  let D := 2%:R^-1 * re (tn (A - B)) in
  let e := (1 + Num.sqrt n%:R * uc64) * (1 + n%:R * d n) * (1 + uc64) ^+ (n + 3) in
  (exists2 r, td64 castd eigv x y = Ok r & `|r - D| <= (e - 1) * D) /\
  (e < 2%:R -> (td64 castd eigv x y = Ok 0 <-> A = B)).
Proof.
move=> d0 eigP ex ey hA hB D e.
have [mP aP _] := rel64.
have absP (z : CR) : `|abs64 z - re `|z| | <= uc64 * re `|z|.
  have r0 : 0 <= re `|z| by apply: re0.
  apply: le_trans (rnd_err _) _; rewrite ger0_norm // ler_wpmul2r //; exact: u64_uc.
have sumP : sum_err uc64 (sum_loop add64) succn.
  by move=> l; apply: approx_u; exact: (@sum_loop_err u64 add64 u64_ge0 aP).
have mulP : @rel_err RF uc64 mul64 *%R.
  by move=> a b; apply: le_trans (mP a b) _; rewrite ler_wpmul2r //; exact: u64_uc.
have en : (succn n + 2 = n + 3)%N by lia.
rewrite /e -en; split=> [|he].
  exact: (C102_value uc64_ge0 csub64_err csub64_conj absP sumP mulP d0 eigP ex ey hA hB).
exact: (C102_zero uc64_ge0 csub64_err csub64_conj absP sumP mulP d0 eigP ex ey hA hB).
Qed.

Lemma eigv_exact : eigv_err eig_exact (fun _ => 0).
Proof.
move=> n H hH; exists (eigvals H); rewrite /eig_exact /= toM_ofM; split=> // i.
rewrite subrr normr0 [X in X <= _]expr2 mul0r; apply: mulr_ge0.
  have t0 : 0 <= toC 0 by rewrite toC_ge0.
  exact: (exprn_ge0 2 t0).
by apply: sumr_ge0 => k _; apply: sumr_ge0 => j _; exact: exprn_ge0.
Qed.

(* the point masses on two values have distance 1 up to rounding *)
Example C102_example : let P k : 'M[CR]_2 := diag_mx (\row_i (i == k :> nat)%:R) in
  exists2 r, td64 (@cast_to_density_matrix CR) eig_exact (V2 (ofM (P 0%N))) (V2 (ofM (P 1%N))) = Ok r &
    `|r - 1| <= (1 + Num.sqrt 2%:R * uc64) * (1 + uc64) ^+ 5 - 1.
Proof.
move=> P; have u1 : unitary (1%:M : 'M[CR]_2) by rewrite /unitary adjm1 mulmx1.
have eP (D : 'rV[CR]_2) : diag_mx D = adjm 1%:M *m diag_mx D *m 1%:M by rewrite adjm1 mul1mx mulmx1.
have dP k : (k < 2)%N -> density (P k).
  move=> hk; split; first by apply/(psd_diag u1 (eP _)) => i; rewrite mxE ler0n.
  by rewrite mxtrace_diag !big_ord_recl big_ord0 !mxE /=; case: k hk => [|[|k]] //= _; rewrite ?addr0 ?add0r.
have [[r er hr] _] := C102_complex128 (fun _ => lexx 0) eigv_exact (C25_density (dP 0%N isT)) (C25_density (dP 1%N isT))
  (dP 0%N isT).1.1 (dP 1%N isT).1.1.
exists r; first exact: er.
have e2 : tn (P 0%N - P 1%N) = 2%:R.
  rewrite /P -raddfB (tn_diag u1 (eP _)) !big_ord_recl big_ord0 !mxE /=.
  by rewrite subr0 sub0r normrN normr1 addr0.
have eD : 2%:R^-1 * re (tn (P 0%N - P 1%N)) = 1 :> R.
  by apply: toC_inj; rewrite rmorphM /= re_tn e2 fmorphV /= toC_nat mulVf ?pnatr_eq0 // rmorph1.
by move: hr; rewrite eD !mulr1 mulr0 addr0 mulr1.
Qed.
