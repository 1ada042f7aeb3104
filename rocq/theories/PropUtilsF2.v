(* PropUtilsF2.v -- property C101 in complex128 (53 bits, unbounded exponents), sums and traces by loops *)
Set Warnings "-notation-overridden,-ambiguous-paths".
From Coq Require Import Reals.
From mathcomp Require Import all_ssreflect all_fingroup all_algebra.
From mathcomp Require Import complex.
From mathcomp.zify Require Import zify.
From Verif Require Import RealC Base ArrC MCombinatorics MUtils Spectral PropUtils1 PropUtils2 PropFloat PropFloat2 PropFloat3 PropFloat4
  MFloat3 PropFloat5 MDistF PropDistF MUtilsF PropUtilsF.
Set Implicit Arguments.
Unset Strict Implicit.
Unset Printing Implicit Defensive.
Import Order.Theory GRing.Theory Num.Theory.
Local Open Scope ring_scope.

(* |z|^2 = re^2 + im^2 with three operations; |z| correctly rounded; loops for the sums *)
Definition sqn64 (z : CR) : R := add64 (mul64 (re z) (re z)) (mul64 (im z) (im z)).
Definition sq2_64 (v : seq CR) : CR := toC (sum_loop add64 [seq sqn64 z | z <- v]).
Definition abs1_64 (v : seq CR) : CR := toC (sum_loop add64 [seq rnd (re `|z|) | z <- v]).
Definition csqrt64 (z : CR) : CR := toC (sqrt64 (re z)).
Definition cast64 (eig : arr CR -> seq CR) := cast_to_density_matrix_f cmul64 csqrt64 sq2_64 abs1_64 (tr_loop cadd64) eig.
Definition pdf64 (eig : arr CR -> seq CR) := cast_to_pdf_f cmul64 csqrt64 sq2_64 abs1_64 (tr_loop cadd64) eig.

Lemma err_mono k (u u' : R) : 0 <= u -> u <= u' -> @err RF u k <= @err RF u' k.
Proof. by move=> h0 h; rewrite /err ler_sub ?lexx // ler_expn2r ?nnegrE ?addr_ge0 ?ler01 ?ler_add2l // (le_trans h0). Qed.
Lemma approxC k (a x s : R) : @approx RF u64 k a x s -> approx (toC uc64) k (toC a) (toC x) (toC s).
Proof.
move=> h; have a0 : 0 <= a := approx_ge0 h; case: h => h1 h2; split; last by rewrite toC_norm toC_le.
have -> : err (toC uc64) k = toC (@err RF uc64 k) by rewrite /err rmorphB rmorphX rmorphD rmorph1.
rewrite -rmorphB toC_norm -rmorphM toC_le; apply: le_trans h1 _; rewrite ler_wpmul2r //.
exact: (err_mono _ u64_ge0 u64_uc).
Qed.

Definition t64 (n : nat) : nat := n.+3.
Lemma sq2_64_err : sq2_err (toC uc64) sq2_64 t64.
Proof.
move=> v; split; first exact: toC_real.
have [hm ha _] := rel64.
have h z : @approx RF u64 2 (re z ^+ 2 + im z ^+ 2) (sqn64 z) (re z ^+ 2 + im z ^+ 2).
  have sq (y : R) : @approx RF u64 1 (y ^+ 2) (mul64 y y) (y ^+ 2).
    have := @approx_mul RF u64 u64_ge0 mul64 hm 0 `|y| y y y (@approx_exact RF u64 y).
    by rewrite -normrM -expr2 ger0_norm ?sqr_ge0.
  exact: (approx_add u64_ge0 ha (sq _) (sq _)).
have -> : \sum_(x <- v) `|x| ^+ 2 = toC (\sum_(z <- v) (re z ^+ 2 + im z ^+ 2)).
  by rewrite rmorph_sum; apply: eq_bigr => z _; exact/esym/add_Re2_Im2.
have := approxC (sum_chain u64_ge0 (sum_loop_err u64_ge0 ha) v h).
by have -> : (2 + (size v).+1 = t64 (size v))%N by [].
Qed.
Lemma abs1_64_err : abs1_err (toC uc64) abs1_64 t64.
Proof.
move=> v; have [_ ha _] := rel64.
have h (z : CR) : @approx RF u64 1 (re `|z|) (rnd (re `|z|)) (re `|z|).
  have z0 : 0 <= re `|z| by have := normr_ge0 (z : CR); rewrite -{1}(toC_re_norm z) toC_ge0.
  split; last by rewrite ger0_norm.
  have -> : @err RF u64 1 = u64 by rewrite /err expr1 [1 + u64]addrC addrK.
  by rewrite -{3}(ger0_norm z0); exact: rnd_err.
have -> : \sum_(x <- v) `|x| = toC (\sum_(z <- v) re `|z|).
  by rewrite rmorph_sum; apply: eq_bigr => z _; exact/esym/toC_re_norm.
have u0 : 0 <= toC uc64 by rewrite toC_ge0 uc64_ge0.
apply: (approx_le u0 _ (approxC (sum_chain u64_ge0 (sum_loop_err u64_ge0 ha) v h))).
by rewrite add1n /t64 leqnSn.
Qed.
Lemma csqrt64_err (x : CR) : 0 <= x -> `|csqrt64 x - sqrtC x| <= toC uc64 * sqrtC x.
Proof.
move=> x0; have e : x = toC (re x) by rewrite toC_re // ger0_real.
have r0 : 0 <= re x by rewrite -toC_ge0 -e.
rewrite {2 3}e toC_sqrt // /csqrt64 -rmorphB toC_norm -rmorphM toC_le; have s0 := sqrtr_ge0 (re x).
apply: le_trans (_ : u64 * Num.sqrt (re x) <= _); last by rewrite ler_wpmul2r // u64_uc.
by rewrite -{2}(ger0_norm s0); exact: rnd_err.
Qed.
Lemma tr64_err : tr_err (toC uc64) (tr_loop cadd64) t64.
Proof.
have u0 : 0 <= toC uc64 by rewrite toC_ge0 uc64_ge0.
have [_ ha] := C97_complex128; move=> N X; apply: (approx_le u0 _ (C99_loop_trace u0 ha X)).
by rewrite /t64 /= -addn3 leq_addr.
Qed.

(* numbers *)
Lemma uc64_le : uc64 <= 8%:R * u64.
Proof.
have h : u64 <= 1 by rewrite invf_le1 ?exprn_gt0 ?ltr0n // exprn_ege1 // ler1n.
rewrite /uc64; have := u64_ge0; move: u64 h => u h h0.
have -> : 2%:R * ((1 + u) ^+ 2 - 1) = u * (4%:R + 2%:R * u) by rring.
rewrite mulrC ler_wpmul2r //; move/RleP: h => h; apply/RleP; move: h; numR; move=> h; Lra.lra.
Qed.
Lemma uc64_small m : (m <= 2 ^ 20)%N -> (1 + uc64) ^+ m - 1 <= (2%:R ^+ 29)^-1.
Proof.
move=> hm; have h8 : (8 * m <= 2 ^ 23)%N by rewrite -[23%N]/(3 + 20)%N expnD leq_mul.
apply: le_trans (u64_small h8); rewrite ler_add2r exprM.
have h : 1 + uc64 <= (1 + u64) ^+ 8.
  have B k : 1 + k%:R * u64 <= (1 + u64) ^+ k.
    elim: k => [|k IH]; first by rewrite mul0r addr0 expr0.
    rewrite exprS; apply: le_trans (_ : (1 + u64) * (1 + k%:R * u64) <= _).
      have -> : (1 + u64) * (1 + k%:R * u64) = 1 + k.+1%:R * u64 + k%:R * (u64 * u64) by rewrite -[k.+1]addn1 natrD; rring.
      by rewrite ler_addl !mulr_ge0 ?ler0n ?u64_ge0.
    by rewrite ler_wpmul2l // addr_ge0 ?ler01 ?u64_ge0.
  by apply: le_trans (B 8%N); rewrite ler_add2l uc64_le.
by rewrite ler_expn2r ?nnegrE ?exprn_ge0 ?addr_ge0 ?ler01 ?u64_ge0 ?uc64_ge0.
Qed.
Local Notation p10 k := ((10%:R ^+ k)^-1 : R).
Lemma p2_29 : (2%:R ^+ 29)^-1 <= 2%:R * p10 9.
Proof.
have -> : 2%:R * p10 9 = (2%:R^-1 * 10%:R ^+ 9)^-1 by move: (10%:R ^+ 9) => a; rewrite [in RHS]invfM invrK.
rewrite lef_pinv ?posrE ?mulr_gt0 ?invr_gt0 ?exprn_gt0 ?ltr0n // mulrC ler_pdivr_mulr ?ltr0n // -exprSr.
by apply/RleP; rewrite !exprRE !natrZ !pow_IZR; apply: IZR_le.
Qed.
Lemma uc64_p15 : uc64 <= p10 15.
Proof.
apply: le_trans uc64_le _; have -> : 8%:R * u64 = (2%:R ^+ 50)^-1.
  have e : 8%:R = 2%:R ^+ 3 :> R by rewrite -natrX.
  rewrite /u64 e -[53%N]/(3 + 50)%N exprD invfM mulrA divff ?mul1r // expf_eq0 pnatr_eq0 andbF //.
rewrite lef_pinv ?posrE ?exprn_gt0 ?ltr0n // -[15%N]/(3 * 5)%N -[50%N]/(10 * 5)%N !exprM.
by rewrite ler_expn2r ?nnegrE ?exprn_ge0 ?ler0n // -!natrX ler_nat.
Qed.
Lemma cond8 : p10 9 + (2%:R ^+ 29)^-1 * (1 + p10 9) <= p10 8.
Proof.
have -> : p10 8 = 10%:R * p10 9 by rewrite [10%:R ^+ 9]exprS; move: (10%:R ^+ 8) => a; rewrite [in RHS]invfM mulrA divff ?mul1r // pnatr_eq0.
have c0 : 0 <= p10 9 by rewrite invr_ge0 exprn_ge0 // ler0n.
have c1 : p10 9 <= 1 by rewrite invf_le1 ?exprn_gt0 ?ltr0n // exprn_ege1 // ler1n.
have := p2_29; move: (p10 9) ((2%:R ^+ 29)^-1) c0 c1 => c e c0 c1 h.
apply: le_trans (_ : c + (2%:R * c) * 2%:R <= _).
  rewrite ler_add2l; apply: le_trans (_ : 2%:R * c * (1 + c) <= _).
    by rewrite ler_wpmul2r // addr_ge0 // ler01.
  by rewrite ler_wpmul2l ?mulr_ge0 ?ler0n // -[2%:R]/(1 + 1) ler_add2l.
by move/RleP: c0 => c0; apply/RleP; move: c0; numR; move=> c0; Lra.lra.
Qed.
Lemma cond12 (x : R) : 0 <= x -> x <= 2%:R^-1 * p10 12 -> (uc64 + x * (1 + uc64)) * (1 + p10 9) <= p10 12.
Proof.
move=> x0 hx; have hu := uc64_p15; have u0 := uc64_ge0.
have e15 : p10 15 = p10 12 * p10 3 by rewrite -[15%N]/(12 + 3)%N exprD invfM.
have t10 k : p10 k.+1 <= 10%:R^-1.
  by rewrite lef_pinv ?posrE ?exprn_gt0 ?ltr0n // exprS ler_pemulr ?ler0n // exprn_ege1 // ler1n.
have c0 : 0 <= p10 12 by rewrite invr_ge0 exprn_ge0 // ler0n.
have u10 : uc64 <= 10%:R^-1 := le_trans hu (t10 14%N).
have {}hu : uc64 <= p10 12 * 10%:R^-1 by apply: le_trans hu _; rewrite e15 ler_wpmul2l // (t10 2%N).
have t9 := t10 8%N; have n9 : 0 <= p10 9 by rewrite invr_ge0 exprn_ge0 // ler0n.
move: uc64 (p10 9) (p10 12) u0 u10 hu c0 hx t9 n9 {e15 t10} => w y c u0 u10 hu c0 hx t9 n9.
apply: le_trans (_ : (c * 10%:R^-1 + (2%:R^-1 * c) * (1 + 10%:R^-1)) * (1 + 10%:R^-1) <= _).
  apply: ler_pmul; rewrite ?addr_ge0 ?mulr_ge0 ?addr_ge0 ?ler01 // ?ler_add2l //.
  by apply: ler_add => //; apply: ler_pmul; rewrite ?addr_ge0 ?ler01 // ler_add2l.
have -> : (c * 10%:R^-1 + (2%:R^-1 * c) * (1 + 10%:R^-1)) * (1 + 10%:R^-1) = c * ((10%:R^-1 + 2%:R^-1 * (1 + 10%:R^-1)) * (1 + 10%:R^-1)) by rring.
rewrite -[X in _ <= X]mulr1 ler_wpmul2l //; rlra.
Qed.

(* C101 in complex128: vectors of up to 2^19 entries with |2-norm^2 - 1| <= 1e-9 are accepted, if the eigenvalues are computed
   with errors of at most half the tolerance 1e-12 *)
Theorem C101_complex128 (eig : arr CR -> seq CR) (d : nat -> CR) n (v : 'I_n -> CR) : eig_err eig d -> (forall k, 0 <= d k) ->
  d n <= (2%:R * 10%:R ^+ 12)^-1 -> (n <= 2 ^ 19)%N -> `|\sum_i `|v i| ^+ 2 - 1| <= (10%:R ^+ 9)^-1 ->
  (exists2 M : 'M[CR]_n, cast64 eig (V1 (vec v)) = Ok (ofM M) & forall i j, `|M i j - v i * (v j)^*| <= toC uc64 * (`|v i| * `|v j|)) /\
  (exists2 q : 'I_n -> CR, pdf64 eig (V1 (vec v)) = Ok (vec q) &
     forall i, q i \is Num.real /\ `|q i - `|v i| ^+ 2| <= toC uc64 * `|v i| ^+ 2).
Proof.
move=> eP d0 dn hn hv; have u0 : 0 <= toC uc64 by rewrite toC_ge0 uc64_ge0.
have tp k : (10%:R ^+ k)^-1 = toC (p10 k) by rewrite fmorphV rmorphX rmorph_nat.
have hn' : ((t64 n).+1 <= 2 ^ 20)%N.
  by rewrite [(2 ^ 20)%N]expnS mul2n -addnn /t64 -addn4; exact: leq_add.
have c8 : toC (p10 9) + ((1 + toC uc64) ^+ (t64 n).+1 - 1) * (1 + toC (p10 9)) <= toC (p10 8).
  have -> : (1 + toC uc64) ^+ (t64 n).+1 - 1 = toC ((1 + uc64) ^+ (t64 n).+1 - 1) by rewrite rmorphB rmorphX rmorphD rmorph1.
  have -> : 1 + toC (p10 9) = toC (1 + p10 9) by rewrite rmorphD rmorph1.
  rewrite -rmorphM -rmorphD toC_le; apply: le_trans cond8; rewrite ler_add2l ler_wpmul2r ?uc64_small //.
  by rewrite addr_ge0 ?ler01 // invr_ge0 exprn_ge0 // ler0n.
have c12 : (toC uc64 + d n * (1 + toC uc64)) * (1 + toC (p10 9)) <= toC (p10 12).
  have ed : d n = toC (re (d n)) by rewrite toC_re // ger0_real.
  have x0 : 0 <= re (d n) by rewrite -toC_ge0 -ed.
  have hx : re (d n) <= 2%:R^-1 * p10 12.
    by rewrite -toC_le -ed rmorphM /= fmorphV rmorph_nat -tp -invfM.
  have E (a b c : R) : (toC a + toC c * (1 + toC a)) * (1 + toC b) = toC ((a + c * (1 + a)) * (1 + b)).
    by rewrite -(rmorph1 [rmorphism of toC]) -!(rmorphD, rmorphM).
  by rewrite ed E toC_le; exact: cond12.
have [hm _] := C97_complex128.
rewrite tp in hv; split.
  apply: (@C101_wavefunction CR (toC uc64) u0 cmul64 csqrt64 sq2_64 abs1_64 (tr_loop cadd64) eig t64 d hm csqrt64_err sq2_64_err tr64_err eP d0 n v _ hv); by rewrite tp.
apply: (@C101_pdf CR (toC uc64) u0 cmul64 csqrt64 sq2_64 abs1_64 (tr_loop cadd64) eig t64 d hm csqrt64_err sq2_64_err tr64_err eP d0 n v _ hv); by rewrite tp.
Qed.

(* the exact eigenvalues satisfy the assumption on eigvalsh with d = 0 *)
Definition eig_exact (A : arr CR) : seq CR := eigvals (toM (nr A) (nr A) A).
Lemma eig_exact_err : eig_err eig_exact (fun _ => 0).
Proof.
move=> n H hH y; rewrite /eig_exact /= toM_ofM => hy; split; first exact: (eigvals_real hH).
by exists y => //; rewrite subrr normr0 expr0n mul0r.
Qed.

(* the amplitudes (1/2, 1/2, 1/2, 1/2): all probabilities are 1/4 up to one complex operation *)
Example C101_example : exists2 q : 'I_4 -> CR, pdf64 eig_exact (V1 (vec (fun _ : 'I_4 => 2%:R^-1 : CR))) = Ok (vec q) &
  forall i, `|q i - 4%:R^-1| <= toC uc64 / 4%:R.
Proof.
have q4 : `|2%:R^-1 : CR| ^+ 2 = 4%:R^-1 by rewrite normfV normr_nat exprVn -natrX.
have [||||_ [q e h]] := @C101_complex128 eig_exact (fun _ => 0) 4 (fun _ => 2%:R^-1) eig_exact_err.
- by [].
- by rewrite invr_ge0 mulr_ge0 ?exprn_ge0 ?ler0n.
- by apply: (@leq_trans (2 ^ 2)) => //; rewrite leq_exp2l.
- rewrite sumr_const card_ord q4 -[_ *+ 4]mulr_natl divff ?pnatr_eq0 // subrr normr0 invr_ge0 exprn_ge0 // ler0n //.
by exists q; [exact: e|move=> i; have [_] := h i; rewrite q4].
Qed.
