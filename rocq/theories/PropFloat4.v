(* PropFloat4.v -- property C97 in complex128: complex products and sums made of binary64 operations (53 bits, unbounded exponents) *)
Set Warnings "-notation-overridden,-ambiguous-paths".
From Coq Require Import Reals.
From mathcomp Require Import all_ssreflect all_fingroup all_algebra.
From mathcomp Require Import complex.
From Verif Require Import RealC Base ArrC MLib OpFam PropFloat PropFloat2 MFloat2 PropFloat3.
Set Implicit Arguments.
Unset Strict Implicit.
Unset Printing Implicit Defensive.
Import Order.Theory GRing.Theory Num.Theory.
Local Open Scope ring_scope.

(* (a + bi)(c + di) = (ac - bd) + (ad + bc)i with six rounded operations and no fused ones; sums by components *)
Definition cmul64 (x y : CR) : CR :=
  (add64 (mul64 (re x) (re y)) (- mul64 (im x) (im y)) +i* add64 (mul64 (re x) (im y)) (mul64 (im x) (re y)))%C.
Definition cadd64 (x y : CR) : CR := (add64 (re x) (re y) +i* add64 (im x) (im y))%C.
(* the error bound of one complex operation: 2 ((1 + 2^-53)^2 - 1) *)
Definition uc64 : R := 2%:R * ((1 + u64) ^+ 2 - 1).

Lemma e2_ge0 : 0 <= (1 + u64) ^+ 2 - 1.
Proof. exact: (@err_ge0 RF u64 u64_ge0 2). Qed.
Lemma uc64_ge0 : 0 <= uc64. Proof. by rewrite mulr_ge0 ?ler0n ?e2_ge0. Qed.
Lemma u64_uc : u64 <= uc64.
Proof.
have := e2_ge0; have := u64_ge0; rewrite /uc64; move: u64 => u h _.
have h2 : 0 <= u * u by exact: mulr_ge0.
by rewrite expr2; move/RleP: h => h; move/RleP: h2 => h2; apply/RleP; numR; move: h h2; numR; move=> h h2; Lra.lra.
Qed.

Lemma cnorm_le (z w : CR) k : 0 <= k -> re z ^+ 2 + im z ^+ 2 <= k ^+ 2 * (re w ^+ 2 + im w ^+ 2) -> `|z| <= toC k * `|w|.
Proof.
move=> k0 h; have n1 : `|z| \is Num.nneg by exact: normr_ge0.
have n2 : toC k * `|w| \is Num.nneg by apply: mulr_ge0; [rewrite toC_ge0|exact: normr_ge0].
rewrite -(@ler_pexpn2r CR 2 isT _ _ n1 n2) exprMn.
have -> : `|z| ^+ 2 = toC (re z ^+ 2 + im z ^+ 2) by exact/esym/add_Re2_Im2.
have -> : `|w| ^+ 2 = toC (re w ^+ 2 + im w ^+ 2) by exact/esym/add_Re2_Im2.
by rewrite -rmorphX -rmorphM toC_le.
Qed.

Lemma sq_le (x p e : R) : `|x| <= e * p -> x ^+ 2 <= e ^+ 2 * p ^+ 2.
Proof.
move=> h; rewrite -exprMn -real_normK ?num_real // ler_pexpn2r ?nnegrE //; exact: le_trans (normr_ge0 _) h.
Qed.
Lemma cauchy (a b c d : R) : (`|a| * `|c| + `|b| * `|d|) ^+ 2 <= (a ^+ 2 + b ^+ 2) * (c ^+ 2 + d ^+ 2).
Proof.
rewrite -(real_normK (num_real a)) -(real_normK (num_real b)) -(real_normK (num_real c)) -(real_normK (num_real d)).
move: `|a| `|b| `|c| `|d| => {}a {}b {}c {}d; rewrite -subr_ge0.
have -> : (a ^+ 2 + b ^+ 2) * (c ^+ 2 + d ^+ 2) - (a * c + b * d) ^+ 2 = (a * d - b * c) ^+ 2 by rring.
exact: sqr_ge0.
Qed.

Lemma mul2 (a b c d : R) (s : bool) :
  `|add64 (mul64 a c) ((-1) ^+ s * mul64 b d) - (a * c + (-1) ^+ s * (b * d))| <= ((1 + u64) ^+ 2 - 1) * (`|a| * `|c| + `|b| * `|d|).
Proof.
have [hm ha _] := rel64.
have h x y : @approx RF u64 1 (`|x| * `|y|) (mul64 x y) (x * y).
  exact: (@approx_mul RF u64 u64_ge0 mul64 hm 0 `|x| x x y (@approx_exact RF u64 x)).
have h' : @approx RF u64 1 (`|b| * `|d|) ((-1) ^+ s * mul64 b d) ((-1) ^+ s * (b * d)).
  by case: (h b d) => h1 h2; split; rewrite -?mulrBr normrM normrX normrN1 expr1n mul1r.
by have [] := @approx_add RF u64 u64_ge0 add64 ha 1 _ _ _ _ _ _ (h a c) h'.
Qed.

(* C97: complex multiplication and addition in complex128 have a relative error of at most uc64 = 2 ((1 + 2^-53)^2 - 1) *)
Theorem C97_complex128 : rel_err (toC uc64) cmul64 *%R /\ rel_err (toC uc64) cadd64 +%R.
Proof.
split=> x y; apply: cnorm_le uc64_ge0 _.
  case: x y => [a b] [c d]; rewrite /re /im /=.
  have := sq_le (mul2 a b c d true); have := sq_le (mul2 a b d c false).
  rewrite expr1 expr0 !mulN1r !mul1r => h2 h1.
  have {}h1 := le_trans h1 (ler_wpmul2l (sqr_ge0 _) (cauchy a b c d)).
  have {}h2 := le_trans h2 (ler_wpmul2l (sqr_ge0 _) (cauchy a b d c)).
  apply: le_trans (ler_add h1 h2) _.
  have -> : (a * c - b * d) ^+ 2 + (a * d + b * c) ^+ 2 = (a ^+ 2 + b ^+ 2) * (c ^+ 2 + d ^+ 2) by rring.
  rewrite /uc64 (addrC (d ^+ 2)); move: ((1 + u64) ^+ 2 - 1) => e.
  have W : 0 <= (a ^+ 2 + b ^+ 2) * (c ^+ 2 + d ^+ 2) by rewrite mulr_ge0 ?addr_ge0 ?sqr_ge0.
  rewrite -mulrDl ler_wpmul2r // exprMn -mulr2n -mulr_natl ler_wpmul2r ?sqr_ge0 //.
  by rewrite -natrX ler_nat.
have [_ ha _] := rel64.
have H (p q : R) : (add64 p q - (p + q)) ^+ 2 <= uc64 ^+ 2 * (p + q) ^+ 2.
  rewrite -[X in _ * X ^+ 2]/(p + q); have := sq_le (e := uc64) (p := `|p + q|) (x := add64 p q - (p + q)).
  rewrite real_normK ?num_real //; apply; apply: le_trans (ha p q) _; by rewrite ler_wpmul2r // u64_uc.
case: x y => [a b] [c d]; rewrite /re /im /= mulrDr; apply: ler_add; exact: H.
Qed.

(* C97 in complex128: rotate_operators and build_op with the library's cutoffs 1e-9 and 1e-10, for operators of every size; the
   matrix product is the loop with N + 1 roundings, the comparison with the cutoff is exact *)
Theorem C97_float64 N n (A : nat -> 'M[CR]_N) (M : 'M[CR]_n) (R : 'M[CR]_(2 * n)) : (0 < n)%N ->
  (exists2 B : nat -> 'M[CR]_N,
    rotate_operators_f cmul64 cadd64 (fun c => `|c| < eps9 CR) (PArr (ofM M)) (PList (ops A n)) false = Ok (Rot (ops B n)) &
    forall (j : 'I_n) a b, `|B j a b - \sum_i M j i * A i a b| <=
      ((1 + toC uc64) ^+ n.+1 - 1) * (\sum_i `|M j i| * `|A i a b|) + eps9 CR * \sum_(i | `|M j i| < eps9 CR) `|A i a b|) /\
  (exists2 H : 'M[CR]_N,
    build_op_f cmul64 cadd64 (mm_loop cmul64 cadd64) (fun c => `|c| < eps10 CR) n (ofM R) (ops A (2 * n)) false = Ok (ofM H) &
    forall a b, `|H a b - \sum_i \sum_j R i j * (\sum_c (A i c a)^* * A j c b)| <=
      ((1 + toC uc64) ^+ (N.+1 + 1 + (2 * n) ^ 2) - 1) * (\sum_i \sum_j `|R i j| * (\sum_c `|A i c a| * `|A j c b|))
      + eps10 CR * \sum_i \sum_(j | `|R i j| < eps10 CR) \sum_c `|A i c a| * `|A j c b|).
Proof.
move=> n0; have [hm ha] := C97_complex128; have u0 : 0 <= toC uc64 by rewrite toC_ge0 uc64_ge0.
split.
  have hs (c : CR) : `|c| < eps9 CR -> `|c| <= eps9 CR by exact: ltW.
  have [B e h] := @C97_rotation CR (toC uc64) u0 cmul64 cadd64 (fun c => `|c| < eps9 CR) hm ha (eps9 CR) hs N n A M false.
  exists B; [exact: e|exact: h].
have hs (c : CR) : `|c| < eps10 CR -> `|c| <= eps10 CR by exact: ltW.
have [H e h] := @C97_build_op CR (toC uc64) u0 cmul64 cadd64 (mm_loop cmul64 cadd64) (fun c => `|c| < eps10 CR) hm ha (eps10 CR) hs S
  (C97_loop_product u0 hm ha) N n A R false n0.
exists H; first exact: e.
move=> a b; have := h a b.
have E1 i j : \sum_c adjm (A i) a c * A j c b = \sum_c (A i c a)^* * A j c b by apply: eq_bigr => c _; rewrite !mxE.
have E2 i j : \sum_c `|adjm (A i) a c| * `|A j c b| = \sum_c `|A i c a| * `|A j c b|.
  by apply: eq_bigr => c _; rewrite !mxE norm_conjC.
have -> : \sum_(i < 2 * n) \sum_(j < 2 * n) R i j * (\sum_c adjm (A i) a c * A j c b) = \sum_(i < 2 * n) \sum_(j < 2 * n) R i j * (\sum_c (A i c a)^* * A j c b).
  by apply: eq_bigr => i _; apply: eq_bigr => j _; rewrite E1.
have -> : \sum_(i < 2 * n) \sum_(j < 2 * n) `|R i j| * (\sum_c `|adjm (A i) a c| * `|A j c b|) = \sum_(i < 2 * n) \sum_(j < 2 * n) `|R i j| * (\sum_c `|A i c a| * `|A j c b|).
  by apply: eq_bigr => i _; apply: eq_bigr => j _; rewrite E2.
have -> // : \sum_(i < 2 * n) \sum_(j < 2 * n | `|R i j| < eps10 CR) \sum_c `|adjm (A i) a c| * `|A j c b| = \sum_(i < 2 * n) \sum_(j < 2 * n | `|R i j| < eps10 CR) \sum_c `|A i c a| * `|A j c b|.
by apply: eq_bigr => i _; apply: eq_bigr => j _; rewrite E2.
Qed.

Lemma pow_inv_lt (k : nat) : `|((10%:R : CR) ^+ k.+1)^-1| < (10%:R ^+ k)^-1.
Proof.
rewrite normfV normrX normr_nat ltf_pinv ?posrE ?exprn_gt0 ?ltr0n //.
by rewrite exprS ltr_pmull ?exprn_gt0 ?ltr0n // ltr1n.
Qed.
Lemma pow_inv_neq0 (k : nat) : ((10%:R : CR) ^+ k)^-1 != 0.
Proof. by rewrite invr_eq0 expf_eq0 pnatr_eq0 andbF. Qed.
Lemma pow_inv_half (k : nat) : ((10%:R : CR) ^+ k.+1)^-1 <= 2%:R^-1.
Proof.
rewrite lef_pinv ?posrE ?exprn_gt0 ?ltr0n //.
by apply: (@le_trans _ _ 10%:R); rewrite ?ler_nat // ler_eexpr // ler1n.
Qed.

(* C97: without the cutoff term no relative bound below 1 holds, whatever the arithmetic: a coefficient 1e-10 is dropped *)
Theorem C97_relative_refuted (fmul fadd : CR -> CR -> CR) :
  exists (M : 'M[CR]_1) (A : nat -> 'M[CR]_1) (B : nat -> 'M[CR]_1),
    [/\ rotate_operators_f fmul fadd (fun c => `|c| < eps9 CR) (PArr (ofM M)) (PList (ops A 1)) false = Ok (Rot (ops B 1)),
        M 0 0 * A 0%N 0 0 != 0 & `|B 0%N 0 0 - M 0 0 * A 0%N 0 0| = `|M 0 0| * `|A 0%N 0 0|].
Proof.
have e0 : eps10 CR != 0 := pow_inv_neq0 10.
have lt : `|eps10 CR| < eps9 CR := pow_inv_lt 9.
move: (eps10 CR) (eps9 CR) e0 lt => e t e0 lt.
exists (const_mx e), (fun=> 1%:M), (fun=> 0); split.
- rewrite /rotate_operators_f /rotate_core_f /= /perform_rotation_f /= /idx /=.
  have -> : get (ofM (const_mx e : 'M_1)) 0 0 = e by rewrite (@ofM_get _ _ _ _ 0 0) mxE.
  by rewrite lt /= ofM_zeros.
- by rewrite !mxE eqxx mulr1.
by rewrite !mxE sub0r normrN normrM.
Qed.

(* two operators combined with the coefficients 1/2 and 3 in complex128: three roundings *)
Example C97_example : exists2 B : nat -> 'M[CR]_1,
  rotate_operators_f cmul64 cadd64 (fun c => `|c| < eps9 CR)
    (PArr (ofM (\matrix_(i < 2, j < 2) (if j == 0 then 2%:R^-1 else 3%:R : CR)))) (PList (ops (fun i => (i.+1%:R)%:M : 'M[CR]_1) 2)) false = Ok (Rot (ops B 2)) &
  `|B 0%N 0 0 - (2%:R^-1 + 6%:R)| <= ((1 + toC uc64) ^+ 3 - 1) * (2%:R^-1 + 6%:R).
Proof.
have [[B e h] _] := @C97_float64 1 2 (fun i => (i.+1%:R)%:M) (\matrix_(i, j) if j == 0 then 2%:R^-1 else 3%:R) 0 isT.
exists B; [exact: e|]; have := h 0 0 0.
have half : eps9 CR <= 2%:R^-1 := pow_inv_half 8.
have three : eps9 CR <= 3%:R by apply: le_trans half _; apply: (@le_trans _ _ 1); rewrite ?invf_le1 ?ltr0n ?ler1n.
move: (eps9 CR) half three => t half three.
rewrite !big_ord_recl !big_ord0 !(big_mkcond (fun i => _ < _)) !big_ord_recl !big_ord0 !mxE /= !mulr1n !addr0.
rewrite normfV !normr_nat !(le_gtF half) !(le_gtF three) !addr0 mulr0 addr0 mulr1 -natrM normr1 mulr1.
exact.
Qed.
