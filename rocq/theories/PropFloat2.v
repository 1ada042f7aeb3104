(* PropFloat2.v -- property C96 for real arrays in binary64: round to nearest even with 53 bits (Flocq's FLX format, whose exponents
   are unbounded: no overflow, no underflow) *)
Set Warnings "-notation-overridden,-ambiguous-paths".
From Coq Require Import Reals ZArith Lra Lia.
From Flocq Require Import Core Relative.
From mathcomp Require Import all_ssreflect all_fingroup all_algebra.
From mathcomp Require Import complex.
From mathcomp.zify Require Import ssrZ zify.
From Verif Require Import RealC Info Base MCombinatorics CombPerm Matching Pfaffian PropComb PropInt MFloat PropFloat.
Set Implicit Arguments.
Unset Strict Implicit.
Unset Printing Implicit Defensive.
Import Order.Theory GRing.Theory Num.Theory.
Local Open Scope ring_scope.

Local Instance prec53 : Prec_gt_0 53. Proof. by []. Qed.
(* the float64 nearest to x *)
Definition rnd (x : R) : R := round radix2 (FLX_exp 53) ZnearestE x.
Definition mul64 (x y : R) : R := rnd (x * y).
Definition add64 (x y : R) : R := rnd (x + y).
Definition div64 (x y : R) : R := rnd (x / y).
(* half a unit in the last place of 1 *)
Definition u64 : R := (2%:R ^+ 53)^-1.

Lemma u64_ge0 : 0 <= u64. Proof. by rewrite invr_ge0 exprn_ge0 // ler0n. Qed.
Lemma u64E : u64 = Rmult (Rinv (IZR 2)) (bpow radix2 (Z.add (Z.opp 53) 1)).
Proof.
rewrite /u64 RinvE ?expf_eq0 ?pnatr_eq0 // exprRE natrZ pow_IZR.
by rewrite -[bpow _ _]/(Rinv (IZR (Zpower_pos 2 52))) -Rinv_mult -mult_IZR.
Qed.
Lemma rnd_err (x : R) : `|rnd x - x| <= u64 * `|x|.
Proof.
apply/RleP; have := @relative_error_N_FLX radix2 53 prec53 (fun x => ~~ Z.even x) x.
by rewrite -u64E.
Qed.
Lemma intr_IZR (z : int) : z%:~R = IZR (ssrZ.Z_of_int z) :> R.
Proof.
case: z => k; first by rewrite -pmulrn natrZ.
rewrite NegzE mulrNz -pmulrn natrZ -[LHS]/(Ropp (IZR (Z.of_nat k.+1))) -opp_IZR; congr IZR.
by rewrite -NegzE /Z_of_int; lia.
Qed.
Lemma rnd_int (z : int) : `|z| < (2 ^ 53)%N%:Z -> rnd z%:~R = z%:~R.
Proof.
move=> h; apply: round_generic; apply: generic_format_FLX; rewrite intr_IZR.
apply: (@FLX_spec radix2 53 _ (Float radix2 (ssrZ.Z_of_int z) 0)); first by rewrite /F2R /= Rmult_1_r.
rewrite [Fnum _]/= [radix_val radix2]/=; have -> : Z.pow 2 53 = Z.of_nat (2 ^ 53)%N by lia.
by move: h; move: (2 ^ 53)%N => m; lia.
Qed.

Notation RF := R_numFieldType.
Lemma rel64 : [/\ @rel_err RF u64 mul64 *%R, @rel_err RF u64 add64 +%R & @rel_err RF u64 div64 (fun x y => x / y)].
Proof.
split=> x y; try exact: rnd_err.
Qed.
Lemma exact64 : [/\ @int_exact RF (2 ^ 53) mul64 *%R, @int_exact RF (2 ^ 53) add64 +%R & @int_exact RF (2 ^ 53) div64 (fun x y => x / y)].
Proof.
have H x y (ex : R -> R -> R) (z : int) : ex x y = z%:~R -> `|z| < (2 ^ 53)%N%:Z -> rnd (ex x y) = z%:~R.
  by move=> -> h; rewrite rnd_int.
split=> x y z e h; [exact: (H x y Rmult)|exact: (H x y Rplus)|].
exact: (H x y (fun x y => x / y)).
Qed.

(* C96 in float64, real arrays of every size: the bounds hold with u = 2^-53 *)
Theorem C96_float64 n (M : 'M[R]_n) : let P := \sum_(s : 'S_n) \prod_i `|M i (s i)| in
  (exists2 v, @pt_f RF mul64 add64 (ofM M) = Ok v &
     `|v - \sum_(s : 'S_n) \prod_i M i (s i)| <= ((1 + u64) ^+ (n + n`!) - 1) * P) /\
  (exists2 v, @dt_f RF mul64 add64 (ofM M) = Ok v & `|v - \det M| <= ((1 + u64) ^+ (n.+1 + n`!) - 1) * P).
Proof. by have [h1 h2 _] := rel64; exact: (@C96_pt_dt RF u64 u64_ge0 mul64 add64 h1 h2). Qed.

(* C96 in float64: arrays of zeros and ones with up to 18 rows (18! < 2^53): permanents, determinants, hafnians of symmetric arrays
   -- the numbers of perfect matchings -- come out exactly *)
Lemma fact18 : (18`! < 2 ^ 53)%N.
Proof.
have h : BinNat.N.lt (factN 18) (pow2N 53) by vm_compute.
by rewrite -factNE -pow2NE; move: (factN 18) (pow2N 53) h => a b; lia.
Qed.
Theorem C96_zero_one n (M : 'M[int]_n) : (n <= 18)%N -> (forall i j, M i j = 0 \/ M i j = 1) ->
  [/\ @pt_f RF mul64 add64 (Tm RF M) = Ok (#|[set s : 'S_n | [forall i, M i (s i) == 1]]|%:R),
      @dt_f RF mul64 add64 (Tm RF M) = Ok (\det M)%:~R &
      M^T = M -> @hf_f RF mul64 add64 div64 (Tm RF M) = Ok (hafnian M)%:~R].
Proof.
move=> hn h; have [e1 e2 e3] := exact64; have := fact18; move: (2 ^ 53)%N e1 e2 e3 => L e1 e2 e3 f18.
have fn : (n`! < L)%N.
  apply: leq_ltn_trans f18; move: 18%N hn => m hn.
  by rewrite -(subnKC hn); elim: (m - n)%N => [|d IH]; rewrite ?addn0 // addnS factS (leq_trans IH) // leq_pmull.
have hB i j : `|M i j| <= 1%:Z by case: (h i j) => ->.
have [|-> ->] := @C96_integers RF mul64 add64 L e1 e2 1 isT n M hB; first by rewrite exp1n muln1.
split=> // [|sy].
  have -> : M = \matrix_(i, j) (M i j == 1)%:R by apply/matrixP => i j; rewrite mxE; case: (h i j) => ->.
  have := C03_pt_is_permanent (\matrix_(i, j) (M i j == 1)%:R : 'M[int]_n).
  rewrite (C03_pt_counts (fun i j => M i j == 1)) => -[<-]; rewrite natz -pmulrn.
  by congr (Ok _%:R); apply: eq_card => s; rewrite !inE; apply: eq_forallb => i; rewrite mxE; case: (h i (s i)) => ->.
have [on|en] := boolP (odd n).
  by rewrite /hafnian big_pred0 ?/hf_f /= ?modn2 ?on // => X; apply/negbTE/no_perfect_odd.
have e := odd_double_half n; rewrite (negbTE en) add0n in e.
move: (n./2) e M h hB sy fn {hn en} => k e; subst n => M h hB sy fn.
have [|_ ->] // := @C96_matchings RF mul64 add64 div64 L e1 e2 e3 1 isT k M hB.
by rewrite exp1n muln1.
Qed.

(* C96: beyond the bound exactness is lost: the permanent 2^53 + 1 of ((2^53 - 1, 2), (1, 1)) is not a float64 *)
Definition two53 : R := 2%:R ^+ 53.
Lemma two53Z : two53 = IZR (Z.pow 2 53).
Proof. by rewrite /two53 exprRE natrZ pow_IZR. Qed.
Lemma two53N : exists L, [/\ (2 < L)%N, two53 = L%:R & forall z : int, `|z| < L%:Z -> rnd z%:~R = z%:~R].
Proof.
exists (2 ^ 53)%N; split; last exact: rnd_int.
  by rewrite -[2%N]expn1 ltn_exp2l.
by rewrite natrX.
Qed.
Lemma rnd_big : rnd (two53 + 1) <> two53 + 1.
Proof.
move=> e; have : FLX_format radix2 53 (two53 + 1).
  by apply: (FLX_format_generic radix2 53); rewrite -e; apply: generic_format_round.
have -> : two53 + 1 = IZR (Z.add (Z.pow 2 53) 1) :> R by rewrite two53Z plus_IZR.
case=> -[m x] hx; rewrite [Fnum _]/= [radix_val radix2]/= => hm.
case: (Z_le_gt_dec x 0) => h.
  have : IZR (Z.mul (Z.add (Z.pow 2 53) 1) (Z.pow 2 (Z.opp x))) = IZR m.
    rewrite mult_IZR (IZR_Zpower radix2); last lia.
    by rewrite hx /F2R [Fnum _]/= [Fexp _]/= Rmult_assoc -bpow_plus Z.add_opp_diag_r Rmult_1_r.
  move/eq_IZR => em; have : Z.le 1 (Z.pow 2 (Z.opp x)) by have := Z.pow_pos_nonneg 2 (Z.opp x); lia.
  by move: (Z.pow 2 (Z.opp x)) em => q em hq; lia.
have : IZR (Z.add (Z.pow 2 53) 1) = IZR (Z.mul m (Z.pow 2 x)).
  by rewrite mult_IZR (IZR_Zpower radix2); [rewrite hx|lia].
move/eq_IZR; rewrite -[x](Z.sub_add 1) Z.pow_add_r; [|lia|lia].
by move: (Z.pow 2 (Z.sub x 1)) => q; lia.
Qed.
Theorem C96_refuted_exact : let A := mk 2 2 (fun i j => if i == 0%N then if j == 0%N then two53 - 1 else 2%:R else 1) : arr RF in
  exists v, @pt_f RF mul64 add64 A = Ok v /\ @pt R_comRingType A = Ok (two53 + 1) /\ v <> two53 + 1.
Proof.
move=> A; exists (rnd (two53 + 1)); split; last first.
  split; last exact: rnd_big.
  rewrite /pt /prod_entries /= !getE //= !mul1r !mulr1 add0r; congr Ok; rewrite -addrA; congr (_ + _).
  by rewrite addrC addrK.
rewrite /pt_f /prod_entries_f /= !getE //=.
have [L [L2 tL rZ]] := two53N.
have i2 : rnd 2%:R = 2%:R by have := rZ 2; rewrite -pmulrn; apply.
have ia : rnd (two53 - 1) = two53 - 1.
  have -> : two53 - 1 = (L%:Z - 1)%:~R by rewrite tL rmorphB /= -pmulrn.
  by apply: rZ; lia.
rewrite /mul64 /add64 (mul1r (two53 - 1)) ia (mulr1 (two53 - 1)) ia (add0r (two53 - 1)) ia (mul1r 2%:R) i2 (mulr1 2%:R) i2.
by congr (Ok (rnd _)); rewrite -addrA; congr (_ + _); rewrite addrC addrK.
Qed.
(* a concrete case: dt of ((1, 2), (3, 4)) in float64 *)
Example C96_example : @dt_f RF mul64 add64 (Tm RF (\matrix_(i < 2, j < 2) (1 + 2 * i%:Z + j%:Z))) = Ok (-2)%:~R.
Proof.
have [e1 e2 _] := exact64; have h : (2`! * 4 ^ 2 < 2 ^ 53)%N by rewrite -[(2`! * 4 ^ 2)%N]/(2 ^ 5)%N ltn_exp2l.
move: (2 ^ 53)%N e1 e2 h => L e1 e2 h.
have [|_ ->] := @C96_integers RF mul64 add64 L e1 e2 4 isT 2 (\matrix_(i < 2, j < 2) (1 + 2 * i%:Z + j%:Z)) _ h.
  by move=> [[|[|i]] hi] [[|[|j]] hj]; rewrite mxE.
by rewrite (expand_det_row _ ord0) !big_ord_recl big_ord0 /cofactor !det_mx11 !mxE.
Qed.
