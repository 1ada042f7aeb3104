(* PropDistF2.v -- property C100 for wavefunctions, with the rounded cast_to_pdf of C101 *)
Set Warnings "-notation-overridden,-ambiguous-paths".
From Coq Require Import Reals.
From mathcomp Require Import all_ssreflect all_fingroup all_algebra.
From mathcomp Require Import complex.
From mathcomp.zify Require Import zify.
From Verif Require Import RealC Base ArrC MCombinatorics MUtils MDist PropUtils1 PropUtils2 PropFloat PropFloat2 PropFloat3 PropFloat4
  MDistF PropDistF MUtilsF PropUtilsF PropUtilsF2.
Set Implicit Arguments.
Unset Strict Implicit.
Unset Printing Implicit Defensive.
Import Order.Theory GRing.Theory Num.Theory.
Local Open Scope ring_scope.

(* the rounded cast_to_pdf as an array of floats *)
Definition rpdf64 (eig : arr CR -> seq CR) (x : input CR) : res (seq R) := let* q := pdf64 eig x in Ok [seq re z | z <- q].

Section Wave.
Variables (eig : arr CR -> seq CR) (d : nat -> CR).
Hypothesis eigP : eig_err eig d.
Hypothesis d0 : forall k, 0 <= d k.
(* |z|^2 *)
Definition prob (z : CR) : R := re `|z| ^+ 2.
Lemma probE z : toC (prob z) = `|z| ^+ 2.
Proof. by rewrite rmorphX /= (toC_re_norm z). Qed.
Lemma prob_ge0 z : 0 <= prob z. Proof. by rewrite sqr_ge0. Qed.

Lemma rpdf_wave n (v : 'I_n -> CR) : d n <= (2%:R * 10%:R ^+ 12)^-1 -> (n <= 2 ^ 19)%N ->
  `|\sum_i prob (v i) - 1| <= (10%:R ^+ 9)^-1 ->
  exists2 r : 'I_n -> R, rpdf64 eig (V1 (vec v)) = Ok [seq r i | i <- enum 'I_n] &
    forall i, `|r i - prob (v i)| <= uc64 * prob (v i).
Proof.
move=> dn hn hv; have hv' : `|\sum_i `|v i| ^+ 2 - 1| <= (10%:R ^+ 9)^-1 :> CR.
  have -> : \sum_i `|v i| ^+ 2 - 1 = toC (\sum_i prob (v i) - 1).
    by rewrite rmorphB rmorph1 rmorph_sum; congr (_ - _); apply: eq_bigr => i _; exact/esym/probE.
  have -> : (10%:R ^+ 9)^-1 = toC ((10%:R ^+ 9)^-1) by rewrite fmorphV rmorphX rmorph_nat.
  by rewrite toC_norm toC_le.
have [_ [q e h]] := C101_complex128 eigP d0 dn hn hv'.
exists (fun i => re (q i)); first by rewrite /rpdf64 e /= /vec -map_comp.
move=> i; have [rq] := h i; rewrite -(probE (v i)) -{1}(toC_re rq).
have -> : toC (re (q i)) - toC (prob (v i)) = toC (re (q i) - prob (v i)) by rewrite rmorphB.
by rewrite toC_norm -[toC uc64 * _](rmorphM [rmorphism of toC]) toC_le.
Qed.

Lemma ten9 k : (10%:R ^+ k.+1)^-1 <= 10%:R^-1 :> R.
Proof. by rewrite lef_pinv ?posrE ?exprn_gt0 ?ltr0n // exprS ler_pemulr ?ler0n // exprn_ege1 // ler1n. Qed.
Lemma uc_tenth : uc64 <= 10%:R^-1.
Proof. exact: le_trans uc64_p15 (ten9 14). Qed.

(* C100: linear_entropy of a wavefunction with k^2 <= 2^18 amplitudes in complex128 *)
Theorem C100_wavefunction k (v : 'I_(k * k) -> CR) : d (k * k)%N <= (2%:R * 10%:R ^+ 12)^-1 -> (k <= 2 ^ 9)%N ->
  `|\sum_i prob (v i) - 1| <= (10%:R ^+ 9)^-1 -> let T := \sum_i prob (v i) ^+ 2 in
  exists2 s, linear64 (rpdf64 eig) (V1 (vec v)) = Ok s &
    `|s - (1 - T)| <= ((1 + u64) ^+ (k * k + 5) - 1) * (5%:R / 2%:R) + ((1 + uc64) ^+ 2 - 1) * T.
Proof.
move=> dn hk hv T.
have hn : (k * k <= 2 ^ 19)%N.
  apply: (@leq_trans (2 ^ 18)); first by rewrite -[18%N]/(9 + 9)%N expnD leq_mul.
  by rewrite leq_exp2l.
have [r er hr] := rpdf_wave dn hn hv; have u0 := uc64_ge0; have u1 := uc_tenth.
set S := \sum_i r i ^+ 2; have hS : `|S - T| <= ((1 + uc64) ^+ 2 - 1) * T.
  rewrite /S /T -sumrB mulr_sumr; apply: le_trans (ler_norm_sum _ _ _) _; apply: ler_sum => i _.
  have p0 := prob_ge0 (v i); have := hr i; move: (r i) (prob (v i)) p0 => x p p0 h.
  rewrite subr_sqr normrM.
  have h2 : `|x + p| <= (uc64 + 2%:R) * p.
    have -> : x + p = (x - p) + p *+ 2 by rewrite mulr2n addrA subrK.
    by apply: le_trans (ler_norm_add _ _) _; rewrite mulrDl ler_add // normrMn ger0_norm // mulr_natl.
  apply: le_trans (ler_pmul _ _ h h2) _ => //.
  by have -> : uc64 * p * ((uc64 + 2%:R) * p) = ((1 + uc64) ^+ 2 - 1) * p ^+ 2 by rring.
have P1 : \sum_i prob (v i) <= 1 + 10%:R^-1.
  rewrite -ler_subl_addl; apply: le_trans (ler_norm _) _; exact: le_trans hv (ten9 8).
have P0 : 0 <= \sum_i prob (v i) by apply: sumr_ge0 => i _; exact: prob_ge0.
have T0 : 0 <= T by apply: sumr_ge0 => i _; exact: sqr_ge0.
have T1 : T <= (1 + 10%:R^-1) ^+ 2.
  apply: le_trans (_ : (\sum_i prob (v i)) ^+ 2 <= _); last by rewrite ler_expn2r ?nnegrE ?addr_ge0 ?ler01 ?invr_ge0 ?ler0n.
  rewrite [X in _ <= X]expr2 big_distrlr /=; apply: ler_sum => i _; rewrite (bigD1 i) //= -expr2 ler_addl.
  by apply: sumr_ge0 => j _; rewrite mulr_ge0 ?prob_ge0.
have S1 : S <= 3%:R / 2%:R.
  apply: le_trans (_ : (1 + 10%:R^-1) ^+ 2 * (1 + 10%:R^-1) ^+ 2 <= _); last by rlra.
  apply: le_trans (_ : (1 + uc64) ^+ 2 * T <= _).
    have -> : (1 + uc64) ^+ 2 * T = T + ((1 + uc64) ^+ 2 - 1) * T by rring.
    by rewrite -ler_subl_addl; apply: le_trans (ler_norm _) hS.
  by apply: ler_pmul; rewrite ?exprn_ge0 ?addr_ge0 ?ler01 // ler_expn2r ?nnegrE ?addr_ge0 ?ler01 ?invr_ge0 ?ler0n // ler_add2l.
have sz : size [seq r i | i <- enum 'I_(k * k)] = (k * k)%N by rewrite size_map size_enum_ord.
have eS : \sum_(z <- [seq r i | i <- enum 'I_(k * k)]) z ^+ 2 = S by rewrite big_map big_enum.
have hk' : (k <= 2 ^ 11)%N by apply: leq_trans hk _; rewrite leq_exp2l.
have := C100_float64_any er sz hk'; rewrite eS => /(_ S1)[s es hs]; exists s; first exact: es.
have -> : s - (1 - T) = (s - (1 - S)) - (S - T) by rring.
apply: le_trans (ler_norm_sub _ _) _; apply: ler_add => //; apply: le_trans hs _.
rewrite ler_wpmul2l //; first exact: (@err_ge0 RF u64 u64_ge0).
have -> : 5%:R / 2%:R = 1 + 3%:R / 2%:R :> R by rlra.
by rewrite ler_add2l.
Qed.

(* C100: total_variation_distance of two wavefunctions in complex128 *)
Theorem C100_wavefunction_tvd n (v w : 'I_n -> CR) : d n <= (2%:R * 10%:R ^+ 12)^-1 -> (n <= 2 ^ 19)%N ->
  `|\sum_i prob (v i) - 1| <= (10%:R ^+ 9)^-1 -> `|\sum_i prob (w i) - 1| <= (10%:R ^+ 9)^-1 ->
  let D := 2%:R^-1 * \sum_i `|prob (v i) - prob (w i)| in
  let g := 2%:R^-1 * (uc64 * (\sum_i prob (v i) + \sum_i prob (w i))) in
  exists2 r, tvd64 (rpdf64 eig) (V1 (vec v)) (V1 (vec w)) = Ok r & `|r - D| <= ((1 + u64) ^+ (n + 3) - 1) * (D + g) + g.
Proof.
move=> dn hn hv hw D g; have [a ea ha] := rpdf_wave dn hn hv; have [b eb hb] := rpdf_wave dn hn hw.
have sz (c : 'I_n -> R) : size [seq c i | i <- enum 'I_n] = n by rewrite size_map size_enum_ord.
have [|[r er hr] _] := C100_float64_tvd ea eb; first by rewrite !sz.
exists r; first exact: er; move: hr; rewrite sz zip_map big_map big_enum /=.
set E := 2%:R^-1 * _ => hr; have i0 : 0 <= 2%:R^-1 :> R by rewrite invr_ge0 ler0n.
have hE : `|E - D| <= g.
  rewrite /E /D /g -mulrBr normrM ger0_norm // ler_wpmul2l // -sumrB -big_split mulr_sumr /=.
  apply: le_trans (ler_norm_sum _ _ _) _; apply: ler_sum => i _.
  apply: le_trans (_ : `|(a i - b i) - (prob (v i) - prob (w i))| <= _); first exact: ler_dist_dist.
  have -> : (a i - b i) - (prob (v i) - prob (w i)) = (a i - prob (v i)) - (b i - prob (w i)) by rring.
  by apply: le_trans (ler_norm_sub _ _) _; rewrite mulrDr; apply: ler_add; [exact: ha|exact: hb].
have -> : r - D = (r - E) + (E - D) by rewrite addrA subrK.
apply: le_trans (ler_norm_add _ _) _; apply: ler_add => //; apply: le_trans hr _.
rewrite ler_wpmul2l //; first exact: (@err_ge0 RF u64 u64_ge0).
by rewrite -ler_subl_addl; apply: le_trans (ler_norm _) hE.
Qed.
End Wave.

(* four equal amplitudes 1/2: the linear entropy is 3/4 up to rounding *)
Example C100_example_wave : exists2 s, linear64 (rpdf64 eig_exact) (V1 (vec (fun _ : 'I_(2 * 2) => 2%:R^-1 : CR))) = Ok s &
  `|s - 3%:R / 4%:R| <= ((1 + u64) ^+ 9 - 1) * (5%:R / 2%:R) + ((1 + uc64) ^+ 2 - 1) / 4%:R.
Proof.
have q : prob (2%:R^-1 : CR) = 4%:R^-1.
  apply: toC_inj; rewrite probE normfV normr_nat fmorphV rmorph_nat exprVn -natrX //.
have [|||s e] := @C100_wavefunction eig_exact (fun _ => 0) eig_exact_err (fun _ => lexx 0) 2 (fun _ => 2%:R^-1).
- by rewrite invr_ge0 mulr_ge0 ?exprn_ge0 ?ler0n.
- by apply: (@leq_trans (2 ^ 1)) => //; rewrite leq_exp2l.
- rewrite sumr_const card_ord q -[_ *+ (2 * 2)]mulr_natl -[(2 * 2)%N]/4%N divff ?pnatr_eq0 // subrr normr0 invr_ge0 exprn_ge0 // ler0n //.
rewrite sumr_const card_ord q -[_ *+ (2 * 2)]mulr_natl -[(2 * 2)%N]/4%N.
have -> : 4%:R * 4%:R^-1 ^+ 2 = 4%:R^-1 :> R by rlra.
have -> : 1 - 4%:R^-1 = 3%:R / 4%:R :> R by rlra.
by move=> h; exists s; [exact: e|exact: h].
Qed.
