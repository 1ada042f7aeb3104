(* PropClean.v -- clean (C23) and print_custom (C64) *)
From Coq Require Import Reals ZArith Lra Lia List String ssreflect.
From Verif Require Import Base MClean.
Import ListNotations.
Set Implicit Arguments.
Local Open Scope R_scope.

Lemma p10_gt0 k : 0 < p10 k.
Proof. apply: powerRZ_lt; lra. Qed.
Lemma p10_N k : p10 (- k) = / p10 k.
Proof. by rewrite /p10 powerRZ_neg'. Qed.

(* rounding to an integer: nearest, ties to even *)
Lemma Int_frac x : x = IZR (Int_part x) + frac_part x /\ 0 <= frac_part x < 1.
Proof. have [h1 h2] := base_fp x; rewrite /frac_part in h1 h2 *; lra. Qed.

Lemma rnd_spec x : Rabs (x - IZR (rnd x)) <= 1 / 2.
Proof.
have [h1 h2] := Int_frac x; rewrite /rnd.
move: h1 h2; generalize (Int_part x) (frac_part x) => f d h1 h2.
destruct (Rlt_dec d (1/2)); [|destruct (Rlt_dec (1/2) d); [|destruct (Z.even f)]];
  rewrite ?plus_IZR; apply: Rabs_le; lra.
Qed.

Lemma rnd_tie x : Rabs (x - IZR (rnd x)) = 1 / 2 -> Z.even (rnd x) = true.
Proof.
have [h1 h2] := Int_frac x; rewrite /rnd.
move: h1 h2; generalize (Int_part x) (frac_part x) => f d h1 h2.
destruct (Rlt_dec d (1/2)); first by rewrite {1}h1; replace (IZR f + d - IZR f) with d by lra; rewrite Rabs_pos_eq; lra.
destruct (Rlt_dec (1/2) d).
  by rewrite {1}h1 plus_IZR; replace (IZR f + d - (IZR f + 1)) with (-(1 - d)) by lra; rewrite Rabs_Ropp Rabs_pos_eq; lra.
case E: (Z.even f) => // _; by rewrite Z.even_add E.
Qed.

Lemma rnd_unique x m : Rabs (x - IZR m) < 1 / 2 -> rnd x = m.
Proof.
move=> h; have := rnd_spec x => h'.
have : Rabs (IZR (rnd x - m)) < 1.
  rewrite minus_IZR; replace (IZR (rnd x) - IZR m) with ((x - IZR m) - (x - IZR (rnd x))) by lra.
  apply: Rle_lt_trans (Rabs_triang _ _) _; rewrite Rabs_Ropp; lra.
rewrite -abs_IZR => /lt_IZR; lia.
Qed.
Lemma rnd_IZR z : rnd (IZR z) = z.
Proof. apply: rnd_unique; rewrite Rminus_diag_eq // Rabs_R0; lra. Qed.

(* np_round x k is the closest multiple of 10^-k *)
Lemma np_round_err x k : Rabs (np_round x k - x) <= 1 / 2 * p10 (- k).
Proof.
have p := p10_gt0 k; rewrite p10_N /np_round.
have e : IZR (rnd (x * p10 k)) / p10 k - x = - (x * p10 k - IZR (rnd (x * p10 k))) * / p10 k by field; lra.
rewrite e Rabs_mult Rabs_Ropp (Rabs_pos_eq (/ _)); last by left; apply: Rinv_0_lt_compat.
apply: Rmult_le_compat_r; [by left; apply: Rinv_0_lt_compat|exact: rnd_spec].
Qed.
Lemma np_round_grid x k : exists z : Z, np_round x k = IZR z * p10 (- k).
Proof. by eexists; rewrite p10_N. Qed.
Lemma np_round_fix z k : np_round (IZR z * p10 (- k)) k = IZR z * p10 (- k).
Proof.
have p := p10_gt0 k; rewrite /np_round p10_N.
have -> : IZR z * / p10 k * p10 k = IZR z by field; lra.
by rewrite rnd_IZR.
Qed.
Lemma np_round_idem x k : np_round (np_round x k) k = np_round x k.
Proof. by have [z ->] := np_round_grid x k; rewrite np_round_fix. Qed.

(* closest point of the grid, the even one on ties *)
Theorem C23_nearest x k (m : Z) : Rabs (np_round x k - x) <= Rabs (IZR m * p10 (- k) - x).
Proof.
have p := p10_gt0 k; rewrite p10_N /np_round; set y := x * p10 k.
have e (z : Z) : Rabs (IZR z * / p10 k - x) = Rabs (y - IZR z) * / p10 k.
  rewrite -(Rabs_pos_eq (/ p10 k)); last by left; apply: Rinv_0_lt_compat.
  rewrite -Rabs_mult -Rabs_Ropp (Rabs_pos_eq (/ p10 k)); last by left; apply: Rinv_0_lt_compat.
  by congr Rabs; rewrite /y; field; lra.
rewrite /Rdiv !e; apply: Rmult_le_compat_r; first by left; apply: Rinv_0_lt_compat.
case: (Z.eq_dec (rnd y) m) => [->|ne]; first lra.
apply: Rnot_lt_le => h; apply: ne; apply: rnd_unique; have := rnd_spec y; lra.
Qed.
Theorem C23_ties x k : Rabs (np_round x k - x) = 1 / 2 * p10 (- k) ->
  exists2 z : Z, np_round x k = IZR z * p10 (- k) & Z.even z = true.
Proof.
have p := p10_gt0 k; rewrite p10_N => h; exists (rnd (x * p10 k)) => //; apply: rnd_tie.
rewrite /np_round in h.
have e : IZR (rnd (x * p10 k)) / p10 k - x = - (x * p10 k - IZR (rnd (x * p10 k))) * / p10 k by field; lra.
move: h; rewrite e Rabs_mult Rabs_Ropp (Rabs_pos_eq (/ _)); last by left; apply: Rinv_0_lt_compat.
by move=> h; apply: (Rmult_eq_reg_r (/ p10 k)) => //; have := Rinv_0_lt_compat _ p; lra.
Qed.

Section C23.
Variable parse : string -> option R.
Variable show : R -> string.
Local Notation clean := (clean parse show).

(* real data: values move by at most half a unit of the last kept digit; shapes and lengths are kept *)
Definition within k (z z' : cplx) := Rabs (fst z' - fst z) <= 1 / 2 * p10 (- k) /\
  Rabs (snd z' - snd z) <= 1 / 2 * p10 (- k).
Definition realv (z : cplx) := snd z = 0.

Lemma np_round0 k : np_round 0 k = 0.
Proof. by have := np_round_fix 0 k; rewrite Rmult_0_l. Qed.

Lemma cabs_ge z : Rabs (fst z) <= cabs z /\ Rabs (snd z) <= cabs z.
Proof.
rewrite /cabs -!sqrt_Rsqr_abs /Rsqr; have := Rle_0_sqr (fst z); have := Rle_0_sqr (snd z); rewrite /Rsqr => *.
split; apply: sqrt_le_1_alt; lra.
Qed.

Lemma grid_small x k : (exists z : Z, x = IZR z * p10 (- k)) -> Rabs x < p10 (- k) -> x = 0.
Proof.
move=> [z ->]; have p := p10_gt0 (- k); rewrite Rabs_mult (Rabs_pos_eq (p10 _)); last lra.
move=> h; have : Rabs (IZR z) < 1 by apply: (Rmult_lt_reg_r _ _ _ p); lra.
rewrite -abs_IZR => /lt_IZR h'; have -> : z = 0%Z by lia. lra.
Qed.

(* zeroing does nothing on rounded data when the threshold is 10^-k *)
Lemma zero_small_round k l : zero_small (p10 (- k)) (map (fun z => cround z k) l) = map (fun z => cround z k) l.
Proof.
rewrite /zero_small map_map; apply: map_ext => z.
destruct (Rlt_dec (cabs (cround z k)) (p10 (- k))) as [h|] => //.
have [a b] := cabs_ge (cround z k).
rewrite [in RHS]/cround; symmetry; congr pair; apply: (@grid_small _ k); try exact: np_round_grid.
  exact: (Rle_lt_trans _ _ _ a h).
exact: (Rle_lt_trans _ _ _ b h).
Qed.

Lemma round_big x k : p10 (- k) <= Rabs x -> p10 (- k) <= Rabs (np_round x k).
Proof.
move=> h; apply: Rnot_lt_le => h'; have z := @grid_small _ k (np_round_grid x k) h'.
have := np_round_err x k; rewrite z Rminus_0_l Rabs_Ropp; have := p10_gt0 (- k); lra.
Qed.

Lemma cround_within k z : within k z (cround z k).
Proof. by split; exact: np_round_err. Qed.

Theorem C23_list k sh cx l : exists l',
  clean (OList sh cx l) (TInt k) = Ok (OList sh cx l') /\ Forall2 (within k) l l' /\
  (Forall realv l -> Forall realv l').
Proof.
exists (map (fun z => cround z k) l); rewrite /clean /= zero_small_round; split=> //; split.
  by elim: l => [|z l IH]; constructor=> //; exact: cround_within.
by elim: l => [|z l IH] /= h; constructor; inversion h; subst; [rewrite /realv /= H1 np_round0|exact: IH].
Qed.

(* arrays: imaginary parts are dropped exactly when all of them are below 10^-k; otherwise everything is rounded *)
Theorem C23_array k sh cx l : exists cx' l',
  clean (OArr sh cx l) (TInt k) = Ok (OArr sh cx' l') /\
  Forall2 (fun z z' => Rabs (fst z' - fst z) <= 1 / 2 * p10 (- k)) l l' /\
  (Forall (fun z => Rabs (snd z) < p10 (- k)) l -> cx' = false /\ Forall realv l') /\
  (~ Forall (fun z => Rabs (snd z) < p10 (- k)) l -> cx' = cx /\ Forall2 (within k) l l').
Proof.
rewrite /clean /=; case E: (all_small_im (p10 (- k)) l).
  exists false, (map (fun z => (np_round (fst z) k, 0)) l); split=> //; split.
    by clear E; elim: l => [|z l IH]; constructor=> //; exact: np_round_err.
  split; first by split=> //; clear E; elim: l H => [|z l IH] h /=; constructor=> //; apply: IH; inversion h.
  case; apply/Forall_forall => z hz; move/forallb_forall: E => /(_ z hz).
  by destruct (Rlt_dec (Rabs (snd z)) (p10 (- k))).
exists cx, (map (fun z => cround z k) l); rewrite zero_small_round; split=> //; split.
  by clear E; elim: l => [|z l IH]; constructor=> //; exact: np_round_err.
split; last by split=> //; clear; elim: l => [|z l IH]; constructor=> //; exact: cround_within.
move=> h; exfalso; suff : all_small_im (p10 (- k)) l = true by rewrite E.
apply/forallb_forall => z hz; move/Forall_forall: h => /(_ z hz) h.
by destruct (Rlt_dec (Rabs (snd z)) (p10 (- k))).
Qed.

Theorem C23_scalar k x z n :
  clean (OFloat x) (TInt k) = Ok (OFloat (np_round x k)) /\
  (Rabs (snd z) < p10 (- k) -> clean (OCplx z) (TInt k) = Ok (OFloat (np_round (fst z) k))) /\
  (~ Rabs (snd z) < p10 (- k) -> clean (OCplx z) (TInt k) = Ok (OCplx (np_round (fst z) k, np_round (snd z) k))) /\
  ((0 <= k)%Z -> clean (OInt n) (TInt k) = Ok (ONpInt n)).
Proof.
split=> //; split; [|split] => [h|h|k0]; rewrite /clean /=.
- by destruct (Rlt_dec _ _).
- by destruct (Rlt_dec _ _).
congr (Ok (ONpInt _)); have p := p10_gt0 k.
have e : IZR (10 ^ k) = p10 k.
  by rewrite -{1}(Z2Nat.id k) // -pow_IZR pow_powerRZ Z2Nat.id.
have -> : IZR n = IZR (n * 10 ^ k) * p10 (- k) by rewrite p10_N mult_IZR e; field; lra.
by rewrite np_round_fix -[RHS]rnd_IZR p10_N mult_IZR e; congr rnd; field; lra.
Qed.

(* a float threshold that is a power of ten acts as the integer one (the default 1e-6 is 6) *)
Theorem C23_power_threshold o k : clean o (TFlt (p10 (- k))) = clean o (TInt k).
Proof.
rewrite /clean /digits; destruct (Rlt_dec 0 (p10 (- k))) as [h|h]; last by case: h; exact: p10_gt0.
have l10 : 0 < ln 10 by rewrite -ln_1; apply: ln_increasing; lra.
have lp z : ln (p10 z) = IZR z * ln 10.
  rewrite /p10; case: z => [|p|p] /=; first by rewrite ln_1; lra.
    by rewrite ln_pow; [rewrite INR_IZR_INZ positive_nat_Z|lra].
  rewrite ln_Rinv; last by apply: pow_lt; lra.
  by rewrite ln_pow; [rewrite INR_IZR_INZ positive_nat_Z -Pos2Z.opp_pos opp_IZR; lra|lra].
have -> : (- rnd (ln (p10 (- k)) / ln 10) = k)%Z by rewrite lp /Rdiv Rmult_assoc Rinv_r ?Rmult_1_r; [rewrite rnd_IZR; lia|lra].
by [].
Qed.

(* idempotent for digit counts, for everything but Python ints.  str of a float is read back, or is not numeric *)
Theorem C23_idempotent k o o' : (forall y, parse (show y) = Some y \/ parse (show y) = None) ->
  (forall n, o <> OInt n) -> clean o (TInt k) = Ok o' -> clean o' (TInt k) = Ok o'.
Proof.
move=> hs ni; rewrite /clean /=; case: o ni => [sh cx l|sh cx l|s|n|x|z|n|] ni //.
- case=> <-; rewrite !zero_small_round map_map; congr (Ok (OList _ _ _)); apply: map_ext => z.
  by rewrite /cround /= !np_round_idem.
- case E: (all_small_im _ _) => -[<-].
    have -> : all_small_im (p10 (- k)) (map (fun z => (np_round (fst z) k, 0)) l) = true.
      apply/forallb_forall => z /in_map_iff[w [<- _]] /=; rewrite Rabs_R0.
      by destruct (Rlt_dec 0 (p10 (- k))) as [|h] => //; case: h; exact: p10_gt0.
    by rewrite map_map; congr (Ok (OArr _ _ _)); apply: map_ext => z; rewrite /= np_round_idem.
  rewrite !zero_small_round.
  have -> : all_small_im (p10 (- k)) (map (fun z => cround z k) l) = false.
    case E': (all_small_im _ _) => //; rewrite -E; symmetry; apply/forallb_forall => z hz.
    destruct (Rlt_dec (Rabs (snd z)) (p10 (- k))) as [h|h] => //; exfalso.
    move/forallb_forall: E' => /(_ (cround z k) (in_map _ _ _ hz)) /=.
    by destruct (Rlt_dec _ _) as [h'|h'] => //; have := @round_big (snd z) k; lra.
  rewrite map_map; congr (Ok (OArr _ _ _)); apply: map_ext => z.
  by rewrite /cround /= !np_round_idem.
- case E: (parse s) => [x|] -[<-]; last by rewrite E.
  by case: (hs (np_round x k)) => ->; rewrite ?np_round_idem.
- by case: (ni n).
- by case=> <- /=; rewrite np_round_idem.
- destruct (Rlt_dec (Rabs (snd z)) (p10 (- k))) as [h|h] => -[<-]; first by rewrite /= np_round_idem.
  rewrite /=; destruct (Rlt_dec _ _) as [h'|h']; last by rewrite /cround /= !np_round_idem.
  by exfalso; have := @round_big (snd z) k; lra.
Qed.

(* refuted for Python ints: the result is a numpy integer, which clean rejects *)
Theorem C23_int_refuted n k : (0 <= k)%Z -> exists o', clean (OInt n) (TInt k) = Ok o' /\ clean o' (TInt k) = Raise TypeError.
Proof. by move=> k0; exists (ONpInt n); split=> //; exact: (proj2 (proj2 (proj2 (C23_scalar k 0 (0, 0) n)))). Qed.

(* refuted for float thresholds that are not powers of ten: [1 + 2.4e-6 i] with threshold 2.4e-6 *)
Theorem C23_float_threshold_refuted : exists o o' o'', 
  clean o (TFlt (24 / 10000000)) = Ok o' /\ clean o' (TFlt (24 / 10000000)) = Ok o'' /\ o'' <> o'.
Proof.
set t := 24 / 10000000.
have l10 : 0 < ln 10 by rewrite -ln_1; apply: ln_increasing; lra.
have t0 : 0 < t by rewrite /t; lra.
have dg : digits (TFlt t) = Ok (6%Z, t).
  rewrite /digits; destruct (Rlt_dec 0 t) as [|h]; last by [].
  suff -> : rnd (ln t / ln 10) = (-6)%Z by [].
  apply: rnd_unique.
  have a : 2 * ln t < -11 * ln 10.
    have -> : 2 * ln t = ln (t * t) by rewrite ln_mult; lra.
    have -> : -11 * ln 10 = ln (/ (10 ^ 11)).
      rewrite ln_Rinv; last by apply: pow_lt; lra.
      by rewrite ln_pow /=; [lra|lra].
    apply: ln_increasing; rewrite /t; lra.
  have b : -13 * ln 10 < 2 * ln t.
    have -> : 2 * ln t = ln (t * t) by rewrite ln_mult; lra.
    have -> : -13 * ln 10 = ln (/ (10 ^ 13)).
      rewrite ln_Rinv; last by apply: pow_lt; lra.
      by rewrite ln_pow /=; [lra|lra].
    apply: ln_increasing; [apply: Rinv_0_lt_compat; apply: pow_lt; lra|rewrite /t; lra].
  have -> : ln t / ln 10 - -6 = (ln t + 6 * ln 10) / ln 10 by field; lra.
  rewrite /Rdiv Rabs_mult (Rabs_pos_eq (/ _)); last by left; apply: Rinv_0_lt_compat.
  apply: (Rmult_lt_reg_r _ _ _ l10); rewrite Rmult_assoc Rinv_l ?Rmult_1_r; last lra.
  by apply: Rabs_def1; lra.
have p6 : p10 6 = 1000000 by rewrite /p10 /=; lra.
have r1 : np_round 1 6 = 1.
  rewrite /np_round p6; replace (1 * 1000000) with (IZR 1000000) by lra; rewrite rnd_IZR; lra.
have r2 : np_round t 6 = 2 / 1000000.
  rewrite /np_round p6 (@rnd_unique _ 2); first lra.
  by rewrite /t; apply: Rabs_def1; lra.
have ca : cabs (1, 2 / 1000000) >= 1.
  rewrite /cabs /=; apply: Rle_ge; rewrite -{1}sqrt_1; apply: sqrt_le_1_alt; lra.
exists (OArr [1%nat] true [(1, t)]), (OArr [1%nat] true [(1, 2 / 1000000)]), (OArr [1%nat] false [(1, 0)]).
rewrite /clean dg /= (Rabs_pos_eq t); last lra.
destruct (Rlt_dec t t) as [h|_]; first lra.
rewrite /= /cround /= r1 r2; split.
  by destruct (Rlt_dec (cabs (1, 2 / 1000000)) t) as [h|_] => //; rewrite /t in h; lra.
rewrite (Rabs_pos_eq (2 / 1000000)); last lra.
destruct (Rlt_dec (2 / 1000000) t) as [_|h]; last by rewrite /t in h; lra.
done.
Qed.

(* 0.125 is rounded to the even digit *)
Example C23_example : clean (OFloat (125 / 1000)) (TInt 2) = Ok (OFloat (12 / 100)) /\
  clean (OCplx (3 / 2, 4 / 1000)) (TInt 2) = Ok (OFloat (3 / 2)).
Proof.
have p2 : p10 2 = 100 by rewrite /p10 /=; lra.
have pm2 : p10 (- (2)) = / 100 by rewrite p10_N p2.
rewrite /clean /digits pm2 /np_round p2; split.
  congr (Ok (OFloat _)).
  have -> : rnd (125 / 1000 * 100) = 12%Z; last lra.
  have s1 := rnd_spec (125 / 1000 * 100); have s2 := @rnd_tie (125 / 1000 * 100).
  move: s1 s2; set m := rnd _ => s1 s2.
  have [a b] : -(1/2) <= 125 / 1000 * 100 - IZR m <= 1/2.
    by split; have := Rle_abs (125 / 1000 * 100 - IZR m); have := Rle_abs (- (125 / 1000 * 100 - IZR m)); rewrite Rabs_Ropp; lra.
  have m1 : (11 < m)%Z by apply: lt_IZR; lra.
  have m2 : (m < 14)%Z by apply: lt_IZR; lra.
  have [//|e] : m = 12%Z \/ m = 13%Z by lia.
  have // : Z.even 13 = true by rewrite -e; apply: s2; rewrite e Rabs_left1; lra.
rewrite /= Rabs_pos_eq; last lra.
destruct (Rlt_dec (4 / 1000) (/ 100)) as [_|h]; last lra.
by congr (Ok (OFloat _)); replace (3 / 2 * 100) with (IZR 150) by lra; rewrite rnd_IZR; lra.
Qed.
End C23.

(* ---------- C64 ---------- *)
Section C64.
Variables (prec obj val : Type) (valid : prec -> bool).
Variables (to_array : obj -> step prec val) (drop_imag : val -> step prec val)
  (clean_print : val -> prec -> step prec unit) (print_obj : obj -> step prec unit) (is_number : obj -> bool).

(* whatever the steps do, return or raise, the precision is restored; the only assumption is that the precision
   in force before the call is one numpy accepts.  Printing a non-numeric object runs only print(obj). *)
Theorem C64_restored o k p : valid p = true -> (is_number o = false -> snd (print_obj o p) = p) ->
  snd (print_custom valid to_array drop_imag clean_print print_obj is_number o k p) = p.
Proof.
move=> vp h; rewrite /print_custom; case: (is_number o) h => [_|->] //.
rewrite /_print /sbind /get_precision /try_finally; case: (try_except _ _ p) => r p'.
by rewrite /set_precision vp.
Qed.

(* an exception other than ValueError/TypeError propagates *)
Theorem C64_outcome o k p v e : valid p = true -> is_number o = true -> valid k = true ->
  (forall q, to_array o q = (Ok v, q)) -> (forall w q, drop_imag w q = (Ok w, q)) ->
  (forall q, clean_print v k q = (Raise e, q)) -> e <> ValueError -> e <> TypeError ->
  print_custom valid to_array drop_imag clean_print print_obj is_number o k p = (Raise e, p).
Proof.
move=> vp isn vk h1 h2 h3 n1 n2; rewrite /print_custom isn /_print /sbind /get_precision /try_finally /try_except.
by rewrite h1 h2 /set_precision vk h3 vp; case: e n1 n2 {h3}.
Qed.

(* a ValueError or TypeError of any stage leads to print(obj): when the conversion fails the old precision is in force *)
Theorem C64_fallback o k p e : valid p = true -> is_number o = true -> e = ValueError \/ e = TypeError ->
  to_array o p = (Raise e, p) ->
  print_custom valid to_array drop_imag clean_print print_obj is_number o k p = (fst (print_obj o p), p).
Proof.
move=> vp isn he h; rewrite /print_custom isn /_print /sbind /get_precision /try_finally /try_except h.
by case: he => ->; case: (print_obj o p) => r p' /=; rewrite /set_precision vp.
Qed.

(* a k that is no precision is ignored: print(obj) runs with the old precision; when printing the cleaned value fails,
   print(obj) runs with the requested one *)
Theorem C64_precision o k p v w e : valid p = true -> is_number o = true ->
  to_array o p = (Ok v, p) -> drop_imag v p = (Ok w, p) ->
  (valid k = false ->
    print_custom valid to_array drop_imag clean_print print_obj is_number o k p = (fst (print_obj o p), p)) /\
  (valid k = true -> e = ValueError \/ e = TypeError -> clean_print w k k = (Raise e, k) ->
    print_custom valid to_array drop_imag clean_print print_obj is_number o k p = (fst (print_obj o k), p)) /\
  (valid k = true -> fst (clean_print w k k) = Ok tt ->
    print_custom valid to_array drop_imag clean_print print_obj is_number o k p = (Ok tt, p)).
Proof.
move=> vp isn h1 h2; rewrite /print_custom isn /_print /sbind /get_precision /try_finally /try_except h1 h2.
split; [|split] => vk; rewrite /set_precision vk.
- by case: (print_obj o p) => r p'; rewrite vp.
- by move=> he ->; case: he => ->; case: (print_obj o k) => r p'; rewrite vp.
- by case: (clean_print w k k) => r p' /= ->; rewrite vp.
Qed.
End C64.

(* the handler prints while the requested precision is still set, then it is reset: precision 8, request 3,
   clean raises ValueError, print(obj) succeeds *)
Example C64_example : print_custom (fun _ => true) (fun (_ : unit) p => (Ok tt, p)) (fun v p => (Ok v, p))
  (fun _ _ p => (Raise ValueError, p)) (fun _ p => (if Nat.eqb p 3 then Ok tt else Raise KeyError, p)) (fun _ => true)
  tt 3%nat 8%nat = (Ok tt, 8%nat).
Proof. by []. Qed.

(* an integer is not changed by rounding to k >= 0 digits *)
Lemma np_round_int (m : Z) k : (0 <= k)%Z -> np_round (IZR m) k = IZR m.
Proof.
move=> hk; have p := p10_gt0 k.
have e : IZR m = IZR (m * 10 ^ k) * p10 (- k).
  rewrite p10_N mult_IZR /p10 -(Z2Nat.id k hk) -pow_IZR -pow_powerRZ; field.
  by apply: pow_nonzero; lra.
by rewrite {1}e np_round_fix -e.
Qed.
