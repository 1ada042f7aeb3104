(* PropInt.v -- property C94: pf, hf, pt, dt on arrays of fixed-width integers *)
Set Warnings "-notation-overridden,-ambiguous-paths".
From mathcomp Require Import all_ssreflect all_fingroup all_algebra.
From mathcomp.zify Require Import zify.
From Verif Require Import Base MCombinatorics CombPerm Matching Pfaffian Bipartite CombFacts PropComb MInt.
Set Implicit Arguments.
Unset Strict Implicit.
Unset Printing Implicit Defensive.
Import Order.Theory GRing.Theory Num.Theory.
Local Open Scope ring_scope.

(* ------------------------------ the reduction ------------------------------ *)
(* the numbers that fit into w bits *)
Definition fits (w : nat) (z : int) : bool := (- 2 ^+ w.-1 <= z) && (z < 2 ^+ w.-1).

Section Wrap.
Variable w : nat.
Hypothesis w1 : (0 < w)%N.
Local Notation m := (2 ^+ w : int).
Local Notation h := (2 ^+ w.-1 : int).
Lemma mE : m = h + h.
Proof. by rewrite -{1}(prednK w1) exprS mulr_natl mulr2n. Qed.
Lemma h0 : 0 < h. Proof. exact: exprn_gt0. Qed.
Lemma m0 : 0 < m. Proof. exact: exprn_gt0. Qed.

Lemma wrap_fits z : fits w (wrap w z).
Proof.
rewrite /fits /wrap; have := modz_ge0 (z + h) (lt0r_neq0 m0); have := ltz_pmod (z + h) m0.
by move: (modz _ _) => a; rewrite mE; move: (2 ^+ _ : int) => b; lia.
Qed.
Lemma wrap_mod z : (wrap w z = z %[mod m])%Z.
Proof. by rewrite /wrap modzDml addrK. Qed.
Lemma eq_wrap x y : (x = y %[mod m])%Z -> wrap w x = wrap w y.
Proof. by move=> e; rewrite /wrap -(modzDml x) -(modzDml y) e. Qed.
Lemma wrap_id z : fits w z -> wrap w z = z.
Proof.
rewrite /fits /wrap => /andP[h1 h2]; rewrite modz_small ?addrK //.
by rewrite mE; move: h1 h2; move: (2 ^+ _ : int) => b; lia.
Qed.
Lemma wrapE x : (wrap w x == x) = fits w x.
Proof. by apply/eqP/idP => [<-|/wrap_id //]; exact: wrap_fits. Qed.
Lemma wrapD x y : wrap w (wrap w x + y) = wrap w (x + y).
Proof. by apply: eq_wrap; rewrite -modzDml wrap_mod modzDml. Qed.
Lemma wrapDr x y : wrap w (x + wrap w y) = wrap w (x + y).
Proof. by rewrite addrC wrapD addrC. Qed.
Lemma wrapM x y : wrap w (wrap w x * y) = wrap w (x * y).
Proof. by apply: eq_wrap; rewrite -modzMml wrap_mod modzMml. Qed.
Lemma wrapMr x y : wrap w (x * wrap w y) = wrap w (x * y).
Proof. by rewrite mulrC wrapM mulrC. Qed.
End Wrap.

(* ------------------------------ the loops ------------------------------ *)
Definition rmap A B (f : A -> B) (r : res A) : res B := match r with Ok x => Ok (f x) | Raise e => Raise e end.

Lemma foldM_rel A X Y (g : X -> Y) (f : X -> A -> res X) (f' : Y -> A -> res Y) (l : seq A) a :
  (forall x y, f' (g x) y = rmap g (f x y)) -> foldM f' (g a) l = rmap g (foldM f a l).
Proof. by move=> e; elim: l a => //= y l IH a; rewrite e; case: (f a y) => //= b; exact: IH. Qed.
Lemma eq_foldM A X (f f' : X -> A -> res X) (l : seq A) a : (forall x y, f x y = f' x y) -> foldM f a l = foldM f' a l.
Proof. by move=> e; elim: l a => //= y l IH a; rewrite e; case: (f' a y). Qed.

Section Loops.
Variable w : nat.
Hypothesis w1 : (1 < w)%N.
Let w0 : (0 < w)%N := ltnW w1.

Lemma wrap1 : wrap w 1 = 1.
Proof.
apply: wrap_id => //; apply/andP; split; first by rewrite (le_trans (_ : _ <= 0)) // oppr_le0 exprn_ge0.
by rewrite exprn_egt1 //; lia.
Qed.
Lemma wrap0 : wrap w 0 = 0.
Proof. by apply: wrap_id => //; rewrite /fits oppr_le0 exprn_ge0 //= exprn_gt0. Qed.

Lemma prod_wE (A : arr int_Ring) l : prod_entries_w w A l = rmap (wrap w) (prod_entries (A : arr int_comRing) l).
Proof.
rewrite /prod_entries_w -{1}wrap1; apply: foldM_rel => x e; case: (idx _ _ _) => //= a; congr Ok.
exact: wrapM.
Qed.
Lemma loop_wE (A : arr int_Ring) (f : seq nat -> seq (nat * nat)) (s : seq nat -> int) ps :
  foldM (fun acc p => let* x := prod_entries_w w A (f p) in Ok (wrap w (acc + wrap w (s p * x)))) 0 ps =
  rmap (wrap w) (foldM (fun acc p => let* x := prod_entries (A : arr int_comRing) (f p) in Ok (acc + s p * x)) 0 ps).
Proof.
rewrite -{1}wrap0; apply: foldM_rel => x p; rewrite prod_wE; case: (prod_entries _ _) => //= a; congr Ok.
by rewrite wrapMr // wrapDr // wrapD.
Qed.
Lemma loop_wE1 (A : arr int_Ring) (f : seq nat -> seq (nat * nat)) ps :
  foldM (fun acc p => let* x := prod_entries_w w A (f p) in Ok (wrap w (acc + x))) 0 ps =
  rmap (wrap w) (foldM (fun acc p => let* x := prod_entries (A : arr int_comRing) (f p) in Ok (acc + x)) 0 ps).
Proof.
rewrite -{1}wrap0; apply: foldM_rel => x p; rewrite prod_wE; case: (prod_entries _ _) => //= a; congr Ok.
by rewrite wrapDr // wrapD.
Qed.

(* C94: whatever overflows on the way, the returned word is the exact value reduced to the width *)
Theorem C94_dt_pt n (M : 'M[int]_n) :
  dt_w w (ofM M) = Ok (wrap w (\det M)) /\ pt_w w (ofM M) = Ok (wrap w (\sum_(s : 'S_n) \prod_(i < n) M i (s i))).
Proof.
split.
  rewrite /dt_w (@loop_wE _ _ sgn).
  rewrite [X in rmap _ X](_ : _ = dt (ofM M : arr int_comRing)); last first.
    by apply: eq_foldM => x p; case: (prod_entries _ _) => //= a; rewrite intz.
  by rewrite C02_dt_is_det.
by rewrite /pt_w loop_wE1; have := C03_pt_is_permanent M; rewrite /pt => ->.
Qed.

(* the undivided sum of pf and hf over the integers *)
Lemma pairs_ok k p : p \in perms (iota 0 k.*2) -> all (fun e => (e.1 < k.*2) && (e.2 < k.*2))%N (match_pairs p k).
Proof.
rewrite mem_perms ?iota_uniq // => /plist_surj [s ->].
apply/allP => e /mapP[i]; rewrite mem_iota /= add0n => hi -> /=.
have h1 : (2 * i < k.*2)%N by lia.
have h2 : (2 * i + 1 < k.*2)%N by lia.
rewrite -[X in (nth _ _ X < _)%N]/(val (Ordinal h1)) -[X in (_ < _)%N && (nth _ _ X < _)%N]/(val (Ordinal h2)).
by rewrite !nth_plist !ltn_ord.
Qed.
Lemma pairs_prod k (M : 'M[int]_(k.*2)) (s : 'S_(k.*2)) :
  \prod_(e <- match_pairs (plist s) k) get (ofM M) e.1 e.2 = \prod_(i < k) M (s (d i false)) (s (d i true)).
Proof.
have nd (i : 'I_k) (e : bool) : nth 0%N (plist s) (e + i.*2) = s (d i e) by rewrite -[(e + i.*2)%N]/(val (d i e)) nth_plist.
have -> : match_pairs (plist s) k = [seq (val (s (d i false)), val (s (d i true))) | i <- enum 'I_k].
  rewrite /match_pairs -(val_enum_ord k) -map_comp; apply: eq_map => i /=.
  by rewrite mul2n addnC -[X in (nth _ _ X, _)]add0n !(nd i false, nd i true).
by rewrite big_map big_enum /=; apply: eq_bigr => i _; rewrite (@get_ord _ (ofM M)).
Qed.
Lemma psum_loop k (M : 'M[int]_(k.*2)) :
  foldM (fun acc p => let* x := prod_entries (ofM M : arr int_comRing) (match_pairs p k) in Ok (acc + sgn p * x)) 0
    (perms (iota 0 k.*2)) = Ok (psum M).
Proof.
rewrite (eq_foldM (f' := fun acc p =>
  let* x := (let* x := prod_entries (ofM M : arr int_comRing) (match_pairs p k) in Ok (sgn p * x)) in Ok (acc + x))); last first.
  by move=> x p; case: (prod_entries _ _).
rewrite (foldM_sum (g := fun p => sgn p * \prod_(e <- match_pairs p k) get (ofM M) e.1 e.2)) /=.
  rewrite add0r sum_perms; congr Ok; apply: eq_bigr => s _; rewrite pairs_prod; congr (_ * _).
  by rewrite -[LHS]intz sgn_signr.
by move=> p hp; rewrite prod_entries_ok //; exact: pairs_ok.
Qed.
Lemma hsum_loop k (M : 'M[int]_(k.*2)) :
  foldM (fun acc p => let* x := prod_entries (ofM M : arr int_comRing) (match_pairs p k) in Ok (acc + x)) 0
    (perms (iota 0 k.*2)) = Ok (hsum M).
Proof.
rewrite (foldM_sum (g := fun p => \prod_(e <- match_pairs p k) get (ofM M) e.1 e.2)) /=.
  by rewrite add0r sum_perms; congr Ok; apply: eq_bigr => s _; rewrite pairs_prod.
by move=> p hp; rewrite prod_entries_ok //; exact: pairs_ok.
Qed.

Lemma pf_wE k (M : 'M[int]_(k.*2)) : pf_w w (ofM M) = Ok ((wrap w (psum M))%:~R / (2 ^ k * k`!)%N%:R).
Proof. by rewrite /pf_w /= modn2 odd_double /= divn2 doubleK (@loop_wE _ _ sgn) psum_loop. Qed.
Lemma hf_wE k (M : 'M[int]_(k.*2)) : hf_w w (ofM M) = Ok ((wrap w (hsum M))%:~R / (2 ^ k * k`!)%N%:R).
Proof. by rewrite /hf_w /= modn2 odd_double /= divn2 doubleK loop_wE1 hsum_loop. Qed.

(* the same matrix over the rationals *)
Definition Qm n (M : 'M[int]_n) : arr rat_fieldType := ofM (map_mx intr M : 'M[rat]_n).
Lemma psum_rat k (M : 'M[int]_(k.*2)) : psum (map_mx intr M : 'M[rat]_(k.*2)) = (psum M)%:~R.
Proof.
rewrite /psum rmorph_sum; apply: eq_bigr => s _; rewrite rmorphM rmorph_sign rmorph_prod; congr (_ * _).
by apply: eq_bigr => i _; rewrite mxE.
Qed.
Lemma hsum_rat k (M : 'M[int]_(k.*2)) : hsum (map_mx intr M : 'M[rat]_(k.*2)) = (hsum M)%:~R.
Proof. by rewrite /hsum rmorph_sum; apply: eq_bigr => s _; rewrite rmorph_prod; apply: eq_bigr => i _; rewrite mxE. Qed.

(* C94: pf and hf reduce the sum over all permutations, which is 2^k k! times the exact value, before they divide *)
Theorem C94_pf_hf k (M : 'M[int]_(k.*2)) : let D := (2 ^ k * k`!)%N%:R : rat in
  (exists s : int, pf (Qm M) = Ok (s%:~R / D) /\ pf_w w (ofM M) = Ok ((wrap w s)%:~R / D)) /\
  (exists s : int, hf (Qm M) = Ok (s%:~R / D) /\ hf_w w (ofM M) = Ok ((wrap w s)%:~R / D)).
Proof.
move=> D; split; [exists (psum M)|exists (hsum M)]; rewrite ?pf_wE ?hf_wE; split=> //.
  by rewrite (pf_psum (k := k)) // toM_ofM psum_rat.
by rewrite (hf_hsum (k := k)) // toM_ofM hsum_rat.
Qed.

Theorem C94_odd n (M : 'M[int]_n) : odd n ->
  [/\ pf_w w (ofM M) = Ok 0, hf_w w (ofM M) = Ok 0, pf (Qm M) = Ok 0 & hf (Qm M) = Ok 0].
Proof. by move=> o; rewrite /pf_w /hf_w /pf /hf /= modn2 o. Qed.

(* C94: the results are exact exactly when the sums fit: for dt and pt the value itself, for pf and hf 2^k k! times the value *)
Theorem C94_exact n (M : 'M[int]_n) :
  [/\ forall x, dt (ofM M : arr int_comRing) = Ok x -> (dt_w w (ofM M) = Ok x <-> fits w x),
      forall x, pt (ofM M : arr int_comRing) = Ok x -> (pt_w w (ofM M) = Ok x <-> fits w x),
      forall x, ~~ odd n -> pf (Qm M) = Ok x -> (pf_w w (ofM M) = Ok x <->
        exists2 s, fits w s & s%:~R = x * (2 ^ n./2 * n./2`!)%N%:R) &
      forall x, ~~ odd n -> hf (Qm M) = Ok x -> (hf_w w (ofM M) = Ok x <->
        exists2 s, fits w s & s%:~R = x * (2 ^ n./2 * n./2`!)%N%:R)].
Proof.
have E (x : int) : Ok (wrap w x) = Ok x <-> fits w x.
  by split=> [[/eqP]|h]; rewrite ?wrapE // wrap_id.
have Q k (s : int) (x : rat) : s%:~R / (2 ^ k * k`!)%N%:R = x ->
    (Ok ((wrap w s)%:~R / (2 ^ k * k`!)%N%:R) = Ok x <-> exists2 s, fits w s & s%:~R = x * (2 ^ k * k`!)%N%:R).
  have D0 : (2 ^ k * k`!)%N%:R != 0 :> rat by rewrite pnatr_eq0 muln_eq0 negb_or -!lt0n expn_gt0 fact_gt0.
  move=> <-; split=> [[/(mulIf (invr_neq0 D0)) /intr_inj e]|[s' h]].
    by exists s; rewrite ?divfK // -e; exact: wrap_fits.
  by rewrite divfK // => /intr_inj e; rewrite wrap_id // -e.
have [-> ->] := C94_dt_pt M; split.
- by move=> x; rewrite C02_dt_is_det => -[<-].
- by move=> x; rewrite C03_pt_is_permanent => -[<-].
- move=> x en; have e := odd_double_half n; rewrite (negbTE en) add0n in e.
  move: (n./2) e => k e; subst n; rewrite pf_wE (pf_psum (k := k)) // toM_ofM psum_rat => -[ex].
  exact: Q.
move=> x en; have e := odd_double_half n; rewrite (negbTE en) add0n in e.
move: (n./2) e => k e; subst n; rewrite hf_wE (hf_hsum (k := k)) // toM_ofM hsum_rat => -[ex].
exact: Q.
Qed.

Lemma fits_norm x : `|x| < 2 ^+ w.-1 -> fits w x.
Proof. by rewrite ltr_norml /fits => /andP[/ltW -> ->]. Qed.
Lemma norm_prod_le k (F : 'I_k -> int) (B : nat) : (forall i, `|F i| <= B%:Z) -> `|\prod_i F i| <= (B ^ k)%N%:Z.
Proof.
move=> h; rewrite normr_prod; have -> : (B ^ k)%N%:Z = \prod_(i < k) B%:Z by rewrite prodr_const card_ord -!natz natrX.
by apply: ler_prod => i _; rewrite normr_ge0 h.
Qed.
Lemma norm_sumS n (F : 'S_n -> int) (B : nat) : (forall s, `|F s| <= B%:Z) -> `|\sum_s F s| <= (n`! * B)%N%:Z.
Proof.
move=> h; apply: (le_trans (ler_norm_sum _ _ _)); apply: (le_trans (ler_sum _ (fun s _ => h s))).
by rewrite sumr_const card_Sn -mulr_natl PoszM natz lexx.
Qed.

(* C94: entries of size at most B: dt and pt are exact when n! B^n < 2^(w-1), pf and hf when n! B^(n/2) < 2^(w-1) *)
Theorem C94_bounded n (M : 'M[int]_n) (B : nat) : (forall i j, `|M i j| <= B%:Z) ->
  ((n`! * B ^ n < 2 ^ w.-1)%N ->
     dt_w w (ofM M) = dt (ofM M : arr int_comRing) /\ pt_w w (ofM M) = pt (ofM M : arr int_comRing)) /\
  ((n`! * B ^ n./2 < 2 ^ w.-1)%N -> pf_w w (ofM M) = pf (Qm M) /\ hf_w w (ofM M) = hf (Qm M)).
Proof.
move=> hB; have X : (2 ^+ w.-1 : int) = (2 ^ w.-1)%N%:Z by rewrite -[RHS]natz natrX.
have S1 (s : 'S_n) (x : int) : `|(-1) ^+ s * x| = `|x| by rewrite normrM normr_sign mul1r.
split=> h.
  have [e1 e2] := C94_dt_pt M; rewrite e1 e2 C02_dt_is_det C03_pt_is_permanent.
  split; congr Ok; apply: wrap_id => //; apply: fits_norm; rewrite X;
    (apply: (le_lt_trans (y := (n`! * B ^ n)%N%:Z)); last by rewrite ltz_nat).
    by apply: norm_sumS => s; rewrite S1; apply: norm_prod_le.
  by apply: norm_sumS => s; apply: norm_prod_le.
have [on|en] := boolP (odd n); first by have [-> -> -> ->] := C94_odd M on.
have e := odd_double_half n; rewrite (negbTE en) add0n in e.
move: (n./2) e h => k e h; subst n; rewrite pf_wE hf_wE (pf_psum (k := k)) // (hf_hsum (k := k)) // !toM_ofM psum_rat hsum_rat.
split; congr (Ok (_%:~R / _)); apply: wrap_id => //; apply: fits_norm; rewrite X;
  (apply: (le_lt_trans (y := (k.*2`! * B ^ k)%N%:Z)); last by rewrite ltz_nat).
  by apply: norm_sumS => s; rewrite S1; apply: norm_prod_le.
by apply: norm_sumS => s; apply: norm_prod_le.
Qed.

(* C94: the bound is sharp: on the all-ones matrix pt is n! and the sum of hf is n!, so both are exact only while n! fits.
   The exact value of a hafnian or permanent is not returned for larger n (a count of matchings comes out wrong) *)
Theorem C94_ones_refuted n k :
  (pt_w w (ofM (const_mx 1 : 'M[int]_n)) = pt (ofM (const_mx 1 : 'M[int]_n) : arr int_comRing) <-> (n`! < 2 ^ w.-1)%N) /\
  (hf_w w (ofM (const_mx 1 : 'M[int]_(k.*2))) = hf (Qm (const_mx 1 : 'M[int]_(k.*2))) <-> (k.*2`! < 2 ^ w.-1)%N).
Proof.
have F (m : nat) : fits w m%:Z = (m < 2 ^ w.-1)%N.
  have X : (2 ^+ w.-1 : int) = (2 ^ w.-1)%N%:Z by rewrite -[RHS]natz natrX.
  by rewrite /fits X ltz_nat andbC; case: ltnP => //= _; rewrite (le_trans (_ : _ <= 0)) // oppr_le0.
have Sn m : \sum_(s : 'S_m) 1 = m`!%:Z :> int by rewrite sumr_const card_Sn natz.
have [_ e2] := C94_dt_pt (const_mx 1 : 'M[int]_n); split.
  rewrite e2 C03_pt_is_permanent.
  have -> : \sum_(s : 'S_n) \prod_(i < n) (const_mx 1 : 'M[int]_n) i (s i) = n`!%:Z.
    by rewrite -Sn; apply: eq_bigr => s _; rewrite big1 // => i _; rewrite mxE.
  rewrite -F -wrapE //; split=> [[->]|/eqP ->] //.
rewrite hf_wE (hf_hsum (k := k)) // toM_ofM hsum_rat.
have -> : hsum (const_mx 1 : 'M[int]_(k.*2)) = k.*2`!%:Z.
  by rewrite -Sn; apply: eq_bigr => s _; rewrite big1 // => i _; rewrite mxE.
have D0 : (2 ^ k * k`!)%N%:R != 0 :> rat by rewrite pnatr_eq0 muln_eq0 negb_or -!lt0n expn_gt0 fact_gt0.
rewrite -F -wrapE //; split=> [[/(mulIf (invr_neq0 D0)) /intr_inj ->]|/eqP ->] //.
Qed.
End Loops.

(* factorials and powers in binary *)
Fixpoint factN (n : nat) : BinNums.N := if n is k.+1 then BinNat.N.mul (BinNat.N.of_nat n) (factN k) else BinNums.Npos BinNums.xH.
Fixpoint pow2N (n : nat) : BinNums.N := if n is k.+1 then BinNat.N.mul (BinNums.Npos (BinNums.xO BinNums.xH)) (pow2N k)
  else BinNums.Npos BinNums.xH.
Lemma factNE n : BinNat.N.to_nat (factN n) = n`!.
Proof. by elim: n => // n IH; rewrite factS -IH -[factN n.+1]/(BinNat.N.mul (BinNat.N.of_nat n.+1) (factN n)) Nnat.N2Nat.inj_mul Nnat.Nat2N.id. Qed.
Lemma pow2NE n : BinNat.N.to_nat (pow2N n) = (2 ^ n)%N.
Proof. by elim: n => // n IH; rewrite expnS -IH -[pow2N n.+1]/(BinNat.N.mul (BinNums.Npos (BinNums.xO BinNums.xH)) (pow2N n)) Nnat.N2Nat.inj_mul. Qed.
Lemma fact_int64 : [/\ (20`! < 2 ^ 63)%N, (2 ^ 63 <= 21`!)%N & (2 ^ 63 <= 22`!)%N].
Proof.
have h1 : BinNat.N.lt (factN 20) (pow2N 63) by vm_compute.
have h2 : BinNat.N.le (pow2N 63) (factN 21) by vm_compute.
have h3 : BinNat.N.le (pow2N 63) (factN 22) by vm_compute.
rewrite -!factNE -pow2NE; move: (factN 20) (factN 21) (factN 22) (pow2N 63) h1 h2 h3 => a b c e h1 h2 h3.
by split; lia.
Qed.

(* int64: permanents and hafnians of 0/1 matrices are exact up to 20 rows; the all-ones matrix with 21 (hafnian: 22) rows
   gives a wrong result *)
Example C94_int64 :
  [/\ forall M : 'M[int]_20, (forall i j, M i j = 0 \/ M i j = 1) ->
        pt_w 64 (ofM M) = pt (ofM M : arr int_comRing) /\ hf_w 64 (ofM M) = hf (Qm M),
      pt_w 64 (ofM (const_mx 1 : 'M[int]_21)) <> pt (ofM (const_mx 1 : 'M[int]_21) : arr int_comRing) &
      hf_w 64 (ofM (const_mx 1 : 'M[int]_(11.*2))) <> hf (Qm (const_mx 1 : 'M[int]_(11.*2)))].
Proof.
have [f20 f21 f22] := fact_int64; have w1 : (1 < 64)%N := isT; have w63 : 64.-1 = 63%N by [].
move: 64%N w1 w63 => w w1 w63; move: 63%N w63 f20 f21 f22 => v <- f20 f21 f22.
have e22 : 11.*2 = 22%N by []; rewrite -{}e22 in f22.
split; last 1 first.
- by move: 11%N f22 => k f22; have [_ H] := C94_ones_refuted w1 0 k; move/H; rewrite ltnNge f22.
- move: 20%N f20 => n f20 M h; have hB i j : `|M i j| <= 1%:Z by case: (h i j) => ->.
  have [b1 b2] := C94_bounded w1 hB; rewrite !exp1n muln1 in b1 b2.
  by have [_ ->] := b1 f20; have [_ ->] := b2 f20.
by move: 21%N f21 => n f21; have [H _] := C94_ones_refuted w1 n 0; move/H; rewrite ltnNge f21.
Qed.
(* int8: the determinant of diag(16, 8) is 128; the word is -128 *)
Example C94_int8 : dt_w 8 (ofM (diag_mx (\row_(i < 2) (if i == 0 then 16 else 8)) : 'M[int]_2)) = Ok (-128).
Proof.
have [-> _] := C94_dt_pt (w := 8) isT (diag_mx (\row_(i < 2) (if i == 0 then 16 else 8))).
by rewrite det_diag !big_ord_recl big_ord0 !mxE.
Qed.
