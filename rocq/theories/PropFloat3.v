(* PropFloat3.v -- property C97: rotate_operators and build_op in rounded arithmetic *)
Set Warnings "-notation-overridden,-ambiguous-paths".
From mathcomp Require Import all_ssreflect all_fingroup all_algebra.
From mathcomp.zify Require Import zify.
From Verif Require Import Base ArrC MLib OpFam PropFloat MFloat2.
Set Implicit Arguments.
Unset Strict Implicit.
Unset Printing Implicit Defensive.
Import Order.Theory GRing.Theory Num.Theory.
Local Open Scope ring_scope.

Section Float.
Variable C : numClosedFieldType.
Local Notation arr := (arr C).
Variable u : C.
Hypothesis u0 : 0 <= u.
Variables (fmul fadd : C -> C -> C) (fmm : arr -> arr -> arr) (small : C -> bool).
Hypothesis mulP : rel_err u fmul *%R.
Hypothesis addP : rel_err u fadd +%R.

(* entrywise approximation *)
Definition mapprox N k (P X T : 'M[C]_N) := forall a b, approx u k (P a b) (X a b) (T a b).

Lemma mapprox_le N k l (P X T : 'M[C]_N) : (k <= l)%N -> mapprox k P X T -> mapprox l P X T.
Proof. by move=> h H a b; exact: (approx_le u0 h (H a b)). Qed.

Lemma iadd_approx N k (P X T Q Y S : 'M[C]_N) : mapprox k P X T -> mapprox k Q Y S ->
  exists2 Z : 'M[C]_N, iadd_f fadd (ofM X) (ofM Y) = Ok (ofM Z) & mapprox k.+1 (P + Q) Z (T + S).
Proof.
move=> h1 h2; exists (\matrix_(a, b) fadd (X a b) (Y a b)).
  rewrite /iadd_f /shp /= !eqxx /= ofM_mk; congr (Ok (ofM _)); apply/matrixP => a b; by rewrite !mxE !ofM_get.
by move=> a b; rewrite !mxE; exact: (approx_add u0 addP (h1 a b) (h2 a b)).
Qed.
Lemma scale_approx N k (P X T : 'M[C]_N) c : mapprox k P X T ->
  exists2 Z : 'M[C]_N, scale_f fmul c (ofM X) = ofM Z & mapprox k.+1 (`|c| *: P) Z (c *: T).
Proof.
move=> h; exists (\matrix_(a, b) fmul c (X a b)).
  by rewrite /scale_f /= ofM_mk; congr ofM; apply/matrixP => a b; rewrite !mxE !ofM_get.
by move=> a b; rewrite !mxE; exact: (approx_mull u0 mulP c (h a b)).
Qed.
Lemma exact_approx N (X : 'M[C]_N) : mapprox 0 (map_mx Num.norm X) X X.
Proof. by move=> a b; rewrite mxE; exact: approx_exact. Qed.
Lemma zero_approx N k : mapprox k (0 : 'M[C]_N) 0 0.
Proof. by move=> a b; rewrite !mxE; exact: approx0. Qed.

(* a loop whose k-th step adds a term known up to m roundings *)
Lemma fold_approx N m s (body : arr -> nat -> res arr) (Q S : nat -> 'M[C]_N) l k (P X T : 'M[C]_N) :
  (forall i k P X T, i \in l -> (m <= k)%N -> mapprox k P X T ->
     exists2 Z : 'M[C]_N, body (ofM X) i = Ok (ofM Z) & mapprox (k + s) (P + Q i) Z (T + S i)) ->
  (m <= k)%N -> mapprox k P X T ->
  exists2 Z : 'M[C]_N, foldM body (ofM X) l = Ok (ofM Z) &
    mapprox (k + s * size l) (P + \sum_(i <- l) Q i) Z (T + \sum_(i <- l) S i).
Proof.
elim: l k P X T => [|i l IH] k P X T H hk h /=; first by exists X; rewrite // !big_nil !addr0 muln0 addn0.
have [Z -> hZ] := H i k P X T (mem_head _ _) hk h => /=.
have [|Z' -> hZ'] := IH (k + s)%N _ _ _ _ (leq_trans hk (leq_addr _ _)) hZ; first by move=> j ? ? ? ? hj; apply: H; rewrite in_cons hj orbT.
by exists Z' => //; rewrite !big_cons !addrA mulnS addnA.
Qed.

Definition used (c : C) : C := if small c then 0 else c.

Lemma rotation_entry N n (A : nat -> 'M[C]_N) (M : 'M[C]_n) (j : 'I_n) :
  exists2 Z : 'M[C]_N, (let* a0 := item (ops A n) 0 in
    foldM (fun b i => let* c := idx (ofM M) j i in
      if small c then Ok b else let* al := item (ops A n) i in iadd_f fadd b (scale_f fmul c al))
      (azeros (nr a0) (nc a0)) (iota 0 n)) = Ok (ofM Z) &
  mapprox (1 + n) (\sum_i `|used (M j i)| *: map_mx Num.norm (A i)) Z (\sum_i used (M j i) *: A i).
Proof.
have n0 : (0 < n)%N by apply: leq_ltn_trans (ltn_ord j).
rewrite item_ops //= ofM_zeros.
have [i k P X T|||Z e h] := @fold_approx N 1 1 (fun b i => let* c := idx (ofM M) j i in
      if small c then Ok b else let* al := item (ops A n) i in iadd_f fadd b (scale_f fmul c al))
   (fun i => `|used (get (ofM M) j i)| *: map_mx Num.norm (A i)) (fun i => used (get (ofM M) j i) *: A i) (iota 0 n) 1 0 0 0.
- rewrite mem_iota add0n => /= hi hk hX; rewrite /idx ltn_ord hi /= /used.
  rewrite addn1; case: ifP => _; first by exists X => //; rewrite normr0 !scale0r !addr0; exact: mapprox_le hX.
  rewrite item_ops //=; have [Y -> hY] := scale_approx (get (ofM M) j i) (@exact_approx N (A i)).
  by apply: iadd_approx => //; exact: mapprox_le hY.
- by [].
- exact: zero_approx.
exists Z => //; move: h; rewrite size_iota mul1n !add0r !big_iota.
have -> : \sum_(i < n) `|used (get (ofM M) j i)| *: map_mx Num.norm (A i) = \sum_(i < n) `|used (M j i)| *: map_mx Num.norm (A i).
  by apply: eq_bigr => i _; rewrite ofM_get.
by have -> : \sum_(i < n) used (get (ofM M) j i) *: A i = \sum_(i < n) used (M j i) *: A i by apply: eq_bigr => i _; rewrite ofM_get.
Qed.

Variable t : C.
Hypothesis smallP : forall c, small c -> `|c| <= t.

Lemma t_used c : `|used c - c| <= t * (small c)%:R /\ `|used c| <= `|c|.
Proof.
rewrite /used; case: ifP => h; last by rewrite subrr normr0 mulr0.
by rewrite sub0r normrN mulr1 normr0; split=> //; exact: smallP.
Qed.

(* replacing the coefficients in use by the given ones *)
Lemma cutoff (I : finType) k (c : I -> C) (p x : I -> C) z : (forall i, `|x i| <= p i) ->
  approx u k (\sum_i `|used (c i)| * p i) z (\sum_i used (c i) * x i) ->
  `|z - \sum_i c i * x i| <= err u k * (\sum_i `|c i| * p i) + t * \sum_(i | small (c i)) p i.
Proof.
move=> hp [h1 _]; have p0 i : 0 <= p i by exact: le_trans (normr_ge0 _) (hp i).
have -> : z - \sum_i c i * x i = (z - \sum_i used (c i) * x i) + (\sum_i used (c i) * x i - \sum_i c i * x i) by rewrite addrA subrK.
apply: le_trans (ler_norm_add _ _) _; apply: ler_add.
  apply: le_trans h1 _; rewrite ler_wpmul2l ?err_ge0 //; apply: ler_sum => i _.
  by rewrite ler_wpmul2r //; case: (t_used (c i)).
rewrite -sumrB mulr_sumr [X in _ <= X]big_mkcond; apply: le_trans (ler_norm_sum _ _ _) _; apply: ler_sum => i _.
rewrite -mulrBl normrM; have [h _] := t_used (c i); move: h; case: ifP => h hu.
  by rewrite mulr1 in hu; apply: ler_pmul.
by move: hu; rewrite mulr0 normr_le0 => /eqP ->; rewrite normr0 mul0r.
Qed.

(* C97: rotate_operators in rounded arithmetic: entry by entry, n + 1 roundings relative to the sum of the moduli, and the cutoff
   times the moduli of the operators it drops *)
Theorem C97_rotation N n (A : nat -> 'M[C]_N) (M : 'M[C]_n) (left : bool) :
  let c := if left then adjm M else M in
  exists2 B : nat -> 'M[C]_N,
    rotate_operators_f fmul fadd small (PArr (ofM M)) (PList (ops A n)) left = Ok (Rot (ops B n)) &
    forall (j : 'I_n) a b, `|B j a b - \sum_i c j i * A i a b| <=
      ((1 + u) ^+ n.+1 - 1) * (\sum_i `|c j i| * `|A i a b|) + t * \sum_(i | small (c j i)) `|A i a b|.
Proof.
move=> c; have [f h1 h2] := fin_all_exists2 (@rotation_entry N n A c).
exists (fun k => if insub k is Some j then f j else 0).
  rewrite /rotate_operators_f /rotate_core_f size_ops /= eqxx /=.
  have -> : (if left then aadj (ofM M) else ofM M) = ofM c by rewrite /c; case: (left); rewrite ?ofM_adj.
  rewrite /perform_rotation_f size_ops.
  rewrite (mapM_ok (g := fun k => ofM (if insub k is Some j then f j else 0))) //.
  by move=> k; rewrite mem_iota add0n => /= hk; rewrite (insubT (fun k => k < n)%N hk) /= -h1.
move=> j a b; rewrite valK.
apply: (@cutoff _ n.+1 (c j) (fun i => `|A i a b|) (fun i => A i a b)) => //.
have := h2 j a b; rewrite !summxE add1n.
have -> : \sum_i (`|used (c j i)| *: map_mx Num.norm (A i)) a b = \sum_i `|used (c j i)| * `|A i a b|.
  by apply: eq_bigr => i _; rewrite !mxE.
by have -> : \sum_i (used (c j i) *: A i) a b = \sum_i used (c j i) * A i a b by apply: eq_bigr => i _; rewrite !mxE.
Qed.

Variable m : nat -> nat.
(* a matrix product with m N roundings *)
Definition mm_err := forall N (X Y : 'M[C]_N), exists2 Z : 'M[C]_N, fmm (ofM X) (ofM Y) = ofM Z &
  mapprox (m N) (map_mx Num.norm X *m map_mx Num.norm Y) Z (X *m Y).
Hypothesis mmP : mm_err.

Lemma build_approx N n (A : nat -> 'M[C]_N) (R : 'M[C]_(2 * n)) (direct : bool) : (0 < n)%N ->
  let L i := if direct then A i else adjm (A i) in
  exists2 Z : 'M[C]_N, build_op_f fmul fadd fmm small n (ofM R) (ops A (2 * n)) direct = Ok (ofM Z) &
  mapprox ((m N).+1 + 2 * n * (2 * n)) (\sum_i \sum_j `|used (R i j)| *: (map_mx Num.norm (L i) *m map_mx Num.norm (A j))) Z
    (\sum_i \sum_j used (R i j) *: (L i *m A j)).
Proof.
move=> n0 L; have d0 : (0 < 2 * n)%N by rewrite muln_gt0.
rewrite /build_op_f item_ops //= ofM_zeros.
set body := (fun acc i => foldM _ acc _).
pose q i j := `|used (get (ofM R) i j)| *: (map_mx Num.norm (L i) *m map_mx Num.norm (A j)).
pose s i j := used (get (ofM R) i j) *: (L i *m A j).
have [i k P X T|||Z e h] := @fold_approx N (m N).+1 (2 * n) body (fun i => \sum_(j <- iota 0 (2 * n)) q i j)
   (fun i => \sum_(j <- iota 0 (2 * n)) s i j) (iota 0 (2 * n)) (m N).+1 0 0 0.
- rewrite mem_iota add0n => /= hi hk hX; rewrite /body.
  have [j k' P' X' T'|||Z e h] := @fold_approx N (m N).+1 1 (fun acc j =>
      let* r := idx (ofM R) i j in
      if small r then Ok acc else
      let* ai := item (ops A (2 * n)) i in
      let* aj := item (ops A (2 * n)) j in
      let* p := if direct then mm_f fmm ai aj else mm_f fmm (aadj ai) aj in
      iadd_f fadd acc (scale_f fmul r p)) (q i) (s i) (iota 0 (2 * n)) k P X T.
  + rewrite mem_iota add0n => /= hj hk' hX'; rewrite /idx hi hj /= /q /s /used.
    rewrite addn1; case: ifP => _; first by exists X' => //; rewrite normr0 !scale0r !addr0; exact: mapprox_le hX'.
    rewrite !item_ops //=.
    have -> : (if direct then mm_f fmm (ofM (A i)) (ofM (A j)) else mm_f fmm (aadj (ofM (A i))) (ofM (A j))) = Ok (fmm (ofM (L i)) (ofM (A j))).
      by rewrite /L /mm_f; case: (direct); rewrite ?ofM_adj /= eqxx.
    have [Y -> hY] := mmP (L i) (A j); have [Y' /= -> hY'] := scale_approx (get (ofM R) i j) hY.
    by apply: iadd_approx => //; exact: mapprox_le hY'.
  + by [].
  + by [].
  by exists Z => //; move: h; rewrite size_iota mul1n.
- by [].
- exact: zero_approx.
exists Z => //; move: h; rewrite size_iota !add0r !big_iota.
have -> : \sum_(i < 2 * n) \sum_(j <- iota 0 (2 * n)) q i j =
   \sum_i \sum_j `|used (R i j)| *: (map_mx Num.norm (L i) *m map_mx Num.norm (A j)).
  by apply: eq_bigr => i _; rewrite big_iota; apply: eq_bigr => j _; rewrite /q ofM_get.
have -> // : \sum_(i < 2 * n) \sum_(j <- iota 0 (2 * n)) s i j = \sum_i \sum_j used (R i j) *: (L i *m A j).
by apply: eq_bigr => i _; rewrite big_iota; apply: eq_bigr => j _; rewrite /s ofM_get.
Qed.

(* C97: build_op in rounded arithmetic, with a matrix product of m N roundings *)
Theorem C97_build_op N n (A : nat -> 'M[C]_N) (R : 'M[C]_(2 * n)) (direct : bool) : (0 < n)%N ->
  let L i := if direct then A i else adjm (A i) in
  let P i j a b := \sum_c `|L i a c| * `|A j c b| in
  exists2 H : 'M[C]_N, build_op_f fmul fadd fmm small n (ofM R) (ops A (2 * n)) direct = Ok (ofM H) &
  forall a b, `|H a b - \sum_i \sum_j R i j * (\sum_c L i a c * A j c b)| <=
    ((1 + u) ^+ (m N + 1 + (2 * n) ^ 2) - 1) * (\sum_i \sum_j `|R i j| * P i j a b)
    + t * \sum_i \sum_(j | small (R i j)) P i j a b.
Proof.
move=> n0 L P; have [H e h] := build_approx A R direct n0; exists H => // a b.
have := h a b; rewrite addn1 -mulnn !summxE !pair_big /= => h'.
rewrite (pair_big_dep xpredT (fun i j => small (R i j))) /=.
apply: (@cutoff _ _ (fun ij : 'I_(2 * n) * 'I_(2 * n) => R ij.1 ij.2) (fun ij => P ij.1 ij.2 a b)
   (fun ij => \sum_c L ij.1 a c * A ij.2 c b)) => [ij|].
  by apply: le_trans (ler_norm_sum _ _ _) _; apply: ler_sum => c _; rewrite normrM.
move: h'.
have -> : \sum_i (\sum_j `|used (R i j)| *: (map_mx Num.norm (L i) *m map_mx Num.norm (A j))) a b =
  \sum_ij `|used (R ij.1 ij.2)| * P ij.1 ij.2 a b.
  rewrite -(pair_big xpredT xpredT (fun i j => `|used (R i j)| * P i j a b)) /=; apply: eq_bigr => i _; rewrite summxE; apply: eq_bigr => j _.
  by rewrite !mxE; congr (_ * _); apply: eq_bigr => c _; rewrite !mxE.
have -> // : \sum_i (\sum_j used (R i j) *: (L i *m A j)) a b = \sum_ij used (R ij.1 ij.2) * (\sum_c L ij.1 a c * A ij.2 c b).
rewrite -(pair_big xpredT xpredT (fun i j => used (R i j) * (\sum_c L i a c * A j c b))) /=; apply: eq_bigr => i _; rewrite summxE; apply: eq_bigr => j _.
by rewrite !mxE.
Qed.
End Float.

(* C97: the product by loops from 0 has at most N + 1 roundings, so the assumption on the matrix product can be met *)
Theorem C97_loop_product (C : numClosedFieldType) (u : C) (fmul fadd : C -> C -> C) : 0 <= u ->
  rel_err u fmul *%R -> rel_err u fadd +%R -> mm_err u (mm_loop fmul fadd) S.
Proof.
move=> u0 mulP addP N X Y.
exists (\matrix_(a, b) foldl (fun acc k => fadd acc (fmul (get (ofM X) a k) (get (ofM Y) k b))) 0 (iota 0 N)).
  by rewrite /mm_loop /= ofM_mk.
move=> a b; rewrite !mxE.
have E (l : seq nat) k p z w : (0 < k)%N -> approx u k p z w ->
  approx u (k + size l) (p + \sum_(c <- l) `|get (ofM X) a c| * `|get (ofM Y) c b|)
    (foldl (fun acc k => fadd acc (fmul (get (ofM X) a k) (get (ofM Y) k b))) z l) (w + \sum_(c <- l) get (ofM X) a c * get (ofM Y) c b).
  elim: l k p z w => [|c l IH] k p z w k0 h /=; first by rewrite !big_nil !addr0 addn0.
  rewrite !big_cons !addrA addnS -addSn; apply: IH => //; apply: (approx_add u0 addP) => //.
  by apply: (approx_le u0 k0); apply: (approx_mul u0 mulP); exact: approx_exact.
have := E (iota 0 N) 1%N 0 0 0 isT (approx0 u 1); rewrite !add0r size_iota add1n !big_iota.
have -> : \sum_(c < N) `|get (ofM X) a c| * `|get (ofM Y) c b| = \sum_j map_mx Num.norm X a j * map_mx Num.norm Y j b.
  by apply: eq_bigr => c _; rewrite !mxE !ofM_get.
by have -> : \sum_(c < N) get (ofM X) a c * get (ofM Y) c b = \sum_j X a j * Y j b by apply: eq_bigr => c _; rewrite !ofM_get.
Qed.
