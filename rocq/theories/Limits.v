(* Limits.v -- limits of sequences and of matrices over a numeric field; row-sum bounds; partial sums of the
   exponential series and their Cauchy product *)
Set Warnings "-notation-overridden,-ambiguous-paths".
From mathcomp Require Import all_ssreflect all_algebra.
From mathcomp.zify Require Import zify.
Set Implicit Arguments.
Unset Strict Implicit.
Unset Printing Implicit Defensive.
Import Order.Theory GRing.Theory Num.Theory.
Local Open Scope ring_scope.

Section Lim.
Variable C : numClosedFieldType.
Implicit Types (u v : nat -> C) (l e : C).

Definition cvg u l := forall e, 0 < e -> exists N, forall n, (N <= n)%N -> `|u n - l| < e.

Lemma half_gt0 e : 0 < e -> 0 < e / 2%:R.
Proof. by move=> h; rewrite divr_gt0 ?ltr0n. Qed.
Lemma half_add e : e / 2%:R + e / 2%:R = e.
Proof. by rewrite -mulrDl -mulr2n -[e *+ 2]mulr_natr mulfK ?pnatr_eq0. Qed.

Lemma cvg_ext u v l : (forall n, u n = v n) -> cvg u l -> cvg v l.
Proof. by move=> h cu e /cu[N hN]; exists N => n /hN; rewrite h. Qed.
Lemma cvg_const l : cvg (fun _ => l) l.
Proof. by move=> e h; exists 0%N => n _; rewrite subrr normr0. Qed.
Lemma cvgD u v l l' : cvg u l -> cvg v l' -> cvg (fun n => u n + v n) (l + l').
Proof.
move=> cu cv e /half_gt0 h; have [N hN] := cu _ h; have [M hM] := cv _ h; exists (maxn N M) => n.
rewrite geq_max => /andP[/hN h1 /hM h2]; rewrite opprD addrACA -(half_add e).
exact: le_lt_trans (ler_norm_add _ _) (ltr_add h1 h2).
Qed.
Lemma cvgN u l : cvg u l -> cvg (fun n => - u n) (- l).
Proof. by move=> cu e /cu[N hN]; exists N => n /hN; rewrite -opprD normrN. Qed.
Lemma cvg_dom u v : (forall n, `|u n| <= v n) -> cvg v 0 -> cvg u 0.
Proof.
move=> h cv e /cv[N hN]; exists N => n /hN; rewrite !subr0; apply: le_lt_trans.
by apply: le_trans (h n) _; apply: real_ler_norm; apply: ger0_real; exact: le_trans (normr_ge0 _) (h n).
Qed.
Lemma cvg0_sub u l : cvg (fun n => u n - l) 0 <-> cvg u l.
Proof. by split=> h e /h[N hN]; exists N => n /hN; rewrite subr0. Qed.
Lemma cvg_norm u l : cvg u l -> cvg (fun n => `|u n|) `|l|.
Proof.
move=> cu e /cu[N hN]; exists N => n /hN; apply: le_lt_trans.
exact: ler_dist_dist.
Qed.
Lemma cvg_bound u l : cvg u l -> exists2 B, 0 < B & exists N, forall n, (N <= n)%N -> `|u n| <= B.
Proof.
move=> cu; exists (`|l| + 1); first by rewrite ltr_paddl ?ltr01.
have [N hN] := cu 1 ltr01; exists N => n /hN h; rewrite -[u n](subrK l) addrC.
by apply: le_trans (ler_norm_add _ _) _; rewrite ler_add2l ltW.
Qed.
Lemma cvgM u v l l' : cvg u l -> cvg v l' -> cvg (fun n => u n * v n) (l * l').
Proof.
move=> cu cv e e0; have [B B0 [N0 hB]] := cvg_bound cv.
have L0 : 0 < `|l| + 1 by rewrite ltr_paddl ?ltr01.
have [N1 h1] := cu _ (divr_gt0 (half_gt0 e0) B0); have [N2 h2] := cv _ (divr_gt0 (half_gt0 e0) L0).
exists (maxn N0 (maxn N1 N2)) => n; rewrite !geq_max => /and3P[/hB b /h1 {}h1 /h2 {}h2].
have -> : u n * v n - l * l' = (u n - l) * v n + l * (v n - l') by rewrite mulrBl mulrBr addrA subrK.
rewrite -(half_add e); apply: le_lt_trans (ler_norm_add _ _) _; rewrite !normrM; apply: ltr_le_add.
  apply: le_lt_trans (_ : _ <= `|u n - l| * B) _; first by rewrite ler_wpmul2l.
  by rewrite -ltr_pdivl_mulr.
apply: le_trans (_ : (`|l| + 1) * `|v n - l'| <= _); first by rewrite ler_wpmul2r // ler_addl ler01.
by rewrite mulrC -ler_pdivl_mulr // ltW.
Qed.
Lemma cvgZ c u l : cvg u l -> cvg (fun n => c * u n) (c * l).
Proof. exact/cvgM/cvg_const. Qed.
Lemma cvg_sum (I : Type) (r : seq I) (P : pred I) (f : I -> nat -> C) (g : I -> C) :
  (forall i, P i -> cvg (f i) (g i)) -> cvg (fun n => \sum_(i <- r | P i) f i n) (\sum_(i <- r | P i) g i).
Proof.
move=> h; elim: r => [|i r IH].
  by rewrite big_nil; apply: (cvg_ext (u := fun _ => 0)) (cvg_const 0) => n; rewrite big_nil.
rewrite big_cons; case: ifP => Pi.
  apply: (cvg_ext (u := fun n => f i n + \sum_(j <- r | P j) f j n)) => [n|]; first by rewrite big_cons Pi.
  by apply: cvgD => //; exact: h.
by apply: (cvg_ext _ IH) => n; rewrite big_cons Pi.
Qed.
Lemma cvg_conj u l : cvg u l -> cvg (fun n => (u n)^*) l^*.
Proof. by move=> cu e /cu[N hN]; exists N => n /hN; rewrite -rmorphB norm_conjC. Qed.
Lemma cvg_uniq u l l' : cvg u l -> cvg u l' -> l = l'.
Proof.
move=> h1 h2; apply/eqP; rewrite -subr_eq0 -normr_eq0; apply/negPn/negP => nz.
have p : 0 < `|l - l'| by rewrite lt_def nz normr_ge0.
have [N hN] := h1 _ (half_gt0 p); have [M hM] := h2 _ (half_gt0 p).
have {}hN := hN _ (leq_maxl N M); have {}hM := hM _ (leq_maxr N M).
have := le_lt_trans (ler_dist_add (u (maxn N M)) l l') (ltr_add _ hM).
rewrite distrC in hN => /(_ _ hN); rewrite half_add ltxx //.
Qed.
Lemma cvg_shift u l (f : nat -> nat) : (forall n, (n <= f n)%N) -> cvg u l -> cvg (fun n => u (f n)) l.
Proof. by move=> hf cu e /cu[N hN]; exists N => n h; apply: hN; exact: leq_trans h (hf n). Qed.

(* matrices, entrywise *)
Definition mcvg m n (U : nat -> 'M[C]_(m, n)) (L : 'M[C]_(m, n)) := forall i j, cvg (fun k => U k i j) (L i j).
Lemma mcvg_uniq m n (U : nat -> 'M[C]_(m, n)) L L' : mcvg U L -> mcvg U L' -> L = L'.
Proof. by move=> h1 h2; apply/matrixP => i j; apply: cvg_uniq (h1 i j) (h2 i j). Qed.
Lemma mcvg_ext m n (U V : nat -> 'M[C]_(m, n)) L : (forall k, U k = V k) -> mcvg U L -> mcvg V L.
Proof. by move=> h c i j; apply: cvg_ext (c i j) => k; rewrite h. Qed.
Lemma mcvg_const m n (L : 'M[C]_(m, n)) : mcvg (fun _ => L) L.
Proof. by move=> i j; exact: cvg_const. Qed.
Lemma mcvg_mul m n p (U : nat -> 'M[C]_(m, n)) (V : nat -> 'M[C]_(n, p)) L L' :
  mcvg U L -> mcvg V L' -> mcvg (fun k => U k *m V k) (L *m L').
Proof.
move=> cu cv i j; rewrite mxE; apply: (cvg_ext (u := fun k => \sum_l U k i l * V k l j)) => [k|]; first by rewrite mxE.
by apply: cvg_sum => l _; exact: cvgM.
Qed.
Lemma mcvg_sub m n (U V : nat -> 'M[C]_(m, n)) L L' : mcvg U L -> mcvg V L' -> mcvg (fun k => U k - V k) (L - L').
Proof.
move=> cu cv i j; rewrite !mxE; apply: (cvg_ext (u := fun k => U k i j + - V k i j)) => [k|]; first by rewrite !mxE.
by apply: cvgD => //; exact: cvgN.
Qed.
Lemma mcvg_adj m n (U : nat -> 'M[C]_(m, n)) L : mcvg U L ->
  mcvg (fun k => (map_mx conjC (U k))^T) (map_mx conjC L)^T.
Proof.
move=> cu i j; rewrite !mxE; apply: (cvg_ext (u := fun k => (U k j i)^*)) => [k|]; first by rewrite !mxE.
exact: cvg_conj.
Qed.

(* all row sums of absolute values are at most x *)
Definition rb m n (X : 'M[C]_(m, n)) (x : C) := forall i, \sum_j `|X i j| <= x.
Lemma rb1 n : rb (1%:M : 'M[C]_n) 1.
Proof.
move=> i; rewrite (bigD1 i) //= big1 => [|j ji]; first by rewrite mxE eqxx normr1 addr0.
by rewrite mxE eq_sym (negbTE ji) normr0.
Qed.
Lemma rbM m n p (X : 'M[C]_(m, n)) (Y : 'M[C]_(n, p)) x y : 0 <= y -> rb X x -> rb Y y -> rb (X *m Y) (x * y).
Proof.
move=> y0 hX hY i; apply: le_trans (_ : \sum_j \sum_k `|X i k| * `|Y k j| <= _).
  apply: ler_sum => j _; rewrite mxE; apply: le_trans (ler_norm_sum _ _ _) _.
  by apply: ler_sum => k _; rewrite normrM.
rewrite exchange_big /=; apply: le_trans (_ : \sum_k `|X i k| * y <= _).
  by apply: ler_sum => k _; rewrite -mulr_sumr ler_wpmul2l.
by rewrite -mulr_suml ler_wpmul2r.
Qed.
Lemma rbZ m n c (X : 'M[C]_(m, n)) x : rb X x -> rb (c *: X) (`|c| * x).
Proof.
move=> h i; rewrite (eq_bigr (fun j => `|c| * `|X i j|)) => [|j _]; last by rewrite mxE normrM.
by rewrite -mulr_sumr ler_wpmul2l.
Qed.
Lemma rb_sum m n (I : Type) (r : seq I) (P : pred I) (X : I -> 'M[C]_(m, n)) (x : I -> C) :
  (forall i, P i -> rb (X i) (x i)) -> rb (\sum_(i <- r | P i) X i) (\sum_(i <- r | P i) x i).
Proof.
move=> h; apply: (big_ind2 (fun X x => rb X x)) => //.
  by move=> i; rewrite big1 // => j _; rewrite mxE normr0.
move=> X1 x1 X2 x2 h1 h2 i; apply: le_trans (ler_add (h1 i) (h2 i)); rewrite -big_split.
by apply: ler_sum => j _; rewrite mxE ler_norm_add.
Qed.
Lemma rb_entry m n (X : 'M[C]_(m, n)) x i j : rb X x -> `|X i j| <= x.
Proof. by move=> h; apply: le_trans (h i); rewrite (bigD1 j) //= ler_addl sumr_ge0. Qed.
Lemma rb_ex m n (X : 'M[C]_(m, n)) : exists2 x, 0 <= x & rb X x.
Proof.
exists (\sum_i \sum_j `|X i j|); first by do 2!apply: sumr_ge0 => ? _.
by move=> i; rewrite [X in _ <= X](bigD1 i) //= ler_addl; do 2!apply: sumr_ge0 => ? _.
Qed.
Lemma rbX n (A : 'M[C]_n.+1) a k : 0 <= a -> rb A a -> rb (A ^+ k) (a ^+ k).
Proof.
move=> a0 h; elim: k => [|k IH]; first exact: rb1.
by rewrite !exprS; apply: rbM => //; rewrite exprn_ge0.
Qed.

(* ------------------------------------------------------------------ *)
(* partial sums of the exponential series                               *)
Definition cf (k : nat) : C := (k`!%:R)^-1.
Lemma cf_ge0 k : 0 <= cf k. Proof. by rewrite invr_ge0 ler0n. Qed.

Section Series.
Variable L : algType C.
Implicit Types x y : L.
Definition psum x N : L := \sum_(k < N) cf k *: x ^+ k.

Lemma triangle (V : zmodType) (F : nat -> nat -> V) N :
  \sum_(m < N) \sum_(k < m.+1) F k (m - k)%N = \sum_(k < N) \sum_(l < N - k) F k l.
Proof.
elim: N => [|N IH]; first by rewrite !big_ord0.
rewrite big_ord_recr /= IH [RHS](eq_bigr (fun k : 'I_N.+1 => \sum_(l < N - k) F k l + F k (N - k)%N)) => [|k _].
  by rewrite big_split /=; congr (_ + _); rewrite big_ord_recr /= subnn big_ord0 addr0.
by rewrite subSn ?big_ord_recr //= -ltnS.
Qed.

Lemma psumD x y N : x * y = y * x ->
  psum (x + y) N = \sum_(k < N) \sum_(l < N - k) (cf k * cf l) *: (x ^+ k * y ^+ l).
Proof.
move=> xy; rewrite -(triangle (fun k l : nat => (cf k * cf l) *: (x ^+ k * y ^+ l))); apply: eq_bigr => m _.
have cm : GRing.comm x y by [].
rewrite addrC exprDn_comm; last exact/commr_sym.
rewrite scaler_sumr; apply: eq_bigr => k _; rewrite -scaler_nat scalerA.
have -> : y ^+ (m - k) * x ^+ k = x ^+ k * y ^+ (m - k).
  by apply/commrX/commr_sym/commrX.
congr (_ *: _); have km : (k <= m)%N by rewrite -ltnS.
rewrite /cf -(bin_fact km) !natrM !invfM mulrAC mulVf ?mul1r //.
by rewrite pnatr_eq0 -lt0n bin_gt0.
Qed.

Lemma psumM x y N : psum x N * psum y N = \sum_(k < N) \sum_(l < N) (cf k * cf l) *: (x ^+ k * y ^+ l).
Proof.
rewrite mulr_suml; apply: eq_bigr => k _; rewrite mulr_sumr; apply: eq_bigr => l _.
by rewrite -scalerAl -scalerAr scalerA.
Qed.

Lemma psum_diff x y N : x * y = y * x ->
  psum x N * psum y N - psum (x + y) N =
  \sum_(k < N) \sum_(N - k <= l < N) (cf k * cf l) *: (x ^+ k * y ^+ l).
Proof.
move=> xy; rewrite psumM psumD // -sumrB; apply: eq_bigr => k _.
rewrite -(big_mkord xpredT (fun l : nat => (cf k * cf l) *: (x ^+ k * y ^+ l))).
rewrite -(big_mkord xpredT (fun l : nat => (cf k * cf l) *: (x ^+ k * y ^+ l))).
by rewrite (big_cat_nat _ (n := (N - k)%N)) ?leq_subr //= addrC addKr.
Qed.

(* the terms added between N and M *)
Lemma psum_inc x N M : (N <= M)%N -> psum x M - psum x N = \sum_(N <= k < M) cf k *: x ^+ k.
Proof.
move=> NM; rewrite /psum -(big_mkord xpredT (fun k => cf k *: x ^+ k)) -(big_mkord xpredT (fun k => cf k *: x ^+ k)).
by rewrite (big_cat_nat _ (n := N)) //= addrC addKr.
Qed.
End Series.

(* scalars *)
Definition spsum (x : C) N : C := psum (x : C^o) N.
Lemma spsumE x N : spsum x N = \sum_(k < N) cf k * x ^+ k.
Proof. by []. Qed.
Lemma spsum_inc (x : C) N M : (N <= M)%N -> spsum x M - spsum x N = \sum_(N <= k < M) cf k * x ^+ k.
Proof. by move=> h; exact: (psum_inc (x : C^o) h). Qed.
Lemma spsum_diff (x y : C) N : spsum x N * spsum y N - spsum (x + y) N =
  \sum_(k < N) \sum_(N - k <= l < N) cf k * cf l * (x ^+ k * y ^+ l).
Proof.
have h := @psum_diff [algType C of C^o] (x : C^o) (y : C^o) N (mulrC x y).
by rewrite /spsum [LHS]h; apply: eq_bigr => k _; apply: eq_bigr.
Qed.

Section MSeries.
Variable n : nat.
Implicit Types A B : 'M[C]_n.+1.

Lemma rb_inc A a N M : 0 <= a -> rb A a -> (N <= M)%N -> rb (psum A M - psum A N) (spsum a M - spsum a N).
Proof.
move=> a0 hA NM; rewrite psum_inc // spsum_inc //; apply: rb_sum => k _.
by have := rbZ (cf k) (rbX k a0 hA); rewrite ger0_norm ?cf_ge0.
Qed.

Lemma rb_diff A B a b N : 0 <= a -> 0 <= b -> rb A a -> rb B b -> A *m B = B *m A ->
  rb (psum A N *m psum B N - psum (A + B) N) (spsum a N * spsum b N - spsum (a + b) N).
Proof.
move=> a0 b0 hA hB AB; rewrite -[_ *m _]/(psum A N * psum B N) psum_diff //.
rewrite spsum_diff.
apply: rb_sum => k _; apply: rb_sum => l _.
have := rbZ (cf k * cf l) (rbM (exprn_ge0 l b0) (rbX k a0 hA) (rbX l b0 hB)).
by rewrite ger0_norm ?mulr_ge0 ?cf_ge0.
Qed.

Lemma psum_adj A N : (map_mx conjC (psum A N))^T = psum (map_mx conjC A)^T N.
Proof.
rewrite /psum; elim: N => [|N IH]; first by rewrite !big_ord0 map_mx0 trmx0.
rewrite !big_ord_recr /= map_mxD raddfD /= IH map_mxZ linearZ /=; congr (_ + _ *: _).
  by rewrite /cf fmorphV rmorph_nat.
elim: (N) => [|k IHk]; first by rewrite !expr0 map_mx1 trmx1.
by rewrite exprS exprSr -!mulmxE map_mxM trmx_mul IHk.
Qed.

Lemma psum_inter m A (B : 'M[C]_m.+1) (X : 'M[C]_(n.+1, m.+1)) N : A *m X = X *m B -> psum A N *m X = X *m psum B N.
Proof.
move=> h; rewrite /psum mulmx_suml mulmx_sumr; apply: eq_bigr => k _; rewrite -scalemxAl -scalemxAr; congr (_ *: _).
elim: (nat_of_ord k) => [|j IH]; first by rewrite !expr0 mul1mx mulmx1.
by rewrite !exprS -!mulmxE -mulmxA IH !mulmxA h.
Qed.
End MSeries.

End Lim.
