(* RExp.v -- the matrix exponential over R[i], as the limit of its power series; it meets the contract expm_spec *)
Set Warnings "-notation-overridden,-ambiguous-paths".
From Coq Require Import Reals Lra Epsilon.
From mathcomp Require Import all_ssreflect all_algebra.
From mathcomp Require Import complex.
From mathcomp.zify Require Import zify.
From Verif Require Import Base ArrC MLib JW OpFam Expm RealC Limits.
Set Implicit Arguments.
Unset Strict Implicit.
Unset Printing Implicit Defensive.
Import Order.Theory GRing.Theory Num.Theory.
Local Open Scope ring_scope.

Local Notation C := CR.

(* ------------------------------------------------------------------ *)
(* sequences of complex numbers                                         *)
Lemma pos_re (e : C) : 0 < e -> Rlt R0 (re e) /\ e = toC (re e).
Proof.
move=> e0; have er : e = toC (re e) by rewrite toC_re // gtr0_real.
by split=> //; apply/RltP; rewrite -toC_lt -er.
Qed.

Lemma cvg_toC (u : nat -> R) l : Un_cv u l -> cvg (fun n => toC (u n)) (toC l).
Proof.
move=> h e /pos_re[e0 ->]; have [N hN] := h _ e0; exists N => n /ssrnat.leP/hN.
by rewrite /R_dist -rmorphB toC_norm toC_lt => /RltP.
Qed.

Lemma cvg_S (u : nat -> C) l : cvg (fun n => u n.+1) l -> cvg u l.
Proof. by move=> h e /h[N hN]; exists N.+1 => -[//|n]; exact: hN. Qed.

Lemma re_normE (z : C) : re `|z| = Num.sqrt (re z ^+ 2 + im z ^+ 2).
Proof. by case: z => a b; rewrite normc_def. Qed.
Lemma norm_re (z : C) : `|re z| <= re `|z|.
Proof. by rewrite re_normE -sqrtr_sqr ler_wsqrtr // ler_addl sqr_ge0. Qed.
Lemma norm_im (z : C) : `|im z| <= re `|z|.
Proof. by rewrite re_normE -sqrtr_sqr ler_wsqrtr // ler_addr sqr_ge0. Qed.

Lemma reim (z : C) : z = toC (re z) + 'i * toC (im z).
Proof. by rewrite toC_Re toC_Im -Crect. Qed.

Lemma cauchy_cvg (u : nat -> C) :
  (forall e, 0 < e -> exists N, forall n m, (N <= n)%N -> (N <= m)%N -> `|u n - u m| < e) -> exists l, cvg u l.
Proof.
move=> h.
have key (f : {additive C -> R}) : (forall z, `|f z| <= re `|z|) -> exists l, cvg (fun n => toC (f (u n))) (toC l).
  move=> hf; suff /R_complete[l hl] : Cauchy_crit (fun n => f (u n)) by exists l; exact: cvg_toC.
  move=> e /RltP e0; have [|N hN] := h (toC e); first by rewrite -[0]/(toC 0) toC_lt.
  exists N => n m /ssrnat.leP hn /ssrnat.leP hm; apply/RltP.
  rewrite /R_dist -[Rabs _]/(`|f (u n) - f (u m)|) -raddfB; apply: le_lt_trans (hf _) _.
  by rewrite -toC_lt toC_re_norm; exact: hN.
have [a ha] := key [additive of re] norm_re; have [b hb] := key [additive of im] norm_im.
exists (toC a + 'i * toC b); apply: (cvg_ext (u := fun n => toC (re (u n)) + 'i * toC (im (u n)))) => [n|].
  by rewrite -reim.
by apply: cvgD ha _; exact: cvgZ.
Qed.

(* a sequence whose increments are dominated by those of a convergent one converges *)
Lemma dom_cvg (u v : nat -> C) l : (forall n m, (n <= m)%N -> `|u m - u n| <= v m - v n) -> cvg v l -> exists l', cvg u l'.
Proof.
move=> h cv; apply: cauchy_cvg => e e0; have [N hN] := cv _ (half_gt0 e0); exists N.
suff W n m : (N <= n)%N -> (n <= m)%N -> `|u m - u n| < e.
  by move=> n m hn hm; case: (leqP n m) => nm; [rewrite distrC|]; apply: W => //; exact: ltnW.
move=> hn nm; apply: le_lt_trans (h _ _ nm) _.
have r : v m - v n \is Num.real by apply: ger0_real; exact: le_trans (normr_ge0 _) (h _ _ nm).
apply: le_lt_trans (real_ler_norm r) _; rewrite -(half_add e).
apply: le_lt_trans (ler_dist_add l _ _) _.
by rewrite ltr_add ?[`|l - _|]distrC ?hN // (leq_trans hn).
Qed.

(* ------------------------------------------------------------------ *)
(* the series of the real exponential                                   *)
Lemma factE k : Factorial.fact k = k`!.
Proof. by elim: k => [//|k IH]; rewrite factS -IH /= mulSn. Qed.

Lemma cfE k : cf C k = toC (Rinv (INR (Factorial.fact k))).
Proof.
rewrite /cf factE -toC_nat -fmorphV /= natrINR; congr toC.
by rewrite -[(_^-1)]/(Rinvx _) /Rinvx ifT // -natrINR pnatr_eq0 -lt0n fact_gt0.
Qed.

Lemma spsum_toC x N : spsum (toC x) N.+1 = toC (sum_f_R0 (fun i => Rmult (Rinv (INR (Factorial.fact i))) (pow x i)) N).
Proof.
have t k : cf C k * toC x ^+ k = toC (Rmult (Rinv (INR (Factorial.fact k))) (pow x k)).
  by rewrite cfE -exprRE -rmorphX -rmorphM.
elim: N => [|N IH]; first by rewrite spsumE big_ord1 t.
by rewrite spsumE big_ord_recr /= -spsumE IH t -rmorphD.
Qed.

Lemma spsum_cvg x : cvg (spsum (toC x)) (toC (exp x)).
Proof.
apply: cvg_S; apply: (cvg_ext (fun n => esym (spsum_toC x n))); apply: cvg_toC.
exact: (proj2_sig (exist_exp x)).
Qed.

(* ------------------------------------------------------------------ *)
(* the matrix exponential                                               *)
Definition lim (u : nat -> C) : C := epsilon (inhabits 0) (fun l => cvg u l).
Lemma limP u : (exists l, cvg u l) -> cvg u (lim u).
Proof. exact: epsilon_spec. Qed.

Section Square.
Variable n : nat.
Implicit Types A B : 'M[C]_n.+1.
Definition expS A : 'M[C]_n.+1 := \matrix_(i, j) lim (fun N => psum A N i j).


Lemma psum_cvg A i j : exists l, cvg (fun N => psum A N i j) l.
Proof.
have [a a0 hA] := rb_ex A; have [ar ea] : exists x, a = toC x by exists (re a); rewrite toC_re ?ger0_real.
have := spsum_cvg ar; rewrite -ea; apply: dom_cvg => N M NM.
have := rb_entry i j (rb_inc a0 hA NM); by rewrite !mxE.
Qed.

Lemma expS_cvg A : mcvg (psum A) (expS A).
Proof. by move=> i j; rewrite mxE; apply: limP; exact: psum_cvg. Qed.

Lemma expS_unique A L : mcvg (psum A) L -> expS A = L.
Proof. exact: mcvg_uniq (expS_cvg A). Qed.

Lemma expS_adj A : expS (adjm A) = adjm (expS A).
Proof.
apply: expS_unique; apply: mcvg_ext (mcvg_adj (expS_cvg A)) => N; exact: psum_adj.
Qed.

Lemma expS0 : expS 0 = 1%:M.
Proof.
apply: expS_unique => i j; apply: cvg_S; apply: cvg_ext (cvg_const _) => N.
rewrite /psum big_ord_recl big1 => [|k _]; last by rewrite expr0n /= scaler0.
by rewrite addr0 expr0 /cf invr1 scale1r.
Qed.

Lemma expSD A B : A *m B = B *m A -> expS (A + B) = expS A *m expS B.
Proof.
move=> AB; have [a a0 hA] := rb_ex A; have [b b0 hB] := rb_ex B.
have [ar ea] : exists x, a = toC x by exists (re a); rewrite toC_re ?ger0_real.
have [br eb] : exists x, b = toC x by exists (re b); rewrite toC_re ?ger0_real.
have cm := mcvg_mul (expS_cvg A) (expS_cvg B); apply: expS_unique => i j.
have d0 : cvg (fun N => spsum a N * spsum b N - spsum (a + b) N) 0.
  have h1 := spsum_cvg ar; have h2 := spsum_cvg br; have h3 := spsum_cvg (ar + br).
  have := cvgD (cvgM h1 h2) (cvgN h3); rewrite -rmorphM -[ar + br]/(Rplus ar br) exp_plus subrr.
  by rewrite ea eb -rmorphD.
have h := cvg_dom (fun N => rb_entry i j (rb_diff N a0 b0 hA hB AB)) d0.
have := cvgD (cm i j) (cvgN h); rewrite oppr0 addr0; apply: cvg_ext => N.
by rewrite !mxE opprB addrCA subrr addr0.
Qed.
End Square.

Lemma expS_inter m n (A : 'M[C]_m.+1) (B : 'M[C]_n.+1) (X : 'M[C]_(m.+1, n.+1)) :
  A *m X = X *m B -> expS A *m X = X *m expS B.
Proof.
move=> h; have c1 := mcvg_mul (expS_cvg A) (mcvg_const X); have c2 := mcvg_mul (mcvg_const X) (expS_cvg B).
by apply: mcvg_uniq c1 _; apply: mcvg_ext c2 => N; rewrite (psum_inter _ h).
Qed.

(* the exponential of a square matrix of any size *)
Definition expmR n : 'M[C]_n -> 'M[C]_n := match n with 0 => fun A => A | n'.+1 => @expS n' end.

Theorem expmR_spec : expm_spec expmR.
Proof.
split=> [[|n]|[|n] A B AB|[|n] A|[|m] [|n] A B X h] /=.
- by apply/matrixP => -[].
- exact: expS0.
- by apply/matrixP => -[].
- exact: expSD.
- by apply/matrixP => -[].
- exact: expS_adj.
- by apply/matrixP => -[].
- by apply/matrixP => -[].
- by apply/matrixP => ? -[].
- exact: expS_inter.
Qed.
