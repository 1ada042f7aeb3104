(* Wick.v -- Wick's theorem for expectations of products of operators with scalar anticommutators *)
Set Warnings "-notation-overridden,-ambiguous-paths".
From mathcomp Require Import all_ssreflect all_fingroup all_algebra.
From mathcomp.zify Require Import zify.
From Verif Require Import Base ArrC MCombinatorics Matching Pfaffian PfExpand MLib JW OpFam FermAlg LibFacts LibFacts2 LibFacts3
  Expm PropLib1 PropLib2 PropLib3 PropLib4 MRandom RndFacts PropThermal.
Set Implicit Arguments.
Unset Strict Implicit.
Unset Printing Implicit Defensive.
Import Order.Theory GRing.Theory Num.Theory.
Local Open Scope ring_scope.

Section Wick.
Variable C : numClosedFieldType.

(* x_0 x_1 ... x_(m-1) *)
Definition oprod N m (x : nat -> 'M[C]_N) : 'M[C]_N := \big[mulmx/1%:M]_(a < m) x a.

(* the antisymmetric matrix with entries <x_a x_b> for a < b *)
Definition contractions N (rho : 'M[C]_N) m (x : nat -> 'M[C]_N) : 'M[C]_m :=
  \matrix_(a, b) (if (a < b)%N then \tr (rho *m x a *m x b)
                  else if (b < a)%N then - \tr (rho *m x b *m x a) else 0).

(* linear combinations of the first m operators of a family *)
Definition spanned N (A : nat -> 'M[C]_N) m (y : 'M[C]_N) := exists c : 'I_m -> C, y = \sum_j c j *: A j.

Lemma contr_skew N (rho : 'M[C]_N) m x : (contractions rho m x)^T = - contractions rho m x.
Proof. by apply/matrixP => a b; rewrite !mxE; case: ltngtP => _; rewrite ?opprK ?oppr0. Qed.

Lemma oprodS N m (x : nat -> 'M[C]_N) : oprod m.+1 x = x 0%N *m oprod m (fun a => x a.+1).
Proof. by rewrite /oprod big_ord_recl. Qed.
Lemma oprod_ext N m (x x' : nat -> 'M[C]_N) : x =1 x' -> oprod m x = oprod m x'.
Proof. by move=> e; apply: eq_bigr => a _; rewrite e. Qed.

(* moving an operator through a product *)
Lemma through N (Y : 'M[C]_N) m x s : (forall a, Y *m x a + x a *m Y = (s a)%:M) ->
  Y *m oprod m x = \sum_(l < m) ((-1) ^+ l * s l) *: oprod m.-1 (fun a => x (bump l a)) +
    (-1) ^+ m *: (oprod m x *m Y).
Proof.
elim: m x s => [|m IH] x s h.
  by rewrite /oprod !big_ord0 expr0 scale1r mulmx1 mul1mx add0r.
rewrite oprodS mulmxA; have := h 0%N => /(canRL (addrK _)) ->.
rewrite mulmxBl mul_scalar_mx -mulmxA (IH _ (fun a => s a.+1)); last by move=> a; exact: h.
rewrite big_ord_recl /= expr0 mul1r -addrA; congr (_ + _).
rewrite mulmxDr opprD mulmx_sumr -sumrN exprS mulN1r scaleNr -scalemxAr mulmxA; congr (_ + _).
apply: eq_bigr => l _; rewrite -scalemxAr -scaleNr; congr (_ *: _).
  by rewrite /= /bump /= exprS mulN1r mulNr.
case: m l {IH} => [[]|m l] //.
by rewrite oprodS; congr (_ *m _); apply: oprod_ext => a; congr x; rewrite /= /bump /=; lia.
Qed.

Section State.
Variables (N : nat) (rho : 'M[C]_N).
Hypothesis t1 : \tr rho = 1.
Local Notation ev X := (\tr (rho *m X)).

(* the expansion along the first operator *)
Definition expands m (x : nat -> 'M[C]_N) (Y : 'M[C]_N) :=
  ev (Y *m oprod m.*2.+1 x) = \sum_(l < m.*2.+1) (-1) ^+ l * ev (Y *m x l) * ev (oprod m.*2 (fun a => x (bump l a))).

Lemma expands_sum m x (I : finType) (c : I -> C) (Y : I -> 'M[C]_N) :
  (forall i, expands m x (Y i)) -> expands m x (\sum_i c i *: Y i).
Proof.
move=> h; rewrite /expands mulmx_suml mulmx_sumr raddf_sum /=.
transitivity (\sum_i \sum_(l < m.*2.+1) c i * ((-1) ^+ l * ev (Y i *m x l) * ev (oprod m.*2 (fun a => x (bump l a))))).
  by apply: eq_bigr => i _; rewrite -scalemxAl -scalemxAr mxtraceZ h big_distrr.
have key (p q : C) (f : I -> C) : \sum_i c i * (p * f i * q) = p * (\sum_i c i * f i) * q.
  by rewrite mulr_sumr mulr_suml; apply: eq_bigr => i _; rewrite !mulrA [c i * _]mulrC.
rewrite exchange_big /=; apply: eq_bigr => l _; rewrite key; congr (_ * _ * _).
rewrite mulmx_suml mulmx_sumr [RHS]raddf_sum /=; apply: eq_bigr => i _.
by rewrite -scalemxAl -scalemxAr mxtraceZ.
Qed.

Lemma wick_of_step (Q : 'M[C]_N -> Prop) : (forall m x Y, (forall a, Q (x a)) -> Q Y -> expands m x Y) ->
  forall m x, (forall a, Q (x a)) -> ev (oprod m.*2 x) = pfaffian (contractions rho m.*2 x).
Proof.
move=> st; elim=> [|m IH] x hx.
  rewrite /oprod big_ord0 mulmx1 t1.
  have := @psumE _ 0 _ (contr_skew rho 0 x); rewrite mulr1n => <-.
  have eS (y : 'S_(0.*2)) : y = 1%g by apply/perm.permP => -[].
  rewrite /psum (bigD1 1%g) //= [X in _ + X]big1 => [|y /negP[]]; last by apply/eqP; exact: eS.
  by rewrite big_ord0 odd_perm1 mulr1 addr0.
rewrite pfaffian_expand; last exact: contr_skew.
rewrite -[oprod m.+1.*2 x]/(oprod m.*2.+2 x) oprodS st //; apply: eq_bigr => l _; congr (_ * _).
  by rewrite mxE /= mulmxA.
rewrite IH; last by move=> a; exact: hx.
congr pfaffian; apply/matrixP => a b; rewrite !mxE /= /bump /=.
have -> : (1 + ((l <= a) + a) < 1 + ((l <= b) + b))%N = (a < b)%N by lia.
have -> : (1 + ((l <= b) + b) < 1 + ((l <= a) + a))%N = (b < a)%N by lia.
by rewrite !add1n.
Qed.

(* families with scalar anticommutators *)
Variables (A : nat -> 'M[C]_N) (K : nat) (s : 'I_K -> 'I_K -> C).
Hypothesis scA : forall i j : 'I_K, A i *m A j + A j *m A i = (s i j)%:M.
Local Notation Q := (spanned A K).

Lemma spanned_anti y : Q y -> exists sy : 'I_K -> C, forall i : 'I_K, A i *m y + y *m A i = (sy i)%:M.
Proof.
move=> [c ->]; exists (fun i => \sum_j c j * s i j) => i; rewrite mulmx_sumr mulmx_suml -big_split raddf_sum /=.
by apply: eq_bigr => j _; rewrite -scalemxAl -scalemxAr -scalerDr scA scale_scalar_mx.
Qed.

Lemma spanned_comb (c : 'I_K -> C) y : Q y -> exists t, (\sum_j c j *: A j) *m y + y *m (\sum_j c j *: A j) = t%:M.
Proof.
move=> /spanned_anti[sy h]; exists (\sum_j c j * sy j); rewrite mulmx_suml mulmx_sumr -big_split raddf_sum /=.
by apply: eq_bigr => j _; rewrite -scalemxAl -scalemxAr -scalerDr h scale_scalar_mx.
Qed.

(* states of definite occupation: a basis of the span annihilates the state from one side *)
Section Definite.
Variable Z : 'M[C]_K.
Hypothesis uZ : Z \in unitmx.
Local Notation dk k := (\sum_j Z k j *: A j).
Hypothesis df : forall k, dk k *m rho = 0 \/ rho *m dk k = 0.

Lemma comb_basis (c : 'I_K -> C) : \sum_j c j *: A j = \sum_k (\sum_j c j * invmx Z j k) *: dk k.
Proof.
transitivity (\sum_j c j *: \sum_i (invmx Z *m Z) j i *: A i).
  apply: eq_bigr => j _; rewrite mulVmx // (bigD1 j) //= big1 => [|i ij]; last by rewrite mxE eq_sym (negbTE ij) scale0r.
  by rewrite mxE eqxx scale1r addr0.
transitivity (\sum_j \sum_k \sum_i (c j * (invmx Z j k * Z k i)) *: A i).
  apply: eq_bigr => j _; rewrite scaler_sumr exchange_big /=; apply: eq_bigr => i _.
  by rewrite mxE scalerA mulr_sumr scaler_suml.
rewrite exchange_big /=; apply: eq_bigr => k _; rewrite scaler_suml; apply: eq_bigr => j _.
by rewrite scaler_sumr; apply: eq_bigr => i _; rewrite scalerA mulrA.
Qed.

Lemma anti_ev k y : Q y -> dk k *m rho = 0 -> dk k *m y + y *m dk k = (ev (dk k *m y))%:M.
Proof.
move=> hy e; have [t et] := spanned_comb (Z k) hy; rewrite et; congr (_%:M).
have := congr1 (fun M => ev M) et; rewrite mulmxDr raddfD /= [X in _ + X](_ : _ = 0).
  by rewrite addr0 mul_mx_scalar mxtraceZ t1 mulr1 => <-.
by rewrite mulmxA mxtrace_mulC mulmxA e mul0mx mxtrace0.
Qed.

Lemma wick_definite m x : (forall a, Q (x a)) -> ev (oprod m.*2 x) = pfaffian (contractions rho m.*2 x).
Proof.
move: m x; apply: wick_of_step => m x Y hx [c ->].
rewrite comb_basis; apply: expands_sum => k; case: (df k) => e; last first.
  have z X : ev (dk k *m X) = 0 by rewrite mulmxA e mul0mx mxtrace0.
  by rewrite /expands z big1 // => l _; rewrite z mulr0 mul0r.
have z X : ev (X *m dk k) = 0 by rewrite mulmxA mxtrace_mulC mulmxA e mul0mx mxtrace0.
rewrite /expands (through _ (fun a => anti_ev (hx a) e)) mulmxDr raddfD /= -scalemxAr mxtraceZ z mulr0 addr0.
by rewrite mulmx_sumr raddf_sum /=; apply: eq_bigr => l _; rewrite -scalemxAr mxtraceZ.
Qed.

Lemma odd_definite m x : (forall a, Q (x a)) -> ev (oprod m.*2.+1 x) = 0.
Proof.
elim: m x => [|m IH] x hx; have [c ec] := hx 0%N; rewrite oprodS ec comb_basis mulmx_suml mulmx_sumr raddf_sum /=;
  rewrite big1 // => k _; rewrite -scalemxAl -scalemxAr mxtraceZ; apply/eqP; rewrite mulf_eq0; apply/orP; right; apply/eqP.
  rewrite /oprod big_ord0 mulmx1; case: (df k) => e; last by rewrite e mxtrace0.
  by rewrite mxtrace_mulC e mxtrace0.
case: (df k) => e; last by rewrite mulmxA e mul0mx mxtrace0.
have z X : ev (X *m dk k) = 0 by rewrite mulmxA mxtrace_mulC mulmxA e mul0mx mxtrace0.
rewrite (through _ (fun a => anti_ev (hx a.+1) e)) mulmxDr raddfD /= -scalemxAr mxtraceZ z mulr0 addr0.
rewrite mulmx_sumr raddf_sum /= big1 // => l _; rewrite -scalemxAr mxtraceZ IH ?mulr0 // => a; exact: hx.
Qed.
End Definite.

(* quasi-free states: rho A_i = sum_k F_ik A_k rho with F and 1 + F invertible *)
Lemma wick_quasifree (F : 'M[C]_K) : (forall i : 'I_K, rho *m A i = \sum_k F i k *: (A k *m rho)) -> 1%:M + F \in unitmx ->
  forall m x, (forall a, Q (x a)) -> ev (oprod m.*2 x) = pfaffian (contractions rho m.*2 x).
Proof.
move=> qf u; apply: wick_of_step => m x Y hx [c ->]; apply: expands_sum => i0.
have qt (i : 'I_K) X : ev (A i *m X) = \sum_k F i k * ev (X *m A k).
  rewrite mulmxA qf mulmx_suml raddf_sum /=; apply: eq_bigr => k _.
  by rewrite -scalemxAl mxtraceZ -mulmxA mxtrace_mulC mulmxA.
have g_eq y sy : (forall i : 'I_K, A i *m y + y *m A i = (sy i)%:M) ->
    (1%:M + F) *m (\col_i ev (A i *m y)) = F *m (\col_i sy i) :> 'cV[C]_K.
  move=> hy; rewrite mulmxDl mul1mx; apply: (canLR (subrK _)); rewrite -mulmxBr.
  apply/colP => i; rewrite [LHS]mxE qt [RHS]mxE; apply: eq_bigr => k _; congr (_ * _); rewrite !mxE.
  have := hy k => /(canRL (addKr _)) ->.
  by rewrite addrC mulmxBr mul_mx_scalar raddfB /= mxtraceZ t1 mulr1.
pose sy (l : nat) (i : 'I_K) := ev (A i *m x l + x l *m A i).
have hs l (i : 'I_K) : A i *m x l + x l *m A i = (sy l i)%:M.
  have [sx h] := spanned_anti (hx l); rewrite /sy h; congr (_%:M).
  by rewrite mul_mx_scalar mxtraceZ t1 mulr1.
pose X := oprod m.*2.+1 x; pose t (l : nat) := ev (oprod m.*2 (fun a => x (bump l a))).
have e : (\col_i ev (A i *m X) : 'cV[C]_K) = \sum_(l < m.*2.+1) ((-1) ^+ l * t l) *: \col_i ev (A i *m x l).
  apply: (can_inj (mulKmx u)); rewrite mulmx_sumr.
  under eq_bigr => l _ do rewrite -scalemxAr (g_eq _ _ (hs l)) // scalemxAr.
  rewrite -mulmx_sumr mulmxDl mul1mx; apply: (canLR (subrK _)); rewrite -mulmxBr.
  apply/colP => i; rewrite [LHS]mxE qt [RHS]mxE; apply: eq_bigr => k _; congr (_ * _).
  have := through m.*2.+1 (fun l => hs l k); rewrite -/X -signr_odd /= odd_double expr1 scaleN1r.
  move=> e; rewrite [RHS]mxE [X in _ = _ + X]mxE [X in _ = _ - X]mxE e mulmxBr raddfB /= mulmx_sumr raddf_sum /= summxE.
  rewrite opprB addrC -addrA; apply/esym; rewrite [X in _ + X](_ : _ = 0) ?addr0 //; apply/eqP; rewrite addrC subr_eq0.
  by apply/eqP/eq_bigr => l _; rewrite -scalemxAr mxtraceZ !mxE mulrAC.
have := congr1 (fun v : 'cV[C]_K => v i0 0) e; rewrite mxE /expands -/X => ->.
by rewrite summxE; apply: eq_bigr => l _; rewrite !mxE mulrAC.
Qed.
End State.
End Wick.
