(* PropDist11.v -- property C84: the states of zero anti-flatness are the pure Gaussian states *)
Set Warnings "-notation-overridden,-ambiguous-paths".
From Coq Require Import Reals Epsilon Classical.
From mathcomp Require Import all_ssreflect all_algebra.
From mathcomp Require Import complex.
From mathcomp.zify Require Import zify.
From Verif Require Import Base ArrC MCombinatorics MLib JW OpFam FermAlg LibFacts LibFacts2 LibFacts3 MUtils Spectral RealC Info MDist.
From Verif Require Import PropLib1 PropLib2 PropLib3 PropUtils1 PropUtils2 PropDist1 PropDist2 Skew PropDist4 PropDist5.
From Verif Require Import Expm ExpmAd MRandom RndFacts PropRandom1 PropRandom2 PropRandom4 PropRandom6 ManyBody Wick PropWick PropWick2.
Set Implicit Arguments.
Unset Strict Implicit.
Unset Printing Implicit Defensive.
Import Order.Theory GRing.Theory Num.Theory.
Local Open Scope ring_scope.

Local Notation arr := (arr CR).
Local Notation input := (input CR).

(* n modes, linear in the ladder operators: B_k creates, its adjoint B_(k+n) annihilates *)
Definition fermi_modes n (B : nat -> 'M[CR]_(2 ^ n)) :=
  car n B /\ forall k, (k < 2 * n)%N -> spanned (alphaM CR n) (2 * n) (B k).

Lemma gram_tr0 (C : numClosedFieldType) r c (X : 'M[C]_(r, c)) : \tr (X *m adjm X) = 0 -> X = 0.
Proof.
move=> h; have e : \tr (X *m adjm X) = \sum_i \sum_j `|X i j| ^+ 2.
  by rewrite /mxtrace; apply: eq_bigr => i _; rewrite mxE; apply: eq_bigr => j _; rewrite !mxE normCK.
apply/matrixP => i j; rewrite [RHS]mxE; apply/eqP; rewrite -normr_eq0 -sqrf_eq0.
have /psumr_eq0P h1 : \sum_i \sum_j `|X i j| ^+ 2 = 0 by rewrite -e.
have /psumr_eq0P -> // : \sum_j `|X i j| ^+ 2 = 0; last by move=> b _; rewrite exprn_ge0.
by apply: h1 => // a _; apply: sumr_ge0 => b _; rewrite exprn_ge0.
Qed.

Lemma psd_null (C : numClosedFieldType) m (rho b : 'M[C]_m) : psd rho -> \tr (rho *m (adjm b *m b)) = 0 -> b *m rho = 0.
Proof.
move=> p; have [h _] := p; have [U uU [d _ e]] := spectral_herm h; have /(psd_diag uU e) d0 := p.
pose S := adjm U *m diag_mx (map_mx sqrtC d).
have eS : rho = S *m adjm S.
  rewrite /S adjmM adjmK diag_adj mulmxA -(mulmxA (adjm U)) mulmx_diag e; congr (_ *m diag_mx _ *m _).
  apply/matrixP => i j; rewrite !ord1 !mxE (CrealP _) ?ger0_real ?sqrtC_ge0 //; by rewrite -expr2 sqrtCK.
rewrite eS => t0; have -> : b *m (S *m adjm S) = (b *m S) *m adjm S by rewrite mulmxA.
rewrite (_ : b *m S = 0) ?mul0mx //; apply: gram_tr0.
by rewrite adjmM mulmxA mxtrace_mulC -!mulmxA mxtrace_mulC -t0 -!mulmxA mxtrace_mulC !mulmxA.
Qed.

Lemma add8 (V : zmodType) (a b c d e f g h : V) : a + b + (c + d) + (e + f + (g + h)) = a + e + (b + g) + (c + f) + (d + h).
Proof.
rewrite (addrACA (a + b)) (addrACA a b) (addrACA c d) -!addrA; congr (_ + (_ + (_ + _))).
by rewrite addrCA (addrCA f) addrCA.
Qed.
Lemma anti_pair (C : numClosedFieldType) N (X Y X' Y' : 'M[C]_N) c c' p q :
  X *m X' + X' *m X = p%:M -> X *m Y' + Y' *m X = 0 -> Y *m X' + X' *m Y = 0 -> Y *m Y' + Y' *m Y = q%:M ->
  (X + c *: Y) *m (X' + c' *: Y') + (X' + c' *: Y') *m (X + c *: Y) = (p + c * c' * q)%:M.
Proof.
move=> e1 e2 e3 e4; rewrite !mulmxDl !mulmxDr -!scalemxAl -!scalemxAr !scalerA [c' * c]mulrC.
transitivity ((X *m X' + X' *m X) + c' *: (X *m Y' + Y' *m X) + c *: (Y *m X' + X' *m Y) + (c * c') *: (Y *m Y' + Y' *m Y)).
  by rewrite !scalerDr add8.
by rewrite e1 e2 e3 e4 !scaler0 !addr0 scale_scalar_mx -raddfD.
Qed.

(* ladder operators made of pairs of Majorana operators *)
Section Modes.
Variables (C : numClosedFieldType) (N n : nat) (g : nat -> 'M[C]_N) (s : nat -> C).
Hypothesis g_anti : forall i j, (i < 2 * n)%N -> (j < 2 * n)%N -> g i *m g j + g j *m g i = ((i == j)%:R)%:M.
Hypothesis g_herm : forall i, (i < 2 * n)%N -> adjm (g i) = g i.
Hypothesis s_real : forall k, s k \is Num.real.
Hypothesis s_sq : forall k, (k < n)%N -> s k ^+ 2 = 1.

Definition mm k := if (k < n)%N then k else (k - n)%N.
Definition ms (k : nat) : C := if (k < n)%N then -1 else 1.
Definition mc k : C := ms k * 'i * s (mm k).
Definition mode k : 'M[C]_N := (sqrtC 2%:R)^-1 *: (g (2 * mm k) + mc k *: g (2 * mm k).+1).

Lemma mm_lt k : (k < 2 * n)%N -> (mm k < n)%N. Proof. by rewrite /mm => h; case: (ltnP k n) => // h2; lia. Qed.
Lemma u2 : (sqrtC 2%:R)^-1 * (sqrtC 2%:R)^-1 = 2%:R^-1 :> C. Proof. by rewrite -expr2 exprVn sqrtCK. Qed.

Lemma g_anti0 i j : (i < 2 * n)%N -> (j < 2 * n)%N -> i != j -> g i *m g j + g j *m g i = 0.
Proof. by move=> hi hj /negPf e; rewrite g_anti // e raddf0. Qed.

Lemma mode_car : car n mode.
Proof.
split=> [i j hi hj|i hi].
  have hm := mm_lt hi; have hm' := mm_lt hj.
  have h1 : (2 * mm i < 2 * n)%N by lia.
  have h2 : ((2 * mm i).+1 < 2 * n)%N by lia.
  have h3 : (2 * mm j < 2 * n)%N by lia.
  have h4 : ((2 * mm j).+1 < 2 * n)%N by lia.
  have e1 : (2 * mm i == 2 * mm j)%N = (mm i == mm j) by rewrite eqn_mul2l.
  have e4 : ((2 * mm i).+1 == (2 * mm j).+1)%N = (mm i == mm j) by rewrite eqSS eqn_mul2l.
  have e2 : (2 * mm i != (2 * mm j).+1)%N by apply/eqP; lia.
  have e3 : ((2 * mm i).+1 != 2 * mm j)%N by apply/eqP; lia.
  rewrite /mode -!scalemxAl -!scalemxAr !scalerA u2 -scalerDr.
  rewrite (anti_pair _ _ (g_anti h1 h3) (g_anti0 h1 h4 e2) (g_anti0 h2 h3 e3) (g_anti h2 h4)).
  rewrite e1 e4 scale_scalar_mx; congr (_%:M).
  have [e|ne] := eqVneq (mm i) (mm j); last first.
    rewrite mulr0 addr0 mulr0; case: eqP => // e; case/eqP: ne; rewrite e /mm /sw; case: (ltnP i n) => h; case: ltnP; lia.
  have -> : mc i * mc j = - (ms i * ms j).
    rewrite /mc e mulrACA [ms i * _]mulrC [ms j * _]mulrC [_ * ms i * _]mulrACA -expr2 sqrCi mulN1r -expr2 s_sq // mulr1.
    by [].
  rewrite mulr1 /ms /sw; move: e; rewrite /mm; case: (ltnP i n) => hin; case: (ltnP j n) => hjn e.
  - by rewrite mulrNN mulr1 subrr mulr0 (_ : (j == i + n)%N = false) //; apply/eqP; lia.
  - rewrite mulr1 opprK (_ : 1 + 1 = 2%:R) // mulVf ?pnatr_eq0 // (_ : (j == i + n)%N = true) //; apply/eqP; lia.
  - rewrite mul1r opprK (_ : 1 + 1 = 2%:R) // mulVf ?pnatr_eq0 // (_ : (j == i - n)%N = true) //; apply/eqP; lia.
  by rewrite mulr1 subrr mulr0 (_ : (j == i - n)%N = false) //; apply/eqP; lia.
have hm := mm_lt hi.
have h1 : (2 * mm i < 2 * n)%N by lia.
have h2 : ((2 * mm i).+1 < 2 * n)%N by lia.
have em : mm (sw n i) = mm i by rewrite /mm /sw; case: (ltnP i n) => h; case: ltnP; lia.
rewrite /mode adjmZ adjmD adjmZ !g_herm // em; congr (_ *: (_ + _ *: _)).
  by rewrite (CrealP _) // rpredV ger0_real // sqrtC_ge0 ler0n.
rewrite /mc em rmorphM rmorphM (CrealP (s_real _)) conjCi; congr (_ * _); rewrite mulrN -mulNr; congr (_ * _).
rewrite /ms /sw; case: (ltnP i n) => h; case: ltnP => h'; rewrite ?rmorphN ?rmorph1 ?opprK //; lia.
Qed.

(* the annihilation operators have no expectation when s is the sign of the pair *)
Lemma mode_null (rho : 'M[C]_N) k : (k < n)%N -> psd rho -> \tr rho = 1 ->
  \tr ((- 'i *: (g (2 * k) *m g (2 * k).+1 - g (2 * k).+1 *m g (2 * k))) *m rho) = s k -> adjm (mode k) *m rho = 0.
Proof.
move=> hk p t1 e; apply: psd_null => //; rewrite adjmK.
have h1 : (2 * k < 2 * n)%N by lia.
have h2 : ((2 * k).+1 < 2 * n)%N by lia.
have mk : mm k = k by rewrite /mm hk.
have sq i : (i < 2 * n)%N -> g i *m g i = (2%:R^-1)%:M.
  move=> hi; apply: (@scalerI _ _ (2%:R : C)); first by rewrite pnatr_eq0.
  by rewrite scaler_nat mulr2n g_anti // eqxx scale_scalar_mx mulfV // pnatr_eq0.
have [_ ad] := mode_car.
have -> : mode k *m adjm (mode k) = 2%:R^-1 *: (1%:M + - s k *: (- 'i *: (g (2 * k) *m g (2 * k).+1 - g (2 * k).+1 *m g (2 * k)))).
  have hk2 : (k < 2 * n)%N by lia.
  rewrite ad // /mode /mc; have -> : mm (sw n k) = k by rewrite /sw hk /mm; case: ltnP; lia.
  have -> : ms (sw n k) = 1 by rewrite /sw hk /ms; case: ltnP => //; lia.
  rewrite mk /ms hk mulN1r mul1r -!scalemxAl -!scalemxAr !scalerA u2; congr (_ *: _).
  rewrite mulmxDl !mulmxDr -!scalemxAl -!scalemxAr !sq // scalerA.
  rewrite (_ : - 'i * s k * ('i * s k) = 1); last by rewrite mulrACA mulNr -expr2 sqrCi opprK mul1r -expr2 s_sq.
  rewrite scale1r mulrNN [s k * _]mulrC scalerBr mulNr scaleNr [X in _ + X]addrC addrACA; congr (_ + _).
  by rewrite -raddfD /= -mulr2n -(mulr_natr 2%:R^-1) mulVf // pnatr_eq0.
rewrite -scalemxAr mulmxDr mulmx1 -scalemxAr mxtraceZ mxtraceD mxtraceZ mxtrace_mulC e t1 mulNr -expr2 s_sq //.
by rewrite subrr mulr0.
Qed.
End Modes.

Lemma tf_even m (T : 'M[R]_m) : T^T = - T -> quasi_tri T -> T^T *m T = 1%:M -> forall k, (2 * k < m)%N ->
  tf T (2 * k) ^+ 2 = 1 /\ tf T (2 * k).+1 = 0.
Proof.
move=> aT qT TT.
have d (i : nat) : (i < m)%N -> tf T i ^+ 2 + (if i is a.+1 then tf T a else 0) ^+ 2 = 1.
  by move=> hi; have /matrixP/(_ (Ordinal hi) (Ordinal hi)) := TT; rewrite TTE // !mxE eqxx mulr1n.
have st k : (2 * k < m)%N -> tf T (2 * k) ^+ 2 = 1 -> tf T (2 * k).+1 = 0.
  move=> hk e; case: (ltnP (2 * k).+1 m) => h; last by rewrite tf_out // ltnW.
  have := d _ h; rewrite e => /eqP; rewrite -subr_eq0 addrK sqrf_eq0 => /eqP; exact.
elim=> [|k IH] hk.
  have e : tf T (2 * 0) ^+ 2 = 1 by have := d 0%N hk; rewrite expr0n addr0.
  by split=> //; exact: st.
have [e1 e2] : tf T (2 * k) ^+ 2 = 1 /\ tf T (2 * k).+1 = 0 by apply: IH; lia.
have e : tf T (2 * k.+1) ^+ 2 = 1.
  have := d _ hk; rewrite mulnS add2n /= => h; by rewrite e2 expr0n addr0 in h.
by split=> //; exact: st.
Qed.

Section Sp.
Variables (N K : nat) (A : nat -> 'M[CR]_N).
Lemma spanned_gen (k : 'I_K) : spanned A K (A k).
Proof.
exists (fun j => (j == k)%:R); rewrite (bigD1 k) //= eqxx scale1r big1 ?addr0 // => j /negPf ->; exact: scale0r.
Qed.
Lemma spanned_add x y : spanned A K x -> spanned A K y -> spanned A K (x + y).
Proof. by move=> [c ->] [d ->]; exists (fun j => c j + d j); rewrite -big_split /=; apply: eq_bigr => j _; rewrite scalerDl. Qed.
Lemma spanned_scale a x : spanned A K x -> spanned A K (a *: x).
Proof. by move=> [c ->]; exists (fun j => a * c j); rewrite scaler_sumr; apply: eq_bigr => j _; rewrite scalerA. Qed.
Lemma spanned_sum (I : Type) (r : seq I) (F : I -> 'M[CR]_N) : (forall i, spanned A K (F i)) -> spanned A K (\sum_(i <- r) F i).
Proof.
move=> h; elim: r => [|i r IH]; last by rewrite big_cons; exact: spanned_add.
by rewrite big_nil; exists (fun=> 0); rewrite big1 // => j _; exact: scale0r.
Qed.
End Sp.

Lemma gam_spanned n (k : 'I_(2 * n)) : spanned (alphaM CR n) (2 * n) (gam CR n k).
Proof. by rewrite -[gam CR n k]/(ga CR k) ga_al; exists (fun j => OM CR n k j). Qed.

(* an antisymmetric orthogonal covariance matrix determines n modes that annihilate every state with this covariance *)
Lemma cov_modes_ex n (M : 'M[R]_(2 * n)) : M^T = - M -> M^T *m M = 1%:M -> exists B, fermi_modes B /\
  forall rho : 'M[CR]_(2 ^ n), density rho -> covM rho = M -> forall k, (k < n)%N -> adjm (B k) *m rho = 0.
Proof.
move=> aM MM; have [Z [T [oZ eM aT qT]]] := skew_normal aM.
have TT : T^T *m T = 1%:M.
  have : Z^T *m (M^T *m M) *m Z = 1%:M by rewrite MM mulmx1 (mulmx1C oZ).
  rewrite eM !trmx_mul trmxK !mulmxA (mulmx1C oZ) mul1mx -(mulmxA T^T) (mulmx1C oZ) mulmx1.
  by rewrite -!mulmxA (mulmx1C oZ) mulmx1.
have te := tf_even aT qT TT.
pose g (k : nat) : 'M[CR]_(2 ^ n) := if insub k is Some i then \sum_a toC (Z a i) *: gam CR n a else 0.
have gE (i : 'I_(2 * n)) : g i = \sum_a toC (Z a i) *: gam CR n a by rewrite /g valK.
have ga i j : (i < 2 * n)%N -> (j < 2 * n)%N -> g i *m g j + g j *m g i = ((i == j)%:R)%:M.
  by move=> hi hj; rewrite -[ i ]/(val (Ordinal hi)) -[j]/(val (Ordinal hj)) !gE (g_anti oZ) -val_eqE.
have gh i : (i < 2 * n)%N -> adjm (g i) = g i.
  by move=> hi; rewrite -[ i ]/(val (Ordinal hi)) gE g_herm.
pose s k : CR := toC (tf T (2 * k)).
have sr k : s k \is Num.real by exact: toC_real.
have ss k : (k < n)%N -> s k ^+ 2 = 1.
  by move=> hk; rewrite /s -toCX (te k _).1 ?rmorph1 //; lia.
exists (mode n g s); split.
  split; first exact: mode_car.
  move=> k hk; have hm := mm_lt hk; apply: spanned_scale; apply: spanned_add; last apply: spanned_scale.
    have h : (2 * mm n k < 2 * n)%N by lia.
    rewrite -[(2 * mm n k)%N]/(val (Ordinal h)) gE; apply: spanned_sum => a; apply: spanned_scale; exact: gam_spanned.
  have h : ((2 * mm n k).+1 < 2 * n)%N by lia.
  rewrite -[(2 * mm n k).+1]/(val (Ordinal h)) gE; apply: spanned_sum => a; apply: spanned_scale; exact: gam_spanned.
move=> rho d eR k hk; have [p t1] := d; apply: mode_null => //.
have h0 : (2 * k < 2 * n)%N by lia.
have h1 : ((2 * k).+1 < 2 * n)%N by lia.
rewrite -[(2 * k)%N]/(val (Ordinal h0)) -[(2 * k).+1]/(val (Ordinal h1)) !gE.
rewrite -(T_as_exp d oZ (etrans eR eM)) /s; congr toC; exact: tfE.
Qed.

(* a state annihilated by the n annihilation operators is the projector on their vacuum *)
Lemma null_pure n (B : nat -> 'M[CR]_(2 ^ n)) : car n B -> exists2 v : 'cV[CR]_(2 ^ n), 
  unit_vector v /\ (forall k, (k < n)%N -> adjm (B k) *m v = 0) &
  forall rho : 'M[CR]_(2 ^ n), density rho -> (forall k, (k < n)%N -> adjm (B k) *m rho = 0) -> rho = v *m adjm v.
Proof.
move=> cB; have [v [uv av un]] := vacuum_unique cB; exists v => // rho [[h _] t1] ar.
have [w ew] : exists w : 'rV[CR]_(2 ^ n), rho = v *m w.
  have col j : exists c, col j rho = c *: v.
    by apply: un => k hk; rewrite colE mulmxA ar // mul0mx.
  have [c hc] := fin_all_exists col; exists (\row_j c j); apply/matrixP => i j.
  by have := congr1 (fun M : 'cV_(2 ^ n) => M i 0) (hc j); rewrite !mxE big_ord1 !mxE mulrC.
have wv : w *m v = 1%:M.
  by rewrite [LHS]mx11_scalar; congr (_%:M); rewrite -t1 ew mxtrace_mulC /mxtrace big_ord1.
have e : w = adjm v *m rho by rewrite ew mulmxA uv mul1mx.
have e2 : adjm w = v by rewrite e adjmM adjmK (h : adjm rho = rho) ew -mulmxA wv mulmx1.
by rewrite {1}ew -[w]adjmK e2.
Qed.

Lemma spanned_gam n y : spanned (alphaM CR n) (2 * n) y -> spanned (gam CR n) (2 * n) y.
Proof.
move=> [c ->]; apply: spanned_sum => j; apply: spanned_scale.
by rewrite -[alphaM CR n j]/(al CR j) al_ga; exists (fun k => adjm (OM CR n) j k).
Qed.

Lemma modes_unitary n (B : nat -> 'M[CR]_(2 ^ n)) : fermi_modes B -> exists2 Z : 'M[CR]_(2 * n), unitary Z &
  forall k : 'I_(2 * n), B k = act Z (@ga CR n) k.
Proof.
move=> [cB sB].
have /fin_all_exists[c hc] : forall k : 'I_(2 * n), exists c : 'I_(2 * n) -> CR, B k = \sum_j c j *: gam CR n j.
  by move=> k; apply: spanned_gam; exact: sB.
exists (\matrix_(k, j) c k j); last by move=> k; rewrite hc; apply: eq_bigr => j _; rewrite mxE.
have [a1 a2] := cB; apply/matrixP => i j; rewrite [LHS]mxE [RHS]mxE.
have e : B i *m adjm (B j) + adjm (B j) *m B i = ((i == j)%:R)%:M.
  rewrite a2 // a1 ?sw_lt // sw_eq ?sw_lt // swK // val_eqE; done.
have : B i *m adjm (B j) + adjm (B j) *m B i = (\sum_k c i k * (c j k)^* )%:M.
  rewrite !hc adjm_sum mulmx_suml [X in _ + X]mulmx_sumr -big_split raddf_sum /=; apply: eq_bigr => k _.
  rewrite mulmx_sumr mulmx_suml -big_split /= (bigD1 k) //= big1 ?addr0 => [|l lk]; rewrite adjmZ gam_herm //.
    by rewrite -!scalemxAl -!scalemxAr !scalerA [(_)^* * _]mulrC -scalerDr gam_anti // eqxx scale_scalar_mx mulr1.
  rewrite -!scalemxAl -!scalemxAr !scalerA [(_)^* * _]mulrC -scalerDr gam_anti // val_eqE eq_sym (negPf lk).
  by rewrite raddf0 scaler0.
rewrite e => /(congr1 (fun M : 'M[CR]_(2 ^ n) => M (Ordinal (pow2_gt0 n)) (Ordinal (pow2_gt0 n)))).
rewrite !mxE eqxx !mulr1n => ->; apply: eq_bigr => k _; by rewrite !mxE.
Qed.

(* the vacuum of n modes *)
Definition mode_vacuum n (B : nat -> 'M[CR]_(2 ^ n)) (v : 'cV[CR]_(2 ^ n)) :=
  [/\ fermi_modes B, unit_vector v & forall k, (k < n)%N -> adjm (B k) *m v = 0].

Lemma vac_definite n (B : nat -> 'M[CR]_(2 ^ n)) v : mode_vacuum B v -> exists2 Z : 'M[CR]_(2 * n), unitary Z & definite Z v.
Proof.
case=> fB uv av; have [Z uZ eZ] := modes_unitary fB; exists Z => //.
apply: (@definite_car _ Z B (fun=> false) v fB.1 eZ) => j hj; by rewrite -mulmxA av // mulmx0 scale0r.
Qed.

Lemma parity_spanned n y : spanned (alphaM CR n) (2 * n) y -> parity CR n *m y = - (y *m parity CR n).
Proof.
move=> [c ->]; rewrite mulmx_sumr mulmx_suml -sumrN; apply: eq_bigr => j _.
by rewrite -scalemxAr (parity_al CR j) -scalemxAl scalerN.
Qed.

Section Main.
Variable schur : arr -> arr.
Hypothesis schurP : schur_spec schur.

(* C84: zero anti-flatness, at any order, means the vacuum of some n modes *)
Theorem C84_zero n (x : input) (rho : 'M[CR]_(2 ^ n)) k : cast_to_density_matrix x = Ok (ofM rho) -> density rho ->
  (0 < k)%N -> (FAF schur x k = Ok 0 <-> exists B v, mode_vacuum B v /\ rho = v *m adjm v).
Proof.
move=> ex d k0; rewrite (C36_zero schurP ex d k0); split=> [MM|[B [v [mv e]]]].
  have [B [fB nB]] := cov_modes_ex (covM_anti rho) MM; have [v [uv av] un] := null_pure fB.1.
  by exists B, v; split=> //; apply: un => // j hj; exact: nB.
have [Z uZ df] := vac_definite mv; have [_ uv _] := mv; rewrite e; exact: cov_modes uZ uv df.
Qed.

(* so Wick's theorem holds, with pf, and the fermion parity is definite *)
Theorem C84_wick n (x : input) (rho : 'M[CR]_(2 ^ n)) k : cast_to_density_matrix x = Ok (ofM rho) -> density rho ->
  (0 < k)%N -> FAF schur x k = Ok 0 ->
  [/\ wick_state rho, rho *m rho = rho & parity CR n *m rho = rho \/ parity CR n *m rho = - rho].
Proof.
move=> ex d k0 /(C84_zero ex d k0)[B [v [mv ->]]]; have [[cB sB] uv av] := mv; have [Z uZ df] := vac_definite mv.
split; first exact: wick_pure uZ uv df.
  by rewrite -!mulmxA (mulmxA (adjm v)) uv mul1mx.
have [v0 [u0 a0 un]] := vacuum_unique cB.
have [c2 e2] := un v av.
have [c1 e1] : exists c, parity CR n *m v = c *: v0.
  apply: un => j hj; have hj2 : (j < 2 * n)%N by lia.
  have [_ a2] := cB; rewrite a2 // mulmxA -[B _ *m _]opprK -(parity_spanned (sB _ (sw_lt hj2))) -a2 //.
  by rewrite mulNmx -mulmxA av // mulmx0 oppr0.
have c20 : c2 != 0.
  apply/eqP => h; move: uv; rewrite /unit_vector e2 h scale0r mulmx0 => /matrixP/(_ 0 0); rewrite !mxE eqxx.
  by move/eqP; rewrite eq_sym oner_eq0.
have ec : parity CR n *m v = (c1 / c2) *: v by rewrite e1 e2 scalerA divfK.
have : (c1 / c2) ^+ 2 = 1.
  have := congr1 (mulmx (parity CR n)) ec; rewrite mulmxA parity_sqr mul1mx -scalemxAr ec scalerA -expr2 => e3.
  have := congr1 (fun u : 'cV_(2 ^ n) => (adjm v *m u) 0 0) e3; rewrite -scalemxAr uv !mxE eqxx mulr1 => <-.
  by [].
move/eqP; rewrite sqrf_eq1 => /orP[] /eqP e3; [left|right]; rewrite mulmxA ec e3 ?scale1r // scaleN1r mulNmx //.
Qed.

(* every other state has positive anti-flatness: mixed states, and pure states without definite parity or Wick's theorem *)
Theorem C84_positive n (x : input) (rho : 'M[CR]_(2 ^ n)) k : cast_to_density_matrix x = Ok (ofM rho) -> density rho ->
  (0 < k)%N -> rho *m rho <> rho \/ (parity CR n *m rho <> rho /\ parity CR n *m rho <> - rho) \/ ~ wick_state rho ->
  exists2 f, FAF schur x k = Ok f & 0 < f <= n%:R.
Proof.
move=> ex d k0 h; have [f ef /andP[f0 f1]] := C36_bounds schurP ex d k0; exists f => //; rewrite lt_def f0 f1 !andbT.
apply/eqP => z; rewrite z in ef; have [w p q] := C84_wick ex d k0 ef.
by case: h => [//|[[h1 h2]|//]]; case: q.
Qed.

(* a state of zero anti-flatness is the only state with its covariance matrix *)
Theorem C84_unique n (x : input) (rho sigma : 'M[CR]_(2 ^ n)) k : cast_to_density_matrix x = Ok (ofM rho) -> density rho ->
  (0 < k)%N -> FAF schur x k = Ok 0 -> density sigma ->
  compute_cov_matrix (ofM sigma) (Some n) (Some (jordan_wigner_majoranas CR n)) =
  compute_cov_matrix (ofM rho) (Some n) (Some (jordan_wigner_majoranas CR n)) -> sigma = rho.
Proof.
move=> ex d k0 /(C36_zero schurP ex d k0) MM ds; rewrite majoranas_ops !cov_ops // => e.
have eM : covM sigma = covM rho.
  apply/matrixP => i j; rewrite !mxE; congr (re (_ * _)).
  have := congr1 (fun r => if r is Ok A then get A i j else 0) e; by rewrite /= !get_mk !ltn_ord.
have [B [fB nB]] := cov_modes_ex (covM_anti rho) MM; have [v _ un] := null_pure fB.1.
by rewrite (un _ ds (nB _ ds eM)) (un _ d (nB _ d erefl)).
Qed.

(* the superposition of the vacuum and of the one-particle state *)
Example C84_plus (rho := const_mx 2%:R^-1 : 'M[CR]_(2 ^ 1)) : exists2 f, FAF schur (V2 (ofM rho)) 1 = Ok f & 0 < f <= 1%:R.
Proof.
have r : ((sqrtC 2%:R)^-1 : CR)^* = (sqrtC 2%:R)^-1 by apply/CrealP; rewrite rpredV ger0_real // sqrtC_ge0 ler0n.
have d : density rho.
  have -> : rho = adjm (const_mx (sqrtC 2%:R)^-1 : 'rV[CR]_(2 ^ 1)) *m (const_mx (sqrtC 2%:R)^-1 : 'rV[CR]_(2 ^ 1)).
    by apply/matrixP => i j; rewrite !mxE big_ord1 !mxE r u2.
  split; first exact: psd_gram.
  rewrite mxtrace_mulC /mxtrace big_ord1 !mxE !big_ord_recl big_ord0 !mxE !r u2 addr0 -mulr2n -(mulr_natr 2%:R^-1).
  by rewrite mulVf // pnatr_eq0.
have pE (i : 'I_(2 ^ 1)) : (parity CR 1 *m rho) i ord0 = (if val i == 0%N then 1 else -1) * 2%:R^-1.
  rewrite mxE (eq_bigr (fun j : 'I_(2 ^ 1) => parity CR 1 i j * 2%:R^-1)) => [|j _]; last by rewrite [rho _ _]mxE.
  rewrite -mulr_suml; congr (_ * _); rewrite !big_ord_recl big_ord0 ![parity _ _ _ _]mxE.
  rewrite !(ts_get (@z2 CR)) // !big_ord1 addr0; case: i => [[|[|]]] //= hi; rewrite !getE //= ?addr0 ?add0r //.
have h2 : 2%:R^-1 != 0 :> CR by rewrite invr_eq0 pnatr_eq0.
have np (z : CR) : z != 0 -> z <> - z.
  by move=> z0 /eqP; rewrite -addr_eq0 -mulr2n mulrn_eq0 (negPf z0).
apply: (@C84_positive 1 _ rho 1%N (C25_density d) d isT); right; left; split=> e.
  have /matrixP/(_ (fintype.lift ord0 ord0) ord0) := e; rewrite pE mulN1r mxE => h; apply: (np _ h2); exact: esym.
have /matrixP/(_ ord0 ord0) := e; rewrite pE mul1r !mxE; exact: np.
Qed.
End Main.
