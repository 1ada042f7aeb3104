(* PropDist5.v -- property C36, continued: the contract of the Schur decomposition can be met, and the anti-flatness
   vanishes on every pure Gaussian state (a free-fermion rotation of the vacuum). *)
Set Warnings "-notation-overridden,-ambiguous-paths".
From Coq Require Import Reals Epsilon Classical.
From mathcomp Require Import all_ssreflect all_algebra.
From mathcomp Require Import complex.
From mathcomp.zify Require Import zify.
From Verif Require Import Base ArrC MCombinatorics MLib JW OpFam FermAlg LibFacts LibFacts3 MUtils Spectral RealC Info MDist PropLib1 PropUtils1 PropUtils2 PropDist1 PropDist2 Skew PropDist4.
Set Implicit Arguments.
Unset Strict Implicit.
Unset Printing Implicit Defensive.
Import Order.Theory GRing.Theory Num.Theory.
Local Open Scope ring_scope.

Local Notation arr := (arr CR).
Local Notation input := (input CR).

(* a function with the contract of scipy.linalg.schur exists *)
Theorem schur_exists : exists schur : arr -> arr, schur_spec schur.
Proof.
pose P (a b : arr) := forall m (M : 'M[R]_m), M^T = - M -> a = ofM (map_mx toC M) ->
  exists Z T : 'M[R]_m, [/\ Z *m Z^T = 1%:M, M = Z *m T *m Z^T, quasi_tri T & b = ofM (map_mx toC T)].
exists (fun a => epsilon (inhabits a) (P a)) => m M hM.
have ex : exists b, P (ofM (map_mx toC M)) b.
  have [Z [T [oZ eM aT qT]]] := skew_normal hM; exists (ofM (map_mx toC T)) => m' M' hM' e.
  have em : m = m' := congr1 (@nr _) e; case: m' / em M' hM' e => M' hM' e.
  exists Z, T; split=> //; rewrite -eM; apply/matrixP => i j; apply: toC_inj.
  by move/ofM_inj/matrixP/(_ i j): e; rewrite !mxE.
exact: (epsilon_spec (inhabits _) _ ex).
Qed.

Section Alg.
Variable C : numClosedFieldType.
Add Ring C_ring5 : (ring_of C).
Lemma alg1 (s I b : C) : s * s + s * s = 1 -> I * I = -1 -> - I * ((s * 1 * (s * I) - s * (- I) * (s * 1)) * b) = b.
Proof.
move=> h1 h2; have -> : - I * ((s * 1 * (s * I) - s * (- I) * (s * 1)) * b) = - (I * I) * (s * s + s * s) * b by xring C.
by rewrite h1 h2 opprK !mul1r.
Qed.
Lemma alg2 (s I b : C) : s * s + s * s = 1 -> I * I = -1 -> - I * ((s * (- I) * (s * 1) - s * 1 * (s * I)) * b) = - b.
Proof.
move=> h1 h2; have -> : - I * ((s * (- I) * (s * 1) - s * 1 * (s * I)) * b) = (I * I) * (s * s + s * s) * b by xring C.
by rewrite h1 h2 mulr1 mulN1r.
Qed.
Lemma alg3 (s I b : C) : - I * ((s * (- I) * (s * I) - s * (- I) * (s * I)) * b) = 0.
Proof. xring C. Qed.
End Alg.

(* covariance of a state annihilated by every a_j *)
Section Vac.
Variables (n : nat) (rho : 'M[CR]_(2 ^ n)).
Hypotheses (h : hermitian rho) (t1 : \tr rho = 1) (v0 : forall j, (j < n)%N -> am CR n j *m rho = 0).
Local Notation a := (am CR n).

Lemma vac_adj j : (j < n)%N -> rho *m adjm (a j) = 0.
Proof. by move=> hj; rewrite -{1}h -adjmM v0 // adjm0. Qed.

Lemma vac_pair i j : (i < n)%N -> (j < n)%N -> \tr (rho *m (a i *m adjm (a j))) = (i == j)%:R.
Proof.
move=> hi hj; have /(canRL (addrK _)) -> := am_anti_adj CR hi hj.
rewrite mulmxBr mulmxA vac_adj // mul0mx subr0 mul_mx_scalar mxtraceZ t1; exact: mulr1.
Qed.

Let u i : CR := (sqrt2 CR)^-1 * (if (i < n)%N then 1 else 'i).
Let v i : CR := (sqrt2 CR)^-1 * (if (i < n)%N then 1 else - 'i).

Lemma gam_uv i : (i < 2 * n)%N -> gam CR n i = u i *: adjm (a (i %% n)%N) + v i *: a (i %% n)%N.
Proof.
move=> hi; rewrite gamE // modn_half // /u /v; case: ifP => hin; first by rewrite !mulr1 scalerDr.
by rewrite -!scalerA -scalerDr scalerBr -scaleNr opprK addrC scaleNr.
Qed.

Lemma vac_gam i j : (i < 2 * n)%N -> (j < 2 * n)%N ->
  \tr (rho *m gam CR n i *m gam CR n j) = v i * u j * (i %% n == j %% n)%N%:R.
Proof.
move=> hi hj; have n0 : (0 < n)%N by lia.
have hi' : (i %% n < n)%N by rewrite ltn_mod. have hj' : (j %% n < n)%N by rewrite ltn_mod.
rewrite !gam_uv // [rho *m _]mulmxDr -!scalemxAr vac_adj // scaler0 add0r -scalemxAl mulmxDr -!scalemxAr -!mulmxA mxtraceZ mxtraceD !mxtraceZ.
rewrite vac_pair // [\tr (rho *m (a (i %% n)%N *m a _))]mxtrace_mulC -mulmxA v0 // mulmx0 mxtrace0 !mulr0 addr0.
by rewrite mulrA.
Qed.

Lemma cov_vacE i j : covM rho i j = if j == sw n i :> nat then (if (i < n)%N then 1 else -1) else 0.
Proof.
apply: toC_inj; rewrite mxE toC_re ?covC_real // mxE !vac_gam // [(j %% n == _)%N]eq_sym -mulrBl !modn_half //.
have hi := ltn_ord i; have hj := ltn_ord j.
have nu := nu2D CR; rewrite /u /v /sw; set s := (sqrt2 CR)^-1 in nu *.
have ii : 'i * 'i = -1 :> CR by rewrite -expr2 sqrCi.
case: (ltnP i n) => hin; case: (ltnP j n) => hjn.
- by rewrite ifF ?subrr ?mul0r ?mulr0 ?raddf0 //; lia.
- rewrite alg1 // (_ : (_ == _ :> nat) = (j == (i + n)%N :> nat)); last by lia.
  by case: eqP => _; rewrite ?rmorph1 ?rmorph0.
- rewrite alg2 // (_ : (_ == _ :> nat) = (j == (i - n)%N :> nat)); last by lia.
  by case: eqP => _; rewrite ?rmorphN1 ?rmorph0 ?oppr0.
rewrite ifF; last by lia.
by rewrite alg3 raddf0.
Qed.

Lemma cov_vac : (covM rho)^T *m covM rho = 1%:M.
Proof.
apply/matrixP => i j; rewrite !mxE.
have hs := sw_lt (ltn_ord i); rewrite (bigD1 (Ordinal hs)) //= big1 ?addr0 => [|k nk].
  rewrite mxE !cov_vacE /= !swK // eqxx eq_sym -val_eqE /=; case: eqP => _ ; last by rewrite mulr0.
  by case: ifP; rewrite ?mulrNN mulr1.
by rewrite mxE cov_vacE (_ : _ == _ = false) ?mul0r //; apply/negP => /eqP e; case/eqP: nk; apply/val_inj; rewrite /= e swK.
Qed.
End Vac.

(* W implements the rotation O of the Majorana operators *)
Definition implements n (W : 'M[CR]_(2 ^ n)) (O : 'M[R]_(2 * n)) :=
  forall k : 'I_(2 * n), adjm W *m gam CR n k *m W = \sum_j toC (O k j) *: gam CR n j.

Lemma lin_anti n (F G : 'I_(2 * n) -> CR) :
  (\sum_j F j *: gam CR n j) *m (\sum_j G j *: gam CR n j) + (\sum_j G j *: gam CR n j) *m (\sum_j F j *: gam CR n j)
  = (\sum_j F j * G j)%:M.
Proof.
rewrite !mulmx_suml; under eq_bigr do rewrite mulmx_sumr.
under [X in _ + X]eq_bigr do rewrite mulmx_sumr.
rewrite [X in _ + X]exchange_big /= -big_split /= raddf_sum; apply: eq_bigr => a _.
rewrite -big_split /= (bigD1 a) //= big1 ?addr0 => [|b ne].
  by rewrite -!scalemxAl -!scalemxAr !scalerA [G a * _]mulrC -scalerDr gam_anti // eqxx scale_scalar_mx mulr1.
by rewrite -!scalemxAl -!scalemxAr !scalerA [G b * _]mulrC -scalerDr gam_anti // val_eqE eq_sym (negPf ne) scale_scalar_mx mulr0 raddf0.
Qed.

Lemma implements_orth n (W : 'M[CR]_(2 ^ n)) O : unitary W -> implements W O -> O *m O^T = 1%:M.
Proof.
move=> uW hO; apply/matrixP => k l; apply: toC_inj.
have W1 : W *m adjm W = 1%:M by [].
have W2 : adjm W *m W = 1%:M := mulmx1C W1.
pose L := adjm W *m gam CR n k *m W *m (adjm W *m gam CR n l *m W) + adjm W *m gam CR n l *m W *m (adjm W *m gam CR n k *m W).
have e1 : L = ((k == l)%:R)%:M.
  have aux a b : adjm W *m a *m W *m (adjm W *m b *m W) = adjm W *m (a *m b) *m W.
    by rewrite -!mulmxA (mulmxA W) W1 mul1mx.
  by rewrite /L !aux -mulmxDl -mulmxDr gam_anti // mul_mx_scalar -scalemxAl W2 scalemx1.
have e2 : L = (\sum_j toC (O k j) * toC (O l j))%:M.
  by rewrite /L !hO lin_anti.
have p0 : (0 < 2 ^ n)%N := pow2_gt0 n.
have : L (Ordinal p0) (Ordinal p0) = L (Ordinal p0) (Ordinal p0) by [].
rewrite {1}e1 e2 !mxE eqxx !mulr1n => e3; rewrite toC_sum.
rewrite -[RHS]/(toC (k == l)%:R) toC_nat e3; apply: eq_bigr => j _; by rewrite mxE toCM.
Qed.

Lemma cov_rot n (W rho : 'M[CR]_(2 ^ n)) O : unitary W -> implements W O -> hermitian rho ->
  covM (W *m rho *m adjm W) = O *m covM rho *m O^T.
Proof.
move=> uW hO h.
have W1 : W *m adjm W = 1%:M by [].
have h' : hermitian (W *m rho *m adjm W) by rewrite /hermitian !adjmM adjmK h mulmxA.
have tE (i j : 'I_(2 * n)) : \tr (W *m rho *m adjm W *m gam CR n i *m gam CR n j) =
    \sum_a \sum_b toC (O i a) * toC (O j b) * \tr (rho *m gam CR n a *m gam CR n b).
  have -> : \tr (W *m rho *m adjm W *m gam CR n i *m gam CR n j) =
            \tr (rho *m (adjm W *m gam CR n i *m W) *m (adjm W *m gam CR n j *m W)).
    by rewrite -!mulmxA mxtrace_mulC -!mulmxA (mulmxA W (adjm W)) W1 mul1mx.
  rewrite !hO [rho *m _]mulmx_sumr mulmx_suml raddf_sum /=; apply: eq_bigr => a _.
  rewrite mulmx_sumr raddf_sum /=; apply: eq_bigr => b _.
  by rewrite -!scalemxAr -!scalemxAl !mxtraceZ mulrA [toC (O j b) * _]mulrC.
have eC : covC (W *m rho *m adjm W) = map_mx toC O *m covC rho *m (map_mx toC O)^T.
  apply/matrixP => i j; rewrite [LHS]mxE [RHS]mxE !tE [X in _ - X]exchange_big /= -sumrB mulr_sumr.
  under [RHS]eq_bigr do rewrite mxE mulr_suml.
  rewrite [RHS]exchange_big /=; apply: eq_bigr => a _; rewrite -sumrB mulr_sumr; apply: eq_bigr => b _.
  rewrite ![_ (map_mx _ _) _ _]mxE ![(map_mx _ _)^T _ _]mxE ![map_mx _ _ _ _]mxE [covC _ _ _]mxE.
  by rewrite [toC (O j b) * _]mulrC -mulrBr mulrCA -!mulrA; congr (_ * _); rewrite [RHS]mulrA [RHS]mulrC.
apply/matrixP => i j; apply: toC_inj; move/matrixP: eC => /(_ i j).
rewrite [in LHS]covC_toC // [LHS]mxE => ->; rewrite covC_toC // map_trmx.
by rewrite -!(map_mxM toC_rmorphism) mxE.
Qed.

Section Gauss.
Variable schur : arr -> arr.
Hypothesis schurP : schur_spec schur.

Definition vacuum n : 'M[CR]_(2 ^ n) := e0 CR n *m adjm (e0 CR n).

Lemma vacuum_tr n : \tr (vacuum n) = 1.
Proof.
rewrite /vacuum mxtrace_mulC [_ *m _]mx11_scalar mxtrace_scalar mulr1n mxE (bigD1 (Ordinal (pow2_gt0 n))) //= big1.
  by rewrite !mxE !eqxx conjC1 mulr1 addr0.
by move=> i /negPf ni; rewrite !mxE ni mulr0.
Qed.
Lemma vacuum_herm n : hermitian (vacuum n).
Proof. by rewrite /hermitian /vacuum adjmM adjmK. Qed.
Lemma vacuum_am n j : (j < n)%N -> am CR n j *m vacuum n = 0.
Proof. by move=> hj; rewrite /vacuum mulmxA am_e0 // mul0mx. Qed.

(* the anti-flatness of every free-fermion rotation of the vacuum is exactly 0, at every order *)
Theorem C36_gaussian n (x : input) (W : 'M[CR]_(2 ^ n)) O k : unitary W -> implements W O -> (0 < k)%N ->
  cast_to_density_matrix x = Ok (ofM (W *m vacuum n *m adjm W)) -> FAF schur x k = Ok 0.
Proof.
move=> uW hO k0 ex.
have W2 : adjm W *m W = 1%:M := mulmx1C uW.
have d : density (W *m vacuum n *m adjm W).
  split; last by rewrite mxtrace_mulC mulmxA W2 mul1mx vacuum_tr.
  have -> : W *m vacuum n *m adjm W = adjm (adjm (e0 CR n) *m adjm W) *m (adjm (e0 CR n) *m adjm W).
    by rewrite adjmM !adjmK /vacuum !mulmxA.
  exact: psd_gram.
apply/(C36_zero schurP ex d k0); rewrite (cov_rot uW hO); last exact: vacuum_herm.
have OO := implements_orth uW hO.
rewrite !trmx_mul trmxK -!mulmxA (mulmxA O^T) (mulmx1C OO) mul1mx (mulmxA (covM _)^T).
by rewrite cov_vac ?mul1mx ?vacuum_tr //; [exact: vacuum_herm|exact: vacuum_am].
Qed.

(* the all-zero computational basis state of n qubits *)
Example C36_vacuum n k : (0 < k)%N ->
  FAF schur (V1 (vec (fun i : 'I_(2 ^ n) => (i == Ordinal (pow2_gt0 n))%:R : CR))) k = Ok 0.
Proof.
move=> k0; set v := fun i => _.
have nv : \sum_i `|v i| ^+ 2 = 1.
  rewrite (bigD1 (Ordinal (pow2_gt0 n))) //= /v eqxx normr1 expr1n big1 ?addr0 // => i /negPf ->; by rewrite normr0 expr0n.
have [ec d] := C25_wavefunction nv.
have u1 : unitary (1%:M : 'M[CR]_(2 ^ n)) by rewrite /unitary adjm1 mulmx1.
have i1 : implements (1%:M : 'M[CR]_(2 ^ n)) 1%:M.
  move=> j; rewrite adjm1 mul1mx mulmx1 (bigD1 j) //= mxE eqxx rmorph1 scale1r big1 ?addr0 // => l nl.
  by rewrite mxE eq_sym (negPf nl) rmorph0 scale0r.
apply: (C36_gaussian u1 i1 k0); rewrite ec adjm1 mul1mx mulmx1; congr (Ok (ofM _)).
apply/matrixP => i j; rewrite !mxE big_ord1 !mxE /v eqxx !andbT //.
Qed.

End Gauss.
