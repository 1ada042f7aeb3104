(* PropDist4.v -- property C36: the covariance distribution and the fermionic anti-flatness FAF. *)
Set Warnings "-notation-overridden,-ambiguous-paths".
From Coq Require Import Reals.
From mathcomp Require Import all_ssreflect all_algebra.
From mathcomp Require Import complex.
From mathcomp.zify Require Import zify.
From Verif Require Import Base ArrC MCombinatorics MLib JW OpFam FermAlg LibFacts LibFacts3 MUtils Spectral RealC Info MDist PropLib1 PropUtils1 PropUtils2 PropDist1 PropDist2 Skew.
Set Implicit Arguments.
Unset Strict Implicit.
Unset Printing Implicit Defensive.
Import Order.Theory GRing.Theory Num.Theory.
Local Open Scope ring_scope.

Local Notation arr := (arr CR).
Local Notation input := (input CR).

Lemma toCM (a b : R) : toC (a * b) = toC a * toC b. Proof. exact: rmorphM. Qed.
Lemma toC_sum (I : finType) (F : I -> R) : toC (\sum_i F i) = \sum_i toC (F i). Proof. exact: raddf_sum. Qed.

Lemma toCX (a : R) k : toC (a ^+ k) = toC a ^+ k. Proof. exact: rmorphX. Qed.

(* contract of scipy.linalg.schur on real antisymmetric arrays: M = Z T Z^T with Z orthogonal and T real,
   quasi upper triangular (Skew.quasi_tri: zero below the first subdiagonal, no two adjacent subdiagonal entries
   nonzero).  Satisfiable: PropDist5.schur_exists. *)
Definition schur_spec (schur : arr -> arr) := forall m (M : 'M[R]_m), M^T = - M ->
  exists Z T : 'M[R]_m, [/\ Z *m Z^T = 1%:M, M = Z *m T *m Z^T, quasi_tri T &
    schur (ofM (map_mx toC M)) = ofM (map_mx toC T)].

(* -i <[gamma_i, gamma_j]> for the Majorana operators of n sites *)
Definition covC n (rho : 'M[CR]_(2 ^ n)) : 'M[CR]_(2 * n) :=
  \matrix_(i, j) (- 'i * (\tr (rho *m gam CR n i *m gam CR n j) - \tr (rho *m gam CR n j *m gam CR n i))).
Definition covM n (rho : 'M[CR]_(2 ^ n)) : 'M[R]_(2 * n) := map_mx re (covC rho).

Lemma covC_real n (rho : 'M[CR]_(2 ^ n)) i j : hermitian rho -> covC rho i j \is Num.real.
Proof.
move=> h; apply/CrealP; rewrite !mxE rmorphM rmorphN conjCi opprK rmorphB /=.
have e a b : (a < 2 * n)%N -> (b < 2 * n)%N -> (\tr (rho *m gam CR n a *m gam CR n b))^* = \tr (rho *m gam CR n b *m gam CR n a).
  move=> ha hb; rewrite -trace_adjm !adjmM !gam_herm // h mulmxA mxtrace_mulC mulmxA; done.
by rewrite !e // -opprB mulrN -mulNr.
Qed.

Lemma covC_toC n (rho : 'M[CR]_(2 ^ n)) : hermitian rho -> covC rho = map_mx toC (covM rho).
Proof. by move=> h; apply/matrixP => i j; rewrite [RHS]mxE [covM _ _ _]mxE toC_re ?covC_real. Qed.

Lemma covM_anti n (rho : 'M[CR]_(2 ^ n)) : (covM rho)^T = - covM rho.
Proof.
apply/matrixP => i j; rewrite [LHS]mxE [RHS]mxE ![covM _ _ _]mxE.
have -> : covC rho j i = - covC rho i j by rewrite !mxE -mulrN opprB.
exact: raddfN.
Qed.

Lemma fro0 r c : fro (ofM (0 : 'M[CR]_(r, c))) = 0.
Proof.
rewrite /fro big1 ?sqrtr0 // => i _; rewrite big1 // => j _; by rewrite ofM_get mxE normr0 raddf0 expr0n.
Qed.

(* ------------------------------------------------------------------ *)
(* real antisymmetric quasi-triangular matrices                        *)
(* ------------------------------------------------------------------ *)
Section Skew.
Variables (m : nat) (T : 'M[R]_m).
Hypotheses (aT : T^T = - T) (qT : quasi_tri T).

(* the superdiagonal entry T_(i, i+1) *)
Definition tf (i : nat) : R := if (i.+1 < m)%N then re (get (ofM (map_mx toC T)) i i.+1) else 0.

Lemma tfE (i j : 'I_m) : val j = i.+1 -> T i j = tf i.
Proof. by move=> e; rewrite /tf -e ltn_ord ofM_get mxE reK. Qed.
Lemma aTE i j : T i j = - T j i.
Proof. by move/matrixP: aT => /(_ j i); rewrite !mxE. Qed.
Lemma Tii i : T i i = 0.
Proof.
have h := aTE i i; have : T i i *+ 2 = 0 by rewrite mulr2n {1}h addNr.
by move/eqP; rewrite mulrn_eq0 /= => /eqP.
Qed.
Lemma TE (i j : 'I_m) : T i j = if val j == i.+1 then tf i else if val i == j.+1 then - tf j else 0.
Proof.
have [q1 _] := qT.
case: eqP => [/tfE //|h1]; case: eqP => [/tfE e|h2]; first by rewrite aTE e.
rewrite /= in h1 h2; case: (ltngtP i j) => [ij|ji|/val_inj ->]; last exact: Tii.
  by rewrite aTE q1 ?oppr0 //; lia.
by rewrite q1 //; lia.
Qed.
Lemma tf_adj i : tf i = 0 \/ tf i.+1 = 0.
Proof.
case: (ltnP i.+2 m) => h; last by right; rewrite /tf ltnNge h.
have hi : (i < m)%N by lia.
have hj : (i.+1 < m)%N by lia.
have [_ /(_ (Ordinal hi) (Ordinal hj) (Ordinal h) erefl erefl)] := qT.
rewrite aTE [T (Ordinal h) _]aTE (@tfE (Ordinal hi) (Ordinal hj)) // (@tfE (Ordinal hj) (Ordinal h)) //=.
by case=> /eqP; rewrite oppr_eq0 => /eqP; [left|right].
Qed.
Lemma tf_out i : (m <= i.+1)%N -> tf i = 0.
Proof. by move=> h; rewrite /tf ltnNge h. Qed.

(* the entries the code collects *)
Section Th.
Variable th : R.
Hypothesis th0 : 0 <= th.
Let Lc := ofM (map_mx toC T).

Lemma get_Lc i j : (i < m)%N -> (j < m)%N -> (i <= j)%N -> get Lc i j = if j == i.+1 then toC (tf i) else 0.
Proof.
move=> hi hj ij; rewrite -[ i ]/(val (Ordinal hi)) -[j]/(val (Ordinal hj)) ofM_get mxE TE /=.
by case: eqP => // _; case: eqP => [e|_]; rewrite ?rmorph0 //; lia.
Qed.

Lemma row_list i : (i < m)%N -> [seq get Lc i j | j <- iota i (m - i) & th < re `|get Lc i j|] =
  if th < `|tf i| then [:: toC (tf i)] else [::].
Proof.
move=> hi; have z0 : (th < re `|0 : CR|) = false by rewrite normr0 raddf0 ltNge th0.
have e : {in iota i (m - i), (fun j => th < re `|get Lc i j|) =1 (fun j => (j == i.+1) && (th < `|tf i|))}.
  move=> j; rewrite mem_iota => /andP[h1 h2]; have jm : (j < m)%N by lia.
  by rewrite get_Lc //; case: eqP => _; rewrite ?z0 // toC_norm reK.
rewrite (eq_in_filter e); case: ifP => h; last first.
  by rewrite (eq_filter (a2 := pred0)) ?filter_pred0 // => j; rewrite /= andbF.
have hi1 : (i.+1 < m)%N by rewrite ltnNge; apply/negP => /tf_out t0; move: h; rewrite t0 normr0 ltNge th0.
rewrite (eq_filter (a2 := pred1 i.+1)) => [|j]; last by rewrite /= andbT.
rewrite filter_pred1_uniq ?iota_uniq //; last by rewrite mem_iota; lia.
by rewrite [LHS]/= get_Lc // eqxx.
Qed.

Lemma list_E : flatten [seq [seq get Lc i j | j <- iota i (m - i) & th < re `|get Lc i j|] | i <- iota 0 m] =
  [seq toC (tf i) | i <- iota 0 m & th < `|tf i|].
Proof.
have : forall i, i \in iota 0 m -> (i < m)%N by move=> i; rewrite mem_iota.
elim: (iota 0 m) => //= i s IH h; rewrite row_list; last by apply: h; rewrite mem_head.
by rewrite IH => [|j hj]; [case: ifP|apply: h; rewrite inE hj orbT].
Qed.

End Th.

(* T^T T is diagonal *)
Let tp (a : nat) : R := if a is a'.+1 then tf a' else 0.
Lemma TTE : T^T *m T = diag_mx (\row_(a < m) (tf a ^+ 2 + tp a ^+ 2)).
Proof.
apply/matrixP => a b; rewrite !mxE.
case: (eqVneq a b) => [->|ab]; rewrite ?mulr1n ?mulr0n; last first.
  apply: big1 => c _; rewrite !mxE !TE.
  case: (eqVneq (val a) c.+1) => e1; case: (eqVneq (val b) c.+1) => e2.
  - by case/eqP: ab; apply: val_inj; rewrite /= e1 e2.
  - case: (eqVneq (val c) b.+1) => e3; rewrite ?mulr0 // e3.
    by case: (tf_adj b) => ->; rewrite ?oppr0 ?mulr0 ?mul0r.
  - case: (eqVneq (val c) a.+1) => e3; rewrite ?mul0r // e3.
    by case: (tf_adj a) => ->; rewrite ?oppr0 ?mulr0 ?mul0r.
  - case: (eqVneq (val c) a.+1) => e3; rewrite ?mul0r //; case: (eqVneq (val c) b.+1) => e4; rewrite ?mulr0 //.
    by case/eqP: ab; apply: val_inj; move: e3; rewrite e4 => -[].
have -> : \sum_j T^T b j * T j b = \sum_(j < m) ((if val b == j.+1 then tf j ^+ 2 else 0) + (if val j == b.+1 then tf b ^+ 2 else 0)).
  apply: eq_bigr => c _; rewrite mxE TE; case: eqP => [e|_].
    by rewrite -expr2 ifF ?addr0 //; move: e => /= e; apply/eqP => /= e2; lia.
  by case: eqP => _; rewrite ?mulr0 ?addr0 // mulrNN add0r expr2.
rewrite big_split /= addrC; congr (_ + _).
  case: (ltnP b.+1 m) => hb; last first.
    rewrite (tf_out hb) expr0n /= big1 // => c _; by case: ifP.
  rewrite (bigD1 (Ordinal hb)) //= eqxx big1 ?addr0 // => c hc.
  by rewrite ifF //; apply/negP => /eqP e; case/eqP: hc; apply: val_inj.
case eb: (val b) => [|b'].
  by rewrite /tp expr0n big1 // => c _; rewrite ifF.
have hb : (b' < m)%N by rewrite ltnW // -eb ltn_ord.
rewrite (bigD1 (Ordinal hb)) //= eqxx big1 ?addr0 // => c hc.
by rewrite ifF //; apply/negP => /eqP [e]; case/eqP: hc; apply: val_inj.
Qed.

Definition mpow (A : 'M[R]_m) k := iter k (mulmx A) 1%:M.

Lemma mpow_diag (s : 'rV[R]_m) k : mpow (diag_mx s) k = diag_mx (\row_a (s 0 a ^+ k)).
Proof.
elim: k => [|k IH].
  by apply/matrixP => i j; rewrite !mxE expr0; case: eqP.
rewrite /mpow iterS -/(mpow _ _) IH mulmx_diag; congr diag_mx; apply/matrixP => i j; by rewrite !mxE exprS.
Qed.

Lemma tr_TT k : (0 < k)%N -> \tr (mpow (T^T *m T) k) = 2%:R * \sum_(i < m) tf i ^+ (2 * k).
Proof.
move=> k0; rewrite TTE mpow_diag mxtrace_diag.
rewrite (eq_bigr (fun a : 'I_m => tf a ^+ (2 * k) + tp a ^+ (2 * k))) => [|a _]; last first.
  rewrite !mxE !exprM; case: a => -[|a] ha /=; first by rewrite expr0n addr0 expr0n eqn0Ngt k0 addr0.
  by case: (tf_adj a) => ->; rewrite expr0n /= ?addr0 ?add0r expr0n eqn0Ngt k0 ?addr0 ?add0r.
rewrite big_split /= [RHS]mulr_natl mulr2n; congr (_ + _).
rewrite -!(big_mkord xpredT (fun i => _ i ^+ (2 * k))).
have z : 0 ^+ (2 * k) = 0 :> R by rewrite expr0n muln_eq0 [k == 0%N]eqn0Ngt k0.
case: m tf_out => [|m'] to; first by rewrite !big_geq.
by rewrite big_nat_recl // big_nat_recr //= to // z addr0 add0r.
Qed.
End Skew.

(* ------------------------------------------------------------------ *)
(* rotated Majorana operators and the bound |T_ij| <= 1                *)
(* ------------------------------------------------------------------ *)
Section Rot.
Variables (n : nat) (rho : 'M[CR]_(2 ^ n)) (Z T : 'M[R]_(2 * n)).
Hypotheses (dr : density rho) (oZ : Z *m Z^T = 1%:M) (eM : covM rho = Z *m T *m Z^T).
Local Notation gm := (gam CR n).

Let g (i : 'I_(2 * n)) : 'M[CR]_(2 ^ n) := \sum_a toC (Z a i) *: gm a.

Lemma g_mul i j : g i *m g j = \sum_a \sum_b (toC (Z a i) * toC (Z b j)) *: (gm a *m gm b).
Proof.
rewrite /g mulmx_suml; apply: eq_bigr => a _; rewrite mulmx_sumr; apply: eq_bigr => b _.
by rewrite -scalemxAl -scalemxAr scalerA.
Qed.

Lemma g_anti i j : g i *m g j + g j *m g i = ((i == j)%:R)%:M.
Proof.
rewrite [g j *m g i]g_mul exchange_big g_mul -big_split /=.
rewrite (eq_bigr (fun a => (toC (Z a i) * toC (Z a j))%:M)) => [|a _]; last first.
  rewrite -big_split /= (bigD1 a) //= big1 ?addr0 => [|b /negPf ab].
    by rewrite [toC (Z a j) * _]mulrC -scalerDr gam_anti // eqxx scalemx1.
  rewrite [toC (Z b j) * _]mulrC -scalerDr gam_anti //.
  by rewrite (_ : (a == b :> nat) = false) ?raddf0 ?scaler0 // eq_sym.
rewrite -raddf_sum /=; congr (_%:M).
have := mulmx1C oZ => /matrixP/(_ i j); rewrite !mxE => h; rewrite -toC_nat -h raddf_sum; apply: eq_bigr => a _.
by rewrite mxE; exact: (esym (rmorphM toC_rmorphism _ _)).
Qed.

Lemma g_herm i : adjm (g i) = g i.
Proof.
rewrite adjm_sum; apply: eq_bigr => a _; rewrite adjmZ gam_herm // (CrealP (toC_real _)) //.
Qed.

Lemma tr_g i j : \tr (g i *m g j *m rho) = \sum_a \sum_b toC (Z a i) * toC (Z b j) * \tr (gm a *m gm b *m rho).
Proof.
rewrite g_mul mulmx_suml raddf_sum; apply: eq_bigr => a _; rewrite mulmx_suml raddf_sum; apply: eq_bigr => b _.
by rewrite -scalemxAl /= mxtraceZ.
Qed.

Lemma T_as_exp i j : toC (T i j) = \tr ((- 'i *: (g i *m g j - g j *m g i)) *m rho).
Proof.
have eT : T = Z^T *m covM rho *m Z.
  by rewrite eM !mulmxA (mulmx1C oZ) mul1mx -mulmxA (mulmx1C oZ) mulmx1.
have [[h _] _] := dr.
have -> : toC (T i j) = \sum_a \sum_b toC (Z a i) * toC (Z b j) * covC rho a b.
  rewrite eT mxE toC_sum [RHS]exchange_big /=; apply: eq_bigr => b _; rewrite toCM mxE toC_sum mulr_suml.
  apply: eq_bigr => a _; rewrite toCM mxE covC_toC // [map_mx toC _ _ _]mxE; exact: mulrAC.
rewrite -scalemxAl mxtraceZ mulmxBl raddfB /= !tr_g [X in _ - X]exchange_big /=.
rewrite -sumrB mulr_sumr; apply: eq_bigr => a _; rewrite -sumrB mulr_sumr; apply: eq_bigr => b _.
rewrite mxE [toC (Z b j) * _]mulrC -mulrBr mulrCA; congr (_ * (_ * (_ - _))).
  by rewrite -mulmxA mxtrace_mulC.
by rewrite -mulmxA mxtrace_mulC.
Qed.

Lemma T_le1 i j : i != j -> `|T i j| <= 1.
Proof.
move=> ij; rewrite -toC_le -toC_norm rmorph1 T_as_exp; apply: tr_reflection => //.
  rewrite /hermitian adjmZ adjmB !adjmM !g_herm rmorphN conjCi opprK.
  by rewrite -[g j *m g i - _]opprB scalerN scaleNr.
have e : g j *m g i = - (g i *m g j) by apply/eqP; rewrite -addr_eq0 addrC g_anti (negPf ij) raddf0.
have sq k : g k *m g k = (2%:R^-1)%:M.
  apply: (@scalerI _ _ (2%:R : CR)); first by rewrite pnatr_eq0.
  by rewrite scaler_nat mulr2n g_anti eqxx scale_scalar_mx mulfV // pnatr_eq0.
rewrite e opprK -mulr2n -scalemxAl -scalemxAr scalerA mulrNN -expr2 sqrCi -[_ *+ 2]scaler_nat.
rewrite -scalemxAl -scalemxAr !scalerA mulmxA -(mulmxA (g i)) e mulmxN mulNmx mulmxA sq -mulmxA sq.
rewrite -scalar_mxM scalerN -scaleNr mulN1r opprK scale_scalar_mx; congr (_%:M).
by rewrite -[2%:R^-1 * _]invfM mulfV // mulf_neq0 // pnatr_eq0.
Qed.
End Rot.

(* ------------------------------------------------------------------ *)
(* sums without two adjacent nonzero terms                             *)
(* ------------------------------------------------------------------ *)
Section Pairs.
Variable F : nat -> R.
Hypotheses (F0 : forall i, 0 <= F i <= 1) (Fa : forall i, F i = 0 \/ F i.+1 = 0).

Lemma two_sum n : \sum_(i < 2 * n.+1) F i = \sum_(i < 2 * n) F i + (F (2 * n)%N + F (2 * n).+1).
Proof. by rewrite mulnS -(big_mkord xpredT) add2n !big_nat_recr //= big_mkord addrA. Qed.

Lemma two_le n : F (2 * n)%N + F (2 * n).+1 <= 1.
Proof. by case: (Fa (2 * n)) => ->; rewrite ?add0r ?addr0; have /andP[] := F0 (2 * n); have /andP[] := F0 (2 * n).+1. Qed.

Lemma pair_le n : \sum_(i < 2 * n) F i <= n%:R.
Proof.
elim: n => [|n IH]; first by rewrite big_ord0.
by rewrite two_sum [n.+1%:R]mulrSr ler_add // two_le.
Qed.

Lemma pair_eq n : \sum_(i < 2 * n) F i = n%:R -> (forall m, (m.+1 = 2 * n)%N -> F m = 0) ->
  forall m, (m < n)%N -> F (2 * m)%N = 1 /\ F (2 * m).+1 = 0.
Proof.
elim: n => // n IH; rewrite two_sum [n.+1%:R]mulrSr => e z.
have z1 : F (2 * n).+1 = 0 by apply: z; lia.
have l1 := pair_le n; have /andP[_ l2] := F0 (2 * n); rewrite z1 addr0 in e.
have e2 : F (2 * n)%N = 1.
  apply/eqP; rewrite eq_le l2 /= -(ler_add2l n%:R) -e ler_add2r //.
have e1 : \sum_(i < 2 * n) F i = n%:R by move/eqP: e; rewrite e2 (inj_eq (addIr _)) => /eqP.
move=> m; rewrite ltnS leq_eqVlt => /orP[/eqP ->|]; first by [].
apply: IH => // k ek; case: (Fa k) => //; rewrite ek e2 => /eqP; by rewrite oner_eq0.
Qed.
End Pairs.

Lemma knorm_powE (pm : seq CR) k : (0 < k)%N -> knorm_pow pm k = \sum_(z <- pm) (re `|z|) ^+ k.
Proof.
move=> k0; rewrite /knorm_pow eqn0Ngt k0 /=; set S := \sum_(z <- pm) _.
have S0 : 0 <= S by apply: sumr_ge0 => z _; rewrite exprn_ge0 // re_norm_ge0.
rewrite -rpow_nat ?rpow_ge0 // rpowM // mulVf ?rpow1 // pnatr_eq0 -lt0n //.
Qed.

Lemma mpow_conj m (Z A : 'M[R]_m) k : Z *m Z^T = 1%:M -> mpow (Z *m A *m Z^T) k = Z *m mpow A k *m Z^T.
Proof.
move=> oZ; elim: k => [|k IH]; first by rewrite /mpow /= mulmx1.
by rewrite /mpow !iterS -!/(mpow _ _) IH !mulmxA -(mulmxA (Z *m A)) (mulmx1C oZ) mulmx1.
Qed.

Section S.
Variable schur : arr -> arr.
Hypothesis schurP : schur_spec schur.

Let th : R := (10%:R ^+ 10)^-1.

Lemma covdistE n (x : input) (rho : 'M[CR]_(2 ^ n)) : cast_to_density_matrix x = Ok (ofM rho) -> density rho ->
  let Lc := schur (ofM (map_mx toC (covM rho))) in
  cov_distribution schur x = Ok [seq z ^+ 2 | z <- flatten [seq [seq get Lc i j | j <- iota i (2 * n - i) & th < re `|get Lc i j|]
                             | i <- iota 0 (2 * n)]].
Proof.
move=> ex [[h _] _] Lc; rewrite /cov_distribution ex {1}/bind (_ : nr (ofM rho) = (2 ^ n)%N) // trunc_expnK // majoranas_ops cov_ops // /bind.
set M0 := ascale _ _.
have -> : M0 = ofM (map_mx toC (covM rho)).
  by rewrite /M0 ofM_mk ofM_scale -covC_toC //; congr ofM; apply/matrixP => i j; rewrite !mxE.
set K := map_mx toC (covM rho).
have -> : mk (nr (ofM K)) (nc (ofM K)) (fun i j => toC (im (get (ofM K) i j))) = ofM (0 : 'M[CR]_(2 * n)).
  by rewrite ofM_mk; congr ofM; apply/matrixP => i j; rewrite !mxE ofM_get mxE im_toC.
rewrite fro0 rclose_refl.
have -> : mk (nr (ofM K)) (nc (ofM K)) (fun i j => toC (re (get (ofM K) i j))) = ofM K.
  by rewrite ofM_mk; congr ofM; apply/matrixP => i j; rewrite mxE ofM_get mxE reK.
have -> : aadd (ofM K) (atr (ofM K)) = ofM (0 : 'M[CR]_(2 * n)).
  rewrite ofM_tr ofM_add; congr ofM; rewrite /K map_trmx covM_anti; apply/matrixP => i j.
  by rewrite !mxE rmorphN subrr.
by rewrite fro0 rclose_refl.
Qed.

Lemma th_gt0 : 0 < th. Proof. by rewrite invr_gt0 exprn_gt0 // ltr0n. Qed.
Lemma th_lt1 : th < 1. Proof. by rewrite invf_lt1 ?exprn_gt0 ?exprn_egt1 ?ltr0n ?ltr1n. Qed.

Lemma schur_state n (rho : 'M[CR]_(2 ^ n)) : density rho -> exists Z T : 'M[R]_(2 * n),
  [/\ Z *m Z^T = 1%:M, covM rho = Z *m T *m Z^T, T^T = - T, quasi_tri T /\ (forall i, `|tf T i| <= 1) &
      schur (ofM (map_mx toC (covM rho))) = ofM (map_mx toC T)].
Proof.
move=> d; have [Z [T [oZ eM qT es]]] := schurP (covM_anti rho); exists Z, T.
have aT : T^T = - T.
  have eT : T = Z^T *m covM rho *m Z by rewrite eM !mulmxA (mulmx1C oZ) mul1mx -mulmxA (mulmx1C oZ) mulmx1.
  by rewrite eT !trmx_mul trmxK covM_anti mulNmx mulmxN mulmxA.
split=> //; split=> // i; case: (ltnP i.+1 (2 * n)) => h; last by rewrite tf_out // normr0 ler01.
have hi : (i < 2 * n)%N by exact: ltnW.
rewrite -(@tfE _ T (Ordinal hi) (Ordinal h)) //; apply: (T_le1 d oZ eM).
by rewrite -val_eqE /= ltn_eqF.
Qed.

(* the distribution: at most n numbers in (0, 1] *)
Theorem C36_distribution n (x : input) (rho : 'M[CR]_(2 ^ n)) : cast_to_density_matrix x = Ok (ofM rho) -> density rho ->
  exists2 l : seq R, cov_distribution schur x = Ok [seq toC z | z <- l] &
  (size l <= n)%N /\ all (fun z => 0 < z <= 1) l.
Proof.
move=> ex d; have [Z [T [oZ eM aT [qT t1] es]]] := schur_state d.
exists [seq tf T i ^+ 2 | i <- iota 0 (2 * n) & th < `|tf T i|].
  rewrite (covdistE ex d) es list_E ?(ltW th_gt0) // -!map_comp; congr Ok.
  by apply: eq_map => i /=; rewrite rmorphX.
split; last first.
  rewrite all_map; apply/allP => i; rewrite mem_filter => /andP[ti _] /=.
  have p : 0 < `|tf T i| by exact: lt_trans th_gt0 ti.
  by rewrite -real_normK ?num_real // exprn_gt0 //= expr_le1.
rewrite size_map size_filter -(ler_nat R_numDomainType).
have -> : (count (fun i => th < `|tf T i|) (iota 0 (2 * n)))%:R = \sum_(i < 2 * n) (th < `|tf T i|)%R%:R :> R.
  by rewrite -(big_mkord xpredT (fun i => (th < `|tf T i|)%R%:R)) /index_iota subn0 -sum1_count natr_sum big_mkcond /=;
    apply: eq_bigr => i _; case: ifP.
apply: (@pair_le (fun i => (th < `|tf T i|)%R%:R)) => i; first by case: (_ < _); rewrite ?lexx ?ler01.
by case: (tf_adj aT qT i) => ->; [left|right]; rewrite normr0 ltNge (ltW th_gt0).
Qed.

Definition ft n (T : 'M[R]_(2 * n)) k i : R := if th < `|tf T i| then tf T i ^+ (2 * k) else 0.

Lemma FAF_E n (x : input) (rho : 'M[CR]_(2 ^ n)) k : cast_to_density_matrix x = Ok (ofM rho) -> density rho ->
  (0 < k)%N -> forall T : 'M[R]_(2 * n), T^T = - T -> quasi_tri T ->
  schur (ofM (map_mx toC (covM rho))) = ofM (map_mx toC T) ->
  FAF schur x k = Ok (n%:R - \sum_(i < 2 * n) ft T k i).
Proof.
move=> ex d k0 T aT qT es; rewrite /FAF ex {1}/bind (_ : nr (ofM rho) = (2 ^ n)%N) // trunc_expnK //.
rewrite (covdistE (C25_density d) d) es list_E ?(ltW th_gt0) // /bind knorm_powE // -map_comp big_map.
congr (Ok (_ - _)); rewrite -(big_mkord xpredT (ft T k)) /index_iota subn0 big_filter big_mkcond.
apply: eq_bigr => i _; rewrite /ft; case: ifP => // _.
by rewrite -[X in re `|X|]/(toC (tf T i) ^+ 2) -toCX toC_norm reK ger0_norm ?sqr_ge0 // exprM.
Qed.

Lemma ft_ok n (T : 'M[R]_(2 * n)) k : T^T = - T -> quasi_tri T -> (forall i, `|tf T i| <= 1) -> (0 < k)%N ->
  (forall i, 0 <= ft T k i <= 1) /\ (forall i, ft T k i = 0 \/ ft T k i.+1 = 0).
Proof.
move=> aT qT t1 k0; split=> i.
  rewrite /ft; case: ifP => _; rewrite ?lexx ?ler01 // exprM -real_normK ?num_real // -exprM exprn_ge0 //=.
  by rewrite exprn_ile1.
by case: (tf_adj aT qT i) => e; [left|right]; rewrite /ft e normr0 ltNge (ltW th_gt0).
Qed.

Theorem C36_bounds n (x : input) (rho : 'M[CR]_(2 ^ n)) k : cast_to_density_matrix x = Ok (ofM rho) -> density rho ->
  (0 < k)%N -> exists2 f, FAF schur x k = Ok f & 0 <= f <= n%:R.
Proof.
move=> ex d k0; have [Z [T [oZ eM aT [qT t1] es]]] := schur_state d.
have [f1 f2] := ft_ok aT qT t1 k0; eexists; first exact: FAF_E es.
rewrite subr_ge0 pair_le //= ler_subl_addr ler_addl sumr_ge0 // => i _; by have /andP[] := f1 i.
Qed.

(* independent of the Schur form: n - tr((M^T M)^k)/2, up to the entries below 1e-10 that are dropped *)
Theorem C36_value n (x : input) (rho : 'M[CR]_(2 ^ n)) k : cast_to_density_matrix x = Ok (ofM rho) -> density rho ->
  (0 < k)%N -> let M := covM rho in let f := n%:R - 2%:R^-1 * \tr (mpow (M^T *m M) k) in
  exists2 g, FAF schur x k = Ok g & f <= g <= f + (2 * n)%:R * ((10%:R ^+ 10)^-1) ^+ (2 * k).
Proof.
move=> ex d k0 M f; have [Z [T [oZ eM aT [qT t1] es]]] := schur_state d.
eexists; first exact: FAF_E es.
have -> : f = n%:R - \sum_(i < 2 * n) tf T i ^+ (2 * k).
  rewrite /f /M eM !trmx_mul trmxK -!mulmxA (mulmxA Z^T) (mulmx1C oZ) mul1mx !mulmxA -[Z *m T^T *m T]mulmxA mpow_conj //.
  by rewrite mxtrace_mulC mulmxA (mulmx1C oZ) mul1mx tr_TT // mulrA mulVf ?mul1r // pnatr_eq0.
have e i : tf T i ^+ (2 * k) = `|tf T i| ^+ (2 * k) by rewrite !exprM real_normK ?num_real.
apply/andP; split.
  rewrite ler_add2l ler_opp2; apply: ler_sum => i _; rewrite /ft; case: ifP => // _; by rewrite e exprn_ge0.
rewrite -addrA ler_add2l ler_oppl opprD opprK ler_subl_addr mulr_natl.
have -> : 10%:R ^- 10 ^+ (2 * k) *+ (2 * n) = \sum_(i < 2 * n) 10%:R ^- 10 ^+ (2 * k) :> R by rewrite sumr_const card_ord.
rewrite -big_split /=.
apply: ler_sum => i _; rewrite /ft; case: ifP => h; first by rewrite ler_addl exprn_ge0 // ltW // th_gt0.
by rewrite add0r e ler_expn2r ?nnegrE ?(ltW th_gt0) // leNgt h.
Qed.

(* zero exactly when the covariance matrix is orthogonal *)
Theorem C36_zero n (x : input) (rho : 'M[CR]_(2 ^ n)) k : cast_to_density_matrix x = Ok (ofM rho) -> density rho ->
  (0 < k)%N -> (FAF schur x k = Ok 0 <-> (covM rho)^T *m covM rho = 1%:M).
Proof.
move=> ex d k0; have [Z [T [oZ eM aT [qT t1] es]]] := schur_state d.
have [f1 f2] := ft_ok aT qT t1 k0; rewrite (FAF_E ex d k0 aT qT es).
have eTT : (covM rho)^T *m covM rho = Z *m (T^T *m T) *m Z^T.
  by rewrite eM !trmx_mul trmxK -!mulmxA (mulmxA Z^T) (mulmx1C oZ) mul1mx.
have a1 i : `|tf T i| ^+ (2 * k) = 1 <-> `|tf T i| = 1.
  by split=> [/eqP|->]; rewrite ?expr1n // pexpr_eq1 ?muln_gt0 // => /eqP.
have e i : tf T i ^+ (2 * k) = `|tf T i| ^+ (2 * k) by rewrite !exprM real_normK ?num_real.
split=> [[]/eqP|h].
  rewrite subr_eq0 eq_sym => /eqP s.
  have z m : (m.+1 = 2 * n)%N -> ft T k m = 0 by move=> em; rewrite /ft tf_out ?em // normr0 ltNge (ltW th_gt0).
  have pe := pair_eq f1 f2 s z.
  have t1' m : (m < n)%N -> `|tf T (2 * m)| = 1.
    move=> /pe[+ _]; rewrite /ft; case: ifP => _; last by move/eqP; rewrite eq_sym oner_eq0.
    by rewrite e => /a1.
  have odd0 i : odd i -> tf T i = 0.
    move=> oi; case: (ltnP i (2 * n)) => hi; last by rewrite tf_out // ltnW.
    have ei : i = (2 * i./2).+1 by rewrite -{1}(odd_double_half i) oi mul2n add1n.
    have hm : (i./2 < n)%N by lia.
    case: (tf_adj aT qT (2 * i./2)) => [e0|]; last by rewrite -ei.
    by have := t1' _ hm; rewrite e0 normr0 => /eqP; rewrite eq_sym oner_eq0.
  rewrite eTT TTE // (_ : diag_mx _ = 1%:M) ?mulmx1 //.
  apply/matrixP => i j; rewrite !mxE; congr (_ *+ _).
  have ev a : (a < 2 * n)%N -> ~~ odd a -> tf T a ^+ 2 = 1.
    move=> ha oa; have ea : a = (2 * a./2)%N by rewrite -{1}(odd_double_half a) (negPf oa) mul2n.
    by rewrite -real_normK ?num_real // ea t1' ?expr1n //; lia.
  case: i => i hi /=; case oi: (odd i).
    rewrite (odd0 i oi) expr0n add0r; case: i hi oi => // i hi /= oi; by rewrite ev // ltnW.
  rewrite (ev i hi) ?oi //; case: i hi oi => [|i] hi /= oi; first by rewrite expr0n addr0.
  by rewrite odd0 ?expr0n ?addr0 //; move/negbFE: oi.
have {}h : T^T *m T = 1%:M.
  have : Z^T *m ((covM rho)^T *m covM rho) *m Z = 1%:M by rewrite h mulmx1 (mulmx1C oZ).
  by rewrite eTT !mulmxA (mulmx1C oZ) mul1mx -mulmxA (mulmx1C oZ) mulmx1.
have tv i : tf T i ^+ 2 = 0 \/ tf T i ^+ 2 = 1.
  case: (ltnP i (2 * n)) => hi; last by left; rewrite tf_out ?expr0n // ltnW.
  move/matrixP: h => /(_ (Ordinal hi) (Ordinal hi)); rewrite TTE // !mxE eqxx /=.
  case: i hi => [|i] hi; first by rewrite expr0n addr0; right.
  by case: (tf_adj aT qT i) => ->; rewrite expr0n ?addr0; [right|left].
have ftE i : ft T k i = tf T i ^+ (2 * k).
  rewrite /ft exprM; case: (tv i) => e2.
    by rewrite e2 expr0n eqn0Ngt k0 /= if_same.
  rewrite ifT //; have : `|tf T i| = 1.
    by apply/eqP; rewrite -(@pexpr_eq1 _ _ 2) // real_normK ?num_real // e2.
  by move=> ->; exact: th_lt1.
rewrite (eq_bigr _ (fun i _ => ftE (val i))); congr Ok; apply/eqP; rewrite subr_eq0; apply/eqP.
apply: (@mulfI _ (2%:R : R)); first by rewrite pnatr_eq0.
rewrite -tr_TT // h -natrM -(mxtrace1 R_ringType) /mpow; congr (\tr _).
by clear; elim: k => //= k <-; rewrite mul1mx.
Qed.

(* the maximally mixed (free fermion) state: FAF = n, not 0 *)
Theorem C36_mixed_refuted n (x : input) k : (0 < n)%N -> (0 < k)%N ->
  cast_to_density_matrix x = Ok (ofM ((2%:R ^+ n)^-1%:M : 'M[CR]_(2 ^ n))) -> FAF schur x k = Ok n%:R.
Proof.
move=> n0 k0 ex; set rho := (_%:M) in ex.
have d : density rho.
  have P0 : 0 < 2%:R ^+ n :> CR by rewrite exprn_gt0 ?ltr0n.
  split; last by rewrite mxtrace_scalar -[_ *+ _]mulr_natl natrX mulfV ?gt_eqF.
  apply/(@psd_diag _ _ _ 1%:M (const_mx (2%:R ^+ n)^-1)); rewrite ?/unitary ?adjm1 ?mulmx1 ?mul1mx ?diag_const_mx //.
  by move=> i; rewrite mxE invr_ge0 ltW.
have M0 : covM rho = 0.
  apply/matrixP => i j; rewrite mxE [RHS]mxE; have -> : covC rho i j = 0; last exact: raddf0.
  by rewrite mxE /rho -!mulmxA !mul_scalar_mx !mxtraceZ -mulrBr [\tr (_ *m gam _ _ i)]mxtrace_mulC subrr !mulr0.
have [Z [T [oZ eM aT [qT t1] es]]] := schur_state d.
rewrite (FAF_E ex d k0 aT qT es); congr Ok.
have T0 : T = 0.
  have eT : T = Z^T *m covM rho *m Z by rewrite eM !mulmxA (mulmx1C oZ) mul1mx -mulmxA (mulmx1C oZ) mulmx1.
  by rewrite eT M0 mulmx0 mul0mx.
rewrite big1 ?subr0 // => i _; rewrite /ft.
have -> : tf T i = 0; last by rewrite normr0 ltNge (ltW th_gt0).
case: (ltnP i.+1 (2 * n)) => h; last by rewrite tf_out.
by rewrite -(@tfE _ T i (Ordinal h)) // T0 mxE.
Qed.

(* order 0: np.linalg.norm(pm, 0) ** 0 = 1 *)
Theorem C36_order0 n (x : input) (rho : 'M[CR]_(2 ^ n)) : cast_to_density_matrix x = Ok (ofM rho) -> density rho ->
  FAF schur x 0 = Ok (n%:R - 1).
Proof.
move=> ex d; rewrite /FAF ex {1}/bind (_ : nr (ofM rho) = (2 ^ n)%N) // trunc_expnK //.
by rewrite (covdistE (C25_density d) d) /bind /knorm_pow eqxx expr0.
Qed.

End S.
