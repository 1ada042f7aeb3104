(* PropCont.v -- property C92: continuity of the covariance matrix and of FAF in the trace distance. *)
Set Warnings "-notation-overridden,-ambiguous-paths".
From Coq Require Import Reals.
From mathcomp Require Import all_ssreflect all_algebra.
From mathcomp Require Import complex.
From mathcomp.zify Require Import zify.
From Verif Require Import Base ArrC MCombinatorics MLib JW OpFam FermAlg LibFacts LibFacts3 MUtils Spectral RealC Info MDist PropLib1 PropUtils1 PropUtils2 PropDist1 PropDist2 PropDist3 Skew PropDist4 PropDist5.
Set Implicit Arguments.
Unset Strict Implicit.
Unset Printing Implicit Defensive.
Import Order.Theory GRing.Theory Num.Theory.
Local Open Scope ring_scope.

Local Notation arr := (arr CR).
Local Notation input := (input CR).

(* ------------------------------------------------------------------ *)
(* real matrices that do not increase the Euclidean norm               *)
(* ------------------------------------------------------------------ *)
Definition nsq m (v : 'cV[R]_m) : R := \sum_i v i 0 ^+ 2.
Definition shrink m (A : 'M[R]_m) := forall v, nsq (A *m v) <= nsq v.

Lemma nsqE m (v : 'cV[R]_m) : nsq v = (v^T *m v) 0 0.
Proof. by rewrite mxE; apply: eq_bigr => i _; rewrite mxE expr2. Qed.

Lemma shrink1 m : shrink (1%:M : 'M[R]_m).
Proof. by move=> v; rewrite mul1mx. Qed.
Lemma shrinkM m (A B : 'M[R]_m) : shrink A -> shrink B -> shrink (A *m B).
Proof. by move=> hA hB v; rewrite -mulmxA; exact: le_trans (hA _) (hB _). Qed.
Lemma shrink_pow m (A : 'M[R]_m) k : shrink A -> shrink (mpow A k).
Proof. by move=> hA; elim: k => [|k IH]; [exact: shrink1|rewrite /mpow iterS; exact: shrinkM]. Qed.
Lemma shrink_orth m (Z : 'M[R]_m) : Z^T *m Z = 1%:M -> shrink Z.
Proof. by move=> oZ v; rewrite !nsqE trmx_mul mulmxA -(mulmxA v^T) oZ mulmx1. Qed.
Lemma shrinkN m (A : 'M[R]_m) : shrink A -> shrink (- A).
Proof.
move=> hA v; rewrite mulNmx (_ : nsq (- _) = nsq (A *m v)); first exact: hA.
by apply: eq_bigr => i _; rewrite [(- (A *m v)) i 0]mxE sqrrN.
Qed.

Lemma shrink_entry m (A : 'M[R]_m) i j : shrink A -> `|A i j| <= 1.
Proof.
move=> /(_ (delta_mx j 0)); rewrite -colE {2}/nsq (bigD1 j) //= mxE !eqxx expr1n big1 => [|k /negPf kj]; last first.
  by rewrite mxE kj expr0n.
rewrite addr0 => h; rewrite -(@expr_le1 _ 2) // real_normK ?num_real //.
by apply: le_trans h; rewrite /nsq (bigD1 i) //= mxE ler_addl sumr_ge0 // => k _; rewrite sqr_ge0.
Qed.

(* a state's covariance matrix does not increase norms *)
Lemma shrink_cov n (rho : 'M[CR]_(2 ^ n)) : density rho -> shrink (covM rho).
Proof.
move=> d; have [schur sP] := schur_exists; have [Z [T [oZ eM aT [qT t1] _]]] := schur_state sP d.
rewrite eM; apply: shrinkM; last by apply: shrink_orth; rewrite trmxK.
apply: shrinkM; first exact: shrink_orth (mulmx1C oZ).
move=> v; rewrite !nsqE trmx_mul mulmxA -(mulmxA v^T) TTE // -nsqE mxE; apply: ler_sum => i _.
rewrite mul_mx_diag !mxE mulrAC -expr2 -[X in _ <= X]mulr1 ler_wpmul2l ?sqr_ge0 //.
have sq1 k : tf T k ^+ 2 <= 1 by rewrite -real_normK ?num_real // expr_le1.
case: i => -[|i] hi /=; first by rewrite expr0n addr0.
by case: (tf_adj aT qT i) => ->; rewrite expr0n ?addr0 ?add0r.
Qed.

(* ------------------------------------------------------------------ *)
(* differences of expectation values                                   *)
(* ------------------------------------------------------------------ *)
Lemma reflection_contraction n (P : 'M[CR]_n) : hermitian P -> P *m P = 1%:M -> contraction P.
Proof.
move=> hP P2.
have h (s : CR) : s \is Num.real -> s * s = 1 -> psd (1%:M + s *: P).
  move=> sr s2; set B := 1%:M + s *: P.
  have hB : adjm B = B by rewrite /B adjmD adjm1 adjmZ hP (CrealP sr).
  have B2 : B *m B = 2%:R *: B.
    rewrite /B mulmxDl mul1mx mulmxDr mulmx1 -scalemxAl -scalemxAr P2 scalerA s2 scale1r.
    by rewrite scaler_nat mulr2n [s *: P + _]addrC.
  have -> : B = 2%:R^-1 *: (adjm B *m B) by rewrite hB B2 scalerA mulVf ?scale1r // pnatr_eq0.
  by apply: psdZ; [rewrite invr_ge0 ler0n|exact: psd_gram].
split; last by rewrite -[P]scale1r; apply: h; rewrite ?rpred1 ?mulr1.
by rewrite -[- P]scaleN1r; apply: h; rewrite ?rpredN ?rpred1 // mulrNN mulr1.
Qed.

Section Rot.
Variables (n : nat) (rho sigma : 'M[CR]_(2 ^ n)) (Z : 'M[R]_(2 * n)).
Hypotheses (dr : density rho) (ds : density sigma) (oZ : Z *m Z^T = 1%:M).
Local Notation gm := (gam CR n).
Let g (i : 'I_(2 * n)) : 'M[CR]_(2 ^ n) := \sum_a toC (Z a i) *: gm a.

Lemma rot_reflection i j : i != j -> contraction (- 'i *: (g i *m g j - g j *m g i)).
Proof.
move=> ij; have hg k : adjm (g k) = g k by exact: g_herm.
apply: reflection_contraction.
  rewrite /hermitian adjmZ adjmB !adjmM !hg rmorphN conjCi opprK.
  by rewrite -[g j *m g i - _]opprB scalerN scaleNr.
have e : g j *m g i = - (g i *m g j) by apply/eqP; rewrite -addr_eq0 addrC g_anti // (negPf ij) raddf0.
have sq k : g k *m g k = (2%:R^-1)%:M.
  apply: (@scalerI _ _ (2%:R : CR)); first by rewrite pnatr_eq0.
  by rewrite scaler_nat mulr2n g_anti // eqxx scale_scalar_mx mulfV // pnatr_eq0.
rewrite e opprK -mulr2n -scalemxAl -scalemxAr scalerA mulrNN -expr2 sqrCi -[_ *+ 2]scaler_nat.
rewrite -scalemxAl -scalemxAr !scalerA mulmxA -(mulmxA (g i)) e mulmxN mulNmx mulmxA sq -mulmxA sq.
rewrite -scalar_mxM scalerN -scaleNr mulN1r opprK scale_scalar_mx; congr (_%:M).
by rewrite -[2%:R^-1 * _]invfM mulfV // mulf_neq0 // pnatr_eq0.
Qed.

Lemma rot_diff i j : `|(Z^T *m (covM rho - covM sigma) *m Z) i j| <= re (tn (rho - sigma)).
Proof.
have hD : hermitian (rho - sigma) by have [[hr _] _] := dr; have [[hs _] _] := ds; exact: hermB.
have eT (M : 'M[R]_(2 * n)) : M = Z *m (Z^T *m M *m Z) *m Z^T.
  by rewrite !mulmxA oZ mul1mx -mulmxA oZ mulmx1.
have [->|ij] := eqVneq i j.
  have /matrixP/(_ j j) : (Z^T *m (covM rho - covM sigma) *m Z)^T = - (Z^T *m (covM rho - covM sigma) *m Z).
    by rewrite !trmx_mul trmxK linearB /= !covM_anti -opprD mulNmx mulmxN mulmxA.
  set A := _ *m Z; rewrite [LHS]mxE [RHS]mxE => h; have : A j j *+ 2 = 0 by rewrite mulr2n {1}h addNr.
  move/eqP; rewrite mulrn_eq0 /= => /eqP ->; rewrite normr0 -toC_le rmorph0 re_tn; exact: tn_ge0.
have eB (A B : 'M[R]_(2 * n)) : toC ((Z^T *m (A - B) *m Z) i j) = toC ((Z^T *m A *m Z) i j) - toC ((Z^T *m B *m Z) i j).
  by rewrite mulmxBr mulmxBl mxE [X in _ + X]mxE rmorphB.
rewrite -toC_le -toC_norm re_tn eB.
rewrite (T_as_exp dr oZ (eT _)) (T_as_exp ds oZ (eT _)) -raddfB -mulmxBr.
exact: (tn_sup hD (rot_reflection ij)).
Qed.
End Rot.

(* the trace against a product of norm-shrinking matrices *)
Lemma tr_diff n (rho sigma : 'M[CR]_(2 ^ n)) (X : 'M[R]_(2 * n)) : density rho -> density sigma -> shrink X ->
  `|\tr ((covM rho - covM sigma) *m X)| <= (2 * n)%:R * re (tn (rho - sigma)).
Proof.
move=> dr ds hX; set D := covM rho - covM sigma.
have aD : D^T = - D by rewrite linearB /= !covM_anti -opprD.
have [Z [T [oZ eD aT qT]]] := skew_normal aD.
have eT : T = Z^T *m D *m Z by rewrite eD !mulmxA (mulmx1C oZ) mul1mx -mulmxA (mulmx1C oZ) mulmx1.
set t := re _; have t0 : 0 <= t by rewrite -toC_le rmorph0 re_tn tn_ge0.
have T1 i j : `|T i j| <= t by rewrite eT; exact: rot_diff.
set Y := Z^T *m X *m Z.
have hY : shrink Y.
  by apply: shrinkM (shrinkM _ hX) (shrink_orth (mulmx1C oZ)); apply: shrink_orth; rewrite trmxK.
have -> : \tr (D *m X) = \tr (T *m Y).
  by rewrite eD /Y -!mulmxA mxtrace_mulC -!mulmxA.
rewrite mulr_natl -[(2 * n)%N in X in _ <= X]card_ord -sumr_const.
apply: le_trans (ler_norm_sum _ _ _) _; apply: ler_sum => i _.
rewrite mxE; apply: le_trans (ler_norm_sum _ _ _) _.
have e1 j : `|T i j * Y j i| <= `|T i j| by rewrite normrM ler_pimulr // shrink_entry.
apply: le_trans (ler_sum _ (fun j _ => e1 j)) _.
(* at most one entry of a row differs from 0 *)
have [j nz|z] := pickP (fun j => T i j != 0); last first.
  by rewrite big1 // => j _; have /negbFE/eqP -> := z j; rewrite normr0.
rewrite (bigD1 j) //= big1 ?addr0 // => k kj; apply/eqP; rewrite normr_eq0; apply/negPn/negP => nk.
move: nz nk; rewrite !(TE aT qT) /=.
case: (eqVneq (val j) i.+1) => [ej|_]; case: (eqVneq (val k) i.+1) => [ek|_].
- by case/eqP: kj; apply: val_inj; rewrite /= ek ej.
- case: (eqVneq (val i) k.+1) => [ik|_]; rewrite ?eqxx // oppr_eq0 ik.
  by case: (tf_adj aT qT k) => ->; rewrite eqxx.
- case: (eqVneq (val i) j.+1) => [ij|_]; rewrite ?eqxx // oppr_eq0 ij.
  by case: (tf_adj aT qT j) => ->; rewrite eqxx.
case: (eqVneq (val i) j.+1) => [ij|_]; rewrite ?eqxx //.
case: (eqVneq (val i) k.+1) => [ik|_]; rewrite ?eqxx //.
by case/eqP: kj; apply: val_inj; move: ik; rewrite /= ij => -[].
Qed.

(* traces of powers, by telescoping *)
Lemma tele m (M N X P Q : 'M[R]_m) : M^T = - M -> N^T = - N ->
  \tr (M^T *m M *m P *m X) - \tr (N^T *m N *m Q *m X) =
  (\tr (P *m (X *m (M^T *m M))) - \tr (Q *m (X *m (M^T *m M)))) +
  (\tr ((M - N) *m (Q *m X *m M^T)) - \tr ((M - N) *m (N *m (Q *m X)))).
Proof.
move=> aM aN.
have c (Y : 'M[R]_m) : \tr (Y *m (X *m (M^T *m M))) = \tr (M^T *m M *m Y *m X).
  by rewrite mulmxA mxtrace_mulC mulmxA.
have r : \tr ((M - N) *m (Q *m X *m M^T)) = \tr (M^T *m (M - N) *m Q *m X).
  by rewrite mulmxA mxtrace_mulC !mulmxA.
have e : M^T *m (M - N) - (M - N) *m N = M^T *m M - N^T *m N.
  by rewrite mulmxBr mulmxBl opprB aM aN !mulNmx opprK [X in _ + X]addrC addrA addrK opprK.
rewrite !c r [(M - N) *m (N *m _)]mulmxA [(M - N) *m N *m _]mulmxA.
have q (C D Y : 'M[R]_m) : \tr (C *m Y *m X) - \tr (D *m Y *m X) = \tr ((C - D) *m Y *m X).
  by rewrite 2!mulmxBl raddfB.
by rewrite q e -q addrA subrK.
Qed.

Lemma pow_lip m (M N : 'M[R]_m) (b : R) k (X : 'M[R]_m) : M^T = - M -> N^T = - N -> shrink M -> shrink N ->
  (forall Y, shrink Y -> `|\tr ((M - N) *m Y)| <= b) -> shrink X ->
  `|\tr (mpow (M^T *m M) k *m X) - \tr (mpow (N^T *m N) k *m X)| <= k%:R * (b + b).
Proof.
move=> aM aN sM sN hb.
have sMt : shrink M^T by rewrite aM; exact: shrinkN.
have sNt : shrink N^T by rewrite aN; exact: shrinkN.
have sB : shrink (N^T *m N) by exact: shrinkM.
elim: k X => [|k IH] X hX; first by rewrite subrr normr0 mul0r.
have p (C : 'M[R]_m) : mpow C k.+1 = C *m mpow C k by [].
rewrite !p tele //; apply: le_trans (ler_norm_add _ _) _.
rewrite [k.+1%:R]mulrSr mulrDl mul1r; apply: ler_add; first by apply: IH; apply: shrinkM hX (shrinkM sMt sM).
apply: le_trans (ler_norm_sub _ _) _; apply: ler_add; apply: hb.
  exact: shrinkM (shrinkM (shrink_pow _ sB) hX) sMt.
exact: shrinkM sN (shrinkM (shrink_pow _ sB) hX).
Qed.

Lemma tr_pow_diff n (rho sigma : 'M[CR]_(2 ^ n)) k : density rho -> density sigma ->
  `|\tr (mpow ((covM rho)^T *m covM rho) k) - \tr (mpow ((covM sigma)^T *m covM sigma) k)| <=
  (4 * n * k)%:R * re (tn (rho - sigma)).
Proof.
move=> dr ds; set t := re _.
have := @pow_lip _ (covM rho) (covM sigma) ((2 * n)%:R * t) k 1%:M (covM_anti rho) (covM_anti sigma)
  (shrink_cov dr) (shrink_cov ds) (fun Y => @tr_diff _ rho sigma Y dr ds) (@shrink1 _).
rewrite !mulmx1 => h; apply: le_trans h _; rewrite -mulrDl -natrD mulrA -natrM.
by rewrite (_ : k * (2 * n + 2 * n) = 4 * n * k)%N //; lia.
Qed.

Local Notation th := ((10%:R ^+ 10)^-1 : R).

Lemma diff_bound (f g F G c B : R) : F <= f <= F + c -> G <= g <= G + c -> `|F - G| <= B -> `|f - g| <= B + c.
Proof.
move=> /andP[f1 f2] /andP[g1 g2]; rewrite !ler_norml => /andP[h1 h2]; apply/andP; split.
  by rewrite ler_oppl opprB; apply: le_trans (ler_sub g2 f1) _; rewrite addrAC ler_add2r -opprB ler_oppl.
by apply: le_trans (ler_sub f2 g1) _; rewrite addrAC ler_add2r.
Qed.

(* the covariance matrix of the Majorana operators: entries move by at most twice the trace distance *)
Theorem C92_covariance n (x y : input) (rho sigma : 'M[CR]_(2 ^ n)) :
  cast_to_density_matrix x = Ok (ofM rho) -> cast_to_density_matrix y = Ok (ofM sigma) -> density rho -> density sigma ->
  exists K L : 'M[CR]_(2 * n), exists t,
  [/\ compute_cov_matrix (ofM rho) (Some n) (Some (jordan_wigner_majoranas CR n)) = Ok (ofM K),
      compute_cov_matrix (ofM sigma) (Some n) (Some (jordan_wigner_majoranas CR n)) = Ok (ofM L),
      trace_distance x y = Ok t & forall i j, `|K i j - L i j| <= toC (2%:R * t)].
Proof.
move=> ex ey dr ds.
have cE (M : 'M[CR]_(2 ^ n)) : compute_cov_matrix (ofM M) (Some n) (Some (jordan_wigner_majoranas CR n)) = Ok (ofM ('i *: covC M)).
  rewrite majoranas_ops cov_ops // ofM_mk; congr (Ok (ofM _)); apply/matrixP => i j; rewrite !mxE mulrA mulrN -expr2 sqrCi opprK mul1r //.
exists ('i *: covC rho), ('i *: covC sigma), (2%:R^-1 * re (tn (rho - sigma))).
split; rewrite ?cE ?(tdE ex ey) // => i j.
have [[hr _] _] := dr; have [[hs _] _] := ds.
have zE (M : 'M[CR]_(2 * n)) : ('i *: M) i j = 'i * M i j by rewrite mxE.
have tE (M : 'M[R]_(2 * n)) : map_mx toC M i j = toC (M i j) by rewrite mxE.
rewrite !zE -mulrBr normrM normCi mul1r !covC_toC // !tE -rmorphB toC_norm toC_le mulrA mulfV ?mul1r ?pnatr_eq0 //.
have := @rot_diff n rho sigma 1%:M dr ds _ i j; rewrite trmx1 !mul1mx !mulmx1 => /(_ erefl).
by rewrite [(covM rho - covM sigma) i j]mxE [X in _ + X]mxE.
Qed.

(* FAF moves by at most 4 n k times the trace distance, up to the entries below 1e-10 that cov_distribution drops *)
Theorem C92_faf schur n (x y : input) (rho sigma : 'M[CR]_(2 ^ n)) k : schur_spec schur -> (0 < k)%N ->
  cast_to_density_matrix x = Ok (ofM rho) -> cast_to_density_matrix y = Ok (ofM sigma) -> density rho -> density sigma ->
  exists f, exists g, exists t, [/\ FAF schur x k = Ok f, FAF schur y k = Ok g, trace_distance x y = Ok t &
    `|f - g| <= (4 * n * k)%:R * t + (2 * n)%:R * th ^+ (2 * k)].
Proof.
move=> sP k0 ex ey dr ds.
have [f ef hf] := C36_value sP ex dr k0; have [g eg hg] := C36_value sP ey ds k0.
exists f, g, (2%:R^-1 * re (tn (rho - sigma))); split=> //; first exact: tdE.
apply: diff_bound hf hg _.
have e (a b c : R) : n%:R - 2%:R^-1 * a - (n%:R - 2%:R^-1 * b) = 2%:R^-1 * (b - a).
  by rewrite opprB addrC addrA subrK mulrBr.
rewrite e // normrM ger0_norm ?invr_ge0 ?ler0n // mulrCA ler_wpmul2l ?invr_ge0 ?ler0n // distrC.
exact: tr_pow_diff.
Qed.

(* a lower bound for the distance to every state without correlations beyond the quadratic ones *)
Theorem C92_witness schur n (x y : input) (rho sigma : 'M[CR]_(2 ^ n)) k : schur_spec schur -> (0 < k)%N ->
  cast_to_density_matrix x = Ok (ofM rho) -> cast_to_density_matrix y = Ok (ofM sigma) -> density rho -> density sigma ->
  (covM sigma)^T *m covM sigma = 1%:M ->
  exists f, exists t, [/\ FAF schur x k = Ok f, trace_distance x y = Ok t &
    f <= (4 * n * k)%:R * t + (2 * n)%:R * th ^+ (2 * k)].
Proof.
move=> sP k0 ex ey dr ds o; have [f [g [t [ef eg et h]]]] := C92_faf sP k0 ex ey dr ds.
exists f, t; split=> //; move: h; have /(C36_zero sP ey ds k0) := o; rewrite eg => -[->].
by rewrite subr0; exact: le_trans (ler_norm _).
Qed.

(* mixing in a fraction p of another state *)
Theorem C92_mixture schur n (x y : input) (rho tau : 'M[CR]_(2 ^ n)) (p : R) k : schur_spec schur -> (0 < k)%N -> 0 <= p <= 1 ->
  cast_to_density_matrix x = Ok (ofM rho) -> density rho -> density tau ->
  cast_to_density_matrix y = Ok (ofM (toC (1 - p) *: rho + toC p *: tau)) ->
  exists f, exists g, [/\ FAF schur x k = Ok f, FAF schur y k = Ok g &
    `|f - g| <= (4 * n * k)%:R * p + (2 * n)%:R * th ^+ (2 * k)].
Proof.
move=> sP k0 /andP[p0 p1] ex dr dt ey.
have [[hr _] tr1] := dr; have [[ht _] tt1] := dt.
have ds : density (toC (1 - p) *: rho + toC p *: tau).
  have q0 : 0 <= toC (1 - p) by rewrite -(rmorph0 toC_rmorphism) toC_le subr_ge0.
  have r0 : 0 <= toC p by rewrite -(rmorph0 toC_rmorphism) toC_le.
  split; first by apply: psdD; apply: psdZ => //; [case: dr|case: dt].
  by rewrite mxtraceD !mxtraceZ tr1 tt1 !mulr1 -rmorphD subrK rmorph1.
have [f [g [t [ef eg et h]]]] := C92_faf sP k0 ex ey dr ds; exists f, g; split=> //.
apply: le_trans h _; rewrite ler_add2r ler_wpmul2l ?ler0n //.
move: et; rewrite (tdE ex ey) => -[<-].
have eD : rho - (toC (1 - p) *: rho + toC p *: tau) = toC p *: (rho - tau).
  by rewrite rmorphB rmorph1 scalerBl scale1r scalerBr opprD opprB addrA addrCA subrr addr0.
have [S [cS _ _ eS]] := tn_attained (hermB hr ds.1.1).
have r0 : 0 <= toC p by rewrite -(rmorph0 toC_rmorphism) toC_le.
rewrite -toC_le rmorphM fmorphV /= toC_nat re_tn -[tn _]ger0_norm ?tn_ge0 // -eS eD -scalemxAr mxtraceZ normrM (ger0_norm r0).
have hS := tn_sup (hermB hr ht) cS.
have := C35_metric ex (C25_density dt) ex dr dt dr.
rewrite (tdE ex (C25_density dt)) => -[d [d' [d'' [[<-] _ _ _ [/andP[_ d1] _ _]]]]].
have d2 : tn (rho - tau) <= 2%:R.
  by move: d1; rewrite ler_pdivr_mull ?ltr0n // mulr1 -toC_le re_tn toC_nat.
rewrite mulrCA -[X in _ <= X]mulr1 ler_wpmul2l // ler_pdivr_mull ?ltr0n // mulr1; exact: le_trans hS d2.
Qed.

(* the maximally mixed state keeps a constant distance from every pure Gaussian state, whatever the number of sites *)
Example C92_mixed_state n (x y : input) (sigma : 'M[CR]_(2 ^ n)) : (0 < n)%N ->
  cast_to_density_matrix x = Ok (ofM ((2%:R ^+ n)^-1%:M : 'M[CR]_(2 ^ n))) ->
  cast_to_density_matrix y = Ok (ofM sigma) -> density sigma -> (covM sigma)^T *m covM sigma = 1%:M ->
  exists2 t, trace_distance x y = Ok t & 1 <= 4%:R * t + 2%:R * th ^+ 2.
Proof.
move=> n0 ex ey ds o; have [schur sP] := schur_exists; set rho := (_%:M) in ex.
have dr : density rho.
  have P0 : 0 < 2%:R ^+ n :> CR by rewrite exprn_gt0 ?ltr0n.
  split; last by rewrite mxtrace_scalar -[_ *+ _]mulr_natl natrX mulfV ?gt_eqF.
  apply/(@psd_diag _ _ _ 1%:M (const_mx (2%:R ^+ n)^-1)); rewrite ?/unitary ?adjm1 ?mulmx1 ?mul1mx ?diag_const_mx //.
  by move=> i; rewrite mxE invr_ge0 ltW.
have [f [t [ef et h]]] := @C92_witness schur n x y rho sigma 1 sP isT ex ey dr ds o; exists t => //.
move: ef h; rewrite (C36_mixed_refuted sP n0 _ ex) // => -[<-].
by rewrite muln1 !natrM -!mulrA ![n%:R * _]mulrC !mulrA -mulrDl ler_pmull ?ltr0n.
Qed.
