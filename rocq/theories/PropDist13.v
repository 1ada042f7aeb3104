(* PropDist13.v -- property C87: stabilizer states: random_CHP_state, the stabilizer group of a state of zero SRE, and
   the covariance distribution and FAF of stabilizer states. *)
Set Warnings "-notation-overridden,-ambiguous-paths".
From Coq Require Import Reals.
From mathcomp Require Import all_ssreflect all_algebra.
From mathcomp Require Import complex mxtens.
From mathcomp.zify Require Import zify.
From Verif Require Import Base ArrC MCombinatorics MLib JW OpFam FermAlg LibFacts LibFacts2 LibFacts3 MUtils Spectral RealC Info Info2 MDist.
From Verif Require Import PropUtils1 PropUtils2 PropDist1 PropDist2 PropDist4 PropDist5 PropDist6 PropDist7 PropDist8 PropDist10 PropDist11 PauliFacts MRandom.
Set Implicit Arguments.
Unset Strict Implicit.
Unset Printing Implicit Defensive.
Import Order.Theory GRing.Theory Num.Theory.
Local Open Scope ring_scope.

Local Notation input := (input CR).

(* every Pauli expectation is 0, 1 or -1 *)
Definition stabilizer n (M : 'M[CR]_(2 ^ n)) := forall k, (k < 4 ^ n)%N -> \tr (pauli n k *m M) \in [:: 0; 1; -1].

Lemma stab_fix n (M A : 'M[CR]_n) (s : CR) : density M -> adjm A = A -> A *m A = 1%:M -> s ^+ 2 = 1 -> s^* = s ->
  \tr (A *m M) = s -> A *m M = s *: M.
Proof.
move=> [p t1] hA A2 s2 sr tA; apply/eqP; rewrite -subr_eq0 -mul_scalar_mx -mulmxBl; apply/eqP.
apply: psd_null => //.
have -> : adjm (A - s%:M) *m (A - s%:M) = 2%:R *: (1%:M - s *: A).
  rewrite adjmB hA adjm_scalar sr mulmxBl !mulmxBr A2 mul_mx_scalar mul_scalar_mx -scalar_mxM -expr2 s2 opprB addrA.
  by rewrite -addrA -mulr2n scaler_nat.
by rewrite -scalemxAr mxtraceZ mulmxBr mulmx1 linearB /= t1 -scalemxAr mxtraceZ mxtrace_mulC tA -expr2 s2 subrr mulr0.
Qed.

Lemma density_neq0 n (M : 'M[CR]_n) : density M -> - M <> M.
Proof.
move=> [_ t1] h; have := congr1 mxtrace h; rewrite raddfN /= t1 => /eqP.
by rewrite eq_sym -subr_eq0 opprK -mulr2n pnatr_eq0.
Qed.

Lemma two_signs n (M A B : 'M[CR]_n) (s t : CR) : density M -> A *m B = - (B *m A) ->
  s ^+ 2 = 1 -> t ^+ 2 = 1 -> A *m M = s *: M -> B *m M = t *: M -> False.
Proof.
move=> d ab s2 t2 hA hB; apply: (density_neq0 d).
have st : (s * t) * (s * t) = 1 by rewrite mulrACA -!expr2 s2 t2 mulr1.
have e1 : A *m B *m M = (s * t) *: M by rewrite -mulmxA hB -scalemxAr hA scalerA mulrC.
have e2 : B *m A *m M = (s * t) *: M by rewrite -mulmxA hA -scalemxAr hB scalerA.
have := congr1 (fun X => X *m M) ab; rewrite mulNmx e1 e2 => /(congr1 (fun X => (s * t) *: X)).
by rewrite scalerN !scalerA st !scale1r => <-.
Qed.

(* ------------------------------------------------------------------ *)
(* the stabilizer group                                                 *)
Section Group.
Variables (n : nat) (M : 'M[CR]_(2 ^ n)).
Hypotheses (d : density M) (M2 : M *m M = M) (st : stabilizer M).
Let s (k : 'I_(4 ^ n)) : CR := \tr (pauli n k *m M).

Lemma stab_sqr k : s k != 0 -> s k ^+ 2 = 1 /\ (s k)^* = s k.
Proof.
move=> h; have := st (ltn_ord k); rewrite -/(s k) !inE (negPf h) /=.
by case/orP => /eqP ->; rewrite ?sqrrN expr1n ?rmorphN conjC1.
Qed.

Lemma stab_eig k : s k != 0 -> pauli n k *m M = s k *: M.
Proof.
move=> h; have [h1 h2] := stab_sqr h.
by apply: stab_fix => //; [exact: pM_adj|exact: pM_sqr].
Qed.

Lemma stab_card : #|[set k | s k != 0]| = (2 ^ n)%N.
Proof.
have := pauli_parseval M; rewrite M2; have [_ ->] := d; rewrite mulr1.
rewrite (bigID (fun k => s k != 0)) /= [X in _ + X]big1 ?addr0 => [|k /negPn/eqP h]; last by rewrite -/(s k) h expr0n.
rewrite (eq_bigr (fun=> 1)) => [|k h]; last by have [] := stab_sqr h.
by rewrite sumr_const -natrX => /eqP; rewrite eqr_nat => /eqP <-; rewrite cardsE.
Qed.

Lemma stab_sum : M = (2%:R ^+ n)^-1 *: \sum_(k | s k != 0) s k *: pauli n k.
Proof.
rewrite {1}[M]pauli_expand; congr (_ *: _); rewrite (bigID (fun k => s k != 0)) /= [X in _ + X]big1 ?addr0 // => k /negPn/eqP h.
by rewrite -/(pauli n k) -/(s k) h scale0r.
Qed.

Lemma stab_comm k l : s k != 0 -> s l != 0 -> pauli n k *m pauli n l = pauli n l *m pauli n k.
Proof.
move=> hk hl; case: (pM_comm CR n k l) => // e.
have [k2 _] := stab_sqr hk; have [l2 _] := stab_sqr hl.
by case: (two_signs d e k2 l2 (stab_eig hk) (stab_eig hl)).
Qed.

Lemma stab_closed k l : s k != 0 -> s l != 0 -> exists2 m : 'I_(4 ^ n), s m != 0 & pauli n k *m pauli n l = (s k * s l * s m) *: pauli n m.
Proof.
move=> hk hl; have [c [m [pc hm e]]] := pM_mul CR n k l; rewrite -[pM CR n k]/(pauli n k) -[pM CR n l]/(pauli n l) -[pM CR n m]/(pauli n m) in e.
pose m' := Ordinal hm.
have e1 : c *: (pauli n m *m M) = (s k * s l) *: M.
  by rewrite scalemxAl -e -mulmxA stab_eig // -scalemxAr stab_eig // scalerA mulrC.
have t1 : c * s m' = s k * s l.
  by have := congr1 mxtrace e1; rewrite !mxtraceZ; have [_ ->] := d; rewrite mulr1.
have sm : s m' != 0.
  by apply/eqP => h; move/esym/eqP: t1; rewrite h mulr0 mulf_eq0 (negPf hk) (negPf hl).
exists m' => //; rewrite e -t1; have [h _] := stab_sqr sm.
by rewrite -mulrA -expr2 h mulr1.
Qed.

Lemma stab_vec (v : 'cV[CR]_(2 ^ n)) : M *m v = v <-> (forall k, s k != 0 -> pauli n k *m v = s k *: v).
Proof.
split=> [h k hk|h]; first by rewrite -h mulmxA stab_eig // scalemxAl.
rewrite {1}stab_sum -scalemxAl mulmx_suml (eq_bigr (fun=> v)) => [|k hk].
  by rewrite sumr_const -cardsE stab_card -scaler_nat scalerA natrX mulVf ?scale1r // expf_neq0 // pnatr_eq0.
by rewrite -scalemxAl h // scalerA; have [e _] := stab_sqr hk; rewrite -expr2 e scale1r.
Qed.
End Group.

(* ------------------------------------------------------------------ *)
(* the covariance matrix of a stabilizer state                          *)
Lemma phase_real (c t : CR) : phase c -> t \in [:: 0; 1; -1] -> c * t \is Num.real -> c * t \in [:: 0; 1; -1].
Proof.
move=> pc ht hr.
have tr : t^* = t by move: ht; rewrite !inE => /or3P[] /eqP ->; rewrite ?rmorphN ?conjC0 ?conjC1.
have i0 : 'i * t = - 'i * t -> t = 0.
  by move=> /eqP; rewrite mulNr -subr_eq0 opprK -mulr2n mulrn_eq0 /= mulf_eq0 (negPf (neq0Ci _)) => /eqP.
have nt : - t \in [:: 0; 1; -1].
  by move: ht; rewrite !inE => /or3P[] /eqP ->; rewrite ?oppr0 ?opprK eqxx ?orbT.
have e : c^* * t = c * t by rewrite -{1}tr -rmorphM (CrealP hr).
move: pc; rewrite /phase 4!in_cons in_nil orbF; case/or4P => /eqP ec; rewrite ec ?mul1r ?mulN1r //.
  by move: e; rewrite ec conjCi => /esym/i0 ->; rewrite mulr0 inE eqxx.
by move: e; rewrite ec rmorphN conjCi opprK => /i0 ->; rewrite mulr0 inE eqxx.
Qed.

Section Cov.
Variables (n : nat) (M : 'M[CR]_(2 ^ n)).
Hypotheses (d : density M) (st : stabilizer M).
Notation g := (gam CR n).

Definition bil (i j : 'I_(2 * n)) : 'M[CR]_(2 ^ n) := - 'i *: (g i *m g j - g j *m g i).

Lemma g_swap (i j : 'I_(2 * n)) : i != j -> g i *m g j = - (g j *m g i).
Proof.
move=> ij; have := gam_anti CR (ltn_ord i) (ltn_ord j); rewrite val_eqE (negPf ij) raddf0 => /eqP.
by rewrite addr_eq0 => /eqP.
Qed.
Lemma g_sq (i : 'I_(2 * n)) : 2%:R *: (g i *m g i) = 1%:M.
Proof. by have := gam_anti CR (ltn_ord i) (ltn_ord i); rewrite eqxx -mulr2n -scaler_nat. Qed.
Lemma bilE i j : i != j -> bil i j = (- 'i * 2%:R) *: (g i *m g j).
Proof. by move=> ij; rewrite /bil [g j *m g i]g_swap 1?eq_sym // opprK -mulr2n -scaler_nat scalerA. Qed.

Lemma bil_adj i j : i != j -> adjm (bil i j) = bil i j.
Proof. 
move=> ij; rewrite bilE // adjmZ adjmM !gam_herm // g_swap 1?eq_sym // rmorphM rmorphN conjCi conjC_nat.
by rewrite scalerN -scaleNr opprK mulNr.
Qed.

Lemma bil_sq i j : i != j -> bil i j *m bil i j = 1%:M.
Proof.
move=> ij; rewrite bilE // -scalemxAl -scalemxAr scalerA mulrACA mulrNN -expr2 sqrCi mulN1r.
have -> : g i *m g j *m (g i *m g j) = - ((g i *m g i) *m (g j *m g j)).
  by rewrite -mulmxA (mulmxA (g j)) [g j *m g i]g_swap 1?eq_sym // mulNmx mulmxN !mulmxA.
rewrite scalerN scaleNr opprK -scalerA.
by rewrite [2%:R *: (_ *m _)]scalemxAl g_sq mul1mx g_sq.
Qed.

Lemma bil_anti i j k : i != j -> i != k -> j != k -> bil i j *m bil i k = - (bil i k *m bil i j).
Proof.
move=> ij ik jk; rewrite !bilE // -!scalemxAl -!scalemxAr !scalerA -scalerN; congr (_ *: _).
have e (a b : 'I_(2 * n)) : i != a -> g i *m g a *m (g i *m g b) = - (g i *m g i *m (g a *m g b)).
  by move=> ia; rewrite -mulmxA (mulmxA (g a)) [g a *m g i]g_swap 1?eq_sym // mulNmx mulmxN !mulmxA.
by rewrite !e // [g k *m g j]g_swap 1?eq_sym // mulmxN opprK.
Qed.

Lemma covE i j : covC M i j = \tr (bil i j *m M).
Proof.
rewrite mxE /bil -scalemxAl mxtraceZ mulmxBl linearB /=; congr (_ * (_ - _)).
  by rewrite -mulmxA mxtrace_mulC.
by rewrite -mulmxA mxtrace_mulC.
Qed.

Lemma cov_diag i : covC M i i = 0.
Proof. by rewrite mxE subrr mulr0. Qed.

Lemma cov_val i j : covC M i j \in [:: 0; 1; -1].
Proof.
have [<-|ij] := eqVneq i j; first by rewrite cov_diag inE eqxx.
have [[hM _] _] := d; have := covC_real i j hM; rewrite covE.
have [c [k [pc hk e]]] := gam2_pM CR (ltn_ord i) (ltn_ord j).
have -> : bil i j = (- 'i * c) *: pauli n k by rewrite bilE // -scalerA e scalerA.
rewrite -scalemxAl mxtraceZ; apply: phase_real; last exact: st.
by apply: phaseM => //; rewrite /phase !inE eqxx !orbT.
Qed.

Lemma cov_sign i j : covC M i j != 0 -> covC M i j ^+ 2 = 1 /\ (covC M i j)^* = covC M i j.
Proof.
move=> h; have := cov_val i j; rewrite !inE (negPf h) /=.
by case/orP => /eqP ->; rewrite ?sqrrN expr1n ?rmorphN conjC1.
Qed.

Lemma cov_one i j k : j != k -> covC M i j * covC M i k = 0.
Proof.
move=> jk; apply/eqP; rewrite mulf_eq0; apply/orP; case: (eqVneq (covC M i j) 0) => [|hj]; first by left.
case: (eqVneq (covC M i k) 0) => [|hk]; first by right.
have ij : i != j by apply/eqP => e; rewrite -e cov_diag eqxx in hj.
have ik : i != k by apply/eqP => e; rewrite -e cov_diag eqxx in hk.
have [s2 sr] := cov_sign hj; have [t2 tr] := cov_sign hk.
have ej := stab_fix d (bil_adj ij) (bil_sq ij) s2 sr (esym (covE i j)).
have ek := stab_fix d (bil_adj ik) (bil_sq ik) t2 tr (esym (covE i k)).
by case: (two_signs d (bil_anti ij ik jk) s2 t2 ej ek).
Qed.
End Cov.

Lemma covME n (M : 'M[CR]_(2 ^ n)) i j : covM M i j = re (covC M i j).
Proof. by rewrite mxE. Qed.
Lemma cov_rows n (M : 'M[CR]_(2 ^ n)) : density M -> stabilizer M -> forall i j, covM M i j \in [:: 0; 1; -1].
Proof.
move=> d st i j; have := cov_val d st i j; rewrite covME !inE => /or3P[] /eqP ->.
- by rewrite raddf0 eqxx.
- by rewrite (re_nat 1) eqxx orbT.
- by have -> : re (-1) = -1 by []; rewrite eqxx !orbT.
Qed.

Lemma cov_row1 n (M : 'M[CR]_(2 ^ n)) : density M -> stabilizer M -> forall i j k, j != k -> covM M i j = 0 \/ covM M i k = 0.
Proof.
move=> d st i j k jk; have /eqP := cov_one d st i jk; rewrite mulf_eq0 => /orP[] /eqP h; [left|right]; by rewrite covME h raddf0.
Qed.

Lemma cov_TT n (M : 'M[CR]_(2 ^ n)) : density M -> stabilizer M ->
  (covM M)^T *m covM M = diag_mx (\row_i (#|[set j | covM M i j != 0]|%:R)).
Proof.
move=> d st; have vs := cov_rows d st; have r1 := cov_row1 d st; rewrite covM_anti.
have an a b : covM M a b = - covM M b a by have := congr1 (fun X : 'M[R]_(2 * n) => X b a) (covM_anti M); rewrite [LHS]mxE [RHS]mxE.
move: (covM M) vs r1 an => A vs r1 an; apply/matrixP => i j; rewrite !mxE.
have [<-|ij] := eqVneq i j; last first.
  rewrite mulr0n big1 // => k _; rewrite !mxE.
  by case: (r1 k _ _ ij) => h; rewrite ?(an i k) h ?oppr0 ?mul0r ?mulr0.
rewrite mulr1n (bigID (fun k => A i k != 0)) /= [X in _ + X]big1 ?addr0 => [|k /negPn/eqP h]; last first.
  by rewrite mxE h oppr0 mul0r.
rewrite (eq_bigr (fun=> 1)) => [|k h]; first by rewrite sumr_const; congr (_ *+ _); apply: eq_card => k; rewrite !inE.
have := vs i k; rewrite !inE (negPf h) /= mxE (an k i) => hv.
by case/orP: hv => /eqP ->; rewrite ?opprK ?mulrNN ?mulr1.
Qed.

(* ------------------------------------------------------------------ *)
(* C87: a pure state of zero SRE at a finite order is the common +-1 eigenvector of 2^n commuting Pauli strings, closed
   under products up to sign; it is their normalised signed sum, and the only state they fix *)
Theorem C87_group n (x : input) (M : 'M[CR]_(2 ^ n)) l (a : R) : (0 < n)%N ->
  cast_to_density_matrix x = Ok (ofM M) -> density M -> M *m M = M -> 0 <= a ->
  generate_pauli_group CR n%:Z = Ok l -> SRE x (Ord a) = Ok (Fin 0) ->
  let P (k : 'I_(4 ^ n)) := toM (2 ^ n) (2 ^ n) (nth (azeros 0 0) l k) in
  let s k := \tr (P k *m M) in
  [/\ #|[set k | s k != 0]| = (2 ^ n)%N,
      forall k, s k != 0 -> (s k = 1 \/ s k = -1) /\ P k *m M = s k *: M,
      forall k l, s k != 0 -> s l != 0 -> P k *m P l = P l *m P k /\
        exists2 m, s m != 0 & P k *m P l = (s k * s l * s m) *: P m,
      M = (2%:R ^+ n)^-1 *: \sum_(k | s k != 0) s k *: P k
    & forall v : 'cV[CR]_(2 ^ n), M *m v = v <-> (forall k, s k != 0 -> P k *m v = s k *: v)].
Proof.
move=> n0 ex d M2 a0 eg sre P s.
have eP k : P k = pauli n k by rewrite /P; move: eg; rewrite pauli_groupE // => -[<-]; rewrite nth_mkseq.
have st : stabilizer M.
  have [_ h] := C34_stabilizer n0 ex d M2 (a := Ord a) a0 eg; move=> k hk.
  by have := h isT sre k hk; rewrite -[k]/(val (Ordinal hk)) -/(P _) eP.
have es k : s k = \tr (pauli n k *m M) by rewrite /s eP.
split.
- by rewrite -(stab_card d M2 st); apply: eq_card => k; rewrite !inE es.
- move=> k; rewrite es eP => h; split; last exact: stab_eig.
  by have := st k (ltn_ord k); rewrite !inE (negPf h) /= => /orP[] /eqP ->; [left|right].
- move=> k k'; rewrite !es !eP => h h'; split; first exact: (stab_comm d st).
  by have [m hm e] := stab_closed d st h h'; exists m; rewrite ?es // eP.
- rewrite {1}(stab_sum M); congr (_ *: _); apply: eq_big => k; first by rewrite es.
  by rewrite es eP.
move=> v; rewrite (stab_vec d M2 st); split=> h k; have := h k; by rewrite es eP.
Qed.

Lemma outer_sq n (w : 'I_n -> CR) : \sum_i `|w i| ^+ 2 = 1 -> outer w *m outer w = outer w.
Proof.
move=> nw; apply/matrixP => i j; rewrite !mxE (eq_bigr (fun k => w i * (w j)^* * `|w k| ^+ 2)) => [|k _].
  by rewrite -mulr_sumr nw mulr1.
by rewrite !mxE normCK mulrACA [(w k)^* * _]mulrC -mulrACA [w k * _]mulrC mulrCA mulrA.
Qed.

Section F.
Variable schur : arr CR -> arr CR.
Hypothesis schurP : schur_spec schur.

(* C87: for every stabilizer state, mixed or pure, the covariance matrix has entries 0, 1, -1 with at most one non-zero
   entry in a row; cov_distribution is a list of ones, half as many as those entries, and FAF is the same integer at
   every order *)
Theorem C87_FAF n (x : input) (M : 'M[CR]_(2 ^ n)) l : (0 < n)%N ->
  cast_to_density_matrix x = Ok (ofM M) -> density M -> generate_pauli_group CR n%:Z = Ok l ->
  (forall k, (k < 4 ^ n)%N -> \tr (toM (2 ^ n) (2 ^ n) (nth (azeros 0 0) l k) *m M) \in [:: 0; 1; -1]) ->
  [/\ forall i j, covM M i j \in [:: 0; 1; -1],
      forall i j k, j != k -> covM M i j = 0 \/ covM M i k = 0
    & exists m, [/\ (2 * m)%N = #|[set p : 'I_(2 * n) * 'I_(2 * n) | covM M p.1 p.2 != 0]|, (m <= n)%N,
        cov_distribution schur x = Ok (nseq m 1)
      & forall k, (0 < k)%N -> FAF schur x k = Ok (n%:R - m%:R)]].
Proof.
move=> n0 ex d eg st0.
have st : stabilizer M by move=> k hk; have := st0 k hk; move: eg; rewrite pauli_groupE // => -[<-]; rewrite nth_mkseq.
have vs := cov_rows d st; have r1 := cov_row1 d st; split=> //.
have [_ [ll el hl]] := C82_spectrum schurP ex d.
pose c i := #|[set j | covM M i j != 0]|; pose s : seq R := [seq (c i)%:R | i <- enum 'I_(2 * n)].
have c1 i : (c i <= 1)%N.
  apply/card_le1_eqP => j k; rewrite !inE => hj hk; apply/eqP/negPn/negP => jk.
  by case: (r1 i k j jk) => e; [rewrite e eqxx in hk|rewrite e eqxx in hj].
have es : eigenvalues ((covM M)^T *m covM M) s.
  rewrite /eigenvalues cov_TT // char_poly_diagR; congr (\prod_(z <- _) _); apply: eq_map => i; by rewrite mxE.
have {}hl := hl s es.
have l1 : ll = nseq (size ll) 1.
  apply/all_pred1P/allP => v vl; apply/negPn/negP => v1; have := hl v.
  have : (0 < count_mem v ll)%N by rewrite -has_count has_pred1.
  case: ifP => [hv c0 e|_ c0]; last by lia.
  have : (0 < count_mem v s)%N by lia.
  rewrite -has_count has_pred1 => /mapP[i _ ev]; move: (c1 i) hv v1; rewrite ev; case: (c i) => [|[|//]] _; last by rewrite /= eqxx.
  by rewrite ltNge invr_ge0 exprn_ge0 // ler0n.
have e1 : (2 * size ll)%N = count_mem 1 s.
  have := hl 1; rewrite {1}l1 count_nseq /= eqxx mul1n ifT // invf_lt1 ?exprn_gt0 ?exprn_egt1 ?ltr0n ?ltr1n //.
have ec : count_mem 1 s = #|[set p : 'I_(2 * n) * 'I_(2 * n) | covM M p.1 p.2 != 0]|.
  transitivity (\sum_i c i)%N.
    rewrite -sum1_count /s big_map big_enum_cond /= [RHS](bigID (fun i => (c i)%:R == 1 :> R)) /= [X in (_ + X)%N]big1 ?addn0.
      apply: eq_bigr => i; rewrite -[1]/(1%:R) eqr_nat => /eqP ->; done.
    by move=> i; move: (c1 i); case: (c i) => [|[|//]] //=; rewrite eqxx.
  rewrite -sum1_card (eq_bigl (fun p : 'I_(2 * n) * 'I_(2 * n) => covM M p.1 p.2 != 0)) => [|p]; last by rewrite inE.
  rewrite -(pair_big_dep xpredT (fun i j => covM M i j != 0) (fun _ _ => 1%N)) /=; apply: eq_bigr => i _.
  by rewrite sum1_card; apply: eq_card => j; rewrite !inE.
exists (size ll); split; first by rewrite e1.
- by have := count_size (pred1 1) s; rewrite -e1 size_map size_enum_ord; lia.
- by rewrite el l1 map_nseq size_nseq rmorph1.
- move=> k k0; rewrite (FAF_sum ex d k0 (l := ll)) //; last by rewrite l1; apply/allP => z /nseqP[-> _]; exact: ler01.
  rewrite {1}l1 big_nseq expr1n; congr (Ok (_ - _)); elim: (size ll) => //= m' ->; by rewrite mulrS.
Qed.

(* C87: random_CHP_state, under the contract that the stim state vector is the first column of a Clifford unitary *)
Theorem C87_CHP n (wf : nat -> seq CR) (U : 'M[CR]_(2 ^ n)) (k0 : 'I_(2 ^ n)) l : (0 < n)%N -> val k0 = 0%N ->
  generate_pauli_group CR n%:Z = Ok l -> clifford (fun k => toM (2 ^ n) (2 ^ n) (nth (azeros 0 0) l k)) U ->
  wf n = [seq U i k0 | i <- enum 'I_(2 ^ n)] ->
  exists psi : 'cV[CR]_(2 ^ n), [/\ random_CHP_state wf (PInt n%:Z) = Ok (ofM psi), adjm psi *m psi = 1%:M,
    exists2 q, stabilizer_distribution (V2 (ofM psi)) = Ok q &
      perm_eq q (nseq (2 ^ n) (2%:R ^+ n)^-1 ++ nseq (4 ^ n - 2 ^ n) 0),
    forall a, (if a is Ord a then 0 <= a else true) -> SRE (V2 (ofM psi)) a = Ok (Fin 0)
  & exists2 m, (m <= n)%N & forall k, (0 < k)%N -> FAF schur (V2 (ofM psi)) k = Ok (n%:R - m%:R)].
Proof.
move=> n0 e0 eg cU ew; have [uU hU] := cU; have U1 : adjm U *m U = 1%:M := mulmx1C uU.
pose e : 'I_(2 ^ n) -> CR := fun i => (i == k0)%:R; pose v i := U i k0.
have ne : \sum_i `|e i| ^+ 2 = 1.
  rewrite (bigD1 k0) //= /e eqxx normr1 expr1n big1 ?addr0 // => i /negPf ->; by rewrite normr0 expr0n.
have nv : \sum_i `|v i| ^+ 2 = 1.
  have := congr1 (fun X : 'M[CR]_(2 ^ n) => X k0 k0) U1; rewrite !mxE eqxx => h; rewrite -[RHS]h; apply: eq_bigr => i _.
  by rewrite !mxE /v normCK mulrC.
have ov : outer v = U *m outer e *m adjm U.
  apply/matrixP => i j; rewrite !mxE (bigD1 k0) //= big1 ?addr0 => [|k /negPf nk].
    rewrite mxE (bigD1 k0) //= big1 ?addr0 => [|k /negPf nk]; last by rewrite !mxE /e nk mul0r mulr0.
    by rewrite !mxE /e eqxx conjC1 !mulr1.
  by rewrite mxE big1 ?mul0r // => k' _; rewrite !mxE /e nk conjC0 !mulr0.
have [ee de] := C25_wavefunction ne; have [ev dv] := C25_wavefunction nv.
have ste : forall k, (k < 4 ^ n)%N -> \tr (toM (2 ^ n) (2 ^ n) (nth (azeros 0 0) l k) *m outer e) \in [:: 0; 1; -1].
  have [_] := C34_stabilizer n0 ee de (outer_sq ne) (a := Ord 2%:R) (ler0n _ _) eg.
  by apply=> //; apply: C34_zero_state => //; exact: ler0n.
have stv : forall k, (k < 4 ^ n)%N -> \tr (toM (2 ^ n) (2 ^ n) (nth (azeros 0 0) l k) *m outer v) \in [:: 0; 1; -1].
  move=> k hk; rewrite ov mulmxA mxtrace_mulC !mulmxA; have [j hj] := hU (Ordinal hk); have := ste j (ltn_ord j).
  case: hj => /= ->; rewrite ?mulNmx ?linearN //= !inE eqr_oppLR oppr0 eqr_oppLR eqr_opp.
  by case/or3P => ->; rewrite ?orbT.
pose psi : 'cV[CR]_(2 ^ n) := \col_i v i; exists psi.
have ep : cast_to_density_matrix (V2 (ofM psi)) = Ok (ofM (outer v)).
  by have [-> _] := C25_columns v (expn_gt0 2 n); rewrite ev.
have M2 := outer_sq nv.
split.
- rewrite /random_CHP_state /check_n /= ifF; last by lia.
  transitivity (Ok (col_of (wf n))) => //; congr Ok.
  have sw : size (wf n) = (2 ^ n)%N by rewrite ew size_map size_enum_ord.
  apply: arrP => // i j.
  rewrite -[nr _]/(size (wf n)) sw => hi; rewrite ltnS leqn0 => /eqP ->.
  rewrite get_mk sw hi /= ew (nth_map k0) ?size_enum_ord //.
  have -> : get (ofM psi) i 0 = psi (Ordinal hi) 0 by rewrite -[RHS]get_ofM.
  by rewrite mxE /v; congr (U _ _); apply: val_inj; rewrite /= nth_enum_ord.
- apply/matrixP => i j; rewrite !ord1 !mxE eqxx -[RHS]nv; apply: eq_bigr => k _; by rewrite !mxE normCK mulrC.
- have P0 : (0 : R) < 2%:R ^+ n by rewrite exprn_gt0 ?ltr0n.
  have st : stabilizer (outer v) by move=> k hk; have := stv k hk; move: eg; rewrite pauli_groupE // => -[<-]; rewrite nth_mkseq.
  exists (rvec (xi (outer v))); first exact: stabE.
  have e2 k : xi (outer v) k = if \tr (pauli n k *m outer v) != 0 then (2%:R ^+ n)^-1 else 0.
    have [-> _] := xi_pure k dv M2; have := st k (ltn_ord k); rewrite !inE.
    case/or3P => /eqP ->; rewrite ?eqxx ?oppr_eq0 ?oner_eq0 [RHS]/=.
    + by rewrite expr0n mul0r.
    + by rewrite expr1n mul1r.
    + by rewrite (_ : re (-1) = -1) // sqrrN expr1n mul1r.
  have ci : (2%:R ^+ n)^-1 != 0 :> R by rewrite invr_eq0 gt_eqF.
  have cn : count_mem (2%:R ^+ n)^-1 (rvec (xi (outer v))) = (2 ^ n)%N.
    rewrite -[RHS](stab_card dv M2 st) -sum1_count big_map big_enum_cond /= sum1_card; apply: eq_card => k.
    rewrite [RHS]inE -[LHS]/(xi (outer v) k == _) e2; case: ifP => _; first exact: eqxx.
    by rewrite eq_sym (negPf ci).
  set q := rvec _ in cn *; set c := (_^-1) in cn e2 *.
  have aq : all (fun z => (z == c) || (z == 0)) q.
    by apply/allP => z /mapP[k _ ->]; rewrite e2; case: ifP; rewrite eqxx ?orbT.
  have sq : size q = (4 ^ n)%N by rewrite size_rvec.
  rewrite -(perm_filterC (pred1 c) q); apply: perm_cat.
    rewrite (_ : filter _ q = nseq (2 ^ n) c) // -cn -size_filter; apply/all_pred1P; exact: filter_all.
  rewrite (_ : filter _ q = nseq (4 ^ n - 2 ^ n) 0) //.
  have -> : (4 ^ n - 2 ^ n)%N = size (filter (predC (pred1 c)) q).
    by have := count_predC (pred1 c) q; rewrite size_filter sq cn; lia.
  apply/all_pred1P/allP => z; rewrite mem_filter /= => /andP[zc /(allP aq)]; by rewrite (negPf zc).
- move=> a a0; by have [h _] := C34_stabilizer n0 ep dv M2 a0 eg; exact: h.
- by have [_ _ [m [_ m1 _ h]]] := C87_FAF n0 ep dv eg stv; exists m.
Qed.

(* the inputs random_CHP_state rejects *)
Theorem C87_CHP_errors (wf : nat -> seq CR) (z : int) : random_CHP_state wf PNotInt = Raise TypeError /\
  (random_CHP_state wf (PInt z) = Raise ValueError <-> z <= 0).
Proof. by split=> //; rewrite /random_CHP_state /check_n; case: ifP. Qed.

End F.

(* the Hadamard gate is Clifford: X <-> Z, Y -> -Y *)
Section Had.
Variable C : numClosedFieldType.
Add Ring Cring13 : (ring_of C).
Definition had : 'M[C]_(2 ^ 1) := \matrix_(i, j) ((sqrtC 2%:R)^-1 * (if (i == 1%N :> nat) && (j == 1%N :> nat) then -1 else 1)).
Lemma h2 : (sqrtC 2%:R)^-1 * (sqrtC 2%:R)^-1 = 2%:R^-1 :> C. Proof. by rewrite -invfM -expr2 sqrtCK. Qed.
Definition sg (i : nat) : C := if i == 1%N then -1 else 1.
Lemma hadE (A : 'M[C]_(2 ^ 1)) i j (o l : 'I_(2 ^ 1)) : val o = 0%N -> val l = 1%N -> (adjm had *m A *m had) i j =
  2%:R^-1 * (A o o + sg j * A o l + sg i * A l o + sg i * sg j * A l l).
Proof.
move=> eo el; have uo : ord0 = o :> 'I_(2 ^ 1) by apply: val_inj.
have ul : fintype.lift ord0 ord0 = l :> 'I_(2 ^ 1) by apply: val_inj.
rewrite mxE big_ord_recl big_ord1 !mxE !big_ord_recl !big_ord0 !mxE ul uo eo el /= ?andbF ?andbT !rmorphM /= -h2.
have hc : ((sqrtC 2%:R)^-1)^* = (sqrtC 2%:R)^-1 :> C by rewrite fmorphV (CrealP _) // ger0_real // sqrtC_ge0 ler0n.
rewrite hc -[if i == 1%N :> nat then -1 else 1]/(sg i) -[if j == 1%N :> nat then -1 else 1]/(sg j) ?conjC1.
have -> : (sg i)^* = sg i by rewrite /sg; case: ifP; rewrite ?rmorphN conjC1.
xring C.
Qed.
Lemma hadE2 (A : 'M[C]_(2 ^ 1)) (i j o l : 'I_(2 ^ 1)) (z : C) : val o = 0%N -> val l = 1%N ->
  A o o + sg j * A o l + sg i * A l o + sg i * sg j * A l l = 2%:R * z -> (adjm had *m A *m had) i j = z.
Proof. by move=> eo el e; rewrite (hadE A i j eo el) e mulKf // pnatr_eq0. Qed.
End Had.

Add Ring CRring13 : (ring_of CR).
Lemma had_clifford : clifford (pauli 1) (had CR).
Proof.
pose o1 : 'I_(2 ^ 1) := Ordinal (isT : (0 < 2 ^ 1)%N); pose l1 : 'I_(2 ^ 1) := Ordinal (isT : (1 < 2 ^ 1)%N).
have gE A i j z := @hadE2 CR A i j o1 l1 z erefl erefl.
split.
  apply: mulmx1C; rewrite -[adjm _]mulmx1; apply/matrixP => i j; apply: gE; rewrite !mxE /sg.
  case: i => [[|[|i]] hi] //; case: j => [[|[|j]] hj] //=; rewrite ?mulr1n ?mulr0n; xring CR.
have key (a b : nat) (c : CR) : (a < 4)%N -> (b < 4)%N -> (forall i j : 'I_(2 ^ 1),
    get (sig CR a) 0 0 + sg CR j * get (sig CR a) 0 1 + sg CR i * get (sig CR a) 1 0 + sg CR i * sg CR j * get (sig CR a) 1 1 =
    2%:R * (c * get (sig CR b) i j)) -> adjm (had CR) *m pauli 1 a *m had CR = c *: pauli 1 b.
  by move=> ha hb h; apply/matrixP => i j; apply: gE; rewrite [X in _ = _ * X]mxE !pauli1E.
move=> k; pose o (m : nat) (h : (m < 4)%N) : 'I_(4 ^ 1) := Ordinal (h : (m < 4 ^ 1)%N).
case: k => [[|[|[|[|k]]]] hk] //.
- exists (o 0%N isT); left; rewrite -[RHS]scale1r; apply: key => // i j; rewrite /sig /sg.
  by case: i => [[|[|i]] hi] //; case: j => [[|[|j]] hj] //; rewrite /= !getE //= ?mulr1n ?mulr0n; xring CR.
- exists (o 3%N isT); left; rewrite -[RHS]scale1r; apply: key => // i j; rewrite /sig /sg.
  by case: i => [[|[|i]] hi] //; case: j => [[|[|j]] hj] //; rewrite /= !getE //= ?mulr1n ?mulr0n; xring CR.
- exists (o 2%N isT); right; rewrite -scaleN1r; apply: key => // i j; rewrite /sig /sg.
  by case: i => [[|[|i]] hi] //; case: j => [[|[|j]] hj] //; rewrite /= !getE //= ?mulr1n ?mulr0n; xring CR.
- exists (o 1%N isT); left; rewrite -[RHS]scale1r; apply: key => // i j; rewrite /sig /sg.
  by case: i => [[|[|i]] hi] //; case: j => [[|[|j]] hj] //; rewrite /= !getE //= ?mulr1n ?mulr0n; xring CR.
Qed.

(* n = 1 and the Hadamard gate: the state |+>, with zero SRE and FAF = 1 at every order *)
Example C87_plus schur (wf := fun _ => [seq had CR i ord0 | i <- enum 'I_(2 ^ 1)]) : schur_spec schur ->
  exists psi : 'cV[CR]_(2 ^ 1), [/\ random_CHP_state wf (PInt 1) = Ok (ofM psi), psi = const_mx (sqrtC 2%:R)^-1,
    SRE (V2 (ofM psi)) (Ord 2%:R) = Ok (Fin 0) & FAF schur (V2 (ofM psi)) 2 = Ok 1].
Proof.
move=> schurP; have eg := pauli_groupE CR (isT : (0 < 1)%N); set l := mkseq _ _ in eg.
have eP k : (k < 4 ^ 1)%N -> toM (2 ^ 1) (2 ^ 1) (nth (azeros 0 0) l k) = pauli 1 k by move=> hk; rewrite nth_mkseq.
have cU : clifford (fun k => toM (2 ^ 1) (2 ^ 1) (nth (azeros 0 0) l k)) (had CR).
  have [u h] := had_clifford; split=> // k; have [j hj] := h k; exists j; by rewrite !eP.
have [psi [e1 n1 _ sre _]] := C87_CHP schurP (isT : (0 < 1)%N) (erefl : val (ord0 : 'I_(2 ^ 1)) = 0%N) eg cU (erefl : wf 1%N = _).
pose v (i : 'I_(2 ^ 1)) : CR := (sqrtC 2%:R)^-1.
have ev : psi = \col_i v i.
  apply/matrixP => i j; rewrite !ord1 mxE; have := congr1 (fun r => if r is Ok A then get A i 0 else 0) e1.
  rewrite -[random_CHP_state _ _]/(Ok (col_of (wf 1%N))) /col_of get_mk size_map size_enum_ord ltn_ord /= (nth_map ord0) ?size_enum_ord // nth_ord_enum mxE andbF mulr1 => h.
  by rewrite /v h -[0%N]/(val (ord0 : 'I_1)) get_ofM.
have nv : \sum_i `|v i| ^+ 2 = 1.
  rewrite big_ord_recl big_ord1 /v -normrX exprVn sqrtCK ger0_norm ?invr_ge0 ?ler0n // -mulr2n -mulr_natl mulfV //.
  by rewrite pnatr_eq0.
have [ec d] := C25_wavefunction nv.
have ep : cast_to_density_matrix (V2 (ofM psi)) = Ok (ofM (outer v)) by rewrite ev; have [-> _] := C25_columns v isT.
have s2 := sre (Ord 2%:R) (ler0n _ _).
exists psi; split=> //; first by rewrite ev; apply/matrixP => i j; rewrite !mxE.
have M2 := outer_sq nv.
have [_ h] := C34_stabilizer (isT : (0 < 1)%N) ep d M2 (a := Ord 2%:R) (ler0n _ _) eg; have st := h isT s2.
have [_ _ [m [em _ _ hF]]] := C87_FAF schurP (isT : (0 < 1)%N) ep d eg st.
rewrite hF // (_ : m = 0%N) ?subr0 //; apply/eqP; rewrite -(eqn_pmul2l (isT : (0 < 2)%N)) muln0 em cards_eq0; apply/eqP/setP => -[i j].
have X1 : pauli 1 1 *m outer v = outer v.
  apply/matrixP => a b; rewrite mxE big_ord_recl big_ord1 !(@pauli1E 1 _ _ isT) !mxE -mulrDl.
  have -> : get (sig CR 1) a (ord0 : 'I_(2 ^ 1)) + get (sig CR 1) a (fintype.lift ord0 ord0 : 'I_(2 ^ 1)) = 1.
    by case: a => [[|[|a]] ha] //; rewrite /sig /= !getE //= ?add0r ?addr0.
  by rewrite mul1r.
have X2 : outer v *m pauli 1 1 = outer v.
  have [[hM _] _] := d; rewrite -{1}hM -{2}hM -{2}X1 adjmM; congr (_ *m _); exact/esym/pM_adj.
have g0 : gam CR 1 0 = (sqrt2 CR)^-1 *: pauli 1 1.
  have := @gam_low CR 1 0 isT => /(congr1 (fun A => (sqrt2 CR)^-1 *: A)); rewrite scalerA mulVf ?scale1r => [->|].
    congr (_ *: _); rewrite /pauli /pstr; congr (toM _ _ _); apply: eq_ts => -[|t] // _.
  by rewrite /sqrt2 sqrtC_eq0 pnatr_eq0.
have key (A : 'M[CR]_(2 ^ 1)) : \tr (outer v *m gam CR 1 0 *m A) = \tr (outer v *m A *m gam CR 1 0).
  by rewrite [RHS]mxtrace_mulC mulmxA g0 -scalemxAr X2 -!scalemxAl X1.
have c0 : covC (outer v) i j = 0.
  rewrite mxE; apply/eqP; rewrite mulf_eq0 subr_eq0; apply/orP; right.
  by case: i => [[|[|i]] hi] //; case: j => [[|[|j]] hj] //; rewrite ?key.
by rewrite !inE covME c0 raddf0 eqxx.
Qed.
