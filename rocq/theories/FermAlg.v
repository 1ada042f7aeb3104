(* FermAlg.v -- families of 2n fermionic operators (canonical anticommutation relations), quadratic lifts,
   Bogoliubov rotations; the Jordan-Wigner families *)
Set Warnings "-notation-overridden,-ambiguous-paths".
From mathcomp Require Import all_ssreflect all_algebra.
From mathcomp.zify Require Import zify.
From Verif Require Import Base ArrC MLib JW OpFam.
Set Implicit Arguments.
Unset Strict Implicit.
Unset Printing Implicit Defensive.
Import Order.Theory GRing.Theory Num.Theory.
Local Open Scope ring_scope.

(* index of the adjoint operator in the ordering [raising, lowering] *)
Definition sw n i := (if (i < n)%N then i + n else i - n)%N.
Lemma swK n i : (i < 2 * n)%N -> sw n (sw n i) = i.
Proof. rewrite /sw; case: (ltnP i n) => h1 h2; case: ltnP => h3; lia. Qed.
Lemma sw_lt n i : (i < 2 * n)%N -> (sw n i < 2 * n)%N.
Proof. rewrite /sw; case: (ltnP i n) => h1 h2; lia. Qed.
Lemma sw_eq n i j : (i < 2 * n)%N -> (j < 2 * n)%N -> (j == sw n i) = (i == sw n j).
Proof. by move=> hi hj; apply/eqP/eqP => ->; rewrite swK. Qed.

Section Ferm.
Variable C : numClosedFieldType.

(* sum over range(2n) reindexed by the swap *)
Lemma sum_sw (V : zmodType) n (F : nat -> V) : \sum_(i < 2 * n) F i = \sum_(i < 2 * n) F (sw n i).
Proof.
pose h (i : 'I_(2 * n)) := Ordinal (sw_lt (ltn_ord i)).
rewrite (reindex h) //=; exists h => i _; apply: val_inj; exact: swK.
Qed.

Lemma sum_delta (V : lmodType C) m (F : nat -> V) k : (k < m)%N ->
  \sum_(i < m) ((i == k :> nat)%:R : C) *: F i = F k.
Proof.
move=> hk; rewrite (bigD1 (Ordinal hk)) //= eqxx scale1r big1 ?addr0 // => i ni.
by rewrite -(inj_eq val_inj) /= in ni; rewrite (negbTE ni) scale0r.
Qed.

Section Family.
Variables (N n : nat) (A : nat -> 'M[C]_N).

(* canonical anticommutation relations in the ordering [a^+, a] *)
Definition car :=
  (forall i j, (i < 2 * n)%N -> (j < 2 * n)%N -> A i *m A j + A j *m A i = ((j == sw n i)%:R)%:M) /\
  (forall i, (i < 2 * n)%N -> adjm (A i) = A (sw n i)).

Local Notation L := (qlift A (2 * n)).

Lemma liftE (R R' : nat -> nat -> C) : (forall i j, (i < 2 * n)%N -> (j < 2 * n)%N -> R i j = R' i j) -> L R = L R'.
Proof. by move=> H; apply: eq_bigr => i _; apply: eq_bigr => j _; rewrite H. Qed.

Lemma liftD R R' : L (fun i j => R i j + R' i j) = L R + L R'.
Proof.
by rewrite -big_split; apply: eq_bigr => i _ /=; rewrite -big_split; apply: eq_bigr => j _ /=; rewrite scalerDl.
Qed.
Lemma liftZ c R : L (fun i j => c * R i j) = c *: L R.
Proof. by rewrite scaler_sumr; apply: eq_bigr => i _; rewrite scaler_sumr; apply: eq_bigr => j _; rewrite scalerA. Qed.
Lemma liftB R R' : L (fun i j => R i j - R' i j) = L R - L R'.
Proof. by rewrite -[- L R']scaleN1r -liftZ -liftD; apply: liftE => i j _ _; rewrite mulN1r. Qed.

Lemma lift_adj R : adjm (L R) = L (fun i j => (R j i)^*).
Proof.
rewrite {1}/qlift exchange_big adjm_sum /=; apply: eq_bigr => i _.
rewrite adjm_sum; apply: eq_bigr => j _; by rewrite adjmZ adjmM adjmK.
Qed.

Lemma lift_herm R : (forall i j, (i < 2 * n)%N -> (j < 2 * n)%N -> (R j i)^* = R i j) -> hermitian (L R).
Proof. by move=> H; rewrite /hermitian lift_adj; apply: liftE => i j hi hj; rewrite H. Qed.

Hypothesis H : car.

Lemma car_adj i j : (i < 2 * n)%N -> (j < 2 * n)%N ->
  A i *m adjm (A j) + adjm (A j) *m A i = ((i == j)%:R)%:M.
Proof.
move=> hi hj; rewrite H.2 // H.1 ?sw_lt //; congr ((nat_of_bool _)%:R)%:M.
by rewrite sw_eq ?sw_lt // swK.
Qed.

(* [A_i^+ A_j, A_k] = S_jk A_i^+ - delta_ik A_j *)
Lemma comm_pair i j k : (i < 2 * n)%N -> (j < 2 * n)%N -> (k < 2 * n)%N ->
  adjm (A i) *m A j *m A k - A k *m (adjm (A i) *m A j) =
  ((k == sw n j)%:R : C) *: adjm (A i) - ((k == i)%:R : C) *: A j.
Proof.
move=> hi hj hk.
have e1 : A j *m A k = ((k == sw n j)%:R)%:M - A k *m A j by rewrite -(H.1 _ _ hj hk) addrK.
have e2 : A k *m adjm (A i) = ((k == i)%:R)%:M - adjm (A i) *m A k by rewrite -(car_adj hk hi) addrK.
rewrite -mulmxA e1 mulmxA e2 mulmxBr mulmxBl -!mulmxA mul_mx_scalar mul_scalar_mx.
by rewrite opprB addrA subrK.
Qed.

Lemma lift_comm (R : nat -> nat -> C) k : (k < 2 * n)%N ->
  L R *m A k - A k *m L R = \sum_(j < 2 * n) (R (sw n j) (sw n k) - R k j) *: A j.
Proof.
move=> hk.
have -> : L R *m A k - A k *m L R = \sum_(i < 2 * n) \sum_(j < 2 * n)
    R i j *: (((k == sw n j)%:R : C) *: adjm (A i) - ((k == i)%:R : C) *: A j).
  rewrite mulmx_suml mulmx_sumr -sumrB; apply: eq_bigr => i _.
  rewrite mulmx_suml mulmx_sumr -sumrB; apply: eq_bigr => j _.
  by rewrite -comm_pair // -scalemxAl -scalemxAr scalerBr.
rewrite (eq_bigr (fun i : 'I_(2 * n) => R i (sw n k) *: A (sw n i) - ((i == k :> nat)%:R : C) *: \sum_(j < 2 * n) R i j *: A j)); last first.
  move=> i _; rewrite (eq_bigr (fun j : 'I_(2 * n) => ((j == sw n k :> nat)%:R : C) *: (R i j *: A (sw n i))
      - ((i == k :> nat)%:R : C) *: (R i j *: A j))); last first.
    move=> j _; rewrite scalerBr sw_eq // H.2 // !scalerA [R i j * _]mulrC [R i j * _]mulrC; congr (_ - _).
    by rewrite [k == i]eq_sym.
  rewrite sumrB -scaler_sumr; congr (_ - _).
  by rewrite (sum_delta (fun j => R i j *: A (sw n i))) // sw_lt.
rewrite sumrB (sum_delta (fun i => \sum_(j < 2 * n) R i j *: A j)) // (sum_sw n (fun i => R i (sw n k) *: A (sw n i))).
rewrite -sumrB; apply: eq_bigr => j _; by rewrite swK // scalerBl.
Qed.

(* coefficient matrices with the particle-hole antisymmetry  S R^T S = - R *)
Definition ph (R : nat -> nat -> C) :=
  forall i j, (i < 2 * n)%N -> (j < 2 * n)%N -> R (sw n j) (sw n i) = - R i j.

Lemma lift_comm_ph R k : ph R -> (k < 2 * n)%N ->
  L R *m A k - A k *m L R = - 2%:R *: \sum_(j < 2 * n) R k j *: A j.
Proof.
move=> P hk; rewrite lift_comm // scaler_sumr; apply: eq_bigr => j _.
by rewrite P // scalerA mulNr mulr_natl mulr2n opprD.
Qed.

Lemma lift_comm_ph_adj R k : ph R -> (k < 2 * n)%N ->
  L R *m adjm (A k) - adjm (A k) *m L R = 2%:R *: \sum_(j < 2 * n) R j k *: adjm (A j).
Proof.
move=> P hk; rewrite H.2 // lift_comm_ph ?sw_lt // scaleNr -scalerN; congr (_ *: _).
rewrite (sum_sw n (fun j => R (sw n k) j *: A j)) -sumrN; apply: eq_bigr => j _.
by rewrite P // scaleNr opprK H.2.
Qed.

(* the qlift is a Lie algebra homomorphism up to the factor 2 of the doubled description *)
Lemma lift_lie R R' : ph R -> ph R' -> L R *m L R' - L R' *m L R =
  2%:R *: L (fun i j => \sum_(k < 2 * n) (R i k * R' k j - R' i k * R k j)).
Proof.
move=> P P'.
have -> : L R *m L R' - L R' *m L R = \sum_(k < 2 * n) \sum_(l < 2 * n) R' k l *:
   ((L R *m adjm (A k) - adjm (A k) *m L R) *m A l + adjm (A k) *m (L R *m A l - A l *m L R)).
  rewrite {2 3}/qlift mulmx_sumr mulmx_suml -sumrB; apply: eq_bigr => k _.
  rewrite mulmx_sumr mulmx_suml -sumrB; apply: eq_bigr => l _.
  rewrite -scalemxAr -scalemxAl -scalerBr; congr (_ *: _).
  by rewrite mulmxBl mulmxBr !mulmxA addrA subrK.
rewrite (eq_bigr (fun k : 'I_(2 * n) => \sum_(l < 2 * n) R' k l *: (2%:R *: (\sum_(j < 2 * n) R j k *: (adjm (A j) *m A l))
   - 2%:R *: \sum_(j < 2 * n) R l j *: (adjm (A k) *m A j)))); last first.
  move=> k _; apply: eq_bigr => l _; congr (_ *: _).
  rewrite lift_comm_ph_adj // lift_comm_ph // scaleNr mulmxN -scalemxAl -scalemxAr mulmx_suml mulmx_sumr.
  by congr (_ *: _ - _ *: _); apply: eq_bigr => j _; rewrite -?scalemxAl -?scalemxAr.
rewrite (eq_bigr (fun k : 'I_(2 * n) => 2%:R *: (\sum_(l < 2 * n) \sum_(j < 2 * n) (R' k l * R j k) *: (adjm (A j) *m A l))
   - 2%:R *: \sum_(l < 2 * n) \sum_(j < 2 * n) (R' k l * R l j) *: (adjm (A k) *m A j))); last first.
  move=> k _; rewrite !scaler_sumr -sumrB; apply: eq_bigr => l _.
  rewrite scalerBr !scalerA [R' k l * _]mulrC -!scalerA !scaler_sumr.
  by congr (_ - _); apply: eq_bigr => j _; rewrite !scalerA ?mulrA.
rewrite sumrB -!scaler_sumr -scalerBr; congr (_ *: _).
rewrite (liftE (R' := fun i j => (\sum_(k < 2 * n) R i k * R' k j) - \sum_(k < 2 * n) R' i k * R k j)); last first.
  by move=> i j _ _; rewrite sumrB.
rewrite liftB; congr (_ - _).
  rewrite (eq_bigr (fun k : 'I_(2 * n) => \sum_(j < 2 * n) \sum_(l < 2 * n) (R' k l * R j k) *: (adjm (A j) *m A l))); last first.
    by move=> k _; rewrite exchange_big.
  rewrite exchange_big /=; apply: eq_bigr => j _; rewrite exchange_big /=; apply: eq_bigr => l _.
  by rewrite scaler_suml; apply: eq_bigr => k _; rewrite mulrC.
apply: eq_bigr => k _; rewrite exchange_big /=; apply: eq_bigr => j _.
by rewrite scaler_suml.
Qed.

End Family.

(* ---------------------------------------------------------------- *)
(* the Jordan-Wigner families                                         *)
(* ---------------------------------------------------------------- *)
Definition alphaM n k : 'M[C]_(2 ^ n) := if (k < n)%N then adjm (am C n k) else am C n (k - n).

Lemma alphas_ops n : jordan_wigner_alphas C n = ops (alphaM n) (2 * n).
Proof.
apply: (@eq_from_nth _ (azeros 0 0)).
  by rewrite size_ops size_cat !size_map size_iota addnn -mul2n.
move=> i; rewrite size_cat !size_map size_iota => hi; rewrite nth_ops; last by lia.
rewrite nth_cat !size_map size_iota /alphaM; case: ltnP => h.
  by rewrite -map_comp (nth_map 0%N) ?size_iota // nth_iota //= add0n -am_adj ofM_toM /= ?nr_jw ?nc_jw.
have h' : (i - n < n)%N by lia.
by rewrite (nth_map 0%N) ?size_iota // nth_iota // ofM_toM ?nr_jw ?nc_jw.
Qed.

Lemma alphas_car n : car n (alphaM n).
Proof.
split=> [i j hi hj|i hi]; rewrite /alphaM /sw.
  case: (ltnP i n) => h1; case: (ltnP j n) => h2.
  - rewrite (_ : (j == _) = false); last by apply/eqP; lia.
    have := congr1 (@adjm _ _ _) (am_anti C h2 h1).
    by rewrite adjmD !adjmM adjm0 => ->; rewrite raddf0.
  - by rewrite addrC am_anti_adj //; [congr ((nat_of_bool _)%:R)%:M; apply/eqP/eqP; lia|lia].
  - by rewrite am_anti_adj //; [congr ((nat_of_bool _)%:R)%:M; apply/eqP/eqP; lia|lia].
  rewrite (_ : (j == _) = false); last by apply/eqP; lia.
  by rewrite am_anti ?raddf0 //; lia.
case: (ltnP i n) => h1.
  by rewrite ifN ?addnK ?adjmK // -leqNgt leq_addl.
by rewrite ifT //; lia.
Qed.

End Ferm.
