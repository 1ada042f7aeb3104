(* PropLib3.v -- properties C44-C51 of ff_lib.py *)
Set Warnings "-notation-overridden,-ambiguous-paths".
From mathcomp Require Import all_ssreflect all_algebra.
From mathcomp.zify Require Import zify.
From Verif Require Import Base ArrC MLib JW OpFam FermAlg LibFacts LibFacts2 LibFacts3 Expm PropLib1 PropLib2.
Set Implicit Arguments.
Unset Strict Implicit.
Unset Printing Implicit Defensive.
Import Order.Theory GRing.Theory Num.Theory.
Local Open Scope ring_scope.

Section Props.
Variable C : numClosedFieldType.
Local Notation arr := (arr C).
Add Ring cringP3 : (ring_of C).

(* numpy's closeness of a to b: |a - b| <= 1e-8 + 1e-5 |b| *)
Definition np_close (a b : C) : Prop := `|a - b| <= (10%:R ^+ 8)^-1 + (10%:R ^+ 5)^-1 * `|b|.

Lemma closeE a b : reflect (np_close a b) (close a b).
Proof. exact: idP. Qed.

Lemma allclose_ofM m n (A B : 'M[C]_(m, n)) :
  reflect (forall i j, np_close (A i j) (B i j)) (allclose (ofM A) (ofM B)).
Proof.
apply: (iffP (allcloseP _ _)) => H i j; first by have := H i j (ltn_ord i) (ltn_ord j); rewrite !ofM_get => /closeE.
by move=> hi hj; have /closeE := H (Ordinal hi) (Ordinal hj); rewrite -!ofM_get.
Qed.

(* ================================================================== *)
(* C44  is_symp                                                        *)
(* ================================================================== *)
(* symplectic: U S U^T = S *)
Definition symplectic n (U : 'M[C]_(2 * n)) := U *m swapM C n *m U^T = swapM C n.

Lemma is_sympE n (U : 'M[C]_(2 * n)) :
  is_symp (ofM U) = Ok (allclose (ofM (U *m swapM C n *m U^T)) (ofM (swapM C n))).
Proof.
rewrite /is_symp /= eqxx /=.
have e : (2 * n %/ 2 = n)%N by rewrite mulKn.
have e' : (2 * n - 2 * n %/ 2 = n)%N by lia.
rewrite e' e !bcast_id //=.
rewrite -/(Smat C n).
have -> : Smat C n = ofM (swapM C n).
  by rewrite -SM_swap /SM ofM_toM //= addnn mul2n.
rewrite ofM_tr !ofM_mul.
by case: (_ && _); case: allclose.
Qed.

Theorem C44_decides n (U : 'M[C]_(2 * n)) : exists b, is_symp (ofM U) = Ok b /\
  (b <-> forall i j, np_close ((U *m swapM C n *m U^T) i j) (swapM C n i j)).
Proof. by rewrite is_sympE; eexists; split; first reflexivity; split=> /allclose_ofM. Qed.

Theorem C44_accepts n (U : 'M[C]_(2 * n)) : symplectic U -> is_symp (ofM U) = Ok true.
Proof. by move=> h; rewrite is_sympE h allclose_refl. Qed.

Lemma swapM_sqr n : swapM C n *m swapM C n = 1%:M.
Proof. by rewrite -SM_swap S_sqr. Qed.

Lemma symp_inv n (U : 'M[C]_(2 * n)) : symplectic U -> (swapM C n *m U^T *m swapM C n) *m U = 1%:M.
Proof.
move=> h; apply: mulmx1C; rewrite !mulmxA h; exact: swapM_sqr.
Qed.

Theorem C44_group n : [/\ symplectic (1%:M : 'M[C]_(2 * n)),
  (forall U V : 'M[C]_(2 * n), symplectic U -> symplectic V -> symplectic (U *m V)),
  (forall U : 'M[C]_(2 * n), symplectic U -> symplectic U^T) &
  (forall U : 'M[C]_(2 * n), symplectic U -> U \in unitmx /\ symplectic (invmx U))].
Proof.
have T (U : 'M[C]_(2 * n)) : symplectic U -> symplectic U^T.
  move=> h; rewrite /symplectic trmxK.
  have := symp_inv h; rewrite -!mulmxA => /(congr1 (mulmx (swapM C n))).
  by rewrite mulmxA swapM_sqr mul1mx mulmx1 mulmxA.
split=> //.
- by rewrite /symplectic mul1mx trmx1 mulmx1.
- by move=> U V hU hV; rewrite /symplectic trmx_mul !mulmxA -(mulmxA U) -(mulmxA U) hV hU.
move=> U h; have u : U \in unitmx := (mulmx1_unit (symp_inv h)).2; split=> //.
rewrite /symplectic -{1}h !mulmxA mulVmx // mul1mx -mulmxA -trmx_mul mulVmx //.
by rewrite trmx1 mulmx1.
Qed.

(* shapes on which the test is impossible *)
Theorem C44_shape_error m n (U : 'M[C]_(m, n)) : m != n \/ (m = n /\ odd m /\ m != 3%N) ->
  is_symp (ofM U) = Raise ValueError.
Proof.
case=> [h|[e [o h]]]; first by rewrite /is_symp /= h.
subst n; rewrite /is_symp /= eqxx /= {1}/bcast /= ifF //; lia.
Qed.

Example C44_example : is_symp (ofM (swapM C 1)) = Ok true /\ is_symp (ofM (2%:R *: swapM C 1)) = Ok false.
Proof.
have s : (swapM C 1)^T = swapM C 1 by rewrite -SM_swap S_tr.
split; first by apply: C44_accepts; rewrite /symplectic s swapM_sqr mul1mx.
rewrite is_sympE; congr Ok; apply/negbTE/negP => /allclose_ofM H.
have := H ord0 (lift ord0 ord0); rewrite /np_close linearZ /= s -!scalemxAr -!scalemxAl swapM_sqr mul1mx.
rewrite scalerA -natrM mxE [swapM C 1 _ _]mxE /= mulr1 -(natrB C (isT : 1 <= 4)%N) normr_nat normr1 mulr1.
rewrite real_leNgt ?realn // ?ger0_real // ?addr_ge0 ?invr_ge0 ?exprn_ge0 ?ler0n // => /negP; apply.
have l a : (10%:R ^+ a)^-1 <= 1 :> C by rewrite invf_le1 ?exprn_ege1 ?exprn_gt0 ?ler1n ?ltr0n.
by apply: le_lt_trans (ler_add (l 8%N) (l 5%N)) _; rewrite -[1 + 1]/(2%:R) ltr_nat.
Qed.

(* ================================================================== *)
(* C45  check_canonical_form                                           *)
(* ================================================================== *)
(* the other row of the 2 x 2 block of row i *)
Definition partner i := if odd i then i.-1 else i.+1.
(* real skew-symmetric, block diagonal with 2 x 2 blocks *)
Definition canonical n (L : 'M[C]_n) := [/\ forall i j, L i j \is Num.real, L^T = - L &
  forall i j : 'I_n, j != partner i :> nat -> L i j = 0].

Lemma ofM_conj m n (A : 'M[C]_(m, n)) : aconj (ofM A) = ofM (map_mx conjC A).
Proof. by apply: (@toM_inj _ _ _ m n) => //; rewrite toM_conj // !toM_ofM. Qed.

Lemma canon_copy n (L : 'M[C]_(2 * n)) :
  foldl (fun M j => if (j %% 2 != 0)%N then upd M j (j - 1) (get (ofM L) j (j - 1)) else upd M j (j + 1) (get (ofM L) j (j + 1))%N)
    (azeros (2 * n) (2 * n)) (iota 0 (2 * n)) = ofM (\matrix_(i, j) (if j == partner i :> nat then L i j else 0)).
Proof.
rewrite (@foldl_upd _ _ _ _ (fun k i j => if (i < k)%N && (j == partner i) then get (ofM L) i j else 0)).
- rewrite /ofM /mk /=; congr Arr; apply/matrixP => i j; rewrite !mxE ltn_ord /=; case: eqP => // _.
  by rewrite ofM_get.
- by move=> A k; case: ifP.
- by move=> r c hr hc; rewrite ltn0 getE.
move=> A k hk /= e1 e2 H r c hr hc; case: ifP => hp.
  rewrite get_upd ?e1 ?e2 // H //.
  have -> : (c == k - 1)%N = (c == partner k) by rewrite /partner; case: ifP => ok; lia.
  case: (r =P k) => [->|ne] /=; first by rewrite ltnSn ltnn /=; case: eqP => // ->; congr get; rewrite /partner; case: ifP; lia.
  by congr (if _ && _ then _ else _); lia.
rewrite get_upd ?e1 ?e2 // H //.
have -> : (c == k + 1)%N = (c == partner k) by rewrite /partner; case: ifP => ok; lia.
case: (r =P k) => [->|ne] /=; first by rewrite ltnSn ltnn /=; case: eqP => // ->; congr get; rewrite /partner; case: ifP; lia.
by congr (if _ && _ then _ else _); lia.
Qed.

Theorem C45_decides n (L : 'M[C]_(2 * n)) : check_canonical_form (ofM L) <->
  [/\ forall i j, np_close (L i j) (L i j)^*, forall i j, np_close (L i j) (- L j i) &
      forall i j : 'I_(2 * n), j != partner i :> nat -> np_close 0 (L i j)].
Proof.
rewrite /check_canonical_form /= modnMr /= mulKn // eqxx /= canon_copy ofM_conj ofM_tr ofM_opp.
split.
  case: (boolP (allclose _ _)) => //= /allclose_ofM h1.
  case: (boolP (allclose _ _)) => //= /allclose_ofM h2.
  case: (boolP (allclose _ _)) => //= /allclose_ofM h3 _.
  split=> [i j|i j|i j nj]; [have := h1 i j|have := h2 i j|have := h3 i j]; rewrite !mxE //.
  by rewrite (negbTE nj).
case=> h1 h2 h3.
have -> : allclose (ofM L) (ofM (map_mx conjC L)) by apply/allclose_ofM => i j; rewrite mxE.
have -> : allclose (ofM L) (ofM (- L^T)) by apply/allclose_ofM => i j; rewrite !mxE.
rewrite /= (_ : allclose _ _) //; apply/allclose_ofM => i j; rewrite mxE; case: ifP => h; last by apply: h3; rewrite h.
exact/closeE/close_refl.
Qed.

Theorem C45_accepts n (L : 'M[C]_(2 * n)) : canonical L -> check_canonical_form (ofM L).
Proof.
move=> [r t z]; apply/C45_decides; have R a : np_close a a by apply/closeE/close_refl.
split=> [i j|i j|i j nj]; first by rewrite (CrealP (r i j)).
  have := congr1 (fun M : 'M_(2 * n) => M j i) t; rewrite !mxE => ->; exact: R.
by rewrite z.
Qed.

(* whatever is accepted is entrywise near a canonical matrix *)
Theorem C45_near n (L : 'M[C]_(2 * n)) : check_canonical_form (ofM L) ->
  exists2 D : 'M[C]_(2 * n), canonical D & forall i j,
    `|L i j - D i j| <= (10%:R ^+ 8)^-1 + (10%:R ^+ 5)^-1 * (`|L i j| + `|L j i|).
Proof.
move/C45_decides => [h1 h2 h3].
pose x i j : C := 2%:R^-1 * (L i j - L j i).
exists (\matrix_(i, j) (if j == partner i :> nat then 'Re (x i j) else 0)).
  split=> [i j||i j nj].
  - by rewrite mxE; case: ifP => _; rewrite ?Creal_Re ?rpred0.
  - apply/matrixP => i j; rewrite !mxE.
    have -> : (i == partner j :> nat) = (j == partner i :> nat) by rewrite /partner; case: ifP; case: ifP; lia.
    case: ifP => _; last by rewrite oppr0.
    by rewrite -raddfN /= /x -mulrN opprB.
  by rewrite mxE (negbTE nj).
move=> i j; rewrite mxE.
have n0 (a : C) : 0 <= (10%:R ^+ 5)^-1 * `|a| by rewrite mulr_ge0 ?normr_ge0 // invr_ge0 exprn_ge0 ?ler0n.
case: ifP => [_|/negbT nj]; last first.
  rewrite subr0; have := h3 i j nj; rewrite /np_close sub0r normrN => /le_trans; apply.
  by rewrite mulrDr addrA ler_addl.
have a1 := h1 i j; have a2 := h1 j i; have a3 := h2 i j.
rewrite /np_close opprK !normrN ?norm_conjC in a1 a2 a3.
set T := (10%:R ^+ 8)^-1 in a1 a2 a3 *; set K := (10%:R ^+ 5)^-1 in n0 a1 a2 a3 *.
have -> : L i j - 'Re (x i j) = 2%:R^-1 * (L i j + L j i) + (2%:R^-1 * 2%:R^-1) * ((L i j - (L i j)^*) - (L j i - (L j i)^*)).
  rewrite ReE /x rmorphM rmorphB /= half_real.
  have h := half2 C; set u := 2%:R^-1 in h *.
  transitivity ((u + u) * ((u + u) * L i j) - (u * (L i j - L j i) + u * ((L i j)^* - (L j i)^*)) * u); first by rewrite h !mul1r [u * (_ + _)]mulrC.
  transitivity (u * L i j *(u+u) + u * L j i * (u + u) + u * u * (L i j - (L i j)^* - (L j i - (L j i)^*))); last by rewrite h !mulr1 -[u * L i j + _]mulrDr.
  set a := (L i j)^*; set b := (L j i)^*; set c := L i j; set d := L j i; xring C.
have hp : 0 <= 2%:R^-1 :> C by rewrite invr_ge0 ler0n.
apply: le_trans (ler_norm_add _ _) _; rewrite !normrM !(ger0_norm hp).
have b1 := le_trans (ler_norm_sub _ _) (ler_add a1 a2).
have b2 := ler_wpmul2l hp a3.
have b3 := ler_wpmul2l (mulr_ge0 hp hp) b1.
apply: le_trans (ler_add b2 b3) _.
have h := half2 C; set u := 2%:R^-1 in h hp *.
have -> : u * (T + K * `|L j i|) + u * u * (T + K * `|L i j| + (T + K * `|L j i|)) =
   T + K * (`|L i j| + `|L j i|) - (u * (K * `|L i j|) + u * u * (K * `|L i j|) + u * u * (K * `|L j i|)).
  set p := `|L i j|; set q := `|L j i|.
  transitivity (u * T + u * T * (u + u) + K * q * u + u * u * K * p + u * u * K * q); first xring C.
  transitivity ((u + u) * T + K * p * (u + u) * (u + u) + K * q * (u + u) * (u + u) - (u * (u + u) * (K * p) + u * u * (K * p) + u * u * (K * q))); last by rewrite h !mulr1 mul1r mulrDr addrA.
  rewrite -[in LHS](mulr1 (K * q * u)) -[in LHS]h [in LHS]h mulr1; transitivity (u * T + u * T + (K * q * u) * (u + u) + u * u * K * p + u * u * K * q); first by rewrite h !mulr1.
  xring C.
by rewrite ler_subl_addr ler_addl !addr_ge0 //; apply: mulr_ge0 => //; apply: mulr_ge0.
Qed.

Theorem C45_shape m n (L : 'M[C]_(m, n)) : odd m || (m != n) -> check_canonical_form (ofM L) = false.
Proof.
rewrite /check_canonical_form /= modn2; case: (odd m) => //=.
by rewrite eq_sym => ->.
Qed.

Example C45_example (a : C) : a \is Num.real ->
  check_canonical_form (arr2 0 a (- a) 0) /\ check_canonical_form (arr2 1 a (- a) 0) = false.
Proof.
move=> ra; have e x : arr2 x a (- a) 0 = ofM (toM (2 * 1) (2 * 1) (arr2 x a (- a) 0)) by rewrite ofM_toM.
split.
  rewrite e; apply: C45_accepts; split=> [i j||i j].
  - by rewrite mxE; case: i j => -[|[|]] // ? [[|[|]] // ?]; rewrite getE //= ?rpredN ?rpred0.
  - apply/matrixP => i j; rewrite !mxE.
    by case: i j => -[|[|]] // ? [[|[|]] // ?]; rewrite !getE //= ?opprK ?oppr0.
  by rewrite mxE; case: i j => -[|[|]] // ? [[|[|]] // ?]; rewrite getE.
rewrite e; apply/negP => /C45_decides[_ _ /(_ ord0 ord0 isT)]; rewrite mxE getE //= /np_close sub0r normrN normr1 mulr1.
have l : (10%:R ^+ 8)^-1 + (10%:R ^+ 5)^-1 < 1 :> C.
  have l a' : (0 < a')%N -> (10%:R ^+ a')^-1 < 2%:R^-1 :> C.
    by move=> h; rewrite ltf_pinv ?posrE ?exprn_gt0 ?ltr0n // -natrX ltr_nat; apply: leq_trans (leq_pexp2l _ h).
  by rewrite -[X in _ < X](half2 C) ltr_add // l.
by move=> /le_lt_trans /(_ l); rewrite ltxx.
Qed.

(* ================================================================== *)
(* C47  build_op                                                       *)
(* ================================================================== *)
(* sum_ij R_ij A_i^+ A_j *)
Definition lift_spec N n (R : 'M[C]_(2 * n)) (A : nat -> 'M[C]_N) : 'M[C]_N :=
  \sum_(i < 2 * n) \sum_(j < 2 * n) R i j *: (adjm (A i) *m A j).
(* entries of modulus below eps replaced by 0 *)
Definition cutoff eps m n (R : 'M[C]_(m, n)) := \matrix_(i, j) (if `|R i j| < eps then 0 else R i j).

Lemma lift_qlift N n (R : 'M[C]_(2 * n)) (A : nat -> 'M[C]_N) : lift_spec R A = qlift A (2 * n) (get (ofM R)).
Proof. by apply: eq_bigr => i _; apply: eq_bigr => j _; rewrite ofM_get. Qed.

Theorem C47_lift N n (R : 'M[C]_(2 * n)) (A : nat -> 'M[C]_N) m : (0 < m)%N -> (2 * n <= m)%N ->
  build_op n (ofM R) (ops A m) false = Ok (ofM (lift_spec (cutoff (10%:R ^+ 10)^-1 R) A)).
Proof.
move=> m0 hm; rewrite build_op_ops //=; congr (Ok (ofM _)).
by apply: eq_bigr => i _; apply: eq_bigr => j _; rewrite mxE ofM_get.
Qed.

Theorem C47_direct N n (R : 'M[C]_(2 * n)) (A : nat -> 'M[C]_N) m : (0 < m)%N -> (2 * n <= m)%N ->
  build_op n (ofM R) (ops A m) true =
  Ok (ofM (\sum_(i < 2 * n) \sum_(j < 2 * n) cutoff (10%:R ^+ 10)^-1 R i j *: (A i *m A j))).
Proof.
move=> m0 hm; rewrite build_op_ops //=; congr (Ok (ofM _)).
by apply: eq_bigr => i _; apply: eq_bigr => j _; rewrite mxE ofM_get.
Qed.

(* every list of N x N operators is of the form [ops A m] *)
Theorem C47_every_list N (l : seq arr) : operators N l ->
  exists A : nat -> 'M[C]_N, l = ops A (size l).
Proof. by move=> h; exists (nthM N l); exact: opsE. Qed.

(* linearity *)
Theorem C47_linear N n (R R' : 'M[C]_(2 * n)) (A : nat -> 'M[C]_N) a b :
  lift_spec (a *: R + b *: R') A = a *: lift_spec R A + b *: lift_spec R' A.
Proof.
rewrite !lift_qlift -!liftZ -liftD; apply: liftE => i j hi hj.
by rewrite -[i]/(val (Ordinal hi)) -[j]/(val (Ordinal hj)) !ofM_get !mxE.
Qed.

(* matrices without entries below the cutoff are lifted exactly *)
Theorem C47_cutoff_id n (R : 'M[C]_(2 * n)) eps :
  (forall i j, R i j = 0 \/ ~~ (`|R i j| < eps)) -> cutoff eps R = R.
Proof.
move=> h; apply/matrixP => i j; rewrite mxE; case: (h i j) => [->|/negbTE -> //].
by rewrite if_same.
Qed.

Lemma cutoff_herm eps n (R : 'M[C]_n) : hermitian R -> hermitian (cutoff eps R).
Proof.
move=> h; apply/matrixP => i j; rewrite !mxE.
have e : R i j = (R j i)^* by rewrite -{1}h !mxE.
by rewrite e norm_conjC; case: ifP => _; rewrite ?rmorph0.
Qed.

Theorem C47_hermitian N n (R : 'M[C]_(2 * n)) (A : nat -> 'M[C]_N) m : hermitian R -> (0 < m)%N -> (2 * n <= m)%N ->
  exists2 O : 'M[C]_N, build_op n (ofM R) (ops A m) false = Ok (ofM O) & hermitian O.
Proof.
move=> h m0 hm; eexists; first exact: C47_lift.
rewrite lift_qlift; apply: lift_herm => i j hi hj.
rewrite -[i]/(val (Ordinal hi)) -[j]/(val (Ordinal hj)) !ofM_get.
by rewrite -[in RHS](cutoff_herm _ h) !mxE.
Qed.

(* particle-hole antisymmetric coefficient matrices  S R^T S = - R *)
Definition ph_anti n (R : 'M[C]_(2 * n)) := swapM C n *m R^T *m swapM C n = - R.

Lemma SXS n (X : 'M[C]_(2 * n)) i j :
  (swapM C n *m X *m swapM C n) i j = X (Ordinal (sw_lt (ltn_ord i))) (Ordinal (sw_lt (ltn_ord j))).
Proof.
rewrite -SM_swap; set i' := Ordinal _; set j' := Ordinal _.
rewrite mxE (bigD1 j') //= big1 ?addr0 => [|k nk].
  rewrite SME /= swK // eqxx mulr1 mxE (bigD1 i') //= big1 ?addr0 => [|k nk].
    by rewrite SME eqxx mul1r.
  by rewrite SME (negbTE (_ : k != sw n i :> nat)) ?mul0r.
rewrite SME (_ : (j == _ :> nat) = false) ?mulr0 //; apply/eqP => e.
by case/eqP: nk; apply: val_inj; rewrite /= e swK.
Qed.

Lemma ph_antiE n (R : 'M[C]_(2 * n)) : ph_anti R -> ph n (get (ofM R)).
Proof.
move=> h i j hi hj.
have := congr1 (fun M : 'M_(2 * n) => M (Ordinal hi) (Ordinal hj)) h; rewrite SXS [RHS]mxE.
by rewrite -[R _ _]ofM_get -[_^T _ _]ofM_get /= -ofM_tr getE //= ?sw_lt.
Qed.

(* commutators of a lift with the operators, and of two lifts *)
Theorem C47_commutator N n (R : 'M[C]_(2 * n)) (A : nat -> 'M[C]_N) (k : 'I_(2 * n)) : car n A -> ph_anti R ->
  lift_spec R A *m A k - A k *m lift_spec R A = - 2%:R *: \sum_(j < 2 * n) R k j *: A j.
Proof.
move=> cA pR; rewrite lift_qlift lift_comm_ph //; last exact: ph_antiE.
by congr (_ *: _); apply: eq_bigr => j _; rewrite ofM_get.
Qed.

Theorem C47_lie N n (R R' : 'M[C]_(2 * n)) (A : nat -> 'M[C]_N) : car n A -> ph_anti R -> ph_anti R' ->
  lift_spec R A *m lift_spec R' A - lift_spec R' A *m lift_spec R A = 2%:R *: lift_spec (R *m R' - R' *m R) A.
Proof.
move=> cA pR pR'; rewrite !lift_qlift lift_lie //; try exact: ph_antiE.
congr (_ *: _); apply: liftE => i j hi hj; rewrite -[i]/(val (Ordinal hi)) -[j]/(val (Ordinal hj)) !ofM_get !mxE sumrB.
by congr (_ - _); apply: eq_bigr => k _; rewrite !ofM_get.
Qed.

(* the Jordan-Wigner operators are such a family; a Hermitian matrix of build_H form is particle-hole antisymmetric *)
Theorem C47_jw n : jordan_wigner_alphas C n = ops (alphaM C n) (2 * n) /\ car n (alphaM C n).
Proof. by split; [exact: alphas_ops|exact: alphas_car]. Qed.

Theorem C47_ph_of_build_H n (H : 'M[C]_(2 * n)) : hermitian H ->
  swapM C n *m map_mx conjC H *m swapM C n = - H -> ph_anti H.
Proof. by move=> h; rewrite /ph_anti -[X in X^T]h /adjm trmxK. Qed.

(* one site: R = [[a, b], [c, d]] lifts to a.a^+ a + d.a^+ a = diag(a, d) in the basis |0>, |1> *)
Example C47_example (a b c d : C) :
  ~~ (`|a| < (10%:R ^+ 10)^-1) -> ~~ (`|b| < (10%:R ^+ 10)^-1) -> ~~ (`|c| < (10%:R ^+ 10)^-1) -> ~~ (`|d| < (10%:R ^+ 10)^-1) ->
  build_op 1 (arr2 a b c d) (jordan_wigner_alphas C 1) false = Ok (arr2 a 0 0 d).
Proof.
move=> ha hb hc hd.
have e : jw_site C 1 0 = arr2 0 1 0 0.
  by rewrite /jw_site /= smE; apply: arr2P => //; rewrite getE //= !getE //= mul1r.
rewrite /jordan_wigner_alphas /jordan_wigner_lowering /= e arr2_adj !rmorph0 rmorph1 /build_op /=.
rewrite /idx /= !getE //= -/(eps10 C) (negbTE ha) (negbTE hb) (negbTE hc) (negbTE hd) /=.
rewrite /amul_chk /= !arr2_adj !rmorph0 rmorph1 !arr2_mul.
have -> : azeros 2 2 = arr2 0 0 0 0 :> arr by apply: arr2P => //; rewrite getE.
by arr2s.
Qed.

(* ================================================================== *)
(* C46  generate_gaussian_state                                        *)
(* ================================================================== *)
Lemma exp_gt n : (2 < n)%N -> (2 * n < 2 ^ n)%N.
Proof.
elim: n => // n IH; rewrite ltnS leq_eqVlt => /orP[/eqP <- //|h].
by have := IH h; rewrite expnS; lia.
Qed.

Section Gaussian.
Variables (E : forall n, 'M[C]_n -> 'M[C]_n) (f : arr -> arr).
Hypothesis HE : expm_spec E.
Hypothesis Hf : computes f E.

(* the normalised exponential exp(-H) / Tr exp(-H) *)
Definition gibbs N (H : 'M[C]_N) := (\tr (E (- H)))^-1 *: E (- H).

Lemma gibbs_density N (H : 'M[C]_N) : (0 < N)%N -> hermitian H -> density (gibbs H).
Proof. by move=> N0 h; apply: expm_density => //; rewrite /hermitian adjmN h. Qed.

(* coefficient matrix of size 2n, n >= 3: the normalised exponential of the lift *)
Theorem C46_coefficients n N (H : 'M[C]_(2 * n)) (A : nat -> 'M[C]_N) :
  (2 < n)%N -> (0 < N)%N -> hermitian H -> exists O : 'M[C]_N,
  [/\ build_op n (ofM H) (ops A (2 * n)) false = Ok (ofM O),
      generate_gaussian_state f n (ofM H) (Some (ops A (2 * n))) = Ok (Some (ofM (gibbs O))) &
      density (gibbs O)].
Proof.
move=> n2 N0 h; have [||O e hO] := @C47_hermitian N n H A (2 * n)%N h; try lia.
exists O; split=> //; last exact: gibbs_density.
rewrite /generate_gaussian_state /= eqxx e /= ifF; first by rewrite ofM_opp Hf ofM_trace ofM_scale.
by have := exp_gt n2; lia.
Qed.

(* default operators *)
Theorem C46_default n (H : 'M[C]_(2 * n)) :
  generate_gaussian_state f n (ofM H) None = generate_gaussian_state f n (ofM H) (Some (ops (alphaM C n) (2 * n))).
Proof. by rewrite /generate_gaussian_state -alphas_ops. Qed.

(* a 2^n x 2^n Hamiltonian is used as it is *)
Theorem C46_full n (H : 'M[C]_(2 ^ n)) : hermitian H ->
  generate_gaussian_state f n (ofM H) None = Ok (Some (ofM (gibbs H))) /\ density (gibbs H).
Proof.
move=> h; split; last by apply: gibbs_density => //; rewrite expn_gt0.
rewrite /generate_gaussian_state /= eqxx; case: ifP => [/eqP e|_] /=; last by rewrite ofM_opp Hf ofM_trace ofM_scale.
rewrite alphas_ops build_op_ops /= -?e ?expn_gt0 ?leqnn //=.
by rewrite ofM_opp Hf ofM_trace ofM_scale.
Qed.

Theorem C46_wrong_size n r c (H : 'M[C]_(r, c)) alphas : r != (2 * n)%N -> r != (2 ^ n)%N ->
  generate_gaussian_state f n (ofM H) alphas = Ok None.
Proof. by move=> /negbTE h1 /negbTE h2; rewrite /generate_gaussian_state /= h1 /= h2. Qed.

(* n = 1, 2: 2n = 2^n, and a coefficient matrix is exponentiated itself instead of its lift *)
Theorem C46_small n (H : 'M[C]_(2 * n)) : (0 < n <= 2)%N ->
  generate_gaussian_state f n (ofM H) None = Ok (Some (ofM (gibbs H))).
Proof.
move=> hn; rewrite /generate_gaussian_state /= eqxx alphas_ops build_op_ops //=; last lia.
rewrite ifT; first by rewrite ofM_opp Hf ofM_trace ofM_scale.
by case: n H hn => [|[|[|]]].
Qed.

(* H = 0: the maximally mixed state *)
Example C46_example n : generate_gaussian_state f n (ofM (0 : 'M[C]_(2 ^ n))) None =
  Ok (Some (ofM ((2 ^ n)%:R^-1 *: 1%:M : 'M[C]_(2 ^ n)))).
Proof.
have [|-> _] := @C46_full n 0; first exact: adjm0.
by rewrite /gibbs oppr0 (expm0 HE) mxtrace1.
Qed.

End Gaussian.

(* the lift differs from the coefficient matrix already for n = 2 *)
Theorem C46_small_refuted : exists H : 'M[C]_(2 * 2),
  [/\ hermitian H, ph_anti H & exists2 O : 'M[C]_(2 ^ 2),
      build_op 2 (ofM H) (jordan_wigner_alphas C 2) false = Ok (ofM O) & ofM O <> ofM H].
Proof.
pose d (i : nat) : C := if (i < 2)%N then -1 else 1.
have n1 (i : nat) : `|d i| < (10%:R ^+ 10)^-1 = false.
  rewrite /d (_ : `|_| = 1); last by case: ifP => _; rewrite ?normrN normr1.
  by apply: negbTE; rewrite -real_leNgt ?real1 // ?realV ?rpredX ?realn // invf_le1 ?exprn_ege1 ?exprn_gt0 ?ler1n ?ltr0n.
exists (\matrix_(i, j) (d i *+ (i == j))); split.
- by apply/matrixP => i j; rewrite !mxE rmorphMn /= eq_sym; case: eqP => // ->; rewrite /d; case: ifP => _; rewrite ?rmorphN ?rmorph1.
- apply/matrixP => i j; rewrite SXS !mxE -(inj_eq val_inj) /= -[i == j](inj_eq val_inj) /= eq_sym.
  case: (i =P j :> nat) => [->|ne]; last by rewrite (_ : (_ == _) = false) ?oppr0 //; apply/eqP => /(congr1 (sw 2)); rewrite !swK.
  by rewrite eqxx /d /sw; have := ltn_ord j; case: (ltnP j 2) => h1 h2; [rewrite ifF|rewrite ifT]; rewrite ?opprK //; lia.
eexists; first by rewrite alphas_ops; apply: C47_lift.
set z := Ordinal (pow2_gt0 2); set M := lift_spec _ _.
move/(congr1 (fun M => get M 0 0)); rewrite -[0%N]/(val z) (ofM_get M) (ofM_get _ (z : 'I_(2 * 2)) (z : 'I_(2 * 2))).
rewrite [X in _ = X]mxE eqxx /d /=.
have -> : M z z =
   \sum_(i < 4) d i * (i < 2)%N%:R.
  rewrite /M /lift_spec summxE; apply: eq_bigr => i _; rewrite summxE (bigD1 i) //= big1 ?addr0 => [|j nj]; last first.
    by rewrite !mxE eq_sym (negbTE nj) mulr0n normr0 if_same mul0r.
  rewrite mxE; congr (_ * _); first by rewrite !mxE eqxx n1.
  rewrite /alphaM; case: (ltnP i 2) => h; last first.
    by rewrite num_get /bit ?div0n ?mod0n ?andbF //; have := ltn_ord i; lia.
  have := am_anti_adj C h h; rewrite eqxx adjmK => /(canRL (addrK _)) ->.
  by rewrite mxE [(- _ : 'M__) z z]mxE num_get // mxE /bit div0n mod0n eqxx subr0.
rewrite 4!big_ord_recl big_ord0 /d /= !mulr1 !mulr0 !addr0 => e.
have := congr1 (fun x => x + 2%:R) e; rewrite -opprD -[1 + 1]/(2%:R) addNr -[2%:R]/(1 + 1) addKr.
by apply/eqP; rewrite eq_sym oner_eq0.
Qed.

End Props.
