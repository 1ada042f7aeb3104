(* PropModes.v -- property C72: the symplectic diagonalisation eigh_sp diagonalises the many-body operator build_op(H) *)
Set Warnings "-notation-overridden,-ambiguous-paths".
From mathcomp Require Import all_ssreflect all_algebra.
From mathcomp.zify Require Import zify.
From Verif Require Import Base ArrC MLib JW OpFam FermAlg LibFacts LibFacts2 LibFacts3 Expm Spectral NormalCalc PropLib1 PropLib2 PropLib3 PropLib4
  MEigh EighFacts PropEigh1 PropEigh2 MRandom RndFacts PropRandom1 PropRandom2 PropRandom4 ManyBody.
Set Implicit Arguments.
Unset Strict Implicit.
Unset Printing Implicit Defensive.
Import Order.Theory GRing.Theory Num.Theory.
Local Open Scope ring_scope.

Section Modes.
Variable C : numClosedFieldType.
Local Notation arr := (arr C).

Lemma symp_adj n (U : 'M[C]_(2 * n)) : unitary U -> symplectic U -> symplectic (adjm U).
Proof.
move=> uU; rewrite /symplectic => h.
have e : U^T *m (adjm U)^T = 1%:M by rewrite -trmx_mul (unitary_left uU) trmx1.
by rewrite -{1}h !mulmxA (unitary_left uU) mul1mx -mulmxA e mulmx1.
Qed.

(* the normal modes: adjm (mode U k) annihilates, mode U k creates *)
Definition mode n (U : 'M[C]_(2 * n)) (k : nat) : 'M[C]_(2 ^ n) :=
  \sum_(i < 2 * n) get (ofM (adjm U)) k i *: alphaM C n i.

Lemma mode_car n (U : 'M[C]_(2 * n)) : unitary U -> symplectic U -> car n (mode U).
Proof. by move=> uU sU; apply: rotated_car; [exact: symp_adj|exact: unitary_adj]. Qed.

Lemma sum_shift (V : zmodType) (f : nat -> V) a b : \sum_(a <= i < b) f i = \sum_(0 <= k < b - a) f (k + a)%N.
Proof. by rewrite -{1}[a]add0n big_addn. Qed.

(* sum_i L_ii B_i^+ B_i *)
Lemma lift_std n (S : nat -> C) (B : nat -> 'M[C]_(2 ^ n)) : car n B -> lift_spec (std_form n S) B = mode_sum B S.
Proof.
move=> HB; rewrite /lift_spec (eq_bigr (fun i : 'I_(2 * n) => (std_form n S) i i *: (adjm (B i) *m B i))); last first.
  move=> i _; rewrite (bigD1 i) //= big1 ?addr0 // => j ij; by rewrite mxE eq_sym (negbTE ij) scale0r.
transitivity (\sum_(0 <= i < 2 * n) (if (i < n)%N then - S i else S (i - n)%N) *: (adjm (B i) *m B i)).
  by rewrite big_mkord; apply: eq_bigr => i _; rewrite mxE eqxx.
have hn : (n <= 2 * n)%N by lia.
rewrite (big_cat_nat _ _ _ (leq0n n) hn) /= /mode_sum -(big_mkord xpredT (fun k => S k *: (B k *m adjm (B k) - adjm (B k) *m B k))).
rewrite (_ : \sum_(n <= i < 2 * n) _ = \sum_(0 <= k < n) S k *: (B k *m adjm (B k))).
  rewrite -big_split; apply: eq_big_nat => k /andP[_ hk] /=; by rewrite hk scaleNr addrC -scalerBr.
rewrite sum_shift (_ : (2 * n - n = n)%N); last by lia.
apply: eq_big_nat => k /andP[_ hk]; rewrite ltnNge leq_addl /= addnK.
have e : adjm (B k) = B (k + n)%N by rewrite HB.2 /sw ?hk //; lia.
by rewrite -e adjmK.
Qed.

Section Diag.
Variable schur_sort : arr -> arr * arr.
Variable eigvalsh : arr -> seq C.
Variable argsort : seq C -> seq nat.
Hypothesis schurP : schur_sort_spec schur_sort.
Hypothesis evP : eigvalsh_spec eigvalsh.
Hypothesis asP : argsort_spec argsort.
Local Notation eigh := (eigh_sp schur_sort eigvalsh argsort).

(* no entry below the cutoff of build_op *)
Definition above n (H : 'M[C]_n) := forall i j, H i j = 0 \/ ~~ (`|H i j| < (10%:R ^+ 10)^-1).

(* the many-body operator is sum_k S_k (b_k^+ b_k - b_k b_k^+), where b_k^+ is the k-th column of U applied to the
   ladder operators *)
Theorem C72_modes n (H : 'M[C]_(2 * n)) : (0 < n)%N -> hermitian H -> ph_symmetric H -> gapped H -> above H ->
  exists (U : 'M[C]_(2 * n)) (S : nat -> C), [/\
    eigh (ofM H) = Ok (ofM (std_form n S), ofM U), unitary U /\ (forall k, S k \is Num.real), car n (mode U) &
    build_op n (ofM H) (jordan_wigner_alphas C n) false =
    Ok (ofM (\sum_(k < n) S k *: (mode U k *m adjm (mode U k) - adjm (mode U k) *m mode U k)))].
Proof.
move=> n0 hH pH gH aH; have [L [U [S [[e uU [sU _] eL rS] dL]]]] := C52_diagonal schurP evP asP n0 hH pH gH.
have eL' : L = std_form n S by apply/matrixP => i j; rewrite dL mxE.
exists U, S; rewrite -eL'; split=> //; first exact: mode_car.
rewrite alphas_ops C47_lift //; last by lia.
rewrite C47_cutoff_id // (lift_change _ _ uU) -eL eL'; congr (Ok (ofM _)).
by rewrite -[rot _ _ _]/(mode U) lift_std //; exact: mode_car.
Qed.

(* with no coefficient of U below the cutoff of rotate_operators these modes are rotate_operators(U, alphas, Left=True) *)
Theorem C72_rotate n (U : 'M[C]_(2 * n)) : no_small (10%:R ^+ 9)^-1 (ofM U) ->
  rotate_operators (PArr (ofM U)) (PList (jordan_wigner_alphas C n)) true = Ok (Rot (ops (mode U) (2 * n))).
Proof.
move=> ns; rewrite /rotate_operators /rotate_core alphas_ops size_ops /= eqxx /= perform_rotation_ops //=.
congr (Ok (Rot _)); apply: eq_ops => j hj; rewrite /mode; apply: eq_bigr => i _; congr (_ *: _).
rewrite ofM_adj.
have h : get (ofM (adjm U)) j i = 0 \/ ~~ (`|get (ofM (adjm U)) j i| < (10%:R ^+ 9)^-1).
  have := ns i j; rewrite -[j]/(val (Ordinal hj)) !ofM_get !mxE norm_conjC => -[->|]; [left; exact: rmorph0|by right].
by case: h => [->|h]; [exact: thr0|exact: thr_big].
Qed.

(* the many-body spectrum: one eigenvalue sum_k (+-) S_k for every choice of signs *)
Theorem C72_spectrum n (H : 'M[C]_(2 * n)) : (0 < n)%N -> hermitian H -> ph_symmetric H -> gapped H -> above H ->
  exists (U : 'M[C]_(2 * n)) (S : nat -> C) (O : 'M[C]_(2 ^ n)), [/\
    eigh (ofM H) = Ok (ofM (std_form n S), ofM U),
    build_op n (ofM H) (jordan_wigner_alphas C n) false = Ok (ofM O) &
    char_poly O = \prod_(s : {ffun 'I_n -> bool}) ('X - (\sum_(k < n) if s k then S k else - S k)%:P)].
Proof.
move=> n0 hH pH gH aH; have [U [S [e _ c eO]]] := C72_modes n0 hH pH gH aH.
exists U, S; eexists; split; [exact: e|exact: eO|exact: (mode_char c)].
Qed.

(* the lowest energy is - sum_k |S_k| *)
Theorem C72_ground n (H : 'M[C]_(2 * n)) : (0 < n)%N -> hermitian H -> ph_symmetric H -> gapped H -> above H ->
  exists (U : 'M[C]_(2 * n)) (S : nat -> C) (O : 'M[C]_(2 ^ n)), [/\
    eigh (ofM H) = Ok (ofM (std_form n S), ofM U),
    build_op n (ofM H) (jordan_wigner_alphas C n) false = Ok (ofM O),
    eigenvalue O (- \sum_(k < n) `|S k|) &
    forall x, eigenvalue O x -> - (\sum_(k < n) `|S k|) <= x].
Proof.
move=> n0 hH pH gH aH; have [U [S [e [_ rS] c eO]]] := C72_modes n0 hH pH gH aH.
set O : 'M[C]_(2 ^ n) := \sum_(k < n) _ in eO; have cO : char_poly O = _ := mode_char c S.
exists U, S, O; split=> // [|x]; rewrite eigenvalue_root_char cO.
  rewrite rootE horner_prod prodf_seq_eq0; apply/hasP; exists [ffun k : 'I_n => S k <= 0]; first exact: mem_index_enum.
  rewrite /= hornerXsubC subr_eq0 -sumrN /energy; apply/eqP/eq_bigr => k _; rewrite ffunE.
  case: ifP => h; first by rewrite ler0_norm ?opprK.
  by have := real_leVge (rS k) (real0 C); rewrite h /= => h'; rewrite ger0_norm.
rewrite rootE horner_prod prodf_seq_eq0 => /hasP[s _]; rewrite /= hornerXsubC subr_eq0 => /eqP ->.
rewrite -sumrN; apply: ler_sum => k _; rewrite ler_oppl; case: ifP => _; last first.
  by rewrite opprK real_ler_norm.
by rewrite -normrN real_ler_norm // rpredN.
Qed.

(* the partition function *)
Theorem C72_partition (E : forall m, 'M[C]_m -> 'M[C]_m) n (H : 'M[C]_(2 * n)) beta : expm_spec E ->
  (0 < n)%N -> hermitian H -> ph_symmetric H -> gapped H -> above H ->
  exists (U : 'M[C]_(2 * n)) (S : nat -> C) (O : 'M[C]_(2 ^ n)), [/\
    eigh (ofM H) = Ok (ofM (std_form n S), ofM U),
    build_op n (ofM H) (jordan_wigner_alphas C n) false = Ok (ofM O) &
    \tr (E (2 ^ n)%N (- beta *: O)) = \prod_(k < n) (cexp E (beta * S k) + cexp E (- (beta * S k)))].
Proof.
move=> HE n0 hH pH gH aH; have [U [S [e _ c eO]]] := C72_modes n0 hH pH gH aH.
exists U, S; eexists; split; [exact: e|exact: eO|].
rewrite scaler_sumr (eq_bigr (fun k : 'I_n => (- beta * S k) *: (mode U k *m adjm (mode U k) - adjm (mode U k) *m mode U k))).
  rewrite (mode_exp c HE (fun k => - beta * S k)); apply: eq_bigr => k _; by rewrite mulNr opprK addrC.
by move=> k _; rewrite scalerA.
Qed.

(* n modes of energy 1/2: the ground state energy is - n/2 *)
Example C72_example n : (0 < n)%N -> let H := std_form n (fun _ => 2%:R^-1 : C) in
  exists (U L : 'M[C]_(2 * n)) (O : 'M[C]_(2 ^ n)), [/\ eigh (ofM H) = Ok (ofM L, ofM U),
    build_op n (ofM H) (jordan_wigner_alphas C n) false = Ok (ofM O),
    eigenvalue O (- n%:R / 2%:R) & forall x, eigenvalue O x -> - n%:R / 2%:R <= x].
Proof.
move=> n0 H; pose h : C := 2%:R^-1; have h0 : 0 < h by rewrite invr_gt0 ltr0n.
have hr : h^* = h by apply/CrealP; exact: gtr0_real.
have he : eps10 C < h.
  by rewrite /h ltf_pinv ?posrE ?exprn_gt0 ?ltr0n // -natrX ltr_nat.
have HH : H *m H = (h * h)%:M.
  apply/matrixP => i j; rewrite !mxE (bigD1 i) //= big1 => [|k ki]; last by rewrite mxE eq_sym (negbTE ki) mul0r.
  rewrite !mxE eqxx addr0; case: (i =P j) => [_|_]; last by rewrite mulr0.
  by case: ifP => _; rewrite ?mulrN ?mulNr ?opprK.
have hH : hermitian H.
  apply/matrixP => i j; rewrite !mxE; case: (j =P i) => [->|ne].
    by rewrite eqxx; case: ifP; rewrite ?rmorphN /= -/h hr.
  by rewrite rmorph0 (_ : (i == j) = false) //; apply/eqP => e; apply: ne.
have pH : ph_symmetric H.
  apply/matrixP => i j; rewrite SXS !mxE -!(inj_eq val_inj) /=; have hi := ltn_ord i; have hj := ltn_ord j.
  case: (i =P j :> nat) => [eij|ne]; last first.
    rewrite (_ : (_ == _) = false) ?rmorph0 ?oppr0 //; apply/eqP => e; apply: ne.
    by rewrite -(swK hi) e swK.
  rewrite eij eqxx /sw; case: (ltnP j n) => h1; first by rewrite ltnNge leq_addl /= opprK -/h hr.
  by rewrite ifT ?rmorphN -/h ?hr //; lia.
have gH : gapped H.
  move=> x /eigenvalueP[v ev v0]; right; have e2 : v *m H *m H = (x * x) *: v by rewrite ev -scalemxAl ev scalerA.
  rewrite -mulmxA HH mul_mx_scalar in e2; have /eqP := e2; rewrite -subr_eq0 -scalerBl scaler_eq0 (negbTE v0) orbF subr_eq0 => /eqP e3.
  have := congr1 Num.norm e3; rewrite !normrM (gtr0_norm h0) -!expr2 => /eqP; rewrite eqr_expn2 ?normr_ge0 ?(ltW h0) // => /eqP <-.
  exact: he.
have aH : above H.
  move=> i j; rewrite !mxE; case: ifP => _; last by left.
  right; rewrite -real_leNgt ?normr_real ?rpredV ?rpredX ?realn //; apply: ltW.
  by case: ifP => _; rewrite ?normrN gtr0_norm.
have [L [U [S [[e uU _ eL rS] dL]]]] := C52_diagonal schurP evP asP n0 hH pH gH.
have eL' : L = std_form n S by apply/matrixP => i j; rewrite dL mxE.
have [U' [S' [O [e' eO g1 g2]]]] := C72_ground n0 hH pH gH aH.
move: e'; rewrite e => /okpair_inj[e1 e2]; exists U, L, O.
have nS k : (k < n)%N -> `|S' k| = h.
  move=> hk; have hk' : (k < 2 * n)%N by lia.
  have LL : L *m L = (h * h)%:M.
    by rewrite eL !mulmxA -(mulmxA _ U) uU mulmx1 -(mulmxA _ H H) HH mul_mx_scalar -scalemxAl (unitary_left uU) scalemx1.
  have := congr1 (fun M : 'M_(2 * n) => M (Ordinal hk') (Ordinal hk')) LL; rewrite e1 !mxE (bigD1 (Ordinal hk')) //= big1 => [|i ik].
    rewrite !mxE eqxx /= hk mulrNN addr0 mulr1n => e3.
    by have := congr1 Num.norm e3; rewrite !normrM (gtr0_norm h0) -!expr2 => /eqP; rewrite eqr_expn2 ?normr_ge0 ?(ltW h0) // => /eqP.
  by rewrite mxE eq_sym (negbTE ik) mul0r.
have es : \sum_(k < n) `|S' k| = n%:R / 2%:R.
  rewrite (eq_bigr (fun _ => h)) => [|k _]; last exact: nS.
  by rewrite sumr_const card_ord -[RHS]/(n%:R * h) mulr_natl.
by rewrite es -mulNr in g1 g2; split.
Qed.
End Diag.

(* the joint vacuum of the rotated modes used by random_FF_pure_state_CN exists and is unique up to a factor *)
Theorem C59_vacuum n (O : 'M[C]_(2 * n)) : unitary O -> symplectic O ->
  exists v : 'cV[C]_(2 ^ n), [/\ unit_vector v, forall j, (j < n)%N -> adjm (rotated O j) *m v = 0 &
    forall w : 'cV[C]_(2 ^ n), (forall j, (j < n)%N -> adjm (rotated O j) *m w = 0) -> exists c, w = c *: v].
Proof. by move=> uO sO; exact: vacuum_unique (rotated_car sO uO). Qed.
End Modes.
