(* PropLib1.v -- properties C37-C43 of ff_lib.py *)
Set Warnings "-notation-overridden,-ambiguous-paths".
From mathcomp Require Import all_ssreflect all_algebra.
From mathcomp.zify Require Import zify.
From Verif Require Import Base ArrC MLib JW OpFam FermAlg LibFacts LibFacts2 LibFacts3.
Set Implicit Arguments.
Unset Strict Implicit.
Unset Printing Implicit Defensive.
Import Order.Theory GRing.Theory Num.Theory.
Local Open Scope ring_scope.

Section Props.
Variable C : numClosedFieldType.
Local Notation arr := (arr C).

(* ================================================================== *)
(* C37  permutation_to_matrix                                          *)
(* ================================================================== *)
(* p is (the list of images of) a permutation of 0..n-1 *)
Definition is_permutation (n : nat) (p : seq int) := perm_eq p [seq i%:Z | i <- iota 0 n].

Lemma is_permutation_size n p : is_permutation n p -> size p = n.
Proof. by move=> /perm_size ->; rewrite size_map size_iota. Qed.

Lemma is_permutation_range n p : is_permutation n p -> in_range p.
Proof.
move=> h; have sz := is_permutation_size h; rewrite /in_range sz (perm_all _ h).
by apply/allP => v /mapP[i]; rewrite mem_iota add0n => /= hi ->; rewrite ltz_nat.
Qed.

Lemma is_permutation_nth n p i : is_permutation n p -> (i < n)%N ->
  (`|nth 0%R p i| < n)%N /\ nth 0 p i = `|nth 0%R p i|%N%:Z.
Proof.
move=> h hi; have sz := is_permutation_size h.
have /allP/(_ (nth 0 p i)) := is_permutation_range h; rewrite mem_nth ?sz // => /(_ isT) /andP[h1 h2].
by rewrite -ltz_nat gez0_abs.
Qed.

Lemma is_permutation_inj n p i j : is_permutation n p -> (i < n)%N -> (j < n)%N -> nth 0 p i = nth 0 p j -> i = j.
Proof.
move=> h hi hj /eqP; have sz := is_permutation_size h.
have u : uniq p by rewrite (perm_uniq h) map_inj_uniq ?iota_uniq // => a b [].
by rewrite nth_uniq ?sz // => /eqP.
Qed.

(* the matrix maps the i-th basis vector to the p(i)-th one and is orthogonal *)
Theorem C37_permutation_to_matrix n p : is_permutation n p ->
  exists M, [/\ permutation_to_matrix C p = Some M, nr M = n, nc M = n,
    (forall i j : 'I_n, nth 0 p i = (j : nat)%:Z -> toM n n M *m delta_mx i 0 = delta_mx j 0 :> 'cV_n) &
    toM n n M *m (toM n n M)^T = 1%:M].
Proof.
move=> h; have sz := is_permutation_size h.
exists (mk n n (fun r c => (r == `|nth 0%R p c|)%N%:R)).
split=> //; first by rewrite permutation_to_matrixE (is_permutation_range h) sz.
  move=> i j e; rewrite -colE; apply/matrixP => r c; rewrite !mxE getE // e /= ord1 andbT.
  by congr ((nat_of_bool _)%:R); apply/eqP/eqP => [e'|->] //; apply: val_inj.
apply/matrixP => r s; rewrite !mxE.
have [c hc] : exists c : 'I_n, nth 0 p c = (r : nat)%:Z.
  have : (r : nat)%:Z \in p by rewrite (perm_mem h) map_f // mem_iota add0n /=.
  by case/(nthP 0) => k; rewrite sz => hk e; exists (Ordinal hk).
rewrite (bigD1 c) //= big1 ?addr0 => [|k nk].
  rewrite !mxE !getE // hc /= eqxx mul1r; congr ((nat_of_bool _)%:R).
  by rewrite eq_sym.
rewrite !mxE !getE // (_ : (_ == _) = false) ?mul0r //; apply/eqP => e.
case/eqP: nk; apply: val_inj; apply: (is_permutation_inj h (ltn_ord k) (ltn_ord c)).
by rewrite [RHS]hc; have [_ ->] := is_permutation_nth h (ltn_ord k); rewrite -e.
Qed.

(* composition of permutations is mapped to the matrix product *)
Theorem C37_multiplicative n p q Mp Mq : is_permutation n p -> is_permutation n q ->
  permutation_to_matrix C p = Some Mp -> permutation_to_matrix C q = Some Mq ->
  permutation_to_matrix C [seq nth 0 p `|v| | v <- q] = Some (amul Mp Mq).
Proof.
move=> hp hq; have sp := is_permutation_size hp; have sq := is_permutation_size hq.
rewrite !permutation_to_matrixE !(is_permutation_range hp) !(is_permutation_range hq) sp sq => -[<-] [<-].
rewrite ifT; last first.
  rewrite /in_range size_map sq; apply/allP => v /mapP[w hw ->].
  have [i hi e] := nthP 0 hw; rewrite sq in hi; rewrite -e.
  have [h1 _] := is_permutation_nth hq hi; have [h2 e2] := is_permutation_nth hp h1.
  by rewrite e2 ltz_nat.
rewrite size_map sq; congr Some; apply: arrP => // r c /= hr hc.
rewrite !getE // (nth_map 0) ?sq //.
have [h1 _] := is_permutation_nth hq hc.
rewrite (bigD1 (Ordinal h1)) //= big1 ?addr0 => [|k nk]; rewrite !getE //.
  by rewrite eqxx mulr1.
by rewrite (negbTE (_ : k != `|nth 0%R q c|%N :> nat)) ?mulr0.
Qed.

(* None is returned exactly when an entry is out of range *)
Theorem C37_none p : permutation_to_matrix C p = None <-> exists2 v, v \in p & (v < 0) || ((size p)%:Z <= v).
Proof.
rewrite permutation_to_matrixE; split.
  case: ifP => // /negbT/allPn[v hv]; rewrite negb_and -leNgt -ltNge => h _; exists v => //.
case=> v hv h; rewrite ifF //; apply/negbTE/allPn; exists v => //.
by rewrite negb_and -leNgt -ltNge.
Qed.

(* documented "None iff the input is not a permutation" fails: [0, 0] is accepted and the result is singular *)
Theorem C37_nonpermutation_accepted_refuted : exists p M,
  [/\ ~~ is_permutation (size p) p, permutation_to_matrix C p = Some M & \det (toM 2 2 M) = 0].
Proof.
exists [:: 0; 0], (mk 2 2 (fun r c => (r == 0)%N%:R)); split=> //.
  by rewrite permutation_to_matrixE /=; congr Some; apply: eq_mk => r [|[|c]].
rewrite (expand_det_row _ (lift ord0 ord0 : 'I_2)) big1 // => j _; by rewrite mxE getE // mul0r.
Qed.

Example C37_example : exists M, permutation_to_matrix C [:: 2; 0; 1] = Some M /\ get M 2 0 = 1 /\ get M 2 1 = 0.
Proof.
rewrite permutation_to_matrixE /=; eexists; split; first reflexivity.
by rewrite !getE.
Qed.

(* ================================================================== *)
(* C38  generate_pauli_group                                           *)
(* ================================================================== *)
Theorem C38_error (n : int) : n <= 0 -> generate_pauli_group C n = Raise ValueError.
Proof. by rewrite /generate_pauli_group => ->. Qed.

(* 4^n matrices of size 2^n; the k-th is the tensor product of the Pauli matrices given by the base-4 digits
   of k, most significant digit (leftmost factor) first; entry formula over bits *)
Theorem C38_order (n : nat) : (0 < n)%N -> exists l, [/\ generate_pauli_group C n%:Z = Ok l, size l = (4 ^ n)%N &
  forall k, (k < 4 ^ n)%N -> let P := nth (azeros 0 0) l k in
    [/\ nr P = (2 ^ n)%N, nc P = (2 ^ n)%N &
     forall r c, (r < 2 ^ n)%N -> (c < 2 ^ n)%N -> get P r c =
       \prod_(j < n) get (nth (aeye 2) [:: aeye 2; pauli_x C; pauli_y C; pauli_z C] (k %/ 4 ^ (n - j.+1) %% 4))
          (r %/ 2 ^ (n - j.+1) %% 2) (c %/ 2 ^ (n - j.+1) %% 2)]].
Proof.
move=> n0; exists (mkseq (pstr C n) (4 ^ n)); split; [exact: pauli_groupE|exact: size_mkseq|].
move=> k hk /=; rewrite nth_mkseq //; split; [exact: nr_pstr|exact: nc_pstr|].
by move=> r c hr hc; rewrite (ts_get (pstr2 C n k)).
Qed.

(* Hermitian, unitary, trace-orthogonal, and spanning all matrices *)
Theorem C38_basis (n : nat) l : (0 < n)%N -> generate_pauli_group C n%:Z = Ok l ->
  let P k := toM (2 ^ n) (2 ^ n) (nth (azeros 0 0) l k) in
  [/\ forall k, (k < 4 ^ n)%N -> adjm (P k) = P k,
      forall k, (k < 4 ^ n)%N -> P k *m P k = 1%:M,
      forall j k, (j < 4 ^ n)%N -> (k < 4 ^ n)%N -> \tr (P j *m P k) = if j == k then 2%:R ^+ n else 0 &
      forall X : 'M[C]_(2 ^ n), X = (2%:R ^+ n)^-1 *: \sum_(k < 4 ^ n) \tr (P k *m X) *: P k].
Proof.
move=> n0; rewrite pauli_groupE // => -[<-] P.
have PE k : (k < 4 ^ n)%N -> P k = toM (2 ^ n) (2 ^ n) (pstr C n k) by move=> hk; rewrite /P nth_mkseq.
split.
- by move=> k hk; rewrite PE // -toM_adj ?nr_pstr ?nc_pstr // pstr_adj.
- by move=> k hk; rewrite PE // -toM_jmul ?nr_pstr ?nc_pstr // pstr_sqr toM_eye.
- move=> j k hj hk; rewrite !PE // -toM_jmul ?nr_pstr ?nc_pstr // -pstr_trace //.
  by rewrite (@atraceE _ _ (2 ^ n)) //= nr_pstr.
move=> X; rewrite {1}(pauli_expand X); congr (_ *: _); apply: eq_bigr => k _; by rewrite PE.
Qed.

Example C38_example : exists l, generate_pauli_group C 2%:Z = Ok l /\ size l = 16%N /\
  get (nth (azeros 0 0) l 7) 0 2 = 1 /\ get (nth (azeros 0 0) l 7) 1 3 = -1.
Proof.
exists (mkseq (pstr C 2) (4 ^ 2)); split; first exact: pauli_groupE.
rewrite size_mkseq nth_mkseq //; split=> //.
rewrite !(ts_get (pstr2 C 2 7)) //= !big_ord_recl !big_ord0 /= /sig /= !getE //=.
by rewrite !mulr1 mul1r.
Qed.

(* ================================================================== *)
(* C39  Jordan-Wigner operators                                        *)
(* ================================================================== *)
Theorem C39_shape n : size (jordan_wigner_lowering C n) = n /\
  forall i, (i < n)%N -> let a := nth (azeros 0 0) (jordan_wigner_lowering C n) i in
    nr a = (2 ^ n)%N /\ nc a = (2 ^ n)%N.
Proof.
rewrite size_map size_iota; split=> // i hi /=.
by rewrite (nth_map 0%N) ?size_iota // nth_iota // nr_jw nc_jw.
Qed.

(* canonical anticommutation relations *)
Theorem C39_CAR n i j : (i < n)%N -> (j < n)%N ->
  let a k := toM (2 ^ n) (2 ^ n) (nth (azeros 0 0) (jordan_wigner_lowering C n) k) in
  a i *m a j + a j *m a i = 0 /\ a i *m adjm (a j) + adjm (a j) *m a i = if i == j then 1%:M else 0.
Proof.
move=> hi hj a.
have aE k : (k < n)%N -> a k = am C n k.
  by move=> hk; rewrite /a (nth_map 0%N) ?size_iota // nth_iota.
rewrite !aE // am_anti // am_anti_adj //; split=> //; case: eqP => _ //; exact: raddf0.
Qed.

(* the vacuum is the first basis vector; the number operator reads bit i (site 0 = most significant bit) *)
Theorem C39_occupation n i : (i < n)%N ->
  let a := toM (2 ^ n) (2 ^ n) (nth (azeros 0 0) (jordan_wigner_lowering C n) i) in
  (forall v : 'I_(2 ^ n), v = 0%N :> nat -> a *m delta_mx v 0 = 0 :> 'cV_(2 ^ n)) /\
  forall r : 'I_(2 ^ n), (adjm a *m a) *m delta_mx r 0 = ((r %/ 2 ^ (n - i.+1)) %% 2)%:R *: delta_mx r 0 :> 'cV_(2 ^ n).
Proof.
move=> hi a.
have -> : a = am C n i by rewrite /a (nth_map 0%N) ?size_iota // nth_iota.
split=> [v v0|r].
  by rewrite (_ : v = Ordinal (pow2_gt0 n)) ?am_e0 //; apply: val_inj.
rewrite -colE; apply/matrixP => s c; rewrite mxE num_get // !mxE ord1 eqxx andbT.
case: (altP (s =P r)) => [->|_]; last by rewrite mulr0.
rewrite mulr1 /=; have := bit_lt n r i; rewrite /bit.
by case: (_ %% 2)%N => [|[|?]].
Qed.

(* jordan_wigner_alphas = [a_0^+, ..., a_{n-1}^+, a_0, ..., a_{n-1}] *)
Theorem C39_alphas n : size (jordan_wigner_alphas C n) = (2 * n)%N /\
  forall i, (i < n)%N ->
   nth (azeros 0 0) (jordan_wigner_alphas C n) (n + i) = nth (azeros 0 0) (jordan_wigner_lowering C n) i /\
   nth (azeros 0 0) (jordan_wigner_alphas C n) i = aadj (nth (azeros 0 0) (jordan_wigner_lowering C n) i).
Proof.
rewrite alphas_ops size_ops; split=> // i hi; rewrite !nth_ops; try lia.
rewrite /alphaM hi ltnNge leq_addr /= addKn (nth_map 0%N) ?size_iota // nth_iota //.
rewrite -(ofM_toM (nr_jw C n i) (nc_jw C n i)) ofM_adj; split=> //.
Qed.

Example C39_example : let a := nth (azeros 0 0) (jordan_wigner_lowering C 2) 1 in
  get a 0 1 = 1 /\ get a 2 3 = -1.
Proof.
rewrite /= jw_siteE !(ts_get (jwf2 C 1)) //= !big_ord_recl !big_ord0 /= /jwf /= smE pzE !getE //=.
by rewrite !mulr1.
Qed.

(* ================================================================== *)
(* C40  Majorana operators                                             *)
(* ================================================================== *)
Theorem C40_majoranas n : size (jordan_wigner_majoranas C n) = (2 * n)%N /\
  let g k := toM (2 ^ n) (2 ^ n) (nth (azeros 0 0) (jordan_wigner_majoranas C n) k) in
  (forall i, (i < 2 * n)%N -> adjm (g i) = g i) /\
  (forall i j, (i < 2 * n)%N -> (j < 2 * n)%N -> g i *m g j + g j *m g i = if i == j then 1%:M else 0).
Proof.
rewrite majoranas_ops size_ops; split=> // g.
have gE k : (k < 2 * n)%N -> g k = gam C n k by move=> hk; rewrite /g nth_ops // toM_ofM.
split=> [i hi|i j hi hj]; rewrite !gE //; first exact: gam_herm.
rewrite gam_anti //; case: eqP => _ //; exact: raddf0.
Qed.

(* they are the Omega-rotated ladder operators *)
Theorem C40_rotation n : rotate_operators (PArr (build_Omega C n)) (PList (jordan_wigner_alphas C n)) false =
  Ok (Rot (jordan_wigner_majoranas C n)).
Proof.
rewrite /rotate_operators /rotate_core alphas_ops majoranas_ops size_ops nr_Om nc_Om eqxx /=.
rewrite perform_rotation_ops ?nr_Om ?nc_Om //=; congr (Ok (Rot _)); apply: eq_ops => j hj.
by apply: eq_bigr => i _; rewrite get_Omega // thr_om.
Qed.

(* and the explicit combinations (the docstring's sign of the second half is the opposite one) *)
Theorem C40_explicit n i : (i < n)%N ->
  let g k := toM (2 ^ n) (2 ^ n) (nth (azeros 0 0) (jordan_wigner_majoranas C n) k) in
  let a := toM (2 ^ n) (2 ^ n) (nth (azeros 0 0) (jordan_wigner_lowering C n) i) in
  g i = (sqrtC 2%:R)^-1 *: (adjm a + a) /\ g (n + i)%N = (sqrtC 2%:R)^-1 *: ('i *: (adjm a - a)).
Proof.
move=> hi g a.
have -> : a = am C n i by rewrite /a (nth_map 0%N) ?size_iota // nth_iota.
have gE k : (k < 2 * n)%N -> g k = gam C n k.
  by move=> hk; rewrite /g majoranas_ops nth_ops // toM_ofM.
rewrite !gE; try lia; rewrite !gamE; try lia; rewrite hi ltnNge leq_addr /= addKn; split=> //.
by rewrite scaleNr -scalerN opprB.
Qed.

Example C40_example : let g k := nth (azeros 0 0) (jordan_wigner_majoranas C 1) k in
  get (g 0%N) 0 1 = (sqrtC 2%:R)^-1 /\ get (g 1%N) 0 1 = - 'i * (sqrtC 2%:R)^-1.
Proof.
have e : jw_site C 1 0 = arr2 0 1 0 0.
  by rewrite jw_siteE tsS ts0 /jwf /= SminusE; apply: arr2P => //; rewrite getE //= !getE //= mul1r.
rewrite /= e arr2_adj /asub /ascale /aadd /arr2 !getE //= rmorph0 add0r subr0 !mulr1 mulrC; by split.
Qed.

(* ================================================================== *)
(* C41  rotate_operators                                               *)
(* ================================================================== *)
(* square operators of one size N *)
Definition operators N (l : seq arr) := all (fun X => shp X N N) l.

Lemma perform_rotation_list N (M : arr) l : operators N l -> (size l <= nr M)%N -> (size l <= nc M)%N ->
  perform_rotation M l = Ok (ops (fun j => \sum_(i < size l) thr (eps9 C) (get M j i) *: nthM N l i) (size l)).
Proof. by move=> ho h1 h2; rewrite -perform_rotation_ops // -opsE. Qed.

(* the exact outcome: beta_j = sum_i C_ji alpha_i (Left: conj(C_ij)), coefficients below 1e-9 dropped *)
Theorem C41_rotation N (M : arr) (alphas : seq arr) (left : bool) :
  operators N alphas -> (size alphas <= nr M)%N -> (size alphas <= nc M)%N ->
  exists l, [/\ rotate_operators (PArr M) (PList alphas) left = Ok (Rot l), size l = size alphas &
    forall j, (j < size alphas)%N -> toM N N (nth (azeros 0 0) l j) =
      \sum_(i < size alphas) (let c := if left then (get M i j)^* else get M j i in
          if `|c| < (10%:R ^+ 9)^-1 then 0 else c) *: toM N N (nth (azeros 0 0) alphas i)].
Proof.
move=> ho h1 h2; rewrite /rotate_operators /rotate_core.
rewrite ifF; last by apply/negbTE; rewrite !negb_and !negbK; lia.
rewrite (perform_rotation_list ho); try by case: (left).
eexists; split; [reflexivity|exact: size_ops|].
move=> j hj; rewrite nth_ops // toM_ofM; apply: eq_bigr => i _; congr (_ *: _).
case: (left) => //=; by rewrite getE ?(leq_trans hj h2) ?(leq_trans (ltn_ord i) h1).
Qed.

(* no coefficient in ]0, 1e-9[: the rotation is exact *)
Definition no_small eps (M : arr) := forall i j, get M i j = 0 \/ ~~ (`|get M i j| < eps).

Theorem C41_exact N (M : arr) (alphas : seq arr) (left : bool) :
  operators N alphas -> (size alphas <= nr M)%N -> (size alphas <= nc M)%N -> no_small (10%:R ^+ 9)^-1 M ->
  exists l, [/\ rotate_operators (PArr M) (PList alphas) left = Ok (Rot l), size l = size alphas &
    forall j, (j < size alphas)%N -> toM N N (nth (azeros 0 0) l j) =
      \sum_(i < size alphas) (if left then (get M i j)^* else get M j i) *: toM N N (nth (azeros 0 0) alphas i)].
Proof.
move=> ho h1 h2 ns; have [l [e sz H]] := C41_rotation left ho h1 h2; exists l; split=> // j hj.
rewrite H //; apply: eq_bigr => i _; congr (_ *: _) => /=.
case: (left); [have := ns i j|have := ns j i]; case=> [->|/negbTE h]; rewrite ?rmorph0 ?norm_conjC ?h //.
all: by case: ifP.
Qed.

(* in general every entry is off by at most 1e-9 * sum_i |alpha_i| *)
Theorem C41_error_bound N (M : arr) (alphas : seq arr) l :
  operators N alphas -> (size alphas <= nr M)%N -> (size alphas <= nc M)%N ->
  rotate_operators (PArr M) (PList alphas) false = Ok (Rot l) ->
  forall j (r c : 'I_N), (j < size alphas)%N ->
    `|toM N N (nth (azeros 0 0) l j) r c
      - (\sum_(i < size alphas) get M j i *: toM N N (nth (azeros 0 0) alphas i)) r c|
    <= (10%:R ^+ 9)^-1 * \sum_(i < size alphas) `|toM N N (nth (azeros 0 0) alphas i) r c|.
Proof.
move=> ho h1 h2 e j r c hj; have [l' [e' sz H]] := C41_rotation false ho h1 h2.
move: e; rewrite e' => -[<-]; rewrite H // !summxE -sumrB mulr_sumr.
apply: le_trans (ler_norm_sum _ _ _) _; apply: ler_sum => i _ /=.
rewrite [X in X - _]mxE [X in _ - X]mxE -mulrBl normrM ler_wpmul2r //.
case: ifP => [h|_]; first by rewrite sub0r normrN ltW.
by rewrite subrr normr0 invr_ge0 exprn_ge0 // ler0n.
Qed.

(* the two arguments may be given in either order *)
Theorem C41_swap (M : arr) alphas left :
  rotate_operators (PList alphas) (PArr M) left = rotate_operators (PArr M) (PList alphas) left.
Proof. by []. Qed.

(* rotating by D and then by M is rotating by the matrix product M D (exact coefficients) *)
Theorem C41_compose N (M D : arr) (alphas l1 : seq arr) : let n := size alphas in
  operators N alphas -> nr M = n -> nc M = n -> nr D = n -> nc D = n ->
  no_small (10%:R ^+ 9)^-1 M -> no_small (10%:R ^+ 9)^-1 D -> no_small (10%:R ^+ 9)^-1 (amul M D) ->
  rotate_operators (PArr D) (PList alphas) false = Ok (Rot l1) ->
  rotate_operators (PArr M) (PList l1) false = rotate_operators (PArr (amul M D)) (PList alphas) false.
Proof.
move=> n ho rM cM rD cD sM sD sMD e.
have k1 : (size alphas <= nr D)%N by rewrite rD.
have k2 : (size alphas <= nc D)%N by rewrite cD.
move: e; rewrite /rotate_operators /rotate_core rD cD eqxx /= rM cM eqxx /=.
rewrite (perform_rotation_list ho) //= => -[<-]; rewrite size_ops eqxx /=.
rewrite (perform_rotation_list ho) ?perform_rotation_ops /= ?rM ?cM ?cD ?eqxx //; congr (Ok (Rot _)); apply: eq_ops => j hj.
have thrE (X : arr) a b : no_small (10%:R ^+ 9)^-1 X -> thr (eps9 C) (get X a b) = get X a b.
  by move=> h; case: (h a b) => [->|h']; [exact: thr0|exact: thr_big].
under [RHS]eq_bigr do rewrite thrE //.
rewrite (eq_bigr (fun i : 'I_n => \sum_(k < n) (get M j i * get D i k) *: nthM N alphas k)); last first.
  move=> i _; rewrite thrE // scaler_sumr; apply: eq_bigr => k _; by rewrite thrE // scalerA.
rewrite exchange_big /=; apply: eq_bigr => k _; rewrite getE ?rM ?cD //= -scaler_suml; congr (_ *: _).
by rewrite cM.
Qed.

(* incompatible shapes: 0 is returned unless one dimension fits or both are larger *)
Theorem C41_incompatible (M : arr) alphas left : nr M != size alphas -> nc M != size alphas ->
  ~~ ((size alphas < nr M)%N && (size alphas < nc M)%N) ->
  rotate_operators (PArr M) (PList alphas) left = Ok (RotZero C).
Proof. by move=> h1 h2 h3; rewrite /rotate_operators /rotate_core h1 h2 h3. Qed.

(* a coefficient matrix with too few rows or columns and the other dimension right ends in IndexError *)
Lemma foldM_raise (A S : Type) (body : S -> A -> res S) s l1 x l2 e :
  (forall s, body s x = Raise e) -> is_ok (foldM body s l1) -> foldM body s (l1 ++ x :: l2) = Raise e.
Proof. by move=> H; rewrite foldM_cat; case: (foldM body s l1) => //= s' _; rewrite H. Qed.

Theorem C41_index_error N (M : arr) alphas : operators N alphas ->
  ((nr M == size alphas) && (nc M < size alphas)%N) || ((nc M == size alphas) && (nr M < size alphas)%N) ->
  rotate_operators (PArr M) (PList alphas) false = Raise IndexError.
Proof.
move=> ho h; rewrite /rotate_operators /rotate_core ifF; last first.
  by apply/negbTE; rewrite !negb_and !negbK; case/orP: h => /andP[-> _] //; rewrite orbT.
rewrite (opsE ho) /perform_rotation size_ops; set n := size alphas in h *.
have n0 : (0 < n)%N by case/orP: h => /andP[_]; apply: leq_ltn_trans.
pose body j := foldM (fun b i => let* c := idx M j i in
   if `|c| < eps9 C then Ok b else let* al := item (ops (nthM N alphas) n) i in iadd b (ascale c al)) (azeros N N : arr).
have okrow j k : (k <= n)%N -> (j < nr M)%N -> (k <= nc M)%N -> is_ok (body j (iota 0 k)).
  move=> kn hj hk; rewrite /body ofM_zeros.
  rewrite (@foldM_sumM _ _ _ _ (fun i => thr (eps9 C) (get M j i) *: nthM N alphas i)) // => X i.
  rewrite mem_iota add0n => /= hi; rewrite /idx hj (leq_trans hi hk) /= /thr.
  case: ifP => _; first by rewrite scale0r addr0.
  by rewrite item_ops ?(leq_trans hi kn) //= ofM_scale ofM_iadd.
have mapE l : mapM (fun j => let* a0 := item (ops (nthM N alphas) n) 0 in
    foldM (fun b i => let* c := idx M j i in
      if `|c| < eps9 C then Ok b else let* al := item (ops (nthM N alphas) n) i in iadd b (ascale c al))
      (azeros (nr a0) (nc a0)) (iota 0 n)) l = mapM (fun j => body j (iota 0 n)) l.
  by elim: l => //= j l ->; rewrite item_ops.
rewrite mapE; case/orP: h => /andP[/eqP e1 h1].
  have -> : iota 0 n = 0%N :: iota 1 n.-1 by case: (n) n0.
  rewrite /=; suff -> : body 0%N (0%N :: iota 1 n.-1) = Raise IndexError by [].
  have -> : 0%N :: iota 1 n.-1 = iota 0 (nc M) ++ nc M :: iota (nc M).+1 (n - nc M).-1.
    have -> : 0%N :: iota 1 n.-1 = iota 0 n by case: (n) n0.
    have e : n = (nc M + (n - nc M).-1.+1)%N by lia.
    by rewrite {1}e iotaD.
  rewrite /body; apply: foldM_raise; first by move=> s; rewrite /idx ltnn andbF.
  by apply: okrow; rewrite ?e1 // ltnW.
have e : iota 0 n = iota 0 (nr M) ++ nr M :: iota (nr M).+1 (n - nr M).-1.
  have e' : n = (nr M + (n - nr M).-1.+1)%N by lia.
  by rewrite {1}e' iotaD.
rewrite [X in bind (mapM _ X)]e.
have K l l' : (forall j, j \in l -> (j < nr M)%N) -> body (nr M) (iota 0 n) = Raise IndexError ->
   mapM (fun j => body j (iota 0 n)) (l ++ nr M :: l') = Raise IndexError.
  elim: l => [|j l IH] H0 H1 /=; first by rewrite H1.
  have := okrow j n (leqnn n) (H0 j (mem_head _ _)); rewrite e1 => /(_ (leqnn _)).
  case: (body j _) => //= y _; rewrite IH // => k hk; apply: H0; by rewrite in_cons hk orbT.
rewrite K // => [j|]; first by rewrite mem_iota.
by case: (n) n0 => // m _; rewrite /body /= /idx ltnn.
Qed.

Example C41_example : exists l, rotate_operators (PArr (arr2 0 2%:R (10%:R ^+ 10)^-1 1))
   (PList [:: aeye 2; pauli_x C]) false = Ok (Rot l) /\ nth (azeros 0 0) l 0 = ascale 2%:R (pauli_x C) /\
   nth (azeros 0 0) l 1 = pauli_x C.
Proof.
have ho : operators 2%N [:: aeye 2; pauli_x C] by [].
have [l [e sz H]] := @C41_rotation 2%N (arr2 0 2%:R (10%:R ^+ 10)^-1 1) _ false ho (leqnn 2) (leqnn 2).
exists l; split=> //.
have shl j : (j < 2)%N -> nr (nth (azeros 0 0) l j) = 2%N /\ nc (nth (azeros 0 0) l j) = 2%N.
  move: e; rewrite /rotate_operators /rotate_core /= (perform_rotation_list ho) // => -[<-] hj.
  by rewrite nth_ops.
have n9 : (0 : C) < (10%:R ^+ 9)^-1 by rewrite invr_gt0 exprn_gt0 // ltr0n.
have le1 (x : C) : 1 <= x -> (`|x| < (10%:R ^+ 9)^-1) = false.
  move=> h; have x0 : 0 <= x by apply: le_trans h.
  apply/negbTE; rewrite -real_leNgt ?ger0_real // ?invr_ge0 ?exprn_ge0 ?ler0n //.
  apply: le_trans (le_trans h _); last by rewrite ger0_norm.
  by rewrite invf_le1 ?exprn_gt0 ?ltr0n // exprn_ege1 // ler1n.
split; [have [r c] := shl 0%N isT|have [r c] := shl 1%N isT]; apply: (toM_inj r c) => //; rewrite H //= !big_ord_recl big_ord0 addr0 !getE //=.
  by rewrite normr0 n9 scale0r add0r le1 ?ler1n // toM_scale.
rewrite (le1 1) // scale1r ifT ?scale0r ?add0r // ger0_norm ?invr_ge0 ?exprn_ge0 ?ler0n //.
by rewrite ltf_pinv ?posrE ?exprn_gt0 ?ltr0n // ltr_eexpn2l // ltr1n.
Qed.

End Props.
