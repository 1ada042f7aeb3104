(* PropDtype.v -- C95: which element types rotate_operators and build_op accept. *)
Set Warnings "-notation-overridden,-ambiguous-paths".
From mathcomp Require Import all_ssreflect all_fingroup all_algebra.
From Verif Require Import Base ArrC MLib OpFam MDtype.
Set Implicit Arguments.
Unset Strict Implicit.
Unset Printing Implicit Defensive.
Import Order.Theory GRing.Theory Num.Theory.
Local Open Scope ring_scope.

Section PropDtype.
Variable C : numClosedFieldType.
Local Notation arr := (arr C).
Local Notation tarr := (tarr C).

(* the operators A 0, ..., A (m-1) with element types t 0, ..., t (m-1) *)
Definition tops N (A : nat -> 'M[C]_N) (t : nat -> dtype) m : seq tarr := [seq TArr (t i) (ofM (A i)) | i <- iota 0 m].
(* values of type a cannot be added in place to an array of type b *)
Definition too_high (a b : dtype) : bool := (rank b < rank a)%N.

Lemma size_tops N (A : nat -> 'M[C]_N) t m : size (tops A t m) = m.
Proof. by rewrite size_map size_iota. Qed.
Lemma item_tops N (A : nat -> 'M[C]_N) t m i : (i < m)%N -> item (tops A t m) i = Ok (TArr (t i) (ofM (A i))).
Proof.
move=> h; rewrite /item /tops -map_drop drop_iota add0n.
by case E: (m - i)%N => [|k] //=; move: h; rewrite -subn_gt0 E.
Qed.

Lemma foldM_typed N d (bad : nat -> bool) (f : tarr -> nat -> res tarr) (F : nat -> 'M[C]_N) acc l :
  (forall X i, i \in l -> f (TArr d (ofM X)) i = if bad i then Raise TypeError else Ok (TArr d (ofM (X + F i)))) ->
  foldM f (TArr d (ofM acc)) l =
    if has bad l then Raise TypeError else Ok (TArr d (ofM (acc + \sum_(i <- l) F i))).
Proof.
elim: l acc => [|x l IH] acc H /=; first by rewrite big_nil addr0.
rewrite H ?mem_head //; case: (bad x) => //=; rewrite IH ?big_cons ?addrA // => X i hi.
by apply: H; rewrite in_cons hi orbT.
Qed.

Lemma mapM_typed T (bad : nat -> bool) (f : nat -> res T) (g : nat -> T) l :
  (forall i, i \in l -> f i = if bad i then Raise TypeError else Ok (g i)) ->
  mapM f l = if has bad l then Raise TypeError else Ok (map g l).
Proof.
elim: l => [|x l IH] H //=; rewrite H ?mem_head //; case: (bad x) => //=.
by rewrite IH => [|i hi]; [case: (has bad l)|apply: H; rewrite in_cons hi orbT].
Qed.

Lemma iadd_typed N d e (X Y : 'M[C]_N) : iadd_t (TArr d (ofM X)) (TArr e (ofM Y)) =
  if too_high e d then Raise TypeError else Ok (TArr d (ofM (X + Y))).
Proof. by rewrite /iadd_t /too_high ltnNge; case: leqP => //= _; rewrite ofM_iadd. Qed.

Lemma perform_typed N (A : nat -> 'M[C]_N) t n d (M : 'M[C]_n) :
  perform_rotation_t (TArr d (ofM M)) (tops A t n) =
  if has (fun j => has (fun i => ~~ (`|get (ofM M) j i| < eps9 C) && too_high (promote d (t i)) (t 0%N)) (iota 0 n)) (iota 0 n)
  then Raise TypeError
  else Ok (tops (fun j => \sum_(i < n) thr (eps9 C) (get (ofM M) j i) *: A i) (fun=> t 0%N) n).
Proof.
rewrite /perform_rotation_t size_tops; apply: mapM_typed => j; rewrite mem_iota add0n => /= hj.
rewrite item_tops ?(leq_ltn_trans _ hj) //= ofM_zeros.
rewrite (@foldM_typed _ _ (fun i => ~~ (`|get (ofM M) j i| < eps9 C) && too_high (promote d (t i)) (t 0%N)) _
  (fun i => thr (eps9 C) (get (ofM M) j i) *: A i)) ?add0r ?big_iota // => X i.
rewrite mem_iota add0n => /= hi; rewrite /idx hj hi /= /thr.
case: ifP => _; first by rewrite scale0r addr0.
by rewrite item_tops //= ofM_scale iadd_typed.
Qed.

Lemma has_ord n (P : nat -> bool) : has P (iota 0 n) = [exists i : 'I_n, P i].
Proof.
apply/hasP/existsP => [[i]|[i hi]]; last by exists (i : nat) => //; rewrite mem_iota /= add0n.
by rewrite mem_iota add0n => /= hi hP; exists (Ordinal hi).
Qed.

(* C95: rotate_operators (C an n x n array of type d, n operators of types t): it raises TypeError exactly when some coefficient of
   size at least 1e-9 multiplies to a type above that of the first operator; otherwise every result has the type of the first
   operator and the value of the untyped computation *)
Theorem C95_rotation N n (A : nat -> 'M[C]_N) t d (M : 'M[C]_n) (left : bool) :
  let c := if left then adjm M else M in
  rotate_operators_t (TArr d (ofM M)) (tops A t n) left =
  if [exists j : 'I_n, exists i : 'I_n, ~~ (`|c j i| < eps9 C) && too_high (promote d (t i)) (t 0%N)] then Raise TypeError
  else Ok (Some (tops (fun j => \sum_(i < n) thr (eps9 C) (get (ofM c) j i) *: A i) (fun=> t 0%N) n)).
Proof.
move=> c; rewrite /rotate_operators_t size_tops /= eqxx /=.
have -> : (if left then TArr d (aadj (ofM M)) else TArr d (ofM M)) = TArr d (ofM c).
  by rewrite /c; case: (left); rewrite ?ofM_adj.
rewrite perform_typed has_ord.
have -> : [exists j : 'I_n, has (fun i => ~~ (`|get (ofM c) j i| < eps9 C) && too_high (promote d (t i)) (t 0%N)) (iota 0 n)] =
  [exists j : 'I_n, exists i : 'I_n, ~~ (`|c j i| < eps9 C) && too_high (promote d (t i)) (t 0%N)].
  by apply: eq_existsb => j; rewrite has_ord; apply: eq_existsb => i; rewrite ofM_get.
by case: ifP.
Qed.

(* and the value is what the untyped model of rotate_operators returns *)
Theorem C95_rotation_value N n (A : nat -> 'M[C]_N) t d (M : 'M[C]_n) (left : bool) l :
  rotate_operators_t (TArr d (ofM M)) (tops A t n) left = Ok (Some l) ->
  rotate_operators (PArr (ofM M)) (PList (ops A n)) left = Ok (Rot [seq data x | x <- l]) /\ all (fun x => rank (ty x) == rank (t 0%N)) l.
Proof.
rewrite C95_rotation; case: ifP => // _ [<-]; split; last first.
  by rewrite /tops all_map; apply/allP => i _ /=.
rewrite /rotate_operators /rotate_core size_ops /= eqxx /=.
have -> : (if left then aadj (ofM M) else ofM M) = ofM (if left then adjm M else M) by case: left => //; rewrite ofM_adj.
by rewrite perform_rotation_ops //= /tops /ops -map_comp.
Qed.

(* C95: build_op likewise, with the cutoff 1e-10 and two operators in each term *)
Theorem C95_build_op N n (A : nat -> 'M[C]_N) t d (R : 'M[C]_(2 * n)) (direct : bool) : (0 < n)%N ->
  build_op_t n (TArr d (ofM R)) (tops A t (2 * n)) direct =
  if [exists i : 'I_(2 * n), exists j : 'I_(2 * n),
      ~~ (`|R i j| < eps10 C) && too_high (promote d (promote (t i) (t j))) (t 0%N)] then Raise TypeError
  else Ok (TArr (t 0%N) (ofM (\sum_i \sum_j thr (eps10 C) (R i j) *: ((if direct then A i else adjm (A i)) *m A j)))).
Proof.
move=> n0; rewrite /build_op_t item_tops ?muln_gt0 //= ofM_zeros.
pose bad i j := ~~ (`|get (ofM R) i j| < eps10 C) && too_high (promote d (promote (t i) (t j))) (t 0%N).
pose F i j := thr (eps10 C) (get (ofM R) i j) *: ((if direct then A i else adjm (A i)) *m A j).
rewrite (@foldM_typed _ _ (fun i => has (bad i) (iota 0 (2 * n))) _ (fun i => \sum_(j <- iota 0 (2 * n)) F i j)); last first.
  move=> X i; rewrite mem_iota add0n => /= hi.
  rewrite (@foldM_typed _ _ (bad i) _ (F i)) // => Y j; rewrite mem_iota add0n => /= hj.
  rewrite /idx hi hj /= /bad /F /thr; case: ifP => _; first by rewrite scale0r addr0.
  by rewrite !item_tops //=; case: (direct); rewrite ?ofM_adj ofM_mul_chk /= ofM_scale iadd_typed.
rewrite has_ord add0r big_iota.
have -> : [exists i : 'I_(2 * n), has (bad i) (iota 0 (2 * n))] = [exists i : 'I_(2 * n), exists j : 'I_(2 * n),
      ~~ (`|R i j| < eps10 C) && too_high (promote d (promote (t i) (t j))) (t 0%N)].
  by apply: eq_existsb => i; rewrite has_ord; apply: eq_existsb => j; rewrite /bad ofM_get.
case: ifP => // _; congr (Ok (TArr _ (ofM _))); apply: eq_bigr => i _; rewrite big_iota; apply: eq_bigr => j _.
by rewrite /F ofM_get.
Qed.

Lemma too_high_cpx a : too_high a DCpx = false. Proof. by case: a. Qed.

(* C95: with a complex first operator nothing is ever refused, whatever the other types *)
Theorem C95_complex_first N n (A : nat -> 'M[C]_N) t d (M : 'M[C]_n) (R : 'M[C]_(2 * n)) left direct : t 0%N = DCpx -> (0 < n)%N ->
  (exists l, rotate_operators_t (TArr d (ofM M)) (tops A t n) left = Ok (Some l)) /\
  (exists X, build_op_t n (TArr d (ofM R)) (tops A t (2 * n)) direct = Ok (TArr DCpx X) /\
             build_op n (ofM R) (ops A (2 * n)) direct = Ok X).
Proof.
move=> ht n0; split.
  rewrite C95_rotation ht; case: ifP => [/existsP[j /existsP[i]]|_]; first by rewrite too_high_cpx andbF.
  by eexists.
rewrite C95_build_op // ht; case: ifP => [/existsP[j /existsP[i]]|_]; first by rewrite too_high_cpx andbF.
eexists; split; first by [].
rewrite build_op_ops ?muln_gt0 //; congr (Ok (ofM _)).
by case: direct; apply: eq_bigr => i _; apply: eq_bigr => j _; rewrite ofM_get.
Qed.

(* C95: real operators under a complex array of coefficients are refused as soon as one coefficient is used, even if all the
   numbers involved are real *)
Theorem C95_real_refuted N n (A : nat -> 'M[C]_N) t (M : 'M[C]_n) (j i : 'I_n) :
  (forall k, t k = DInt \/ t k = DFlt) -> eps9 C <= `|M j i| ->
  rotate_operators_t (TArr DCpx (ofM M)) (tops A t n) false = Raise TypeError.
Proof.
move=> ht hM; rewrite C95_rotation ifT //; apply/existsP; exists j; apply/existsP; exists i.
rewrite (le_gtF hM) /=; case: (ht i) => ->; case: (ht 0%N) => -> //.
Qed.

(* C95: whether the call succeeds depends on the order of the operators: with one real and one complex operator and real
   coefficients, the complex one first is accepted and last is refused *)
Theorem C95_order_refuted : exists (A : nat -> 'M[C]_1) (t : nat -> dtype) (M : 'M[C]_2),
  (exists l, rotate_operators_t (TArr DFlt (ofM M)) (tops A t 2) false = Ok (Some l)) /\
  rotate_operators_t (TArr DFlt (ofM M)) (tops A (fun i => t (1 - i)%N) 2) false = Raise TypeError.
Proof.
exists (fun=> 1%:M), (fun i => if i == 0%N then DCpx else DFlt), 1%:M; split.
  rewrite C95_rotation ifF; first by eexists.
  by apply/negbTE/existsPn => j; apply/existsPn => i; rewrite too_high_cpx andbF.
rewrite C95_rotation ifT //; apply/existsP; exists 1; apply/existsP; exists 1; rewrite mxE eqxx normr1 /=.
rewrite andbT le_gtF // /eps9 invf_le1 ?exprn_gt0 ?ltr0n //; by rewrite -natrX ler1n expn_gt0.
Qed.

(* C95: the operators made by the library: all Jordan-Wigner operators are complex arrays with the values of the untyped model,
   although they are built from integer and real factors; so they can always be rotated *)
Theorem C95_jordan_wigner n :
  [/\ jordan_wigner_lowering_t C n = [seq TArr DCpx X | X <- jordan_wigner_lowering C n],
      jordan_wigner_alphas_t C n = [seq TArr DCpx X | X <- jordan_wigner_alphas C n] &
      jordan_wigner_majoranas_t C n = [seq TArr DCpx X | X <- jordan_wigner_majoranas C n]].
Proof.
have fold i l (x : tarr) : foldl (fun acc j => kron_t acc (if (j < i)%N then pauli_z_t C else if j == i then Sminus_t C else TArr DFlt (aeye 2))) x l =
  TArr (if i \in l then DCpx else ty (foldl (fun acc j => kron_t acc (if (j < i)%N then pauli_z_t C else if j == i then Sminus_t C else TArr DFlt (aeye 2))) x l))
    (foldl (fun acc j => akron acc (if (j < i)%N then pauli_z C else if j == i then Sminus C else aeye 2)) (data x) l).
  elim/last_ind: l => [|l k IH] /=; first by case: x.
  rewrite !foldl_rcons mem_rcons inE IH /kron_t /=; congr TArr.
    case: (i =P k) => [<-|hk] /=; first by rewrite ltnn eqxx /=; case: (ty _); case: (_ \in _).
    by case: (i \in l) => //; case: ifP => // _; case: ifP.
  by congr akron; case: ifP => // _; case: ifP.
have L : jordan_wigner_lowering_t C n = [seq TArr DCpx X | X <- jordan_wigner_lowering C n].
  rewrite /jordan_wigner_lowering_t /jordan_wigner_lowering -map_comp; apply/eq_in_map => i hi /=.
  by rewrite /jw_site_t fold hi.
split=> //; first by rewrite /jordan_wigner_alphas_t L map_cat -!map_comp; congr (_ ++ _).
by rewrite /jordan_wigner_majoranas_t L map_cat -!map_comp; congr (_ ++ _).
Qed.

(* a concrete case: integer operators under the rotation with entries 3/5, 4/5 *)
Example C95_example :
  rotate_operators_t (TArr DFlt (ofM (\matrix_(i < 2, j < 2) (if i == j then 3%:R / 5%:R else (-1) ^+ i * (4%:R / 5%:R) : C))))
    (tops (fun i => (i.+1%:R)%:M : 'M[C]_2) (fun=> DInt) 2) false = Raise TypeError.
Proof.
rewrite C95_rotation ifT //; apply/existsP; exists 0; apply/existsP; exists 0; rewrite mxE eqxx /= andbT.
rewrite le_gtF // normf_div !normr_nat /eps9 ler_pdivl_mulr ?ltr0n // mulrC ler_pdivr_mulr ?exprn_gt0 ?ltr0n //.
by rewrite -natrX -natrM ler_nat; apply: (@leq_trans (3 * 10)%N) => //; rewrite leq_mul2l /= expnS leq_pmulr // expn_gt0.
Qed.
End PropDtype.
