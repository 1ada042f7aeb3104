(* OpFam.v -- evaluation of the operator loops of ff_lib on lists of square operators, and the algebra of
   operator families with scalar anticommutators *)
Set Warnings "-notation-overridden,-ambiguous-paths".
From mathcomp Require Import all_ssreflect all_algebra.
From mathcomp.zify Require Import zify.
From Verif Require Import Base ArrC MLib JW.
Set Implicit Arguments.
Unset Strict Implicit.
Unset Printing Implicit Defensive.
Import Order.Theory GRing.Theory Num.Theory.
Local Open Scope ring_scope.

Lemma mapM_ok (A : eqType) (B : Type) (f : A -> res B) (g : A -> B) l :
  (forall x, x \in l -> f x = Ok (g x)) -> mapM f l = Ok (map g l).
Proof.
elim: l => //= x l IH H; rewrite H ?mem_head //= IH // => y hy.
by apply: H; rewrite in_cons hy orbT.
Qed.

Lemma item_nth (T : Type) (d : T) l i : (i < size l)%N -> item l i = Ok (nth d l i).
Proof. by move=> h; rewrite /item (drop_nth d h). Qed.

Section Eval.
Variable C : numClosedFieldType.
Local Notation arr := (arr C).

Lemma ofM_add r c (M N : 'M[C]_(r, c)) : aadd (ofM M) (ofM N) = ofM (M + N).
Proof.
apply: (@toM_inj _ _ _ r c) => //; by rewrite toM_add // !toM_ofM.
Qed.
Lemma ofM_scale r c k (M : 'M[C]_(r, c)) : ascale k (ofM M) = ofM (k *: M).
Proof. by apply: (@toM_inj _ _ _ r c) => //; rewrite toM_scale // !toM_ofM. Qed.
Lemma ofM_sub r c (M N : 'M[C]_(r, c)) : asub (ofM M) (ofM N) = ofM (M - N).
Proof. by apply: (@toM_inj _ _ _ r c) => //; rewrite toM_sub // !toM_ofM. Qed.
Lemma ofM_opp r c (M : 'M[C]_(r, c)) : aopp (ofM M) = ofM (- M).
Proof. by apply: (@toM_inj _ _ _ r c) => //; rewrite toM_opp // !toM_ofM. Qed.
Lemma ofM_mul r p c (M : 'M[C]_(r, p)) (N : 'M[C]_(p, c)) : amul (ofM M) (ofM N) = ofM (M *m N).
Proof. by apply: (@toM_inj _ _ _ r c) => //; rewrite (@toM_mul _ _ _ _ p) // !toM_ofM. Qed.
Lemma ofM_adj r c (M : 'M[C]_(r, c)) : aadj (ofM M) = ofM (adjm M).
Proof. by apply: (@toM_inj _ _ _ c r) => //; rewrite toM_adj // !toM_ofM. Qed.
Lemma ofM_tr r c (M : 'M[C]_(r, c)) : atr (ofM M) = ofM (M^T).
Proof. by apply: (@toM_inj _ _ _ c r) => //; rewrite toM_tr // !toM_ofM. Qed.
Lemma ofM_zeros r c : azeros r c = ofM (0 : 'M[C]_(r, c)).
Proof. by apply: (@toM_inj _ _ _ r c) => //; rewrite toM_zeros // !toM_ofM. Qed.
Lemma ofM_eye n : aeye n = ofM (1%:M : 'M[C]_n).
Proof. by apply: (@toM_inj _ _ _ n n) => //; rewrite toM_eye // !toM_ofM. Qed.
Lemma ofM_trace n (M : 'M[C]_n) : atrace (ofM M) = \tr M.
Proof. by rewrite (@atraceE _ _ n) // toM_ofM. Qed.
Lemma ofM_mul_chk r p c (M : 'M[C]_(r, p)) (N : 'M[C]_(p, c)) : amul_chk (ofM M) (ofM N) = Ok (ofM (M *m N)).
Proof. by rewrite /amul_chk /= eqxx ofM_mul. Qed.
Lemma ofM_iadd r c (M N : 'M[C]_(r, c)) : iadd (ofM M) (ofM N) = Ok (ofM (M + N)).
Proof. by rewrite /iadd /shp /= !eqxx ofM_add. Qed.
Lemma ofM_inj r c : injective (@ofM C r c).
Proof. by move=> M N e; rewrite -[M]toM_ofM e toM_ofM. Qed.
Lemma ofM_get r c (M : 'M[C]_(r, c)) (i : 'I_r) (j : 'I_c) : get (ofM M) i j = M i j.
Proof. by rewrite -[in RHS](toM_ofM M) mxE. Qed.
Lemma ofM_mk r c f : mk r c f = ofM (\matrix_(i < r, j < c) f i j : 'M[C]_(r, c)).
Proof. by []. Qed.

Lemma foldM_sumM r c (body : arr -> nat -> res arr) (F : nat -> 'M[C]_(r, c)) (acc : 'M[C]_(r, c)) l :
  (forall (M : 'M[C]_(r, c)) i, i \in l -> body (ofM M) i = Ok (ofM (M + F i))) ->
  foldM body (ofM acc) l = Ok (ofM (acc + \sum_(i <- l) F i)).
Proof.
elim: l acc => [|x l IH] acc H /=; first by rewrite big_nil addr0.
rewrite H ?mem_head //= IH ?big_cons ?addrA // => M i hi.
by apply: H; rewrite in_cons hi orbT.
Qed.

Lemma big_iota (V : zmodType) m (F : nat -> V) : \sum_(i <- iota 0 m) F i = \sum_(i < m) F i.
Proof. by rewrite -[m in iota _ m]subn0 -/(index_iota 0 m) big_mkord. Qed.

(* the list [A 0; ...; A (m-1)] of N x N operators *)
Definition ops N (A : nat -> 'M[C]_N) m : seq arr := [seq ofM (A i) | i <- iota 0 m].

Lemma size_ops N (A : nat -> 'M[C]_N) m : size (ops A m) = m.
Proof. by rewrite size_map size_iota. Qed.
Lemma nth_ops N (A : nat -> 'M[C]_N) m d i : (i < m)%N -> nth d (ops A m) i = ofM (A i).
Proof. by move=> h; rewrite (nth_map 0%N) ?size_iota // nth_iota. Qed.
Lemma item_ops N (A : nat -> 'M[C]_N) m i : (i < m)%N -> item (ops A m) i = Ok (ofM (A i)).
Proof. by move=> h; rewrite (item_nth (azeros 0 0)) ?size_ops // nth_ops. Qed.

(* every list of N x N operators is of this form *)
Definition nthM N (l : seq arr) i : 'M[C]_N := toM N N (nth (azeros 0 0) l i).
Lemma opsE N (l : seq arr) : all (fun X => shp X N N) l -> l = ops (nthM N l) (size l).
Proof.
move=> H; apply: (@eq_from_nth _ (azeros 0 0)); first by rewrite size_ops.
move=> i hi; rewrite nth_ops // /nthM ofM_toM //.
  by have /andP[/eqP] := all_nthP (azeros 0 0) H i hi.
by have /andP[_ /eqP] := all_nthP (azeros 0 0) H i hi.
Qed.

Lemma eq_ops N (A B : nat -> 'M[C]_N) m : (forall i, (i < m)%N -> A i = B i) -> ops A m = ops B m.
Proof. by move=> H; apply/eq_in_map => i; rewrite mem_iota add0n => /= hi; rewrite H. Qed.

(* entries smaller than the cutoff are dropped *)
Definition thr (eps x : C) : C := if `|x| < eps then 0 else x.

Lemma perform_rotation_ops N (A : nat -> 'M[C]_N) n (M : arr) : (n <= nr M)%N -> (n <= nc M)%N ->
  perform_rotation M (ops A n) = Ok (ops (fun j => \sum_(i < n) thr (eps9 C) (get M j i) *: A i) n).
Proof.
move=> h1 h2; rewrite /perform_rotation size_ops /ops; apply: mapM_ok => j.
rewrite mem_iota add0n => /= hj.
rewrite -/(ops A n) item_ops ?(leq_ltn_trans _ hj) //= ofM_zeros.
rewrite (@foldM_sumM _ _ _ (fun i => thr (eps9 C) (get M j i) *: A i)) ?add0r ?big_iota // => X i.
rewrite mem_iota add0n => /= hi.
rewrite /idx (leq_trans hj h1) (leq_trans hi h2) /= /thr.
case: ifP => _; first by rewrite scale0r addr0.
by rewrite item_ops //= ofM_scale ofM_iadd.
Qed.

(* sum_ij R_ij A_i^dagger A_j  (direct: sum_ij R_ij A_i A_j) *)
Definition qlift N (A : nat -> 'M[C]_N) m (R : nat -> nat -> C) : 'M[C]_N :=
  \sum_(i < m) \sum_(j < m) R i j *: (adjm (A i) *m A j).
Definition qlift_direct N (A : nat -> 'M[C]_N) m (R : nat -> nat -> C) : 'M[C]_N :=
  \sum_(i < m) \sum_(j < m) R i j *: (A i *m A j).

Lemma build_op_ops N (A : nat -> 'M[C]_N) n (R : arr) m direct : (0 < m)%N -> (2 * n <= m)%N ->
  (2 * n <= nr R)%N -> (2 * n <= nc R)%N ->
  build_op n R (ops A m) direct = Ok (ofM ((if direct then @qlift_direct N else @qlift N) A (2 * n)%N
     (fun i j => thr (eps10 C) (get R i j)))).
Proof.
move=> m0 hm h1 h2; rewrite /build_op item_ops //= ofM_zeros.
rewrite (@foldM_sumM _ _ _ (fun i => \sum_(j < (2 * n)%N) thr (eps10 C) (get R i j) *:
   ((if direct then A i else adjm (A i)) *m A j))) ?add0r ?big_iota //; first by case: direct.
move=> X i; rewrite mem_iota add0n => /= hi.
rewrite (@foldM_sumM _ _ _ (fun j => thr (eps10 C) (get R i j) *:
   ((if direct then A i else adjm (A i)) *m A j))) ?big_iota // => Y j.
rewrite mem_iota add0n => /= hj.
rewrite /idx (leq_trans hi h1) (leq_trans hj h2) /= /thr.
case: ifP => _; first by rewrite scale0r addr0.
rewrite !item_ops ?(leq_trans hi hm) ?(leq_trans hj hm) //=.
by case: direct; rewrite ?ofM_adj ofM_mul_chk /= ofM_scale ofM_iadd.
Qed.

Lemma upd_ofM r c (M : 'M[C]_(r, c)) i j v :
  upd (ofM M) i j v = ofM (\matrix_(a, b) (if (a == i :> nat) && (b == j :> nat) then v else M a b)).
Proof.
rewrite /upd ofM_mk; congr ofM; apply/matrixP => a b; rewrite !mxE.
by case: ifP => // _; rewrite ofM_get.
Qed.

(* a double loop writing one entry per iteration *)
Lemma fill_rows m (f : nat -> nat -> res C) (g : nat -> nat -> C) :
  (forall i j, (i < m)%N -> (j < m)%N -> f i j = Ok (g i j)) -> fill m f = Ok (mk m m g).
Proof.
move=> H; rewrite /fill.
pose st i0 : arr := mk m m (fun i j => if (i < i0)%N then g i j else 0).
have row i0 : (i0 < m)%N ->
    foldM (fun G j => let* v := f i0 j in Ok (upd G i0 j v)) (st i0) (iota 0 m) = Ok (st i0.+1).
  move=> hi.
  pose st2 j0 : arr := mk m m (fun i j => if (i < i0)%N || ((i == i0) && (j < j0)%N) then g i j else 0).
  suff K j0 : (j0 <= m)%N ->
      foldM (fun G j => let* v := f i0 j in Ok (upd G i0 j v)) (st i0) (iota 0 j0) = Ok (st2 j0).
    rewrite K //; congr Ok; apply: eq_mk => i j _ hj; by rewrite hj andbT ltnS (leq_eqVlt i i0) orbC.
  elim: j0 => [|j0 IH] hj; first by congr Ok; apply: eq_mk => i j _ _; rewrite ltn0 andbF orbF.
  rewrite -addn1 iotaD foldM_cat IH; last exact: ltnW.
  rewrite /= add0n H //=; congr Ok; apply: eq_mk => i j hi' hj'.
  case: (i =P i0) => [->|] /=; last by rewrite !getE //= => /eqP/negbTE ->.
  rewrite ltnn /= addn1 ltnS leq_eqVlt; case: eqP => [->|_] //=.
  by rewrite getE //= ltnn eqxx.
suff K i0 : (i0 <= m)%N ->
   foldM (fun G i => foldM (fun G j => let* v := f i j in Ok (upd G i j v)) G (iota 0 m)) (azeros m m) (iota 0 i0) = Ok (st i0).
  by rewrite K //; congr Ok; apply: eq_mk => i j -> _.
elim: i0 => [|i0 IH] hi; first by congr Ok; apply: eq_mk => i j _ _; rewrite ltn0.
rewrite -addn1 iotaD foldM_cat IH /=; last exact: ltnW.
by rewrite add0n row // addn1.
Qed.

Lemma trace3_ops N (X Y Z : 'M[C]_N) : trace3 (ofM X) (ofM Y) (ofM Z) = Ok (\tr (X *m Y *m Z)).
Proof. by rewrite /trace3 !ofM_mul_chk /= ofM_mul_chk /= ofM_trace. Qed.

Lemma cov_ops N (A : nat -> 'M[C]_N) n (rho : 'M[C]_N) m : (2 * n <= m)%N ->
  compute_cov_matrix (ofM rho) (Some n) (Some (ops A m)) =
  Ok (mk (2 * n) (2 * n) (fun i j => \tr (rho *m A i *m A j) - \tr (rho *m A j *m A i))).
Proof.
move=> hm; apply: fill_rows => i j hi hj.
by rewrite !item_ops ?(leq_trans hi hm) ?(leq_trans hj hm) //= !trace3_ops.
Qed.

Lemma corr_ops N (A : nat -> 'M[C]_N) n (rho : 'M[C]_N) m conj : (2 * n <= m)%N ->
  compute_2corr_matrix (ofM rho) n (Some (ops A m)) conj =
  Ok (mk (2 * n) (2 * n) (fun i j =>
    match conj with
    | None => \tr (rho *m A i *m A j)
    | Some c => if c < 0 then \tr (rho *m adjm (A i) *m A j) else \tr (rho *m A i *m adjm (A j))
    end)).
Proof.
move=> hm; apply: fill_rows => i j hi hj.
rewrite !item_ops ?(leq_trans hi hm) ?(leq_trans hj hm) //=.
by case: conj => [c|]; [case: ifP => _; rewrite ofM_adj|]; rewrite trace3_ops.
Qed.

End Eval.
