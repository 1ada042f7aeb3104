(* ArrC.v -- complex arrays: conjugation, adjoint, numpy's allclose, broadcasting into a block. *)
Set Warnings "-notation-overridden,-ambiguous-paths".
From mathcomp Require Import all_ssreflect all_algebra.
From mathcomp.zify Require Import zify.
From Verif Require Import Base.
Set Implicit Arguments.
Unset Strict Implicit.
Unset Printing Implicit Defensive.
Import Order.Theory GRing.Theory Num.Theory.
Local Open Scope ring_scope.

Section ArrC.
Variable C : numClosedFieldType.
Local Notation arr := (arr C).
Implicit Types A B : arr.

(* A.conj() *)
Definition aconj A : arr := mk (nr A) (nc A) (fun i j => (get A i j)^*).
(* A.conj().T  (same as A.conj().transpose()) *)
Definition aadj A : arr := mk (nc A) (nr A) (fun i j => (get A j i)^*).

(* numpy.isclose default tolerances: rtol = 1e-5, atol = 1e-8; |a - b| <= atol + rtol * |b| *)
Definition rtol : C := (10%:R ^+ 5)^-1.
Definition atol : C := (10%:R ^+ 8)^-1.
Definition close (a b : C) : bool := `|a - b| <= atol + rtol * `|b|.
(* np.allclose(A, B) for arrays of equal shape *)
Definition allclose A B : bool :=
  all (fun i => all (fun j => close (get A i j) (get B i j)) (iota 0 (nc A))) (iota 0 (nr A)).

(* value written by  X[i0:i0+m, j0:j0+n] = A : numpy broadcasts dimensions of length 1, otherwise ValueError *)
Definition bcast A (m n : nat) : res arr :=
  if ((nr A == m) || (nr A == 1%N)) && ((nc A == n) || (nc A == 1%N)) then
    Ok (mk m n (fun i j => get A (if nr A == 1%N then 0%N else i) (if nc A == 1%N then 0%N else j)))
  else Raise ValueError.

Lemma rtol_gt0 : 0 < rtol. Proof. by rewrite invr_gt0 exprn_gt0 // ltr0n. Qed.
Lemma atol_gt0 : 0 < atol. Proof. by rewrite invr_gt0 exprn_gt0 // ltr0n. Qed.

Lemma close_refl a : close a a.
Proof.
rewrite /close subrr normr0; apply: addr_ge0; first exact: ltW atol_gt0.
by apply: mulr_ge0; [exact: ltW rtol_gt0|exact: normr_ge0].
Qed.

Lemma allcloseP A B : reflect (forall i j, (i < nr A)%N -> (j < nc A)%N -> close (get A i j) (get B i j))
  (allclose A B).
Proof.
apply: (iffP allP) => [H i j hi hj|H i].
  have ii : i \in iota 0 (nr A) by rewrite mem_iota.
  have ij : j \in iota 0 (nc A) by rewrite mem_iota.
  exact: (allP (H i ii) j ij).
rewrite mem_iota add0n => hi; apply/allP => j; rewrite mem_iota add0n => hj; exact: H.
Qed.

Lemma allclose_refl A : allclose A A.
Proof. by apply/allcloseP => i j _ _; exact: close_refl. Qed.

Lemma bcast_id A m n : nr A = m -> nc A = n -> bcast A m n = Ok A.
Proof.
move=> em en; rewrite /bcast em en !eqxx /=; congr Ok; apply: arrP; rewrite ?em ?en //= => i j hi hj.
rewrite getE //; case: eqP hi => [-> |_] hi; case: eqP hj => [->|_] hj //; congr get; lia.
Qed.

(* adjoint of a mathcomp matrix *)
Definition adjm m n (M : 'M[C]_(m, n)) : 'M[C]_(n, m) := (map_mx conjC M)^T.

Lemma toM_adj A m n : nr A = m -> nc A = n -> toM n m (aadj A) = adjm (toM m n A).
Proof. by move=> <- <-; apply/matrixP => i j; rewrite !mxE getE. Qed.

Lemma toM_conj A m n : nr A = m -> nc A = n -> toM m n (aconj A) = map_mx conjC (toM m n A).
Proof. by move=> <- <-; apply/matrixP => i j; rewrite !mxE getE. Qed.

Lemma aadjK A : aadj (aadj A) = A.
Proof. by apply: arrP => // i j /= hi hj; rewrite !getE // conjCK. Qed.

Lemma aadj_mul A B : nc A = nr B -> aadj (amul A B) = amul (aadj B) (aadj A).
Proof.
move=> e; apply: arrP => // i j /= hi hj; rewrite !getE //= rmorph_sum /= e.
by apply: eq_bigr => k _; rewrite rmorphM /= !getE ?e // mulrC.
Qed.

Lemma aadj_add A B : nr A = nr B -> nc A = nc B -> aadj (aadd A B) = aadd (aadj A) (aadj B).
Proof. by move=> e1 e2; apply: arrP => // i j /= hi hj; rewrite !getE -?e1 -?e2 // rmorphD. Qed.

Lemma aadj_scale c A : aadj (ascale c A) = ascale c^* (aadj A).
Proof. by apply: arrP => // i j /= hi hj; rewrite !getE // rmorphM. Qed.

Lemma aadj_eye n : aadj (aeye n : arr) = aeye n.
Proof. by apply: arrP => // i j /= hi hj; rewrite !getE // conjC_nat eq_sym. Qed.

Lemma aadj_kron A B : aadj (akron A B) = akron (aadj A) (aadj B).
Proof.
apply: arrP => // i j /= hi hj; rewrite !getE //= ?rmorphM //.
- by move: hi; case: (nc B) => [|k]; rewrite ?muln0 // ltn_mod.
- by move: hj; case: (nr B) => [|k]; rewrite ?muln0 // ltn_mod.
- by move: hi; case: (nc B) => [|k]; rewrite ?muln0 // ltn_divLR.
- by move: hj; case: (nr B) => [|k]; rewrite ?muln0 // ltn_divLR.
Qed.

(* adjoint on matrices *)
Lemma adjmK m n : cancel (@adjm m n) (@adjm n m).
Proof. by move=> M; apply/matrixP => i j; rewrite !mxE conjCK. Qed.
Lemma adjmM m n p (M : 'M[C]_(m, n)) (N : 'M[C]_(n, p)) : adjm (M *m N) = adjm N *m adjm M.
Proof. by rewrite /adjm map_mxM trmx_mul. Qed.
Lemma adjmD m n (M N : 'M[C]_(m, n)) : adjm (M + N) = adjm M + adjm N.
Proof. by apply/matrixP => i j; rewrite !mxE rmorphD. Qed.
Lemma adjmB m n (M N : 'M[C]_(m, n)) : adjm (M - N) = adjm M - adjm N.
Proof. by apply/matrixP => i j; rewrite !mxE rmorphB. Qed.
Lemma adjmN m n (M : 'M[C]_(m, n)) : adjm (- M) = - adjm M.
Proof. by apply/matrixP => i j; rewrite !mxE rmorphN. Qed.
Lemma adjmZ m n c (M : 'M[C]_(m, n)) : adjm (c *: M) = c^* *: adjm M.
Proof. by apply/matrixP => i j; rewrite !mxE rmorphM. Qed.
Lemma adjm1 n : adjm (1%:M : 'M[C]_n) = 1%:M.
Proof. by rewrite /adjm map_mx1 trmx1. Qed.
Lemma adjm0 m n : adjm (0 : 'M[C]_(m, n)) = 0.
Proof. by apply/matrixP => i j; rewrite !mxE rmorph0. Qed.
Lemma adjm_scalar n c : adjm (c%:M : 'M[C]_n) = (c^*)%:M.
Proof. by rewrite -scalemx1 adjmZ adjm1 scalemx1. Qed.
Lemma adjm_sum m n (I : Type) (r : seq I) (P : pred I) (F : I -> 'M[C]_(m, n)) :
  adjm (\sum_(i <- r | P i) F i) = \sum_(i <- r | P i) adjm (F i).
Proof. by apply: (big_morph (@adjm m n)); [exact: adjmD|exact: adjm0]. Qed.
Lemma trace_adjm n (M : 'M[C]_n) : \tr (adjm M) = (\tr M)^*.
Proof. by rewrite /mxtrace rmorph_sum; apply: eq_bigr => i _; rewrite !mxE. Qed.
Lemma det_adjm n (M : 'M[C]_n) : \det (adjm M) = (\det M)^*.
Proof. by rewrite /adjm det_tr det_map_mx. Qed.

(* specification: unitary, Hermitian, positive semidefinite *)
Definition unitary n (U : 'M[C]_n) := U *m adjm U = 1%:M.
Definition hermitian n (M : 'M[C]_n) := adjm M = M.
Definition quad n (M : 'M[C]_n) (v : 'cV[C]_n) : C := (adjm v *m M *m v) 0 0.
Definition psd n (M : 'M[C]_n) := hermitian M /\ forall v : 'cV[C]_n, 0 <= quad M v.
(* density matrix: positive semidefinite of unit trace *)
Definition density n (M : 'M[C]_n) := psd M /\ \tr M = 1.

Lemma unitaryC n (U : 'M[C]_n) : unitary U -> adjm U *m U = 1%:M.
Proof. exact: mulmx1C. Qed.

Lemma hermD n (A B : 'M[C]_n) : hermitian A -> hermitian B -> hermitian (A + B).
Proof. by rewrite /hermitian adjmD => -> ->. Qed.

Lemma quadD n (A B : 'M[C]_n) v : quad (A + B) v = quad A v + quad B v.
Proof. by rewrite /quad mulmxDr mulmxDl mxE. Qed.
Lemma quadZ n c (A : 'M[C]_n) v : quad (c *: A) v = c * quad A v.
Proof. by rewrite /quad -scalemxAr -scalemxAl mxE. Qed.
Lemma quad_congr n m (A : 'M[C]_n) (B : 'M[C]_(n, m)) v : quad (adjm B *m A *m B) v = quad A (B *m v).
Proof. by rewrite /quad adjmM !mulmxA. Qed.

Lemma norm2_ge0 n (v : 'cV[C]_n) : 0 <= (adjm v *m v) 0 0.
Proof. by rewrite mxE sumr_ge0 // => i _; rewrite !mxE mulrC mul_conjC_ge0. Qed.

Lemma quad1 n (v : 'cV[C]_n) : quad 1%:M v = (adjm v *m v) 0 0.
Proof. by rewrite /quad mulmx1. Qed.

Lemma psd_gram n m (B : 'M[C]_(m, n)) : psd (adjm B *m B).
Proof.
split; first by rewrite /hermitian adjmM adjmK.
by move=> v; rewrite -[adjm B]mulmx1 quad_congr quad1 norm2_ge0.
Qed.

Lemma psd_congr n m (A : 'M[C]_n) (B : 'M[C]_(n, m)) : psd A -> psd (adjm B *m A *m B).
Proof.
move=> [hA pA]; split; first by rewrite /hermitian !adjmM adjmK hA mulmxA.
by move=> v; rewrite quad_congr.
Qed.

Lemma psdD n (A B : 'M[C]_n) : psd A -> psd B -> psd (A + B).
Proof.
move=> [hA pA] [hB pB]; split; first exact: hermD.
by move=> v; rewrite quadD addr_ge0.
Qed.

Lemma psdZ n c (A : 'M[C]_n) : 0 <= c -> psd A -> psd (c *: A).
Proof.
move=> c0 [hA pA]; split; first by rewrite /hermitian adjmZ hA (CrealP _) // ger0_real.
by move=> v; rewrite quadZ mulr_ge0.
Qed.

Lemma psd_diag_ge0 n (A : 'M[C]_n) i : psd A -> 0 <= A i i.
Proof.
move=> [_ /(_ (delta_mx i 0))]; rewrite /quad.
have -> : adjm (delta_mx i 0 : 'cV[C]_n) = delta_mx 0 i.
  by apply/matrixP => a b; rewrite !mxE conjC_nat andbC.
by rewrite -rowE -colE !mxE.
Qed.

Lemma psd_trace_ge0 n (A : 'M[C]_n) : psd A -> 0 <= \tr A.
Proof. by move=> pA; rewrite sumr_ge0 // => i _; exact: psd_diag_ge0. Qed.

End ArrC.
Arguments rtol {C}.
Arguments atol {C}.
