(* PropComb.v -- properties C01-C08 (ff_combinatorics.py). *)
Set Warnings "-notation-overridden,-ambiguous-paths".
From mathcomp Require Import all_ssreflect all_fingroup all_algebra.
From Verif Require Import Base MCombinatorics CombPerm Matching Pfaffian Bipartite CombFacts.
Set Implicit Arguments.
Unset Strict Implicit.
Unset Printing Implicit Defensive.
Import GRing.Theory Num.Theory.
Local Open Scope ring_scope.

(* ---------------------------------------------------------------- C01 *)
(* Every list p that is a permutation of range(n) is the value list of a group element s of S_n, and
   sgn p is the signature of s (parity of the number of transpositions s factors into). *)
Theorem C01_sgn_is_signature n (p : seq nat) : perm_eq p (iota 0 n) ->
  exists s : 'S_n, (forall i : 'I_n, nth 0%N p i = s i) /\ sgn p = (-1) ^+ odd_perm s.
Proof. exact: sgn_signature. Qed.

(* sgn is multiplicative under composition i |-> p[q[i]] and changes sign when two entries are exchanged *)
Theorem C01_sgn_multiplicative n (p q : seq nat) : perm_eq p (iota 0 n) -> perm_eq q (iota 0 n) ->
  sgn [seq nth 0%N p i | i <- q] = sgn p * sgn q.
Proof. exact: sgn_comp. Qed.

Theorem C01_sgn_transposition n (p : seq nat) i j : perm_eq p (iota 0 n) -> (i < n)%N -> (j < n)%N -> i != j ->
  sgn [seq if k == i then nth 0%N p j else if k == j then nth 0%N p i else nth 0%N p k | k <- iota 0 (size p)]
  = - sgn p.
Proof. exact: sgn_swap. Qed.

Example C01_example : perm_eq [:: 2; 0; 3; 1]%N (iota 0 4) /\ sgn [:: 2; 0; 3; 1]%N = -1.
Proof. by []. Qed.

(* ---------------------------------------------------------------- C02 *)
Theorem C02_dt_is_det (T : comRingType) n (A : 'M[T]_n) : dt (ofM A) = Ok (\det A).
Proof. by rewrite (@dt_det _ (ofM A) n) // toM_ofM. Qed.

Theorem C02_dt_mul (T : comRingType) n (A B : arr T) a b :
  nr A = n -> nc A = n -> nr B = n -> nc B = n ->
  dt A = Ok a -> dt B = Ok b -> dt (amul A B) = Ok (a * b).
Proof.
move=> rA cA rB cB; rewrite (dt_det rA cA) (dt_det rB cB) => -[<-] [<-].
by rewrite (@dt_det _ (amul A B) n) // (toM_mul rA cA rB cB) det_mulmx.
Qed.

Theorem C02_dt_tr_eye_rows (T : comRingType) n (A : arr T) : nr A = n -> nc A = n ->
  [/\ dt (atr A) = dt A, dt (aeye n : arr T) = Ok 1,
      dt (azeros 0 0 : arr T) = Ok 1 &
      forall i j, (i < n)%N -> (j < n)%N -> i != j ->
        (forall k, (k < n)%N -> get A i k = get A j k) -> dt A = Ok 0].
Proof.
move=> rA cA; split.
- by rewrite (dt_det rA cA) (@dt_det _ (atr A) n) // (toM_tr rA cA) det_tr.
- by rewrite (@dt_det _ _ n) // toM_eye det1.
- by rewrite (@dt_det _ _ 0%N) // det_mx00.
- move=> i j hi hj ij H; rewrite (dt_det rA cA).
  rewrite (@determinant_alternate _ _ _ (Ordinal hi) (Ordinal hj)) // => k.
  by rewrite !mxE H.
Qed.

Theorem C02_dt_index_error (T : comRingType) (A : arr T) : (nc A < nr A)%N -> dt A = Raise IndexError.
Proof. by move=> /dt_index_error[]. Qed.

Example C02_example : dt (mk 2 2 (fun i j => (i + i + j)%:Z)) = Ok (-2).
Proof.
rewrite (@dt_det _ _ 2) // (expand_det_row _ ord0) !big_ord_recl big_ord0 /cofactor !det_mx11 !mxE.
by rewrite !get_mk.
Qed.
Example C02_example_error : dt (azeros 2 1 : arr int_Ring) = Raise IndexError.
Proof. by apply: C02_dt_index_error. Qed.

(* ---------------------------------------------------------------- C03 *)
(* specification: the permanent, sum over all permutations of the products of entries *)
Theorem C03_pt_is_permanent (T : comRingType) n (A : 'M[T]_n) :
  pt (ofM A) = Ok (\sum_(s : 'S_n) \prod_(i < n) A i (s i)).
Proof. by rewrite (@pt_perm _ (ofM A) n) // toM_ofM. Qed.

Theorem C03_pt_invariances (T : comRingType) n (A : 'M[T]_n) (s : 'S_n) (c : 'I_n -> T) a :
  pt (ofM A) = Ok a ->
  [/\ pt (ofM A^T) = Ok a, pt (ofM (row_perm s A)) = Ok a, pt (ofM (col_perm s A)) = Ok a &
      pt (ofM (\matrix_(i, j) (c i * A i j))) = Ok ((\prod_i c i) * a)].
Proof.
rewrite (@pt_perm _ (ofM A) n) // toM_ofM => -[<-].
split; rewrite (@pt_perm _ _ n) // toM_ofM.
- by rewrite perm_of_tr.
- by rewrite perm_of_row.
- by rewrite perm_of_col.
- by rewrite perm_of_scale.
Qed.

Theorem C03_pt_counts n (P : 'I_n -> 'I_n -> bool) (T : comRingType) :
  pt (ofM (\matrix_(i, j) (P i j)%:R : 'M[T]_n)) = Ok (#|[set s : 'S_n | [forall i, P i (s i)]]|%:R).
Proof. by rewrite (@pt_perm _ _ n) // toM_ofM perm_of_01. Qed.

Theorem C03_pt_index_error (T : comRingType) (A : arr T) : (nc A < nr A)%N -> pt A = Raise IndexError.
Proof. by move=> /dt_index_error[]. Qed.

(* all-ones matrix: the permanent is n! *)
Example C03_example n : pt (ofM (const_mx 1 : 'M[int]_n)) = Ok (n`!%:Z).
Proof.
have -> : const_mx 1 = \matrix_(i, j) (true)%:R :> 'M[int]_n by apply/matrixP => i j; rewrite !mxE.
rewrite (C03_pt_counts (fun _ _ => true)); congr (Ok _); rewrite -natz; congr (_%:R).
rewrite -[in RHS](card_ord n) -[#|'I_n|]cardsT -card_perm; apply: eq_card => p; rewrite !inE.
by apply/forallP/subsetP => [_ x _|_ i]; rewrite ?inE.
Qed.

(* ---------------------------------------------------------------- C04 *)
Theorem C04_pf_squared_is_dt (F : numFieldType) n (A : 'M[F]_n) : A^T = - A ->
  exists p q, [/\ pf (ofM A) = Ok p, dt (ofM A) = Ok q & p ^+ 2 = q].
Proof.
move=> skA; exists (pfaffian A), (\det A); split.
- by rewrite (@pf_pfaffian _ (ofM A) n) // toM_ofM.
- exact: C02_dt_is_det.
- exact: pfaffian_sqr.
Qed.

Theorem C04_pf_odd (F : fieldType) (A : arr F) : odd (nr A) -> pf A = Ok 0 /\ hf A = Ok 0.
Proof. by move=> o; rewrite /pf /hf modn2 o. Qed.

(* the hypothesis is met by non-trivial matrices of every even size *)
Example C04_example k : let Y := Ymx k.*2 (fun i => i.+1%:R : rat) in
  Y^T = - Y /\ pf (ofM Y) = Ok (k`!%:R).
Proof.
move=> Y; have e : Y^T = - Y by exact: Ymx_tr.
split=> //; rewrite (@pf_pfaffian _ (ofM Y) k.*2) ?toM_ofM // pfaffian_Ymx fact_prod.
by rewrite natr_prod big_add1 big_mkord.
Qed.

(* ---------------------------------------------------------------- C05 *)
Theorem C05_pf_congruence (F : numFieldType) n (A B : 'M[F]_n) a b : A^T = - A ->
  pf (ofM A) = Ok a -> dt (ofM B) = Ok b -> pf (ofM (B *m A *m B^T)) = Ok (b * a).
Proof.
move=> skA; rewrite (@pf_pfaffian _ (ofM A) n) ?toM_ofM // C02_dt_is_det => -[<-] [<-].
by rewrite (@pf_pfaffian _ (ofM _) n) ?toM_ofM ?skew_congr // pfaffian_congr.
Qed.

Theorem C05_pf_scale (F : numFieldType) k (A : 'M[F]_(k.*2)) (c : F) a : A^T = - A ->
  pf (ofM A) = Ok a -> pf (ofM (c *: A)) = Ok (c ^+ k * a).
Proof.
move=> skA; rewrite (@pf_pfaffian _ (ofM A) k.*2) ?toM_ofM // => -[<-].
have -> : pfaffian A = psum A / (2 ^ k * k`!)%N%:R.
  by rewrite psumE // -[X in X / _]mulr_natr mulfK // fact2_neq0.
rewrite (@pf_psum _ (ofM _) k) // toM_ofM mulrA; congr (Ok (_ / _)); rewrite /psum big_distrr; apply: eq_bigr => s _ /=.
rewrite mulrCA; congr (_ * _).
rewrite -[k in c ^+ k]card_ord -prodr_const -big_split; by apply: eq_bigr => i _; rewrite mxE.
Qed.

Theorem C05_pf_permutation (F : numFieldType) n (A : 'M[F]_n) (s : 'S_n) a : A^T = - A ->
  pf (ofM A) = Ok a -> pf (ofM (row_perm s (col_perm s A))) = Ok ((-1) ^+ odd_perm s * a).
Proof.
move=> skA ha; rewrite -(_ : perm_mx s *m A *m (perm_mx s)^T = row_perm s (col_perm s A)).
  by apply: C05_pf_congruence; rewrite ?C02_dt_is_det ?det_perm.
by rewrite tr_perm_mx row_permE col_permE mulmxA.
Qed.

Example C05_example : let A := Ymx 4 (fun i => i.+1%:R : rat) in let B := 3%:R%:M : 'M[rat]_4 in
  pf (ofM (B *m A *m B^T)) = Ok (3%:R ^+ 4 * 2%:R).
Proof.
move=> A B; have [skA eA] := C04_example 2; apply: C05_pf_congruence => //.
by rewrite C02_dt_is_det det_scalar.
Qed.

(* ---------------------------------------------------------------- C06 *)
(* hafnian / pfaffian : sums over perfect matchings (sets of pairs covering each vertex exactly once) of the
   product of the matched entries, with sign (-1)^(number of crossing pairs); defined in Matching.v. *)
Theorem C06_hf_matchings (F : numFieldType) n (A : 'M[F]_n) : A^T = A ->
  hf (ofM A) = Ok (\sum_(M | perfect_matching M) \prod_(e | edge M e) A e.1 e.2).
Proof. by move=> sA; rewrite (@hf_hafnian _ (ofM A) n) ?toM_ofM. Qed.

Theorem C06_pf_matchings (F : numFieldType) n (A : 'M[F]_n) : A^T = - A ->
  pf (ofM A) = Ok (\sum_(M | perfect_matching M) (-1) ^+ crossings M * \prod_(e | edge M e) A e.1 e.2).
Proof. by move=> sA; rewrite (@pf_pfaffian _ (ofM A) n) ?toM_ofM. Qed.

(* perfect matchings exist for every even number of vertices, e.g. {0,1},{2,3},...; none for odd *)
Example C06_example k : exists M : {set {set 'I_(k.*2)}}, perfect_matching M /\ #|M| = k.
Proof.
exists (mof 1%g); have h := mof_perfect (1%g : 'S_(k.*2)); split=> //.
by apply: double_inj; rewrite card_perfect.
Qed.

(* ---------------------------------------------------------------- C07 *)
Theorem C07_hf_bipartite (F : numFieldType) n (A : 'M[F]_n) a :
  pt (ofM A) = Ok a -> hf (ofM (block_mx 0 A A^T 0)) = Ok a.
Proof.
rewrite (@pt_perm _ (ofM A) n) // toM_ofM => -[<-].
rewrite (@hf_hafnian _ (ofM _) (n + n)) // toM_ofM ?hafnian_bip //.
by rewrite tr_block_mx !trmx0 trmxK.
Qed.

Theorem C07_pf_bipartite (F : numFieldType) n (A : 'M[F]_n) a :
  dt (ofM A) = Ok a -> pf (ofM (block_mx 0 A (- A^T) 0)) = Ok ((-1) ^+ ((n * (n - 1)) %/ 2) * a).
Proof.
rewrite C02_dt_is_det => -[<-].
rewrite (@pf_pfaffian _ (ofM _) (n + n)) // toM_ofM ?pfaffian_bip; last first.
  by rewrite tr_block_mx opp_block_mx !trmx0 !oppr0 linearN /= trmxK opprK.
by rewrite bin2 -divn2 subn1.
Qed.

Example C07_example : hf (ofM (block_mx 0 (const_mx 1) (const_mx 1)^T 0 : 'M[rat]_(3 + 3))) = Ok 6%:R.
Proof.
apply: C07_hf_bipartite.
have -> : const_mx 1 = \matrix_(i, j) (true)%:R :> 'M[rat]_3 by apply/matrixP => i j; rewrite !mxE.
rewrite (C03_pt_counts (fun _ _ => true)); congr (Ok _); congr (_%:R).
rewrite (_ : 6 = 3`!)%N // -[in RHS](card_ord 3) -[#|'I_3|]cardsT -card_perm; apply: eq_card => p.
by rewrite !inE; apply/forallP/subsetP => [_ x _|_ i]; rewrite ?inE.
Qed.

(* ---------------------------------------------------------------- C08 *)
Theorem C08_dt_eigen (C : numClosedFieldType) (A : arr C) :
  if nr A == nc A then exists q, dt A = Ok q /\ dt_eigen A = Some q else dt_eigen A = None.
Proof.
case: eqP => [e|/eqP ne]; last by rewrite /dt_eigen ne.
exists (\det (toM (nr A) (nr A) A)); split; first by rewrite (@dt_det _ A (nr A)).
by rewrite (@dt_eigen_det _ A (nr A)).
Qed.

(* the eigenvalues used are exactly the roots of the characteristic polynomial, with multiplicity *)
Theorem C08_eigvals_spec (C : numClosedFieldType) n (A : 'M[C]_n) :
  char_poly A = \prod_(z <- eigvals A) ('X - z%:P) /\ size (eigvals A) = n.
Proof.
rewrite /eigvals; case: (closed_field_poly_normal _) => r /= E.
rewrite (eqP (char_poly_monic A)) scale1r in E; split=> //.
by have := size_char_poly A; rewrite E size_prod_XsubC => -[].
Qed.

Example C08_example (C : numClosedFieldType) n : dt_eigen (ofM (2%:R%:M : 'M[C]_n)) = Some (2%:R ^+ n).
Proof. by rewrite (@dt_eigen_det _ _ n) // toM_ofM det_scalar. Qed.

Print Assumptions C01_sgn_is_signature.
Print Assumptions C01_sgn_multiplicative.
Print Assumptions C01_sgn_transposition.
Print Assumptions C02_dt_is_det.
Print Assumptions C02_dt_mul.
Print Assumptions C02_dt_tr_eye_rows.
Print Assumptions C02_dt_index_error.
Print Assumptions C03_pt_is_permanent.
Print Assumptions C03_pt_invariances.
Print Assumptions C03_pt_counts.
Print Assumptions C03_pt_index_error.
Print Assumptions C04_pf_squared_is_dt.
Print Assumptions C04_pf_odd.
Print Assumptions C05_pf_congruence.
Print Assumptions C05_pf_scale.
Print Assumptions C05_pf_permutation.
Print Assumptions C06_hf_matchings.
Print Assumptions C06_pf_matchings.
Print Assumptions C07_hf_bipartite.
Print Assumptions C07_pf_bipartite.
Print Assumptions C08_dt_eigen.
Print Assumptions C08_eigvals_spec.
