(* CombFacts.v -- corollaries about sgn, dt, pt, pf, hf used by the property files. *)
Set Warnings "-notation-overridden,-ambiguous-paths".
From mathcomp Require Import all_ssreflect all_fingroup all_algebra.
From mathcomp.zify Require Import zify.
From Verif Require Import Base MCombinatorics CombPerm Matching Pfaffian Bipartite.
Set Implicit Arguments.
Unset Strict Implicit.
Unset Printing Implicit Defensive.
Import GRing.Theory Num.Theory.
Local Open Scope ring_scope.

Lemma sgn_signature n p : perm_eq p (iota 0 n) ->
  exists s : 'S_n, (forall i : 'I_n, nth 0%N p i = s i) /\ sgn p = (-1) ^+ odd_perm s.
Proof.
by move=> /plist_surj[s ->]; exists s; split=> [i|]; [rewrite nth_plist|rewrite sgnE].
Qed.

(* composition of permutation lists: (p o q)[i] = p[q[i]] *)
Lemma sgn_comp n p q : perm_eq p (iota 0 n) -> perm_eq q (iota 0 n) ->
  sgn [seq nth 0%N p i | i <- q] = sgn p * sgn q.
Proof.
move=> /plist_surj[s ->] /plist_surj[t ->].
have -> : [seq nth 0%N (plist s) i | i <- plist t] = plist (t * s)%g.
  by rewrite /plist -map_comp; apply: eq_map => i /=; rewrite permM -/(plist s) nth_plist.
by rewrite !sgnE odd_permM signr_addb mulrC.
Qed.

(* exchange of the entries at positions i and j *)
Definition swap_at (p : seq nat) (i j : nat) : seq nat :=
  [seq if k == i then nth 0%N p j else if k == j then nth 0%N p i else nth 0%N p k | k <- iota 0 (size p)].

Lemma sgn_swap n p i j : perm_eq p (iota 0 n) -> (i < n)%N -> (j < n)%N -> i != j ->
  sgn (swap_at p i j) = - sgn p.
Proof.
move=> /plist_surj[s ->] hi hj ij.
have -> : swap_at (plist s) i j = plist (tperm (Ordinal hi) (Ordinal hj) * s)%g.
  have np (t : 'S_n) k (hk : (k < n)%N) : nth 0%N (plist t) k = t (Ordinal hk).
    by rewrite -[k]/(val (Ordinal hk)) nth_plist.
  apply: (@eq_from_nth _ 0%N); first by rewrite size_map size_iota !size_plist.
  move=> k; rewrite size_map size_iota size_plist => hk.
  rewrite (np _ k hk) permM (nth_map 0%N) ?size_iota ?size_plist // nth_iota // add0n.
  case: (eqVneq k i) => [e|ki].
    have -> : Ordinal hk = Ordinal hi by apply: val_inj.
    by rewrite tpermL (np _ j hj).
  case: (eqVneq k j) => [e|kj].
    have -> : Ordinal hk = Ordinal hj by apply: val_inj.
    by rewrite tpermR (np _ i hi).
  by rewrite tpermD -?val_eqE /= 1?eq_sym // (np _ k hk).
rewrite !sgnE odd_permM odd_tperm -val_eqE /= ij signr_addb expr1 mulN1r; by [].
Qed.

(* ---- IndexError for too few columns ---- *)
Section IE.
Variable T : comRingType.
Lemma prod_entries_bad (A : arr T) l e : e \in l -> ~~ ((e.1 < nr A)%N && (e.2 < nc A)%N) ->
  prod_entries A l = Raise IndexError.
Proof.
rewrite /prod_entries => h he; move: (1 : T) => a.
elim: l a h => [|x l IH] a //=; rewrite in_cons => /orP[/eqP <-|h]; first by rewrite /idx (negbTE he).
by rewrite {1}/idx; case: ifP => //= _; apply: IH.
Qed.

Lemma dt_index_error (A : arr T) : (nc A < nr A)%N -> dt A = Raise IndexError /\ pt A = Raise IndexError.
Proof.
move=> lt; have H p : p \in perms (iota 0 (nr A)) ->
   prod_entries A [seq (i, nth 0%N p i) | i <- iota 0 (nr A)] = Raise IndexError.
  rewrite mem_perms ?iota_uniq // => hp.
  have sp : size p = nr A by rewrite (perm_size hp) size_iota.
  have : nc A \in p by rewrite (perm_mem hp) mem_iota.
  move=> /(nthP 0%N)[i]; rewrite sp => hi e.
  apply: (@prod_entries_bad _ _ (i, nc A)); last by rewrite ltnn andbF.
  by apply/mapP; exists i; rewrite ?mem_iota ?e.
rewrite /dt /pt.
case E: (perms (iota 0 (nr A))) => [|p l].
  have : iota 0 (nr A) \in perms (iota 0 (nr A)) by rewrite mem_perms ?iota_uniq.
  by rewrite E.
by rewrite /= H // E mem_head.
Qed.

Lemma perm_of_tr n (A : 'M[T]_n) : perm_of A^T = perm_of A.
Proof.
rewrite /perm_of (reindex_inj invg_inj) /=; apply: eq_bigr => s _.
rewrite (reindex_inj (@perm_inj _ s)) /=; apply: eq_bigr => i _.
by rewrite mxE permK.
Qed.

Lemma perm_of_col n (A : 'M[T]_n) s : perm_of (col_perm s A) = perm_of A.
Proof.
rewrite /perm_of [RHS](reindex_inj (mulIg s)) /=; apply: eq_bigr => t _.
by apply: eq_bigr => i _; rewrite !mxE permM.
Qed.

Lemma perm_of_row n (A : 'M[T]_n) s : perm_of (row_perm s A) = perm_of A.
Proof. by rewrite -perm_of_tr tr_row_perm perm_of_col perm_of_tr. Qed.

Lemma perm_of_scale n (A : 'M[T]_n) (c : 'I_n -> T) :
  perm_of (\matrix_(i, j) (c i * A i j)) = (\prod_i c i) * perm_of A.
Proof.
rewrite /perm_of big_distrr; apply: eq_bigr => s _ /=; rewrite -big_split.
by apply: eq_bigr => i _; rewrite mxE.
Qed.

Lemma perm_of_01 n (P : 'I_n -> 'I_n -> bool) :
  perm_of (\matrix_(i, j) (P i j)%:R) = #|[set s : 'S_n | [forall i, P i (s i)]]|%:R :> T.
Proof.
rewrite -sum1_card natr_sum big_mkcond /=; apply: eq_bigr => s _; rewrite inE.
case: ifP => [/forallP H|/negbT]; first by rewrite big1 // => i _; rewrite mxE H.
by rewrite negb_forall => /existsP[i /negbTE h]; rewrite (bigD1 i) //= mxE h mul0r.
Qed.

(* permanents are linear in each row *)
Lemma perm_of_row_add n (A : 'M[T]_n) (i0 : 'I_n) (v w : 'I_n -> T) :
  let rowset u := \matrix_(i, j) (if i == i0 then u j else A i j) in
  perm_of (rowset (fun j => v j + w j)) = perm_of (rowset v) + perm_of (rowset w).
Proof.
move=> rowset; rewrite /perm_of -big_split; apply: eq_bigr => s _ /=.
have E u : \prod_i rowset u i (s i) = u (s i0) * \prod_(i | i != i0) A i (s i).
  rewrite (bigD1 (i0 : 'I_n)) //= mxE eqxx; congr (_ * _).
  by apply: eq_bigr => i ni; rewrite mxE (negbTE ni).
by rewrite !E mulrDl.
Qed.
End IE.
