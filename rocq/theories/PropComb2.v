(* PropComb2.v -- property C86: dt, pt, pf and hf of direct sums, row expansions, symmetries of hf, complete graphs,
   disjoint unions of graphs. *)
Set Warnings "-notation-overridden,-ambiguous-paths".
From mathcomp Require Import all_ssreflect all_fingroup all_algebra algC.
From mathcomp.zify Require Import zify.
From Verif Require Import Base ArrC MCombinatorics CombPerm Matching Pfaffian PfExpand HfExpand CombFacts PropComb MUtils PropUtils1.
From Verif Require Import MGraph GraphBrute PropGraph1 PropGraph11.
Set Implicit Arguments.
Unset Strict Implicit.
Unset Printing Implicit Defensive.
Import Order.Theory GRing.Theory Num.Theory.
Local Open Scope ring_scope.

(* ---------------------------------------------------------------- *)
(* permanents                                                        *)
Section Perm.
Variable T : comRingType.

Lemma perm_expand_row n (A : 'M[T]_n.+1) i : perm_of A = \sum_j A i j * perm_of (row' i (col' j A)).
Proof.
rewrite /perm_of (partition_big (fun s : 'S_n.+1 => s i) xpredT) //=; apply: eq_bigr => j _.
rewrite sum_perm_fix big_distrr /=; apply: eq_bigr => t _.
rewrite (bigD1_ord i) //= lift_perm_id; congr (_ * _).
by apply: eq_bigr => l _; rewrite lift_perm_lift !mxE.
Qed.

Lemma perm_of0 (A : 'M[T]_0) : perm_of A = 1.
Proof. by rewrite /perm_of (big_pred1 1%g) => [|s]; [rewrite big_ord0|apply/esym/eqP/permP => -[]]. Qed.

Lemma perm_of_castmx m n (e : m = n) (A : 'M[T]_m) : perm_of (castmx (e, e) A) = perm_of A.
Proof. by subst n; rewrite castmx_id. Qed.

Lemma perm_expand_col n (A : 'M[T]_n) j : perm_of A = \sum_i A i j * perm_of (row' i (col' j A)).
Proof.
case: n A j => [|n] A j; first by case: j.
rewrite -perm_of_tr (perm_expand_row _ j); apply: eq_bigr => i _; rewrite mxE; congr (_ * _).
by rewrite -perm_of_tr; congr perm_of; apply/matrixP => a b; rewrite !mxE.
Qed.

Lemma perm_dsum m n (A : 'M[T]_m) (B : 'M[T]_n) : perm_of (block_mx A 0 0 B) = perm_of A * perm_of B.
Proof.
elim: m A => [|m IH] A.
  rewrite (perm_of0 A) mul1r; congr perm_of; apply/matrixP=> i j.
  by do 2![rewrite !mxE; case: splitP => [[]|k] //=; move/val_inj=> <- {k}].
rewrite (perm_expand_col _ (lshift n 0)) big_split_ord /=.
rewrite addrC big1 ?add0r => [|i _]; last by rewrite block_mxEdl mxE mul0r.
rewrite (perm_expand_col A 0) big_distrl /=; apply: eq_bigr => i _.
rewrite block_mxEul -!mulrA; congr (_ * _).
by rewrite col'_col_mx !col'Kl raddf0 row'Ku row'_row_mx raddf0 IH.
Qed.
End Perm.

(* ---------------------------------------------------------------- *)
(* hf sees only the symmetric part                                   *)
Section Sym.
Variables (F : numFieldType) (k : nat).
Local Notation n := k.*2.
Implicit Types A : 'M[F]_n.

Definition sym_part m (A : 'M[F]_m) : 'M[F]_m := 2%:R^-1 *: (A + A^T).

Lemma sym_partT m (A : 'M[F]_m) : (sym_part A)^T = sym_part A.
Proof. by rewrite /sym_part linearZ /= linearD /= trmxK addrC. Qed.

Definition hsum_upto A (m : nat) : F := \sum_(s : 'S_n)
  \prod_(i < k) (if (i < m)%N then sym_part A else A) (s (d i false)) (s (d i true)).

Lemma hsum_step A m : hsum_upto A m.+1 = hsum_upto A m.
Proof.
case: (ltnP m k) => hm; last first.
  apply: eq_bigr => s _; apply: eq_bigr => i _; have hi := ltn_ord i.
  by rewrite (leq_trans hi hm) ltnS ltnW // (leq_trans hi).
pose j := Ordinal hm; pose t : 'S_n := tperm (d j false) (d j true).
have td (i : 'I_k) e : i != j -> t (d i e) = d i e.
  by move=> ij; rewrite tpermD // d_eq negb_and eq_sym ij.
pose rest (s : 'S_n) : F := \prod_(i < k | i != j) (if (i < m)%N then sym_part A else A) (s (d i false)) (s (d i true)).
have rest_t (s : 'S_n) : rest (t * s)%g = rest s.
  by apply: eq_bigr => i ij; rewrite !permM !td.
have e0 : hsum_upto A m = \sum_(s : 'S_n) (A (s (d j false)) (s (d j true)) * rest s).
  by apply: eq_bigr => s _; rewrite (bigD1 j) //= ltnn.
have e1 : hsum_upto A m = \sum_(s : 'S_n) (A (s (d j true)) (s (d j false)) * rest s).
  rewrite e0 (reindex_inj (mulgI t)); apply: eq_bigr => s _.
  by rewrite rest_t !permM tpermL tpermR.
have e2 : hsum_upto A m.+1 = 2%:R^-1 * (hsum_upto A m + hsum_upto A m).
  rewrite {1}e0 e1 -big_split mulr_sumr; apply: eq_bigr => s _ /=; rewrite (bigD1 j) //= ltnSn !mxE.
  have -> : \prod_(i < k | i != j) (if (i < m.+1)%N then sym_part A else A) (s (d i false)) (s (d i true)) = rest s.
    apply: eq_bigr => i ij; rewrite ltnS leq_eqVlt (_ : (i == m :> nat) = false) //.
    by apply/negbTE; apply: contra ij => /eqP h; apply/eqP/val_inj.
  by rewrite -mulrDl -!mulrA.
by rewrite e2 -mulr2n -(mulr_natl (hsum_upto A m)) mulrA mulVf ?pnatr_eq0 ?mul1r.
Qed.

Lemma hsum_sym A : hsum A = hsum (sym_part A).
Proof.
have e m : hsum_upto A m = hsum A.
  elim: m => [|m IH]; last by rewrite hsum_step.
  by apply: eq_bigr.
by rewrite -(e k); apply: eq_bigr => s _; apply: eq_bigr => i _; rewrite ltn_ord.
Qed.
End Sym.

(* for every square matrix hf is the hafnian of the symmetric part; in particular the diagonal plays no role *)
Theorem C86_hf_symmetric_part (F : numFieldType) m (A : 'M[F]_m) :
  hf (ofM A) = Ok (hafnian (2%:R^-1 *: (A + A^T))).
Proof.
rewrite -[2%:R^-1 *: _]/(sym_part A).
have -> : hf (ofM A) = hf (ofM (sym_part A)); last first.
  by rewrite (@hf_hafnian _ _ m) ?toM_ofM ?sym_partT.
have [on|en] := boolP (odd m); first by rewrite /hf /= modn2 on.
have [k ek] := even_dbl en.
by subst m; rewrite !(@hf_hsum _ _ k) // !toM_ofM hsum_sym.
Qed.

Theorem C86_pf_skew_part (F : numFieldType) m (A : 'M[F]_m) :
  pf (ofM A) = Ok (pfaffian (2%:R^-1 *: (A - A^T))).
Proof.
by rewrite C73_skew_part (@pf_pfaffian _ _ m) ?toM_ofM ?skew_partT.
Qed.

(* ---------------------------------------------------------------- *)
(* the direct sum kron_plus(A, B): dt, pt, pf and hf are the products, for all square A and B, symmetric or not,
   of even or odd size *)
Theorem C86_direct_sum (C : numClosedFieldType) m n (A : 'M[C]_m) (B : 'M[C]_n) :
  exists R, [/\ kron_plus (ofM A) (ofM B) = Ok R,
    (forall a b, dt (ofM A) = Ok a -> dt (ofM B) = Ok b -> dt R = Ok (a * b)),
    (forall a b, pt (ofM A) = Ok a -> pt (ofM B) = Ok b -> pt R = Ok (a * b)),
    (forall a b, pf (ofM A) = Ok a -> pf (ofM B) = Ok b -> pf R = Ok (a * b)) &
    (forall a b, hf (ofM A) = Ok a -> hf (ofM B) = Ok b -> hf R = Ok (a * b))].
Proof.
exists (ofM (block_mx A 0 0 B)); rewrite C20_direct_sum; split=> // a b.
- by rewrite !C02_dt_is_det => -[<-] [<-]; rewrite det_ublock.
- by rewrite !(@pt_perm _ (ofM _) _ erefl erefl) !toM_ofM => -[<-] [<-]; rewrite perm_dsum.
- rewrite !C86_pf_skew_part => -[<-] [<-]; rewrite -pfaffian_dsum ?skew_partT //; congr (Ok (pfaffian _)).
  by rewrite tr_block_mx !trmx0 opp_block_mx add_block_mx scale_block_mx !subrr !scaler0.
rewrite !C86_hf_symmetric_part => -[<-] [<-]; rewrite -hafnian_dsum ?sym_partT //; congr (Ok (hafnian _)).
by rewrite tr_block_mx !trmx0 add_block_mx scale_block_mx !addr0 !scaler0.
Qed.

(* row expansions: the entries of one row times the values on the matrix without that row and the column of the entry;
   for hf, without the two rows and columns of the entry *)
Theorem C86_dt_row_expansion (T : comRingType) n (A : 'M[T]_n.+1) i : exists p : 'I_n.+1 -> T,
  (forall j, dt (ofM (row' i (col' j A))) = Ok (p j)) /\
  dt (ofM A) = Ok (\sum_(j < n.+1) (-1) ^+ (i + j) * A i j * p j).
Proof.
exists (fun j => \det (row' i (col' j A))); split=> [j|]; first exact: C02_dt_is_det.
rewrite C02_dt_is_det (expand_det_row _ i); congr Ok; apply: eq_bigr => j _.
by rewrite /cofactor mulrA [_ * A i j]mulrC.
Qed.

Theorem C86_pt_row_expansion (T : comRingType) n (A : 'M[T]_n.+1) i : exists p : 'I_n.+1 -> T,
  (forall j, pt (ofM (row' i (col' j A))) = Ok (p j)) /\ pt (ofM A) = Ok (\sum_j A i j * p j).
Proof.
exists (fun j => perm_of (row' i (col' j A))); split=> [j|]; first by rewrite (@pt_perm _ _ n) ?toM_ofM.
by rewrite (@pt_perm _ _ n.+1) ?toM_ofM // -perm_expand_row.
Qed.

Theorem C86_hf_row_expansion (F : numFieldType) k (A : 'M[F]_(k.+1.*2)) : A^T = A -> exists p : 'I_k.*2.+1 -> F,
  (forall j, hf (ofM (\matrix_(a, b) A (fintype.lift ord0 (fintype.lift j a)) (fintype.lift ord0 (fintype.lift j b)) : 'M_(k.*2)))
     = Ok (p j)) /\
  hf (ofM A) = Ok (\sum_(j < k.*2.+1) A ord0 (fintype.lift ord0 j) * p j).
Proof.
move=> sA; exists (fun j => hafnian (minor2 A j)); split=> [j|].
  by rewrite (@hf_hafnian _ _ k.*2) // toM_ofM // minor2_sym.
by rewrite (@hf_hafnian _ _ k.+1.*2) // toM_ofM // hafnian_expand.
Qed.

(* hf under transposition, simultaneous permutation of rows and columns, and scaling of rows and columns; arbitrary A *)
Theorem C86_hf_invariances (F : numFieldType) n (A : 'M[F]_n) (s : 'S_n) (c : 'I_n -> F) a : hf (ofM A) = Ok a ->
  [/\ hf (ofM A^T) = Ok a, hf (ofM (row_perm s (col_perm s A))) = Ok a &
      hf (ofM (\matrix_(i, j) (c i * A i j * c j))) = Ok ((\prod_i c i) * a)].
Proof.
have -> : hf (ofM A^T) = hf (ofM A).
  by rewrite !C86_hf_symmetric_part trmxK addrC.
have [on|en] := boolP (odd n).
  by rewrite /hf /= modn2 on => -[<-]; rewrite mulr0.
have [k ek] := even_dbl en; subst n; rewrite !(@hf_hsum _ _ k) // !toM_ofM => -[<-].
by rewrite hsum_perm hsum_scale mulrA.
Qed.

(* the complete graph on 2k nodes: (2k)! / (2^k k!) = 1*3*5*...*(2k-1) *)
Lemma odd_fact k : ((k.*2)`! = (2 ^ k * k`!) * \prod_(i < k) i.*2.+1)%N.
Proof.
elim: k => [|k IH]; first by rewrite big_ord0.
by rewrite big_ord_recr /= doubleS !factS IH expnS; move: (2 ^ k)%N (k`!)%N (\prod_(i < k) _)%N => a b P; lia.
Qed.

Theorem C86_hf_complete (F : numFieldType) k (A : 'M[F]_(k.*2)) : (forall i j, i != j -> A i j = 1) ->
  hf (ofM A) = Ok (\prod_(i < k) i.*2.+1)%:R.
Proof.
move=> h; rewrite (@hf_hsum _ _ k) // toM_ofM; congr Ok.
have -> : hsum A = (k.*2)`!%:R.
  rewrite /hsum (eq_bigr (fun=> 1)) => [|s _]; last first.
    by rewrite big1 // => i _; rewrite h // (inj_eq perm_inj) d_eq eqxx.
  by rewrite sumr_const -card_Sn; congr (_ *+ _); apply: eq_card.
by rewrite odd_fact natrM mulrAC divff ?mul1r // fact2_neq0.
Qed.

(* ---------------------------------------------------------------- *)
(* disjoint unions of graphs                                         *)
Section Union.
Variables (L : eqType) (G H : graph L).
Definition gunion : graph L := Graph (gnodes G ++ gnodes H) (gedges G ++ gedges H).
Hypothesis dis : forall x, x \in gnodes G -> x \notin gnodes H.
Hypotheses (sG : simple_graph G) (sH : simple_graph H).

Lemma gunion_simple : simple_graph gunion.
Proof.
have [uG eG hG] := sG; have [uH eH hH] := sH.
split=> /=.
- by rewrite cat_uniq uG uH andbT; apply/hasPn => x hx; apply/negP => /dis; rewrite hx.
- rewrite cat_uniq eG eH andbT; apply/hasPn => x hx; apply/negP => /hG[h _ _ _].
  by have [h2 _ _ _] := hH _ hx; move: (dis h); rewrite h2.
move=> e; rewrite [e \in _]mem_cat => /orP[he|he].
  have [h1 h2 h3 h4] := hG _ he; rewrite !mem_cat h1 h2 (negbTE h4) /=; split=> //.
  by apply/negP => /hH[h5 _ _ _]; move: (dis h2); rewrite h5.
have [h1 h2 h3 h4] := hH _ he; rewrite !mem_cat h1 h2 (negbTE h4) !orbT /= orbF; split=> //.
by apply/negP => /hG[_ h5 _ _]; move: (dis h5); rewrite h1.
Qed.
End Union.

(* the adjacency matrix of a disjoint union is the direct sum of the adjacency matrices *)
Section UnionAdj.
Variables (C : numClosedFieldType) (L : eqType) (G H : graph L) (w : weights C L).
Hypothesis dis : forall x, x \in gnodes G -> x \notin gnodes H.
Hypotheses (sG : simple_graph G) (sH : simple_graph H).

Let dropE (x0 : L) (l : seq L) i : (i < size l)%N -> drop i l = nth x0 l i :: drop i.+1 l.
Proof. by move=> h; rewrite (drop_nth x0). Qed.

Lemma adj_union : kron_plus (adjacency_matrix G w) (adjacency_matrix H w) = Ok (adjacency_matrix (gunion G H) w).
Proof.
have [_ _ hG] := sG; have [_ _ hH] := sH.
rewrite /kron_plus /np_block /= !eqxx /=; congr Ok; apply: arrP; rewrite /= ?size_cat // => i j hi hj.
rewrite [LHS]getE // [RHS]getE /= ?size_cat //.
have x0 : L by case: (gnodes G) (gnodes H) hi => [|x ?] [|y ?].
rewrite (dropE x0 (l := gnodes G ++ gnodes H) (i := i)) ?size_cat // (dropE x0 (l := gnodes G ++ gnodes H) (i := j)) ?size_cat //.
rewrite !nth_cat; case: ltnP => h1; case: ltnP => h2.
- rewrite /adjacency_matrix get_mk h1 h2 /= (dropE x0 h1) (dropE x0 h2) !mem_cat.
  have hu := mem_nth x0 h1; have hv := mem_nth x0 h2; move: (nth _ _ i) (nth _ _ j) hu hv => u v hu hv.
  have n1 : (u, v) \in gedges H = false by apply/negP => /hH[/= h _ _ _]; move: (dis hu); rewrite h.
  have n2 : (v, u) \in gedges H = false by apply/negP => /hH[/= h _ _ _]; move: (dis hv); rewrite h.
  by rewrite n1 n2 !orbF.
- rewrite /azeros get_mk; have -> : (if (i < size (gnodes G))%N && (j - size (gnodes G) < size (gnodes H))%N then 0 else 0) = 0 :> C by case: ifP.
  have h3 : (j - size (gnodes G) < size (gnodes H))%N by move: hj h2; clear; lia.
  have hu := mem_nth x0 h1; have hv := mem_nth x0 h3; move: (nth _ _ i) (nth _ _ (j - _)%N) hu hv => u v hu hv.
  rewrite !mem_cat.
  have n1 : (u, v) \in gedges H = false by apply/negP => /hH[/= h _ _ _]; move: (dis hu); rewrite h.
  have n2 : (v, u) \in gedges H = false by apply/negP => /hH[/= _ h _ _]; move: (dis hu); rewrite h.
  have n3 : (u, v) \in gedges G = false by apply/negP => /hG[/= _ h _ _]; move: (dis h); rewrite hv.
  have n4 : (v, u) \in gedges G = false by apply/negP => /hG[/= h _ _ _]; move: (dis h); rewrite hv.
  by rewrite n1 n2 n3 n4.
- have -> : get (atr (azeros (size (gnodes G)) (size (gnodes H)))) (i - size (gnodes G)) j = 0 :> C.
    by rewrite /atr /azeros get_mk; case: ifP => // _; rewrite get_mk; case: ifP.
  have h3 : (i - size (gnodes G) < size (gnodes H))%N by move: hi h1; clear; lia.
  have hu := mem_nth x0 h3; have hv := mem_nth x0 h2; move: (nth _ _ (i - _)%N) (nth _ _ j) hu hv => u v hu hv.
  rewrite !mem_cat.
  have n1 : (u, v) \in gedges H = false by apply/negP => /hH[/= _ h _ _]; move: (dis hv); rewrite h.
  have n2 : (v, u) \in gedges H = false by apply/negP => /hH[/= h _ _ _]; move: (dis hv); rewrite h.
  have n3 : (u, v) \in gedges G = false by apply/negP => /hG[/= h _ _ _]; move: (dis h); rewrite hu.
  have n4 : (v, u) \in gedges G = false by apply/negP => /hG[/= _ h _ _]; move: (dis h); rewrite hu.
  by rewrite n1 n2 n3 n4.
have h3 : (i - size (gnodes G) < size (gnodes H))%N by move: hi h1; clear; lia.
have h4 : (j - size (gnodes G) < size (gnodes H))%N by move: hj h2; clear; lia.
rewrite /adjacency_matrix get_mk h3 h4 /= (dropE x0 h3) (dropE x0 h4) !mem_cat.
have hu := mem_nth x0 h3; have hv := mem_nth x0 h4; move: (nth _ _ (i - _)%N) (nth _ _ (j - _)%N) hu hv => u v hu hv.
have n1 : (u, v) \in gedges G = false by apply/negP => /hG[/= h _ _ _]; move: (dis h); rewrite hu.
have n2 : (v, u) \in gedges G = false by apply/negP => /hG[/= h _ _ _]; move: (dis h); rewrite hv.
by rewrite n1 n2.
Qed.
End UnionAdj.

(* hf of the adjacency matrices, without a bound on the number of nodes *)
Theorem C86_disjoint_union (C : numClosedFieldType) (L : eqType) (G H : graph L) (w : weights C L) a b :
  simple_graph G -> simple_graph H -> (forall x, x \in gnodes G -> x \notin gnodes H) ->
  hf (adjacency_matrix G w) = Ok a -> hf (adjacency_matrix H w) = Ok b ->
  hf (adjacency_matrix (Graph (gnodes G ++ gnodes H) (gedges G ++ gedges H)) w) = Ok (a * b).
Proof.
move=> sG sH dis; have := adj_union w dis sG sH.
rewrite -(@ofM_toM _ (adjacency_matrix G w) _ _ erefl erefl) -(@ofM_toM _ (adjacency_matrix H w) _ _ erefl erefl).
have [R [-> _ _ _ h] [<-]] := C86_direct_sum (toM (size (gnodes G)) (size (gnodes G)) (adjacency_matrix G w))
  (toM (size (gnodes H)) (size (gnodes H)) (adjacency_matrix H w)).
exact: h.
Qed.

(* the matchings listed by find_perfect_matchings_brute *)
Theorem C86_matchings_union (L : eqType) (G H : graph L) :
  simple_graph G -> simple_graph H -> (forall x, x \in gnodes G -> x \notin gnodes H) ->
  (size (gnodes G) + size (gnodes H) <= 15)%N ->
  size (find_perfect_matchings_brute (Graph (gnodes G ++ gnodes H) (gedges G ++ gedges H))) =
  (size (find_perfect_matchings_brute G) * size (find_perfect_matchings_brute H))%N.
Proof.
move=> sG sH dis sz; pose w : weights [numClosedFieldType of algC] L := fun=> 1.
have := C86_disjoint_union (w := w) sG sH dis; rewrite !C10_count //; try lia.
- by move=> /(_ _ _ erefl erefl)[/eqP]; rewrite -natrM eqr_nat => /eqP.
- exact: (gunion_simple dis sG sH).
by rewrite /= size_cat.
Qed.

(* the complete graph on 2k nodes, 2k <= 15, has 1*3*...*(2k-1) perfect matchings *)
Theorem C86_matchings_complete (L : eqType) (G : graph L) k : simple_graph G -> size (gnodes G) = k.*2 -> (k.*2 <= 15)%N ->
  (forall u v, u \in gnodes G -> v \in gnodes G -> u != v -> has_edge G u v) ->
  size (find_perfect_matchings_brute G) = (\prod_(i < k) i.*2.+1)%N.
Proof.
move=> sG sz hk hE; have := C10_count [numClosedFieldType of algC] sG; rewrite sz hk => /(_ isT).
rewrite -(@ofM_toM _ (adjacency_matrix G _) k.*2 k.*2) //= (C86_hf_complete (A := toM _ _ _)) => [|i j ij].
  by move=> [/eqP]; rewrite eqr_nat => /eqP ->.
have [uG _ hG] := sG; rewrite mxE getE /= ?sz //.
have x0 : nat by []. have hi : (i < size (gnodes G))%N by rewrite sz. have hj : (j < size (gnodes G))%N by rewrite sz.
have u0 : L by case: (gnodes G) hi.
rewrite (drop_nth u0 hi) (drop_nth u0 hj); have := hE _ _ (mem_nth u0 hi) (mem_nth u0 hj).
rewrite nth_uniq // => /(_ ij); rewrite /has_edge; case: ifP => //= _; by case: ifP.
Qed.

(* the direct sum of the complete graphs on 2 and 4 nodes: 1 * 3 matchings *)
Example C86_example (C : numClosedFieldType) :
  hf (ofM (block_mx (const_mx 1) 0 0 (const_mx 1) : 'M[C]_(1.*2 + 2.*2))) = Ok 3%:R.
Proof.
have [R [e _ _ _ h]] := C86_direct_sum (const_mx 1 : 'M[C]_(1.*2)) (const_mx 1 : 'M[C]_(2.*2)).
move: e h; rewrite C20_direct_sum => -[<-] h.
by rewrite (h _ _ (C86_hf_complete (k := 1) _) (C86_hf_complete (k := 2) _)) ?big_ord_recl ?big_ord0 ?mul1r // => i j _; rewrite mxE.
Qed.
(* a square with a chord next to another one: 2 * 2 matchings *)
Example C86_example_union : exists H : graph nat_eqType, simple_graph H /\
  size (find_perfect_matchings_brute (Graph (gnodes square ++ gnodes H) (gedges square ++ gedges H))) = 4%N.
Proof.
exists (Graph [:: 1; 2; 4; 6]%N [:: (1, 2); (1, 6); (1, 4); (2, 4); (4, 6)]%N); split; last by vm_compute.
split=> // e he; have : all (fun e => [&& e.1 \in [:: 1; 2; 4; 6]%N, e.2 \in [:: 1; 2; 4; 6]%N, e.1 != e.2
  & (e.2, e.1) \notin [:: (1, 2); (1, 6); (1, 4); (2, 4); (4, 6)]%N]) [:: (1, 2); (1, 6); (1, 4); (2, 4); (4, 6)]%N by vm_compute.
by move=> /allP/(_ _ he)/and4P[].
Qed.
