(* Pfaffian.v -- pf and hf as matching sums, congruence law, pf^2 = det, bipartite reductions. *)
Set Warnings "-notation-overridden,-ambiguous-paths".
From mathcomp Require Import all_ssreflect all_fingroup all_algebra.
From mathcomp.zify Require Import zify.
From Verif Require Import Base MCombinatorics CombPerm Matching.
Set Implicit Arguments.
Unset Strict Implicit.
Unset Printing Implicit Defensive.
Import GRing.Theory Num.Theory.
Local Open Scope ring_scope.

Section Unnormalised.
Variable T : comRingType.
Variable k : nat.
Local Notation n := (k.*2).
Implicit Types A B : 'M[T]_n.

Definition hsum A := \sum_(s : 'S_n) \prod_(i < k) A (s (d i false)) (s (d i true)).
Definition psum A := \sum_(s : 'S_n) (-1) ^+ (odd_perm s) * \prod_(i < k) A (s (d i false)) (s (d i true)).

Lemma hsumE A : A^T = A -> hsum A = hafnian A *+ (2 ^ k * k`!).
Proof.
move=> symA; rewrite /hafnian -sum_mof; apply: eq_bigr => s _.
rewrite /mweight big_edge; apply: eq_bigr => i _; rewrite /e_of; case: ifP => //= _.
by rewrite -{1}symA mxE.
Qed.

Lemma psumE A : A^T = - A -> psum A = pfaffian A *+ (2 ^ k * k`!).
Proof.
move=> skA; rewrite /pfaffian -sum_mof; apply: eq_bigr => s _.
rewrite sign_mof signr_addb signr_odd -mulrA; congr (_ * _).
rewrite /mweight big_edge.
have -> : (-1) ^+ (\big[addb/false]_(i < k) (s (d i true) < s (d i false))%N) =
   \prod_(i < k) (-1) ^+ (s (d i true) < s (d i false))%N :> T.
  by apply: (big_morph (fun b : bool => (-1) ^+ b : T)) => // a b; rewrite signr_addb.
rewrite -big_split; apply: eq_bigr => i _ /=; rewrite /e_of.
have := d_neq s i; rewrite -val_eqE neq_ltn; case: ltngtP => //= h _; first by rewrite mul1r.
by rewrite expr1 mulN1r -{1}[A]opprK -skA !mxE opprK.
Qed.

Lemma psum_congr A B : psum (B *m A *m B^T) = \det B * psum A.
Proof.
pose Gt := {ffun 'I_k -> 'I_n * 'I_n}.
pose ff (g : Gt) (x : 'I_n) := if odd x then (g (hd x)).2 else (g (hd x)).1.
pose Fg (g : Gt) : 'M[T]_n := \matrix_(x, z) (ff g x == z)%:R.
have H (D : 'M[T]_n) : psum (D *m A *m D^T) =
    \det D * \sum_(g : Gt) \det (Fg g) * \prod_(i < k) A (g i).1 (g i).2.
  rewrite /psum.
  transitivity (\sum_(s : 'S_n) \sum_(g : Gt) (-1) ^+ s * (\prod_(x < n) D (s x) (ff g x) *
      \prod_(i < k) A (g i).1 (g i).2)).
    apply: eq_bigr => s _; rewrite -big_distrr; congr (_ * _).
    transitivity (\prod_(i < k) \sum_(p : 'I_n * 'I_n)
       (D (s (d i false)) p.1 * D (s (d i true)) p.2 * A p.1 p.2)).
      apply: eq_bigr => i _; rewrite mxE.
      transitivity (\sum_b \sum_a (D (s (d i false)) a * D (s (d i true)) b * A a b)).
        apply: eq_bigr => b _; rewrite !mxE big_distrl; apply: eq_bigr => a _ /=.
        by rewrite -mulrA [A a b * _]mulrC mulrA.
      by rewrite exchange_big pair_big.
    rewrite bigA_distr_bigA; apply: eq_bigr => g _; rewrite big_split; congr (_ * _).
    rewrite big_d; apply: eq_bigr => i _.
    by rewrite /ff !hd_d !odd_d.
  rewrite exchange_big big_distrr; apply: eq_bigr => g _ /=.
  rewrite mulrA -[\det D]det_tr mulrC [X in _ * X]mulrC -det_mulmx.
  rewrite mulrC [X in _ = X * _](_ : _ = \sum_(s : 'S_n) (-1) ^+ s * \prod_(x < n) D (s x) (ff g x)).
    by rewrite big_distrl; apply: eq_bigr => s _; rewrite mulrA.
  apply: eq_bigr => s _; congr (_ * _); apply: eq_bigr => x _; rewrite !mxE.
  rewrite (bigD1 (ff g x)) //= !mxE eqxx mul1r big1 ?addr0 // => y ny.
  by rewrite !mxE eq_sym (negbTE ny) mul0r.
rewrite H; have := H 1%:M; rewrite trmx1 mulmx1 mul1mx det1 mul1r => ->; by [].
Qed.

End Unnormalised.

(* ---------------- skew normal form ---------------- *)
Section Normal.
Variable F : fieldType.
Hypothesis two_neq0 : (2%:R : F) != 0.

Definition Ymx n (a : nat -> F) : 'M[F]_n := \matrix_(i, j)
  if ~~ odd i && (j == i.+1 :> nat) then a i./2
  else if ~~ odd j && (i == j.+1 :> nat) then - a j./2 else 0.

Lemma Ymx_tr n a : (Ymx n a)^T = - Ymx n a.
Proof.
apply/matrixP => i j; rewrite !mxE.
case: ifP => [/andP[h1 /eqP h2]|h1]; case: ifP => [/andP[h3 /eqP h4]|h3];
rewrite ?opprK ?oppr0 //; exfalso; lia.
Qed.

Definition K2 (c : F) : 'M[F]_2 := \matrix_(i, j) if (i < j)%N then c else if (j < i)%N then - c else 0.

Lemma K2_mul c e : K2 c *m K2 e = (- (c * e))%:M.
Proof.
apply/matrixP => i j; rewrite !mxE !big_ord_recl big_ord0 !mxE /=.
case: i => [[|[|i]] hi] //=; case: j => [[|[|j]] hj] //=;
by rewrite ?mulr0 ?mul0r ?add0r ?addr0 ?mulrN ?mulNr ?mulr0n ?mulr1n ?mulrN ?mulNr.
Qed.

Lemma det_K2 c : \det (K2 c) = c ^+ 2.
Proof.
rewrite (expand_det_row _ ord0) !big_ord_recl big_ord0 !mxE /= mul0r add0r addr0.
rewrite /cofactor det_mx11 !mxE /= expr1 mulN1r opprK expr2; by [].
Qed.

Lemma YmxS m (a : nat -> F) : Ymx (2 + m) a = block_mx (K2 (a 0%N)) 0 0 (Ymx m (fun i => a i.+1)).
Proof.
apply/matrixP => i j.
case: (splitP i) => i' ei; case: (splitP j) => j' ej.
- have -> : i = lshift m i' by apply: val_inj.
  have -> : j = lshift m j' by apply: val_inj.
  rewrite block_mxEul !mxE /=.
  by case: i' {ei} => [[|[|i']] hi] //; case: j' {ej} => [[|[|j']] hj].
- have -> : i = lshift m i' by apply: val_inj.
  have -> : j = rshift 2 j' by apply: val_inj.
  rewrite block_mxEur !mxE /=.
  by case: i' {ei} => [[|[|i']] hi] //=; rewrite ?andbF ?eqSS ?andbF.
- have -> : i = rshift 2 i' by apply: val_inj.
  have -> : j = lshift m j' by apply: val_inj.
  rewrite block_mxEdl !mxE /=.
  by case: j' {ej} => [[|[|j']] hj] //=; rewrite ?andbF ?eqSS ?andbF.
- have -> : i = rshift 2 i' by apply: val_inj.
  have -> : j = rshift 2 j' by apply: val_inj.
  by rewrite block_mxEdr !mxE /= !negbK !add2n !eqSS.
Qed.

Lemma det_Ymx k a : \det (Ymx k.*2 a) = (\prod_(i < k) a i) ^+ 2.
Proof.
elim: k a => [|k IH] a; first by rewrite det_mx00 big_ord0 expr1n.
rewrite doubleS -[k.*2.+2]/(2 + k.*2)%N YmxS det_ublock IH det_K2 big_ord_recl exprMn.
by congr (_ * _ ^+ 2).
Qed.

Lemma skew_diag n (A : 'M[F]_n) i : A^T = - A -> A i i = 0.
Proof.
move=> skA; have := congr1 (fun M : 'M_n => M i i) skA; rewrite !mxE => /eqP.
rewrite -addr_eq0 -mulr2n -mulr_natr mulf_eq0 (negbTE two_neq0) orbF; by move/eqP.
Qed.

Lemma skew_entry n (A : 'M[F]_n) i j : A^T = - A -> A i j = - A j i.
Proof. by move=> skA; have := congr1 (fun M : 'M_n => M j i) skA; rewrite !mxE. Qed.

Lemma skew_congr n (A B : 'M[F]_n) : A^T = - A -> (B *m A *m B^T)^T = - (B *m A *m B^T).
Proof. by move=> h; rewrite !trmx_mul trmxK h mulNmx mulmxN mulmxA. Qed.

Theorem skew_normal_form n (A : 'M[F]_n) : A^T = - A ->
  exists B : 'M[F]_n, exists a, B \in unitmx /\ B *m A *m B^T = Ymx n a.
Proof.
have [m] := ubnP n; elim: m n A => // m IH n A; rewrite ltnS => nm skA.
have [->|A0] := eqVneq A 0.
  exists 1%:M, (fun _ => 0); split; first exact: unitmx1.
  by rewrite mulmx0 mul0mx; apply/matrixP => i j; rewrite !mxE oppr0 !if_same.
have [i [j Aij]] : exists i j, A i j != 0.
  case: (pickP (fun p : 'I_n * 'I_n => A p.1 p.2 != 0)) => [[i j] h|h]; first by exists i, j.
  by case/eqP: A0; apply/matrixP => i j; have := h (i, j); rewrite mxE /= => /negbFE/eqP.
have ij : i != j by apply: contra_neq Aij => ->; rewrite skew_diag.
case: n A nm skA A0 i j Aij ij => [|[|n]] A nm skA A0 i j Aij ij; first by case: i ij Aij.
  by rewrite !ord1 eqxx in ij.
pose o0 : 'I_(2 + n) := lshift n ord0; pose o1 : 'I_(2 + n) := lshift n (lift ord0 ord0).
(* move i, j to 0, 1 *)
pose z := (tperm o0 i * tperm (tperm o0 i o1) j)%g.
have z0 : z o0 = i.
  rewrite permM tpermL tpermD //; last by rewrite eq_sym.
  by rewrite -(inj_eq (@perm_inj _ (tperm o0 i))) tpermK tpermR.
have z1 : z o1 = j by rewrite permM tpermL.
pose P := perm_mx z : 'M[F]_(2 + n).
have Pu : P \in unitmx by rewrite unitmx_perm.
pose A1 := P *m A *m P^T : 'M[F]_(2 + n).
have A1E x y : A1 x y = A (z x) (z y).
  by rewrite /A1 /P tr_perm_mx -col_permE -row_permE !mxE ?invgK.
have skA1 : A1^T = - A1 by exact: skew_congr.
have A1def : A1 = P *m A *m P^T by [].
clearbody A1.
pose c := A1 o0 o1.
have c0 : c != 0 by rewrite /c A1E z0 z1.
pose X := ursubmx A1; pose D := drsubmx A1.
have A1b : A1 = block_mx (K2 c) X (- X^T) D.
  rewrite -[A1]submxK; congr block_mx.
    apply/matrixP => x y; rewrite !mxE.
    have A1s u v := @skew_entry _ A1 u v skA1.
    case: x => [[|[|x]] hx] //; case: y => [[|[|y]] hy] //=.
    - by rewrite (bool_irrelevance hx hy) skew_diag.
    - by congr (A1 _ _); apply: val_inj.
    - by rewrite A1s; congr (- A1 _ _); apply: val_inj.
    - by rewrite (bool_irrelevance hx hy) skew_diag.
  by apply/matrixP => x y; rewrite /X !mxE (skew_entry _ _ skA1).
have Ku : K2 c \in unitmx by rewrite unitmxE det_K2 unitfE expf_neq0.
pose L := X^T *m K2 (- c^-1).
have LK : L *m K2 c = X^T by rewrite -mulmxA K2_mul mulNr opprK mulVf // mulmx1.
have KL : K2 c *m L^T = - X.
  rewrite trmx_mul trmxK mulmxA.
  have -> : (K2 (- c^-1))^T = K2 (c^-1).
    by apply/matrixP => x y; rewrite !mxE; case: ltngtP; rewrite ?opprK.
  by rewrite K2_mul mulfV // mul_scalar_mx scaleN1r.
pose B1 : 'M[F]_(2 + n) := block_mx 1%:M 0 L 1%:M.
have B1u : B1 \in unitmx by rewrite unitmxE det_lblock !det1 mulr1 unitr1.
pose D' := D + L *m X.
have E1 : B1 *m A1 *m B1^T = block_mx (K2 c) 0 0 D'.
  rewrite A1b /B1 tr_block_mx !trmx1 trmx0 !mulmx_block !mul1mx !mul0mx !mulmx1 !mulmx0 ?addr0 ?add0r.
  rewrite LK addrN mul0mx ?addr0 KL addNr ?add0r.
  by congr block_mx; rewrite addrC.
have skD' : D'^T = - D'.
  have := skew_congr B1 skA1; rewrite E1 tr_block_mx opp_block_mx => /eq_block_mx [_ _ _ ->]; by [].
have [B2 [a [B2u E2]]] := IH n D' (leq_trans (leqnSn _) nm) skD'.
pose B3 : 'M[F]_(2 + n) := block_mx 1%:M 0 0 B2.
have B3u : B3 \in unitmx by rewrite unitmxE det_lblock det1 mul1r -unitmxE.
exists (B3 *m B1 *m P), (fun i => if i is i'.+1 then a i' else c); split.
  by rewrite !unitmx_mul B3u B1u Pu.
have -> : (B3 *m B1 *m P) *m A *m (B3 *m B1 *m P)^T = B3 *m (B1 *m A1 *m B1^T) *m B3^T.
  by rewrite A1def !trmx_mul !mulmxA.
rewrite E1 /B3 tr_block_mx !trmx1 !trmx0 !mulmx_block !mul1mx !mul0mx !mulmx1 !mulmx0 ?addr0 ?add0r.
by rewrite E2 ?mulmx0 ?mul0mx ?addr0 ?add0r YmxS.
Qed.

End Normal.


(* ---------------- pfaffian of the normal form ---------------- *)
Section PfY.
Variable F : fieldType.

Lemma no_perfect_odd n (M : {set {set 'I_n}}) : odd n -> ~~ perfect_matching M.
Proof. by move=> on; apply/negP => /card_perfect e; rewrite -e odd_double in on. Qed.

Lemma pfaffian_odd n (A : 'M[F]_n) : odd n -> pfaffian A = 0.
Proof. by move=> on; rewrite /pfaffian big_pred0 // => M; apply/negbTE/no_perfect_odd. Qed.

Lemma hafnian_odd n (A : 'M[F]_n) : odd n -> hafnian A = 0.
Proof. by move=> on; rewrite /hafnian big_pred0 // => M; apply/negbTE/no_perfect_odd. Qed.

Lemma e_of1 k (i : 'I_k) : e_of 1%g i = (d i false, d i true).
Proof. by rewrite /e_of !perm1 /= ltnSn. Qed.

Lemma pfaffian_Ymx k (a : nat -> F) : pfaffian (Ymx k.*2 a) = \prod_(i < k) a i.
Proof.
rewrite /pfaffian (bigD1 (mof 1%g)) ?mof_perfect //= [X in _ + X]big1 ?addr0.
  rewrite /mweight big_edge.
  have -> : crossings (mof (1%g : 'S_(k.*2))) = 0%N.
    rewrite /crossings (@big_edge _ _ _ [com_law of addn] _ (fun e => \sum_(f | edge (mof 1%g) f)
     ((e.1 < f.1) && (f.1 < e.2) && (e.2 < f.2)))%N) big1 // => i _.
    rewrite (@big_edge _ _ _ [com_law of addn] _ (fun f => crossb (e_of 1%g i) f : nat)) big1 // => j _.
    rewrite !e_of1 /crossb /= !add0n !add1n ltnS; case: ltngtP => //= h.
  rewrite expr0 mul1r; apply: eq_bigr => i _; rewrite e_of1 mxE /= add0n add1n odd_double eqxx /=.
  by rewrite doubleK.
move=> M /andP[PM nM]; have [s E] := mof_surj PM; subst M; rewrite /mweight big_edge.
have [/forallP H|] := boolP [forall i, Ymx k.*2 a (e_of s i).1 (e_of s i).2 != 0]; last first.
  by rewrite negb_forall => /existsP[i /negPn/eqP e]; rewrite (bigD1 i) //= e mul0r mulr0.
exfalso; case/negP: nM; rewrite eqEcard.
rewrite -[X in (X <= _)%N]doubleK -[X in (_ <= X)%N]doubleK !card_perfect ?mof_perfect // leqnn andbT.
apply/subsetP => B /imsetP[i _ ->]; rewrite -e_of_set.
have := H i; have := e_of_lt s i; case: (e_of s i) => x y /= xy; rewrite mxE.
case: ifP => [/andP[ox /eqP ey] _|_].
  apply/imsetP; exists (hd x) => //; rewrite !perm1 -{1}(dK x) (negbTE ox); congr [set _; _].
  apply: val_inj; rewrite /= ey -{1}(odd_double_half x) (negbTE ox); by rewrite add0n add1n.
case: ifP => [/andP[_ /eqP ex] _|]; last by rewrite eqxx.
by rewrite ex ltnNge leqnSn in xy.
Qed.

End PfY.

Section PfField.
Variable F : numFieldType.

Lemma fact2_neq0 k : ((2 ^ k * k`!)%N%:R : F) != 0.
Proof. by rewrite pnatr_eq0 muln_eq0 expn_eq0 /= -lt0n fact_gt0. Qed.

Lemma pfaffian_congr n (A B : 'M[F]_n) : A^T = - A ->
  pfaffian (B *m A *m B^T) = \det B * pfaffian A.
Proof.
move=> skA; have [on|en] := boolP (odd n); first by rewrite !pfaffian_odd // mulr0.
have [k ek] : exists k, n = k.*2 by exists n./2; rewrite -[LHS](odd_double_half n) (negbTE en).
subst n; have := psum_congr A B; rewrite !psumE ?skew_congr // mulrnAr -[LHS]mulr_natr -[RHS]mulr_natr.
by move/(mulIf (fact2_neq0 k)).
Qed.

Lemma two_neq0 : (2%:R : F) != 0. Proof. by rewrite pnatr_eq0. Qed.

Theorem pfaffian_sqr n (A : 'M[F]_n) : A^T = - A -> pfaffian A ^+ 2 = \det A.
Proof.
move=> skA; have [on|en] := boolP (odd n).
  rewrite pfaffian_odd // expr2 mul0r; have := congr1 determinant skA.
  rewrite det_tr -scaleN1r detZ -signr_odd on expr1 mulN1r => /eqP.
  by rewrite -addr_eq0 -mulr2n -mulr_natr mulf_eq0 (negbTE two_neq0) orbF => /eqP ->.
have [k ek] : exists k, n = k.*2 by exists n./2; rewrite -[LHS](odd_double_half n) (negbTE en).
subst n; have [B [a [Bu E]]] := skew_normal_form two_neq0 skA.
have e1 := pfaffian_congr B skA; rewrite E pfaffian_Ymx in e1.
have e2 := congr1 determinant E; rewrite det_Ymx !det_mulmx det_tr e1 exprMn in e2.
have Bn : \det B ^+ 2 != 0 by rewrite expf_neq0 // -unitfE -unitmxE.
apply: (mulfI Bn); rewrite -e2 expr2 -mulrA [\det A * _]mulrC mulrA; by [].
Qed.

(* ---------------- the model's pf and hf ---------------- *)
Lemma match_pairs_ok (A : arr F) k (s : 'S_(k.*2)) : nr A = k.*2 -> nc A = k.*2 ->
  prod_entries A (match_pairs (plist s) k) =
  Ok (\prod_(i < k) toM k.*2 k.*2 A (s (d i false)) (s (d i true))).
Proof.
move=> er ec.
have nd (i : 'I_k) (e : bool) : nth 0%N (plist s) (e + i.*2) = s (d i e) by rewrite -[(e + i.*2)%N]/(val (d i e)) nth_plist.
have E : match_pairs (plist s) k = [seq (val (s (d i false)), val (s (d i true))) | i <- enum 'I_k].
  rewrite /match_pairs -(val_enum_ord k) -map_comp; apply: eq_map => i /=.
  by rewrite mul2n addnC -[X in (nth _ _ X, _)]add0n !(nd i false, nd i true).
rewrite E prod_entries_ok; last by apply/allP => e /mapP[i _ ->] /=; rewrite er ec !ltn_ord.
by rewrite big_map big_enum /=; congr Ok; apply: eq_bigr => i _; rewrite mxE.
Qed.

Lemma pf_psum (A : arr F) k : nr A = k.*2 -> nc A = k.*2 ->
  pf A = Ok (psum (toM k.*2 k.*2 A) / (2 ^ k * k`!)%N%:R).
Proof.
move=> er ec; rewrite /pf er modn2 odd_double /= divn2 doubleK.
pose g (p : seq nat) := (sgn p)%:~R * \prod_(e <- match_pairs p k) get A e.1 e.2.
have H p : p \in perms (iota 0 k.*2) ->
   prod_entries A (match_pairs p k) = Ok (\prod_(e <- match_pairs p k) get A e.1 e.2).
  rewrite mem_perms ?iota_uniq // => /plist_surj [s ->]; apply: prod_entries_ok.
  apply/allP => e /mapP[i]; rewrite mem_iota /= add0n => hi -> /=.
  have h1 : (2 * i < k.*2)%N by lia.
  have h2 : (2 * i + 1 < k.*2)%N by lia.
  rewrite -[X in (nth _ _ X < _)%N]/(val (Ordinal h1)) -[X in (_ < _)%N && (nth _ _ X < _)%N]/(val (Ordinal h2)).
  by rewrite !nth_plist er ec !ltn_ord.
have -> : forall a l, {subset l <= perms (iota 0 k.*2)} -> foldM (fun acc p =>
    let* w := prod_entries A (match_pairs p k) in Ok (acc + (sgn p)%:~R * w)) a l = Ok (a + \sum_(p <- l) g p).
  move=> a l; elim: l a => [|p l IH] a Hl /=; first by rewrite big_nil addr0.
  rewrite H /=; last by apply: Hl; rewrite mem_head.
  by rewrite IH ?big_cons ?addrA // => x xl; apply: Hl; rewrite in_cons xl orbT.
- rewrite add0r sum_perms /=; congr (Ok (_ / _)); apply: eq_bigr => s _.
  rewrite /g sgn_signr; congr (_ * _).
  have := match_pairs_ok s er ec; rewrite H; first by case.
  by rewrite mem_perms ?iota_uniq ?plist_perm.
- by [].
Qed.

Lemma hf_hsum (A : arr F) k : nr A = k.*2 -> nc A = k.*2 ->
  hf A = Ok (hsum (toM k.*2 k.*2 A) / (2 ^ k * k`!)%N%:R).
Proof.
move=> er ec; rewrite /hf er modn2 odd_double /= divn2 doubleK.
rewrite (foldM_sum (g := fun p => \prod_(e <- match_pairs p k) get A e.1 e.2)) /=.
  rewrite add0r sum_perms /=; congr (Ok (_ / _)); apply: eq_bigr => s _.
  have := match_pairs_ok s er ec; rewrite prod_entries_ok; first by case.
  apply/allP => e /mapP[i]; rewrite mem_iota /= add0n => hi -> /=.
  have h1 : (2 * i < k.*2)%N by lia.
  have h2 : (2 * i + 1 < k.*2)%N by lia.
  rewrite -[X in (nth _ _ X < _)%N]/(val (Ordinal h1)) -[X in (_ < _)%N && (nth _ _ X < _)%N]/(val (Ordinal h2)).
  by rewrite !nth_plist er ec !ltn_ord.
move=> p; rewrite mem_perms ?iota_uniq // => /plist_surj [s ->]; apply: prod_entries_ok.
apply/allP => e /mapP[i]; rewrite mem_iota /= add0n => hi -> /=.
have h1 : (2 * i < k.*2)%N by lia.
have h2 : (2 * i + 1 < k.*2)%N by lia.
rewrite -[X in (nth _ _ X < _)%N]/(val (Ordinal h1)) -[X in (_ < _)%N && (nth _ _ X < _)%N]/(val (Ordinal h2)).
by rewrite !nth_plist er ec !ltn_ord.
Qed.

Lemma pf_pfaffian (A : arr F) n : nr A = n -> nc A = n -> (toM n n A)^T = - toM n n A ->
  pf A = Ok (pfaffian (toM n n A)).
Proof.
move=> er ec skA; have [on|en] := boolP (odd n).
  by rewrite pfaffian_odd // /pf er modn2 on.
have [k ek] : exists k, n = k.*2 by exists n./2; rewrite -[LHS](odd_double_half n) (negbTE en).
rewrite ek in ec skA *; rewrite ek in er.
by rewrite (pf_psum er ec) psumE // -mulr_natr mulfK // fact2_neq0.
Qed.

Lemma hf_hafnian (A : arr F) n : nr A = n -> nc A = n -> (toM n n A)^T = toM n n A ->
  hf A = Ok (hafnian (toM n n A)).
Proof.
move=> er ec skA; have [on|en] := boolP (odd n).
  by rewrite hafnian_odd // /hf er modn2 on.
have [k ek] : exists k, n = k.*2 by exists n./2; rewrite -[LHS](odd_double_half n) (negbTE en).
rewrite ek in ec skA *; rewrite ek in er.
by rewrite (hf_hsum er ec) hsumE // -mulr_natr mulfK // fact2_neq0.
Qed.

End PfField.
