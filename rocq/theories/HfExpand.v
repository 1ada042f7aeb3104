(* HfExpand.v -- expansions of the hafnian and of the permanent along the first row, direct sums of pf, hf and pt *)
Set Warnings "-notation-overridden,-ambiguous-paths".
From mathcomp Require Import all_ssreflect all_fingroup all_algebra.
From mathcomp.zify Require Import zify.
From Verif Require Import Base MCombinatorics CombPerm Matching Pfaffian PfExpand.
Set Implicit Arguments.
Unset Strict Implicit.
Unset Printing Implicit Defensive.
Import GRing.Theory Num.Theory.
Local Open Scope ring_scope.

Section Expand.
Variables (T : comRingType) (k : nat).
Local Notation n := (k.*2).
Local Notation n2 := (k.+1.*2).
Implicit Types A : 'M[T]_n2.

Definition hterm A (s : 'S_n2) : T := \prod_(i < k.+1) A (s (@d k.+1 i false)) (s (@d k.+1 i true)).

Lemma minor2_sym A j : A^T = A -> (minor2 A j)^T = minor2 A j.
Proof. by move=> h; apply/matrixP => a b; rewrite !mxE -[A in LHS]h !mxE. Qed.

Lemma hterm_mof A (s t : 'S_n2) : A^T = A -> @mof k.+1 s = @mof k.+1 t -> hterm A s = hterm A t.
Proof.
move=> skA e.
have H (u : 'S_(k.+1.*2)) : hterm A u = mweight A (mof u).
  rewrite /hterm /mweight big_edge; apply: eq_bigr => i _; rewrite /e_of; case: ifP => //= _.
  by rewrite -{1}skA mxE.
by rewrite !H e.
Qed.

Lemma hterm_pos A (x : 'I_n2) : A^T = A ->
  \sum_(s : 'S_n2 | s x == (ord0 : 'I_n.+2)) hterm A s = \sum_(s : 'S_n2 | s ord0 == (ord0 : 'I_n.+2)) hterm A s.
Proof.
move=> skA; have [i [e ex]] := @dP k.+1 x; have e0 : (ord0 : 'I_n.+2) = @d k.+1 ord0 false by apply: val_inj.
pose pf : {perm 'I_k.+1} * {ffun 'I_k.+1 -> bool} := (tperm ord0 i, [ffun => e]).
pose h (s : 'S_n2) : 'S_n2 := @act k.+1 s pf.
have hE s : h s (ord0 : 'I_n.+2) = s x by rewrite {1}e0 /h actE /= tpermL ffunE ex.
have hi : injective h.
  move=> s t E; apply/permP => y; have [j [b ->]] := @dP k.+1 y.
  have := congr1 (fun u : 'S_n2 => u (@d k.+1 (tperm ord0 i j) (b (+) e))) E.
  by rewrite /h !actE /= !ffunE tpermK addbK.
rewrite [RHS](reindex h) /=; last exact: onW_bij (injF_bij hi).
by apply: eq_big => [s|s _]; [rewrite hE|apply: hterm_mof => //; rewrite /h mof_act].
Qed.

Lemma hsum_first A : A^T = A ->
  @hsum T k.+1 A = (\sum_(s : 'S_n2 | s ord0 == (ord0 : 'I_n.+2)) hterm A s) *+ k.+1.*2.
Proof.
move=> skA; rewrite /hsum (partition_big (fun s : 'S_n2 => s^-1%g (ord0 : 'I_n.+2)) xpredT) //=.
rewrite -[X in _ *+ X](card_ord n2) -sumr_const; apply: eq_bigr => x _.
rewrite -(hterm_pos x skA); apply: eq_bigl => s.
by rewrite (canF_eq (permKV s)) eq_sym.
Qed.

Lemma hsum_fix A : \sum_(s : 'S_n2 | s ord0 == (ord0 : 'I_n.+2)) hterm A s =
  \sum_(j < n.+1) A (ord0 : 'I_n.+2) (lift (ord0 : 'I_n.+2) j) * hsum (minor2 A j).
Proof.
rewrite sum_perm_fix (partition_big (fun t : 'S_n.+1 => t ord0) xpredT) //=.
apply: eq_bigr => j _; rewrite sum_perm_fix big_distrr /=; apply: eq_bigr => u _.
have e0 : @d k.+1 ord0 false = ord0 by apply: val_inj.
have e1 : @d k.+1 ord0 true = lift ord0 ord0 by apply: val_inj.
rewrite [hterm _ _]/hterm big_ord_recl e0 e1 lift_perm_id !lift_perm_lift lift_perm_id; congr (_ * _).
by apply: eq_bigr => i _; rewrite !d_lift !lift_perm_lift mxE.
Qed.
End Expand.

Theorem hafnian_expand (F : numFieldType) k (A : 'M[F]_(k.+1.*2)) : A^T = A ->
  hafnian A = \sum_(j < k.*2.+1) A (ord0 : 'I_k.*2.+2) (lift (ord0 : 'I_k.*2.+2) j) * hafnian (minor2 A j).
Proof.
move=> skA; have := hsum_first skA; rewrite hsum_fix hsumE //.
rewrite (eq_bigr (fun j : 'I_k.*2.+1 => (A (ord0 : 'I_k.*2.+2) (lift (ord0 : 'I_k.*2.+2) j) * hafnian (minor2 A j)) *+ (2 ^ k * k`!))).
  rewrite sumrMnl -mulrnA => /(congr1 (fun x => x / (2 ^ k * k`! * k.+1.*2)%:R)).
  have -> : (2 ^ k.+1 * k.+1`! = 2 ^ k * k`! * k.+1.*2)%N by rewrite factS expnS -muln2; lia.
  rewrite -[X in X / _ = _]mulr_natr -[X in _ = X / _]mulr_natr !mulfK // pnatr_eq0 -lt0n;
    by rewrite !muln_gt0 expn_gt0 fact_gt0.
by move=> j _; rewrite hsumE; [rewrite mulrnAr|exact: minor2_sym].
Qed.

(* ---------------------------------------------------------------- *)
(* signed expansion over lists of indices: e = -1 for pf, e = 1 for hf *)
Section Lists.
Variables (F : comRingType) (e : F) (f : nat -> nat -> F).

Definition rm (j : nat) (l : seq nat) : seq nat := take j l ++ drop j.+1 l.
Fixpoint lsum (k : nat) (l : seq nat) : F :=
  match k, l with
  | 0, _ => 1
  | k'.+1, [::] => 0
  | k'.+1, x :: r => \sum_(j < size r) e ^+ j * f x (nth 0%N r j) * lsum k' (rm j r)
  end.

Lemma size_rm j (l : seq nat) : (j < size l)%N -> size (rm j l) = (size l).-1.
Proof. by move=> h; rewrite size_cat size_take size_drop h; lia. Qed.
Lemma nth_rm j l a : nth 0%N (rm j l) a = nth 0%N l (bump j a).
Proof.
rewrite /rm nth_cat size_take /bump; case: (ltnP j (size l)) => h.
  case: (ltnP a j) => h2; first by rewrite nth_take // leqNgt h2.
  by rewrite nth_drop; congr (nth _ _ _); lia.
rewrite take_oversize // drop_oversize; last lia.
case: (ltnP a (size l)) => h2; first by rewrite leqNgt (leq_trans h2 h).
by rewrite nth_nil nth_default //; lia.
Qed.
Lemma rm_cat j l1 l2 : (j < size l1)%N -> rm j (l1 ++ l2) = rm j l1 ++ l2.
Proof.
move=> h; rewrite /rm takel_cat; last lia.
rewrite drop_cat; case: ltnP => h2; first by rewrite -catA.
by have -> : (j.+1 = size l1)%N; [lia|rewrite drop_size subnn drop0 cats0].
Qed.
Lemma mem_rm j l x : x \in rm j l -> x \in l.
Proof. by rewrite mem_cat => /orP[/mem_take|/mem_drop]. Qed.

(* no entries between the two parts *)
Lemma lsum_cat k (l1 l2 : seq nat) : (forall x y, x \in l1 -> y \in l2 -> f x y = 0) -> size (l1 ++ l2) = k.*2 ->
  lsum k (l1 ++ l2) = if odd (size l1) then 0 else lsum (size l1)./2 l1 * lsum (size l2)./2 l2.
Proof.
elim: k l1 l2 => [|k IH] l1 l2 z.
  by case: l1 z => [|x l1] z //=; case: l2 z => //=; rewrite mulr1.
case: l1 z => [|x r] z; first by rewrite /= mul1r => ->; rewrite doubleK.
rewrite size_cat /= => sz.
rewrite size_cat big_split_ord /= addrC big1 ?add0r => [|j _]; last first.
  rewrite nth_cat ltnNge leq_addr /= addKn z ?mulr0 ?mul0r ?mem_nth ?inE ?eqxx //.
case or: (odd (size r)) => /=; last first.
  rewrite big1 // => j _; have hj := ltn_ord j; rewrite nth_cat hj rm_cat // IH.
  - by rewrite size_rm // ifT ?mulr0 //; lia.
  - by move=> a b ha hb; apply: z => //; rewrite inE (mem_rm ha) orbT.
  by rewrite size_cat size_rm // -[LHS]/((size r).-1 + size l2)%N; move: sz hj; clear; lia.
have [m em] : exists m, size r = m.*2.+1 by exists (size r)./2; rewrite -{1}[size r]odd_double_half or.
have -> : uphalf (size r) = m.+1 by rewrite em /= doubleK.
rewrite [lsum m.+1 _]/= big_distrl /=; apply: eq_bigr => j _; have hj := ltn_ord j.
rewrite nth_cat hj rm_cat // IH; last first.
- by rewrite size_cat size_rm // -[LHS]/((size r).-1 + size l2)%N; move: sz hj; clear; lia.
- by move=> a b ha hb; apply: z => //; rewrite inE (mem_rm ha) orbT.
have -> : size (rm j r) = m.*2 by rewrite size_rm // em.
by rewrite odd_double doubleK mulrA.
Qed.
End Lists.

Definition lmat (F : Type) n (f : nat -> nat -> F) (l : seq nat) : 'M[F]_n := \matrix_(i, j) f (nth 0%N l i) (nth 0%N l j).

Lemma minor2_lmat (F : comRingType) k f x r (j : 'I_k.*2.+1) :
  minor2 (lmat k.+1.*2 f (x :: r) : 'M[F]_(k.+1.*2)) j = lmat k.*2 f (rm j r).
Proof. by apply/matrixP => a b; rewrite !mxE /= !nth_rm. Qed.

Section Num.
Variable F : numFieldType.
Lemma hafnian0 (A : 'M[F]_(0.*2)) : hafnian A = 1.
Proof.
have := @hsumE F 0 A; rewrite /hsum (big_pred1 1%g) => [|s]; last by apply/esym/eqP/permP => -[].
by rewrite big_ord0 => h; rewrite h ?mulr1n //; apply/matrixP => -[].
Qed.
Lemma pfaffian0 (A : 'M[F]_(0.*2)) : pfaffian A = 1.
Proof.
have := @psumE F 0 A; rewrite /psum (big_pred1 1%g) => [|s]; last by apply/esym/eqP/permP => -[].
by rewrite big_ord0 odd_perm1 mulr1 expr0 => h; rewrite h ?mulr1n //; apply/matrixP => -[].
Qed.

Lemma hafnian_lsum k (f : nat -> nat -> F) l : size l = k.*2 -> (lmat k.*2 f l)^T = lmat k.*2 f l ->
  hafnian (lmat k.*2 f l) = lsum 1 f k l.
Proof.
elim: k l => [|k IH] l sl sA; first by rewrite hafnian0.
case: l sl sA => [|x r] // [sr] sA; rewrite hafnian_expand // [RHS]/= sr.
apply: eq_bigr => j _; rewrite expr1n mul1r minor2_lmat mxE /=; congr (_ * _).
by rewrite -IH ?size_rm ?sr //; rewrite -(@minor2_lmat F k f x r j) minor2_sym.
Qed.
Lemma pfaffian_lsum k (f : nat -> nat -> F) l : size l = k.*2 -> (lmat k.*2 f l)^T = - lmat k.*2 f l ->
  pfaffian (lmat k.*2 f l) = lsum (-1) f k l.
Proof.
elim: k l => [|k IH] l sl sA; first by rewrite pfaffian0.
case: l sl sA => [|x r] // [sr] sA; rewrite pfaffian_expand // [RHS]/= sr.
apply: eq_bigr => j _; rewrite minor2_lmat mxE /=; congr (_ * _).
by rewrite -IH ?size_rm ?sr //; rewrite -(@minor2_lmat F k f x r j) minor2_skew.
Qed.
End Num.

(* ---------------------------------------------------------------- *)
(* direct sums                                                       *)
Section Sums.
Variable F : numFieldType.

Lemma even_dbl n : ~~ odd n -> exists k, n = k.*2.
Proof. by move=> h; exists n./2; rewrite -[LHS]odd_double_half (negbTE h). Qed.

(* entry function of a direct sum; indices of the second summand are shifted by m *)
Definition dsf m n (A : 'M[F]_m) (B : 'M[F]_n) (i j : nat) : F := get (ofM (block_mx A 0 0 B)) i j.

Lemma dsf_get n (A : 'M[F]_n) (i j : 'I_n) : get (ofM A) i j = A i j.
Proof. by rewrite /get !valK. Qed.

Lemma lmat_iota n (A : 'M[F]_n) : A = lmat n (fun i j => get (ofM A) i j) (iota 0 n).
Proof. by apply/matrixP => i j; rewrite !mxE !nth_iota // !add0n /get !valK. Qed.

Lemma lmat_left m n (A : 'M[F]_m) (B : 'M[F]_n) : lmat m (dsf A B) (iota 0 m) = A.
Proof.
apply/matrixP => i j; rewrite [LHS]mxE !nth_iota // !add0n /dsf.
by rewrite (dsf_get _ (lshift n i) (lshift n j)) block_mxEul.
Qed.
Lemma lmat_right m n (A : 'M[F]_m) (B : 'M[F]_n) : lmat n (dsf A B) (iota m n) = B.
Proof.
apply/matrixP => i j; rewrite [LHS]mxE !nth_iota // /dsf.
by rewrite (dsf_get _ (rshift m i) (rshift m j)) block_mxEdr.
Qed.
Lemma dsf0 m n (A : 'M[F]_m) (B : 'M[F]_n) x y : x \in iota 0 m -> y \in iota m n -> dsf A B x y = 0.
Proof.
rewrite !mem_iota /= add0n => hx /andP[h1 h2]; have hy : (y - m < n)%N by lia.
have -> : y = rshift m (Ordinal hy) by rewrite /=; lia.
by rewrite /dsf (dsf_get _ (lshift n (Ordinal hx)) (rshift m (Ordinal hy))) block_mxEur mxE.
Qed.

Lemma sum_even m n (E : 'M[F]_(m + n) -> F) (e : F) (A : 'M[F]_m) (B : 'M[F]_n) (EA : 'M[F]_m -> F) (EB : 'M[F]_n -> F) :
  ~~ odd (m + n) ->
  (E (block_mx A 0 0 B) = lsum e (dsf A B) (m + n)./2 (iota 0 (m + n))) ->
  (odd m -> EA A = 0) ->
  (~~ odd m -> EA A = lsum e (dsf A B) m./2 (iota 0 m)) ->
  (~~ odd n -> EB B = lsum e (dsf A B) n./2 (iota m n)) ->
  E (block_mx A 0 0 B) = EA A * EB B.
Proof.
move=> ev -> ho hA hB; rewrite iotaD add0n lsum_cat; last first.
- by rewrite size_cat !size_iota -[LHS]odd_double_half (negbTE ev).
- exact: dsf0.
rewrite !size_iota; case: ifP => om; first by rewrite ho // mul0r.
by rewrite hA ?om // hB //; move: ev; rewrite oddD om.
Qed.

Theorem hafnian_dsum m n (A : 'M[F]_m) (B : 'M[F]_n) : A^T = A -> B^T = B ->
  hafnian (block_mx A 0 0 B) = hafnian A * hafnian B.
Proof.
move=> sA sB; case: (boolP (odd (m + n))) => [o|ev].
  rewrite hafnian_odd //; move: o; rewrite oddD; case om: (odd m) => /= on; last by rewrite (hafnian_odd B on) mulr0.
  by rewrite (hafnian_odd A om) mul0r.
have H p (l : seq nat) (M : 'M[F]_p) f : M^T = M -> size l = p -> M = lmat p f l -> ~~ odd p -> hafnian M = lsum 1 f p./2 l.
  by move=> sM sl e /even_dbl[k ek]; rewrite ek in M sM sl e *; rewrite doubleK e -hafnian_lsum // -e.
apply: (sum_even (e := 1)) => // [|o|o|o].
- apply: H => //; [by rewrite tr_block_mx !trmx0 sA sB|by rewrite size_iota|exact: lmat_iota].
- exact: hafnian_odd.
- by apply: H => //; rewrite ?size_iota ?lmat_left.
by apply: H => //; rewrite ?size_iota ?lmat_right.
Qed.

Theorem pfaffian_dsum m n (A : 'M[F]_m) (B : 'M[F]_n) : A^T = - A -> B^T = - B ->
  pfaffian (block_mx A 0 0 B) = pfaffian A * pfaffian B.
Proof.
move=> sA sB; case: (boolP (odd (m + n))) => [o|ev].
  rewrite pfaffian_odd //; move: o; rewrite oddD; case om: (odd m) => /= on; last by rewrite (pfaffian_odd B on) mulr0.
  by rewrite (pfaffian_odd A om) mul0r.
have H p (l : seq nat) (M : 'M[F]_p) f : M^T = - M -> size l = p -> M = lmat p f l -> ~~ odd p -> pfaffian M = lsum (-1) f p./2 l.
  by move=> sM sl e /even_dbl[k ek]; rewrite ek in M sM sl e *; rewrite doubleK e -pfaffian_lsum // -e.
apply: (sum_even (e := -1)) => // [|o|o|o].
- by apply: H => //; [rewrite tr_block_mx !trmx0 sA sB opp_block_mx !oppr0|rewrite size_iota|exact: lmat_iota].
- exact: pfaffian_odd.
- by apply: H => //; rewrite ?size_iota ?lmat_left.
by apply: H => //; rewrite ?size_iota ?lmat_right.
Qed.

(* hafnian under simultaneous permutations and under row and column scalings *)
Lemma hsum_perm (T : comRingType) k (A : 'M[T]_(k.*2)) (s : 'S_(k.*2)) : hsum (row_perm s (col_perm s A)) = hsum A.
Proof.
rewrite /hsum [RHS](reindex_inj (mulIg s)) /=; apply: eq_bigr => t _; apply: eq_bigr => i _.
by rewrite !mxE !permM.
Qed.
Lemma hsum_scale (T : comRingType) k (A : 'M[T]_(k.*2)) (c : 'I_(k.*2) -> T) :
  hsum (\matrix_(i, j) (c i * A i j * c j)) = (\prod_i c i) * hsum A.
Proof.
rewrite /hsum big_distrr; apply: eq_bigr => s _ /=.
rewrite (reindex_inj (@perm_inj _ s)) /= big_d -big_split /=; apply: eq_bigr => i _.
by rewrite mxE /= -!mulrA; congr (_ * _); rewrite mulrC.
Qed.
End Sums.
