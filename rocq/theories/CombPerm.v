(* CombPerm.v -- the permutation list, the sign, and the sums over permutations. *)
Set Warnings "-notation-overridden,-ambiguous-paths".
From mathcomp Require Import all_ssreflect all_fingroup all_algebra.
From Verif Require Import Base MCombinatorics.
Set Implicit Arguments.
Unset Strict Implicit.
Unset Printing Implicit Defensive.
Import GRing.Theory Num.Theory.
Local Open Scope ring_scope.

(* ---------- the list of permutations ---------- *)
Lemma mem_picks (T : eqType) (l : seq T) x r : (x, r) \in picks l -> perm_eq (x :: r) l.
Proof.
elim: l r => [|y l IH] r //=; rewrite in_cons => /orP[/eqP[-> ->]//|/mapP[[a b] ab [ea ->]]].
have {IH} H := IH b; rewrite -(perm_cons y) /= ea in H; rewrite ea; apply: perm_trans (H ab).
by rewrite -cat1s -[y :: a :: b]cat1s -[a :: b]cat1s -[y :: b]cat1s perm_catCA.
Qed.

Lemma picks_fst (T : eqType) (l : seq T) : map fst (picks l) = l.
Proof. by elim: l => [|y l IH] //=; rewrite -map_comp /= -[in RHS]IH; congr cons; apply: eq_map. Qed.

Lemma perms_recP (T : eqType) k (l : seq T) : size l = k -> uniq l ->
  uniq (perms_rec k l) /\ (forall q, q \in perms_rec k l = perm_eq q l).
Proof.
elim: k l => [|k IH] l sl ul.
  split=> // q; rewrite (size0nil sl) inE perm_sym; case: q => [|x q] //.
  by apply/esym/negbTE/negP => /perm_size.
have pk x r : (x, r) \in picks l -> size r = k /\ uniq r /\ x \notin r.
  move=> /mem_picks H; have := perm_size H; rewrite sl /= => -[->].
  by have := perm_uniq H; rewrite ul /= => /andP[-> ->].
split.
  rewrite /=; have: uniq (map fst (picks l)) by rewrite picks_fst.
  have: {subset picks l <= picks l} by [].
  elim: {-2}(picks l) => [|[x r] L IHL] //= sub /andP[xL uL].
  have [sr [ur xr]] := pk _ _ (sub _ (mem_head _ _)).
  rewrite cat_uniq map_inj_uniq; last by move=> a b [].
  rewrite (proj1 (IH r sr ur)) /= IHL // ?andbT; last by move=> z zL; apply: sub; rewrite in_cons zL orbT.
  apply/hasPn => q /flattenP[s /mapP[[y r'] yL ->] /= /mapP[q' _ ->]].
  apply/mapP => -[q'' _ [exy _]]; case/negP: xL; rewrite -exy; exact: (map_f fst yL).
move=> q; apply/flattenP/idP => [[s /mapP[[x r] xr ->] /= /mapP[q' q'r ->]]|].
  have [sr [ur _]] := pk _ _ xr.
  rewrite (perm_trans _ (mem_picks xr)) // perm_cons.
  by rewrite (proj2 (IH r sr ur)) in q'r.
case: q => [/perm_size|x q H]; first by rewrite sl.
have : x \in map fst (picks l) by rewrite picks_fst -(perm_mem H) mem_head.
move=> /mapP[[x' r] xr /= ex]; subst x'.
have [sr [ur _]] := pk _ _ xr.
exists [seq x :: q | q <- perms_rec k r]; first by apply/mapP; exists (x, r).
apply/mapP; exists q => //; rewrite (proj2 (IH r sr ur)).
by rewrite -(perm_cons x) (perm_trans H) // perm_sym mem_picks.
Qed.

Lemma perms_uniq (T : eqType) (l : seq T) : uniq l -> uniq (perms l).
Proof. by move=> ul; case: (perms_recP (erefl (size l)) ul). Qed.
Lemma mem_perms (T : eqType) (l q : seq T) : uniq l -> (q \in perms l) = perm_eq q l.
Proof. by move=> ul; case: (perms_recP (erefl (size l)) ul). Qed.

(* the list [s 0, s 1, ..., s (n-1)] of a permutation s *)
Definition plist n (s : 'S_n) : seq nat := [seq val (s i) | i <- enum 'I_n].

Lemma size_plist n (s : 'S_n) : size (plist s) = n.
Proof. by rewrite size_map size_enum_ord. Qed.

Lemma nth_plist n (s : 'S_n) (i : 'I_n) : nth 0%N (plist s) i = s i.
Proof. by rewrite (nth_map i) ?size_enum_ord // nth_ord_enum. Qed.

Lemma plist_inj n : injective (@plist n).
Proof. by move=> s t e; apply/permP=> i; apply: val_inj; rewrite /= -!nth_plist e. Qed.

Lemma plist_perm n (s : 'S_n) : perm_eq (plist s) (iota 0 n).
Proof.
have -> : plist s = map val (map s (enum 'I_n)) by rewrite -map_comp.
rewrite -val_enum_ord perm_map // uniq_perm //.
- by rewrite map_inj_uniq ?enum_uniq //; exact: perm_inj.
- exact: enum_uniq.
- move=> i; rewrite mem_enum inE; apply/mapP; exists ((s^-1)%g i); rewrite ?mem_enum ?permKV //.
Qed.

Lemma plist_surj n (p : seq nat) : perm_eq p (iota 0 n) -> exists s : 'S_n, p = plist s.
Proof.
move=> H; have sp : size p = n by rewrite (perm_size H) size_iota.
have up : uniq p by rewrite (perm_uniq H) iota_uniq.
have hp i : (i < n)%N -> (nth 0 p i < n)%N.
  move=> hi; have : nth 0%N p i \in iota 0 n by rewrite -(perm_mem H) mem_nth // sp.
  by rewrite mem_iota.
pose f (i : 'I_n) := Ordinal (hp i (ltn_ord i)).
have fi : injective f.
  move=> i j [] /eqP; rewrite nth_uniq ?sp // => /eqP e; exact: val_inj.
exists (perm fi); apply: (@eq_from_nth _ 0%N); rewrite ?size_plist // sp => i hi.
by rewrite -[i]/(val (Ordinal hi)) nth_plist permE.
Qed.

Lemma perms_iota n : perm_eq (perms (iota 0 n)) [seq plist s | s <- enum 'S_n].
Proof.
apply: uniq_perm; first by rewrite perms_uniq // iota_uniq.
  by rewrite map_inj_uniq ?enum_uniq //; exact: plist_inj.
move=> p; rewrite mem_perms ?iota_uniq //; apply/idP/mapP => [/plist_surj[s ->]|[s _ ->]].
  by exists s => //; rewrite mem_enum.
exact: plist_perm.
Qed.

Lemma sum_perms (R : zmodType) n (F : seq nat -> R) :
  \sum_(p <- perms (iota 0 n)) F p = \sum_(s : 'S_n) F (plist s).
Proof. by rewrite (perm_big _ (perms_iota n)) big_map big_enum. Qed.

(* ---------- the sign ---------- *)
Lemma foldl_count (c : nat -> bool) a l :
  foldl (fun inv j => if c j then inv.+1 else inv) a l = (a + count c l)%N.
Proof. by elim: l a => [|x l IH] a /=; rewrite ?addn0 // IH; case: (c x); rewrite ?addSn ?addnS. Qed.

Lemma foldl_sum (f : nat -> nat) a l : foldl (fun inv i => inv + f i)%N a l = (a + \sum_(i <- l) f i)%N.
Proof. by elim: l a => [|x l IH] a /=; rewrite ?big_nil ?addn0 // IH big_cons addnA. Qed.

Lemma inversionsE n (s : 'S_n) :
  inversions (plist s) = (\sum_(i < n) \sum_(j < n | i < j) (s j < s i))%N.
Proof.
rewrite /inversions size_plist.
have -> : forall l a, foldl (fun inv i =>
    foldl (fun inv j => if (nth 0 (plist s) j < nth 0 (plist s) i)%N then inv.+1 else inv) inv
          (iota i.+1 (n - i.+1))) a l =
   foldl (fun inv i => inv + count (fun j => nth 0 (plist s) j < nth 0 (plist s) i)%N (iota i.+1 (n - i.+1)))%N a l.
  by elim=> [|x l IH] a //=; rewrite IH foldl_count.
rewrite foldl_sum add0n -{1}(subn0 n) -/(index_iota 0 n) big_mkord; apply: eq_bigr => i _.
have -> : iota i.+1 (n - i.+1) = filter (fun j => i < j)%N (iota 0 n).
  have -> : iota 0 n = iota 0 i.+1 ++ iota i.+1 (n - i.+1) by rewrite -(iotaD 0) subnKC.
  rewrite filter_cat.
  rewrite (eq_in_filter (a2 := xpred0)) ?filter_pred0; last first.
    by move=> j; rewrite mem_iota /= add0n ltnS leqNgt => /negbTE.
  rewrite (eq_in_filter (a2 := xpredT)) ?filter_predT //.
  by move=> j; rewrite mem_iota => /andP[].
rewrite -sum1_count big_filter_cond -{1}(subn0 n) -/(index_iota 0 n) big_mkord /=.
rewrite big_mkcondr /=; apply: eq_bigr => j _.
by rewrite !nth_plist; case: (_ < _)%N.
Qed.

(* s reverses the order of i and j *)
Definition swaps n (s : 'S_n) (i j : 'I_n) : bool := ((i < j)%N != (s i < s j)%N).

Lemma swapsC n (s : 'S_n) i j : i != j -> swaps s i j = swaps s j i.
Proof.
move=> ij; have sij : s i != s j by rewrite (inj_eq perm_inj).
rewrite /swaps; case: (ltngtP i j) => [h|h|/val_inj h]; last by rewrite h eqxx in ij.
  by case: (ltngtP (s i) (s j)) => // /val_inj h'; rewrite h' eqxx in sij.
by case: (ltngtP (s i) (s j)) => // /val_inj h'; rewrite h' eqxx in sij.
Qed.

Definition ninv n (s : 'S_n) : nat := (\sum_(i < n) \sum_(j < n | i < j) swaps s i j)%N.

Lemma ninvE n (s : 'S_n) : ninv s = inversions (plist s).
Proof.
rewrite inversionsE; apply: eq_bigr => i _; apply: eq_bigr => j ij; rewrite /swaps ij.
have sij : s i != s j by rewrite (inj_eq perm_inj); apply: contraTneq ij => ->; rewrite ltnn.
by case: (ltngtP (s i) (s j)) => // /val_inj h; rewrite h eqxx in sij.
Qed.

Lemma sum_sym n (f : 'I_n -> 'I_n -> nat) : (forall i j, i != j -> f i j = f j i) ->
  (\sum_(i < n) \sum_(j < n | i != j) f i j = (\sum_(i < n) \sum_(j < n | i < j) f i j).*2)%N.
Proof.
move=> fC; rewrite -addnn.
have -> : (\sum_(i < n) \sum_(j < n | i != j) f i j =
   \sum_(i < n) \sum_(j < n | (i < j)%N) f i j + \sum_(i < n) \sum_(j < n | (j < i)%N) f i j)%N.
  rewrite -big_split; apply: eq_bigr => i _ /=.
  rewrite (bigID (fun j : 'I_n => i < j)%N) /=; congr addn; apply: eq_bigl => j;
  rewrite -val_eqE /=; by case: ltngtP.
congr addn; rewrite (exchange_big_dep xpredT) //=; apply: eq_bigr => j _.
by apply: eq_bigr => i ij; apply: fC; apply: contraTneq ij => ->; rewrite ltnn.
Qed.

Lemma sum_lt_perm n (s : 'S_n) (f : 'I_n -> 'I_n -> nat) : (forall i j, i != j -> f i j = f j i) ->
  (\sum_(i < n) \sum_(j < n | i < j) f (s i) (s j) = \sum_(i < n) \sum_(j < n | i < j) f i j)%N.
Proof.
move=> fC; apply: double_inj; rewrite -!sum_sym //; last first.
  by move=> i j ij; apply: fC; rewrite (inj_eq perm_inj).
rewrite [RHS](reindex_inj (@perm_inj _ s)) /=; apply: eq_bigr => i _.
rewrite [RHS](reindex_inj (@perm_inj _ s)) /=; apply: eq_bigl => j.
by rewrite (inj_eq perm_inj).
Qed.

Lemma odd_sum (I : Type) (r : seq I) (P : pred I) (F : I -> nat) :
  odd (\sum_(i <- r | P i) F i) = \big[addb/false]_(i <- r | P i) odd (F i).
Proof. by apply: (big_morph odd); [exact: oddD|]. Qed.

Lemma odd_ninvM n (s t : 'S_n) : odd (ninv (s * t)%g) = odd (ninv s) (+) odd (ninv t).
Proof.
have e : ninv t = (\sum_(i < n) \sum_(j < n | (i < j)%N) swaps t (s i) (s j))%N.
  by symmetry; apply: (sum_lt_perm s (f := fun i j => swaps t i j : nat)) => i j /swapsC ->.
rewrite e /ninv -oddD -big_split !odd_sum; apply: eq_bigr => i _.
rewrite -big_split !odd_sum; apply: eq_bigr => j _; rewrite oddD !oddb /swaps !permM.
by case: (i < j)%N; case: (s i < s j)%N; case: (_ < _)%N.
Qed.

Lemma odd_ninvJ n (s t : 'S_n) : odd (ninv (s ^ t)%g) = odd (ninv s).
Proof.
rewrite !odd_ninvM; have := odd_ninvM t^-1%g t; rewrite mulVg.
have -> : ninv (1%g : 'S_n) = 0%N by rewrite /ninv big1 // => i _; rewrite big1 // => j _;
  rewrite /swaps !perm1 eqxx.
by case: (odd (ninv s)); case: (odd (ninv t)); case: (odd (ninv t^-1%g)).
Qed.

Lemma ninv_tperm01 n (a b : 'I_n) : val a = 0%N -> val b = 1%N -> ninv (tperm a b) = 1%N.
Proof.
move=> ea eb; have ab : a != b by rewrite -val_eqE ea eb.
rewrite /ninv (bigD1 a) //= (bigD1 b) ?ea ?eb //=.
have -> : swaps (tperm a b) a b by rewrite /swaps tpermL tpermR ea eb.
rewrite !big1 ?addn0 //.
- move=> i ia; rewrite big1 // => j ij.
  have ja : j != a by apply: contraTneq ij => ->; rewrite ea.
  case: (eqVneq i b) => [ib|ib].
    rewrite ib in ij *.
    have jb : b != j by apply: contraTneq ij => ->; rewrite ltnn.
    rewrite /swaps tpermR tpermD ?ea ?ij //; last by rewrite eq_sym.
    by rewrite (leq_ltn_trans (leq0n b) ij).
  have jb : j != b.
    by apply: contraTneq ij => ->; rewrite eb ltnS leqn0 -ea val_eqE.
  by rewrite /swaps !tpermD 1?eq_sym // ij.
move=> j /andP[ij jb].
have ja : j != a by apply: contraTneq ij => ->; rewrite ea.
rewrite /swaps tpermL tpermD 1?eq_sym // ea eb.
have : (1 < j)%N; last by move=> h; rewrite h (ltn_trans _ h).
rewrite ltn_neqAle -{1}eb eq_sym jb /=.
by rewrite lt0n -ea val_eqE.
Qed.

Lemma odd_ninv_tperm n (x y : 'I_n) : x != y -> odd (ninv (tperm x y)).
Proof.
move=> xy; case: n x y xy => [[]//|[|n]] x y xy.
  by rewrite !ord1 eqxx in xy.
pose a : 'I_n.+2 := ord0; pose b : 'I_n.+2 := lift ord0 ord0.
have ab : a != b by [].
pose b' := tperm a x b.
have xb' : b' != x by rewrite /b' -(inj_eq (@perm_inj _ (tperm a x))) tpermK tpermR eq_sym.
have -> : tperm x y = ((tperm a b) ^ (tperm a x * tperm b' y))%g.
  rewrite conjgM !tpermJ tpermL -/b' tpermL tpermD // eq_sym //.
by rewrite odd_ninvJ ninv_tperm01.
Qed.

Lemma odd_ninv n (s : 'S_n) : odd (ninv s) = odd_perm s.
Proof.
have [ts -> dts] := prod_tpermP s.
elim: ts dts => [|t ts IH] /=.
  move=> _; rewrite big_nil odd_perm1 /ninv big1 // => i _.
  by rewrite big1 // => j _; rewrite /swaps !perm1 eqxx.
case/andP=> dt dts; rewrite big_cons odd_ninvM odd_permM IH // odd_tperm.
by rewrite odd_ninv_tperm // dt.
Qed.

(* C01, core lemma *)
Lemma sgnE n (s : 'S_n) : sgn (plist s) = (-1) ^+ (odd_perm s).
Proof. by rewrite /sgn -ninvE modn2 -odd_ninv; case: (odd _). Qed.

Lemma sgn_signr (R : ringType) n (s : 'S_n) : (sgn (plist s))%:~R = (-1) ^+ (odd_perm s) :> R.
Proof. by rewrite sgnE; case: (odd_perm s); rewrite ?expr1 ?expr0 ?intrN. Qed.

(* ---------- dt, pt ---------- *)
Section DtPt.
Variable T : comRingType.

Lemma prod_entries_ok (A : arr T) l : all (fun e => (e.1 < nr A)%N && (e.2 < nc A)%N) l ->
  prod_entries A l = Ok (\prod_(e <- l) get A e.1 e.2).
Proof.
rewrite /prod_entries => H.
have -> : forall a, foldM (fun acc e => let* a := idx A e.1 e.2 in Ok (acc * a)) a l
   = Ok (a * \prod_(e <- l) get A e.1 e.2).
  elim: l H => [|x l IH] /=; first by move=> _ a; rewrite big_nil mulr1.
  by move=> /andP[h1 h2] a; rewrite /idx h1 /= IH // big_cons mulrA.
by rewrite mul1r.
Qed.

Lemma foldM_sum (I : eqType) (l : seq I) (body : I -> res T) (g : I -> T) a :
  {in l, forall x, body x = Ok (g x)} ->
  foldM (fun acc x => let* w := body x in Ok (acc + w)) a l = Ok (a + \sum_(x <- l) g x).
Proof.
elim: l a => [|x l IH] a H /=; first by rewrite big_nil addr0.
rewrite H ?mem_head //= IH ?big_cons ?addrA // => y yl.
by apply: H; rewrite in_cons yl orbT.
Qed.

Lemma row_entries_ok (A : arr T) n (s : 'S_n) : nr A = n -> nc A = n ->
  prod_entries A [seq (i, nth 0%N (plist s) i) | i <- iota 0 n] = Ok (\prod_(i < n) toM n n A i (s i)).
Proof.
move=> er ec; rewrite prod_entries_ok; last first.
  apply/allP => e /mapP[i]; rewrite mem_iota /= add0n => hi -> /=.
  by rewrite er ec hi -[i]/(val (Ordinal hi)) nth_plist ltn_ord.
rewrite big_map -{1}(subn0 n) -/(index_iota 0 n) big_mkord.
by congr Ok; apply: eq_bigr => i _; rewrite mxE nth_plist.
Qed.

Lemma dt_det (A : arr T) n : nr A = n -> nc A = n -> dt A = Ok (\det (toM n n A)).
Proof.
move=> er ec; rewrite /dt er.
pose g (p : seq nat) := (sgn p)%:~R * \prod_(i < n) get A i (nth 0%N p i).
have -> : forall a l, {subset l <= perms (iota 0 n)} -> foldM (fun acc p =>
    let* w := prod_entries A [seq (i, nth 0%N p i) | i <- iota 0 n] in
    Ok (acc + (sgn p)%:~R * w)) a l = Ok (a + \sum_(p <- l) g p).
  move=> a l; elim: l a => [|p l IH] a H /=; first by rewrite big_nil addr0.
  have := H p (mem_head _ _); rewrite mem_perms ?iota_uniq // => /plist_surj [s ep].
  rewrite {1}ep row_entries_ok //= IH; last by move=> x xl; apply: H; rewrite in_cons xl orbT.
  rewrite big_cons addrA {2}/g; congr (Ok (_ + _ * _ + _)).
  by apply: eq_bigr => i _; rewrite mxE ep nth_plist.
- rewrite add0r sum_perms; congr Ok; apply: eq_bigr => s _; rewrite /g sgn_signr.
  by congr (_ * _); apply: eq_bigr => i _; rewrite mxE nth_plist.
- by [].
Qed.

(* specification: the permanent *)
Definition perm_of n (A : 'M[T]_n) : T := \sum_(s : 'S_n) \prod_(i < n) A i (s i).

Lemma pt_perm (A : arr T) n : nr A = n -> nc A = n -> pt A = Ok (perm_of (toM n n A)).
Proof.
move=> er ec; rewrite /pt er.
rewrite (foldM_sum (g := fun p => \prod_(i < n) get A i (nth 0%N p i))).
  rewrite add0r sum_perms; congr Ok; apply: eq_bigr => s _.
  by apply: eq_bigr => i _; rewrite mxE nth_plist.
move=> p; rewrite mem_perms ?iota_uniq // => /plist_surj [s ->].
by rewrite row_entries_ok //; congr Ok; apply: eq_bigr => i _; rewrite mxE nth_plist.
Qed.

End DtPt.
