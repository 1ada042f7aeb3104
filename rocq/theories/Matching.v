(* Matching.v -- perfect matchings as sets of pairs, and sums over permutations grouped by matching. *)
Set Warnings "-notation-overridden,-ambiguous-paths".
From mathcomp Require Import all_ssreflect all_fingroup all_algebra.
From mathcomp.zify Require Import zify.
From Verif Require Import Base MCombinatorics CombPerm.
Set Implicit Arguments.
Unset Strict Implicit.
Unset Printing Implicit Defensive.
Import GRing.Theory Num.Theory.
Local Open Scope ring_scope.

(* ---------------- specification ---------------- *)
(* a set M of pairs such that every vertex lies in exactly one pair *)
Definition perfect_matching n (M : {set {set 'I_n}}) : bool :=
  [forall B in M, #|B| == 2%N] && [forall x, #|[set B in M | x \in B]| == 1%N].

(* e = (a, b) with a < b and {a, b} in M *)
Definition edge n (M : {set {set 'I_n}}) (e : 'I_n * 'I_n) : bool :=
  (e.1 < e.2)%N && ([set e.1; e.2] \in M).

(* product of the entries on the matched pairs (row index < column index) *)
Definition mweight (T : ringType) n (A : 'M[T]_n) (M : {set {set 'I_n}}) : T :=
  \prod_(e | edge M e) A e.1 e.2.

(* number of crossing pairs of chords a < c < b < d, {a,b}, {c,d} in M *)
Definition crossings n (M : {set {set 'I_n}}) : nat :=
  (\sum_(e | edge M e) \sum_(f | edge M f) ((e.1 < f.1) && (f.1 < e.2) && (e.2 < f.2)))%N.

(* hafnian and pfaffian as sums over perfect matchings *)
Definition hafnian (T : ringType) n (A : 'M[T]_n) : T := \sum_(M | perfect_matching M) mweight A M.
Definition pfaffian (T : ringType) n (A : 'M[T]_n) : T :=
  \sum_(M | perfect_matching M) (-1) ^+ crossings M * mweight A M.

(* ---------------- the points 2i, 2i+1 ---------------- *)
Section D.
Variable k : nat.
Local Notation n := (k.*2).
Lemma d_subproof (i : 'I_k) (e : bool) : (e + i.*2 < n)%N.
Proof.
apply: (@leq_trans (i.+1.*2)); last by rewrite leq_double.
by rewrite doubleS; case: e.
Qed.
Definition d (i : 'I_k) (e : bool) : 'I_n := Ordinal (d_subproof i e).
Lemma hd_subproof (x : 'I_n) : (x./2 < k)%N.
Proof. by rewrite -ltn_double (leq_ltn_trans _ (ltn_ord x)) // -{2}(odd_double_half x) leq_addl. Qed.
Definition hd (x : 'I_n) : 'I_k := Ordinal (hd_subproof x).
Lemma dK (x : 'I_n) : d (hd x) (odd x) = x.
Proof. by apply: val_inj; rewrite /= odd_double_half. Qed.
Lemma hd_d i e : hd (d i e) = i.
Proof. by apply: val_inj; rewrite /= half_bit_double. Qed.
Lemma odd_d i e : odd (d i e) = e.
Proof. by rewrite /= oddD odd_double addbF oddb. Qed.
Lemma d_eq i e j f : (d i e == d j f) = (i == j) && (e == f).
Proof.
apply/eqP/andP => [E|[/eqP-> /eqP->]//].
by rewrite -(hd_d i e) E hd_d -(odd_d i e) E odd_d !eqxx.
Qed.
Lemma val_d i e : val (d i e) = (e + i.*2)%N.
Proof. by []. Qed.
Lemma dP (x : 'I_n) : exists i e, x = d i e.
Proof. by exists (hd x), (odd x); rewrite dK. Qed.

Lemma big_d (R : Type) (idx : R) (op : Monoid.com_law idx) (F : 'I_n -> R) :
  \big[op/idx]_(x < n) F x = \big[op/idx]_(i < k) op (F (d i false)) (F (d i true)).
Proof.
rewrite (eq_bigr (fun i => \big[op/idx]_(e : bool) F (d i e))); last first.
  by move=> i _; rewrite big_bool Monoid.mulmC.
rewrite pair_big /= (reindex_onto (fun p => d p.1 p.2) (fun x => (hd x, odd x))) /=.
  by apply: eq_bigl => -[i e]; rewrite hd_d odd_d /= eqxx.
by move=> x _; rewrite dK.
Qed.

(* the matching {s0,s1},{s2,s3},... *)
Definition mof (s : 'S_n) : {set {set 'I_n}} := [set [set s (d i false); s (d i true)] | i : 'I_k].

Lemma in_mof (s : 'S_n) i e : s (d i e) \in [set s (d i false); s (d i true)].
Proof. by case: e; rewrite !inE eqxx ?orbT. Qed.

Lemma mem_blk (s : 'S_n) x i : (x \in [set s (d i false); s (d i true)]) = (hd ((s^-1)%g x) == i).
Proof.
rewrite !inE; have -> : x = s ((s^-1)%g x) by rewrite permKV.
set y := (s^-1)%g x; rewrite permK !(inj_eq perm_inj).
have [j [e ->]] := dP y; rewrite !d_eq hd_d; by case: e; rewrite ?andbF ?andbT ?orbF.
Qed.

Lemma d_neq (s : 'S_n) i : s (d i false) != s (d i true).
Proof. by rewrite (inj_eq perm_inj) d_eq andbF. Qed.

Lemma blk_inj (s : 'S_n) : injective (fun i => [set s (d i false); s (d i true)]).
Proof.
move=> i j E; have := in_mof s i false; rewrite E mem_blk permK hd_d.
by move=> /eqP.
Qed.

Lemma mof_perfect s : perfect_matching (mof s).
Proof.
apply/andP; split.
  by apply/forallP => B; apply/implyP => /imsetP[i _ ->]; rewrite cards2 d_neq.
apply/forallP => x.
have -> : [set B in mof s | x \in B] =
   [set [set s (d (hd ((s^-1)%g x)) false); s (d (hd ((s^-1)%g x)) true)]].
  apply/setP => B; rewrite !inE; apply/andP/eqP => [[/imsetP[i _ ->]]|->].
    by rewrite mem_blk => /eqP ->.
  by split; [apply/imsetP; eexists|rewrite mem_blk].
by rewrite cards1.
Qed.

Lemma perfect_disj m (M : {set {set 'I_m}}) B B' x : perfect_matching M ->
  B \in M -> B' \in M -> x \in B -> x \in B' -> B = B'.
Proof.
move=> /andP[_ /forallP /(_ x) /cards1P[B0 E]] h h' xB xB'.
have : B \in [set B in M | x \in B] by rewrite !inE h.
have : B' \in [set B in M | x \in B] by rewrite !inE h'.
by rewrite E !inE => /eqP -> /eqP ->.
Qed.

Lemma card_perfect m (M : {set {set 'I_m}}) : perfect_matching M -> (#|M|.*2 = m)%N.
Proof.
move=> /andP[/forallP H2 /forallP H1].
have -> : (#|M|.*2 = \sum_(B in M) \sum_(x : 'I_m) (x \in B))%N.
  rewrite -muln2 -sum_nat_const; apply: eq_bigr => B BM.
  by have /implyP/(_ BM)/eqP <- := H2 B; rewrite -sum1_card big_mkcond.
rewrite exchange_big /= -[RHS]card_ord -sum1_card; apply: eq_bigr => x _.
have /eqP <- := H1 x; rewrite -sum1_card big_mkcond [RHS]big_mkcond /=.
by apply: eq_bigr => B _; rewrite inE; case: (B \in M); case: (x \in B).
Qed.

Lemma mof_surj (M : {set {set 'I_n}}) : perfect_matching M -> exists s, mof s = M.
Proof.
move=> PM; have cM : #|M| = k by apply: double_inj; rewrite card_perfect.
have c2 B : B \in M -> #|B| = 2%N.
  by move=> BM; case/andP: PM => /forallP/(_ B)/implyP/(_ BM)/eqP.
pose Bn (i : 'I_k) : {set 'I_n} := nth set0 (enum M) i.
have BM i : Bn i \in M by rewrite -mem_enum mem_nth // -cardE cM.
pose g (i : 'I_k) (e : bool) := nth (d i e) (enum (Bn i)) e.
have gB i e : g i e \in Bn i.
  by rewrite -mem_enum mem_nth // -cardE c2 //; case: e.
have gi i j e f : g i e = g j f -> (i = j) /\ (e = f).
  move=> E; have EB : Bn i = Bn j.
    by apply: (perfect_disj PM (BM i) (BM j) (gB i e)); rewrite E.
  have ij : i = j.
    by apply: val_inj; apply/eqP; rewrite -(nth_uniq set0 _ _ (enum_uniq (mem M))) ?cardE //=;
      [exact/eqP|rewrite -cardE cM|rewrite -cardE cM].
  subst j; split=> //; move/eqP: E.
  rewrite /g (set_nth_default (d i f)) ?nth_uniq ?enum_uniq -?cardE ?c2 //; by case: (e); case: (f).
pose h (x : 'I_n) := g (hd x) (odd x).
have hi : injective h.
  by move=> x y /gi [e1 e2]; rewrite -(dK x) -(dK y) e1 e2.
exists (perm hi).
have blk i : [set perm hi (d i false); perm hi (d i true)] = Bn i.
  apply/eqP; rewrite eqEcard subUset !sub1set !permE /h !hd_d !odd_d !gB /=.
  rewrite c2 ?BM // cards2; case: eqP => // /gi [_ //].
apply/setP => B; apply/imsetP/idP => [[i _ ->]|h']; first by rewrite blk.
have lt : (index B (enum M) < k)%N by rewrite -[X in (_ < X)%N]cM cardE index_mem mem_enum.
exists (Ordinal lt) => //; rewrite blk /Bn /= nth_index // mem_enum //.
Qed.

(* ---------------- fibre count ---------------- *)
Section Fibre.
Variable s0 : 'S_n.

Definition act_fun (pf : {perm 'I_k} * {ffun 'I_k -> bool}) (x : 'I_n) : 'I_n :=
  s0 (d (pf.1 (hd x)) (odd x (+) pf.2 (hd x))).

Lemma act_inj pf : injective (act_fun pf).
Proof.
move=> x y /perm_inj /eqP; rewrite d_eq => /andP[/eqP/perm_inj e1 /eqP].
by rewrite e1 => /addIb e2; rewrite -(dK x) -(dK y) e1 e2.
Qed.
Definition act pf : 'S_n := perm (@act_inj pf).

Lemma actE pf i e : act pf (d i e) = s0 (d (pf.1 i) (e (+) pf.2 i)).
Proof. by rewrite permE /act_fun hd_d odd_d. Qed.

Lemma act_injective : injective act.
Proof.
move=> [p f] [q g] E.
have H i : (p i == q i) && (f i == g i).
  by have /eqP := congr1 (fun s : 'S_n => s (d i false)) E; rewrite !actE (inj_eq perm_inj) d_eq /=.
congr pair; first by apply/permP=> i; have /andP[/eqP] := H i.
by apply/ffunP=> i; have /andP[_ /eqP] := H i.
Qed.

Lemma mof_act pf : mof (act pf) = mof s0.
Proof.
have E i : [set act pf (d i false); act pf (d i true)] =
           [set s0 (d (pf.1 i) false); s0 (d (pf.1 i) true)].
  by rewrite !actE /=; case: (pf.2 i) => //=; rewrite setUC.
apply/setP => B; apply/imsetP/imsetP => -[i _ ->].
  by exists (pf.1 i) => //; rewrite E.
by exists ((pf.1)^-1%g i) => //; rewrite E permKV.
Qed.

Lemma act_surj s : mof s = mof s0 -> exists pf, s = act pf.
Proof.
move=> E; pose t := (s * s0^-1)%g.
have tE x : s x = s0 (t x) by rewrite permM permKV.
have Ht i e : hd (t (d i e)) = hd (t (d i false)).
  have : [set s (d i false); s (d i true)] \in mof s by apply/imsetP; exists i.
  rewrite E => /imsetP[j _ Ej].
  have H f : hd (t (d i f)) = j.
    have := in_mof s i f; rewrite Ej mem_blk => /eqP <-; congr hd.
    by rewrite tE permK.
  by rewrite !H.
pose p i := hd (t (d i false)).
have pi : injective p.
  move=> i j; rewrite /p => e.
  have H : t (d j false) \in [set t (d i false); t (d i true)].
    have -> : [set t (d i false); t (d i true)] = [set d (p i) false; d (p i) true].
      apply/eqP; rewrite eqEcard !cards2 d_neq d_eq andbF subUset !sub1set.
      by rewrite -(dK (t (d i false))) -(dK (t (d i true))) Ht /p;
         case: (odd _); case: (odd _); rewrite !inE ?eqxx ?orbT.
    by rewrite -(dK (t (d j false))) -e -/(p i); case: (odd _); rewrite !inE eqxx ?orbT.
  by rewrite !inE !(inj_eq perm_inj) !d_eq in H; case/orP: H => /andP[/eqP].
exists (perm pi, [ffun i => odd (t (d i false))]).
apply/permP => x; have [i [e ->]] := dP x; rewrite actE /= permE ffunE tE; congr (s0 _).
case: e => /=; last by rewrite /p dK.
rewrite -[LHS]dK Ht; congr d.
have : t (d i true) != t (d i false) by rewrite (inj_eq perm_inj) d_eq andbF.
have := Ht i true; have := dK (t (d i true)); have := dK (t (d i false)).
move: (t (d i true)) (t (d i false)) => y z ez ey hyz.
by rewrite -{1}ey -{1}ez hyz d_eq eqxx /=; case: (odd y); case: (odd z).
Qed.

Lemma fibre_card : #|[set s : 'S_n | mof s == mof s0]| = (2 ^ k * k`!)%N.
Proof.
have -> : [set s : 'S_n | mof s == mof s0] = [set act pf | pf in setT].
  apply/setP => s; rewrite inE; apply/eqP/imsetP => [/act_surj[pf ->]|[pf _ ->]].
    by exists pf; rewrite ?inE.
  exact: mof_act.
rewrite card_imset; last exact: act_injective.
rewrite cardsT card_prod /= mulnC card_ffun card_bool card_ord; congr (_ * _)%N.
by rewrite -[in RHS](card_ord k) -[#|'I_k|]cardsT -card_perm; apply: eq_card => p; rewrite !inE;
  apply/esym/subsetP => x; rewrite inE.
Qed.
End Fibre.

Lemma sum_mof (T : ringType) (F : {set {set 'I_n}} -> T) :
  \sum_(s : 'S_n) F (mof s) = (\sum_(M | perfect_matching M) F M) *+ (2 ^ k * k`!).
Proof.
rewrite (partition_big mof (@perfect_matching n)) /=; last by move=> s _; exact: mof_perfect.
rewrite -sumrMnl; apply: eq_bigr => M PM.
have [s0 E] := mof_surj PM.
rewrite (eq_bigr (fun _ => F M)); last by move=> s /eqP ->.
rewrite sumr_const; congr (_ *+ _); rewrite -(fibre_card s0).
by apply: eq_card => s; rewrite !inE E.
Qed.

(* ---------------- edges of mof s ---------------- *)
Definition e_of (s : 'S_n) (i : 'I_k) : 'I_n * 'I_n :=
  if (s (d i false) < s (d i true))%N then (s (d i false), s (d i true))
  else (s (d i true), s (d i false)).

Lemma e_of_lt s i : ((e_of s i).1 < (e_of s i).2)%N.
Proof.
rewrite /e_of; case: ifP => //= /negbT; rewrite -leqNgt leq_eqVlt => /orP[/eqP/val_inj/eqP|//].
by rewrite eq_sym (negbTE (d_neq s i)).
Qed.

Lemma e_of_set s i : [set (e_of s i).1; (e_of s i).2] = [set s (d i false); s (d i true)].
Proof. by rewrite /e_of; case: ifP => //=; rewrite setUC. Qed.

Lemma big_edge (R : Type) (idx : R) (op : Monoid.com_law idx) s (F : 'I_n * 'I_n -> R) :
  \big[op/idx]_(e | edge (mof s) e) F e = \big[op/idx]_(i < k) F (e_of s i).
Proof.
rewrite (reindex_onto (e_of s) (fun e => hd ((s^-1)%g e.1))) /=.
  apply: eq_bigl => i; rewrite /edge e_of_lt e_of_set.
  rewrite (_ : _ \in _ = true); last by apply/imsetP; exists i.
  by rewrite -mem_blk -e_of_set !inE eqxx.
move=> [a b] /andP[/= lt /imsetP[i _ E]].
have ai : hd ((s^-1)%g a) = i by apply/eqP; rewrite -mem_blk -E !inE eqxx.
rewrite ai; have := e_of_lt s i; have := e_of_set s i; rewrite -E.
case: (e_of s i) => a' b' /= E' lt'.
have : a' \in [set a; b] by rewrite -E' !inE eqxx.
have : b' \in [set a; b] by rewrite -E' !inE eqxx orbT.
rewrite !inE => /orP[] /eqP eb /orP[] /eqP ea; subst a' b' => //; rewrite ?ltnn // in lt'.
by have := ltn_trans lt lt'; rewrite ltnn.
Qed.

(* ---------------- sign ---------------- *)
Definition crossb (e f : 'I_n * 'I_n) : bool := (e.1 < f.1)%N && (f.1 < e.2)%N && (e.2 < f.2)%N.

Lemma cross_parity (a b c e : 'I_n) : a != b -> a != c -> a != e -> b != c -> b != e -> c != e ->
  let p := if (a < b)%N then (a, b) else (b, a) in
  let q := if (c < e)%N then (c, e) else (e, c) in
  odd ((c < a) + (c < b) + (e < a) + (e < b))%N = crossb p q (+) crossb q p.
Proof.
move=> /eqP ab /eqP ac /eqP ae /eqP bc /eqP be /eqP ce.
have H (x y : 'I_n) : x <> y -> nat_of_ord x <> nat_of_ord y by move=> h /val_inj.
move/H: ab; move/H: ac; move/H: ae; move/H: bc; move/H: be; move/H: ce.
move=> ce be bc ae ac ab; rewrite /crossb.
case: (ltngtP a b) => [h1|h1|//]; case: (ltngtP c e) => [h2|h2|//] /=;
case: (ltngtP c a) => [h3|h3|/esym //]; case: (ltngtP c b) => [h4|h4|/esym //];
case: (ltngtP e a) => [h5|h5|/esym //]; case: (ltngtP e b) => [h6|h6|/esym //] /=;
rewrite ?h1 ?h2 //=; exfalso; lia.
Qed.

Lemma sum_lt_d (F : 'I_n -> 'I_n -> nat) :
  (\sum_(x < n) \sum_(y < n | x < y) F x y =
   \sum_(i < k) F (d i false) (d i true) +
   \sum_(i < k) \sum_(j < k | i < j)
     (F (d i false) (d j false) + F (d i false) (d j true) + F (d i true) (d j false) + F (d i true) (d j true)))%N.
Proof.
rewrite big_d -big_split; apply: eq_bigr => i _ /=.
rewrite [in LHS]big_mkcond [X in (_ + X)%N = _]big_mkcond !big_d /=.
have -> : F (d i false) (d i true) = (\sum_(j < k) if j == i then F (d i false) (d j true) else 0)%N.
  by rewrite -big_mkcond big_pred1_eq.
rewrite [X in _ = (_ + X)%N]big_mkcond -!big_split.
apply: eq_bigr => j _ /=.
have -> : (0 + i.*2 < 0 + j.*2)%N = (i < j)%N by lia.
have -> : (0 + i.*2 < 1 + j.*2)%N = (i <= j)%N by lia.
have -> : (1 + i.*2 < 0 + j.*2)%N = (i < j)%N by lia.
have -> : (1 + i.*2 < 1 + j.*2)%N = (i < j)%N by lia.
rewrite -val_eqE /=; case: (ltngtP i j) => [h|h|h] /=; rewrite ?addn0 ?add0n //.
by rewrite -!addnA.
Qed.

Lemma sign_mof (s : 'S_n) :
  odd_perm s = odd (crossings (mof s)) (+) \big[addb/false]_(i < k) (s (d i true) < s (d i false))%N.
Proof.
rewrite -odd_ninv ninvE inversionsE sum_lt_d oddD addbC; congr addb; last first.
  by rewrite odd_sum; apply: eq_bigr => i _; rewrite oddb.
have -> : crossings (mof s) = (\sum_(i < k) \sum_(j < k) crossb (e_of s i) (e_of s j))%N.
  rewrite /crossings (@big_edge _ _ [com_law of addn] s (fun e => \sum_(f | edge (mof s) f)
    ((e.1 < f.1) && (f.1 < e.2) && (e.2 < f.2)))%N); apply: eq_bigr => i _.
  by rewrite (@big_edge _ _ [com_law of addn] s (fun f => crossb (e_of s i) f : nat)).
have -> : (\sum_(i < k) \sum_(j < k) crossb (e_of s i) (e_of s j) =
  \sum_(i < k) \sum_(j < k | (i < j)%N) (crossb (e_of s i) (e_of s j) + crossb (e_of s j) (e_of s i)))%N.
  have -> : (\sum_(i < k) \sum_(j < k | (i < j)%N)
       (crossb (e_of s i) (e_of s j) + crossb (e_of s j) (e_of s i)) =
     \sum_(i < k) \sum_(j < k | (i < j)%N) crossb (e_of s i) (e_of s j) +
     \sum_(i < k) \sum_(j < k | (j < i)%N) crossb (e_of s i) (e_of s j))%N.
    rewrite [X in _ = (_ + X)%N](exchange_big_dep xpredT) //= -big_split; apply: eq_bigr => i _.
    by rewrite -big_split.
  rewrite -big_split; apply: eq_bigr => i _ /=.
  rewrite (bigID (fun j : 'I_k => i < j)%N) /=; congr addn.
  rewrite (bigID (fun j : 'I_k => j < i)%N) /= [X in (_ + X)%N]big1 ?addn0; last first.
    move=> j; rewrite -!leqNgt => /andP[h1 h2]; have -> : i = j by apply/val_inj/eqP; rewrite eqn_leq h1 h2.
    by rewrite /crossb ltnn.
  by apply: eq_bigl => j; rewrite -leqNgt; case: ltngtP.
rewrite !odd_sum; apply: eq_bigr => i _; rewrite !odd_sum; apply: eq_bigr => j ij.
have nij : i != j by rewrite -val_eqE neq_ltn ij.
rewrite [in RHS]oddD !oddb -(@cross_parity (s (d i false)) (s (d i true)) (s (d j false)) (s (d j true)))
  ?(inj_eq perm_inj) ?d_eq ?(negbTE nij) ?andbF //.
by congr odd; rewrite -!addnA; congr addn; rewrite addnCA.
Qed.
End D.
