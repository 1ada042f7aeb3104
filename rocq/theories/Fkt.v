(* Fkt.v -- Kasteleyn orientations: all matching terms of the Pfaffian have the same sign *)
Set Warnings "-notation-overridden,-ambiguous-paths".
From mathcomp Require Import all_ssreflect all_fingroup all_algebra.
From mathcomp.zify Require Import zify.
From Verif Require Import Base MCombinatorics CombPerm Matching Pfaffian Planar.
Set Implicit Arguments.
Unset Strict Implicit.
Unset Printing Implicit Defensive.
Import Order.Theory GRing.Theory Num.Theory.
Local Open Scope ring_scope.

Section Terms.
Variables (R : comRingType) (k : nat).
Local Notation n := (k.*2).

(* the term of the Pfaffian that belongs to a matching, written with a permutation *)
Lemma term_mof (A : 'M[R]_n) (s : 'S_n) : A^T = - A ->
  (-1) ^+ crossings (mof s) * mweight A (mof s) = (-1) ^+ odd_perm s * \prod_(i < k) A (s (d i false)) (s (d i true)).
Proof.
move=> skA; apply/esym; rewrite sign_mof signr_addb signr_odd -mulrA; congr (_ * _).
rewrite /mweight big_edge.
have -> : (-1) ^+ (\big[addb/false]_(i < k) (s (d i true) < s (d i false))%N) =
   \prod_(i < k) (-1) ^+ (s (d i true) < s (d i false))%N :> R.
  by apply: (big_morph (fun b : bool => (-1) ^+ b : R)) => // a b; rewrite signr_addb.
rewrite -big_split; apply: eq_bigr => i _ /=; rewrite /e_of.
have := d_neq s i; rewrite -val_eqE neq_ltn; case: ltngtP => //= h _; first by rewrite mul1r.
by rewrite expr1 mulN1r -{1}[A]opprK -skA !mxE opprK.
Qed.

(* the partner of x in the matching of s *)
Definition partner (s : 'S_n) (x : 'I_n) : 'I_n := s (d (hd ((s^-1)%g x)) (~~ odd ((s^-1)%g x))).
Lemma partner_d (s : 'S_n) i e : partner s (s (d i e)) = s (d i (~~ e)).
Proof. by rewrite /partner permK hd_d odd_d. Qed.
Lemma partnerK s : involutive (partner s).
Proof.
move=> x; rewrite -[x](permKV s); have [i [e ->]] := dP ((s^-1)%g x).
by rewrite !partner_d negbK.
Qed.
Lemma partner_ne s x : partner s x != x.
Proof.
rewrite -[x](permKV s); have [i [e ->]] := dP ((s^-1)%g x).
by rewrite partner_d (inj_eq perm_inj) d_eq eqxx /=; case: e.
Qed.
Lemma partner_mof s x : [set x; partner s x] \in mof s.
Proof.
rewrite -[x](permKV s); have [i [e ->]] := dP ((s^-1)%g x).
by rewrite partner_d; apply/imsetP; exists i => //; case: e => //; rewrite setUC.
Qed.

Lemma subset_perfect m (M M' : {set {set 'I_m}}) : perfect_matching M -> perfect_matching M' -> M \subset M' -> M = M'.
Proof.
by move=> h h' sub; apply/eqP; rewrite eqEcard sub /= -leq_double !card_perfect.
Qed.
End Terms.

Section Fkt.
Variables (k : nat) (D F : finType).
Local Notation n := (k.*2).
Variables (src : D -> 'I_n) (fc : D -> F) (al phi : D -> D).
Hypothesis pm : plane_map src fc al phi.
Variables (R : comRingType) (ep : D -> R) (K : 'M[R]_n).
Hypothesis ep_al : forall d, ep (al d) = - ep d.
Hypothesis ep_sq : forall d, ep d * ep d = 1.
Hypothesis ep_face : forall f, \prod_(d | fc d == f) ep d = -1.
Hypothesis KE : forall d, K (src d) (src (al d)) = ep d.
Hypothesis Ksk : K^T = - K.

(* every pair of M is an edge *)
Definition along (M : {set {set 'I_n}}) : Prop :=
  forall x y, [set x; y] \in M -> x != y -> exists2 d, src d = x & src (al d) = y.

Lemma term_pair M M' : perfect_matching M -> perfect_matching M' -> along M -> along M' ->
  (-1) ^+ crossings M * mweight K M * ((-1) ^+ crossings M' * mweight K M') = 1.
Proof.
move=> pM pM' aM aM'.
case: (posnP k) => [k0|k0].
  have e0 (N : {set {set 'I_n}}) : (-1) ^+ crossings N * mweight K N = 1.
    rewrite /crossings /mweight !big1 ?mulr1 // => -[a b]; (have : (a < 0)%N by apply: leq_trans (ltn_ord a) _; rewrite k0); by [].
  by rewrite !e0 mulr1.
have [s es] := mof_surj pM; have [s' es'] := mof_surj pM'.
have [d0 _ _] : exists2 x, src x = s (d (Ordinal k0) false) & src (al x) = partner s (s (d (Ordinal k0) false)).
  by apply: aM; [rewrite -es partner_mof|rewrite eq_sym partner_ne].
have [c [pi [c1 c2 p1 p2]]] : exists (c : {set 'I_n}) (pi : 'S_n),
  [/\ forall x, (partner s x \in c) = (x \notin c), forall x, (partner s' x \in c) = (x \notin c),
      forall x, pi x = if x \in c then partner s x else partner s' x & (-1) ^+ odd_perm pi * \prod_x K x (pi x) = 1].
  apply: (matching_pair_sign pm d0 ep_al ep_sq ep_face KE (partnerK s) (partnerK s') (partner_ne s) (partner_ne s')).
    by move=> x; apply: aM; [rewrite -es partner_mof|rewrite eq_sym partner_ne].
  by move=> x; apply: aM'; [rewrite -es' partner_mof|rewrite eq_sym partner_ne].
pose s1 := act s (1%g, [ffun i => s (d i false) \notin c]).
have s1E i e : s1 (d i e) = s (d i (e (+) (s (d i false) \notin c))) by rewrite actE /= perm1 ffunE.
have s1f i : s1 (d i false) \in c.
  rewrite s1E addFb; case hc: (s (d i false) \in c) => //.
  by rewrite -partner_d c1 hc.
have s1t i : s1 (d i true) = partner s (s1 (d i false)).
  by rewrite !s1E partner_d; congr (s (d _ _)); case: (_ \notin c).
have e1 : mof s1 = M by rewrite mof_act.
pose s2 := (s1 * pi)%g.
have s2f i : s2 (d i false) = s1 (d i true) by rewrite permM p1 s1f s1t.
have s2t i : s2 (d i true) = partner s' (s1 (d i true)).
  by rewrite permM p1 s1t c1 s1f.
have e2 : mof s2 = M'.
  rewrite -es'; apply: subset_perfect; rewrite ?mof_perfect //; apply/subsetP => B /imsetP[i _ ->].
  by rewrite s2f s2t partner_mof.
rewrite -e1 -e2 !term_mof // mulrACA -signr_addb -big_split /=.
apply: etrans p2; congr (_ * _).
  by rewrite odd_permM addbA addbb addFb.
rewrite (reindex_inj (@perm_inj _ s1)) /= big_d; apply: eq_bigr => i _.
by rewrite s2f s2t [in K _ (pi _)]p1 s1f -s1t [in X in _ = _ * K _ X]p1 s1t c1 s1f.
Qed.

(* the matrix of the oriented weights *)
Variables (W : 'M[R]_n).
Hypothesis Wadj : forall x y, W x y != 0 -> exists2 d, src d = x & src (al d) = y.
Definition orientedW : 'M[R]_n := \matrix_(x, y) (K x y * W x y).

Lemma mweight_mul M : mweight orientedW M = mweight K M * mweight W M.
Proof. by rewrite /mweight -big_split; apply: eq_bigr => e _; rewrite mxE. Qed.

Lemma along_dec M : along M \/ mweight W M = 0.
Proof.
case: (boolP [forall x, forall y, ([set x; y] \in M) ==> (x != y) ==> [exists d, (src d == x) && (src (al d) == y)]]) => h.
  left=> x y h1 h2; move: h => /forallP/(_ x)/forallP/(_ y); rewrite h1 h2 /=.
  by case/existsP=> d /andP[/eqP ? /eqP ?]; exists d.
right; case/forallPn: h => x /forallPn[y]; rewrite negb_imply => /andP[h1]; rewrite negb_imply => /andP[h2 /existsPn h3].
have nd u v : (exists2 d, src d = u & src (al d) = v) -> (u, v) = (x, y) \/ (u, v) = (y, x) -> False.
  case=> d e1 e2 [] [e3 e4]; subst; first by have := h3 d; rewrite !eqxx.
  by have := h3 (al d); rewrite (pm_alK pm) !eqxx.
have [a [b [ab hM hxy]]] : exists a b : 'I_n, [/\ (a < b)%N, [set a; b] \in M & (a, b) = (x, y) \/ (a, b) = (y, x)].
  have := h2; rewrite -val_eqE neq_ltn => /orP[] h4; [exists x, y|exists y, x]; split=> //; [left|rewrite setUC|right] => //.
rewrite /mweight (bigD1 (a, b)) /=; last by rewrite /edge ab.
case: (W a b =P 0) => [-> |/eqP /Wadj h4]; first by rewrite mul0r.
by case: (nd _ _ h4 hxy).
Qed.

Theorem fkt_pfaffian : exists2 u : R, u * u = 1 & pfaffian orientedW = u * hafnian W.
Proof.
case: (boolP [exists M : {set {set 'I_n}}, perfect_matching M && (mweight W M != 0)]) => [|h].
  case/existsP=> M0 /andP[p0 w0]; have a0 : along M0 by case: (along_dec M0) => // h; rewrite h eqxx in w0.
  exists ((-1) ^+ crossings M0 * mweight K M0); first exact: term_pair.
  rewrite /pfaffian /hafnian big_distrr; apply: eq_bigr => M pM /=.
  rewrite mweight_mul mulrA; case: (along_dec M) => [aM|->]; last by rewrite !mulr0.
  congr (_ * _); have := term_pair p0 p0 a0 a0; have := term_pair p0 pM a0 aM.
  move: (_ * mweight K M) (_ * mweight K M0) => a b h1 h2.
  by rewrite -[a]mul1r -h2 -mulrA h1 mulr1.
exists 1; first by rewrite mulr1.
rewrite /pfaffian /hafnian mul1r; apply: eq_bigr => M pM.
move: h => /existsPn/(_ M); rewrite pM /= negbK => /eqP h.
by rewrite mweight_mul h !mulr0.
Qed.
End Fkt.
