(* Planar.v -- combinatorial plane maps: spanning trees, dual trees, and the two sides of a cycle *)
Set Warnings "-notation-overridden,-ambiguous-paths".
From mathcomp Require Import all_ssreflect all_fingroup all_algebra.
From mathcomp.zify Require Import zify.
Set Implicit Arguments.
Unset Strict Implicit.
Unset Printing Implicit Defensive.
Import Order.Theory GRing.Theory Num.Theory.
Local Open Scope ring_scope.

(* ------------------------------------------------------------------ *)
(* fixed point free involutions *)
Section Involution.
Variables (X : finType) (f : X -> X).
Hypothesis fK : involutive f.
Hypothesis f_ne : forall x, f x != x.
Variable A : {set X}.
Hypothesis fA : forall x, x \in A -> f x \in A.
Definition lower : {set X} := [set x in A | (enum_rank x < enum_rank (f x))%N].

Lemma lower_split x : x \in A -> (x \notin lower) = (f x \in lower).
Proof.
move=> xA; rewrite !inE xA fA //= fK -leqNgt ltn_neqAle; case: eqP => // h.
by have := f_ne x; rewrite (enum_rank_inj (val_inj h)) eqxx.
Qed.

Lemma big_lower (R : Type) (idx : R) (op : Monoid.com_law idx) (F : X -> R) :
  \big[op/idx]_(x in A) F x = \big[op/idx]_(x in lower) op (F x) (F (f x)).
Proof.
rewrite big_split /= (bigID (mem lower)) /=; congr (op _ _).
  by apply: eq_bigl => x; rewrite !inE andbA andbb.
rewrite [RHS](reindex_inj (can_inj fK)) /=; apply: eq_big => [x|x _]; last by rewrite fK.
apply/andP/idP; first by case=> xA; rewrite lower_split.
move=> h; have xA : x \in A by move: h; rewrite inE => /andP[/fA]; rewrite fK.
by rewrite lower_split.
Qed.
Lemma card_lower : (#|A| = 2 * #|lower|)%N.
Proof. by rewrite -[LHS]sum1_card big_lower /= mulnC -sum_nat_const; apply: eq_bigr. Qed.
Lemma even_card : ~~ odd #|A|. Proof. by rewrite card_lower oddM. Qed.
End Involution.

(* ------------------------------------------------------------------ *)
(* Graphs given by darts: src d is the start of d, al d the same edge in the other direction *)
Section DartGraph.
Variables (V D : finType) (src : D -> V) (al : D -> D).
Hypothesis alK : involutive al.
Hypothesis al_ne : forall d, al d != d.

(* every vertex is joined to B by darts of E *)
Definition reaches (E : {set D}) (B : {set V}) : Prop :=
  forall P : pred V, (forall v, v \in B -> P v) ->
    (forall d, d \in E -> P (src (al d)) -> P (src d)) -> forall v, P v.

(* p v is a dart of E from v to a vertex of smaller rank, for all v outside B *)
Definition parents (E : {set D}) (B : {set V}) (rk : V -> nat) (p : V -> D) : Prop :=
  forall v, v \notin B -> [/\ p v \in E, src (p v) = v & (rk (src (al (p v))) < rk v)%N].

Lemma parents_ex E B (d0 : D) : reaches E B -> exists rk p, parents E B rk p.
Proof.
move: {2}#|~: B| (leqnn #|~: B|) => m; elim: m B => [|m IH] B hm hr.
  exists (fun=> 0%N), (fun=> d0) => v; rewrite -in_setC => hv.
  by move: hm; rewrite leqn0 cards_eq0 => /eqP h; rewrite h inE in hv.
case: (boolP [exists d, [&& d \in E, src (al d) \in B & src d \notin B]]) => [|h].
  case/existsP=> d /and3P[dE tB sB].
  have [||rk [p h]] := IH (src d |: B).
  - rewrite -ltnS; apply: leq_trans hm; apply: proper_card; rewrite properE; apply/andP; split.
      by apply/subsetP => x; rewrite !inE negb_or => /andP[].
    by apply/subsetPn; exists (src d); rewrite !inE ?eqxx.
  - by move=> P hP; apply: hr => v vB; apply: hP; rewrite !inE vB orbT.
  exists (fun v => if v \in B then 0%N else if v == src d then 1%N else (rk v).+2).
  exists (fun v => if v == src d then d else p v) => v vB.
  rewrite (negbTE vB); case: eqP => [-> |ne]; first by rewrite tB.
  have [|h1 h2 h3] := h v; first by rewrite !inE (negbTE vB) orbF; apply/eqP.
  by split=> //; case: ifP => // _; case: ifP.
exists (fun=> 0%N), (fun=> d0) => v /negP[]; move: v; apply: hr => // d dE dB.
by move: h => /existsPn/(_ d); rewrite dE dB /= negbK.
Qed.

Section Parents.
Variables (E : {set D}) (B : {set V}) (rk : V -> nat) (p : V -> D).
Hypothesis par : parents E B rk p.

(* the darts of the forest, in both directions *)
Definition forest : {set D} := [set p v | v in ~: B] :|: [set al (p v) | v in ~: B].

Lemma forestP d : reflect (exists2 v, v \notin B & d = p v \/ d = al (p v)) (d \in forest).
Proof.
apply: (iffP idP).
  by rewrite inE => /orP[] /imsetP[v]; rewrite inE => hv ->; exists v => //; [left|right].
by case=> v hv [] ->; rewrite inE; apply/orP; [left|right]; apply/imsetP; exists v; rewrite // inE.
Qed.
Lemma forest_al d : (al d \in forest) = (d \in forest).
Proof.
suff W x : x \in forest -> al x \in forest by apply/idP/idP => /W; rewrite ?alK.
by case/forestP=> v hv h; apply/forestP; exists v => //; case: h => ->; rewrite ?alK; [right|left].
Qed.

Lemma p_al u v : u \notin B -> v \notin B -> p u != al (p v).
Proof.
move=> hu hv; apply/eqP => e; have [_ s1 r1] := par hu; have [_ s2 r2] := par hv.
move: r1; rewrite e alK s2 => r1; move: r2; rewrite -e s1 => r2.
by have := ltn_trans r1 r2; rewrite ltnn.
Qed.

Lemma p_inj : {in ~: B &, injective p}.
Proof.
move=> u v; rewrite !inE => hu hv e; have [_ s1 _] := par hu; have [_ s2 _] := par hv.
by rewrite -s1 -s2 e.
Qed.

Lemma card_forest : (#|forest| = 2 * #|~: B|)%N.
Proof.
rewrite cardsU (_ : _ :&: _ = set0); last first.
  apply/setP => d; rewrite !inE; apply/negbTE/negP => /andP[/imsetP[u]].
  rewrite inE => hu -> /imsetP[v]; rewrite inE => hv e.
  by have := p_al hu hv; rewrite e eqxx.
rewrite cards0 subn0 mul2n -addnn; congr (_ + _)%N; apply: card_in_imset; first exact: p_inj.
by move=> u v hu hv /(can_inj alK); apply: p_inj.
Qed.

Hypothesis E_al : forall d, d \in E -> al d \in E.
Lemma forest_sub : forest \subset E.
Proof.
apply/subsetP => d /forestP[v hv h]; have [pE _ _] := par hv.
by case: h => -> //; apply: E_al.
Qed.
Lemma parents_card : (2 * #|~: B| <= #|E|)%N.
Proof. by rewrite -card_forest subset_leq_card // forest_sub. Qed.
Lemma parents_eq : (#|E| <= 2 * #|~: B|)%N -> E = forest.
Proof. by rewrite -card_forest => h; apply/eqP; rewrite eq_sym eqEcard forest_sub h. Qed.

End Parents.

(* circulations *)
Definition circ (f : D -> int) : Prop :=
  (forall d, f (al d) = - f d) /\ forall v, \sum_(d | src d == v) f d = 0.

Lemma circB f g (k : int) : circ f -> circ g -> circ (fun d => f d - k * g d).
Proof.
move=> [h1 h2] [h3 h4]; split=> [d|v]; first by rewrite h1 h3 mulrN opprB opprK addrC.
by rewrite sumrB h2 -mulr_sumr h4 mulr0 subr0.
Qed.

(* a circulation supported on a forest vanishes *)
Lemma circ_forest E B rk p f : parents E B rk p -> circ f ->
  (forall d, d \notin forest B p -> f d = 0) -> forall d, f d = 0.
Proof.
move=> par [h1 h2] h0.
suff W v : v \notin B -> f (p v) = 0.
  move=> d; case: (boolP (d \in forest B p)) => [/forestP[v hv [] ->]|/h0 //]; last rewrite h1.
    exact: W.
  by rewrite W ?oppr0.
pose M := \max_(v : V) rk v.
suff W k u : (M - rk u <= k)%N -> u \notin B -> f (p u) = 0 by apply: (W (M - rk v)%N).
have leM x : (rk x <= M)%N by apply: (leq_bigmax x).
elim: k u => [|k IH] u hk hu; have [_ su ru] := par _ hu.
- have := h2 u; rewrite (bigD1 (p u)) ?su //= big1 ?addr0 // => d /andP[/eqP sd nd].
  case: (boolP (d \in forest B p)) => [/forestP[x hx [ex|ex]]|/h0 //]; have [_ sx rx] := par _ hx.
    by move: nd sd; rewrite ex sx => /eqP nd exu; rewrite exu in nd.
  by move: rx; rewrite -ex sd; have := leM x; lia.
have := h2 u; rewrite (bigD1 (p u)) ?su //= big1 ?addr0 // => d /andP[/eqP sd nd].
case: (boolP (d \in forest B p)) => [/forestP[x hx [ex|ex]]|/h0 //]; have [_ sx rx] := par _ hx.
  by move: nd sd; rewrite ex sx => /eqP nd exu; rewrite exu in nd.
rewrite ex h1 IH ?oppr0 //; move: rx; rewrite -ex sd; have := leM x; lia.
Qed.

(* values along a forest can be prescribed *)
Lemma potential_ex E B rk p (c : D -> int) : parents E B rk p ->
  exists s : V -> int, forall v, v \notin B -> s v - s (src (al (p v))) = c (p v).
Proof.
move=> par.
suff W K : exists s : V -> int, forall v, v \notin B -> (rk v < K)%N -> s v - s (src (al (p v))) = c (p v).
  have [s hs] := W (\max_(v : V) rk v).+1; exists s => v hv; apply: hs => //.
  by rewrite ltnS; apply: (leq_bigmax v).
elim: K => [|K [s IH]]; first by exists (fun=> 0).
exists (fun v => if (rk v == K) && (v \notin B) then s (src (al (p v))) + c (p v) else s v) => v hv hk.
have [_ _ r] := par _ hv; rewrite hv andbT.
have -> /= : (rk (src (al (p v))) == K)%N = false by lia.
case: eqP => [_|ne]; first by rewrite addrC addKr.
by apply: IH => //; lia.
Qed.
End DartGraph.

(* ------------------------------------------------------------------ *)
(* Plane maps.  phi d is the dart that follows d on its face fc d. *)
Section PlaneMap.
Variables (V D F : finType) (src : D -> V) (fc : D -> F) (al phi : D -> D).
Hypothesis alK : involutive al.
Hypothesis al_ne : forall d, al d != d.
Hypothesis phi_inj : injective phi.
Hypothesis src_phi : forall d, src (phi d) = src (al d).
Hypothesis fc_phi : forall d, fc (phi d) = fc d.
(* the next dart around the start of d *)
Definition sigma (d : D) : D := phi (al d).
(* around every vertex there is one cycle of darts *)
Hypothesis single : forall d d', src d = src d' -> fconnect sigma d d'.
Hypothesis conn : forall P : pred V, (forall d, P (src d) -> P (src (al d))) -> forall u v, P u -> P v.
(* every face has a dart *)
Hypothesis fc_onto : forall f, exists d, fc d = f.

Lemma al_inj : injective al. Proof. exact: can_inj alK. Qed.
Lemma sigma_inj : injective sigma. Proof. by move=> x y /phi_inj/al_inj. Qed.
Lemma src_sigma d : src (sigma d) = src d. Proof. by rewrite src_phi alK. Qed.
Lemma fc_sigma d : fc (sigma d) = fc (al d). Proof. exact: fc_phi. Qed.

(* the coboundary of a function on faces *)
Definition delta (s : F -> int) (d : D) : int := s (fc d) - s (fc (al d)).

Lemma delta_circ s : circ src al (delta s).
Proof.
split=> [d|v]; first by rewrite /delta alK opprB.
rewrite /delta sumrB; apply/eqP; rewrite subr_eq0; apply/eqP.
rewrite (reindex_inj sigma_inj) /=; apply: eq_big => [d|d _]; first by rewrite src_sigma.
by rewrite fc_sigma.
Qed.

Lemma delta0_dart s d d' : (forall d, delta s d = 0) -> s (fc d) = s (fc d').
Proof.
move=> h; have hs x : s (fc (sigma x)) = s (fc x).
  by rewrite fc_sigma; apply/esym/eqP; rewrite -subr_eq0; apply/eqP/h.
have same x y : src x = src y -> s (fc x) = s (fc y).
  move/single => /iter_findex <-; elim: (findex _ _ _) => //= n ->; by rewrite hs.
pose P v := [forall x, (src x == v) ==> (s (fc x) == s (fc d))].
have Pd : P (src d) by apply/forallP => x; apply/implyP => /eqP /same ->.
suff : P (src d') by move=> /forallP/(_ d')/implyP/(_ (eqxx _))/eqP ->.
refine (@conn P _ _ _ Pd) => x /forallP/(_ x)/implyP/(_ (eqxx _))/eqP hx.
apply/forallP => y; apply/implyP => /eqP /same ->; rewrite -hx eq_sym -subr_eq0; apply/eqP/h.
Qed.
Lemma delta0 s f f' : (forall d, delta s d = 0) -> s f = s f'.
Proof. by move=> h; have [d <-] := fc_onto f; have [d' <-] := fc_onto f'; apply: delta0_dart. Qed.

Section Tree.
(* a spanning tree, as a set of darts *)
Variable T : {set D}.
Hypothesis T_al : forall d, d \in T -> al d \in T.
Hypothesis T_conn : forall P : pred V, (forall d, d \in T -> P (src d) -> P (src (al d))) -> forall u v, P u -> P v.
Hypothesis T_card : (#|T| = 2 * #|V|.-1)%N.

Lemma T_alE d : (al d \in T) = (d \in T).
Proof. by apply/idP/idP => /T_al; rewrite ?alK. Qed.

Lemma T_reaches r : reaches src al T [set r].
Proof.
move=> P hP hd v; have Pr : P r by apply: hP; rewrite inE.
refine (@T_conn P _ _ _ Pr) => d dT Pd; apply: hd; first by rewrite T_alE.
by rewrite alK.
Qed.

Lemma cardC1V (X : finType) (r : X) : #|~: [set r]| = #|X|.-1.
Proof. by rewrite cardsC1. Qed.

(* a circulation supported on the tree vanishes *)
Lemma circ_tree f : circ src al f -> (forall d, d \notin T -> f d = 0) -> forall d, f d = 0.
Proof.
move=> cf h d; have [rk [p par]] := parents_ex d (@T_reaches (src d)).
apply: (circ_forest par) => // x hx; apply: h.
by rewrite (parents_eq alK par T_al) // cardC1V T_card.
Qed.

(* faces are joined by the darts outside the tree *)
Lemma cotree_conn (S : pred F) : (forall d, d \notin T -> S (fc d) -> S (fc (al d))) -> forall f f', S f -> S f'.
Proof.
move=> h f f' Sf; pose s f : int := (S f)%:R.
have : s f = s f'.
  apply: delta0; apply: circ_tree (delta_circ s) _ => d dT; rewrite /delta /s.
  have -> : S (fc d) = S (fc (al d)); last by rewrite subrr.
  apply/idP/idP; first exact: h.
  by move/h; rewrite alK T_alE => /(_ dT).
by rewrite /s Sf; case: (S f').
Qed.
Lemma cotree_reaches r : reaches fc al (~: T) [set r].
Proof.
move=> P hP hd v; have Pr : P r by apply: hP; rewrite inE.
refine (@cotree_conn P _ _ _ Pr) => d dT Pd; apply: hd; first by rewrite inE T_alE.
by rewrite alK.
Qed.

Hypothesis euler : (2 * (#|V| + #|F|) = #|D| + 4)%N.

(* the darts outside the tree form a spanning tree of the dual *)
Lemma cotree_forest r (d0 : D) : exists rk p, parents fc al (~: T) [set r] rk p /\ ~: T = forest al [set r] p.
Proof.
have [rk [p par]] := parents_ex d0 (@cotree_reaches r); exists rk, p; split=> //.
apply: (parents_eq alK par) => [d|]; first by rewrite !inE T_alE.
rewrite cardC1V; have := cardsC T; rewrite T_card.
have : (0 < #|V|)%N by apply/card_gt0P; exists (src d0).
have : (0 < #|F|)%N by apply/card_gt0P; exists (fc d0).
lia.
Qed.

(* every circulation is a coboundary *)
Lemma potential (c : D -> int) (d0 : D) : circ src al c -> exists s, forall d, delta s d = c d.
Proof.
move=> cc; have [rk [p [par eT]]] := cotree_forest (fc d0) d0.
have [s hs] := potential_ex c par; exists s => d; apply/eqP; rewrite -subr_eq0; apply/eqP.
rewrite -[c d]mul1r; apply: (circ_tree (f := fun d => delta s d - 1 * c d)).
  by apply: circB => //; apply: delta_circ.
move=> x; rewrite -in_setC eT => /forestP[f hf] h; rewrite mul1r.
have e := hs f hf; have [_ sf _] := par f hf.
case: h => ->; rewrite /delta; first by rewrite sf e subrr.
by case: cc => ->; rewrite alK sf opprK -opprB e addNr.
Qed.

(* ---------------------------------------------------------------- *)
(* A simple cycle: pi permutes the vertices, e x is a dart from x to pi x, and B is an orbit of length at least 3 *)
Section Cycle.
Variables (pi : {perm V}) (e : V -> D) (x0 : V).
Let B := porbit pi x0.
Hypothesis e_src : forall x, x \in B -> src (e x) = x.
Hypothesis e_tgt : forall x, x \in B -> src (al (e x)) = pi x.
Hypothesis long : (2 < #|B|)%N.

Lemma B_pi x : (pi x \in B) = (x \in B).
Proof.
rewrite /B -!eq_porbit_mem; congr (_ == _); apply/eqP; rewrite eq_porbit_mem.
by have := mem_porbit pi 1 x; rewrite expg1.
Qed.
Lemma x0B : x0 \in B. Proof. exact: porbit_id. Qed.

Definition cyc : {set D} := [set e x | x in B].
Lemma e_al x y : x \in B -> y \in B -> e x != al (e y).
Proof.
move=> hx hy; apply/eqP => h.
have e1 : x = pi y by rewrite -(e_src hx) h e_tgt.
have e2 : y = pi x by rewrite -(e_tgt hx) h alK e_src.
have : (#|B| <= #|[set x; y]|)%N.
  have -> : B = porbit pi x by apply/esym/eqP; rewrite eq_porbit_mem.
  apply: subset_leq_card; apply/subsetP => z /porbitP[i ->]; rewrite !inE.
  elim: i => [|i IH]; first by rewrite expg0 perm1 eqxx.
  by rewrite expgSr permM; case/orP: IH => /eqP ->; rewrite -?e1 -?e2 eqxx ?orbT.
by rewrite cards2; move: long; case: (x != y) => /=; lia.
Qed.
Lemma cyc_al d : d \in cyc -> al d \notin cyc.
Proof.
case/imsetP=> x hx ->; apply/negP => /imsetP[y hy h].
by have := e_al hy hx; rewrite -h eqxx.
Qed.

Definition cc (d : D) : int := (d \in cyc)%:R - (al d \in cyc)%:R.
Lemma cc_circ : circ src al cc.
Proof.
split=> [d|v]; first by rewrite /cc alK opprB.
rewrite /cc sumrB.
have sum1 (a : pred D) : \sum_(d | src d == v) (a d)%:R = (#|[set d | a d & src d == v]|)%:R :> int.
  rewrite -sum1_card natr_sum [RHS](eq_bigl (fun d => (src d == v) && a d)); last by move=> d; rewrite !inE andbC.
  by rewrite big_mkcondr; apply: eq_bigr => d _; case: (a d).
rewrite !sum1; case: (boolP (v \in B)) => hv; last first.
  have -> : [set d | d \in cyc & src d == v] = set0.
    apply/setP => d; rewrite !inE; apply/negbTE/negP => /andP[/imsetP[x hx h] /eqP hs].
    by move: hv; rewrite -hs h e_src // hx.
  have -> : [set d | al d \in cyc & src d == v] = set0; last by rewrite subrr.
  apply/setP => d; rewrite !inE; apply/negbTE/negP => /andP[/imsetP[x hx h] /eqP hs].
  by move: hv; rewrite -hs -[d]alK h e_tgt // B_pi hx.
have hw : (pi^-1)%g v \in B by rewrite -B_pi permKV.
rewrite (_ : [set d | d \in cyc & _] = [set e v]); last first.
  apply/setP => d; rewrite !inE; apply/andP/eqP; first by case=> /imsetP[x hx ->]; rewrite e_src // => /eqP ->.
  by move=> ->; rewrite e_src // eqxx; split=> //; apply/imsetP; exists v.
rewrite (_ : [set d | _ & _] = [set al (e ((pi^-1)%g v))]) ?cards1 ?subrr //.
apply/setP => d; rewrite !inE; apply/andP/eqP.
  case=> /imsetP[x hx h]; rewrite -[d]alK h e_tgt // => /eqP h2; by rewrite -h2 permK.
by move=> ->; rewrite alK e_tgt // permKV eqxx; split=> //; apply/imsetP; exists ((pi^-1)%g v).
Qed.

(* a circulation supported on the cycle is a multiple of cc *)
Lemma circ_cyc g : circ src al g -> (forall d, d \notin cyc -> al d \notin cyc -> g d = 0) ->
  forall d, g d = g (e x0) * cc d.
Proof.
move=> [g1 g2] g0.
have step x : x \in B -> g (e (pi x)) = g (e x).
  move=> hx; have hp : pi x \in B by rewrite B_pi.
  have := g2 (pi x); rewrite (bigD1 (e (pi x))) ?e_src //= (bigD1 (al (e x))) /=; last first.
    by rewrite e_tgt // eqxx eq_sym e_al.
  rewrite big1 ?addr0 ?g1; first by move/eqP; rewrite subr_eq0 => /eqP.
  move=> d /andP[/andP[/eqP sd n1] n2]; apply: g0; apply/imsetP => -[y hy h].
    by move: n1 sd; rewrite h e_src // => /eqP n1 h2; rewrite h2 in n1.
  have h2 : d = al (e y) by rewrite -h alK.
  by move: n2 sd; rewrite h2 e_tgt // => /eqP n2 /perm_inj h3; rewrite h3 in n2.
have same x : x \in B -> g (e x) = g (e x0).
  case/porbitP=> i ->; elim: i => [|i IH]; first by rewrite expg0 perm1.
  by rewrite expgSr permM step // mem_porbit.
move=> d; rewrite /cc; case: (boolP (d \in cyc)) => hd.
  by rewrite (negbTE (cyc_al hd)) subr0 mulr1; case/imsetP: hd => x hx ->; apply: same.
case: (boolP (al d \in cyc)) => ha; last by rewrite subrr mulr0 g0.
rewrite sub0r mulrN1 -[d in LHS]alK g1; congr (- _).
by case/imsetP: ha => x hx ->; apply: same.
Qed.

(* the two sides of the cycle *)
Lemma jordan : exists S : {set F}, forall d, delta (fun f => (f \in S)%:R) d = cc d.
Proof.
have [s hs] := potential (e x0) cc_circ.
have c0 : cc (e x0) = 1.
  have h : e x0 \in cyc by apply/imsetP; exists x0; rewrite ?x0B.
  by rewrite /cc h (negbTE (cyc_al h)) subr0.
exists [set f | s (fc (e x0)) <= s f]; set u := (fun f => _).
have h0 : delta u (e x0) = 1.
  have := hs (e x0); rewrite c0 /delta => h1; rewrite /u !inE lexx.
  by have -> : (s (fc (e x0)) <= s (fc (al (e x0)))) = false by lia.
move=> d; rewrite (circ_cyc (delta_circ u)) ?h0 ?mul1r // => x n1 n2.
have := hs x; rewrite /cc (negbTE n1) (negbTE n2) subrr /delta /u !inE => /eqP; rewrite subr_eq0 => /eqP ->.
by rewrite subrr.
Qed.

Lemma B_fconnect v : v \in B -> fconnect pi v x0.
Proof. by rewrite porbit_sym => /porbitP[i ->]; rewrite permX fconnect_iter. Qed.

(* a spanning tree that contains the cycle but one edge *)
Lemma cycle_tree : exists rk p, parents src al setT [set x0] rk p /\ forall x, x \in B -> p x = e x.
Proof.
have [|rk [p par]] := @parents_ex V D src al setT B (e x0).
  move=> P hP hd v; refine (@conn P _ _ _ (hP _ x0B)) => d Pd; apply: hd; rewrite ?inE // alK //.
exists (fun v => if v \in B then findex pi v x0 else (#|V| + rk v)%N), (fun v => if v \in B then e v else p v).
split=> [v|x ->] //; rewrite inE => nv; case: (boolP (v \in B)) => hv.
  rewrite e_src // e_tgt // B_pi hv; split=> //.
  by rewrite [X in (_ < X)%N]fconnect_findex ?B_fconnect // eq_sym.
have [_ h1 h2] := par v hv; split=> //; case: ifP => hB; last by rewrite ltn_add2l.
rewrite ltn_addr //; apply: (leq_trans (n := fingraph.order pi (src (al (p v))))); last exact: max_card.
by apply: findex_max; apply: B_fconnect.
Qed.

Section Sides.
Variables (rk : V -> nat) (p : V -> D).
Hypothesis par : parents src al setT [set x0] rk p.
Hypothesis pe : forall x, x \in B -> p x = e x.
Let T' := forest al [set x0] p.

Lemma e0T : e x0 \notin T'.
Proof.
apply/forestP => -[v nv' h]; have [_ sv _] := par nv'; have nv := nv'; rewrite inE in nv.
case: h => h; first by move: nv; rewrite -sv -h e_src ?x0B // eqxx.
have h2 : p v = al (e x0) by rewrite h alK.
have vB : v \in B by rewrite -sv h2 e_tgt ?x0B // B_pi x0B.
by have := e_al x0B vB; rewrite h pe // eqxx.
Qed.

Lemma cycT d : d \in cyc -> d != e x0 -> d \in T'.
Proof.
case/imsetP=> x hx -> ne; apply/forestP; exists x; last by left; rewrite pe.
by rewrite inE; apply: contraNneq ne => ->.
Qed.

Definition inner (S : {set F}) : {set D} := [set d | (fc d \in S) && (fc (al d) \in S)].

Lemma side (S : {set F}) d1 : (forall d, d \notin cyc -> al d \notin cyc -> (fc d \in S) = (fc (al d) \in S)) ->
  d1 = e x0 \/ d1 = al (e x0) -> fc d1 \in S -> fc (al d1) \notin S ->
  reaches fc al (inner S :\: T') (~: S :|: [set fc d1]).
Proof.
move=> hS hd1 i1 o1 P hP hd f; case: (boolP (f \in S)) => fS; last by apply: hP; rewrite !inE fS.
pose u (f : F) : int := ((f \in S) && P f)%:R; pose w (f : F) : int := (f \in S)%:R.
have P1 : P (fc d1) by apply: hP; rewrite !inE eqxx orbT.
have uw : delta u (e x0) = delta w (e x0).
  by case: hd1 => h; rewrite h in i1 o1 P1; rewrite /delta /u /w; rewrite ?alK in o1; rewrite i1 (negbTE o1) P1.
have dw d : delta w d = delta w (e x0) * cc d.
  by apply: circ_cyc (delta_circ w) _ d => d n1 n2; rewrite /delta /w hS // subrr.
have du d : delta u d - delta u (e x0) * cc d = 0.
  have c := circB (delta u (e x0)) (delta_circ u) cc_circ.
  move: d; refine (circ_forest par c _) => d dT.
  have c0 : cc (e x0) = 1.
    have h : e x0 \in cyc by apply/imsetP; exists x0; rewrite ?x0B.
    by rewrite /cc h (negbTE (cyc_al h)) subr0.
  have e1 : d \in cyc -> d = e x0 by move=> h; apply/eqP; apply: contraNT dT; apply: cycT.
  have e2 : al d \in cyc -> al d = e x0.
    by move=> h; apply/eqP; apply: contraNT dT => h2; rewrite -(forest_al alK); apply: cycT.
  case: (boolP (d \in cyc)) => [/e1 ->|n1]; first by rewrite c0 mulr1 subrr.
  case: (boolP (al d \in cyc)) => [/e2 h|n2].
    case: (delta_circ u) => ha _; case: cc_circ => hc _.
    by rewrite -[d]alK h ha hc c0 mulrN1 subrr.
  rewrite /cc (negbTE n1) (negbTE n2) subrr mulr0 subr0 /delta /u -hS //.
  case dS: (fc d \in S) => /=; last by rewrite subrr.
  have dI : d \in inner S :\: T' by rewrite in_setD dT inE -hS // dS.
  have aI : al d \in inner S :\: T' by rewrite in_setD (forest_al alK) dT inE alK -hS // dS.
  have -> : P (fc d) = P (fc (al d)); last by rewrite subrr.
  by apply/idP/idP => h; apply: hd => //; rewrite alK.
have h : forall d, delta (fun f => u f - w f) d = 0.
  move=> d; rewrite /delta; have := du d; rewrite uw -dw /delta => h; by lia.
have := delta0 f (fc (al d1)) h; rewrite /u /w fS (negbTE o1) /=.
by case: (P f).
Qed.

(* the side S of the cycle *)
Variable S : {set F}.
Hypothesis hS : forall d, delta (fun f => (f \in S)%:R) d = cc d.

Lemma S_cyc d : d \in cyc -> (fc d \in S) && (fc (al d) \notin S).
Proof.
move=> h; have := hS d; rewrite /cc h (negbTE (cyc_al h)) subr0 /delta.
by case: (fc d \in S); case: (fc (al d) \in S).
Qed.
Lemma S_out d : d \notin cyc -> al d \notin cyc -> (fc d \in S) = (fc (al d) \in S).
Proof.
move=> h1 h2; have := hS d; rewrite /cc (negbTE h1) (negbTE h2) subr0 /delta.
by case: (fc d \in S); case: (fc (al d) \in S).
Qed.
Lemma S_cross d : fc d \in S -> fc (al d) \notin S -> d \in cyc.
Proof.
move=> h1 h2; have := hS d; rewrite /delta h1 (negbTE h2) /cc.
by case: (d \in cyc) => //; case: (al d \in cyc).
Qed.

Lemma off_cyc d : src d \notin B -> d \notin cyc /\ al d \notin cyc.
Proof.
move=> h; split; apply/imsetP => -[x hx e1]; first by move: h; rewrite e1 e_src // hx.
by move: h; rewrite -[d]alK e1 e_tgt // B_pi hx.
Qed.

(* the vertices strictly inside *)
Definition Vin : {set V} := [set v | (v \notin B) && [exists d, (src d == v) && (fc d \in S)]].

Lemma around d d' : src d \notin B -> src d = src d' -> (fc d \in S) = (fc d' \in S).
Proof.
move=> hd /single /iter_findex <-; elim: (findex _ _ _) => //= n ->.
set x := iter n _ d; have sx : src x = src d by rewrite /x; elim: n {x} => //= n; rewrite src_sigma.
have xB : src x \notin B by rewrite sx.
by have [n1 n2] := off_cyc xB; rewrite fc_sigma S_out.
Qed.
Lemma mem_Vin d : src d \notin B -> (src d \in Vin) = (fc d \in S).
Proof.
move=> h; rewrite inE h /=; apply/existsP/idP => [[x /andP[/eqP sx]]|hd]; last by exists d; rewrite eqxx.
by rewrite (@around x d) // sx.
Qed.

Lemma inner_tree : (#|inner S :&: T'| = 2 * #|Vin|)%N.
Proof.
have nx v : v \in Vin -> v \notin B /\ v != x0.
  by rewrite inE => /andP[h _]; split=> //; apply: contraNneq h => ->; apply: x0B.
have par' : parents src al setT (~: Vin) rk p.
  by move=> v; rewrite inE negbK => /nx[_ h]; apply: par; rewrite inE.
have := card_forest alK par'; rewrite setCK => <-; apply: eq_card => d.
rewrite in_setI; apply/andP/forestP.
  case=> dI /forestP[v nv h]; have [_ sv _] := par nv.
  have pI : p v \in inner S by move: dI; case: h => -> //; rewrite !inE alK andbC.
  have nvB : v \notin B.
    apply/negP => hv; move: pI; rewrite inE pe // => /andP[_ h2].
    have : e v \in cyc by apply/imsetP; exists v.
    by move/S_cyc; rewrite h2 andbF.
  exists v => //; rewrite inE negbK -sv mem_Vin ?sv //.
  by move: pI; rewrite inE => /andP[].
case=> v; rewrite inE negbK => hv h; have [nvB nv] := nx v hv.
have nv' : v \notin [set x0] by rewrite inE.
have [_ sv _] := par nv'.
have pS : fc (p v) \in S by rewrite -mem_Vin sv.
have pB : src (p v) \notin B by rewrite sv.
have [n1 n2] := off_cyc pB.
have pI : p v \in inner S by rewrite inE pS -S_out.
split; last by apply/forestP; exists v; rewrite // inE.
by case: h => -> //; move: pI; rewrite !inE alK andbC.
Qed.

Lemma sideC d : d \notin cyc -> al d \notin cyc -> (fc d \in ~: S) = (fc (al d) \in ~: S).
Proof. by move=> n1 n2; rewrite !inE S_out. Qed.

Lemma inner_al (X : {set F}) d : d \in inner X :\: T' -> al d \in inner X :\: T'.
Proof. by rewrite !in_setD forest_al // => /andP[-> /=]; rewrite !inE alK andbC. Qed.

(* Euler's formula inside the cycle *)
Lemma euler_in : (#|inner S| = 2 * (#|S|.-1 + #|Vin|))%N /\ (0 < #|S|)%N.
Proof.
have e0 : e x0 \in cyc by apply/imsetP; exists x0; rewrite ?x0B.
have /andP[i1 o1] := S_cyc e0.
have S0 : (0 < #|S|)%N by apply/card_gt0P; exists (fc (e x0)).
have r1 := @side S _ S_out (or_introl erefl) i1 o1.
have r2 : reaches fc al (inner (~: S) :\: T') (~: ~: S :|: [set fc (al (e x0))]).
  by apply: (@side _ _ sideC); [right|rewrite inE|rewrite inE alK negbK].
have [rk1 [p1 par1]] := parents_ex (e x0) r1.
have [rk2 [p2 par2]] := parents_ex (e x0) r2.
have := parents_card alK par1 (@inner_al S); have := parents_card alK par2 (@inner_al (~: S)).
have -> : ~: (~: S :|: [set fc (e x0)]) = S :\ fc (e x0) by apply/setP => f; rewrite !inE negb_or negbK andbC.
have -> : ~: (~: ~: S :|: [set fc (al (e x0))]) = ~: S :\ fc (al (e x0)).
  by apply/setP => f; rewrite !inE negb_or negbK andbC.
have := cardsD1 (fc (e x0)) S; rewrite i1 => c1.
have := cardsD1 (fc (al (e x0))) (~: S); rewrite inE o1 => c2.
have c3 := cardsC S; have c4 := card_forest alK par; rewrite -/T' cardC1V in c4.
have c5 : (#|inner S :\: T'| + #|inner (~: S) :\: T'| + #|T'| + 2 <= #|D|)%N.
  have e0T' : [set e x0; al (e x0)] :&: T' = set0.
    apply/setP => d; rewrite in_setI in_set0 !in_set2; apply/negbTE/negP => /andP[/orP[] /eqP ->].
      by rewrite (negbTE e0T).
    by rewrite forest_al // (negbTE e0T).
  have -> : (2 = #|[set e x0; al (e x0)]|)%N by rewrite cards2 eq_sym al_ne.
  have d1 : (inner S :\: T') :&: (inner (~: S) :\: T') = set0.
    by apply/setP => d; rewrite in_setI !in_setD in_set0 ![_ \in inner _]inE in_setC; case: (fc d \in S); rewrite ?andbF.
  have d2 : ((inner S :\: T') :|: (inner (~: S) :\: T')) :&: T' = set0.
    by apply/setP => d; rewrite in_setI in_setU !in_setD in_set0; case: (d \in T'); rewrite ?andbF.
  have d3 : (((inner S :\: T') :|: (inner (~: S) :\: T')) :|: T') :&: [set e x0; al (e x0)] = set0.
    rewrite setIUl [T' :&: _]setIC e0T' setU0; apply/setP => d; rewrite in_setI in_setU !in_setD in_set0 in_set2 ![_ \in inner _]inE.
    by apply/negbTE/negP => /andP[+ h]; case/orP: h => /eqP ->; rewrite !inE ?alK i1 (negbTE o1) ?andbF.
  have := cardsUI (inner S :\: T') (inner (~: S) :\: T'); rewrite d1 cards0 addn0 => <-.
  have := cardsUI ((inner S :\: T') :|: (inner (~: S) :\: T')) T'; rewrite d2 cards0 addn0 => <-.
  have := cardsUI ((inner S :\: T') :|: (inner (~: S) :\: T') :|: T') [set e x0; al (e x0)].
  by rewrite d3 cards0 addn0 => <-; apply: max_card.
have c6 := cardsID T' (inner S); rewrite inner_tree in c6.
split=> //; have : (0 < #|V|)%N by apply/card_gt0P; exists x0.
move: c1 c2 c3 c4 c5 c6 euler S0 => /=; lia.
Qed.
End Sides.
End Cycle.

Section Kasteleyn.
Variables (R : comRingType) (ep : D -> R).
Hypothesis ep_al : forall d, ep (al d) = - ep d.
Hypothesis ep_sq : forall d, ep d * ep d = 1.
(* every face has an odd number of edges against the orientation *)
Hypothesis ep_face : forall f, \prod_(d | fc d == f) ep d = -1.

Lemma half_prod (X : {set D}) k : (forall d, d \in X -> al d \in X) -> (#|X| = 2 * k)%N ->
  \prod_(d in X) ep d = (-1) ^+ k.
Proof.
move=> hX hk; rewrite (big_lower alK al_ne hX) /=.
rewrite (eq_bigr (fun=> -1)) => [|d _]; last by rewrite ep_al mulrN ep_sq.
rewrite prodr_const; congr (_ ^+ _); have := card_lower alK al_ne hX; rewrite hk; lia.
Qed.

(* Kasteleyn's lemma: the sign of a cycle is determined by the number of vertices inside *)
Lemma kasteleyn (pi : {perm V}) (e : V -> D) x0 : let B := porbit pi x0 in
  (forall x, x \in B -> src (e x) = x) -> (forall x, x \in B -> src (al (e x)) = pi x) -> (2 < #|B|)%N ->
  exists W : {set V}, [/\ \prod_(x in B) ep (e x) = - (-1) ^+ #|W|, forall v, v \in W -> v \notin B &
    forall d, src d \notin B -> src (al d) \notin B -> (src d \in W) = (src (al d) \in W)].
Proof.
move=> B h1 h2 h3; have [S hS] := jordan h1 h2 h3; have [rk [p [par pe]]] := cycle_tree h1 h2.
have [E1 S0] := euler_in h1 h2 h3 par pe hS.
exists (Vin pi x0 S); split; last 2 first.
- by move=> v; rewrite inE => /andP[].
- move=> d s1 s2; rewrite !(mem_Vin h1 h2 hS) //.
  by have [n1 n2] := off_cyc h1 h2 s1; apply: (S_out hS).
have e1 : \prod_(d | fc d \in S) ep d = (-1) ^+ #|S|.
  rewrite (partition_big fc (mem S)) //= -prodr_const; apply: eq_bigr => f fS.
  by rewrite -(ep_face f); apply: eq_bigl => d; case: eqP => [->|]; rewrite ?fS ?andbF.
have e2 : \prod_(d | fc d \in S) ep d = \prod_(x in B) ep (e x) * (-1) ^+ (#|S|.-1 + #|Vin pi x0 S|).
  rewrite -(half_prod (X := inner S) _ E1); last by move=> d; rewrite !inE alK andbC.
  rewrite (bigID (mem (inner S))) /= mulrC; congr (_ * _).
    rewrite -(big_imset ep (A := B) (h := e)) => [|x y hx hy exy]; last by rewrite -(h1 x hx) -(h1 y hy) exy.
    apply: eq_bigl => d; rewrite inE; apply/andP/idP.
      by case=> hd; rewrite hd /= => hn; apply: (S_cross hS).
    by move/(S_cyc h1 h2 h3 hS)/andP => [-> /=].
  by apply: eq_bigl => d; rewrite inE; case: (fc d \in S).
move: e1; rewrite e2 => e1.
have : \prod_(x in B) ep (e x) = (-1) ^+ #|S| * (-1) ^+ (#|S|.-1 + #|Vin pi x0 S|).
  by rewrite -e1 -mulrA -expr2 sqrr_sign mulr1.
move=> ->; move: S0; case: #|S| => // k _ /=.
by rewrite exprS exprD -mulrA [_ ^+ k * _]mulrA -expr2 sqrr_sign mul1r mulN1r.
Qed.

(* two perfect matchings, as fixed point free involutions along darts *)
Variables (K : V -> V -> R) (m m' : V -> V).
Hypothesis KE : forall d, K (src d) (src (al d)) = ep d.
Hypothesis mK : involutive m.
Hypothesis mK' : involutive m'.
Hypothesis m_ne : forall x, m x != x.
Hypothesis m_ne' : forall x, m' x != x.
Hypothesis m_adj : forall x, exists2 d, src d = x & src (al d) = m x.
Hypothesis m_adj' : forall x, exists2 d, src d = x & src (al d) = m' x.

Lemma tau_inj : injective (fun x => m' (m x)).
Proof. by move=> x y /(can_inj mK')/(can_inj mK). Qed.
Definition tau : {perm V} := perm tau_inj.
Lemma tauE x : tau x = m' (m x). Proof. by rewrite permE. Qed.

Lemma m_tau j x : m ((tau ^+ j)%g (m ((tau ^+ j)%g x))) = x.
Proof.
elim: j x => [|j IH] x; first by rewrite !expg0 !perm1 mK.
have e1 y : (tau ^+ j.+1)%g y = (tau ^+ j)%g (tau y) by rewrite expgS permM.
have e2 y : (tau ^+ j.+1)%g y = tau ((tau ^+ j)%g y) by rewrite expgSr permM.
by rewrite e1 e2 !tauE mK mK' IH.
Qed.

(* m x is not on the orbit of x *)
Lemma orbit_m x : porbit tau x != porbit tau (m x).
Proof.
rewrite eq_sym eq_porbit_mem; apply/negP => /porbitP[i hi].
have ti := m_tau i./2 x; set y := (tau ^+ i./2)%g x in ti.
have {}ti : (tau ^+ i./2)%g (m y) = m x by rewrite -[RHS]/(m x) -ti mK.
have h2 : (tau ^+ i)%g x = (tau ^+ i./2)%g ((tau ^+ odd i)%g y).
  have hi2 : i = (i./2 + (odd i + i./2))%N by rewrite -{1}(odd_double_half i) -addnn; lia.
  by rewrite /y -!permM -!expgD [X in (_ ^+ X)%g]hi2 addnC.
have : m y = (tau ^+ odd i)%g y by apply: (@perm_inj _ (tau ^+ i./2)%g); rewrite ti hi h2.
case: (odd i) => /eqP; last by rewrite expg0 perm1 (negbTE (m_ne y)).
by rewrite expg1 tauE eq_sym (negbTE (m_ne' _)).
Qed.

(* a colouring that both matchings respect *)
Definition colour : {set V} := [set x | (enum_rank (porbit tau x) < enum_rank (porbit tau (m x)))%N].
Lemma colour_m x : (m x \in colour) = (x \notin colour).
Proof.
rewrite !inE mK -leqNgt ltn_neqAle; case: eqP => // h.
by have := orbit_m x; rewrite (enum_rank_inj (val_inj h)) eqxx.
Qed.
Lemma porbit_tau x : porbit tau (tau x) = porbit tau x.
Proof. by have := porbit_perm tau 1 x; rewrite expg1. Qed.
Lemma colour_m' x : (m' x \in colour) = (x \notin colour).
Proof.
rewrite -colour_m !inE mK.
have -> : porbit tau (m' x) = porbit tau (m x) by rewrite -(porbit_tau (m x)) tauE mK.
have -> // : porbit tau (m (m' x)) = porbit tau x.
by rewrite -(porbit_tau (m (m' x))) tauE mK mK'.
Qed.

Definition pi_fun x := if x \in colour then m x else m' x.
Lemma pi_inj : injective pi_fun.
Proof.
move=> x y; rewrite /pi_fun; case: ifP => hx; case: ifP => hy h.
- exact: (can_inj mK).
- by have := colour_m' y; rewrite -h colour_m hx hy.
- by have := colour_m' x; rewrite h colour_m hx hy.
exact: (can_inj mK').
Qed.
Definition pi : {perm V} := perm pi_inj.
Lemma piE x : pi x = if x \in colour then m x else m' x. Proof. by rewrite permE. Qed.

Lemma pi_adj x : exists2 d, src d = x & src (al d) = pi x.
Proof. by rewrite piE; case: ifP => _; [apply: m_adj|apply: m_adj']. Qed.
Lemma pi_ne x : pi x != x.
Proof. by rewrite piE; case: ifP => _; [apply: m_ne|apply: m_ne']. Qed.

Lemma porbit_pi x : porbit pi (pi x) = porbit pi x.
Proof. by have := porbit_perm pi 1 x; rewrite expg1. Qed.
Lemma porbit_m x : porbit pi (m x) = porbit pi x.
Proof.
case: (boolP (x \in colour)) => hx; first by rewrite -(porbit_pi x) piE hx.
by rewrite -porbit_pi piE colour_m hx mK.
Qed.
Lemma mem_porbit_m x y : (m y \in porbit pi x) = (y \in porbit pi x).
Proof. by rewrite -!eq_porbit_mem porbit_m. Qed.

Lemma cycle_prod x : \prod_(y in porbit pi x) K y (pi y) = -1.
Proof.
have [d0 _ _] := m_adj x.
pose e y := odflt d0 [pick d | (src d == y) && (src (al d) == pi y)].
have eP y : src (e y) = y /\ src (al (e y)) = pi y.
  rewrite /e; case: pickP => [d /andP[/eqP h1 /eqP h2]|h] //=.
  by have [d h1 h2] := pi_adj y; have := h d; rewrite h1 h2 !eqxx.
have eK y : K y (pi y) = ep (e y) by rewrite -KE; have [-> ->] := eP y.
rewrite (eq_bigr (fun y => ep (e y))) => [|y _]; last by rewrite eK.
case: (ltnP 2 #|porbit pi x|) => h; last first.
  have px : pi x \in porbit pi x by rewrite -eq_porbit_mem porbit_pi.
  have E : porbit pi x = [set x; pi x].
    apply/esym/eqP; rewrite eqEcard cards2 eq_sym pi_ne h andbT; apply/subsetP => y; rewrite !inE.
    by case/orP=> /eqP -> //; apply: porbit_id.
  have ppx : pi (pi x) = x.
    have : pi (pi x) \in porbit pi x by rewrite -eq_porbit_mem !porbit_pi.
    rewrite E !inE => /orP[/eqP //|/eqP/perm_inj/eqP]; by rewrite (negbTE (pi_ne x)).
  rewrite E big_setU1 ?inE ?(eq_sym x) ?pi_ne //= big_set1.
  have [s1 s2] := eP x; have <- : K (pi x) x = ep (e (pi x)) by rewrite -{2}ppx eK.
  have -> : K (pi x) x = ep (al (e x)) by rewrite -KE alK s1 s2.
  by rewrite ep_al mulrN ep_sq.
have [W [h1 h2 h3]] := kasteleyn (fun y _ => proj1 (eP y)) (fun y _ => proj2 (eP y)) h.
rewrite h1 -signr_odd (negbTE (even_card mK m_ne _)) ?expr0 // => v vW.
have [d s1 s2] := m_adj v; have nv := h2 v vW.
by have := h3 d; rewrite s1 s2 mem_porbit_m => /(_ nv nv) <-.
Qed.

Lemma pair_sign : (-1) ^+ odd_perm pi * \prod_x K x (pi x) = 1.
Proof.
have ev : ~~ odd #|V| by rewrite -cardsT; apply: (even_card mK m_ne) => x; rewrite !inE.
rewrite (partition_big (porbit pi) (mem (porbits pi))) /=; last by move=> x _; apply: imset_f.
rewrite (eq_bigr (fun=> -1)).
  rewrite prodr_const /odd_perm (negbTE ev) /= signr_odd -expr2 sqrr_sign //.
move=> c /imsetP[x _ ->]; rewrite -(cycle_prod x); apply: eq_bigl => y.
by rewrite -eq_porbit_mem.
Qed.
End Kasteleyn.
End Tree.
End PlaneMap.

(* a connected plane map, without mention of a tree *)
Record plane_map (V D F : finType) (src : D -> V) (fc : D -> F) (al phi : D -> D) : Prop := PlaneMapOf {
  pm_alK : involutive al;
  pm_al : forall d, al d != d;
  pm_phi : injective phi;
  pm_src : forall d, src (phi d) = src (al d);
  pm_fc : forall d, fc (phi d) = fc d;
  pm_single : forall d d', src d = src d' -> fconnect (sigma al phi) d d';
  pm_conn : forall P : pred V, (forall d, P (src d) -> P (src (al d))) -> forall u v, P u -> P v;
  pm_onto : forall f, exists d, fc d = f;
  pm_euler : (2 * (#|V| + #|F|) = #|D| + 4)%N }.

(* a set of darts that forms a spanning tree *)
Record spanning_tree (V D : finType) (src : D -> V) (al : D -> D) (T : {set D}) : Prop := SpanningTree {
  st_al : forall d, d \in T -> al d \in T;
  st_conn : forall P : pred V, (forall d, d \in T -> P (src d) -> P (src (al d))) -> forall u v, P u -> P v;
  st_card : (#|T| = 2 * #|V|.-1)%N }.

Section Abstract.
Variables (V D F : finType) (src : D -> V) (fc : D -> F) (al phi : D -> D).
Hypothesis pm : plane_map src fc al phi.

Lemma spanning_tree_ex (d0 : D) : exists T, spanning_tree src al T.
Proof.
have alK := pm_alK pm; pose r := src d0.
have [|rk [p par]] := @parents_ex V D src al setT [set r] d0.
  move=> P hP hd v; have Pr : P r by apply: hP; rewrite inE.
  by refine (@pm_conn _ _ _ _ _ _ _ pm P _ _ _ Pr) => d Pd; apply: hd; rewrite ?inE // alK.
exists (forest al [set r] p); split.
- by move=> d; rewrite forest_al.
- move=> P hP u v Pu.
  have toroot x : P x = P r.
    move: {2}(rk x) (leqnn (rk x)) => k; elim: k x => [|k IH] x hk; case: (boolP (x \in [set r])) => hx;
      try by move: hx; rewrite inE => /eqP ->.
      by have [_ _] := par x hx; rewrite ltnNge (leq_trans hk).
    have [_ sx rx] := par x hx; rewrite -(IH (src (al (p x)))); last by rewrite -ltnS; apply: leq_trans hk.
    have pT : p x \in forest al [set r] p by apply/forestP; exists x => //; left.
    apply/idP/idP => h; first by apply: hP => //; rewrite sx.
    by rewrite -sx -[p x]alK; apply: hP; rewrite ?forest_al.
  by rewrite toroot -(toroot u).
by rewrite (card_forest alK par) cardsC1.
Qed.

Theorem matching_pair_sign (R : comRingType) (ep : D -> R) (K : V -> V -> R) (m m' : V -> V) (d0 : D) :
  (forall d, ep (al d) = - ep d) -> (forall d, ep d * ep d = 1) ->
  (forall f, \prod_(d | fc d == f) ep d = -1) -> (forall d, K (src d) (src (al d)) = ep d) ->
  involutive m -> involutive m' -> (forall x, m x != x) -> (forall x, m' x != x) ->
  (forall x, exists2 d, src d = x & src (al d) = m x) -> (forall x, exists2 d, src d = x & src (al d) = m' x) ->
  exists (c : {set V}) (pi : {perm V}),
  [/\ forall x, (m x \in c) = (x \notin c), forall x, (m' x \in c) = (x \notin c),
      forall x, pi x = if x \in c then m x else m' x & (-1) ^+ odd_perm pi * \prod_x K x (pi x) = 1].
Proof.
case: pm => a1 a2 a3 a4 a5 a6 a7 a8 a9 h1 h2 h3 h4 h5 h6 h7 h8 h9 h10.
have [T [t1 t2 t3]] := spanning_tree_ex d0.
exists (colour h5 h6), (pi t3 a9 h5 h6 h7 h8); split.
- exact: (colour_m t3 a9).
- exact: (colour_m' t3 a9).
- exact: piE.
exact: (pair_sign a1 a2 a3 a4 a5 a6 a7 a8 t1 t2 t3 a9 h1 h2 h3 h4 h5 h6 h7 h8 h9 h10).
Qed.
End Abstract.

Section AbstractDual.
Variables (V D F : finType) (src : D -> V) (fc : D -> F) (al phi : D -> D).
Hypothesis pm : plane_map src fc al phi.
Variable T : {set D}.
Hypothesis st : spanning_tree src al T.

(* the faces are connected by the edges outside a spanning tree ... *)
Lemma dual_conn (S : pred F) : (forall d, d \notin T -> S (fc d) -> S (fc (al d))) -> forall f f', S f -> S f'.
Proof.
case: pm => a1 a2 a3 a4 a5 a6 a7 a8 a9; case: st => t1 t2 t3.
exact: (cotree_conn a1 a3 a4 a5 a6 a7 a8 t1 t2 t3).
Qed.
(* ... which form a tree *)
Lemma dual_tree (r : F) : exists rk p, parents fc al (~: T) [set r] rk p /\ ~: T = forest al [set r] p.
Proof.
have [d0 _] := pm_onto pm r; case: pm => a1 a2 a3 a4 a5 a6 a7 a8 a9; case: st => t1 t2 t3.
exact: (cotree_forest a1 a3 a4 a5 a6 a7 a8 t1 t2 t3 a9 r d0).
Qed.

Section Rooted.
Variables (r : F) (rk : F -> nat) (p : F -> D).
Hypothesis par : parents fc al (~: T) [set r] rk p.
Hypothesis eT : ~: T = forest al [set r] p.

Lemma up_or_down d : d \notin T ->
  (fc d != r /\ d = p (fc d)) \/ (fc (al d) != r /\ al d = p (fc (al d))).
Proof.
have alK := pm_alK pm; rewrite -in_setC eT => /forestP[f hf h]; have [_ sf _] := par hf; rewrite inE in hf.
by case: h => ->; [left|right]; rewrite ?alK sf.
Qed.
Lemma up_rk d : d \notin T -> (rk (fc (al d)) < rk (fc d))%N -> fc d != r /\ d = p (fc d).
Proof.
move=> dT h; case: (up_or_down dT) => // -[h1 h2].
have hf : fc (al d) \notin [set r] by rewrite inE.
have [_ _ h3] := par hf; move: h3; rewrite -h2 (pm_alK pm) => h3.
by have := ltn_trans h h3; rewrite ltnn.
Qed.
Lemma rk_ne d : d \notin T -> rk (fc d) != rk (fc (al d)).
Proof.
have alK := pm_alK pm; move=> dT; case: (up_or_down dT) => -[h1 h2].
  have hf : fc d \notin [set r] by rewrite inE.
  by have [_ _] := par hf; rewrite -h2 => h3; rewrite neq_ltn h3 orbT.
have hf : fc (al d) \notin [set r] by rewrite inE.
by have [_ _] := par hf; rewrite -h2 alK => h3; rewrite neq_ltn h3.
Qed.
Lemma fc_ne d : d \notin T -> fc d != fc (al d).
Proof. by move/rk_ne; apply: contraNneq => ->. Qed.
Lemma dual_simple d d' : d \notin T -> d' \notin T -> fc d = fc d' -> fc (al d) = fc (al d') -> d = d'.
Proof.
have alK := pm_alK pm; move=> h h' e1 e2; have := rk_ne h; rewrite neq_ltn => /orP[] hr.
  have aT x : x \notin T -> al x \notin T by apply: contra => /(st_al st); rewrite alK.
  apply: (can_inj alK); have [|_ ->] := up_rk (aT _ h); first by rewrite alK.
  by have [|_ ->] := up_rk (aT _ h'); rewrite ?alK -?e1 -?e2.
by have [_ ->] := up_rk h hr; have [|_ ->] := up_rk h'; rewrite -?e1 -?e2.
Qed.
End Rooted.
End AbstractDual.
