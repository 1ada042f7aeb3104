(* GraphBrute.v -- combinations, and the perfect matchings found by enumeration *)
Set Warnings "-notation-overridden,-ambiguous-paths".
From mathcomp Require Import all_ssreflect all_algebra.
From mathcomp.zify Require Import zify.
From Verif Require Import Base ArrC MCombinatorics Matching MGraph.
Set Implicit Arguments.
Unset Strict Implicit.
Unset Printing Implicit Defensive.
Import Order.Theory GRing.Theory Num.Theory.
Local Open Scope ring_scope.

Section Comb.
Variable T : eqType.
Implicit Types (l c : seq T).

Lemma mem_combinations k l c : (c \in combinations k l) = subseq c l && (size c == k).
Proof.
elim: l k c => [|x l IH] [|k] c /=.
- by rewrite inE; case: c.
- by case: c.
- by rewrite inE; case: c => //= y c; rewrite andbF.
rewrite mem_cat IH; case: c => [|y c].
  by rewrite /= andbF orbF; apply/negbTE/mapP => -[c _].
have -> : (y :: c \in [seq x :: c | c <- combinations k l]) = (y == x) && (c \in combinations k l).
  apply/mapP/andP => [[c' h [-> ->]]|[/eqP -> h]]; first by rewrite eqxx.
  by exists c.
rewrite IH /= eqSS [y == x]eq_sym; case: (x =P y) => [e|_] /=; last first.
  by [].
case: eqP => _; rewrite ?andbF //=; rewrite !andbT; case hc: (subseq c l) => //=.
by apply/negP => h; move/negP: hc; apply; apply: (subseq_trans (subseq_cons c y)).
Qed.

Lemma combinations_uniq k l : uniq l -> uniq (combinations k l).
Proof.
elim: l k => [|x l IH] [|k] //= /andP[xl ul].
rewrite cat_uniq map_inj_uniq ?IH ?andbT //=; last by move=> a b [].
apply/hasPn => c; rewrite mem_combinations => /andP[sc _].
by apply/mapP => -[c' _ e]; move: xl; rewrite (mem_subseq sc) // e mem_head.
Qed.

Lemma subseq_perm_eq l c c' : uniq l -> subseq c l -> subseq c' l -> c =i c' -> c = c'.
Proof.
move=> ul /(subseq_uniqP ul) -> /(subseq_uniqP ul) -> h; apply: eq_in_filter => x xl.
by have := h x; rewrite !mem_filter !xl !andbT.
Qed.
End Comb.

Section Spec.
Variable L : eqType.
Implicit Types (G : graph L) (c : seq (L * L)) (e : L * L).

(* a simple graph: distinct nodes, every edge listed once, joining two different nodes *)
Definition simple_graph G : Prop :=
  [/\ uniq (gnodes G), uniq (gedges G) &
      forall e, e \in gedges G -> [/\ e.1 \in gnodes G, e.2 \in gnodes G, e.1 != e.2 & (e.2, e.1) \notin gedges G]].

(* x is an end of e *)
Definition incident (x : L) e : bool := (e.1 == x) || (e.2 == x).

(* a set of edges (a list without repetition) covering every node exactly once *)
Definition is_matching G c : Prop :=
  [/\ uniq c, {subset c <= gedges G} & forall x, x \in gnodes G -> count (incident x) c = 1%N].

Definition ends c : seq L := flatten [seq [:: e.1; e.2] | e <- c].

Lemma size_ends c : size (ends c) = (2 * size c)%N.
Proof. by rewrite /ends; elim: c => //= e c ->; lia. Qed.

Lemma count_ends G c x : simple_graph G -> {subset c <= gedges G} -> count_mem x (ends c) = count (incident x) c.
Proof.
case=> _ _ hE; elim: c => //= e c IH h; rewrite IH; last by move=> y hy; apply: h; rewrite inE hy orbT.
have [_ _ ne _] := hE e (h _ (mem_head _ _)); rewrite addnA; congr (_ + _)%N; rewrite /incident.
by case: eqP => [e1|] //=; case: eqP => // e2; move: ne; rewrite e1 e2 eqxx.
Qed.

Lemma ends_sub G c : simple_graph G -> {subset c <= gedges G} -> {subset ends c <= gnodes G}.
Proof.
case=> _ _ hE h x /flatten_mapP[e /h/hE[h1 h2 _ _]].
by rewrite !inE => /orP[] /eqP ->.
Qed.

Lemma matching_ends G c : simple_graph G -> is_matching G c -> perm_eq (ends c) (gnodes G).
Proof.
move=> sG [uc sc h1]; have [un _ _] := sG.
apply/allP => x; rewrite mem_cat => /orP hx; apply/eqP.
have xn : x \in gnodes G by case: hx => // /(ends_sub sG sc).
by rewrite (count_ends _ sG sc) h1 // count_uniq_mem // xn.
Qed.

Lemma brute_mem G c : simple_graph G -> (size (gnodes G) <= 15)%N -> ~~ odd (size (gnodes G)) ->
  reflect (is_matching G c /\ subseq c (gedges G)) (c \in find_perfect_matchings_brute G).
Proof.
move=> sG hn ev; have [un ue hE] := sG.
rewrite /find_perfect_matchings_brute modn2 (negbTE ev) /= ltnNge hn /= mem_filter mem_combinations.
apply: (iffP idP) => [/and3P[/eqP h1 h2 /eqP h3]|[m h2]].
  split=> //; have sc := mem_subseq h2; split=> //; first exact: subseq_uniq h2 ue.
  have hs : size (ends c) = size (gnodes G) by rewrite size_ends h3; move: ev; lia.
  have ue' : uniq (ends c) by apply/negPn; rewrite -ltn_size_undup (_ : size _ = size (gnodes G)) // hs ltnn.
  have [e1 e2] := uniq_min_size ue' (ends_sub sG sc) (eq_leq (esym hs)).
  by move=> x xn; rewrite -(count_ends _ sG sc) count_uniq_mem // e2 xn.
have pe := matching_ends sG m.
have hs : size (ends c) = size (gnodes G) := perm_size pe.
rewrite h2 /=; apply/andP; split.
  by rewrite /nodes_in undup_id ?hs // (perm_uniq pe).
by rewrite -hs size_ends; apply/eqP; lia.
Qed.

Lemma matching_even G c : simple_graph G -> is_matching G c -> ~~ odd (size (gnodes G)).
Proof. by move=> sG m; rewrite -(perm_size (matching_ends sG m)) size_ends; lia. Qed.

Lemma brute_uniq G : simple_graph G -> uniq (find_perfect_matchings_brute G).
Proof.
case=> _ ue _; rewrite /find_perfect_matchings_brute; case: ifP => // _; case: ifP => // _.
by apply: filter_uniq; apply: combinations_uniq.
Qed.

Lemma brute_class G c : simple_graph G -> (size (gnodes G) <= 15)%N -> is_matching G c ->
  count (perm_eq c) (find_perfect_matchings_brute G) = 1%N.
Proof.
move=> sG hn m; have ev := matching_even sG m; have [un ue hE] := sG; have [uc sc hc] := m.
pose c' := [seq e <- gedges G | e \in c].
have pc : perm_eq c c'.
  apply: uniq_perm => //; first exact: filter_uniq.
  by move=> e; rewrite mem_filter; case h: (e \in c) => //=; rewrite (sc _ h).
have mc' : c' \in find_perfect_matchings_brute G.
  apply/(brute_mem _ sG hn ev); split; last exact: filter_subseq.
  split; first exact: filter_uniq.
    by move=> e; rewrite mem_filter => /andP[].
  by move=> x /hc; rewrite (permP pc).
rewrite (@eq_in_count _ _ (pred1 c')); last first.
  move=> b /(brute_mem _ sG hn ev)[_ sb]; rewrite /=; apply/idP/eqP => [pb|-> //].
  apply: (subseq_perm_eq ue sb (filter_subseq _ _)) => x.
  by rewrite -(perm_mem pb) (perm_mem pc).
by rewrite count_uniq_mem ?brute_uniq // mc'.
Qed.
End Spec.

Section Count.
Variables (L : eqType) (G : graph L).
Hypothesis sG : simple_graph G.
Local Notation n := (size (gnodes G)).
Implicit Types (c : seq (L * L)) (e : L * L) (M : {set {set 'I_n}}).

Definition nd (i : 'I_n) : L := tnth (in_tuple (gnodes G)) i.

Lemma nd_in i : nd i \in gnodes G. Proof. exact: mem_tnth. Qed.
Lemma nd_inj : injective nd.
Proof.
have [un _ _] := sG; move=> i j; rewrite /nd !(tnth_nth (nd i)) /= => /eqP.
by rewrite nth_uniq // => /eqP /val_inj.
Qed.
Lemma ndP x : x \in gnodes G -> exists i, x = nd i.
Proof.
move=> hx; have hi : (index x (gnodes G) < n)%N by rewrite index_mem.
by exists (Ordinal hi); rewrite /nd (tnth_nth x) /= nth_index.
Qed.

Lemma adjE (C : numClosedFieldType) (w : weights C L) (i j : 'I_n) :
  get (adjacency_matrix G w) i j =
  if (nd i, nd j) \in gedges G then w (nd i, nd j) else if (nd j, nd i) \in gedges G then w (nd j, nd i) else 0.
Proof.
rewrite getE // (drop_nth (nd i)) // (drop_nth (nd i) (ltn_ord j)).
have E k : nth (nd i) (gnodes G) (nat_of_ord k) = nd k by rewrite [RHS](tnth_nth (nd i)).
by rewrite !E.
Qed.

(* the two positions of an edge *)
Definition blk e : {set 'I_n} := [set i | incident (nd i) e].
Definition Mof c : {set {set 'I_n}} := [set B | B \in [seq blk e | e <- c]].

Lemma blkE i j e : e = (nd i, nd j) -> blk e = [set i; j].
Proof.
move=> ->; apply/setP => k; rewrite !inE /incident /=.
by rewrite !(inj_eq nd_inj) ![_ == k]eq_sym.
Qed.

Lemma edge_nd e : e \in gedges G -> exists i j, i != j /\ e = (nd i, nd j).
Proof.
have [_ _ hE] := sG; move/hE => [/ndP[i hi] /ndP[j hj] ne _]; exists i, j; split.
  by apply: contraNneq ne => eij; rewrite hi hj eij.
by rewrite -hi -hj; case: (e).
Qed.

Lemma blk_inj : {in gedges G &, injective blk}.
Proof.
have [_ _ hE] := sG; move=> e f he hf; have [i [j [ij ee]]] := edge_nd he; have [k [l [kl ef]]] := edge_nd hf.
rewrite (blkE ee) (blkE ef) => /setP h.
have h1 := h i; have h2 := h j; move: h1 h2; rewrite !inE !eqxx ?orbT /=.
case/esym/orP=> /eqP h1; case/esym/orP => /eqP h2; subst.
- by rewrite eqxx in ij.
- by [].
- by have [_ _ _] := hE _ hf; rewrite /= he.
- by rewrite eqxx in ij.
Qed.

Lemma Mof_perfect c : is_matching G c -> perfect_matching (Mof c).
Proof.
case=> uc sc h1; apply/andP; split.
  apply/forallP => B; apply/implyP; rewrite inE => /mapP[e /sc/edge_nd[i [j [ij ee]]] ->].
  by rewrite (blkE ee) cards2 ij.
apply/forallP => i; have := h1 _ (nd_in i).
move=> h; apply/eqP; rewrite -h -size_filter.
rewrite -(size_map blk); set s := map _ _.
have us : uniq s.
  rewrite map_inj_in_uniq ?filter_uniq // => e f; rewrite !mem_filter => /andP[_ he] /andP[_ hf].
  by apply: blk_inj; apply: sc.
rewrite -(card_uniqP us); apply: eq_card => B; rewrite !inE; apply/andP/mapP.
  case=> /mapP[e ec ->] hi; exists e => //; rewrite mem_filter ec andbT.
  by move: hi; rewrite inE.
by case=> e; rewrite mem_filter => /andP[hi ec] ->; rewrite inE hi; split=> //; apply: map_f.
Qed.

(* the edges of G whose pair of positions belongs to M *)
Definition cof M : seq (L * L) := [seq e <- gedges G | blk e \in M].
(* every pair of M is an edge of G *)
Definition inG M : bool := [forall B in M, [exists i, exists j, (B == [set i; j]) && ((nd i, nd j) \in gedges G)]].

Lemma Mof_inG c : is_matching G c -> inG (Mof c).
Proof.
case=> uc sc _; apply/forallP => B; apply/implyP; rewrite inE => /mapP[e ec ->].
have [i [j [ij ee]]] := edge_nd (sc _ ec).
by apply/existsP; exists i; apply/existsP; exists j; rewrite -ee sc // (blkE ee) eqxx.
Qed.

Lemma inGP M B : inG M -> B \in M -> exists2 e, e \in gedges G & B = blk e.
Proof.
move=> /forallP/(_ B)/implyP h /h/existsP[i /existsP[j /andP[/eqP -> he]]].
by exists (nd i, nd j) => //; rewrite (blkE (erefl _)).
Qed.

Lemma cof_matching M : perfect_matching M -> inG M -> is_matching G (cof M).
Proof.
have [un ue hE] := sG; move=> /andP[_ /forallP hp] hG; split; first exact: filter_uniq.
  by move=> e; rewrite mem_filter => /andP[].
move=> x /ndP[i ->]; rewrite -(eqP (hp i)) -size_filter -(size_map blk); set s := map _ _.
have us : uniq s.
  rewrite map_inj_in_uniq ?filter_uniq // => e f; rewrite !mem_filter => /and3P[_ _ he] /and3P[_ _ hf].
  exact: blk_inj.
rewrite -(card_uniqP us); apply: eq_card => B; rewrite !inE; apply/mapP/andP.
  by case=> e; rewrite !mem_filter => /and3P[h1 h2 h3] ->; rewrite inE.
case=> BM iB; have [e he eB] := inGP hG BM; exists e => //.
by rewrite !mem_filter -eB BM he !andbT; move: iB; rewrite eB inE.
Qed.

Lemma cofK M : perfect_matching M -> inG M -> Mof (cof M) = M.
Proof.
move=> pM hG; apply/setP => B; rewrite inE; apply/mapP/idP.
  by case=> e; rewrite mem_filter => /andP[h _] ->.
by move=> BM; have [e he eB] := inGP hG BM; exists e => //; rewrite mem_filter -eB BM.
Qed.

Lemma MofK c : is_matching G c -> subseq c (gedges G) -> cof (Mof c) = c.
Proof.
have [_ ue _] := sG; move=> [_ sc _] hs; apply: (subseq_perm_eq ue (filter_subseq _ _) hs) => e.
rewrite mem_filter inE; apply/andP/idP.
  by case=> /mapP[f fc h] he; rewrite (blk_inj he (sc _ fc) h).
by move=> ec; split; [apply: map_f|apply: sc].
Qed.

Lemma brute_card : (n <= 15)%N -> ~~ odd n ->
  size (find_perfect_matchings_brute G) = #|[set M : {set {set 'I_n}} | perfect_matching M && inG M]|.
Proof.
move=> hn ev; set l := find_perfect_matchings_brute G.
have us : uniq [seq Mof c | c <- l].
  rewrite map_inj_in_uniq ?brute_uniq // => c c' /(brute_mem _ sG hn ev)[m s] /(brute_mem _ sG hn ev)[m' s'] h.
  by rewrite -(MofK m s) -(MofK m' s') h.
rewrite -(size_map Mof) -(card_uniqP us); apply: eq_card => M; rewrite inE; apply/mapP/andP.
  by case=> c /(brute_mem _ sG hn ev)[m s] ->; split; [apply: Mof_perfect|apply: Mof_inG].
case=> pM hG; exists (cof M); last by rewrite cofK.
by apply/(brute_mem _ sG hn ev); split; [apply: cof_matching|apply: filter_subseq].
Qed.

(* the edge of G at the positions p *)
Definition ed (p : 'I_n * 'I_n) : L * L :=
  if (nd p.1, nd p.2) \in gedges G then (nd p.1, nd p.2) else (nd p.2, nd p.1).

Lemma blk_ed p : blk (ed p) = [set p.1; p.2].
Proof. by rewrite /ed; case: ifP => _; rewrite (blkE (erefl _)) // setUC. Qed.

Lemma edge_inj M p q : edge M p -> edge M q -> [set p.1; p.2] = [set q.1; q.2] -> p = q.
Proof.
case: p q => [a b] [c e] /andP[/= ab _] /andP[/= ce _] /setP h.
have h1 := h a; have h2 := h b; move: h1 h2; rewrite !inE !eqxx ?orbT /=.
case/esym/orP=> /eqP h1; case/esym/orP => /eqP h2; subst => //.
- by rewrite ltnn in ab.
- by move: (ltn_trans ab ce); rewrite ltnn.
- by rewrite ltnn in ab.
Qed.

Lemma ed_in M p : inG M -> edge M p -> ed p \in gedges G.
Proof.
move=> hG /andP[_ pM]; have [e he eB] := inGP hG pM.
have [i [j [ij ee]]] := edge_nd he; rewrite /ed; case: ifP => // hn'.
move: eB; rewrite (blkE ee) => /setP h.
have h1 := h p.1; have h2 := h p.2; move: h1 h2; rewrite !inE !eqxx ?orbT /=.
case/esym/orP=> /eqP h1; case/esym/orP => /eqP h2.
- by have := h j; rewrite !inE eqxx orbT h1 h2 orbb eq_sym (negbTE ij).
- by move: hn'; rewrite h1 h2 -ee he.
- by rewrite h1 h2 -ee.
- by have := h i; rewrite !inE eqxx h1 h2 orbb (negbTE ij).
Qed.

(* product of the entries of the adjacency matrix on the pairs of M *)
Lemma mweight_adj (C : numClosedFieldType) (w : weights C L) M : perfect_matching M ->
  mweight (toM n n (adjacency_matrix G w)) M = if inG M then \prod_(e <- cof M) w e else 0.
Proof.
have [_ ue hE] := sG; move=> pM; case: ifP => hG.
  have pe : perm_eq [seq ed p | p <- enum (edge M)] (cof M).
    apply: uniq_perm; last 1 first.
    - move=> e; apply/mapP/idP.
        case=> p; rewrite mem_enum => hp ->; rewrite mem_filter blk_ed (ed_in hG hp) andbT.
        by case/andP: hp.
      rewrite mem_filter => /andP[bM he]; have [i [j [ij ee]]] := edge_nd he.
      rewrite (blkE ee) in bM; have [_ _ _ hr] := hE _ he; rewrite ee /= in hr he.
      case: (ltngtP i j) => hij.
      + by exists (i, j); [rewrite mem_enum; apply/andP|rewrite /ed /= he].
      + exists (j, i); first by rewrite mem_enum; apply/andP; rewrite setUC.
        by rewrite /ed /= (negbTE hr).
      + by move: ij; rewrite (val_inj hij) eqxx.
    - rewrite map_inj_in_uniq ?enum_uniq // => p q; rewrite !mem_enum => hp hq h.
      by apply: (edge_inj hp hq); rewrite -!blk_ed h.
    - exact: filter_uniq.
  rewrite -(perm_big _ pe) big_map big_enum; apply: eq_bigr => p hp.
  by have := ed_in hG hp; rewrite mxE adjE /ed; case: ifP => // _ ->.
have := negbT hG; rewrite negb_forall => /existsP[B]; rewrite negb_imply => /andP[BM nB].
have /andP[/forallP/(_ B)/implyP/(_ BM)/cards2P[a [b [ab eB]]] _] := pM.
wlog lab : a b ab eB / (a < b)%N.
  move=> W; case: (ltngtP a b) => h; first exact: (W a b).
    by apply: (W b a) => //; [rewrite eq_sym|rewrite setUC].
  by move: ab; rewrite (val_inj h) eqxx.
rewrite /mweight (bigD1 (a, b)) /=; last by rewrite /edge /= lab -eB.
rewrite mxE adjE; case: ifP => h1.
  by case/negP: nB; apply/existsP; exists a; apply/existsP; exists b; rewrite eB eqxx.
case: ifP => h2; last by rewrite mul0r.
by case/negP: nB; apply/existsP; exists b; apply/existsP; exists a; rewrite eB setUC eqxx.
Qed.

(* the hafnian of the weighted adjacency matrix: sum over the perfect matchings of G of the products of the weights *)
Lemma hafnian_adj (C : numClosedFieldType) (w : weights C L) :
  hafnian (toM n n (adjacency_matrix G w)) =
  \sum_(M : {set {set 'I_n}} | perfect_matching M && inG M) \prod_(e <- cof M) w e.
Proof.
by rewrite [RHS]big_mkcondr; apply: eq_bigr => M h; rewrite mweight_adj.
Qed.

Lemma hafnian_adj1 (C : numClosedFieldType) :
  hafnian (toM n n (adjacency_matrix G (fun _ => 1 : C))) =
  #|[set M : {set {set 'I_n}} | perfect_matching M && inG M]|%:R.
Proof.
rewrite hafnian_adj -sum1_card natr_sum; apply: eq_big => M; first by rewrite inE.
by rewrite big1.
Qed.

Lemma adj_tr (C : numClosedFieldType) (w : weights C L) :
  (toM n n (adjacency_matrix G w))^T = toM n n (adjacency_matrix G w).
Proof.
have [_ _ hE] := sG.
apply/matrixP => i j; rewrite !mxE !adjE; case: ifP => h1; case: ifP => h2 //.
by have [_ _ _] := hE _ h1; rewrite h2.
Qed.
End Count.
