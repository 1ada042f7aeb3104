(* GraphBfs.v -- breadth first search, connectedness and trees *)
Set Warnings "-notation-overridden,-ambiguous-paths".
From mathcomp Require Import all_ssreflect all_algebra.
From mathcomp.zify Require Import zify.
From Verif Require Import Base ArrC MCombinatorics MGraph.
Set Implicit Arguments.
Unset Strict Implicit.
Unset Printing Implicit Defensive.

Section Bfs.
Variables (L : eqType) (G : graph L).

(* distinct nodes, edges between nodes *)
Definition graph_ok (G : graph L) : Prop :=
  uniq (gnodes G) /\ forall e, e \in gedges G -> e.1 \in gnodes G /\ e.2 \in gnodes G.

(* p is a walk of length size p from s to x *)
Definition walk (s : L) (p : seq L) (x : L) : Prop := path (has_edge G) s p /\ last s p = x.
(* k is the distance from s to x *)
Definition distance (s x : L) (k : nat) : Prop :=
  (exists2 p, walk s p x & size p = k) /\ forall p, walk s p x -> k <= size p.
Definition reachable (s x : L) : Prop := exists p, walk s p x.

Lemma mem_neighbours v w : (w \in neighbours G v) = has_edge G v w.
Proof.
rewrite mem_undup mem_cat /has_edge; congr (_ || _); apply/mapP/idP.
- by case=> e; rewrite mem_filter => /andP[/eqP <- h] ->; case: e h.
- by move=> h; exists (v, w) => //; rewrite mem_filter eqxx.
- by case=> e; rewrite mem_filter => /andP[/eqP <- h] ->; case: e h.
by move=> h; exists (w, v) => //; rewrite mem_filter eqxx.
Qed.

Lemma has_edgeC u v : has_edge G u v = has_edge G v u.
Proof. by rewrite /has_edge orbC. Qed.

Lemma walk_rcons s p v w : walk s p v -> has_edge G v w -> walk s (rcons p w) w.
Proof. by case=> h1 h2 e; rewrite /walk rcons_path h1 h2 last_rcons. Qed.

Lemma walk_rconsI s p y w : walk s (rcons p y) w -> [/\ y = w, walk s p (last s p) & has_edge G (last s p) w].
Proof. by case; rewrite rcons_path last_rcons => /andP[h1 h2] <-. Qed.

Lemma walk_nodes s p x : graph_ok G -> s \in gnodes G -> walk s p x -> x \in gnodes G.
Proof.
case=> _ hE; elim/last_ind: p x => [|p y IH] x hs; first by case=> _ <-.
by case/walk_rconsI => _ _ /orP[] /hE[].
Qed.

Hypothesis okG : graph_ok G.
Variable s : L.
Hypothesis sG : s \in gnodes G.

(* the state of the search after round k *)
Definition bfs_inv (k : nat) (seen level : seq L) (acc : seq (L * nat)) : Prop :=
  [/\ uniq seen, unzip1 acc = seen,
      (forall x, x \in seen <-> exists2 p, walk s p x & size p <= k),
      (forall x, x \in level <-> x \in seen /\ forall p, walk s p x -> k <= size p) &
      forall x j, (x, j) \in acc -> distance s x j].

Lemma bfs_inv0 : bfs_inv 0 [:: s] [:: s] [:: (s, 0)].
Proof.
have w0 : walk s [::] s by [].
split=> //.
- move=> x; rewrite inE; split=> [/eqP ->|[p]]; first by exists [::].
  by rewrite leqn0 => h /nilP e; move: h; rewrite e => -[_ /= ->].
- by move=> x; split=> // -[].
- by move=> x j; rewrite inE => /eqP[-> ->]; split=> //; exists [::].
Qed.

Definition next_level (seen level : seq L) :=
  undup [seq w <- flatten [seq neighbours G v | v <- level] | w \notin seen].

Lemma in_next seen level w :
  (w \in next_level seen level) <-> w \notin seen /\ exists2 v, v \in level & has_edge G v w.
Proof.
rewrite mem_undup mem_filter; split.
  by case/andP=> h /flatten_mapP[v vl]; rewrite mem_neighbours => e; split=> //; exists v.
by case=> -> [v vl e]; apply/flatten_mapP; exists v; rewrite ?mem_neighbours.
Qed.

Lemma bfs_step k seen level acc : bfs_inv k seen level acc ->
  bfs_inv k.+1 (seen ++ next_level seen level) (next_level seen level)
    (acc ++ [seq (w, k.+1) | w <- next_level seen level]).
Proof.
case=> us uz hs hl ha; set nx := next_level _ _.
have short x p : walk s p x -> x \notin seen -> k < size p.
  by move=> w; apply: contraNltn => h; apply/hs; exists p.
have reach x : x \in nx -> exists2 p, walk s p x & size p = k.+1.
  case/in_next => ns [v /hl[/hs[p w h] _] e]; exists (rcons p x); first exact: walk_rcons e.
  by apply/eqP; rewrite size_rcons eqSS eqn_leq h -ltnS -(size_rcons p x) (short x) //; apply: walk_rcons e.
have notin x : x \in nx -> x \notin seen by case/in_next.
split.
- rewrite cat_uniq us undup_uniq andbT /=; apply/hasPn => x; exact: notin.
- by rewrite /unzip1 map_cat -/(unzip1 acc) uz -map_comp /comp /= map_id.
- move=> x; rewrite mem_cat; split=> [/orP[/hs[p w h]|/reach[p w h]]|].
  + by exists p => //; apply: leqW.
  + by exists p => //; rewrite h.
  case=> p; elim/last_ind: p => [|p y _] w h.
    by apply/orP; left; apply/hs; exists [::].
  have [ey w1 e] := walk_rconsI w; rewrite size_rcons ltnS in h.
  case: (boolP (x \in seen)) => //= xs; apply/in_next; split=> //; exists (last s p) => //.
  apply/hl; split; first by apply/hs; exists p.
  move=> q wq; have := short _ _ (walk_rcons wq e) xs; by rewrite size_rcons ltnS.
- move=> x; split=> [xn|]; first by rewrite mem_cat xn orbT; split=> // p w; apply: (short x) => //; apply: notin.
  case; rewrite mem_cat => /orP[/hs[p w h] hh|//].
  by have := hh p w; rewrite ltnNge h.
- move=> x j; rewrite mem_cat => /orP[/ha //|/mapP[w wn [-> ->]]]; split; first exact: reach.
  by move=> p wp; apply: short wp (notin _ wn).
Qed.

Lemma bfs_fixed k seen level acc : bfs_inv k seen level acc -> next_level seen level = [::] ->
  forall x, reachable s x -> x \in seen.
Proof.
move=> I e; have := bfs_step I; rewrite e !cats0 => I'; case: I I' => _ _ hs _ _ [_ _ hs' hl' _].
suff W m : forall p x, walk s p x -> size p <= m -> x \in seen by move=> x [p w]; apply: (W (size p) p).
elim: m => [|m IH] p x w h; first by apply/hs; exists p => //; apply: leq_trans h _.
elim/last_ind: p w h => [|p y _] w; first by move=> _; apply/hs; exists [::].
have [_ w1 ed] := walk_rconsI w; rewrite size_rcons ltnS => h.
have /hs[q wq hq] := IH _ _ w1 h.
by apply/hs'; exists (rcons q x); [apply: walk_rcons ed|rewrite size_rcons].
Qed.

Lemma bfs_loopP fuel k seen level acc : bfs_inv k seen level acc -> size (gnodes G) < fuel + size seen ->
  let r := bfs_loop G fuel seen level k acc in
  [/\ uniq (unzip1 r), forall x, x \in unzip1 r <-> reachable s x & forall x j, (x, j) \in r -> distance s x j].
Proof.
elim: fuel k seen level acc => [|fuel IH] k seen level acc I hf.
  have [us _ hs _ _] := I; have sub : {subset seen <= gnodes G}.
    by move=> x /hs[p w _]; apply: walk_nodes w.
  by have := uniq_leq_size us sub; rewrite leqNgt hf.
rewrite /= -/(next_level seen level).
case E: (next_level seen level) => [|y nx]; last first.
  rewrite -E; apply: IH; first exact: bfs_step.
  by rewrite size_cat E /= ; move: hf; lia.
have [us uz hs _ ha] := I; split=> //; rewrite uz // => x; split=> [/hs[p w _]|]; first by exists p.
exact: (bfs_fixed I E).
Qed.

Lemma path_lengthsP : 
  [/\ uniq (unzip1 (path_lengths G s)), forall x, x \in unzip1 (path_lengths G s) <-> reachable s x &
      forall x j, (x, j) \in path_lengths G s -> distance s x j].
Proof. by apply: bfs_loopP; [exact: bfs_inv0|rewrite /= addn1]. Qed.

End Bfs.

Section Tree.
Variable L : eqType.
Implicit Types G : graph L.

(* connected: every node is reachable from every node *)
Definition connected G : Prop := forall x y, x \in gnodes G -> y \in gnodes G -> reachable G x y.
(* a tree: a connected non-empty graph with one edge less than nodes *)
Definition tree G : Prop := [/\ gnodes G <> [::], connected G & size (gnodes G) = (size (gedges G)).+1].

Lemma walk_cat G x y z p q : walk G x p y -> walk G y q z -> walk G x (p ++ q) z.
Proof. by case=> h1 <- [h3 <-]; rewrite /walk cat_path last_cat h1 h3. Qed.

Lemma walk_rev G x y p : walk G x p y -> reachable G y x.
Proof.
elim: p x => [|z p IH] x; first by case=> _ <-; exists [::].
case=> /= /andP[e h1] h2; have [q wq] := IH z (conj h1 h2); exists (rcons q x).
by apply: walk_rcons wq _; rewrite has_edgeC.
Qed.

Lemma reachable_trans G x y z : reachable G x y -> reachable G y z -> reachable G x z.
Proof. by case=> p h1 [q h2]; exists (p ++ q); apply: walk_cat h2. Qed.

Lemma is_connectedP G : graph_ok G -> gnodes G <> [::] ->
  exists b, is_connected G = Ok b /\ (b <-> connected G).
Proof.
move=> ok; rewrite /is_connected; case E: (gnodes G) => [|s r] // _; rewrite -E; eexists; split; first by [].
have sG : s \in gnodes G by rewrite E mem_head.
have [un hr _] := path_lengthsP ok sG; have [un' hE] := ok.
have sub : {subset unzip1 (path_lengths G s) <= gnodes G}.
  by move=> x /hr[p w]; apply: walk_nodes w.
split=> [/eqP h x y xG yG|cG].
  have [_ e] := uniq_min_size un sub (eq_leq (etrans (esym h) (esym (size_map _ _)))).
  have [p1 w1] : reachable G s x by apply/hr; rewrite e.
  have [p2 w2] : reachable G s y by apply/hr; rewrite e.
  by apply: reachable_trans (walk_rev w1) _; exists p2.
rewrite -(size_map fst) eqn_leq (uniq_leq_size un sub) (uniq_leq_size un') // => x xG.
by apply/hr; apply: cG.
Qed.

Lemma is_treeP G : graph_ok G -> gnodes G <> [::] -> exists b, is_tree G = Ok b /\ (b <-> tree G).
Proof.
move=> ok ne; have [b [hb hc]] := is_connectedP ok ne.
rewrite /is_tree hb /=; case E: (gnodes G) => [//|s r]; rewrite -E; eexists; split; first by [].
have n0 : 0 < size (gnodes G) by rewrite E.
split=> [/andP[/eqP h1 /hc h2]|[_ /hc h1 h2]]; first by split=> //; lia.
by rewrite h1 andbT; apply/eqP; lia.
Qed.
End Tree.
