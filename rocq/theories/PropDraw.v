(* PropDraw.v -- property C90: what plot_graph_with_edge_weights draws, and highlighting matchings *)
Set Warnings "-notation-overridden,-ambiguous-paths".
From Coq Require Import Reals Lra String.
From mathcomp Require Import all_ssreflect all_algebra.
From mathcomp Require Import complex.
From mathcomp.zify Require Import zify.
From Verif Require Import Base MCombinatorics RealC MClean PropClean MDist MGraph GraphBrute GraphBfs GraphMap MPlot PropPlot MDraw.
Set Implicit Arguments.
Unset Strict Implicit.
Unset Printing Implicit Defensive.
Import Order.Theory GRing.Theory Num.Theory.
Local Open Scope ring_scope.

(* readings of a picture: the lines of a colour, the texts along edges, the nodes, the names of nodes, the titles *)
Definition lines (red : bool) (d : seq drawn) : seq (bool * dart) :=
  flatten [seq match x with
    | Edges Red c l => if red then [seq (c, e) | e <- l] else [::]
    | Edges Grey c l => if red then [::] else [seq (c, e) | e <- l]
    | _ => [::] end | x <- d].
Definition texts (d : seq drawn) : seq (bool * (dart * R)) :=
  flatten [seq if x is EdgeLabels c l then [seq (c, e) | e <- l] else [::] | x <- d].
Definition dots (d : seq drawn) : seq nat := flatten [seq if x is Nodes l then l else [::] | x <- d].
Definition names (d : seq drawn) : seq nat := flatten [seq if x is Labels l then l else [::] | x <- d].
Definition titles (d : seq drawn) : seq string := flatten [seq if x is Title s then [:: s] else [::] | x <- d].

Definition ends_ok (n : nat) (m : option (seq dart)) : bool :=
  all (fun e : dart => (e.1 < n)%N && (e.2 < n)%N) (odflt [::] m).

Lemma draw_graphE (G : wgraph) n m t : wnodes G = iota 0 n ->
  (forall e, e \in unzip1 (wedges G) -> (e.1 < n)%N && (e.2 < n)%N) ->
  draw_graph G m t = if ends_ok n m then Ok (G, [:: Nodes (iota 0 n); Labels (iota 0 n);
      Edges Grey (directed G) (unzip1 (wedges G)); EdgeLabels (directed G) (wedges G)] ++
      (if m is Some l then [:: Edges Red false l] else [::]) ++
      [:: Title (odflt "Graph A with Edge Weights"%string t)]) else Raise KeyError.
Proof.
move=> eN hE; rewrite /draw_graph /draw_labeled_multigraph /draw_labeled_graph /draw_labeled /positions eN.
have eP : match iota 0 n with [::] => iota 0 n | x :: s => x :: s end = iota 0 n by case: (iota 0 n).
have mi (l : seq dart) : all (fun e => (e.1 \in iota 0 n) && (e.2 \in iota 0 n)) l =
    all (fun e : dart => (e.1 < n)%N && (e.2 < n)%N) l.
  by apply: eq_all => e; rewrite !mem_iota.
have hA : all (fun e : dart => (e.1 < n)%N && (e.2 < n)%N) (unzip1 (wedges G)) by apply/allP.
rewrite /draw_edges eP !mi hA /ends_ok; case: (directed G) => /=; case: m => [l|] /=; rewrite ?mi; case: t => //=;
  by case: ifP.
Qed.

(* ================================================================== *)
(* C90  the picture                                                    *)
(* ================================================================== *)
(* every n x n array: the call succeeds iff the ends of the highlighted edges are below n (KeyError otherwise); every
   node is drawn and named once, every edge of the returned graph is drawn once, curved iff the graph is directed, and
   carries one text, its weight; the highlighted edges are drawn as given, and there is one title *)
Theorem C90_picture n (A : 'M[R]_n) m t : exists G,
  plot_graph_with_edge_weights (ofR A) = Ok G /\
  if ends_ok n m then exists d,
    [/\ plot_draw (ofR A) m t = Ok (G, d), dots d = iota 0 n /\ names d = iota 0 n,
        lines false d = [seq (directed G, e.1) | e <- wedges G] /\ texts d = [seq (directed G, e) | e <- wedges G],
        lines true d = [seq (false, e) | e <- odflt [::] m] &
        titles d = [:: if t is Some s then s else "Graph A with Edge Weights"%string]]
  else plot_draw (ofR A) m t = Raise KeyError.
Proof.
have [b [hb h']] := allclose_trP A.
have [G [hG eN hE]] : exists G, [/\ plot_graph_with_edge_weights (ofR A) = Ok G, wnodes G = iota 0 n &
    forall e, e \in unzip1 (wedges G) -> (e.1 < n)%N && (e.2 < n)%N].
  case: b {hb} h' => h'.
    have [G [h1 _ h3 _ h5]] := C69_undirected (h'.1 isT); exists G; split=> // e /mapP[[d w] /h5[i [j [-> _ _ _]]] ->].
    by rewrite !ltn_ord.
  have nA : ~ nearly_symmetric A by move/h'.
  have [G [h1 _ h3 _ h5]] := C69_directed nA; exists G; split=> // e /mapP[[d w] /h5[i [j [-> _ _]]] ->].
  by rewrite !ltn_ord.
exists G; split=> //; rewrite /plot_draw hG [bind _ _]/= (draw_graphE m t eN hE); case: (ends_ok n m) => //.
eexists; split; first by [].
- by rewrite /dots /names /=; case: m => [l|] /=; rewrite ?cats0.
- rewrite /lines /texts /=; split; case: m => [l|] /=; rewrite ?cats0 // /unzip1 -map_comp //.
- by rewrite /lines /=; case: m => [l|] /=; rewrite ?cats0.
- by rewrite /titles /=; case: m => [l|] /=; case: t.
Qed.

(* the lines of the picture are the non-zero entries, those above the diagonal when the array is nearly symmetric, each
   drawn once; every text is within 5e-5 of the entry at its ends *)
Theorem C90_texts n (A : 'M[R]_n) m t : ends_ok n m -> exists G d,
  [/\ plot_draw (ofR A) m t = Ok (G, d), directed G <-> ~ nearly_symmetric A, uniq (lines false d),
      forall i j : 'I_n, (exists c, (c, (i : nat, j : nat)) \in lines false d) <-> (A i j != 0 /\ (directed G \/ (i < j)%N)) &
      forall c i j x, (c, ((i : nat, j : nat), x)) \in texts d ->
        exists i' j' : 'I_n, [/\ i = i', j = j' & Rle (Rabs (Rminus x (A i' j'))) (Rdiv (IZR 5) (IZR 100000))]].
Proof.
move=> hm; have [G [hG]] := C90_picture A m t; rewrite hm => -[d [hd _ [hl ht] _ _]]; exists G, d.
have [b [_ h']] := allclose_trP A.
have dl (i j : nat) : (exists c, (c, (i, j)) \in lines false d) <-> exists x, ((i, j), x) \in wedges G.
  rewrite hl; split=> [[c /mapP[[e x] he [_ ->]]]|[x hx]]; first by exists x.
  by exists (directed G); apply/mapP; exists ((i, j), x).
have ul : uniq (unzip1 (wedges G)) -> uniq (lines false d).
  by move=> u; rewrite hl (map_comp (fun e => (directed G, e)) fst) map_inj_uniq // => x y [].
have [H [hH e1 e2 e3 e4]] : exists H, [/\ plot_graph_with_edge_weights (ofR A) = Ok H, directed H <-> ~ nearly_symmetric A,
    uniq (unzip1 (wedges H)), forall (e : dart) w, (e, w) \in wedges H ->
     exists i j : 'I_n, [/\ e = (i : nat, j : nat), A i j != 0, directed H \/ (i < j)%N & w = edge_weight (A i j)] &
     forall i j : 'I_n, A i j != 0 -> directed H \/ (i < j)%N -> ((i : nat, j : nat), edge_weight (A i j)) \in wedges H].
  case: b h' => h'.
    have [H [h1 h2 _ h4 h5]] := C69_undirected (h'.1 isT); exists H; split=> //.
    - by rewrite h2; split=> // nn; case: nn; apply/h'.
    - by move=> e w /h5[i [j [-> ij nz ->]]]; exists i, j; split=> //; right.
    - by rewrite h2 => i j nz [//|ij]; apply/h5; exists i, j.
  have nA : ~ nearly_symmetric A by move/h'.
  have [H [h1 h2 _ h4 h5]] := C69_directed nA; exists H; split=> //; rewrite ?h2.
  - by move=> e w /h5[i [j [-> nz ->]]]; exists i, j; split=> //; left.
  - by move=> i j nz _; apply/h5; exists i, j.
have eH : H = G by move: hH; rewrite hG => -[].
rewrite {}eH in hH e1 e2 e3 e4; split=> //; first exact: ul.
  move=> i j; rewrite dl; split=> [[x /e3[i' [j' [[ei ej] nz hij _]]]]|[nz hij]].
    by rewrite (val_inj (ei : val i = val i')) (val_inj (ej : val j = val j')).
  by exists (edge_weight (A i j)); exact: e4.
move=> c i j x; rewrite ht => /mapP[[e w] /e3[i' [j' [-> _ _ ->]]] [_ -> -> ->]].
by exists i', j'; split=> //; have [] := C69_weight (A i' j').
Qed.

(* ------------------------------------------------------------------ *)
(* the perfect matchings of a graph are highlighted iff its nodes are 0, ..., n-1 in some order; otherwise KeyError *)
Theorem C90_labels (G : graph nat_eqType) (w : dart -> R) m t : simple_graph G -> (forall e, e \in gedges G -> w e != 0) ->
  is_matching G m ->
  if perm_eq (gnodes G) (iota 0 (size (gnodes G)))
  then exists H d, plot_graph_draw G w (Some m) t = Ok (H, d) /\ lines true d = [seq (false, e) | e <- m]
  else plot_graph_draw G w (Some m) t = Raise KeyError.
Proof.
move=> sG nz hm; have [un _ _] := sG; set n := size _.
pose A : 'M[R]_n := mx_of (to_numpy_array G w).
have -> : plot_graph_draw G w (Some m) t = plot_draw (ofR A) (Some m) t by [].
have [H [hH]] := C90_picture A (Some m) t.
have -> : ends_ok n (Some m) = perm_eq (gnodes G) (iota 0 n).
  have pm := matching_ends sG hm.
  have -> : ends_ok n (Some m) = all (fun x => x < n)%N (ends m).
    by rewrite /ends_ok /ends /=; elim: (m) => //= e l ->; rewrite andbA.
  rewrite (perm_all _ pm); apply/allP/idP => [h|pe x hx]; last by move: hx; rewrite (perm_mem pe) mem_iota.
  have sub : {subset gnodes G <= iota 0 n} by move=> x /h; rewrite mem_iota.
  have [|_ h2] := uniq_min_size un sub; first by rewrite size_iota.
  by apply: uniq_perm => //; exact: iota_uniq.
case: ifP => // _ [d [hd _ _ hl _]]; by exists H, d.
Qed.

(* a graph numbered 0, ..., n-1: every matching found by find_perfect_matchings_brute is highlighted on edges that are
   drawn, and every drawn node is the end of exactly one of them *)
Theorem C90_matching n (G : graph nat_eqType) (w : dart -> R) m t : numbered n G -> (forall e, e \in gedges G -> w e != 0) ->
  m \in find_perfect_matchings_brute G -> exists H d,
  [/\ plot_graph_draw G w (Some m) t = Ok (H, d), lines true d = [seq (false, e) | e <- m],
      {subset lines true d <= lines false d} &
      forall x, x \in dots d -> count (fun l : bool * dart => (l.2.1 == x) || (l.2.2 == x)) (lines true d) = 1%N].
Proof.
move=> num nz hm; have [e1 e2 e3] := num.
have sG : simple_graph G.
  split=> [||[a b] he]; rewrite ?e1 ?iota_uniq //; have /= /andP[h1 h2] := e3 _ he.
  rewrite !mem_iota /= add0n h2 (ltn_trans h1 h2) (ltn_eqF h1); split=> //.
  by apply/negP => /e3 /= /andP[h3 _]; rewrite ltnNge (ltnW h1) in h3.
have sn : size (gnodes G) = n by rewrite e1 size_iota.
have [im _] : is_matching G m /\ subseq m (gedges G).
  move: hm; rewrite {1}/find_perfect_matchings_brute; case: ifP => // od; case: ifP => // sz hm.
  apply/(brute_mem _ sG); [lia|lia|].
  by rewrite /find_perfect_matchings_brute od sz.
pose A : 'M[R]_(size (gnodes G)) := mx_of (to_numpy_array G w).
have eA : to_numpy_array G w = ofR A by [].
have [H [hH]] := C90_picture A (Some m) t.
have [H' [hH' d' _ _ hw]] := C69_graph sG nz.
have eH : H' = H by move: hH'; rewrite /plot_graph eA hH => -[].
rewrite {}eH in hH' d' hw.
have [_ sub cnt] := im.
have hE e : e \in m -> (e.1 < e.2 < n)%N by move/sub/e3.
have -> : ends_ok (size (gnodes G)) (Some m).
  by rewrite sn; apply/allP => e /hE /andP[h1 h2]; rewrite h2 (ltn_trans h1 h2).
case=> d [hd [hdot _] [hl _] hr _]; exists H, d; split=> // [l|x].
  rewrite hr hl => /mapP[e he ->]; rewrite d'; apply/mapP; exists (e, edge_weight (w e)) => //.
  apply/hw; exists e; first exact: sub.
  split=> //; have := hE _ he; rewrite e1; case: e {he} => a b /= hab.
  have ix c : (c < n)%N -> index c (iota 0 n) = c.
    by move=> hc; rewrite -{1}[c](@nth_iota 0%N 0 n) // index_uniq ?iota_uniq ?size_iota.
  by rewrite !ix /sort2 /=; [congr pair; lia|lia|lia].
rewrite hdot sn -e1 => hx; rewrite hr count_map -(cnt _ hx); exact: eq_count.
Qed.

(* nodes in another order: the plot numbers the nodes by position, and the highlighted lines are not edges *)
Theorem C90_refuted_order : exists (G : graph nat_eqType) (w : dart -> R) m H d,
  [/\ simple_graph G, m \in find_perfect_matchings_brute G, plot_graph_draw G w (Some m) None = Ok (H, d) &
      forall e, e \in m -> (true, e) \notin lines false d /\ (false, e) \notin lines false d].
Proof.
pose G : graph nat_eqType := Graph [:: 0; 2; 1; 3]%N [:: (0, 1); (2, 3)]%N.
pose w (e : dart) : R := 1; pose m : seq dart := [:: (0, 1); (2, 3)]%N.
have sG : simple_graph G by split=> // e; rewrite !inE => /orP[] /eqP ->.
have nz e : e \in gedges G -> w e != 0 by rewrite /w oner_eq0.
have hm : m \in find_perfect_matchings_brute G by [].
pose A : 'M[R]_4 := mx_of (to_numpy_array G w).
have eA : to_numpy_array G w = ofR A by [].
have [H [hH [d [hd _ [hl _] _ _]]]] := C90_picture A (Some m) None.
exists G, w, m, H, d; split=> //.
have [H' [hH' d' _ _ hw]] := C69_graph sG nz.
have eH : H' = H by move: hH'; rewrite /plot_graph eA hH => -[].
rewrite {}eH in hH' d' hw; move=> e he.
suff h c : (c, e) \notin lines false d by rewrite !h.
rewrite hl; apply/mapP => -[[f x] /hw[g hg [-> _]] [_ ee]]; move: he hg; rewrite ee.
by rewrite !inE => h1 /orP[] /eqP eg; move: h1; rewrite eg.
Qed.

(* nodes 1 and 2: KeyError *)
Example C90_shifted (w : dart -> R) : w (1, 2)%N != 0 ->
  plot_graph_draw (Graph [:: 1; 2] [:: (1, 2)])%N w (Some [:: (1, 2)%N]) None = Raise KeyError.
Proof.
move=> h; have := @C90_labels (Graph [:: 1; 2] [:: (1, 2)])%N w [:: (1, 2)%N] None; apply.
- by split=> // e; rewrite !inE => /eqP ->.
- by move=> e; rewrite !inE => /eqP ->.
- by split=> // x; rewrite !inE => /orP[] /eqP ->.
Qed.

(* the square 0-1-2-3 with unit weights: both matchings are highlighted *)
Example C90_square m : m \in [:: [:: (0, 1); (2, 3)]; [:: (0, 3); (1, 2)]]%N -> exists H d,
  plot_graph_draw (Graph [:: 0; 1; 2; 3] [:: (0, 1); (0, 3); (1, 2); (2, 3)])%N (fun _ => 1) (Some m) None = Ok (H, d)
  /\ {subset lines true d <= lines false d}.
Proof.
move=> hm; have [||//|H [d [h1 _ h2 _]]] :=
  @C90_matching 4 (Graph [:: 0; 1; 2; 3] [:: (0, 1); (0, 3); (1, 2); (2, 3)])%N (fun _ => 1) m None.
- by split=> // e; rewrite !inE => /or4P[] /eqP ->.
- by move=> e _; rewrite oner_eq0.
- by exists H, d.
Qed.
