(* MGraph.v -- model of /repo/src/ff/ff_graph_theory.py (definitions only).
   Plotting functions (29-94, 96-174, 203-248) are in MPlot.v, MDraw.v, MEmbed.v; verbose output is not modelled.  Results of networkx's spanning tree,
   planarity test / embedding and outer face are arguments. *)
Set Warnings "-notation-overridden,-ambiguous-paths".
From mathcomp Require Import all_ssreflect all_algebra.
From Verif Require Import Base ArrC MCombinatorics.
Set Implicit Arguments.
Unset Strict Implicit.
Unset Printing Implicit Defensive.
Import Order.Theory GRing.Theory Num.Theory.
Local Open Scope ring_scope.

(* networkx.Graph: the nodes in insertion order and list(G.edges).  networkx reports every undirected edge once, as
   the tuple (u, v) where u is the end inserted first. *)
Record graph (L : eqType) := Graph { gnodes : seq L; gedges : seq (L * L) }.

(* itertools.combinations(l, k): k-element subsequences of l, in itertools' order *)
Fixpoint combinations (T : Type) (k : nat) (l : seq T) : seq (seq T) :=
  match k, l with
  | 0, _ => [:: [::]]
  | k'.+1, [::] => [::]
  | k'.+1, x :: r => [seq x :: c | c <- combinations k' r] ++ combinations k'.+1 r
  end.

Section Generic.
Variable L : eqType.
Implicit Types (G H T : graph L) (e : L * L).

(* (u, v) in G.edges, i.e. G.has_edge(u, v): orientation does not matter *)
Definition has_edge G (u v : L) : bool := ((u, v) \in gedges G) || ((v, u) \in gedges G).

(* the set of end points of a tuple of edges (lines 524-527), as a list without repetition *)
Definition nodes_in (c : seq (L * L)) : seq L := undup (flatten [seq [:: e.1; e.2] | e <- c]).

(* 503-531 find_perfect_matchings_brute *)
Definition find_perfect_matchings_brute G : seq (seq (L * L)) :=
  let n := size (gnodes G) in
  if (n %% 2 != 0)%N then [::] else                                     (* 514-515 *)
  if (15 < n)%N then [::] else                                          (* 517-519 *)
  [seq c <- combinations (n %/ 2) (gedges G) | size (nodes_in c) == n]. (* 521-531 *)

(* G.adj[v]: the neighbours of v *)
Definition neighbours G (v : L) : seq L :=
  undup ([seq e.2 | e <- gedges G & e.1 == v] ++ [seq e.1 | e <- gedges G & e.2 == v]).

(* networkx's breadth first search (single_source_shortest_path_length): pairs (node, distance).  Every round but the
   last adds a node, so size (gnodes G) rounds are enough. *)
Fixpoint bfs_loop G (fuel : nat) (seen level : seq L) (k : nat) (acc : seq (L * nat)) : seq (L * nat) :=
  match fuel with
  | 0 => acc
  | fuel'.+1 =>
      let next := undup [seq w <- flatten [seq neighbours G v | v <- level] | w \notin seen] in
      if next is [::] then acc else
      bfs_loop G fuel' (seen ++ next) next k.+1 (acc ++ [seq (w, k.+1) | w <- next])
  end.
Definition path_lengths G (s : L) : seq (L * nat) :=
  bfs_loop G (size (gnodes G)) [:: s] [:: s] 0 [:: (s, 0%N)].

(* nx.is_connected(G); NetworkXPointlessConcept on the graph without nodes *)
Definition is_connected G : res bool :=
  match gnodes G with
  | [::] => Raise NetworkXPointlessConcept
  | s :: _ => Ok (size (path_lengths G s) == size (gnodes G))
  end.

(* nx.is_tree(G): len(G) - 1 == G.number_of_edges() and nx.is_connected(G) *)
Definition is_tree G : res bool :=
  match gnodes G with
  | [::] => Raise NetworkXPointlessConcept
  | _ :: _ => let* c := is_connected G in Ok ((size (gnodes G) - 1 == size (gedges G))%N && c)
  end.

(* 637-656 compute_tree_depth *)
Definition compute_tree_depth G : res nat :=
  let* b := is_tree G in
  if ~~ b then Raise ValueError else                                     (* 647-648 *)
  match gnodes G with
  | [::] => Raise IndexError                                             (* list(graph.nodes())[0] *)
  | root :: _ => Ok (\max_(p <- path_lengths G root) p.2)%N              (* 651-656 *)
  end.

(* H.degree(x): a self loop counts twice *)
Definition degree G (x : L) : nat := (count (fun e => e.1 == x) (gedges G) + count (fun e => e.2 == x) (gedges G))%N.

(* H.remove_node(x) *)
Definition remove_node G (x : L) : graph L :=
  Graph [seq y <- gnodes G | y != x] [seq e <- gedges G | (e.1 != x) && (e.2 != x)].

(* H.add_edge(u, v): missing end points are added; an edge already present is not repeated *)
Definition add_node G (x : L) : graph L := if x \in gnodes G then G else Graph (rcons (gnodes G) x) (gedges G).
Definition add_edge G e : graph L :=
  let G' := add_node (add_node G e.1) e.2 in
  if has_edge G' e.1 e.2 then G' else Graph (gnodes G') (rcons (gedges G') e).

End Generic.

(* ------------------------------------------------------------------ *)
(* graphs with integer labels                                           *)
Definition dart := (nat * nat)%type.
Definition face := seq dart.
Implicit Types (G H T : graph nat_eqType) (F : seq face) (e d : dart).

(* Python's order on pairs of ints *)
Definition dart_le d e : bool := (d.1 < e.1)%N || (d.1 == e.1) && (d.2 <= e.2)%N.
(* min of a non-empty set of darts *)
Definition min_dart (d : dart) (s : seq dart) : dart := foldl (fun m e => if dart_le m e then m else e) d s.
(* edgeset.discard(e) *)
Definition discard e (s : seq dart) : seq dart := [seq x <- s | x != e].

(* networkx.PlanarEmbedding, as far as it is used: emb v u = emb[v][u]["cw"]; None is a KeyError *)
Definition embedding := nat -> nat -> option nat.

(* 337-349: the loop that traces faces.  es is edgeset, p0 :: rest is path, acc is faces; on exit of the loop the last
   path is appended (351-352, it is never empty). *)
Fixpoint trace (emb : embedding) (fuel : nat) (es : seq dart) (p0 : dart) (rest acc : seq _) : res (seq face) :=
  match es with
  | [::] => Ok (rcons acc (p0 :: rest))
  | x :: es' =>
    match fuel with
    | 0 => Raise OutOfFuel
    | fuel'.+1 =>
      let l := last p0 rest in                                           (* u, v = path[-1] *)
      match emb l.2 l.1 with
      | None => Raise KeyError
      | Some next_node =>
        let e := (l.2, next_node) in
        if e == p0 then                                                  (* 343-346 *)
          let m := min_dart x es' in trace emb fuel' (discard m es) m [::] (rcons acc (p0 :: rest))
        else trace emb fuel' (discard e es) p0 (rcons rest e) acc        (* 347-349 *)
      end
    end
  end.

(* 368-375: the nodes of a face, sorted, without repetition *)
Definition face_nodes (f : face) : seq nat := sort leq (nodes_in f).

(* 366-385: the first face whose node set is the outer face reported by networkx goes to the end.  (max_face, 354-359,
   is only used for this move.) *)
Definition move_outer (outer : seq nat) F : seq face :=
  let i := find (fun f => sort leq outer == face_nodes f) F in
  if (i < size F)%N then take i F ++ drop i.+1 F ++ [:: nth [::] F i] else F.

(* 320-324: both directions of every edge, as a set *)
Definition edgeset G : seq dart := undup (flatten [seq [:: (e.1, e.2); (e.2, e.1)] | e <- gedges G]).

(* 305-387 faces(graph, emb).  emb = None is Python's None (or an empty embedding); chk is the result of
   nx.check_planarity(graph), None for a non-planar graph; outer is the outer face of triangulate_embedding(emb).
   Ok None is the return value 0 of line 334.  fuel bounds the number of rounds of the while loop. *)
Definition faces (fuel : nat) G (emb chk : option embedding) (outer : seq nat) : res (option (seq face)) :=
  match edgeset G with
  | [::] => Raise ValueError                                             (* 327: min of an empty set *)
  | x :: es =>
    let minedge := min_dart x es in
    match (if emb is Some m then Some m else chk) with
    | None => Ok None                                                    (* 331-334 *)
    | Some m =>
      let* F := trace m fuel (discard minedge (x :: es)) minedge [::] [::] in
      Ok (Some (move_outer outer F))
    end
  end.

(* tuple(sorted(e)) *)
Definition sort2 e : dart := (minn e.1 e.2, maxn e.1 e.2).

(* 279-294: the dual edge contributed by e, if any *)
Fixpoint dual_scan e (face_edges rem : seq face) (u : option nat) : option dart :=
  match rem with
  | [::] => if u is Some i then Some (i, size face_edges) else None      (* 293-294 *)
  | f :: rem' =>
      if e \in f then
        let k := index f face_edges in                                   (* face_edges.index(f) *)
        if u is Some i then Some (i, k) else dual_scan e face_edges rem' (Some k)
      else dual_scan e face_edges rem' u
  end.

(* 251-302 dual_graph_H(G, F, T).  edges_not_in_t is a Python set; it is traversed here in the order of G.edges, the
   order only influences the order of the adjacency lists of H, which nothing depends on. *)
Definition dual_graph_H G F T : graph nat_eqType :=
  let face_edges := [seq [seq sort2 e | e <- f] | f <- F] in             (* 269-271 *)
  let edges_not_in_t := [seq e <- gedges G | ~~ has_edge T e.1 e.2] in   (* 273 *)
  let dual_edges := pmap (fun e => dual_scan e face_edges face_edges None) edges_not_in_t in
  foldl (fun H e => add_edge H e) (Graph (iota 0 (size face_edges)) [::] : graph nat_eqType) dual_edges.

Section Pfo.
Variable C : numClosedFieldType.
Local Notation arr := (arr C).

(* A[i, j] = v with numpy's bounds check *)
Definition upd_chk (A : arr) (i j : nat) (v : C) : res arr :=
  if (i < nr A)%N && (j < nc A)%N then Ok (upd A i j v) else Raise IndexError.

(* prefix = -1 if e[0] > e[1] else 1 (408-411, 436-439) *)
Definition prefix e : C := if (e.2 < e.1)%N then -1 else 1.

(* 406-420: the loop over the edges of a face: (sign, skip_list) *)
Definition face_sign (pfo : arr) (f : face) : res (C * seq dart) :=
  foldM (fun (s : C * seq dart) e =>
    let* x := idx pfo (minn e.1 e.2) (maxn e.1 e.2) in
    if close ('Re x) 0 then Ok (s.1, rcons s.2 e) else Ok (s.1 * (x * prefix e), s.2)) (1, [::]) f.

(* 390-451 complete_face(pfo, edges): the contents of pfo afterwards (it is modified in place), and whether the
   function returns it (true) or returns None (false) *)
Definition complete_face (pfo : arr) (f : face) : res (arr * bool) :=
  let* s := face_sign pfo f in
  match s.2 with
  | [::] => Ok (pfo, false)                                              (* 426-428 *)
  | x :: r =>
    let e := last x r in                                                 (* skip_list.pop() *)
    let u := minn e.1 e.2 in let v := maxn e.1 e.2 in
    let p := if s.1 == -1 then prefix e else -1 * prefix e in            (* 444-449 *)
    let* a := upd_chk pfo u v p in
    let* b := upd_chk a v u p in Ok (b, true)
  end.

(* weight attributes of the edges: w (u, v) for the tuple (u, v) of G.edges (1 for an edge without weight) *)
Definition weights (L : eqType) := (L * L)%type -> C.

(* nx.adjacency_matrix(graph).toarray(): rows and columns in node order *)
Definition adjacency_matrix (L : eqType) (G : graph L) (w : weights L) : arr :=
  mk (size (gnodes G)) (size (gnodes G)) (fun i j =>
    match drop i (gnodes G), drop j (gnodes G) with
    | u :: _, v :: _ =>
        if (u, v) \in gedges G then w (u, v) else if (v, u) \in gedges G then w (v, u) else 0
    | _, _ => 0
    end).

(* 583-587: orientation of the tree edges *)
Definition orient_tree (A : arr) T : res arr :=
  foldM (fun A e => let u := minn e.1 e.2 in let v := maxn e.1 e.2 in
    let* a := upd_chk A u v 1 in upd_chk a v u (-1)) A (gedges T).

(* 614-617: the body of the loop over leaves *)
Definition leaf_step F (s : arr * graph nat_eqType) (leaf : nat) : res (arr * graph nat_eqType) :=
  if (leaf < size F)%N then
    let* r := complete_face s.1 (nth [::] F leaf) in Ok (r.1, remove_node s.2 leaf)
  else Raise IndexError.

(* 607-622: while len(H.nodes()) > 1.  Every round removes a node, so size (gnodes H) rounds are enough. *)
Fixpoint leaf_loop F (root : nat) (fuel : nat) (A : arr) H : res arr :=
  if (size (gnodes H) <= 1)%N then Ok A else
  match fuel with
  | 0 => Raise OutOfFuel
  | fuel'.+1 =>
    let leaves := [seq x <- gnodes H | (degree H x == 1%N) && (x != root)] in
    if leaves is [::] then Ok A else                                     (* 611-612 *)
    let* s := foldM (leaf_step F) (A, H) leaves in
    leaf_loop F root fuel' s.1 s.2
  end.

(* what networkx computes for a graph: planarity, embedding, maximum spanning tree, outer face *)
Record nxinfo := NxInfo {
  nx_planar : bool; nx_emb : embedding; nx_tree : graph nat_eqType; nx_outer : seq nat }.
Variable fuel : nat.

(* 534-634 pfo_algorithm, for a graph with at least one node (nx.adjacency_matrix raises NetworkXError on the empty
   graph, where this definition raises ValueError; count_perfect_matchings_planar never gets there) *)
Definition pfo_algorithm G (w : weights nat_eqType) (X : nxinfo) : res arr :=
  let T := nx_tree X in                                                  (* 552 *)
  let orientation := ascale (99%:R * 'i) (adjacency_matrix G w) in       (* 558-559 *)
  let* oF := faces fuel G (Some (nx_emb X)) None (nx_outer X) in         (* 563-566 *)
  let F := odflt [::] oF in
  let H := dual_graph_H G F T in                                         (* 570 *)
  let* b := is_tree H in
  let* _ := assertM b in                                                 (* 578-580 *)
  let* A := orient_tree orientation T in                                 (* 583-587 *)
  let root := (\max_(x <- gnodes H) x)%N in                              (* 605 *)
  let* A := leaf_loop F root (size (gnodes H)) A H in
  Ok (mk (nr A) (nc A) (fun i j => 'Re (get A i j))).                    (* 629 *)

(* 490-498: the skew matrix whose determinant is taken *)
Definition pfo_matrix G (w : weights nat_eqType) (X : nxinfo) : res arr :=
  let A := adjacency_matrix G w in
  let* pfo := pfo_algorithm G w X in
  let B := mk (nr A) (nc A) (fun i j => get pfo i j * get A i j) in      (* 496 *)
  let B := mk (nr B) (nc B) (fun i j => if (i <= j)%N then get B i j else 0) in
  Ok (asub B (atr B)).

End Pfo.

(* ------------------------------------------------------------------ *)
(* 177-200 generate_random_planar_graph.  Python's global random generator is a record of samplers on an abstract state;
   nx.gnm_random_graph(n, m) draws from the same state. *)
Record pygen := PyGen {
  pst : Type;
  py_seed : int -> pst;                                                  (* random.seed(s) *)
  py_randint : int -> int -> pst -> int * pst;                           (* random.randint(a, b), a <= b *)
  py_gnm : nat -> int -> pst -> graph nat_eqType * pst }.
Section RandomPlanar.
Variables (P : pygen) (check_planarity : graph nat_eqType -> bool).

(* 193-200: the loop, with the number of attempts left *)
Fixpoint attempts (n : nat) (k : nat) (s : pst P) : res (option (graph nat_eqType)) * pst P :=
  match k with
  | 0 => (Ok None, s)
  | k'.+1 =>
    let a := n%:Z - 1 in let b := 2%:Z * n%:Z - 3%:Z in
    if b < a then (Raise ValueError, s) else                             (* random.randint on an empty range *)
    let p := py_randint a b s in
    let q := @py_gnm P n p.1 p.2 in
    if check_planarity q.1 then
      match is_connected q.1 with
      | Ok true => (Ok (Some q.1), q.2)
      | Ok false => attempts n k' q.2
      | Raise x => (Raise x, q.2)
      end
    else attempts n k' q.2
  end.
(* seed is an int or None; `if seed:` (190) is false for 0 *)
Definition generate_random_planar_graph (n : nat) (seed : option int) (s : pst P) :=
  let s0 := match seed with Some z => if z == 0 then s else py_seed P z | None => s end in
  attempts n 1000 s0.
End RandomPlanar.
