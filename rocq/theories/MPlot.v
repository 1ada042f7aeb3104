(* MPlot.v -- model of plot_graph_with_edge_weights, /repo/src/ff/ff_graph_theory.py 96-174: the graph that is returned.
   What is drawn (144-173) is in MDraw.v.  Entries are real numbers. *)
Set Warnings "-notation-overridden,-ambiguous-paths".
From Coq Require Import Reals.
From mathcomp Require Import all_ssreflect all_algebra.
From Verif Require Import Base MCombinatorics RealC MClean MDist MGraph.
Set Implicit Arguments.
Unset Strict Implicit.
Unset Printing Implicit Defensive.
Import Order.Theory GRing.Theory Num.Theory.
Local Open Scope ring_scope.

Local Notation rarr := (arr R_zmodType).

(* the returned nx.Graph or nx.DiGraph: nodes, and edges with their weights, in insertion order *)
Record wgraph := WGraph { directed : bool; wnodes : seq nat; wedges : seq (dart * R) }.

(* common length of two broadcast dimensions *)
Definition bdim (m k : nat) : res nat :=
  if m == k then Ok m else if m == 1%N then Ok k else if k == 1%N then Ok m else Raise ValueError.
(* entry of an array broadcast along its dimensions of length 1 *)
Definition bget (A : rarr) (i j : nat) : R :=
  get A (if nr A == 1%N then 0%N else i) (if nc A == 1%N then 0%N else j).

(* 121: np.allclose(A, A.T), with broadcasting; incompatible shapes are a ValueError *)
Definition allclose_tr (A : rarr) : res bool :=
  let* m := bdim (nr A) (nc A) in
  Ok (all (fun i => all (fun j => rclose (bget A i j) (bget (mk (nc A) (nr A) (fun i j => get A j i)) i j))
    (iota 0 m)) (iota 0 m)).

(* round(10e3 * x) / 10e3 (Python's round of a float: half to even) *)
Definition edge_weight (x : R) : R := Rdiv (IZR (rnd (Rmult (IZR 10000) x))) (IZR 10000).

(* 136-137 and 141-142: if A[i, j] != 0: G.add_edge(i, j, weight=...); no pair is visited twice *)
Definition plot_edge (A : rarr) (es : seq (dart * R)) (e : dart) : res (seq (dart * R)) :=
  let* x := idx A e.1 e.2 in
  Ok (if x != 0 then rcons es (e, edge_weight x) else es).

(* the pairs (i, j) visited by the two nested loops: all of them (134-135), or those with i < j (139-140) *)
Definition all_pairs (n : nat) : seq dart := [seq (i, j) | i <- iota 0 n, j <- iota 0 n].
Definition up_pairs (n : nat) : seq dart := flatten [seq [seq (i, j) | j <- iota i.+1 (n - i.+1)] | i <- iota 0 n].

(* 96-174 plot_graph_with_edge_weights(A) for an array A *)
Definition plot_graph_with_edge_weights (A : rarr) : res wgraph :=
  let n := nr A in                                                       (* 119 *)
  let* sym := allclose_tr A in                                           (* 121-129 *)
  let* es := foldM (plot_edge A) [::] (if sym then up_pairs n else all_pairs n) in
  Ok (WGraph (~~ sym) (iota 0 n) es).

(* 111-117: nx.to_numpy_array(G, weight="weight") of an undirected simple graph: rows and columns in node order *)
Definition to_numpy_array (G : graph nat_eqType) (w : dart -> R) : rarr :=
  mk (size (gnodes G)) (size (gnodes G)) (fun i j =>
    let e := (nth 0%N (gnodes G) i, nth 0%N (gnodes G) j) in
    if e \in gedges G then w e else if (e.2, e.1) \in gedges G then w (e.2, e.1) else 0).
(* plot_graph_with_edge_weights(G) for an undirected simple graph G *)
Definition plot_graph (G : graph nat_eqType) (w : dart -> R) : res wgraph :=
  plot_graph_with_edge_weights (to_numpy_array G w).
