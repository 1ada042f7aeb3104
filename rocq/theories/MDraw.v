(* MDraw.v -- model of what plot_graph_with_edge_weights draws, /repo/src/ff/ff_graph_theory.py 29-93 and 144-173.
   The picture is the list of the drawing calls, in order; coordinates, fonts and line widths are not modelled.  A
   dictionary of positions is represented by the list of its keys. *)
Set Warnings "-notation-overridden,-ambiguous-paths".
From Coq Require Import Reals String.
From mathcomp Require Import all_ssreflect all_algebra.
From Verif Require Import Base MCombinatorics RealC MClean MDist MGraph MPlot.
Set Implicit Arguments.
Unset Strict Implicit.
Unset Printing Implicit Defensive.
Import Order.Theory GRing.Theory Num.Theory.
Local Open Scope ring_scope.

Local Notation rarr := (arr R_zmodType).

Inductive colour := Grey | Red.
Inductive drawn :=
  | Nodes of seq nat                    (* nx.draw_networkx_nodes: all nodes *)
  | Labels of seq nat                   (* nx.draw_networkx_labels: every node with its name *)
  | Edges of colour & bool & seq dart   (* nx.draw_networkx_edges: the edges; true when drawn curved (a connectionstyle) *)
  | EdgeLabels of bool & seq (dart * R) (* nx.draw_networkx_edge_labels: edges and texts; true when curved *)
  | Title of string.                    (* plt.title *)

(* nx.draw_networkx_edges(G, pos, edgelist=l): the position of both ends of every edge is looked up (KeyError); whether
   the edges are edges of G is not checked *)
Definition draw_edges (pos : seq nat) (c : colour) (curved : bool) (l : seq dart) : res drawn :=
  if all (fun e => (e.1 \in pos) && (e.2 \in pos)) l then Ok (Edges c curved l) else Raise KeyError.

(* if not pos: pos = nx.spring_layout(G) (46-47, 77-78); a layout has a position for every node *)
Definition positions (G : wgraph) (pos : option (seq nat)) : seq nat :=
  match pos with Some (x :: s) => x :: s | _ => wnodes G end.

(* 29-65 _draw_labeled_multigraph (curved) and 68-93 _draw_labeled_graph (straight); pos has all nodes of G.
   nx.get_edge_attributes(G, "weight") has every edge of the graph as a key *)
Definition draw_labeled (curved : bool) (G : wgraph) (pos : option (seq nat)) : res (seq drawn) :=
  let pos := positions G pos in
  let* e := draw_edges pos Grey curved (unzip1 (wedges G)) in
  Ok [:: Nodes (wnodes G); Labels (wnodes G); e; EdgeLabels curved (wedges G)].
Definition draw_labeled_multigraph := draw_labeled true.
Definition draw_labeled_graph := draw_labeled false.

(* 144-174: the drawing part, and the returned graph *)
Definition draw_graph (G : wgraph) (matching : option (seq dart)) (title : option string) : res (wgraph * seq drawn) :=
  let pos := wnodes G in                                                             (* 155-156 nx.shell_layout(G) *)
  let* d := if directed G then draw_labeled_multigraph G (Some pos) else draw_labeled_graph G (Some pos) in
  let* m := if matching is Some l then let* e := draw_edges pos Red false l in Ok [:: e] else Ok [::] in   (* 163-165 *)
  let t := if title is Some s then s else "Graph A with Edge Weights"%string in       (* 168-171 *)
  Ok (G, d ++ m ++ [:: Title t]).

(* 96-174 plot_graph_with_edge_weights(A, matching, title): the returned graph and the picture; for an array, and for
   an undirected simple graph *)
Definition plot_draw (A : rarr) (matching : option (seq dart)) (title : option string) : res (wgraph * seq drawn) :=
  let* G := plot_graph_with_edge_weights A in draw_graph G matching title.
Definition plot_graph_draw (G : graph nat_eqType) (w : dart -> R) := plot_draw (to_numpy_array G w).
