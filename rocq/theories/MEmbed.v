(* MEmbed.v -- model of plot_planar_embedding, /repo/src/ff/ff_graph_theory.py 203-248: the highlighted (red) arrows.
   Positions, nodes, grey edges, labels and the title are not modelled. *)
Set Warnings "-notation-overridden,-ambiguous-paths".
From mathcomp Require Import all_ssreflect all_algebra.
From Verif Require Import Base ArrC MGraph.
Set Implicit Arguments.
Unset Strict Implicit.
Unset Printing Implicit Defensive.
Import Order.Theory GRing.Theory Num.Theory.
Local Open Scope ring_scope.

Section Embed.
Variable C : numClosedFieldType.

(* 222-244: the arrow drawn for the edge e, if any *)
Definition red_arrow (pfo : arr C) (s : seq dart) (e : dart) : res (seq dart) :=
  let l := minn e.1 e.2 in let r := maxn e.1 e.2 in
  let* x := idx pfo l r in
  Ok (if x < 0 then rcons s (l, r) else if 0 < x then rcons s (r, l) else s).

(* 203-248 plot_planar_embedding(G, pfo): the red arrows in the order in which they are drawn.  pfo is a real array.
   planar is the result of nx.check_planarity; Ok None stands for the NetworkXException that nx.planar_layout (212) raises on
   a graph that is not planar. *)
Definition plot_planar_embedding (planar : bool) (G : graph nat_eqType) (pfo : option (arr C)) : res (option (seq dart)) :=
  if ~~ planar then Ok None else
  match pfo with
  | None => Ok (Some [::])
  | Some A => let* s := foldM (red_arrow A) [::] (gedges G) in Ok (Some s)
  end.
End Embed.
