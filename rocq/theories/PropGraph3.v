(* PropGraph3.v -- depth of a tree: property C19 *)
Set Warnings "-notation-overridden,-ambiguous-paths".
From mathcomp Require Import all_ssreflect all_algebra.
From mathcomp.zify Require Import zify.
From Verif Require Import Base ArrC MCombinatorics MGraph GraphBfs.
Set Implicit Arguments.
Unset Strict Implicit.
Unset Printing Implicit Defensive.

Section C19.
Variable L : eqType.
Implicit Types G : graph L.

(* for a tree the result is the greatest distance of a node from the first node *)
Theorem C19_depth G root others : graph_ok G -> gnodes G = root :: others -> tree G ->
  exists k, [/\ compute_tree_depth G = Ok k,
    forall x, x \in gnodes G -> exists2 j, distance G root x j & j <= k &
    exists2 x, x \in gnodes G & distance G root x k].
Proof.
move=> ok E tG; have ne : gnodes G <> [::] by rewrite E.
have [b [hb /proj2 h]] := is_treeP ok ne; rewrite /compute_tree_depth hb (h tG) /= E.
have rG : root \in gnodes G by rewrite E mem_head.
have [un hr hd] := path_lengthsP ok rG; have [_ cG _] := tG.
eexists; split; first by []; rewrite -?E.
  move=> x xG; have /hr/mapP[[y j] h1 /= exy] : reachable G root x by apply: cG.
  exists j; first by rewrite exy; apply: hd.
  by rewrite (big_rem _ h1) /= leq_maxl.
have [p h1 h2] : exists2 p, p \in path_lengths G root & p.2 = \max_(p <- path_lengths G root) p.2.
  have : path_lengths G root != [::].
    have : root \in unzip1 (path_lengths G root) by apply/hr; exists [::].
    by case: path_lengths.
  elim: (path_lengths G root) => // q l IH _; rewrite big_cons; case: (altP (l =P [::])) => [->|nl].
    by exists q; rewrite ?mem_head // big_nil maxn0.
  have [p h1 h2] := IH nl; rewrite -h2; case: (leqP q.2 p.2) => h3.
    by exists p; rewrite // inE h1 orbT.
  by exists q; rewrite ?mem_head.
rewrite -h2; exists p.1; last by apply: hd; case: (p) h1.
have : p.1 \in unzip1 (path_lengths G root) by apply: map_f.
by case/hr => q w; apply: walk_nodes w.
Qed.

(* every non-empty graph that is not a tree: ValueError *)
Theorem C19_not_tree G : graph_ok G -> gnodes G <> [::] -> ~ tree G -> compute_tree_depth G = Raise ValueError.
Proof.
move=> ok ne nt; have [b [hb [hb' _]]] := is_treeP ok ne.
by rewrite /compute_tree_depth hb /=; case: b hb hb' => //= _ /(_ isT).
Qed.

(* the claim "ValueError for every non-tree" fails for the graph without nodes: networkx raises its own exception *)
Theorem C19_empty_refuted G : gnodes G = [::] -> compute_tree_depth G = Raise NetworkXPointlessConcept.
Proof. by rewrite /compute_tree_depth /is_tree => ->. Qed.

End C19.

(* a path a - b - c - d hanging from its second node: depth 2; with an additional edge: not a tree *)
Definition path4 := Graph [:: 5; 1; 2; 9] [:: (5, 1); (5, 2); (2, 9)] : graph nat_eqType.
Definition cyc4 := Graph [:: 5; 1; 2; 9] [:: (5, 1); (5, 2); (2, 9); (1, 9)] : graph nat_eqType.
Example C19_example : graph_ok path4 /\ tree path4 /\ compute_tree_depth path4 = Ok 2 /\
  graph_ok cyc4 /\ compute_tree_depth cyc4 = Raise ValueError.
Proof.
have o1 : graph_ok path4 by split=> // e; rewrite !inE => /or3P[] /eqP ->.
have o2 : graph_ok cyc4 by split=> // e; rewrite !inE => /or4P[] /eqP ->.
have d4 : compute_tree_depth path4 = Ok 2.
  rewrite /compute_tree_depth (_ : is_tree _ = Ok true) //=.
  have -> : path_lengths path4 5 = [:: (5, 0); (1, 1); (2, 1); (9, 2)] by vm_compute.
  by rewrite !big_cons big_nil.
split=> //; split; last by [].
have ne : gnodes path4 <> [::] by [].
split=> //; have [b [hb [h _]]] := is_connectedP o1 ne.
by apply: h; case: hb => <-.
Qed.
