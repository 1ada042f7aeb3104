(* PropGraph1.v -- enumeration of perfect matchings: properties C09, C10 *)
Set Warnings "-notation-overridden,-ambiguous-paths".
From mathcomp Require Import all_ssreflect all_algebra.
From mathcomp.zify Require Import zify.
From Verif Require Import Base ArrC MCombinatorics Matching Pfaffian MGraph GraphBrute.
Set Implicit Arguments.
Unset Strict Implicit.
Unset Printing Implicit Defensive.
Import Order.Theory GRing.Theory Num.Theory.
Local Open Scope ring_scope.

Section C09.
Variable L : eqType.

(* every returned tuple is a perfect matching *)
Theorem C09_sound (G : graph L) c : simple_graph G -> (size (gnodes G) <= 15)%N ->
  c \in find_perfect_matchings_brute G -> is_matching G c.
Proof.
move=> sG hn hc; have ev : ~~ odd (size (gnodes G)).
  by move: hc; rewrite /find_perfect_matchings_brute modn2; case: odd.
by case: (brute_mem c sG hn ev) hc => // -[].
Qed.

(* every perfect matching, as a set of edges, is returned exactly once *)
Theorem C09_complete (G : graph L) c : simple_graph G -> (size (gnodes G) <= 15)%N -> is_matching G c ->
  count (perm_eq c) (find_perfect_matchings_brute G) = 1%N.
Proof. exact: brute_class. Qed.

(* an odd number of nodes: nothing is returned, and there is nothing to return *)
Theorem C09_odd (G : graph L) : simple_graph G -> odd (size (gnodes G)) ->
  find_perfect_matchings_brute G = [::] /\ forall c, ~ is_matching G c.
Proof.
move=> sG od; split; first by rewrite /find_perfect_matchings_brute modn2 od.
by move=> c m; move: (matching_even sG m); rewrite od.
Qed.

(* the bound on the number of nodes is needed: with 16 nodes or more nothing is returned *)
Theorem C09_large (G : graph L) : (15 < size (gnodes G))%N -> find_perfect_matchings_brute G = [::].
Proof. by move=> h; rewrite /find_perfect_matchings_brute h; case: ifP. Qed.
End C09.

(* a square with a chord: two matchings *)
Definition square := Graph [:: 7; 3; 5; 9]%N [:: (7, 3); (7, 9); (7, 5); (3, 5); (5, 9)]%N : graph nat_eqType.

Example C09_example : simple_graph square /\
  find_perfect_matchings_brute square = [:: [:: (7, 3); (5, 9)]; [:: (7, 9); (3, 5)]]%N.
Proof.
split; last by vm_compute.
split=> // e he; have : all (fun e => [&& e.1 \in gnodes square, e.2 \in gnodes square, e.1 != e.2
  & (e.2, e.1) \notin gedges square]) (gedges square) by vm_compute.
by move=> /allP/(_ _ he)/and4P[].
Qed.

(* the number of matchings found is the hafnian of the adjacency matrix, as computed by hf *)
Theorem C10_count (C : numClosedFieldType) (L : eqType) (G : graph L) :
  simple_graph G -> (size (gnodes G) <= 15)%N ->
  hf (adjacency_matrix G (fun _ => 1 : C)) = Ok (size (find_perfect_matchings_brute G))%:R.
Proof.
move=> sG hn; rewrite (@hf_hafnian _ _ (size (gnodes G))) ?adj_tr //.
case: (boolP (odd (size (gnodes G)))) => od.
  by rewrite hafnian_odd // /find_perfect_matchings_brute modn2 od.
by rewrite hafnian_adj1 // brute_card.
Qed.

Example C10_example (C : numClosedFieldType) : hf (adjacency_matrix square (fun _ => 1 : C)) = Ok 2%:R.
Proof. by rewrite C10_count //; case: C09_example. Qed.
