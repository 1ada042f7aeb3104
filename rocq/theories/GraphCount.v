(* GraphCount.v -- sums over the perfect matchings of a graph *)
Set Warnings "-notation-overridden,-ambiguous-paths".
From mathcomp Require Import all_ssreflect all_algebra.
From mathcomp.zify Require Import zify.
From Verif Require Import Base ArrC MCombinatorics Matching Pfaffian MGraph GraphBrute.
Set Implicit Arguments.
Unset Strict Implicit.
Unset Printing Implicit Defensive.
Import Order.Theory GRing.Theory Num.Theory.
Local Open Scope ring_scope.

Section Enum.
Variables (L : eqType) (G : graph L).

(* l lists the perfect matchings of G, each one exactly once (the order of the edges does not matter) *)
Definition enumerates (l : seq (seq (L * L))) : Prop :=
  (forall c, c \in l -> is_matching G c) /\ (forall c, is_matching G c -> count (perm_eq c) l = 1%N).

Hypothesis sG : simple_graph G.
Local Notation n := (size (gnodes G)).
Local Notation Mof := (GraphBrute.Mof G).
Local Notation P := (fun M : {set {set 'I_n}} => perfect_matching M && inG M).

Lemma cof_Mof c : is_matching G c -> perm_eq c (cof (Mof c)).
Proof.
have [_ ue _] := sG; move=> [uc sc _]; apply: uniq_perm => //; first exact: filter_uniq.
move=> e; rewrite mem_filter inE; apply/idP/andP => [ec|[/mapP[f fc h] he]].
  by split; [apply: map_f|apply: sc].
by rewrite (blk_inj sG he (sc _ fc) h).
Qed.
Lemma Mof_perm c c' : perm_eq c c' -> Mof c = Mof c'.
Proof. by move=> h; apply/setP => B; rewrite !inE; apply: perm_mem; apply: perm_map. Qed.
Lemma Mof_eq c c' : is_matching G c -> is_matching G c' -> (Mof c == Mof c') = perm_eq c c'.
Proof.
move=> m m'; apply/eqP/idP => [h|]; last exact: Mof_perm.
by rewrite (perm_trans (cof_Mof m)) // h perm_sym cof_Mof.
Qed.
Lemma Mof_P c : is_matching G c -> P (Mof c).
Proof. by move=> m; apply/andP; split; [exact: (Mof_perfect sG m)|exact: (Mof_inG sG m)]. Qed.

Lemma enumerates_ex : exists l, enumerates l.
Proof.
exists [seq cof M | M <- enum (mem [set M | P M])]; split.
  by move=> c /mapP[M]; rewrite mem_enum inE => /andP[h1 h2] ->; apply: (cof_matching sG).
move=> c m; rewrite count_map (eq_in_count (a2 := pred1 (Mof c))).
  by rewrite count_uniq_mem ?enum_uniq // mem_enum inE Mof_P.
move=> M; rewrite mem_enum inE => /andP[h1 h2] /=.
by rewrite -(Mof_eq m (cof_matching sG h1 h2)) (cofK sG h1 h2) eq_sym.
Qed.

Lemma enumerates_brute : (n <= 15)%N -> enumerates (find_perfect_matchings_brute G).
Proof.
move=> hn; split=> c; last exact: brute_class.
case: (boolP (odd n)) => o; first by rewrite /find_perfect_matchings_brute modn2 o.
by case/(brute_mem c sG hn o).
Qed.

Lemma enum_perm l : enumerates l -> perm_eq [seq Mof c | c <- l] (enum (mem [set M | P M])).
Proof.
case=> h1 h2; apply/allP => M _; apply/eqP => /=.
rewrite [RHS]count_uniq_mem ?enum_uniq // mem_enum inE count_map.
case: (boolP (P M)) => hM.
  case/andP: (hM) => p1 p2; have m := cof_matching sG p1 p2.
  apply: etrans (h2 _ m); apply: eq_in_count => c /h1 mc /=.
  by rewrite -(Mof_eq m mc) (cofK sG p1 p2) eq_sym.
rewrite (eq_in_count (a2 := pred0)) ?count_pred0 // => c /h1/Mof_P h /=.
by apply/negbTE; apply: contraNneq hM => <-.
Qed.

(* all enumerations have the same length, the number of perfect matchings *)
Lemma enum_size l : enumerates l -> size l = #|[set M | P M]|.
Proof. by move/enum_perm/perm_size; rewrite size_map -cardE. Qed.

Lemma hafnian_enum (C : numClosedFieldType) (w : weights C L) l : enumerates l ->
  hafnian (toM n n (adjacency_matrix G w)) = \sum_(c <- l) \prod_(e <- c) w e.
Proof.
move=> en; rewrite hafnian_adj //; case: (en) => h1 _.
rewrite big_seq (eq_bigr (fun c => \prod_(e <- cof (Mof c)) w e)); last first.
  by move=> c /h1/cof_Mof pc; apply: perm_big.
rewrite -big_seq -(big_map (Mof) predT (fun M => \prod_(e <- cof M) w e)) (perm_big _ (enum_perm en)) big_enum /=.
by apply: eq_bigl => M; rewrite inE.
Qed.
End Enum.
