(* GraphDual.v -- the graph dual_graph_H of a plane embedding and a spanning tree is a tree *)
Set Warnings "-notation-overridden,-ambiguous-paths".
From mathcomp Require Import all_ssreflect all_algebra.
From mathcomp.zify Require Import zify.
From Verif Require Import Base ArrC MCombinatorics MGraph GraphBrute GraphBfs PropGraph4 PropGraph5 Planar GraphMap.
Set Implicit Arguments.
Unset Strict Implicit.
Unset Printing Implicit Defensive.

Lemma size_add_edges (L : eqType) (H : graph L) l : uniq l -> (forall e, e \in l -> ~~ has_edge H e.1 e.2) ->
  (forall e, e \in l -> (e.2, e.1) \notin l) -> size (gedges (add_edges H l)) = size (gedges H) + size l.
Proof.
elim: l H => [|e l IH] H /=; first by rewrite addn0.
case/andP=> n1 u1 h1 h2; rewrite IH //.
- have ne := h1 e (mem_head _ _); rewrite /add_edge.
  have -> : has_edge (add_node (add_node H e.1) e.2) e.1 e.2 = false.
    by move: ne; rewrite /has_edge !add_node_edges => /negbTE.
  by rewrite /= size_rcons !add_node_edges addSnnS.
- move=> f fl; rewrite has_add_edge; have /negbTE -> /= : ~~ has_edge H f.1 f.2 by apply: h1; rewrite inE fl orbT.
  apply/norP; split; first by apply: contraNneq n1 => ->; case: (f) fl.
  have := h2 f; rewrite !inE fl orbT => /(_ isT) /norP[h _].
  by apply: contraNneq h => ->.
by move=> f fl; have := h2 f; rewrite !inE fl orbT => /(_ isT) /norP[].
Qed.

Lemma sort2_eq (a b : dart) : sort2 a = sort2 b -> a = b \/ a = (b.2, b.1).
Proof.
case: a b => [a b] [c e]; rewrite /sort2 /= => -[h1 h2]; have : (a = c /\ b = e) \/ (a = e /\ b = c) by lia.
by case=> -[-> ->]; [left|right].
Qed.

Global Arguments gfc : simpl never.
Global Arguments gal : simpl never.

Section Dual.
Variables (n : nat) (G : graph nat_eqType) (emb : embedding) (Fl : seq face).
Hypothesis num : numbered n G.
Hypothesis hF : all (closed_face emb) Fl.
Hypothesis pF : perm_eq (flatten Fl) (edgeset G).
Variable T : graph nat_eqType.
Variables (V : finType) (src : gdart G -> V) (phi : gdart G -> gdart G).
Hypothesis pm : plane_map src (gfc pF) (@gal G) phi.
Hypothesis st : spanning_tree src (@gal G) (gtree G T).
Hypothesis F0 : 0 < size Fl.
Local Notation fc := (gfc pF).
Local Notation al := (@gal G).
Local Notation tr := (gtree G T).
Implicit Type d : gdart G.

Lemma faces_distinct : uniq (face_edges Fl).
Proof.
apply/(uniqP [::]) => i j; rewrite !inE size_map => hi hj; rewrite !(nth_map [::]) // => h.
apply/eqP; apply/negP => /negP ij.
have dis x : x \in nth [::] Fl i -> x \in nth [::] Fl j -> False.
  by move=> h1 h2; move/eqP: ij; apply; apply: (flatten_nth_inj (uniqF pF) hi hj h1 h2).
have ne x : x \in nth [::] Fl i -> x.1 != x.2.
  by move=> hx; have [d <- _] := face_dart pF hi hx; have [_ _] := edge_lt num (gdart_edge d).
have := allP hF _ (mem_nth [::] hi); have := allP hF _ (mem_nth [::] hj).
case Ei: (nth [::] Fl i) h dis ne => [|x [|x1 s]] //; case Ej: (nth [::] Fl j) => [|y [|y1 s']] // h dis ne.
  by move=> _ /andP[/andP[/eqP h1 _] _]; have := ne x; rewrite !inE eqxx h1 eqxx => /(_ isT).
rewrite /= => /andP[/andP[/eqP f1 _] _] /andP[/andP[/eqP f2 _] _].
have e1 : sort2 x = sort2 y := congr1 (head (0, 0)) h.
have e2 : sort2 x1 = sort2 y1 := congr1 (fun l => head (0, 0) (behead l)) h.
have {}e1 : y = (x.2, x.1).
  case: (sort2_eq e1) => [e|->]; last by case: (y).
  by case: (dis x); rewrite ?e !inE eqxx.
have {}e2 : y1 = (x1.2, x1.1).
  case: (sort2_eq e2) => [e|->]; last by case: (y1).
  by case: (dis x1); rewrite ?e !inE eqxx ?orbT.
case: (dis x1); rewrite ?inE ?eqxx ?orbT // e1; apply/orP; left.
by move: f1; rewrite e1 e2 /= => h1; rewrite -f2 -h1; case: (x1).
Qed.

Lemma cotree_dart e : e \in cotree G T -> exists d, [/\ val d = e, d \notin tr, (val d).1 < (val d).2 & e \in gedges G].
Proof.
rewrite mem_filter => /andP[h1 h2]; have eD : e \in edgeset G by rewrite mem_edgeset /has_edge; case: (e) h2 => a b /= ->.
by exists (SeqSub eD); rewrite inE /= h1; case: num => _ _ /(_ _ h2)/andP[].
Qed.

Lemma sort2_lt (e : dart) : e.1 < e.2 -> sort2 e = e.
Proof. by case: e => a b /= h; rewrite /sort2 /=; congr pair; lia. Qed.

Lemma mem_faces_with d i : (val d).1 < (val d).2 -> (i \in faces_with Fl (val d)) = (i == fc d :> nat) || (i == fc (al d) :> nat).
Proof.
move=> hd; rewrite mem_filter mem_iota leq0n add0n andTb andbC; case: (ltnP i (size Fl)) => hi; rewrite ?andTb ?andFb; last first.
  by apply/esym/negbTE/norP; split; rewrite gtn_eqF // (leq_trans (ltn_ord _) hi).
rewrite -!(fcE pF) //; apply/mapP/orP => [[g hg e]|[] h]; last 2 first.
- by exists (val d); rewrite ?sort2_lt.
- by exists (val (al d)) => //; rewrite /sort2 val_gal /= minnC maxnC; rewrite -[LHS]sort2_lt.
rewrite -(sort2_lt hd) in e; case: (sort2_eq e) => [->|]; first by left.
by move=> e2; right; rewrite val_gal e2 -surjective_pairing.
Qed.

Lemma two e : e \in cotree G T -> exists i j, faces_with Fl e = [:: i; j].
Proof.
case/cotree_dart=> d [<- dT dlt _].
have [rk [p [par eT]]] := dual_tree pm st (fc d).
have ne := fc_ne pm par eT dT; rewrite -val_eqE in ne.
have : perm_eq (faces_with Fl (val d)) [:: nat_of_ord (fc d); nat_of_ord (fc (al d))].
  apply: uniq_perm; first by rewrite filter_uniq // iota_uniq.
    by rewrite /= inE ne.
  by move=> i; rewrite mem_faces_with // !inE.
by move/perm_size; case: (faces_with _ _) => [|i [|j [|]]] // _; exists i, j.
Qed.

Local Notation H := (dual_graph_H G Fl T).
Let HP := dual_graphP faces_distinct two.

Lemma dual_nodes : gnodes H = iota 0 (size Fl). Proof. by case: HP. Qed.
Lemma dual_ok : edges_ok H. Proof. by case: HP. Qed.

Lemma dual_edgeE i j : has_edge H i j <-> exists d, [/\ d \notin tr, fc d = i :> nat & fc (al d) = j :> nat].
Proof.
have [_ _ _ h] := HP; rewrite h; split.
  case=> ne [e /cotree_dart[d [<- dT dlt _]]]; rewrite !mem_faces_with // => -[/orP[] /eqP hi /orP[] /eqP hj].
  - by rewrite hi hj eqxx in ne.
  - by exists d.
  - exists (al d); split=> //; first by apply: contra dT => /(st_al st); rewrite (pm_alK pm).
    by rewrite (pm_alK pm).
  - by rewrite hi hj eqxx in ne.
case=> d [dT <- <-]; have [rk [p [par eT]]] := dual_tree pm st (fc d).
have ne := fc_ne pm par eT dT; split; first by rewrite val_eqE.
have hd := gdart_edge d; have hT : ~~ has_edge T (val d).1 (val d).2 by rewrite inE in dT.
case: num => _ _ hlt; case/orP: hd => h1.
  exists (val d); first by rewrite mem_filter hT; case: (val d) h1.
  by have /andP[h2 _] := hlt _ h1; rewrite !mem_faces_with // !eqxx orbT.
exists (val (al d)); first by rewrite mem_filter val_gal /= has_edgeC hT.
have /andP[h2 _] := hlt _ h1; rewrite !(@mem_faces_with (al d)) // (pm_alK pm) !eqxx orbT //.
Qed.

Lemma dual_noloop i : has_edge H i i = false.
Proof. by apply/negP => h; have [_ _ _ hh] := HP; case/hh: h => /eqP. Qed.

Lemma card_cotree : 2 * size (cotree G T) = 2 * (size Fl).-1.
Proof.
pose Gc := Graph (gnodes G) (cotree G T) : graph nat_eqType.
have eGc u v : has_edge Gc u v = has_edge G u v && ~~ has_edge T u v.
  rewrite [has_edge Gc u v]/has_edge !mem_filter (has_edgeC T v u) [has_edge G u v]/has_edge.
  by case: (has_edge T u v); rewrite ?andbF ?andbT.
have [_ ue hlt] := num.
have s1 : size (edgeset Gc) = 2 * size (cotree G T).
  apply: size_edgeset; first exact: filter_uniq.
  move=> e /=; rewrite !mem_filter => /andP[_ /hlt/andP[h1 _]]; apply/negP => /andP[_ /hlt/andP[/= h2 _]].
  by have := ltn_trans h1 h2; rewrite ltnn.
have s2 : #|~: tr| = size (edgeset Gc).
  have -> : #|~: tr| = size [seq val d | d <- enum (~: tr)] by rewrite size_map -cardE.
  apply: perm_size; apply: uniq_perm; rewrite ?edgeset_uniq ?(map_inj_uniq val_inj) ?enum_uniq //.
  move=> e; rewrite mem_edgeset eGc; apply/mapP/idP => [[d]|/andP[h1 h2]].
    by rewrite mem_enum !inE => h ->; rewrite h gdart_edge.
  have eD : e \in edgeset G by rewrite mem_edgeset.
  by exists (SeqSub eD); rewrite // mem_enum !inE.
have [rk [p [par eT]]] := dual_tree pm st (Ordinal F0).
by rewrite -s1 -s2 eT (card_forest (pm_alK pm) par) cardsC1 card_ord.
Qed.

Lemma dual_size : size (gedges H) = (size Fl).-1.
Proof.
have -> : (size Fl).-1 = size [seq dual_edge Fl e | e <- cotree G T].
  by rewrite size_map; have := card_cotree; lia.
have lt2 e : e \in cotree G T -> (dual_edge Fl e).1 < (dual_edge Fl e).2.
  by move=> /two[i [j E]]; rewrite (dual_edgeP E); apply: faces_with_lt2 E.
rewrite (dual_graphE faces_distinct two) size_add_edges //.
- rewrite map_inj_in_uniq; first by case: num => _ ue _; apply: filter_uniq.
  move=> e e' he he'; have [i [j E]] := two he; have [i' [j' E']] := two he'.
  rewrite (dual_edgeP E) (dual_edgeP E') => -[ei ej]; subst i' j'.
  have [d [ed dT dlt _]] := cotree_dart he; have [d' [ed' dT' dlt' _]] := cotree_dart he'.
  have [rk [p [par eT]]] := dual_tree pm st (Ordinal F0).
  have m1 : nat_of_ord (fc d) \in faces_with Fl e' by rewrite E' -E -ed mem_faces_with // eqxx.
  have m2 : nat_of_ord (fc (al d)) \in faces_with Fl e' by rewrite E' -E -ed mem_faces_with // eqxx orbT.
  have ne := fc_ne pm par eT dT.
  move: m1 m2; rewrite -ed' !mem_faces_with // -ed => /orP[] /eqP/val_inj h1 /orP[] /eqP/val_inj h2.
  - by rewrite h1 h2 eqxx in ne.
  - by rewrite (dual_simple pm st par eT dT dT' h1 h2).
  - have aT : al d' \notin tr by apply: contra dT' => /(st_al st); rewrite (pm_alK pm).
    have := dual_simple pm st par eT dT aT h1; rewrite (pm_alK pm) => /(_ h2) h.
    by have := ltn_trans dlt' _; move: dlt; rewrite h val_gal /= => h3 /(_ _ h3); rewrite ltnn.
  - by rewrite h1 h2 eqxx in ne.
- by move=> e /mapP[e' he ->]; apply/negP => /mapP[e2 he2 h]; have := lt2 _ he2; rewrite -h /=; have := lt2 _ he; lia.
Qed.

Lemma dual_is_tree : is_tree H = Ok true.
Proof.
have ne : gnodes H <> [::] by rewrite dual_nodes => h; move: F0; rewrite -(size_iota 0 (size Fl)) h.
have [ok _] := dual_ok.
have [b [hb /proj2 h]] := is_treeP ok ne; rewrite hb h //; split=> //; last first.
  by rewrite dual_nodes size_iota dual_size prednK.
move=> x y; rewrite !dual_nodes !mem_iota /= add0n => hx hy.
have xH : x \in gnodes H by rewrite dual_nodes mem_iota.
have [_ hr _] := path_lengthsP ok xH.
apply/hr; pose S (f : 'I_(size Fl)) := (f : nat) \in unzip1 (path_lengths H x).
suff : S (Ordinal hy) by [].
apply: (dual_conn pm st (S := S) _ (f := Ordinal hx)) => [d dT|]; last first.
  by apply/hr; exists [::].
move=> /hr [q w]; apply/hr; exists (rcons q (fc (al d) : nat)); apply: walk_rcons w _.
by apply/dual_edgeE; exists d.
Qed.
End Dual.
