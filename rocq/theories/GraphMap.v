(* GraphMap.v -- the plane map of an embedded graph and its faces *)
Set Warnings "-notation-overridden,-ambiguous-paths".
From mathcomp Require Import all_ssreflect all_algebra.
From mathcomp.zify Require Import zify.
From Verif Require Import Base ArrC MCombinatorics MGraph GraphBrute GraphBfs PropGraph4 PropGraph5 Planar.
Set Implicit Arguments.
Unset Strict Implicit.
Unset Printing Implicit Defensive.

(* G is a simple graph whose nodes are 0, ..., n-1, inserted in this order (so that networkx reports u < v for every
   edge (u, v)) *)
Definition numbered (n : nat) (G : graph nat_eqType) : Prop :=
  [/\ gnodes G = iota 0 n, uniq (gedges G) & forall e, e \in gedges G -> e.1 < e.2 < n].

(* going clockwise around v from u one meets every neighbour of v *)
Definition one_turn (G : graph nat_eqType) (emb : embedding) : Prop :=
  forall v u u', has_edge G v u -> has_edge G v u' -> exists k, iter k (obind (emb v)) (Some u) = Some u'.

(* Euler's formula; the faces are any decomposition of the directed edges into closed walks that follow the embedding *)
Definition euler_formula (G : graph nat_eqType) (emb : embedding) : Prop :=
  forall F : seq face, all (closed_face emb) F -> perm_eq (flatten F) (edgeset G) ->
  size (gnodes G) + size F = size (gedges G) + 2.

(* a plane embedding of a connected graph *)
Definition plane_embedding (G : graph nat_eqType) (emb : embedding) : Prop :=
  [/\ rotation_system G emb, one_turn G emb, connected G & euler_formula G emb].

(* T is a spanning tree of G *)
Definition spanning (G T : graph nat_eqType) : Prop :=
  [/\ gnodes T =i gnodes G, edges_ok T, tree T & forall u v, has_edge T u v -> has_edge G u v].

Lemma sum2 (l : seq dart) : size (flatten [seq [:: (e.1, e.2); (e.2, e.1)] | e <- l]) = 2 * size l.
Proof. by elim: l => //= e l ->; lia. Qed.

Lemma size_edgeset (H : graph nat_eqType) : uniq (gedges H) ->
  (forall e, e \in gedges H -> (e.2, e.1) \notin gedges H) -> size (edgeset H) = 2 * size (gedges H).
Proof.
move=> un h; rewrite /edgeset undup_id; first exact: sum2.
suff W (l : seq dart) : uniq l -> (forall e, e \in l -> (e.2, e.1) \notin l) ->
    uniq (flatten [seq [:: (e.1, e.2); (e.2, e.1)] | e <- l]) by apply: W.
elim: l => //= -[a b] l IH /andP[n1 u1] h1 /=.
have out (x y : nat) : (x, y) \notin l -> (y, x) \notin l -> (x, y) \notin flatten [seq [:: (e.1, e.2); (e.2, e.1)] | e <- l].
  move=> m1 m2; apply/flatten_mapP => -[[c e] hc /=]; rewrite !inE => /orP[] /eqP [? ?]; subst.
    by rewrite hc in m1.
  by rewrite hc in m2.
have := h1 (a, b) (mem_head _ _); rewrite inE negb_or /= => /andP[n2 n3].
rewrite inE negb_or eq_sym n2 !out //= IH // => e he.
by have := h1 e; rewrite !inE he orbT => /(_ isT); rewrite negb_or => /andP[].
Qed.

Section Map.
Variables (n : nat) (G : graph nat_eqType) (emb : embedding) (Fl : seq face).
Hypothesis num : numbered n G.
Hypothesis rs : rotation_system G emb.
Hypothesis hF : all (closed_face emb) Fl.
Hypothesis pF : perm_eq (flatten Fl) (edgeset G).

Definition gdart : finType := seq_sub_finType (edgeset G).
Implicit Type d : gdart.

Lemma gdart_edge d : has_edge G (val d).1 (val d).2.
Proof. by rewrite -mem_edgeset; apply: valP. Qed.
Lemma edge_lt u v : has_edge G u v -> [/\ u < n, v < n & u != v].
Proof.
case: num => _ _ h; rewrite /has_edge => /orP[] /h /=; case/andP=> h1 h2.
  by split=> //; [apply: ltn_trans h2|rewrite neq_ltn h1].
by split=> //; [apply: ltn_trans h2|rewrite neq_ltn h1 orbT].
Qed.
Lemma gsrc_lt d : (val d).1 < n.
Proof. by have [] := edge_lt (gdart_edge d). Qed.
Definition gsrc d : 'I_n := Ordinal (gsrc_lt d).

Lemma gal_in d : ((val d).2, (val d).1) \in edgeset G.
Proof. by rewrite mem_edgeset has_edgeC gdart_edge. Qed.
Definition gal d : gdart := SeqSub (gal_in d).
Lemma val_gal d : val (gal d) = ((val d).2, (val d).1). Proof. by []. Qed.

Definition nxt (e : dart) : dart := (e.2, odflt 0 (emb e.2 e.1)).
Lemma follows_nxt d : follows emb (val d) (nxt (val d)) /\ nxt (val d) \in edgeset G.
Proof.
have := gdart_edge d; rewrite has_edgeC => /rs[w h [h2 _]].
by rewrite /nxt /follows /= h /= !eqxx mem_edgeset.
Qed.
Lemma gphi_in d : nxt (val d) \in edgeset G. Proof. by case: (follows_nxt d). Qed.
Definition gphi d : gdart := SeqSub (gphi_in d).

Lemma uniqF : uniq (flatten Fl). Proof. by rewrite (perm_uniq pF) edgeset_uniq. Qed.
Lemma mem_F e : (e \in flatten Fl) = (e \in edgeset G). Proof. exact: perm_mem. Qed.

Definition fidx (e : dart) : nat := find (fun f : face => e \in f) Fl.
Lemma fidx_lt d : fidx (val d) < size Fl.
Proof. by rewrite -has_find; have := valP d; rewrite -mem_F => /flattenP[f h1 h2]; apply/hasP; exists f. Qed.
Definition gfc d : 'I_(size Fl) := Ordinal (fidx_lt d).

Lemma mem_fc d : val d \in nth [::] Fl (gfc d).
Proof. by apply: (@nth_find face [::] (fun f : face => val d \in f) Fl); rewrite has_find; apply: fidx_lt. Qed.

Lemma flatten_nth_inj (s : seq face) (e : dart) i j : uniq (flatten s) -> i < size s -> j < size s ->
  e \in nth [::] s i -> e \in nth [::] s j -> i = j.
Proof.
elim: s i j => // f s IH [|i] [|j] //=; rewrite cat_uniq => /and3P[u1 /hasPn u2 u3] hi hj h1 h2.
- have : e \in flatten s by apply/flattenP; exists (nth [::] s j); rewrite ?mem_nth.
  by move/u2; rewrite /= h1.
- have : e \in flatten s by apply/flattenP; exists (nth [::] s i); rewrite ?mem_nth.
  by move/u2; rewrite /= h2.
by congr S; apply: IH h1 h2.
Qed.
Lemma fcE d i : i < size Fl -> (val d \in nth [::] Fl i) = (i == gfc d :> nat).
Proof.
move=> hi; apply/idP/eqP => [h|->]; last exact: mem_fc.
exact: flatten_nth_inj uniqF hi (ltn_ord _) h (mem_fc d).
Qed.
Lemma face_dart i e : i < size Fl -> e \in nth [::] Fl i -> exists2 d, val d = e & gfc d = i :> nat.
Proof.
move=> hi he; have eD : e \in edgeset G by rewrite -mem_F; apply/flattenP; exists (nth [::] Fl i); rewrite ?mem_nth.
by exists (SeqSub eD) => //; apply/esym/eqP; rewrite -fcE.
Qed.
Lemma face_uniq i : i < size Fl -> uniq (nth [::] Fl i).
Proof.
move=> hi; have : subseq (nth [::] Fl i) (flatten Fl).
  elim: (Fl) (i) hi => // f s IH [|j] /= hj; first exact: prefix_subseq.
  by apply: subseq_trans (IH _ hj) _; apply: suffix_subseq.
by move/subseq_uniq; apply; apply: uniqF.
Qed.

(* the vertices may be any type whose elements stand for the ends of darts and, possibly, for isolated nodes *)
Lemma gmap_gen (V : finType) (src : gdart -> V) : one_turn G emb ->
  (forall d d', src d = src d' <-> (val d).1 = (val d').1) ->
  (forall P : pred V, (forall d, P (src d) -> P (src (gal d))) -> forall u v, P u -> P v) ->
  2 * (#|V| + size Fl) = #|gdart| + 4 -> plane_map src gfc gal gphi.
Proof.
move=> ot hs hc he; split=> //.
- by move=> d; apply: val_inj; rewrite /= -surjective_pairing.
- move=> d; apply/eqP => /(congr1 val); rewrite val_gal; have [_ _] := edge_lt (gdart_edge d).
  by case: (val d) => a b /= ne [e _]; rewrite e eqxx in ne.
- move=> d d' /(congr1 val) /= h; apply: val_inj.
  have [f1 _] := follows_nxt d; have [f2 _] := follows_nxt d'.
  by rewrite h in f1; apply: (follows_inj rs (valP d) (valP d') f1 f2).
- by move=> d; apply/hs.
- move=> d; apply/esym/val_inj/eqP; rewrite -fcE; last exact: ltn_ord.
  rewrite -[val (gphi d)]/(nxt (val d)).
  have := allP hF _ (mem_nth [::] (ltn_ord (gfc d))); case E: (nth [::] Fl (gfc d)) => [//|x f] cf.
  have dm := mem_fc d; rewrite E in dm; have [f1 _] := follows_nxt d.
  have f2 := next_cycle (cf : cycle (follows emb) (x :: f)) dm; rewrite (follows_fun f1 f2) mem_next //.
- move=> d d' /hs ss; have h1 := gdart_edge d; have h2 := gdart_edge d'.
  rewrite -ss in h2; have [k hk] := ot _ _ _ h1 h2.
  suff W j : exists u, iter j (obind (emb (val d).1)) (Some (val d).2) = Some u /\ val (iter j (sigma gal gphi) d) = ((val d).1, u).
    have [u [e1 e2]] := W k; rewrite hk in e1; case: e1 => e1; rewrite -e1 ss -surjective_pairing in e2.
    by rewrite -(val_inj e2) fconnect_iter.
  elim: j => [|j [u [e1 e2]]]; first by exists (val d).2; rewrite -surjective_pairing.
  rewrite /= e1 /=; set y := iter j _ d in e2 *; have := gdart_edge y; rewrite e2 /= => he'.
  have [w ew _] := rs he'; exists w; split=> //.
  by rewrite /nxt /= e2 /= ew.
- move=> f; have := allP hF _ (mem_nth [::] (ltn_ord f)); case E: (nth [::] Fl f) => [//|x s] _.
  have [|d _ e] := @face_dart f x (ltn_ord f); first by rewrite E mem_head.
  by exists d; apply: val_inj.
by rewrite card_ord.
Qed.

Lemma card_gdart : #|gdart| = 2 * size (gedges G).
Proof.
case: num => _ ue hlt; rewrite card_seq_sub ?edgeset_uniq // size_edgeset //.
move=> e /hlt/andP[h1 _]; apply/negP => /hlt/andP[/= h2 _]; by have := ltn_trans h1 h2; rewrite ltnn.
Qed.

Lemma gmap_conn : plane_embedding G emb -> plane_map gsrc gfc gal gphi.
Proof.
move=> [_ ot cG eu]; apply: gmap_gen => //.
- by move=> d d'; split=> [/(congr1 val)|h]; [|apply: val_inj].
- move=> P h u v Pu; have [q [hq lq]] : reachable G (u : nat) v.
    by apply: cG; case: num => -> _ _; rewrite mem_iota ltn_ord.
  elim: q (u) Pu hq lq => [|x q IH] y Py /=; first by move=> _ /val_inj <-.
  case/andP=> he hp hl; have [_ hx _] := edge_lt he.
  have yD : ((y : nat), x) \in edgeset G by rewrite mem_edgeset.
  apply: (IH (Ordinal hx)) => //.
  have e1 : gsrc (SeqSub yD) = y by apply: val_inj.
  have e2 : gsrc (gal (SeqSub yD)) = Ordinal hx by apply: val_inj.
  by have := h (SeqSub yD); rewrite e1 e2; apply.
have := eu Fl hF pF; rewrite card_gdart card_ord; case: num => -> _ _; rewrite size_iota; lia.
Qed.

(* ---------------------------------------------------------------- *)
Variable T : graph nat_eqType.
Definition gtree : {set gdart} := [set d | has_edge T (val d).1 (val d).2].

Lemma size_T : edges_ok T -> (forall u v, has_edge T u v -> has_edge G u v) -> size (edgeset T) = 2 * (size (gedges T)).
Proof.
move=> [_ [ue hs]] sub; apply: size_edgeset => // e he; apply/negP => h.
have hG : has_edge G e.1 e.2 by apply: sub; rewrite /has_edge; case: (e) he => a b /= ->.
by have [_ _ /eqP[]] := edge_lt hG; apply: hs.
Qed.

Lemma card_tree : (forall u v, has_edge T u v -> has_edge G u v) -> #|gtree| = size (edgeset T).
Proof.
move=> sub.
have -> : #|gtree| = size [seq val d | d <- enum gtree] by rewrite size_map -cardE.
apply: perm_size; apply: uniq_perm; rewrite ?edgeset_uniq ?(map_inj_uniq val_inj) ?enum_uniq //.
move=> e; rewrite mem_edgeset; apply/mapP/idP => [[d]|h].
  by rewrite mem_enum inE => h ->.
have eD : e \in edgeset G by rewrite mem_edgeset sub.
by exists (SeqSub eD); rewrite // mem_enum inE.
Qed.

Lemma gspan : spanning G T -> spanning_tree gsrc gal gtree.
Proof.
move=> sp; have [nT okT [ne cT sT] sub] := sp; split.
- by move=> d; rewrite !inE /= has_edgeC.
- move=> P h u v Pu; have [q [hq lq]] : reachable T (u : nat) v.
    by apply: cT; rewrite nT; case: num => -> _ _; rewrite mem_iota ltn_ord.
  elim: q (u) Pu hq lq => [|x q IH] y Py /=; first by move=> _ /val_inj <-.
  case/andP=> he hp hl; have [_ hx _] := edge_lt (sub _ _ he).
  have yD : ((y : nat), x) \in edgeset G by rewrite mem_edgeset sub.
  apply: (IH (Ordinal hx)) => //.
  have e1 : gsrc (SeqSub yD) = y by apply: val_inj.
  have e2 : gsrc (gal (SeqSub yD)) = Ordinal hx by apply: val_inj.
  by have := h (SeqSub yD); rewrite inE e1 e2; apply.
rewrite card_tree // size_T // card_ord; congr muln.
have : size (gnodes T) = n.
  have [[uT _] _] := okT; case: num => eG _ _.
  by rewrite (perm_size (uniq_perm uT _ nT)) eG ?size_iota // iota_uniq.
by rewrite sT => <-.
Qed.
End Map.

Definition gmap n G emb Fl (num : numbered n G) (pe : plane_embedding G emb) (hF : all (closed_face emb) Fl) pF :=
  gmap_conn num (let: And4 rs _ _ _ := pe in rs) hF pF pe.
