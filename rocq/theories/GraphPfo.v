(* GraphPfo.v -- the leaf-stripping loop of pfo_algorithm: property C14 *)
Set Warnings "-notation-overridden,-ambiguous-paths".
From mathcomp Require Import all_ssreflect all_algebra.
From mathcomp.zify Require Import zify.
From Verif Require Import Base ArrC MCombinatorics MGraph GraphBrute GraphBfs PropGraph2 PropGraph4 PropGraph5.
From Verif Require Import Planar GraphMap GraphDual.
Set Implicit Arguments.
Unset Strict Implicit.
Unset Printing Implicit Defensive.
Import Order.Theory GRing.Theory Num.Theory.
Local Open Scope ring_scope.

Section Degree.
Implicit Types (H : graph nat_eqType) (x : nat).
Definition nb H x : seq nat := [seq e.2 | e <- gedges H & e.1 == x] ++ [seq e.1 | e <- gedges H & e.2 == x].
Lemma degreeE H x : degree H x = size (nb H x).
Proof. by rewrite size_cat !size_map !size_filter. Qed.
Lemma mem_nb H x y : (y \in nb H x) = has_edge H x y.
Proof. by rewrite -mem_neighbours mem_undup. Qed.
Lemma nb_uniq H x : edges_ok H -> ~~ has_edge H x x -> uniq (nb H x).
Proof.
case=> _ [ue hs] nl; rewrite cat_uniq; apply/and3P; split.
- rewrite map_inj_in_uniq ?filter_uniq // => -[a b] [c e]; rewrite !mem_filter /= => /andP[/eqP -> _] /andP[/eqP -> _].
  by move=> ->.
- apply/hasPn => y /mapP[[a b]]; rewrite mem_filter /= => /andP[/eqP -> h1] ->.
  apply/mapP => -[[c e]]; rewrite mem_filter /= => /andP[/eqP -> h2] e1; subst a.
  by have /= ex := hs _ h1 h2; move: nl; rewrite /has_edge -ex in h1 *; rewrite h1.
rewrite map_inj_in_uniq ?filter_uniq // => -[a b] [c e]; rewrite !mem_filter /= => /andP[/eqP -> _] /andP[/eqP -> _].
by move=> ->.
Qed.
Lemma degree1 H x i j : degree H x == 1%N -> has_edge H x i -> has_edge H x j -> i = j.
Proof. by rewrite degreeE -!mem_nb; case: (nb H x) => [|k [|]] // _; rewrite !inE => /eqP -> /eqP ->. Qed.
Lemma degree1_ex H x j : edges_ok H -> ~~ has_edge H x x -> has_edge H x j -> (forall i, has_edge H x i -> i = j) ->
  degree H x == 1%N.
Proof.
move=> ok nl hj hi; rewrite degreeE; have := nb_uniq ok nl; move: hj; rewrite -mem_nb.
have : {subset nb H x <= [:: j]} by move=> i; rewrite mem_nb inE => /hi ->.
case: (nb H x) => [|a [|b l]] // s _ /=; have /eqP -> : a == j by have := s a; rewrite !inE eqxx => /(_ isT).
have /eqP -> : b == j by have := s b; rewrite !inE eqxx orbT => /(_ isT).
by rewrite inE eqxx.
Qed.

Lemma remove_ok H x : edges_ok H -> edges_ok (remove_node H x).
Proof.
case=> -[un hE] [ue hs]; split; first split.
- exact: filter_uniq.
- by move=> e; rewrite !mem_filter => /andP[/andP[-> ->] /hE[-> ->]].
split; first exact: filter_uniq.
by move=> e; rewrite !mem_filter => /andP[_ h1] /andP[_ h2]; apply: hs.
Qed.
Lemma has_remove H x u v : has_edge (remove_node H x) u v = [&& u != x, v != x & has_edge H u v].
Proof. by rewrite /has_edge !mem_filter /=; case: (u != x); case: (v != x). Qed.
End Degree.

Lemma bigmax_iota m : (\max_(x <- iota 0 m) x = m.-1)%N.
Proof.
elim: m => [|m IH]; first by rewrite big_nil.
by rewrite -addn1 iotaD big_cat big_seq1 IH add0n addn1; case: m {IH} => //= m; apply/maxn_idPr/leqnSn.
Qed.

Section Loop.
Variable C : numClosedFieldType.
Local Notation arr := (arr C).
Variables (n : nat) (G : graph nat_eqType) (emb : embedding) (Fl : seq face).
Hypothesis num : numbered n G.
Hypothesis hF : all (closed_face emb) Fl.
Hypothesis pF : perm_eq (flatten Fl) (edgeset G).
Variable T : graph nat_eqType.
Variables (V : finType) (src : gdart G -> V) (phi : gdart G -> gdart G).
Hypothesis pm : plane_map src (gfc pF) (@gal G) phi.
Hypothesis st : spanning_tree src (@gal G) (gtree G T).
Hypothesis F0 : (0 < size Fl)%N.
Local Notation fc := (gfc pF).
Local Notation al := (@gal G).
Local Notation tr := (gtree G T).
Local Notation Hd := (dual_graph_H G Fl T).
Implicit Types (d : gdart G) (Hc : graph nat_eqType).

Lemma alK : involutive al. Proof. exact: pm_alK pm. Qed.
Lemma al_eq d d' : (al d == d') = (d == al d').
Proof. by rewrite -{1}[d']alK (inj_eq (can_inj alK)). Qed.
Lemma tr_al d : (al d \in tr) = (d \in tr).
Proof. by apply/idP/idP => /(st_al st); rewrite ?alK. Qed.

Lemma root_lt : ((size Fl).-1 < size Fl)%N. Proof. by rewrite prednK. Qed.
Let r : 'I_(size Fl) := Ordinal root_lt.
Variables (rk : 'I_(size Fl) -> nat) (p : 'I_(size Fl) -> gdart G).
Hypothesis par : parents fc al (~: tr) [set r] rk p.
Hypothesis eT : ~: tr = forest al [set r] p.

Let up (f : 'I_(size Fl)) := fc (al (p f)).
Lemma p_fc f : f != r -> [/\ p f \notin tr, fc (p f) = f & (rk (up f) < rk f)%N].
Proof.
move=> h; have hf : f \notin [set r] by rewrite inE.
by have [] := par hf; rewrite in_setC.
Qed.

Lemma edge_up f : f != r -> has_edge Hd f (up f).
Proof. by move=> /p_fc[h1 h2 _]; apply/(dual_edgeE num hF pm st F0); exists (p f); rewrite h2. Qed.

Section State.
Variable Hc : graph nat_eqType.
Definition done d : bool := [|| d \in tr, (fc d : nat) \notin gnodes Hc | (fc (al d) : nat) \notin gnodes Hc].
End State.

Lemma done_al Hc d : done Hc (al d) = done Hc d.
Proof. by rewrite /done tr_al alK [X in _ || X]orbC. Qed.

Record tree_inv Hc : Prop := TreeInv {
  ti_ok : edges_ok Hc;
  ti_lt : forall i, i \in gnodes Hc -> (i < size Fl)%N;
  ti_edge : forall i j, has_edge Hc i j = [&& i \in gnodes Hc, j \in gnodes Hc & has_edge Hd i j];
  ti_root : (r : nat) \in gnodes Hc;
  ti_up : forall f : 'I_(size Fl), (f : nat) \in gnodes Hc -> f != r -> (up f : nat) \in gnodes Hc }.

Record arr_inv (A : arr) Hc : Prop := ArrInv {
  ai_nr : nr A = n;
  ai_nc : nc A = n;
  ai_out : forall i j, ~~ has_edge G i j -> get A i j = 0;
  ai_tree : forall i j, has_edge T i j -> get A i j = if (i < j)%N then 1 else -1;
  ai_sym : forall i j, ~~ has_edge T i j -> get A i j = get A j i;
  ai_done : forall d, done Hc d -> pm1 (get A (val d).1 (val d).2);
  ai_todo : forall d, ~~ done Hc d -> unassigned A (val d);
  ai_face : forall i, (i < size Fl)%N -> i \notin gnodes Hc -> \prod_(e <- nth [::] Fl i) seen A e = -1 }.

(* x has only its parent left as neighbour *)
Definition leafy (Hc : graph nat_eqType) (x : 'I_(size Fl)) := forall j : nat, has_edge Hc x j -> j = up x.

Lemma leafy_up Hc (x f : 'I_(size Fl)) : tree_inv Hc -> x != r -> leafy Hc x -> f != r -> (f : nat) \in gnodes Hc -> (x : nat) \in gnodes Hc ->
  up f != x.
Proof.
move=> ti xr lx fr fH xH; apply/eqP => e.
have [_ _ h1] := p_fc fr; have [_ _ h2] := p_fc xr.
have /lx/val_inj e2 : has_edge Hc x f.
  by rewrite (ti_edge ti) fH xH has_edgeC -e edge_up.
by have := ltn_trans h1 _; rewrite e => /(_ (rk x)); rewrite {1}e2 ltnn => /(_ h2).
Qed.

Lemma remove_inv Hc (x : 'I_(size Fl)) : tree_inv Hc -> x != r -> leafy Hc x -> (x : nat) \in gnodes Hc ->
  tree_inv (remove_node Hc x).
Proof.
move=> ti xr lx xH; split.
- exact: remove_ok (ti_ok ti).
- by move=> i; rewrite mem_filter => /andP[_ /(ti_lt ti)].
- by move=> i j; rewrite has_remove (ti_edge ti) !mem_filter; case: (i != x) => //=; case: (j != x); rewrite ?andbF.
- by rewrite mem_filter (ti_root ti) andbT eq_sym.
move=> f; rewrite !mem_filter => /andP[fx fH] fr; rewrite (ti_up ti) // andbT.
exact: (leafy_up ti xr lx fr fH xH).
Qed.


Lemma done_remove (Hc : graph nat_eqType) (x : 'I_(size Fl)) d : done (remove_node Hc x) d = [|| done Hc d, fc d == x | fc (al d) == x].
Proof.
rewrite /done !mem_filter !negb_and !negbK !val_eqE.
by case: (d \in tr); case: (fc d == x); case: (fc (al d) == x); rewrite ?orbT ?orbF.
Qed.

(* the only unoriented edge of the face of a leaf goes to the parent *)
Lemma todo_leaf Hc (x : 'I_(size Fl)) d : tree_inv Hc -> x != r -> leafy Hc x -> (x : nat) \in gnodes Hc ->
  fc d = x -> ~~ done Hc d = (d == p x).
Proof.
move=> ti xr lx xH dx; have [h1 h2 h3] := p_fc xr; rewrite /done dx xH /= negb_or negbK.
apply/andP/eqP => [[dT dH]|->]; last by rewrite (ti_up ti xH xr).
apply: (dual_simple pm st par eT) => //; first by rewrite h2.
apply: val_inj; apply: lx; rewrite (ti_edge ti) xH dH /=.
by apply/(dual_edgeE num hF pm st F0); exists d; rewrite dx.
Qed.

Lemma face_darts (x : 'I_(size Fl)) e : e \in nth [::] Fl x -> exists2 d, val d = e & fc d = x.
Proof. by move=> h; have [d h1 /val_inj h2] := face_dart pF (ltn_ord x) h; exists d. Qed.

Lemma in_range_face (A : arr) i : nr A = n -> nc A = n -> (i < size Fl)%N -> in_range A (nth [::] Fl i).
Proof.
move=> h1 h2 hi; apply/allP => e /(face_dart pF hi)[d <- _]; have [l1 l2 _] := edge_lt num (gdart_edge d).
by rewrite h1 h2 gtn_max l1 l2.
Qed.

Lemma pm1_entry (A : arr) Hc d : (forall d, done Hc d -> pm1 (get A (val d).1 (val d).2)) -> done Hc d ->
  pm1 (entry A (val d)).
Proof.
move=> h hd; rewrite /entry; case: (leqP (val d).1 (val d).2) => _; first exact: h.
by have := h (al d); rewrite done_al val_gal; apply.
Qed.

(* the face of a leaf has exactly one unassigned edge *)
Lemma leaf_sel (A : arr) Hc (x : 'I_(size Fl)) : tree_inv Hc -> arr_inv A Hc -> x != r -> leafy Hc x ->
  (x : nat) \in gnodes Hc -> (forall d, unassigned A (val d) = ~~ done Hc d) /\
  [seq g <- nth [::] Fl x | unassigned A g] = [:: val (p x)].
Proof.
move=> ti ai xr lx xH; have [pT pfx prk] := p_fc xr.
have td d : fc d = x -> ~~ done Hc d = (d == p x) by apply: todo_leaf.
have px0 : ~~ done Hc (p x) by rewrite td // eqxx.
have un d : unassigned A (val d) = ~~ done Hc d.
  case: (boolP (done Hc d)) => [hd|/(ai_todo ai) //].
  by apply/negbTE/pm1_assigned; apply: pm1_entry hd; apply: ai_done ai.
have uq := face_uniq pF (ltn_ord x); split=> //.
suff : perm_eq [seq g <- nth [::] Fl x | unassigned A g] [:: val (p x)].
  move=> h; have := perm_size h; case: [seq _ <- _ | _] h => [|y [|]] // /perm_mem h _.
  by have := h y; rewrite !inE eqxx => /esym/eqP ->.
apply: uniq_perm; rewrite ?filter_uniq // => e; rewrite mem_filter inE.
apply/andP/eqP => [[h1 /face_darts[d h2 h3]]|->].
  by move: h1; rewrite -h2 un td // => /eqP ->.
by rewrite un px0 -{2}pfx mem_fc.
Qed.

Lemma step_inv (A : arr) Hc (x : 'I_(size Fl)) : tree_inv Hc -> arr_inv A Hc -> x != r -> leafy Hc x ->
  (x : nat) \in gnodes Hc ->
  exists A', leaf_step Fl (A, Hc) x = Ok (A', remove_node Hc x) /\ arr_inv A' (remove_node Hc x).
Proof.
move=> ti ai xr lx xH; have [pT pfx prk] := p_fc xr.
have td d : fc d = x -> ~~ done Hc d = (d == p x) by apply: todo_leaf.
have [un sel] := leaf_sel ti ai xr lx xH.
have hr := in_range_face (ai_nr ai) (ai_nc ai) (ltn_ord x).
have [|A' [v [h1 [w1 w2 w3] h3 h4]]] := complete_one hr sel.
  by move=> g /face_darts[d <- _]; rewrite un negbK => /(pm1_entry (ai_done ai)).
exists A'; split; first by rewrite /leaf_step /= ltn_ord h1.
have wE d : get A' (val d).1 (val d).2 = if (d == p x) || (d == al (p x)) then v else get A (val d).1 (val d).2.
  rewrite w3 -!val_eqE val_gal; case: (val d) (val (p x)) => [a b] [c e].
  by rewrite -!pair_eqE /pair_eq /=; case: (leqP c e) => // hce; rewrite orbC.
have sE d : (d == p x) || (d == al (p x)) = false -> seen A' (val d) = seen A (val d).
  move=> hd; have hd' : (al d == p x) || (al d == al (p x)) = false.
    by rewrite (inj_eq (can_inj alK)) al_eq orbC.
  have := wE d; have := wE (al d); rewrite hd hd' val_gal /= => g1 g2.
  by rewrite /seen /entry; case: (leqP (val d).1 (val d).2) => _; rewrite ?g1 ?g2.
split.
- by rewrite w1 (ai_nr ai).
- by rewrite w2 (ai_nc ai).
- move=> i j hij; rewrite w3 (ai_out ai hij); case: ifP => // h; case/negP: hij.
  have := gdart_edge (p x); move: h; case: (val (p x)) => a b /=.
  by case: (leqP a b) => _ /orP[] /andP[/eqP -> /eqP ->] //; rewrite has_edgeC.
- move=> i j hij; rewrite w3 (ai_tree ai hij); case: ifP => // h; case/negP: pT; rewrite inE.
  by move: h; case: (val (p x)) => a b /=; case: (leqP a b) => _ /orP[] /andP[/eqP <- /eqP <-] //; rewrite has_edgeC.
- by move=> i j hij; rewrite !w3 (ai_sym ai hij) orbC [X in _ || X]andbC [X in X || _]andbC.
- move=> d; rewrite done_remove wE; case: ifP => // hd; case/orP => [/(ai_done ai) //|].
  move=> hx; apply: (ai_done ai); case: (boolP (done Hc d)) => // nd.
  case/orP: hx => /eqP hx; first by move: nd; rewrite td // => h; rewrite h in hd.
  by move: nd; rewrite -done_al td // => /eqP h; move: hd; rewrite -h alK eqxx orbT.
- move=> d; rewrite done_remove negb_or => /andP[nd]; rewrite negb_or => /andP[d1 d2].
  have hd : (d == p x) || (d == al (p x)) = false.
    by apply/negbTE/norP; split; [apply: contraNneq d1 => ->; rewrite pfx|apply: contraNneq d2 => ->; rewrite alK pfx].
  have hd' : (al d == p x) || (al d == al (p x)) = false.
    by rewrite (inj_eq (can_inj alK)) al_eq orbC.
  have := ai_todo ai nd; have := wE d; have := wE (al d); rewrite hd hd' val_gal /= => g1 g2.
  by rewrite /unassigned /entry; case: (leqP (val d).1 (val d).2) => _; rewrite ?g1 ?g2.
move=> i hi; rewrite mem_filter negb_and negbK => /orP[/eqP ->//|iH].
rewrite -(ai_face ai hi iH) big_seq [RHS]big_seq; apply: eq_bigr => e /(face_dart pF hi)[d <- di].
apply: sE; apply/negbTE/norP; split; apply: contra iH => /eqP h.
  by rewrite -di h pfx.
by rewrite -di h (ti_up ti).
Qed.

Lemma leaf_fold (l : seq nat) (A : arr) Hc : tree_inv Hc -> arr_inv A Hc -> uniq l ->
  (forall y, y \in l -> [/\ y \in gnodes Hc, y != r & forall x : 'I_(size Fl), y = x -> leafy Hc x]) ->
  exists A' Hc', [/\ foldM (leaf_step Fl) (A, Hc) l = Ok (A', Hc'), tree_inv Hc', arr_inv A' Hc' &
     gnodes Hc' = [seq y <- gnodes Hc | y \notin l]].
Proof.
elim: l A Hc => [|y l IH] A Hc ti ai; first by exists A, Hc; rewrite (eq_filter (a2 := predT)) ?filter_predT.
move=> /= /andP[yl ul] h; have [yH yr ly] := h y (mem_head _ _).
pose x := Ordinal (ti_lt ti yH); have xr : x != r by [].
have lx : leafy Hc x by apply: ly.
have [A1 [h1 ai1]] := step_inv ti ai xr lx yH; have ti1 := remove_inv ti xr lx yH.
have [|A2 [H2 [h2 ti2 ai2 e2]]] := IH _ _ ti1 ai1 ul.
  move=> z zl; have [|zH zr lz] := h z; first by rewrite inE zl orbT.
  split=> //; first by rewrite mem_filter zH andbT; apply: contraNneq yl => ez; rewrite -[y]ez.
  by move=> x' e j; rewrite has_remove => /and3P[_ _ hz]; apply: lz.
exists A2, H2; split=> //; first by rewrite [leaf_step _ _ _]h1.
by rewrite e2 -filter_predI; apply: eq_filter => z /=; rewrite inE negb_or andbC.
Qed.

Lemma leaf_ex Hc : tree_inv Hc -> (1 < size (gnodes Hc))%N ->
  exists x : 'I_(size Fl), [/\ (x : nat) \in gnodes Hc, x != r & degree Hc x == 1%N].
Proof.
move=> ti h; pose P := [pred f : 'I_(size Fl) | ((f : nat) \in gnodes Hc) && (f != r)].
have [f0 Pf0] : exists f, P f.
  have un : uniq (gnodes Hc) by case: (ti_ok ti) => -[].
  have : has (fun i => i != (r : nat)) (gnodes Hc).
    move: h un; case: (gnodes Hc) => [|a [|b l]] //= _; rewrite inE negb_or => /andP[/andP[ab _] _].
    by case: (a =P (r : nat)) => //= ar; rewrite -ar eq_sym ab.
  by case/hasP=> i iH ir; exists (Ordinal (ti_lt ti iH)); rewrite /= iH.
case: (arg_maxnP rk Pf0) => x /andP[xH xr] hx; exists x; split=> //.
have nl : ~~ has_edge Hc x x by rewrite (ti_edge ti) (dual_noloop num hF pm st F0) !andbF.
have hu : has_edge Hc x (up x) by rewrite (ti_edge ti) xH (ti_up ti) // edge_up.
apply: (degree1_ex (ti_ok ti) nl hu) => j; rewrite (ti_edge ti) => /and3P[_ jH].
case/(dual_edgeE num hF pm st F0) => d [dT dx dj].
have {}dx : fc d = x by apply: val_inj.
case: (up_or_down pm par eT dT) => -[h1 h2]; first by rewrite -dj h2 dx.
have [_ _ h3] := p_fc h1; move: h3; rewrite /up -h2 alK dx => h3.
have hP : P (fc (al d)) by apply/andP; rewrite dj.
by have : (rk (fc (al d)) <= rk x)%N := hx _ hP; rewrite leqNgt h3.
Qed.

Lemma leaf_loopP fl (A : arr) Hc : tree_inv Hc -> arr_inv A Hc -> (size (gnodes Hc) <= fl)%N ->
  exists A' Hc', [/\ leaf_loop Fl r fl A Hc = Ok A', tree_inv Hc', arr_inv A' Hc' & gnodes Hc' = [:: (r : nat)]].
Proof.
elim: fl A Hc => [|fl IH] A Hc ti ai hs.
  by have := ti_root ti; case: (gnodes Hc) hs.
have un : uniq (gnodes Hc) by case: (ti_ok ti) => -[].
rewrite [leaf_loop _ _ _ _ _]/=; case: leqP => h1.
  exists A, Hc; split=> //; have := ti_root ti.
  by case: (gnodes Hc) h1 => [|a [|]] //= _; rewrite inE => /eqP ->.
have [x [xH xr dx]] := leaf_ex ti h1.
set l := [seq _ <- _ | _].
have xl : (x : nat) \in l by rewrite mem_filter dx xH andbT.
have [|A1 [H1 [e1 ti1 ai1 n1]]] := leaf_fold ti ai (filter_uniq _ un : uniq l).
  move=> y; rewrite mem_filter => /andP[/andP[dy yr] yH]; split=> // z ez j hz.
  have zr : z != r by apply: contraNneq yr => e; rewrite ez e.
  rewrite ez in dy yH; apply: (degree1 dy hz).
  by rewrite (ti_edge ti) yH (ti_up ti) // edge_up.
have [|A2 [H2 [e2 ti2 ai2 n2]]] := IH _ _ ti1 ai1.
  rewrite -ltnS; apply: leq_trans hs; rewrite n1 size_filter -(count_predC (mem l) (gnodes Hc)) addnC.
  rewrite -[X in (X < _)%N]addn0 ltn_add2l -has_count; apply/hasP; exists (x : nat) => //.
exists A2, H2; split=> //; move: xl e1; case: (l) => // y l' _ e1.
by rewrite e1.
Qed.

End Loop.

Section Orient.
Variable C : numClosedFieldType.
Implicit Types (A : arr C) (T : graph nat_eqType).

Lemma orient_treeP A (l : seq dart) n T : gedges T = l -> nr A = n -> nc A = n ->
  (forall e, e \in l -> [/\ (e.1 < n)%N, (e.2 < n)%N & e.1 != e.2]) ->
  exists A', [/\ orient_tree A T = Ok A', nr A' = n, nc A' = n & forall i j,
    get A' i j = if has_edge T i j then (if (i < j)%N then 1 else -1) else get A i j].
Proof.
move=> eT; rewrite /orient_tree /has_edge eT {T eT}; elim: l A => [|e l IH] A r1 r2 h; first by exists A.
have [e1 e2 ne] := h e (mem_head _ _).
have m1 : (minn e.1 e.2 < n)%N by rewrite gtn_min e1.
have m2 : (maxn e.1 e.2 < n)%N by rewrite gtn_max e1.
pose A1 := upd (upd A (minn e.1 e.2) (maxn e.1 e.2) 1) (maxn e.1 e.2) (minn e.1 e.2) (-1).
have eb : (let* a := upd_chk A (minn e.1 e.2) (maxn e.1 e.2) 1 in upd_chk a (maxn e.1 e.2) (minn e.1 e.2) (-1)) = Ok A1.
  by rewrite /upd_chk r1 r2 m1 m2 /= r1 r2 m1 m2.
rewrite [foldM _ _ _]/= eb.
have [||| A' [h1 h2 h3 h4]] := IH A1.
- exact: r1.
- exact: r2.
- by move=> g gl; apply: h; rewrite inE gl orbT.
exists A'; split=> // i j; rewrite h4 !inE.
case: (boolP ((i, j) \in l)) => [_|_]; first by rewrite orbT.
case: (boolP ((j, i) \in l)) => [_|_]; first by rewrite !orbT.
rewrite !orbF /A1 !get_upd ?r1 ?r2 //; case: (e) ne => a b /= ne.
rewrite -!pair_eqE /pair_eq /=; case: (leqP a b) => hab.
  case: (boolP ((i == b) && (j == a))) => [/andP[/eqP -> /eqP ->]|n1].
    by rewrite !eqxx orbT ltnNge hab.
  rewrite [X in _ || X]andbC; case: (boolP ((i == a) && (j == b))) => [/andP[/eqP -> /eqP ->]|_] /=.
    by rewrite ltn_neqAle ne hab.
  by rewrite (negbTE n1).
case: (boolP ((i == a) && (j == b))) => [/andP[/eqP -> /eqP ->]|_] /=.
  by rewrite ltnNge ltnW.
rewrite andbC; case: (boolP ((j == a) && (i == b))) => [/andP[/eqP -> /eqP ->]|_]; rewrite ?hab //.
Qed.
End Orient.

Section Pfo.
Variable C : numClosedFieldType.
Lemma get_ascale (c : C) (A : arr C) i j : get (ascale c A) i j = c * get A i j.
Proof. by rewrite get_mk; case: ifP => // h; rewrite get_out ?mulr0 // h. Qed.
Variables (n : nat) (G : graph nat_eqType) (emb : embedding) (T : graph nat_eqType).
Hypothesis num : numbered n G.
Hypothesis rs : rotation_system G emb.
Hypothesis sub : forall u v, has_edge T u v -> has_edge G u v.
Hypothesis maps : forall F (hF : all (closed_face emb) F) (pF : perm_eq (flatten F) (edgeset G)),
  exists (V : finType) (src : gdart G -> V) (phi : gdart G -> gdart G),
    plane_map src (gfc pF) (@gal G) phi /\ spanning_tree src (@gal G) (gtree G T).
Variable w : weights C nat_eqType.

(* the weight of the edge uv *)
Definition wt (u v : nat) : C := if (u, v) \in gedges G then w (u, v) else if (v, u) \in gedges G then w (v, u) else 0.

Lemma adjacency_nr : nr (adjacency_matrix G w) = n. Proof. by case: num => /= -> _ _; rewrite size_iota. Qed.
Lemma adjacency_nc : nc (adjacency_matrix G w) = n. Proof. by case: num => /= -> _ _; rewrite size_iota. Qed.
Lemma adjacency_get i j : get (adjacency_matrix G w) i j = wt i j.
Proof.
case: num => en _ hlt; rewrite get_mk en size_iota; case: ifP => [/andP[hi hj]|h].
  by rewrite !drop_iota !add0n /wt; rewrite -(subnSK hi) -(subnSK hj) /=.
rewrite /wt; case: ifP => [/hlt /= h1|_]; first by move: h; have /andP[h2 h3] := h1; rewrite h3 (ltn_trans h2).
by case: ifP => // /hlt /= h1; move: h; have /andP[h2 h3] := h1; rewrite h3 (ltn_trans h2).
Qed.

Hypothesis w_real : forall e, w e \is Num.real.
Hypothesis E0 : gedges G <> [::].
Variable fuel : nat.
Hypothesis hf : (size (edgeset G) <= fuel)%N.

(* the state in which the loop over the faces starts *)
Lemma pfo_init outer : exists F (hF : all (closed_face emb) F) (pF : perm_eq (flatten F) (edgeset G)) (V : finType)
    (src : gdart G -> V) (phi : gdart G -> gdart G) (pm : plane_map src (gfc pF) (@gal G) phi)
    (st : spanning_tree src (@gal G) (gtree G T)) (F0 : (0 < size F)%N) (rk : 'I_(size F) -> nat) (p : 'I_(size F) -> gdart G)
    (par : parents (gfc pF) (@gal G) (~: gtree G T) [set Ordinal (root_lt F0)] rk p)
    (eT : ~: gtree G T = forest (@gal G) [set Ordinal (root_lt F0)] p) (A1 : arr C),
  [/\ faces fuel G (Some emb) None outer = Ok (Some F), is_tree (dual_graph_H G F T) = Ok true,
      gnodes (dual_graph_H G F T) = iota 0 (size F), orient_tree (ascale (99%:R * 'i) (adjacency_matrix G w)) T = Ok A1 &
      tree_inv pF T F0 p (dual_graph_H G F T) /\ arr_inv n pF T A1 (dual_graph_H G F T)].
Proof.
have [F [hF1 hF2 hF3 _]] := C12_faces None outer E0 rs hf.
have pF : perm_eq (flatten F) (edgeset G).
  by apply/allP => d _; apply/eqP; rewrite /= hF2 (count_uniq_mem _ (edgeset_uniq G)) mem_edgeset.
have F0 : (0 < size F)%N.
  move: pF; case: (F) => // /perm_size /= h; have := edgeset_neq0 E0; by case: (edgeset G) h.
have [V [src [phi [pm st]]]] := maps hF3 pF.
have ht := dual_is_tree num hF3 pm st F0.
have en := dual_nodes num hF3 pm st F0.
have ok := dual_ok num hF3 pm st F0.
have nl := dual_noloop num hF3 pm st F0.
have [rk [p [par eT]]] := dual_tree pm st (Ordinal (root_lt F0)).
set H := dual_graph_H G F T in ht en ok nl *.
have [||| A1 [h1 r1 r2 g1]] := @orient_treeP C (ascale (99%:R * 'i) (adjacency_matrix G w)) _ n T erefl.
- exact: adjacency_nr.
- exact: adjacency_nc.
- move=> e he; have /sub/(edge_lt num) // : has_edge T e.1 e.2 by rewrite /has_edge; case: (e) he => a b /= ->.
have ti : tree_inv pF T F0 p H.
  split=> //.
  - by move=> i; rewrite en mem_iota.
  - move=> i j; case: (boolP (has_edge H i j)) => h; rewrite ?andbF // andbT.
    case: ok => -[_ hE] _; move: h; rewrite /has_edge => /orP[] /hE[/= -> ->] //.
  - by rewrite en mem_iota ltn_ord.
  by move=> f _ _; rewrite en mem_iota ltn_ord.
have inH i : (i < size F)%N -> i \in gnodes H by rewrite en mem_iota.
have doneE d : done pF T H d = (d \in gtree G T) by rewrite /done !inH ?ltn_ord // !orbF.
have ai : arr_inv n pF T A1 H.
  split=> //.
  - move=> i j; rewrite g1; case: ifP => [/sub -> //|_] nG.
    rewrite get_ascale adjacency_get /wt; move: nG; rewrite /has_edge negb_or => /andP[/negbTE -> /negbTE ->].
    by rewrite mulr0.
  - by move=> i j hij; rewrite g1 hij.
  - move=> i j hij; rewrite !g1 [has_edge T j i]has_edgeC (negbTE hij) !get_ascale !adjacency_get /wt; congr (_ * _).
    have [_ _ hl] := num; case: ifP => [h1'|_]; case: ifP => [h2'|_] //.
    by have /andP[l1 _] := hl _ h1'; have /andP[l2 _] := hl _ h2'; have := ltn_trans l1 l2; rewrite ltnn.
  - move=> d; rewrite doneE inE => dT; rewrite g1 dT; case: ifP => _; by [left|right].
  - move=> d; rewrite doneE inE => dT.
    have nT : has_edge T (minn (val d).1 (val d).2) (maxn (val d).1 (val d).2) = false.
      by apply/negbTE; case: leqP => _ //; rewrite has_edgeC.
    rewrite /unassigned /entry g1 nT get_ascale adjacency_get.
    have hr x y : wt x y \is Num.real by rewrite /wt; case: ifP => // _; case: ifP => // _; apply: real0.
    have hx x y : 99%:R * wt x y \is Num.real by rewrite rpredM // realn.
    by rewrite mulrAC ReMir (Creal_ImP _ (hx _ _)) oppr0 normr0 invr_ge0 exprn_ge0 // ler0n.
  - by move=> i hi; rewrite inH.
by exists F, hF3, pF, V, src, phi, pm, st, F0, rk, p, par, eT, A1.
Qed.

Lemma pfoP_gen pl outer : exists F A, 
  [/\ faces fuel G (Some emb) None outer = Ok (Some F), all (closed_face emb) F, perm_eq (flatten F) (edgeset G),
      pfo_algorithm fuel G w (NxInfo pl emb T outer) = Ok A &
  [/\ nr A = n, nc A = n, forall u v, if has_edge G u v then pm1 (get A u v) else get A u v = 0,
      (forall i, (i < (size F).-1)%N -> \prod_(e <- nth [::] F i) seen A e = -1) &
      (forall u v, if has_edge T u v then get A u v = (if (u < v)%N then 1 else -1) else get A u v = get A v u) ]].
Proof.
have [F [hF3 [pF [V [src [phi [pm [st [F0 [rk [p [par [eT [A1 [hF1 ht en h1 [ti ai]]]]]]]]]]]]]]]] := pfo_init outer.
set H := dual_graph_H G F T in ht en ti ai *.
exists F.
have [|A2 [H2 [h2 ti2 ai2 n2]]] := @leaf_loopP C n G emb F num hF3 pF T V src phi pm st F0 rk p par eT (size (gnodes H)) A1 H ti ai => //.
exists (mk (nr A2) (nc A2) (fun i j => 'Re (get A2 i j))).
rewrite /pfo_algorithm hF1.
rewrite [bind _ _]/= -/H ht [bind _ _]/= h1 [bind _ _]/= en bigmax_iota -en h2.
have Dn d : done pF T H2 d.
  rewrite /done; case: (boolP (d \in gtree G T)) => // dT; rewrite orFb n2 !mem_seq1.
  have ne := fc_ne pm par eT dT; rewrite -negb_and; apply: contra ne => /andP[/eqP e1 /eqP e2].
  by apply/eqP/val_inj; rewrite [LHS]e1 [RHS]e2.
have eg i j : get (mk (nr A2) (nc A2) (fun i j => 'Re (get A2 i j))) i j = get A2 i j.
  rewrite get_mk; case: ifP => [_|h]; last by rewrite get_out // h.
  case: (boolP (has_edge G i j)) => h; last by rewrite (ai_out ai2 h) raddf0.
  have hd : (i, j) \in edgeset G by rewrite mem_edgeset.
  have := ai_done ai2 (Dn (SeqSub hd)) => /= hp; apply/Creal_ReP; by case: hp => ->; rewrite ?rpredN real1.
split=> //; split; [exact: ai_nr ai2|exact: ai_nc ai2| | |].
- move=> u v; rewrite eg; case: ifP => h; last by apply: (ai_out ai2); rewrite h.
  have hd : (u, v) \in edgeset G by rewrite mem_edgeset.
  exact: (ai_done ai2 (Dn (SeqSub hd))).
- move=> i hi; rewrite -(ai_face ai2 (i := i)); last 2 first.
  + by apply: leq_trans hi _; apply: leq_pred.
  + by rewrite n2 inE /= neq_ltn hi.
  apply: eq_bigr => e _; by rewrite /seen /entry !eg.
- by move=> u v; rewrite !eg; case: ifP => h; [apply: (ai_tree ai2)|apply: (ai_sym ai2); rewrite h].
Qed.
End Pfo.

(* a plane embedding of a connected graph and a spanning tree *)
Lemma pfoP (C : numClosedFieldType) n G emb T : numbered n G -> plane_embedding G emb -> spanning G T ->
  forall w : weights C nat_eqType, (forall e, w e \is Num.real) -> gedges G <> [::] ->
  forall fuel, (size (edgeset G) <= fuel)%N -> forall pl outer, exists F A,
  [/\ faces fuel G (Some emb) None outer = Ok (Some F), all (closed_face emb) F, perm_eq (flatten F) (edgeset G),
      pfo_algorithm fuel G w (NxInfo pl emb T outer) = Ok A &
  [/\ nr A = n, nc A = n, forall u v, if has_edge G u v then pm1 (get A u v) else get A u v = 0,
      (forall i, (i < (size F).-1)%N -> \prod_(e <- nth [::] F i) seen A e = -1) &
      (forall u v, if has_edge T u v then get A u v = (if (u < v)%N then 1 else -1) else get A u v = get A v u) ]].
Proof.
move=> num pe sp w wr E0 fuel hf pl outer; have [rs _ _ _] := pe; have [_ _ _ sub] := sp.
apply: (pfoP_gen num rs sub _ wr E0 hf) => F hF pF; exists [finType of 'I_n], (gsrc num); eexists.
split; [exact: (gmap num pe hF pF)|exact: (gspan num sp)].
Qed.
