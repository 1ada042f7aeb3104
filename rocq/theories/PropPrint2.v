(* PropPrint2.v -- property C93: what pfo_algorithm prints and plots on a plane graph *)
Set Warnings "-notation-overridden,-ambiguous-paths".
From Coq Require Import Reals String.
From mathcomp Require Import all_ssreflect all_fingroup all_algebra.
From Verif Require Import Base ArrC MGraph MEmbed MPrint PropGraph2 PropGraph4 PropGraph5 Planar GraphMap GraphPfo PlaneCheck PropGraph6 PropPrint1.
Set Implicit Arguments.
Unset Strict Implicit.
Unset Printing Implicit Defensive.
Import Order.Theory GRing.Theory Num.Theory.
Local Open Scope ring_scope.
Local Notation S s := (PStr s%string).

Section Plots.
Variable C : numClosedFieldType.
Local Notation arr := (arr C).
Variable planar : graph nat_eqType -> bool.

Lemma red_ok (A : arr) (l : seq dart) s0 :
  (forall e, e \in l -> (maxn e.1 e.2 < nr A)%N && (maxn e.1 e.2 < nc A)%N) ->
  exists D, foldM (red_arrow A) s0 l = Ok D.
Proof.
elim: l s0 => [|e l IH] s0 h /=; first by exists s0.
have /andP[h1 h2] := h e (mem_head _ _).
rewrite /red_arrow /idx h2 andbT (leq_ltn_trans _ h1) /=; last by rewrite leq_max geq_minl.
by apply: IH => e' he; apply: h; rewrite inE he orbT.
Qed.

Lemma plot_ok title n G (A : arr) : planar G -> numbered n G -> nr A = n -> nc A = n ->
  exists2 D, plot_planar_embedding true G (Some A) = Ok (Some D) & plot planar title G (Some A) = ([:: Plot title D], Ok tt).
Proof.
move=> pG num h1 h2; rewrite /plot /plot_planar_embedding pG /=.
have [|D hD] := @red_ok A (gedges G) [::]; last by exists D; rewrite hD.
by case: num => _ _ hl e /hl /andP[l1 l2]; rewrite h1 h2 gtn_max l2 (ltn_trans l1 l2).
Qed.
Lemma plot_ex n G (A : arr) : numbered n G -> nr A = n -> nc A = n -> exists2 D,
  plot_planar_embedding true G (Some A) = Ok (Some D) &
  forall title, planar G -> plot planar title G (Some A) = ([:: Plot title D], Ok tt).
Proof.
move=> num h1 h2; have [|D hD] := @red_ok A (gedges G) [::].
  by case: num => _ _ hl e /hl /andP[l1 l2]; rewrite h1 h2 gtn_max l2 (ltn_trans l1 l2).
by exists D => [|title pG]; rewrite /plot /plot_planar_embedding ?pG /= hD.
Qed.
End Plots.

Section Loop.
Variable C : numClosedFieldType.
Local Notation arr := (arr C).
Variable planar : graph nat_eqType -> bool.
Variables (n : nat) (G : graph nat_eqType) (emb : embedding) (Fl : seq face).
Hypothesis num : numbered n G.
Hypothesis hF : all (closed_face emb) Fl.
Hypothesis pF : perm_eq (flatten Fl) (edgeset G).
Variable T : graph nat_eqType.
Variables (V : finType) (src : gdart G -> V) (phi : gdart G -> gdart G).
Hypothesis pm : plane_map src (gfc pF) (@gal G) phi.
Hypothesis st : spanning_tree src (@gal G) (gtree G T).
Hypothesis F0 : (0 < size Fl)%N.
Local Notation r := (Ordinal (root_lt F0)).
Variables (rk : 'I_(size Fl) -> nat) (p : 'I_(size Fl) -> gdart G).
Hypothesis par : parents (gfc pF) (@gal G) (~: gtree G T) [set r] rk p.
Hypothesis eT : ~: gtree G T = forest (@gal G) [set r] p.
Variable v : bool.
Hypothesis pl : v -> planar G.
Local Notation tinv := (tree_inv pF T F0 p).
Local Notation ainv := (@arr_inv C n G Fl pF T).

(* one plot for each face of l, in this order, when v *)
Definition face_log (F : seq face) (v : bool) (l : seq nat) (log : seq (event C)) : Prop :=
  exists2 Ds : seq (seq dart), size Ds = size l &
  log = if v then [seq Plot [:: S "Face"; PNat x.1; PEdges (nth [::] F x.1)] x.2 | x <- zip l Ds] else [::].

Lemma face_log0 : face_log Fl v [::] [::]. Proof. by exists [::] => //; case: v. Qed.
Lemma face_log_cat l l' log log' : face_log Fl v l log -> face_log Fl v l' log' -> face_log Fl v (l ++ l') (log ++ log').
Proof.
case=> D h1 h2 [D' h1' h2']; exists (D ++ D'); first by rewrite !size_cat h1 h1'.
by rewrite h2 h2'; case: v => //; rewrite zip_cat // map_cat.
Qed.

Lemma complete_quiet (A : arr) f e : in_range A f -> [seq g <- f | unassigned A g] = [:: e] ->
  (complete_face_p A f false).1 = [::].
Proof.
move=> hr sel; rewrite /complete_face_p face_signE //= sel /=.
by case: (upd_chk _ _ _ _) => //= a; rewrite /bindW /=; case: (upd_chk _ _ _ _).
Qed.

Lemma step_p (A : arr) Hc (x : 'I_(size Fl)) : tinv Hc -> ainv A Hc -> x != r -> leafy pF p Hc x ->
  (x : nat) \in gnodes Hc ->
  exists A' log, [/\ leaf_step_p planar G Fl v (A, Hc) x = (log, Ok (A', remove_node Hc x)),
    ainv A' (remove_node Hc x), leaf_step Fl (A, Hc) x = Ok (A', remove_node Hc x) &
    face_log Fl v [:: (x : nat)] log].
Proof.
move=> ti ai xr lx xH; have [A' [h1 h2]] := step_inv num hF pm st par eT ti ai xr lx xH; exists A'.
have [un sel] := leaf_sel num hF pm st par eT ti ai xr lx xH.
have hr := in_range_face num pF (ai_nr ai) (ai_nc ai) (ltn_ord x).
have e1 : complete_face_p A (nth [::] Fl x) false = ([::], Ok (A', true)).
  have := complete_face2 A (nth [::] Fl x) false; have := complete_quiet hr sel.
  case: (complete_face_p _ _ _) => lg rr /= -> ->; move: (h1); rewrite /leaf_step ltn_ord complete_faceE //= sel.
  by move=> [<-].
rewrite /leaf_step_p ltn_ord e1 /=; have [nA cA] := (ai_nr h2, ai_nc h2).
case: v pl => [/(_ isT) pG|_]; last by exists [::]; split=> //; exists [:: [::]].
have [D _ hD] := plot_ok [:: S "Face"; PNat x; PEdges (nth [::] Fl x)] pG num (nA : nr (areal A') = n) (cA : nc (areal A') = n).
exists [:: Plot [:: S "Face"; PNat x; PEdges (nth [::] Fl x)] D]; split=> //; last by exists [:: D].
apply: (bind_ok (l := [::]) erefl); exact: (bind_ok (l' := [::]) hD erefl).
Qed.

Lemma fold_p (l : seq nat) (A : arr) Hc : tinv Hc -> ainv A Hc -> uniq l ->
  (forall y, y \in l -> [/\ y \in gnodes Hc, y != r & forall x : 'I_(size Fl), y = x -> leafy pF p Hc x]) ->
  exists A' Hc' log, [/\ foldW (leaf_step_p planar G Fl v) (A, Hc) l = (log, Ok (A', Hc')), tinv Hc', ainv A' Hc',
     gnodes Hc' = [seq y <- gnodes Hc | y \notin l] & face_log Fl v l log /\ foldM (leaf_step Fl) (A, Hc) l = Ok (A', Hc')].
Proof.
elim: l A Hc => [|y l IH] A Hc ti ai.
  by exists A, Hc, [::]; split; rewrite ?(eq_filter (a2 := predT)) ?filter_predT //; split=> //; apply: face_log0.
move=> /= /andP[yl ul] h; have [yH yr ly] := h y (mem_head _ _).
pose x := Ordinal (ti_lt ti yH); have xr : x != r by [].
have lx : leafy pF p Hc x by apply: ly.
have [A1 [lg1 [h1 ai1 q1 f1]]] := step_p ti ai xr lx yH; have ti1 := remove_inv num hF pm st par ti xr lx yH.
have [|A2 [H2 [lg2 [h2 ti2 ai2 e2 [f2 q2]]]]] := IH _ _ ti1 ai1 ul.
  move=> z zl; have [|zH zr lz] := h z; first by rewrite inE zl orbT.
  split=> //; first by rewrite mem_filter zH andbT; apply: contraNneq yl => ez; rewrite -[y]ez.
  by move=> x' e j; rewrite has_remove => /and3P[_ _ hz]; apply: lz.
exists A2, H2, (lg1 ++ lg2); split=> //; first exact: (bind_ok h1).
  by rewrite e2 -filter_predI; apply: eq_filter => z /=; rewrite inE negb_or andbC.
split; first exact: (face_log_cat f1).
by rewrite [leaf_step _ _ _]q1.
Qed.

Lemma loop_p fl (A : arr) Hc : tinv Hc -> ainv A Hc -> (size (gnodes Hc) <= fl)%N ->
  exists A' Hc' log l, [/\ leaf_loop_p planar G Fl r v fl A Hc = (log, Ok A'), ainv A' Hc', gnodes Hc' = [:: (r : nat)],
    face_log Fl v l log & perm_eq l [seq y <- gnodes Hc | y != (r : nat)] /\
    leaf_loop Fl r fl A Hc = Ok A'].
Proof.
elim: fl A Hc => [|fl IH] A Hc ti ai hs.
  by have := ti_root ti; case: (gnodes Hc) hs.
have un : uniq (gnodes Hc) by case: (ti_ok ti) => -[].
rewrite [leaf_loop_p _ _ _ _ _ _ _ _]/= [leaf_loop _ _ _ _ _]/=; case: leqP => h1.
  have e : gnodes Hc = [:: (r : nat)].
    by have := ti_root ti; case: (gnodes Hc) h1 => [|a [|]] //= _; rewrite inE => /eqP ->.
  by exists A, Hc, [::], [::]; split=> //; [apply: face_log0|rewrite e /= eqxx].
have [x [xH xr dx]] := leaf_ex num hF pm st par eT ti h1.
set l := [seq _ <- _ | _].
have xl : (x : nat) \in l by rewrite mem_filter dx xH andbT.
have [|A1 [H1 [lg1 [e1 ti1 ai1 n1 [f1 q1]]]]] := fold_p ti ai (filter_uniq _ un : uniq l).
  move=> y; rewrite mem_filter => /andP[/andP[dy yr] yH]; split=> // z ez j hz.
  have zr : z != r by apply: contraNneq yr => e; rewrite ez e.
  rewrite ez in dy yH; apply: (degree1 dy hz).
  by rewrite (ti_edge ti) yH (ti_up ti) // (edge_up num hF pm st par).
have [|A2 [H2 [lg2 [l2 [e2 ai2 n2 f2 [p2 q2]]]]]] := IH _ _ ti1 ai1.
  rewrite -ltnS; apply: leq_trans hs; rewrite n1 size_filter -(count_predC (mem l) (gnodes Hc)) addnC.
  rewrite -[X in (X < _)%N]addn0 ltn_add2l -has_count; apply/hasP; exists (x : nat) => //.
exists A2, H2, (lg1 ++ lg2), (l ++ l2); split=> //; last first; first split.
- rewrite (perm_trans (_ : perm_eq _ (l ++ [seq y <- gnodes H1 | y != (r : nat)]))) ?perm_cat2l // n1.
  rewrite perm_sym -(perm_filterC (mem l)) perm_sym; apply: perm_cat.
    apply: uniq_perm; rewrite ?filter_uniq // => y; rewrite [RHS]mem_filter [X in _ = _ && X]mem_filter /=.
    apply/idP/and3P => [h|[//]]; split=> //; by move: h; rewrite mem_filter => /andP[/andP[]].
  rewrite -!filter_predI (eq_filter (a2 := predI (predC (mem l)) (fun y => y != (r : nat)))) // => y /=; exact: andbC.
- by move: xl q1; case: (l) => // y l' _ ->.
- exact: face_log_cat.
move: xl e1; case: (l) => // y l' _ e1; exact: (bind_ok e1).
Qed.
End Loop.

Section Pfo.
Variable C : numClosedFieldType.
Local Notation arr := (arr C).
Variable planar : graph nat_eqType -> bool.
Variables (n : nat) (G : graph nat_eqType) (emb : embedding) (T : graph nat_eqType).
Hypothesis num : numbered n G.
Hypothesis pe : plane_embedding G emb.
Hypothesis sp : spanning G T.
Variable w : weights C nat_eqType.
Hypothesis w_real : forall e, w e \is Num.real.
Hypothesis E0 : gedges G <> [::].
Variable fuel : nat.
Hypothesis hf : (size (edgeset G) <= fuel)%N.

Lemma sizeT : size (gnodes T) = n.
Proof.
have [eT [[uT _] _] _ _] := sp; have [eG _ _] := num.
rewrite -(size_iota 0 n) -eG; apply/perm_size/uniq_perm => //; by rewrite eG iota_uniq.
Qed.

Lemma say_faces (F : seq face) l : foldW (fun (_ : unit) i => say [:: PStr "F["%string : pval C; PNat i; PStr "]"%string; PEdges (nth [::] F i)]) tt l
  = ([seq Print [:: PStr "F["%string; PNat i; PStr "]"%string; PEdges (nth [::] F i)] | i <- l], Ok tt).
Proof. by elim: l => //= i l IH; rewrite /bindW /= IH. Qed.

Lemma pfo_p pl outer : exists F A, [/\ faces fuel G (Some emb) None outer = Ok (Some F),
    pfo_algorithm fuel G w (NxInfo pl emb T outer) = Ok A &
    forall v : bool, (v -> planar G /\ forall H, is_tree H = Ok true -> planar H) ->
    exists DT D0 D l Ds, [/\ perm_eq l (iota 0 (size F).-1), size Ds = size l,
      plot_planar_embedding true G (Some A) = Ok (Some D) &
      pfo_algorithm_p planar fuel G w (NxInfo pl emb T outer) v =
      (if v then [:: Plot [:: S "T"] DT; Plot [:: S "H"] [::]; Print [:: PNat (size F)]] ++
        [seq Print [:: S "F["; PNat i; S "]"; PEdges (nth [::] F i)] | i <- iota 0 (minn 5 (size F))] ++
        [:: Plot [::] D0] ++
        [seq Plot [:: S "Face"; PNat x.1; PEdges (nth [::] F x.1)] x.2 | x <- zip l Ds] ++
        [:: Print [:: S "Complete pfo"]; Plot [:: S "Constructed PFO"] D]
       else [:: Print [:: S "Complete pfo"]], Ok A)]].
Proof.
have [rs _ _ _] := pe; have [_ _ _ sub] := sp.
have [|F [hF3 [pF [V [src [phi [pm [st [F0 [rk [p [par [eT [A1 [hF1 ht en h1 [ti ai]]]]]]]]]]]]]]]] :=
  pfo_init num rs sub _ w_real E0 hf outer.
  move=> F hF pF; exists [finType of 'I_n], (gsrc num); eexists; split; [exact: (gmap num pe hF pF)|exact: (gspan num sp)].
have loop (v : bool) (h : v -> planar G) := loop_p num hF3 pm st par eT h ti ai (leqnn _).
have [|A2 [H2 [_ [_ [_ ai2 n2 _ [_ q2]]]]]] := loop false => //.
exists F, (areal A2).
have pfoE : pfo_algorithm fuel G w (NxInfo pl emb T outer) = Ok (areal A2).
  by rewrite /pfo_algorithm hF1 [bind _ _]/= ht [bind _ _]/= h1 [bind _ _]/= en bigmax_iota -en q2.
split=> // v hv; have pv : v -> planar G by case/hv.
have [A3 [H3 [log [l [h3 ai3 n3 [Ds sD f3] [p3 q3]]]]]] := loop v pv.
move: q3; rewrite q2 => -[e3]; subst A3.
have [nA cA] := (ai_nr ai2, ai_nc ai2); have [nA1 cA1] := (ai_nr ai, ai_nc ai).
have Dn d : done pF T H2 d.
  rewrite /done; case: (boolP (d \in gtree G T)) => // dT; rewrite orFb n2 !mem_seq1.
  have ne := fc_ne pm par eT dT; rewrite -negb_and; apply: contra ne => /andP[/eqP e1 /eqP e2].
  by apply/eqP/val_inj; rewrite [LHS]e1 [RHS]e2.
have im0 i j : 'Im (get A2 i j) = 0.
  case: (boolP (has_edge G i j)) => h; last by rewrite (ai_out ai2 h) raddf0.
  have hd : (i, j) \in edgeset G by rewrite mem_edgeset.
  have := ai_done ai2 (Dn (SeqSub hd)) => /= hp; apply/Creal_ImP; by case: hp => ->; rewrite ?rpredN real1.
have s0 : \sum_(i < nr A2) \sum_(j < nc A2) 'Im (get A2 i j) = 0.
  by rewrite big1 // => i _; rewrite big1.
have pl' : perm_eq l (iota 0 (size F).-1).
  move: p3; rewrite en -[in iota _ _](prednK F0) -addn1 iotaD filter_cat /= add0n eqxx /= cats0.
  by rewrite (eq_in_filter (a2 := predT)) ?filter_predT // => y; rewrite mem_iota add0n => /= h; rewrite neq_ltn h.
rewrite /pfo_algorithm_p [nx_tree _]/= [nx_emb _]/= [nx_outer _]/= hF1.
have [DT _ hDT] := plot_ex planar (A := ascale (- 10%:R) (adjacency_matrix T w)) num sizeT sizeT.
have [D0 _ hD0] := plot_ex planar (A := areal A1) num nA1 cA1.
have [D eD hD] := plot_ex planar (A := areal A2) num nA cA.
exists DT, D0, D, l, Ds; split=> //.
set log1 := if v then [:: Plot (C := C) [:: S "T"] DT] else [::].
set log2 := if v then [:: Plot (C := C) [:: S "H"] [::]; Print [:: PNat (size F)]] ++
  [seq Print [:: S "F["; PNat i; S "]"; PEdges (nth [::] F i)] | i <- iota 0 (minn 5 (size F))] else [::].
set log3 := if v then [:: Plot (C := C) [::] D0] else [::].
set log5 := if v then [:: Plot (C := C) [:: S "Constructed PFO"] D] else [::].
transitivity (log1 ++ log2 ++ log3 ++ log ++ [:: Print [:: S "Complete pfo"]] ++ log5, Ok (areal A2)); last first.
  by rewrite /log1 /log2 /log3 /log5 f3; case: (v) => //=; rewrite -?catA.
apply: bind_ok; first by rewrite /when /log1; case: (v) hv => // /(_ isT)[pG _]; exact: hDT.
apply: (bind_ok (l := [::]) erefl); rewrite [odflt _ _]/=.
apply: bind_ok.
  rewrite /when /log2; case: (v) hv => // /(_ isT)[_ pH].
  apply: (bind_ok (l := [:: _])); first by rewrite /plot /plot_planar_embedding pH.
  apply: (bind_ok (l := [:: _]) erefl); exact: say_faces.
rewrite ht; do 3![apply: (bind_ok (l := [::]) erefl)].
rewrite h1; apply: (bind_ok (l := [::]) erefl).
apply: bind_ok; first by rewrite /when /log3; case: (v) hv => // /(_ isT)[pG _]; exact: hD0.
rewrite en bigmax_iota -en; apply: (bind_ok h3).
rewrite s0; have -> : (10%:R ^+ 16)^-1 < 0 :> C = false.
  by apply: le_gtF; rewrite invr_ge0 exprn_ge0 // ler0n.
apply: (bind_ok (l := [:: _]) erefl); rewrite -[log5]cats0.
apply: (bind_ok _ erefl); by rewrite /when /log5; case: (v) hv => // /(_ isT)[pG _]; exact: hD.
Qed.

(* C93: on every connected plane graph with real weights pfo_algorithm ends with the message "Complete pfo" and prints nothing
   else; the warnings of complete_face and "Incomplete pfo" do not occur.  With verbose=True (networkx draws planar graphs and
   trees) the result is the same; the plots are T, H, the oriented tree, every face but the last exactly once and the final
   orientation, and the printed lines are the number of faces and at most five faces *)
Theorem C93_pfo pl outer : exists F A, [/\ faces fuel G (Some emb) None outer = Ok (Some F),
    pfo_algorithm fuel G w (NxInfo pl emb T outer) = Ok A,
    pfo_algorithm_p planar fuel G w (NxInfo pl emb T outer) false = ([:: Print [:: S "Complete pfo"]], Ok A) &
    planar G -> (forall H, is_tree H = Ok true -> planar H) -> exists DT D0 D l Ds, [/\ perm_eq l (iota 0 (size F).-1),
      size Ds = size l, plot_planar_embedding true G (Some A) = Ok (Some D) &
      pfo_algorithm_p planar fuel G w (NxInfo pl emb T outer) true =
      ([:: Plot [:: S "T"] DT; Plot [:: S "H"] [::]; Print [:: PNat (size F)]] ++
        [seq Print [:: S "F["; PNat i; S "]"; PEdges (nth [::] F i)] | i <- iota 0 (minn 5 (size F))] ++
        [:: Plot [::] D0] ++
        [seq Plot [:: S "Face"; PNat x.1; PEdges (nth [::] F x.1)] x.2 | x <- zip l Ds] ++
        [:: Print [:: S "Complete pfo"]; Plot [:: S "Constructed PFO"] D], Ok A)]].
Proof.
have [F [A [h1 h2 h3]]] := pfo_p pl outer; exists F, A; split=> // [|pG pH].
  by have [//|DT [D0 [D [l [Ds [_ _ _ ->]]]]]] := h3 false.
by have [//|DT [D0 [D [l [Ds [e1 e2 e3 e4]]]]]] := h3 true; exists DT, D0, D, l, Ds.
Qed.
End Pfo.

(* the square with a diagonal: three faces, six plots *)
Example C93_pfo_example (C : numClosedFieldType) : exists (A : arr C) log,
  [/\ pfo_algorithm_p (fun _ => false) 10 sq4 (fun _ => 1) (NxInfo true (emb_of sq4_rot) sq4_tree [:: 3; 0; 2; 1]%N) false =
        ([:: Print [:: S "Complete pfo"]], Ok A),
      pfo_algorithm_p (fun _ => true) 10 sq4 (fun _ => 1) (NxInfo true (emb_of sq4_rot) sq4_tree [:: 3; 0; 2; 1]%N) true =
        (log, Ok A) & (size log = 11)%N].
Proof.
have [num pe] := sq4_plane; have w1 e : (fun _ => 1 : C) (e : nat * nat) \is Num.real by rewrite real1.
have E0 : gedges sq4 <> [::] by [].
have f10 : (size (edgeset sq4) <= 10)%N by [].
have [F [A [hF h1 h2 _]]] := C93_pfo (fun _ => false) num pe sq4_span w1 E0 f10 true [:: 3; 0; 2; 1]%N.
have [F' [A' [hF' h1' _ h3]]] := C93_pfo (fun _ => true) num pe sq4_span w1 E0 f10 true [:: 3; 0; 2; 1]%N.
have eA : A' = A by move: h1'; rewrite h1 => -[].
have [//|//|DT [D0 [D [l [Ds [e1 e2 e3 e4]]]]]] := h3.
exists A; eexists; split; [exact: h2|rewrite -eA; exact: e4|].
have sF : size F' = 3%N by move: hF'; have [_ ->] := C12_example; case=> <-.
rewrite !size_cat !size_map size_iota size_zip e2 minnn (perm_size e1) size_iota sF //.
Qed.
