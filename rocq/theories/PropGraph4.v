(* PropGraph4.v -- tracing the faces of an embedding: property C12 *)
Set Warnings "-notation-overridden,-ambiguous-paths".
From mathcomp Require Import all_ssreflect all_algebra.
From mathcomp.zify Require Import zify.
From Verif Require Import Base ArrC MCombinatorics MGraph GraphBfs.
Set Implicit Arguments.
Unset Strict Implicit.
Unset Printing Implicit Defensive.

Lemma mem_edgeset G (d : dart) : (d \in edgeset G) = has_edge G d.1 d.2.
Proof.
rewrite mem_undup /has_edge; apply/flatten_mapP/idP.
  by case=> e he; rewrite !inE; case: e he => a b he /= /orP[] /eqP -> /=; rewrite he ?orbT.
by case: d => a b /= /orP[] h; eexists; eauto; rewrite !inE eqxx ?orbT.
Qed.
Lemma edgeset_neq0 G : gedges G <> [::] -> edgeset G <> [::].
Proof.
case E: (gedges G) => [|[a b] l] // _ h; have := mem_edgeset G (a, b).
by rewrite h /has_edge E mem_head.
Qed.
Lemma edgeset_uniq G : uniq (edgeset G). Proof. exact: undup_uniq. Qed.

(* emb is a rotation system on G: for every node v, u |-> emb[v][u]["cw"] permutes the neighbours of v *)
Definition rotation_system (G : graph nat_eqType) (emb : embedding) : Prop :=
  forall v u, has_edge G v u -> exists2 w, emb v u = Some w &
    has_edge G v w /\ forall u', has_edge G v u' -> emb v u' = Some w -> u' = u.

(* d' is the dart that follows d on its face *)
Definition follows (emb : embedding) (d d' : dart) : bool := (d'.1 == d.2) && (emb d.2 d.1 == Some d'.2).

Section Trace.
Variables (G : graph nat_eqType) (emb : embedding).
Hypothesis rs : rotation_system G emb.
Local Notation D := (edgeset G).

Lemma follows_ex d : d \in D -> exists2 d', d' \in D & follows emb d d'.
Proof.
rewrite mem_edgeset has_edgeC => /rs[w e [h _]]; exists (d.2, w); first by rewrite mem_edgeset.
by rewrite /follows e !eqxx.
Qed.
Lemma follows_inj d1 d2 d' : d1 \in D -> d2 \in D -> follows emb d1 d' -> follows emb d2 d' -> d1 = d2.
Proof.
case: d1 d2 d' => [a b] [a2 b2] [c e]; rewrite !mem_edgeset /= has_edgeC => h1.
rewrite has_edgeC => h2 /andP[/= /eqP e0 /eqP e1] /andP[/= /eqP e3 /eqP e2]; subst b b2.
have [w ew [_ hw]] := rs h1; have ewe : w = e by move: ew; rewrite e1 => -[].
by rewrite (hw _ h2 _) // ewe.
Qed.
Lemma follows_fun d d1 d2 : follows emb d d1 -> follows emb d d2 -> d1 = d2.
Proof. by case: d1 d2 => [a b] [a2 b2] /andP[/= /eqP -> /eqP h] /andP[/= /eqP -> /eqP]; rewrite h => -[->]. Qed.

(* a face: a non-empty closed walk that follows the embedding *)
Definition closed_face (f : face) : bool := if f is [::] then false else cycle (follows emb) f.

Lemma cycle_pred f d' : closed_face f -> d' \in f -> exists2 d, d \in f & follows emb d d'.
Proof.
case: f => // x f h hd; exists (prev (x :: f) d'); first by rewrite mem_prev.
exact: prev_cycle.
Qed.

Lemma path_pred x f d' : path (follows emb) x f -> d' \in f -> exists2 d, d \in belast x f & follows emb d d'.
Proof.
elim: f x => //= y f IH x /andP[h1 h2]; rewrite inE => /orP[/eqP ->|h].
  by exists x; rewrite ?mem_head.
by have [d hd e] := IH _ h2 h; exists d => //; rewrite inE hd orbT.
Qed.

Lemma min_dart_in x (s : seq dart) : min_dart x s \in x :: s.
Proof.
rewrite /min_dart; elim: s x => [|y s IH] x /=; first exact: mem_head.
have := IH (if dart_le x y then x else y); rewrite !inE.
by case: dart_le => /orP[->|->]; rewrite ?orbT.
Qed.

Lemma discard_perm e (s : seq dart) : uniq s -> e \in s -> perm_eq s (e :: discard e s).
Proof.
move=> us es; apply: uniq_perm => //=; first by rewrite filter_uniq // mem_filter eqxx.
by move=> x; rewrite inE mem_filter; case: eqP => [->|].
Qed.

Definition trace_inv (es : seq dart) (p0 : dart) (rest : seq dart) (acc : seq face) : Prop :=
  [/\ perm_eq (flatten acc ++ (p0 :: rest) ++ es) D, all closed_face acc & path (follows emb) p0 rest].

Lemma trace_next es p0 rest acc d' : trace_inv es p0 rest acc -> d' \in D -> follows emb (last p0 rest) d' ->
  d' != p0 -> d' \in es.
Proof.
case=> pe ha hp dD hf np; have ul : uniq (flatten acc ++ (p0 :: rest) ++ es) by rewrite (perm_uniq pe) edgeset_uniq.
have lD : last p0 rest \in D by rewrite -(perm_mem pe) !mem_cat mem_last !orbT.
move: dD; rewrite -(perm_mem pe) !mem_cat inE (negbTE np) /= => /or3P[] //.
  case/flattenP => f fa hd; have [d df e] := cycle_pred (allP ha _ fa) hd.
  have dl : d = last p0 rest.
    apply: (follows_inj _ lD e hf); rewrite -(perm_mem pe) mem_cat.
    by apply/orP; left; apply/flattenP; exists f.
  move: ul; rewrite cat_uniq => /and3P[_ /hasPn/(_ (last p0 rest)) h _].
  have := h; rewrite mem_cat mem_last => /(_ isT)/negP[].
  by apply/flattenP; exists f; rewrite // -dl.
move=> hd; have [d df e] := path_pred hp hd.
have dl : d = last p0 rest.
  apply: (follows_inj _ lD e hf); rewrite -(perm_mem pe) !mem_cat.
  by rewrite (mem_belast df) !orbT.
move: ul; rewrite cat_uniq => /and3P[_ _]; rewrite cat_uniq => /and3P[+ _ _].
by rewrite lastI rcons_uniq -dl df.
Qed.

Lemma size_discard e (s : seq dart) k : uniq s -> e \in s -> size s <= k.+1 -> size (discard e s) <= k.
Proof. by move=> us es; rewrite (perm_size (discard_perm us es)). Qed.

Lemma trace_cons fuel x es p0 rest acc d' : follows emb (last p0 rest) d' ->
  trace emb fuel.+1 (x :: es) p0 rest acc =
  if d' == p0 then let m := min_dart x es in trace emb fuel (discard m (x :: es)) m [::] (rcons acc (p0 :: rest))
  else trace emb fuel (discard d' (x :: es)) p0 (rcons rest d') acc.
Proof.
move=> /andP[/eqP e1 /eqP e2]; rewrite /= e2.
by have -> : ((last p0 rest).2, d'.2) = d' by rewrite -e1; case: (d').
Qed.

Lemma traceP fuel es p0 rest acc : trace_inv es p0 rest acc -> size es <= fuel ->
  exists F, [/\ trace emb fuel es p0 rest acc = Ok F, perm_eq (flatten F) D & all closed_face F].
Proof.
elim: fuel es p0 rest acc => [|fuel IH] [|x es] p0 rest acc I hs //.
1,2: have [pe ha hp] := I; exists (rcons acc (p0 :: rest)); split=> //=;
   first (by rewrite flatten_rcons; move: pe; rewrite cats0); rewrite all_rcons ha andbT /=.
1,2: have lD : last p0 rest \in D by rewrite -(perm_mem pe) !mem_cat mem_last !orbT.
1,2: rewrite rcons_path hp /=; have [d' dD hf] := follows_ex lD.
1,2: by case: (d' =P p0) hf => [-> //|/eqP np] hf; have := trace_next I dD hf np.
have [pe ha hp] := I.
have lD : last p0 rest \in D by rewrite -(perm_mem pe) !mem_cat mem_last !orbT.
have [d' dD hf] := follows_ex lD.
have ul : uniq (x :: es).
  have := edgeset_uniq G; rewrite -(perm_uniq pe) cat_uniq => /and3P[_ _].
  by rewrite cat_uniq => /and3P[].
rewrite (trace_cons _ _ _ _ hf); case: eqP => [dp|/eqP np].
  apply: IH; last exact: size_discard (min_dart_in _ _) hs.
  split=> //; last by rewrite dp in hf; rewrite all_rcons ha andbT /= rcons_path hp.
  rewrite flatten_rcons -(permPr pe) -!catA perm_cat2l perm_cat2l perm_sym.
  exact: (discard_perm ul (min_dart_in x es)).
have des := trace_next I dD hf np; apply: IH; last exact: size_discard des hs.
split=> //; last by rewrite rcons_path hp hf.
rewrite -(permPr pe) perm_cat2l -rcons_cons cat_rcons perm_cat2l perm_sym.
exact: (discard_perm ul des).
Qed.
End Trace.

Lemma perm_move (F : seq face) outer : perm_eq (move_outer outer F) F.
Proof.
rewrite /move_outer; set i := find _ _; case: ifP => // hi.
rewrite -[X in perm_eq _ X](cat_take_drop i) perm_cat2l (drop_nth [::] hi).
by rewrite perm_catC.
Qed.

Lemma move_last (F : seq face) outer : has (fun f => sort leq outer == face_nodes f) F ->
  face_nodes (last [::] (move_outer outer F)) = sort leq outer.
Proof.
move=> h; rewrite /move_outer -has_find h !last_cat /=.
by apply/esym/eqP; apply: (nth_find [::] h).
Qed.

(* For every graph with an edge and every rotation system, faces terminates and returns closed walks that follow the
   embedding and contain every directed edge exactly once; the outer face is last when networkx reports one of them. *)
Theorem C12_faces G emb chk outer fuel : gedges G <> [::] -> rotation_system G emb -> size (edgeset G) <= fuel ->
  exists F, [/\ faces fuel G (Some emb) chk outer = Ok (Some F),
    forall d, count_mem d (flatten F) = has_edge G d.1 d.2,
    all (closed_face emb) F &
    has (fun f => face_nodes f == sort leq outer) F -> face_nodes (last [::] F) = sort leq outer].
Proof.
move=> ne rs hf; rewrite /faces; case E: (edgeset G) => [|x es].
  by have := edgeset_neq0 ne; rewrite E.
set m := min_dart x es.
have I : trace_inv G emb (discard m (x :: es)) m [::] [::].
  split=> //=; rewrite perm_sym E; apply: discard_perm; first by rewrite -E edgeset_uniq.
  exact: min_dart_in.
have hs : size (discard m (x :: es)) <= fuel.
  by apply: leq_trans hf; rewrite E size_filter count_size.
have [F [h1 h2 h3]] := traceP rs I hs.
rewrite h1 /=; exists (move_outer outer F); split=> //.
- move=> d; rewrite -mem_edgeset -(perm_mem h2) -count_uniq_mem ?(perm_uniq h2) ?edgeset_uniq //.
  by apply/permP/perm_flatten/perm_move.
- by rewrite (perm_all _ (perm_move _ _)).
rewrite (perm_has _ (perm_move F outer)) => h; apply: move_last.
by apply: sub_has h => f; rewrite eq_sym.
Qed.

(* an embedding given as None is replaced by the one of check_planarity; for a non-planar graph the result is 0 *)
Theorem C12_default G chk outer fuel : gedges G <> [::] ->
  faces fuel G None chk outer = if chk is Some emb then faces fuel G (Some emb) chk outer else Ok None.
Proof.
move=> ne; rewrite /faces; case: chk => // ; case E: (edgeset G) => [|x es] //.
by have := edgeset_neq0 ne; rewrite E.
Qed.

(* a graph without edges: ValueError *)
Theorem C12_no_edges G emb chk outer fuel : gedges G = [::] -> faces fuel G emb chk outer = Raise ValueError.
Proof. by rewrite /faces /edgeset => ->. Qed.


(* an embedding given by the clockwise lists of neighbours *)
Definition emb_of (rot : seq (seq nat)) : embedding := fun v u =>
  if u \in nth [::] rot v then Some (next (nth [::] rot v) u) else None.

(* a square 0, 1, 2, 3 with the diagonal 02 *)
Definition sq4 := Graph [:: 0; 1; 2; 3] [:: (0, 1); (0, 2); (0, 3); (1, 2); (2, 3)] : graph nat_eqType.
Definition sq4_rot := [:: [:: 3; 2; 1]; [:: 0; 2]; [:: 1; 0; 3]; [:: 0; 2]].

(* a rotation system given by lists: every list enumerates the neighbours once *)
Lemma emb_of_ok (G : graph nat_eqType) rot :
  (forall v, uniq (nth [::] rot v) /\ forall u, (u \in nth [::] rot v) = has_edge G v u) ->
  rotation_system G (emb_of rot).
Proof.
move=> h v u; have [un mem] := h v; rewrite -mem => hu; rewrite /emb_of hu; exists (next (nth [::] rot v) u) => //.
split; first by rewrite -mem mem_next.
by move=> u'; rewrite -mem => hu'; rewrite hu' => -[] /(can_inj (prev_next un)).
Qed.

Example C12_example : rotation_system sq4 (emb_of sq4_rot) /\
  faces 10 sq4 (Some (emb_of sq4_rot)) None [:: 3; 0; 2; 1] =
  Ok (Some [:: [:: (0, 1); (1, 2); (2, 0)]; [:: (0, 2); (2, 3); (3, 0)]; [:: (0, 3); (3, 2); (2, 1); (1, 0)]]).
Proof.
split; last by vm_compute.
apply: emb_of_ok => v; case: v => [|[|[|[|v]]]]; split; try by [].
1-4: by move=> u; case: u => [|[|[|[|u]]]].
- by rewrite /= nth_nil.
by move=> u; rewrite /= nth_nil; case: u => [|[|[|[|u]]]].
Qed.
