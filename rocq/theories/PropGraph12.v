(* PropGraph12.v -- C17: what planar counting returns on every planar graph, connected or not *)
Set Warnings "-notation-overridden,-ambiguous-paths".
From Coq Require Import Reals Lra.
From mathcomp Require Import all_ssreflect all_algebra.
From mathcomp Require Import complex.
From mathcomp.zify Require Import zify.
From Verif Require Import Base ArrC MCombinatorics Matching Pfaffian Bipartite RealC MClean PropClean MGraph MGraphR GraphBrute GraphBfs.
From Verif Require Import GraphCount PropGraph2 PropGraph4 PropGraph5 Planar GraphMap GraphPfo PlaneCheck PropGraph6 PropGraph7.
Set Implicit Arguments.
Unset Strict Implicit.
Unset Printing Implicit Defensive.

(* what networkx computes for a planar graph, component by component; reps holds one node of every component *)
Definition plane_info (G : graph nat_eqType) (emb : embedding) (T : graph nat_eqType) (reps : seq nat) : Prop :=
  [/\ rotation_system G emb /\ one_turn G emb, components G reps,
      forall F, all (closed_face emb) F -> perm_eq (flatten F) (edgeset G) ->
        size (gnodes G) + size F = size (gedges G) + size reps + nontrivial G reps,
      [/\ gnodes T =i gnodes G, edges_ok T & forall u v, has_edge T u v -> has_edge G u v] &
      size (gedges T) + size reps = size (gnodes G) /\ forall x y, x \in gnodes G -> reachable G x y -> reachable T x y].

Section Iso.
Variables (n : nat) (G : graph nat_eqType) (emb : embedding) (T : graph nat_eqType) (reps : seq nat).
Hypothesis num : numbered n G.
Hypothesis pi : plane_info G emb T reps.
Hypothesis one : nontrivial G reps = 1.
Let nz (x : nat) : bool := has (has_edge G x) (gnodes G).

Lemma nzP x : reflect (exists y, has_edge G x y) (nz x).
Proof.
apply: (iffP hasP) => [[y _ h]|[y h]]; first by exists y.
by exists y => //; have [_ h2 _] := edge_lt num h; case: num => -> _ _; rewrite mem_iota.
Qed.
Lemma nz_lt x : nz x -> x < n. Proof. by case/nzP=> y /(edge_lt num)[]. Qed.
Lemma nodeE x : (x \in gnodes G) = (x < n). Proof. by case: num => -> _ _; rewrite mem_iota. Qed.

Lemma reach_nz x y : reachable G x y -> x != y -> nz x /\ nz y.
Proof.
case=> p [hp hl] xy; split; apply/nzP.
  by case: p hp hl => [|z p] /=; [move=> _ /eqP; rewrite (negPf xy)|case/andP=> h _ _; exists z].
case/lastP: p hp hl => [_ /= /eqP|p z]; first by rewrite (negPf xy).
by rewrite rcons_path last_rcons => /andP[_ h] <-; exists (last x p); rewrite has_edgeC.
Qed.

(* two nodes with an edge are in the same component *)
Lemma nz_conn x y : nz x -> nz y -> reachable G x y.
Proof.
have [_ [ur sr cr dr] _ _ _] := pi => hx hy.
have rep z : nz z -> exists r, [/\ r \in reps, nz r & reachable G r z].
  move=> hz; have [|r rr hr] := cr z; first by rewrite nodeE nz_lt.
  by exists r; split=> //; case: (r =P z) => [-> //|/eqP rz]; case: (reach_nz hr rz).
have [r [rr nr hr]] := rep _ hx; have [s [ss ns hs]] := rep _ hy.
have e : r = s.
  move: one; rewrite /nontrivial -size_filter.
  have : r \in [seq r <- reps | nz r] by rewrite mem_filter nr.
  have : s \in [seq r <- reps | nz r] by rewrite mem_filter ns.
  by case: (filter _ _) => [|a [|]] //; rewrite !inE => /eqP -> /eqP ->.
rewrite -{}e in hs; have [p w] := hr; have [q w'] := walk_rev w; have [q' w2] := hs.
by exists (q ++ q'); exact: walk_cat w' w2.
Qed.

Definition ivert : finType := [finType of {x : 'I_n | nz x}].
Lemma isrcP (d : gdart G) : nz (gsrc num d).
Proof. by apply/nzP; exists (val d).2; exact: gdart_edge. Qed.
Definition isrc (d : gdart G) : ivert := exist _ (gsrc num d) (isrcP d).

(* the isolated nodes are the representatives of the other components *)
Lemma card_ivert : (#|ivert| + size reps = n.+1)%N.
Proof.
have [_ [ur sr cr dr] _ _ _] := pi.
have e1 : #|ivert| = count nz (gnodes G).
  rewrite card_sig -sum1_card -(big_mkord (fun i => nz i) (fun=> 1)) sum1_count.
  by case: num => -> _ _; rewrite /index_iota subn0.
have e2 : size [seq x <- gnodes G | ~~ nz x] = size [seq x <- reps | ~~ nz x].
  apply: perm_size; apply: uniq_perm; rewrite ?filter_uniq //.
    by case: num => -> _ _; rewrite iota_uniq.
  move=> x; rewrite !mem_filter; case: (boolP (nz x)) => //= hx; apply/idP/idP => [xG|/sr //].
  have [r rr hr] := cr _ xG; case: (r =P x) => [<- //|/eqP rx].
  by have [_ h] := reach_nz hr rx; rewrite h in hx.
rewrite !size_filter in e2; have := count_predC nz (gnodes G); have := count_predC nz reps.
have : count nz reps = 1 := one.
rewrite e1 [size (gnodes G)](_ : _ = n); last by case: num => -> _ _; rewrite size_iota.
rewrite -[count (predC nz) (gnodes G)]/(count (fun x => ~~ nz x) (gnodes G)) e2 -[count (predC nz) reps]/(count (fun x => ~~ nz x) reps).
lia.
Qed.

Lemma inode x (hx : x < n) : nz x -> {v : ivert | val (val v) = x}.
Proof. by move=> h; exists (exist _ (Ordinal hx) h : ivert). Qed.

Lemma imap F (hF : all (closed_face emb) F) (pF : perm_eq (flatten F) (edgeset G)) :
  exists (V : finType) (src : gdart G -> V) (phi : gdart G -> gdart G),
    plane_map src (gfc pF) (@gal G) phi /\ spanning_tree src (@gal G) (gtree G T).
Proof.
have [[rs ot] _ eu [nT okT sub] [sT rT]] := pi.
have walkP (H : graph nat_eqType) (P : pred ivert) : (forall u v, has_edge H u v -> has_edge G u v) ->
    (forall d : gdart G, has_edge H (val d).1 (val d).2 -> P (isrc d) -> P (isrc (gal d))) ->
    forall u v : ivert, reachable H (val (val u)) (val (val v)) -> P u -> P v.
  move=> subH h u v [q [hq lq]] Pu; elim: q (u) Pu hq lq => [|x q IH] y Py /=.
    by move=> _ /val_inj/val_inj <-.
  case/andP=> he hp hl; have hG := subH _ _ he; have [_ hx _] := edge_lt num hG.
  have nx : nz x by apply/nzP; exists (val (val y)); rewrite has_edgeC.
  have yD : (val (val y), x) \in edgeset G by rewrite mem_edgeset.
  apply: (IH (exist _ (Ordinal hx) nx : ivert)) => //.
  have e1 : isrc (SeqSub yD) = y by do 2!apply: val_inj.
  have e2 : isrc (gal (SeqSub yD)) = (exist _ (Ordinal hx) nx : ivert) by do 2!apply: val_inj.
  by have := h (SeqSub yD); rewrite e1 e2; apply.
have cV := card_ivert.
have nn : size (gnodes G) = n by case: num => -> _ _; rewrite size_iota.
exists ivert, isrc; eexists; split.
  apply: (gmap_gen num rs hF pF ot).
  - by move=> d d'; split=> [/(congr1 (fun v : ivert => val (val v)))|h]; [|do 2!apply: val_inj].
  - move=> P h u v; apply: (walkP G) => [//|d _|]; [exact: h|exact: nz_conn (valP u) (valP v)].
  by have := eu _ hF pF; rewrite one nn (card_gdart num); lia.
split.
- by move=> d; rewrite !inE /= has_edgeC.
- move=> P h u v; apply: (walkP T) => // [d hd|]; first by apply: h; rewrite inE.
  apply: rT; first by rewrite nodeE; exact: ltn_ord.
  exact: nz_conn (valP u) (valP v).
by rewrite (card_tree sub) (size_T num okT sub); congr muln; lia.
Qed.
End Iso.

Local Open Scope ring_scope.
Import Order.Theory GRing.Theory Num.Theory.

Lemma np_round0 : np_round 0 10 = 0.
Proof. by have := @np_round_int Z0 10 ltac:(lia). Qed.

(* an isolated node next to a component with edges: 0 is returned, and indeed there is no perfect matching *)
Lemma isolated_count n G w emb T reps fuel outer v : numbered n G -> plane_info G emb T reps ->
  nontrivial G reps = 1%N -> (v < n)%N -> (forall u, has_edge G v u = false) -> (size (edgeset G) <= fuel)%N ->
  count_perfect_matchings_planar fuel G w (NxInfo true emb T outer) = Ok (OFloat 0).
Proof.
move=> num pi one hv iv hf; have [[rs ot] _ _ [_ _ sub] _] := pi.
have E0 : gedges G <> [::].
  move=> h; move: one; rewrite /nontrivial (@eq_count _ _ pred0) ?count_pred0 // => x /=.
  by apply/negbTE/hasPn => y _; rewrite /has_edge h.
have wr (e : dart) : (toC (w e) : CR) \is Num.real by apply: toC_real.
have [F [A [_ _ _ eA [r1 r2 _ _ _]]]] := pfoP_gen num rs sub (imap num pi one) wr E0 hf true outer.
have rA := adjacency_nr num (fun e => toC (w e) : CR); have cA := adjacency_nc num (fun e => toC (w e) : CR).
have gA := adjacency_get num (fun e => toC (w e) : CR).
have [B [eB rB cB zB]] : exists B, [/\ pfo_matrix fuel G (fun e => toC (w e) : CR) (NxInfo true emb T outer) = Ok B,
    nr B = n, nc B = n & forall j, (j < n)%N -> get B v j = 0].
  rewrite /pfo_matrix eA; move: (adjacency_matrix _ _) rA cA gA => A0 rA cA gA; rewrite [bind _ _]/=; eexists; split=> // j hj.
  have w0 : wt G (fun e => toC (w e) : CR) v j = 0 /\ wt G (fun e => toC (w e) : CR) j v = 0.
    by have := iv j; rewrite /wt /has_edge => /norP[/negPf -> /negPf ->].
  by rewrite !getE ?rA ?cA //= !gA w0.1 w0.2 !mulr0 !if_same subrr.
have -> : count_perfect_matchings_planar fuel G w (NxInfo true emb T outer) =
    match dt_eigen B with
    | None => Raise TypeError
    | Some q => let s := sqrtC q in clean_num (OCplx (re s, im s)) (TInt 10)
    end.
  rewrite /count_perfect_matchings_planar [bind _ _]/= eB; case: num => en _ _; by rewrite en; case: (n) hv.
rewrite (dt_eigen_det rB cB).
have -> : \det (toM n n B) = 0.
  rewrite (expand_det_row _ (Ordinal hv)) big1 // => j _; by rewrite mxE zB ?mul0r // ltn_ord.
rewrite sqrtC0; apply: etrans (clean_nonneg (lexx 0)) _; congr (Ok (OFloat _)).
have -> : re 0 = 0 by [].
exact: np_round0.
Qed.

Lemma isolated_none n G l v : numbered n G -> (v < n)%N -> (forall u, has_edge G v u = false) -> enumerates G l -> l = [::].
Proof.
move=> num hv iv [h _]; case: l h => // c l /(_ c (mem_head _ _)) [_ sc cv]; exfalso.
have vG : v \in gnodes G by case: num => -> _ _; rewrite mem_iota.
have := cv v vG; rewrite (@eq_in_count _ _ pred0) ?count_pred0 // => -[a b] he; apply/negbTE/negP.
have hE : has_edge G a b by rewrite /has_edge (sc _ he).
by case/orP=> /= /eqP e; move: hE; rewrite e; [|rewrite has_edgeC]; rewrite iv.
Qed.

(* C17: the result on every planar graph with nodes 0, ..., n-1, by the number of components that have an edge *)
Theorem C17_planar n G w emb T reps fuel outer l : numbered n G -> plane_info G emb T reps ->
  (size (edgeset G) <= fuel)%N -> enumerates G l ->
  count_perfect_matchings fuel G w (NxInfo true emb T outer) =
    if n == 0%N then Ok (OInt 0) else
    match nontrivial G reps with
    | 0 => Raise ValueError
    | 1 => Ok (OFloat (np_round (Rabs (\sum_(c <- l) \prod_(e <- c) w e)) 10))
    | _ => Raise AssertionError
    end.
Proof.
move=> num pi hf en; have [[rs ot] cm eu [nT okT sub] [sT rT]] := pi; have [eN ue hl] := num.
case: eqP => [n0|/eqP n0].
  by rewrite /count_perfect_matchings /count_perfect_matchings_planar /= eN n0.
case E: (nontrivial G reps) => [|[|k]].
- apply: C17_refuted_no_edges; first by rewrite eN => h; case/eqP: n0; rewrite -(size_iota 0 n) h.
  case E': (gedges G) => [//|e s]; exfalso.
  have he : e \in gedges G by rewrite E' mem_head.
  have hE : has_edge G e.1 e.2 by rewrite /has_edge -surjective_pairing he.
  have [h1 h2 h3] := edge_lt num hE; have [ur sr cr _] := cm.
  have [|r rr hr] := cr e.1; first by rewrite eN mem_iota.
  have : has (fun r => has (has_edge G r) (gnodes G)) reps.
    apply/hasP; exists r => //; case: (r =P e.1) => [->|/eqP re]; last by case: (reach_nz num hr re).
    by apply/hasP; exists e.2 => //; rewrite eN mem_iota.
  by rewrite has_count -/(nontrivial G reps) E.
- case: (boolP (has (fun v => ~~ has (has_edge G v) (gnodes G)) (gnodes G))) => [/hasP[v]|/hasPn iso].
    rewrite eN mem_iota /= add0n => hv nv.
    have iv u : has_edge G v u = false.
      by apply/negP => h; case/negP: nv; have [_ hu _] := edge_lt num h; apply/hasP; exists u; rewrite // mem_iota.
    rewrite /count_perfect_matchings (isolated_count _ _ num pi E hv iv hf).
    rewrite (isolated_none num hv iv en) big_nil Rabs_R0; congr (Ok (OFloat _)).
    by apply/esym; exact: np_round0.
  have nz x : x \in gnodes G -> has (has_edge G x) (gnodes G) by move=> /iso; rewrite negbK.
  have cG : connected G by move=> x y /nz hx /nz hy; exact: (nz_conn num pi E hx hy).
  have E0 : gedges G <> [::].
    have : 0%N \in gnodes G by rewrite eN mem_iota lt0n.
    by move=> /nz/hasP[y _]; rewrite /has_edge => h h0; rewrite h0 in h.
  have r1 : size reps = 1%N.
    have [_ sr _ _] := cm; rewrite -E /nontrivial -(count_predT reps); apply/eq_in_count => r /sr /nz -> //.
  have pe : plane_embedding G emb by split=> // F hF pF; rewrite (eu _ hF pF) E r1; lia.
  have sp : spanning G T.
    split=> //; split.
    - by move=> h; have := nT 0%N; rewrite h eN mem_iota lt0n n0.
    - by move=> x y; rewrite !nT => xG yG; apply: rT => //; exact: cG.
    have [[uT _] _] := okT; rewrite -(perm_size (uniq_perm _ uT (fun x => esym (nT x)))) ?eN ?iota_uniq //.
    by move: sT; rewrite r1 eN; lia.
  by rewrite /count_perfect_matchings; exact: (C15_count _ _ num pe sp E0 hf en).
by apply: (C17_refuted_disconnected _ _ ue cm) => //; rewrite E.
Qed.

Local Open Scope nat_scope.
Definition edge_iso : graph nat_eqType := Graph [:: 0; 1; 2] [:: (0, 1)].
(* an edge and an isolated node: no perfect matching, and the code returns 0 *)
Example C17_isolated : count_perfect_matchings 2 edge_iso (fun _ => IZR 1)
  (NxInfo true (emb_of [:: [:: 1]; [:: 0]; [::]]) edge_iso [::]) = Ok (OFloat (np_round (IZR Z0) 10)).
Proof.
have rot v : uniq (nth [::] [:: [:: 1]; [:: 0]; [::]] v) /\
    forall u, (u \in nth [::] [:: [:: 1]; [:: 0]; [::]] v) = has_edge edge_iso v u.
  case: v => [|[|[|v]]]; split; try by [].
  1-3: by move=> u; case: u => [|[|[|u]]].
  - by rewrite /= nth_nil.
  by move=> u; rewrite /= nth_nil; case: u => [|[|[|u]]].
have num : numbered 3 edge_iso.
  by split=> // e; rewrite mem_seq1 => /eqP ->.
have W a p b : path (has_edge edge_iso) a p -> last a p = b -> (a < 2) = (b < 2).
  elim: p a => [|c p IH] a /=; first by move=> _ ->.
  by case/andP=> h hp /(IH _ hp) <-; move: h; clear; case: a => [|[|[|a]]]; case: c => [|[|[|c]]].
have pi : plane_info edge_iso (emb_of [:: [:: 1]; [:: 0]; [::]]) edge_iso [:: 0; 2].
  split.
  - by split; [exact: (emb_of_ok rot)|exact: (emb_of_turn rot)].
  - split=> // [x|x|r r'].
    + by rewrite inE mem_seq1 => /orP[] /eqP ->.
    + rewrite !inE => /or3P[] /eqP ->; [exists 0|exists 0|exists 2] => //.
      * by exists [::].
      * by exists [:: 1].
      by exists [::].
    by rewrite !inE => /orP[] /eqP -> /orP[] /eqP -> // [p [h1 h2]]; have := W _ _ _ h1 h2.
  - by move=> F hF pF; rewrite (face_count (edgeset_uniq edge_iso) hF (F2 := [:: [:: (0, 1); (1, 0)]])).
  - split=> //; split; last by split=> // e; rewrite mem_seq1 => /eqP ->.
    by split=> // e; rewrite mem_seq1 => /eqP ->.
  by split.
have en : enumerates edge_iso [::].
  split=> // c [uc sc cv]; have := cv 2 isT; rewrite (@eq_in_count _ _ pred0) ?count_pred0 // => e /sc.
  by rewrite mem_seq1 => /eqP ->.
have := @C17_planar 3 edge_iso (fun _ => IZR 1) _ _ _ 2 [::] [::] num pi isT en.
by rewrite /= big_nil Rabs_R0.
Qed.
