(* PropGraph2.v -- completing one face: property C13 *)
Set Warnings "-notation-overridden,-ambiguous-paths".
From mathcomp Require Import all_ssreflect all_algebra.
From mathcomp.zify Require Import zify.
From Verif Require Import Base ArrC MCombinatorics MGraph.
Set Implicit Arguments.
Unset Strict Implicit.
Unset Printing Implicit Defensive.
Import Order.Theory GRing.Theory Num.Theory.
Local Open Scope ring_scope.

Section Face.
Variable C : numClosedFieldType.
Local Notation arr := (arr C).
Implicit Types (A : arr) (f : face) (e : dart).

(* the orientation stored for the edge traversed by the dart e: the entry above the diagonal *)
Definition entry A e : C := get A (minn e.1 e.2) (maxn e.1 e.2).
(* not yet assigned: real part 0 up to 1e-8 *)
Definition unassigned A e : bool := `|'Re (entry A e)| <= (10%:R ^+ 8)^-1.
(* the sign seen when e is traversed: the entry, negated when e goes from the larger to the smaller label *)
Definition seen A e : C := if (e.2 < e.1)%N then - entry A e else entry A e.
Definition in_range A f : bool := all (fun e => (maxn e.1 e.2 < nr A)%N && (maxn e.1 e.2 < nc A)%N) f.
Definition pm1 (x : C) := x = 1 \/ x = -1.

Lemma unassignedE A e : close ('Re (entry A e)) 0 = unassigned A e.
Proof. by rewrite /close subr0 normr0 mulr0 addr0. Qed.

Lemma seenE A e : seen A e = entry A e * prefix C e.
Proof. by rewrite /seen /prefix; case: ifP => _; rewrite ?mulrN1 ?mulr1. Qed.

Lemma pm1_assigned A e : pm1 (entry A e) -> ~~ unassigned A e.
Proof.
move=> h; rewrite /unassigned.
have -> : `|'Re (entry A e)| = 1.
  have hr : entry A e \is Num.real by case: h => ->; rewrite ?rpredN real1.
  by rewrite (Creal_ReP _ hr); case: h => ->; rewrite ?normrN normr1.
apply/negP => h1; suff : (1 : C) < 1 by rewrite ltxx.
by apply: (le_lt_trans h1); rewrite invf_lt1 ?exprn_gt0 ?ltr0n // exprn_egt1 // ltr1n.
Qed.

Lemma face_signE A f : in_range A f ->
  face_sign A f = Ok (\prod_(e <- f | ~~ unassigned A e) seen A e, [seq e <- f | unassigned A e]).
Proof.
rewrite /face_sign; set b := fun (s : C * seq dart) _ => _.
suff W s l : in_range A f -> foldM b (s, l) f =
    Ok (s * \prod_(e <- f | ~~ unassigned A e) seen A e, l ++ [seq e <- f | unassigned A e]).
  by move=> h; rewrite W // mul1r.
elim: f s l => [|e f IH] s l /=; first by rewrite big_nil mulr1 cats0.
move=> /andP[/andP[h1 h2] h]; rewrite /b /idx h2 (leq_ltn_trans _ h1) ?geq_minl ?leq_maxl /=; last first.
  by rewrite leq_max geq_minl.
rewrite -/(entry A e) unassignedE big_cons; case: ifP => u /=; rewrite IH //=.
  by rewrite cat_rcons.
by rewrite -seenE mulrA.
Qed.

Lemma complete_faceE A f : in_range A f ->
  complete_face A f =
  match [seq e <- f | unassigned A e] with
  | [::] => Ok (A, false)
  | x :: r => let e := last x r in let u := minn e.1 e.2 in let v := maxn e.1 e.2 in
     let p := if \prod_(e <- f | ~~ unassigned A e) seen A e == -1 then prefix C e else - prefix C e in
     Ok (upd (upd A u v p) v u p, true)
  end.
Proof.
move=> h; rewrite /complete_face face_signE //=; case E: [seq _ <- _ | _] => [|x r] //=.
have hl : last x r \in f by have := mem_last x r; rewrite -E mem_filter => /andP[].
have /andP[h1 h2] := allP h _ hl.
have h3 : (minn (last x r).1 (last x r).2 < nr A)%N by apply: leq_ltn_trans h1; lia.
have h4 : (minn (last x r).1 (last x r).2 < nc A)%N by apply: leq_ltn_trans h2; lia.
by rewrite /upd_chk h3 h2 /= h1 h4 mulN1r.
Qed.

Lemma nr_upd A i j v : nr (upd A i j v) = nr A. Proof. by []. Qed.
Lemma nc_upd A i j v : nc (upd A i j v) = nc A. Proof. by []. Qed.
Lemma get_upd A i j v a b : (i < nr A)%N -> (j < nc A)%N ->
  get (upd A i j v) a b = if (a == i) && (b == j) then v else get A a b.
Proof.
move=> hi hj; rewrite get_mk; case: ifP => [//|h].
case: ifP => [/andP[/eqP ea /eqP eb]|_]; first by rewrite ea eb hi hj in h.
by rewrite get_out // h.
Qed.

(* what complete_face writes: e is the edge, p the value *)
Definition written A e (p : C) A' : Prop :=
  [/\ nr A' = nr A, nc A' = nc A &
      forall a b, get A' a b =
        if (a == minn e.1 e.2) && (b == maxn e.1 e.2) || (a == maxn e.1 e.2) && (b == minn e.1 e.2)
        then p else get A a b].

Lemma entry_written A e p A' g : written A e p A' ->
  entry A' g = if (minn g.1 g.2 == minn e.1 e.2) && (maxn g.1 g.2 == maxn e.1 e.2) then p else entry A g.
Proof.
case=> _ _ h; rewrite /entry h; case: (boolP (_ && _)) => //= h1.
by case: ifP => // /andP[/eqP h2 /eqP h3]; move: h1; rewrite h2 h3; lia.
Qed.

Lemma complete_one A f e : in_range A f -> [seq g <- f | unassigned A g] = [:: e] ->
  (forall g, g \in f -> ~~ unassigned A g -> pm1 (entry A g)) ->
  exists A' p, [/\ complete_face A f = Ok (A', true), written A e p A', pm1 p &
    \prod_(g <- f) seen A' g = -1].
Proof.
move=> hr he h1; rewrite complete_faceE // he /=.
set s := \prod_(g <- f | _) _; set p := if _ then _ else _; set A' := upd _ _ _ _.
have ef : e \in f by have := mem_head e [::]; rewrite -he mem_filter => /andP[].
have /andP[r1 r2] := allP hr _ ef.
have r3 : (minn e.1 e.2 < nr A)%N by apply: leq_ltn_trans r1; lia.
have r4 : (minn e.1 e.2 < nc A)%N by apply: leq_ltn_trans r2; lia.
have hw : written A e p A'.
  split=> // a b; rewrite !get_upd //; case: (boolP (_ && _)); rewrite ?orbT ?orbF //.
have ps : pm1 s.
  rewrite /s big_seq_cond; apply: (big_ind pm1); first by left.
    by move=> x y [->|->] [->|->]; rewrite ?mulr1 ?mulrN1 ?opprK; [left|right|right|left].
  move=> g /andP[gf ug]; rewrite /seen.
  by case: (h1 g gf ug) => ->; case: ifP => _; rewrite ?opprK; [right|left|left|right].
exists A', p; split=> //.
  by rewrite /p /prefix; case: ifP => _; case: ifP => _; rewrite ?opprK; [right|left|left|right].
have en := entry_written _ hw.
rewrite (bigID (unassigned A)) /= -big_filter he big_seq1.
have -> : \prod_(g <- f | ~~ unassigned A g) seen A' g = s.
  apply: eq_bigr => g ug; rewrite !seenE en; case: ifP => // /andP[/eqP h2 /eqP h3].
  have : unassigned A e by have := mem_head e [::]; rewrite -he mem_filter => /andP[].
  by rewrite /unassigned /entry -h2 -h3 -/(entry A g) -/(unassigned A g) (negbTE ug).
rewrite seenE en !eqxx /= /p.
have hp : prefix C e * prefix C e = 1 by rewrite /prefix; case: ifP => _; rewrite ?mulrNN mulr1.
case: ps => ->; last by rewrite eqxx hp mul1r.
have /negbTE -> : (1 : C) != -1 by rewrite -addr_eq0 -(natrD _ 1 1) pnatr_eq0.
by rewrite mulNr hp mulr1.
Qed.

(* with exactly one unassigned edge, complete_face returns the matrix, the product of the signs seen along the face is
   -1, the edge gets the same value 1 or -1 in both entries, and no other entry changes *)
Theorem C13_one A f : in_range A f -> count (unassigned A) f = 1%N ->
  (forall g, g \in f -> ~~ unassigned A g -> pm1 (entry A g)) ->
  exists A' e, [/\ e \in f, unassigned A e, complete_face A f = Ok (A', true),
    \prod_(g <- f) seen A' g = -1 &
    [/\ nr A' = nr A /\ nc A' = nc A, pm1 (get A' e.1 e.2), get A' e.2 e.1 = get A' e.1 e.2 &
        forall a b, (a, b) != e -> (b, a) != e -> get A' a b = get A a b]].
Proof.
move=> hr hc h1; rewrite -size_filter in hc.
case E: [seq g <- f | unassigned A g] hc => [|e [|]] //= _.
have [A' [p [h2 [w1 w2 w3] h3 h4]]] := complete_one hr E h1.
have : e \in [seq g <- f | unassigned A g] by rewrite E mem_head.
rewrite mem_filter => /andP[ue ef]; exists A', e; split=> //; split=> //.
- by rewrite w3; case: (leqP e.1 e.2) => h; rewrite !eqxx ?orbT.
- by rewrite !w3; case: (leqP e.1 e.2) => h; rewrite !eqxx ?orbT.
- move=> a b; rewrite w3; case: (e) => x y /= n1 n2; case: ifP => //.
  move: n1 n2; rewrite -!pair_eqE /=; case: (leqP x y) => h n1 n2; rewrite andbC in n2;
  by rewrite ?(negbTE n1) ?(negbTE n2) /= ?(negbTE n1) ?(negbTE n2).
Qed.

(* with no unassigned edge nothing changes and None is returned *)
Theorem C13_none A f : in_range A f -> (forall g, g \in f -> ~~ unassigned A g) ->
  complete_face A f = Ok (A, false).
Proof.
move=> hr h; rewrite complete_faceE //; have -> // : [seq e <- f | unassigned A e] = [::].
by apply/eqP; rewrite -(negbK (_ == _)) -has_filter; apply/hasPn => g /h.
Qed.

(* with several unassigned edges only the last one is written; the face need not become odd *)
Theorem C13_several A f x r : in_range A f -> [seq g <- f | unassigned A g] = x :: r ->
  exists A' p, [/\ complete_face A f = Ok (A', true), written A (last x r) p A' & pm1 p].
Proof.
move=> hr E; rewrite complete_faceE // E /=; set p := if _ then _ else _; set A' := upd _ _ _ _.
exists A', p; split=> //.
  have : last x r \in f by have := mem_last x r; rewrite -E mem_filter => /andP[].
  move=> /(allP hr)/andP[r1 r2].
  split=> // a b; rewrite !get_upd //=; try by (apply: leq_ltn_trans r1 || apply: leq_ltn_trans r2); lia.
  by case: (boolP (_ && _)); rewrite ?orbT ?orbF.
by rewrite /p /prefix; case: ifP => _; case: ifP => _; rewrite ?opprK; [right|left|left|right].
Qed.

(* a node outside the matrix: IndexError *)
Theorem C13_index_error A f : nr A = nc A -> ~~ in_range A f -> complete_face A f = Raise IndexError.
Proof.
rewrite /complete_face /face_sign => sq h; set r := foldM _ _ _; have -> // : r = Raise IndexError.
rewrite /r; elim: f h 1 [::] {r} => [//|e f IH] h s l /=.
rewrite /idx; case: ifP => //= h1; case: ifP => _ /=; apply: IH;
  by move: h => /=; rewrite negb_and sq andbb => /orP[] //; move: h1; case/andP=> _ ->.
Qed.
End Face.

Section Ex.
Variable C : numClosedFieldType.
(* a triangle 0, 1, 2 with tree edges 01 and 12 oriented upwards; the edge 02 is marked 99j *)
Definition tri : arr C := mk 3 3 (fun i j =>
  if (i.+1 == j)%N then 1 else if (j.+1 == i)%N then -1 else if i == j then 0 else 99%:R * 'i).
Example C13_example : exists A', complete_face tri [:: (0, 1); (1, 2); (2, 0)]%N = Ok (A', true) /\
  [/\ get A' 0 2 = 1, get A' 2 0 = 1, get A' 0 1 = 1 & get A' 1 0 = -1].
Proof.
have e1 : 'Re (99%:R * 'i) = 0 :> C by rewrite ReMir (Creal_ImP _ (realn _ _)) oppr0.
have pe e : entry tri e = get tri (minn e.1 e.2) (maxn e.1 e.2) by [].
have h0 : [seq g <- [:: (0, 1); (1, 2); (2, 0)]%N | unassigned tri g] = [:: (2, 0)]%N.
  rewrite /= (negbTE (pm1_assigned _)); last by left; rewrite pe getE.
  rewrite (negbTE (pm1_assigned _)); last by left; rewrite pe getE.
  by rewrite /unassigned pe getE //= e1 normr0 invr_ge0 exprn_ge0 // ler0n.
rewrite complete_faceE ?h0 //=; set p := if _ then _ else _.
have -> : p = 1.
  rewrite /p; set q := \prod_(_ <- _ | _) _; have -> : q = 1.
    rewrite /q -big_filter /= (pm1_assigned (_ : pm1 (entry tri (0, 1)%N))); last by left; rewrite pe getE.
    rewrite (pm1_assigned (_ : pm1 (entry tri (1, 2)%N))); last by left; rewrite pe getE.
    have -> : unassigned tri (2, 0)%N by rewrite /unassigned pe getE //= e1 normr0 invr_ge0 exprn_ge0 // ler0n.
    by rewrite /= !big_cons big_nil /seen /= !pe !getE //= !mulr1.
  have /negbTE -> : (1 : C) != -1 by rewrite -addr_eq0 -(natrD _ 1 1) pnatr_eq0.
  by rewrite /prefix /= opprK.
by eexists; split; [by []|rewrite !get_upd //= !getE].
Qed.
End Ex.
