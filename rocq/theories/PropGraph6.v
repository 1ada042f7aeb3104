(* PropGraph6.v -- the Pfaffian orientation: properties C14 and C15 (matrix level) *)
Set Warnings "-notation-overridden,-ambiguous-paths".
From mathcomp Require Import all_ssreflect all_algebra.
From mathcomp.zify Require Import zify.
From Verif Require Import Base ArrC MCombinatorics Matching Pfaffian MGraph GraphBrute GraphBfs.
From Verif Require Import PropGraph2 PropGraph4 PropGraph5 Planar Fkt GraphMap GraphDual GraphPfo PlaneCheck.
Set Implicit Arguments.
Unset Strict Implicit.
Unset Printing Implicit Defensive.
Import Order.Theory GRing.Theory Num.Theory.
Local Open Scope ring_scope.

Section Signs.
Variables (C : numClosedFieldType) (n : nat) (G : graph nat_eqType) (emb : embedding) (A : arr C).
Hypothesis num : numbered n G.
Hypothesis pe : plane_embedding G emb.
Hypothesis hA : forall u v, if has_edge G u v then pm1 (get A u v) else get A u v = 0.

Lemma pm1_edge u v : has_edge G u v -> pm1 (get A u v). Proof. by move=> h; have := hA u v; rewrite h. Qed.
Lemma seen_pm1 e : has_edge G e.1 e.2 -> pm1 (seen A e).
Proof.
move=> h; rewrite /seen /entry; case: leqP => _; first exact: pm1_edge.
by have [->|->] : pm1 (get A e.2 e.1); [apply: pm1_edge; rewrite has_edgeC|right|left; rewrite opprK].
Qed.
Lemma seen_sq e : has_edge G e.1 e.2 -> seen A e * seen A e = 1.
Proof. by move=> /seen_pm1[->|->]; rewrite ?mulrNN mulr1. Qed.
Lemma seen_rev e : e.1 != e.2 -> seen A (e.2, e.1) = - seen A e.
Proof.
rewrite /seen /entry /= minnC maxnC neq_ltn => /orP[] h; rewrite h ltnNge (ltnW h) //=.
by rewrite opprK.
Qed.

Lemma prod_edgeset : \prod_(e <- edgeset G) seen A e = (-1) ^+ size (gedges G).
Proof.
have [_ ue hlt] := num.
have h1 : size (edgeset G) = (2 * size (gedges G))%N.
  apply: size_edgeset => // e he; apply/negP => h; have /andP[l1 _] := hlt _ he; have /andP[/= l2 _] := hlt _ h.
  by have := ltn_trans l1 l2; rewrite ltnn.
rewrite /edgeset undup_id; last by apply/negPn; rewrite -ltn_size_undup -/(edgeset G) h1 sum2 ltnn.
rewrite big_flatten /= big_map.
transitivity (\prod_(e <- gedges G) (-1 : C)); last by rewrite big_const_seq count_predT iter_mulr_1.
rewrite big_seq [RHS]big_seq; apply: eq_bigr => e he; rewrite !big_cons big_nil mulr1.
have hG : has_edge G e.1 e.2 by rewrite /has_edge; case: (e) he => a b /= ->.
by have [_ _ ne] := edge_lt num hG; rewrite -surjective_pairing (seen_rev ne) mulrN seen_sq.
Qed.

Lemma prod_last F : all (closed_face emb) F -> perm_eq (flatten F) (edgeset G) -> (0 < size F)%N -> (0 < n)%N ->
  (forall i, (i < (size F).-1)%N -> \prod_(e <- nth [::] F i) seen A e = -1) ->
  \prod_(e <- last [::] F) seen A e = (-1) ^+ n.-1.
Proof.
move=> hF pF F0 n0 h; have [_ _ _ eu] := pe; have := eu _ hF pF; case: num => -> _ _; rewrite size_iota => hE.
have := prod_edgeset; rewrite -(perm_big _ pF) big_flatten /= (big_nth [::]) -(prednK F0) big_nat_recr //= nth_last.
rewrite (eq_big_nat _ _ (F2 := fun _ => -1)) => [|i /andP[_ hi]]; last exact: h.
rewrite prodr_const_nat subn0 => e; apply: (mulrI (_ : (-1) ^+ (size F).-1 \is a GRing.unit)); first by rewrite unitfE signr_eq0.
rewrite e -exprD; congr (_ ^+ _).
have hm : size F = (size F).-1.+1 by rewrite prednK.
by move: hE; rewrite hm; move: (size F).-1 (size (gedges G)) n0 => m q; clear; lia.
Qed.

Lemma prod_count f : (forall e, e \in f -> has_edge G e.1 e.2) ->
  \prod_(e <- f) seen A e = (-1) ^+ count (fun e => seen A e == -1) f.
Proof.
elim: f => [|e f IH] h; first by rewrite big_nil.
rewrite big_cons IH /=; last by move=> g hg; apply: h; rewrite inE hg orbT.
case: (seen_pm1 (h e (mem_head _ _))) => ->; last by rewrite eqxx exprD expr1.
have /negbTE -> : (1 : C) != -1 by rewrite -addr_eq0 -(natrD _ 1 1) pnatr_eq0.
by rewrite mul1r.
Qed.
Lemma odd_count f : (forall e, e \in f -> has_edge G e.1 e.2) ->
  odd (count (fun e => seen A e == -1) f) = (\prod_(e <- f) seen A e == -1).
Proof.
move=> /prod_count ->; rewrite -signr_odd; case: odd; rewrite ?expr1 ?eqxx // expr0.
by rewrite -addr_eq0 -(natrD _ 1 1) pnatr_eq0.
Qed.
End Signs.

Section Main.
Variable C : numClosedFieldType.

(* The orientation of the edge uv, u < v, is the entry (u, v): 1 for u -> v, -1 for v -> u.  seen A e is 1 when the
   directed edge e agrees with the orientation and -1 when it goes against it. *)
Theorem C14_pfo n G emb T w fuel pl outer :
  numbered n G -> plane_embedding G emb -> spanning G T -> (forall e, w e \is Num.real) -> gedges G <> [::] ->
  (size (edgeset G) <= fuel)%N ->
  exists F (A : arr C), 
  [/\ faces fuel G (Some emb) None outer = Ok (Some F),
      pfo_algorithm fuel G w (NxInfo pl emb T outer) = Ok A,
      nr A = n /\ nc A = n,
      forall u v, if has_edge G u v then pm1 (get A u v) else get A u v = 0 &
      forall i, (i < size F)%N -> odd (count (fun e => seen A e == -1) (nth [::] F i)) =
                                   (i.+1 < size F)%N || ~~ odd n].
Proof.
move=> num pe sp wr E0 hf.
have [F [A [h1 h2 h3 h4 [r1 r2 hA hi _]]]] := pfoP num pe sp wr E0 hf pl outer.
exists F, A; split=> // i hi'; rewrite (odd_count hA); last first.
  by move=> e /(face_dart h3 hi')[d <- _]; apply: gdart_edge.
case: (ltnP i.+1 (size F)) => hlt; first by rewrite hi ?eqxx //; move: hlt; case: (size F).
have F0 : (0 < size F)%N by apply: leq_ltn_trans hi'.
have n0 : (0 < n)%N.
  case E: (gedges G) E0 => [//|e l] _; have [_ _ hl] := num.
  by have /andP[_] := hl e ltac:(by rewrite E mem_head); apply: leq_ltn_trans.
have -> : i = (size F).-1 by move: hi' hlt; move: (size F) => m; clear; lia.
rewrite nth_last.
rewrite (prod_last num pe hA h2 h3 F0 n0 hi) -signr_odd /=.
have -> : odd n.-1 = ~~ odd n by rewrite -[in RHS](prednK n0) /= negbK.
case: (odd n) => /=; rewrite ?expr1 ?eqxx // expr0.
by rewrite -addr_eq0 -(natrD _ 1 1) pnatr_eq0.
Qed.

Lemma wtC n G (w : weights C nat_eqType) u v : numbered n G -> wt G w u v = wt G w v u.
Proof.
case=> _ _ hl; rewrite /wt; case: ifP => h1; case: ifP => h2 //.
by have /andP[/= l1 _] := hl _ h1; have /andP[/= l2 _] := hl _ h2; have := ltn_trans l1 l2; rewrite ltnn.
Qed.

(* the skew matrix computed from the orientation: its Pfaffian is, up to sign, the hafnian of the adjacency matrix *)
Theorem C15_pfaffian n G emb T (w : weights C nat_eqType) fuel pl outer :
  numbered n G -> plane_embedding G emb -> spanning G T -> (forall e, w e \is Num.real) -> gedges G <> [::] ->
  (size (edgeset G) <= fuel)%N ->
  exists B, [/\ pfo_matrix fuel G w (NxInfo pl emb T outer) = Ok B, nr B = n /\ nc B = n,
    (toM n n B)^T = - toM n n B, (forall i j, get B i j \is Num.real) &
    exists2 u, u * u = 1 & pfaffian (toM n n B) = u * hafnian (toM n n (adjacency_matrix G w))].
Proof.
move=> num pe sp wr E0 hf.
have [F [A [h1 hF pF h4 [r1 r2 hA hi _]]]] := pfoP num pe sp wr E0 hf pl outer.
pose Kf (i j : nat) : C := if (i < j)%N then get A i j else if (j < i)%N then - get A j i else 0.
have rA := adjacency_nr num w; have cA := adjacency_nc num w; have gA := adjacency_get num w.
pose B := mk n n (fun i j => Kf i j * wt G w i j).
have eB : pfo_matrix fuel G w (NxInfo pl emb T outer) = Ok B.
  rewrite /pfo_matrix h4; move: (adjacency_matrix G w) rA cA gA => A0 rA cA gA; rewrite [bind _ _]/=; congr Ok.
  apply: arrP; rewrite /= ?rA ?cA // => i j hi' hj.
  rewrite !getE ?rA ?cA //= !gA (wtC w j i num) /Kf; case: (ltngtP i j) => h; last by rewrite h subrr mul0r.
    by rewrite subr0.
  by rewrite sub0r mulNr.
have gB (i j : 'I_n) : toM n n B i j = Kf i j * wt G w i j by rewrite mxE getE.
have KS i j : Kf i j = - Kf j i by rewrite /Kf; case: ltngtP; rewrite ?opprK ?oppr0.
have rK i j : Kf i j \is Num.real.
  have rg u v : get A u v \is Num.real by have := hA u v; case: ifP => _ => [[->|->]|->]; rewrite ?rpredN ?real1 ?real0.
  by rewrite /Kf; case: ifP => // _; case: ifP => // _; rewrite ?rpredN // real0.
exists B; split=> //.
- by apply/matrixP => i j; rewrite !mxE !getE // KS mulNr (wtC w _ _ num).
- move=> i j; rewrite get_mk; case: ifP => _; last exact: real0.
  by rewrite rpredM // /wt; case: ifP => // _; case: ifP => // _; apply: real0.
have n0 : (0 < n)%N.
  case E: (gedges G) E0 => [//|e l] _; have [_ _ hl] := num.
  by have /andP[_] := hl e ltac:(by rewrite E mem_head); apply: leq_ltn_trans.
have F0 : (0 < size F)%N.
  by move: pF; case: (F) => // /perm_size /= h; have := edgeset_neq0 E0; case: (edgeset G) h.
case: (boolP (odd n)) => on.
  by exists 1; rewrite ?mulr1 // pfaffian_odd // hafnian_odd // mulr0.
have [k en] : exists k, n = k.*2 by exists n./2; rewrite -[LHS]odd_double_half (negbTE on).
clear r1 r2 rA cA; subst n; have pm := gmap num pe hF pF.
pose K : 'M[C]_(k.*2) := \matrix_(i, j) Kf i j.
have hP i : (i < size F)%N -> \prod_(e <- nth [::] F i) seen A e = -1.
  move=> hi'; case: (ltnP i.+1 (size F)) => hlt; first by apply: hi; move: hlt; case: (size F).
  have -> : i = (size F).-1 by move: hi' hlt; move: (size F) => m; clear; lia.
  rewrite nth_last (prod_last num pe hA hF pF F0 n0 hi) -signr_odd.
  have -> : odd (k.*2).-1 = ~~ odd k.*2 by rewrite -[in RHS](prednK n0) /= negbK.
  by rewrite odd_double.
have e1 (d : gdart G) : seen A (val (gal d)) = - seen A (val d).
  by rewrite val_gal seen_rev //; have [_ _] := edge_lt num (gdart_edge d).
have e2 (d : gdart G) : seen A (val d) * seen A (val d) = 1 by apply: (seen_sq hA); apply: gdart_edge.
have e3 (f : 'I_(size F)) : \prod_(d | gfc pF d == f) seen A (val d) = -1.
  rewrite -(hP f) ?ltn_ord // -big_enum /= -(big_map val predT (seen A)); apply: perm_big.
  apply: uniq_perm; rewrite ?(map_inj_uniq val_inj) ?enum_uniq ?(face_uniq pF) // => e.
  apply/mapP/idP => [[d]|h].
    by rewrite mem_enum => /eqP <- ->; apply: mem_fc.
  by have [d <- dd] := face_dart pF (ltn_ord f) h; exists d => //; rewrite mem_enum; apply/eqnP/dd.
have e4 (d : gdart G) : K (gsrc num d) (gsrc num (gal d)) = seen A (val d).
  rewrite mxE -[LHS]/(Kf (val d).1 (val d).2) /Kf /seen /entry; have [_ _] := edge_lt num (gdart_edge d).
  by case: (val d) => a b /=; case: (ltngtP a b).
have e5 : K^T = - K by apply/matrixP => i j; rewrite !mxE KS.
have e6 (x y : 'I_(k.*2)) : toM _ _ (adjacency_matrix G w) x y != 0 -> exists2 d, gsrc num d = x & gsrc num (gal d) = y.
  rewrite mxE gA => hw; have hE : has_edge G x y.
    by move: hw; rewrite /wt /has_edge; case: ifP => //= _; case: ifP => //; rewrite eqxx.
  have hD : ((x : nat), (y : nat)) \in edgeset G by rewrite mem_edgeset.
  by exists (SeqSub hD); apply: val_inj.
have [u uu hu] := fkt_pfaffian pm e1 e2 e3 e4 e5 e6; exists u => //; rewrite -hu; congr pfaffian.
by apply/matrixP => i j; rewrite gB !mxE gA.
Qed.

Theorem C15_det n G emb T (w : weights C nat_eqType) fuel pl outer :
  numbered n G -> plane_embedding G emb -> spanning G T -> (forall e, w e \is Num.real) -> gedges G <> [::] ->
  (size (edgeset G) <= fuel)%N ->
  exists B, [/\ pfo_matrix fuel G w (NxInfo pl emb T outer) = Ok B, nr B = n, nc B = n &
    \det (toM n n B) = hafnian (toM n n (adjacency_matrix G w)) ^+ 2].
Proof.
move=> num pe sp wr E0 hf; have [B [h1 [h2 h3] h4 _ [u uu h5]]] := C15_pfaffian pl outer num pe sp wr E0 hf.
by exists B; split=> //; rewrite -pfaffian_sqr ?pnatr_eq0 // h5 exprMn [u ^+ 2]uu mul1r.
Qed.
End Main.

(* the square with a diagonal: the two triangles are faces 0 and 1 *)
Example C14_example (C : numClosedFieldType) : exists A : arr C,
  [/\ pfo_algorithm 10 sq4 (fun _ => 1) (NxInfo true (emb_of sq4_rot) sq4_tree [:: 3; 0; 2; 1]%N) = Ok A,
      pm1 (get A 1 2) /\ get A 1 3 = 0,
      odd (count (fun e => seen A e == -1) [:: (0, 1); (1, 2); (2, 0)]%N),
      odd (count (fun e => seen A e == -1) [:: (0, 2); (2, 3); (3, 0)]%N) &
      odd (count (fun e => seen A e == -1) [:: (0, 3); (3, 2); (2, 1); (1, 0)]%N)].
Proof.
have [num pe] := sq4_plane.
have := @C14_pfo C 4 sq4 (emb_of sq4_rot) sq4_tree (fun _ => 1) 10 true [:: 3; 0; 2; 1]%N
  num pe sq4_span (fun _ => real1 _) (fun h => ltac:(discriminate h)) (isT : size (edgeset sq4) <= 10)%N.
have [_ ->] := C12_example; case=> F [A [hF hA _ he ho]].
have {}hF : F = [:: [:: (0, 1); (1, 2); (2, 0)]; [:: (0, 2); (2, 3); (3, 0)]; [:: (0, 3); (3, 2); (2, 1); (1, 0)]]%N.
  by case: hF.
rewrite {}hF in ho; exists A; split; first exact: hA.
- by split; [have := he 1%N 2%N|have := he 1%N 3%N].
- by have := ho 0%N isT => ->.
- by have := ho 1%N isT => ->.
by have := ho 2%N isT => ->.
Qed.
