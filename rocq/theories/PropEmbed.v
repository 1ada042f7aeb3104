(* PropEmbed.v -- property C79: the arrows drawn by plot_planar_embedding *)
Set Warnings "-notation-overridden,-ambiguous-paths".
From mathcomp Require Import all_ssreflect all_algebra.
From mathcomp.zify Require Import zify.
From Verif Require Import Base ArrC MCombinatorics Matching Pfaffian MGraph GraphBrute GraphCount GraphBfs.
From Verif Require Import PropGraph2 PropGraph4 PropGraph5 Planar Fkt GraphMap GraphDual GraphPfo PlaneCheck PropGraph6 MEmbed.
Set Implicit Arguments.
Unset Strict Implicit.
Unset Printing Implicit Defensive.
Import Order.Theory GRing.Theory Num.Theory.
Local Open Scope ring_scope.

Section Main.
Variable C : numClosedFieldType.
Implicit Types (A : arr C) (G : graph nat_eqType).

(* the arrows of a real matrix: one per edge with a non-zero entry above the diagonal, against the sign *)
Definition arrow A (e : dart) : dart := if entry A e < 0 then sort2 e else (maxn e.1 e.2, minn e.1 e.2).

Theorem C79_arrows G A : (forall e, e \in gedges G -> (maxn e.1 e.2 < nr A)%N && (maxn e.1 e.2 < nc A)%N) ->
  (forall i j, get A i j \is Num.real) ->
  plot_planar_embedding true G (Some A) = Ok (Some [seq arrow A e | e <- gedges G & entry A e != 0]).
Proof.
move=> hr rA; rewrite /plot_planar_embedding /=.
suff h s l : {subset l <= gedges G} -> foldM (red_arrow A) s l = Ok (s ++ [seq arrow A e | e <- l & entry A e != 0]).
  by rewrite h.
elim: l s => [|e l IH] s sl; first by rewrite cats0.
have {}IH s' := IH s' (fun x hx => sl x ltac:(by rewrite inE hx orbT)).
have /andP[h1 h2] := hr e (sl e (mem_head _ _)).
rewrite [foldM _ _ _]/= /red_arrow /idx h2 (leq_ltn_trans _ h1) /=; last by lia.
rewrite -/(entry A e) IH; congr Ok; rewrite /arrow.
have := rA (minn e.1 e.2) (maxn e.1 e.2); rewrite -/(entry A e) => re.
by case: (real_ltgt0P re) => h /=; rewrite ?cat_rcons ?h ?(lt_gtF h) //.
Qed.

Definition arrows G A : seq dart := [seq arrow A e | e <- gedges G & entry A e != 0].
Lemma one_neg : (1 == -1 :> C) = false.
Proof. by apply/negbTE; rewrite -addr_eq0 -(natrD _ 1 1) pnatr_eq0. Qed.
Lemma pm1_lt0 (x : C) : pm1 x -> (x < 0) = (x == -1).
Proof. by case=> ->; rewrite ?eqxx ?oppr_lt0 ?ltr01 // lt_gtF ?ltr01 // one_neg. Qed.
Lemma pm1_neq0 (x : C) : pm1 x -> x != 0. Proof. by case=> ->; rewrite ?oppr_eq0 oner_eq0. Qed.

Lemma mem_arrows n G A (u v : nat) : numbered n G -> (forall u v, if has_edge G u v then pm1 (get A u v) else get A u v = 0) ->
  ((u, v) \in arrows G A) = has_edge G u v && (seen A (u, v) == -1).
Proof.
move=> num hA; have [_ _ hl] := num.
have he e : e \in gedges G -> pm1 (entry A e).
  move=> h; have /andP[lt _] := hl e h; rewrite /entry (minn_idPl _) ?(maxn_idPr _) 1?ltnW //.
  by apply: (pm1_edge hA); case: e h {lt} => a b /= h; rewrite /has_edge h.
have ent a b : (a < b)%N -> entry A (a, b) = get A a b /\ entry A (b, a) = get A a b.
  by move=> lt; rewrite /entry /= [minn b a]minnC [maxn b a]maxnC (minn_idPl _) ?(maxn_idPr _) 1?ltnW.
apply/mapP/andP => [[[a b]]|[h hs]].
  rewrite mem_filter => /andP[_ eG]; have /andP[/= lt _] := hl _ eG; have := he _ eG.
  have e1 : minn a b = a by lia.
  have e2 : maxn a b = b by lia.
  have [h1 h2] := ent a b lt; rewrite /arrow /sort2 /= e1 e2 h1 => pe; rewrite (pm1_lt0 pe).
  case: eqP => [h|/eqP h] [-> ->]; rewrite /has_edge eG ?orbT /seen /=; first by rewrite h1 h ltnNge ltnW //= eqxx.
  by rewrite lt h2; case: pe h => [->|->]; rewrite ?eqxx.
have [eG|eG] : (u, v) \in gedges G \/ (v, u) \in gedges G by case/orP: h; [left|right].
  have /andP[/= lt _] := hl _ eG; exists (u, v); first by rewrite mem_filter eG pm1_neq0 //; apply: he.
  move: hs; rewrite /seen /arrow (pm1_lt0 (he _ eG)) /= ltnNge ltnW //= => ->; rewrite /sort2 /=; congr (_, _); lia.
have /andP[/= lt _] := hl _ eG; exists (v, u); first by rewrite mem_filter eG pm1_neq0 //; apply: he.
have [h1 h2] := ent _ _ lt; have := he _ eG.
move: hs; rewrite /seen /= lt /arrow (pm1_lt0 (he _ eG)) h1 h2 /= => hs [E|E]; move: hs; rewrite E ?opprK ?one_neg //.
by move=> _; congr (_, _); lia.
Qed.

(* With the matrix of pfo_algorithm every edge gets exactly one arrow, and every face other than the last one has an odd
   number of arrows in the direction of its traversal (the last one too when n is even). *)
Theorem C79_pfo n G emb T w fuel pl outer :
  numbered n G -> plane_embedding G emb -> spanning G T -> (forall e, w e \is Num.real) -> gedges G <> [::] ->
  (size (edgeset G) <= fuel)%N ->
  exists F (A : arr C) D,
  [/\ faces fuel G (Some emb) None outer = Ok (Some F),
      pfo_algorithm fuel G w (NxInfo pl emb T outer) = Ok A,
      plot_planar_embedding true G (Some A) = Ok (Some D),
      (forall u v : nat, has_edge G u v = ((u, v) \in D) (+) ((v, u) \in D)) /\ size D = size (gedges G) &
      forall i, (i < size F)%N -> odd (count (mem D) (nth [::] F i)) = (i.+1 < size F)%N || ~~ odd n].
Proof.
move=> num pe sp wr E0 hf.
have [F [A [h1 h2 [r1 r2] hA ho]]] := C14_pfo pl outer num pe sp wr E0 hf.
have [F' [A' [hF1 hF2 pF _ _]]] := pfoP num pe sp wr E0 hf pl outer.
have eF : F' = F by move: hF1; rewrite h1 => -[].
subst F'; exists F, A, (arrows G A); have [_ _ hl] := num.
have rg u v : get A u v \is Num.real by have := hA u v; case: ifP => _ => [[->|->]|->]; rewrite ?rpredN ?real1 ?real0.
split=> //.
- by rewrite C79_arrows // => e /hl /andP[lt h]; rewrite r1 r2 (maxn_idPr (ltnW lt)) h.
- split=> [u v|].
    have ma (x y : nat) := mem_arrows x y num hA.
    rewrite !ma [has_edge G v u]has_edgeC; case: (boolP (has_edge G u v)) => // h.
    have [_ _ nuv] := edge_lt num h; rewrite -[(v, u)]/((u, v).2, (u, v).1) seen_rev //.
    by have [->|->] := seen_pm1 hA (e := (u, v)) h; rewrite ?opprK ?eqxx one_neg.
  rewrite size_map size_filter; apply/eqP; rewrite -all_count; apply/allP => e /[dup] eG /hl /andP[lt _].
  rewrite /entry (minn_idPl _) ?(maxn_idPr _) 1?ltnW //; apply/pm1_neq0/(pm1_edge hA).
  by case: e eG {lt} => a b /= h; rewrite /has_edge h.
move=> i hi; rewrite -(ho i hi); congr odd; apply: eq_in_count => e he.
have [d ed _] := face_dart pF hi he; have := gdart_edge d; rewrite ed => hE.
by rewrite /= [e]surjective_pairing (mem_arrows _ _ num hA) hE.
Qed.

(* The drawn arrows are a Pfaffian orientation: the determinant of the skew adjacency matrix along the arrows is the square of
   the weighted number of perfect matchings. *)
Theorem C79_kasteleyn n G emb T (w : weights C nat_eqType) fuel pl outer l :
  numbered n G -> plane_embedding G emb -> spanning G T -> (forall e, w e \is Num.real) -> gedges G <> [::] ->
  (size (edgeset G) <= fuel)%N -> enumerates G l ->
  exists (A : arr C) D,
  [/\ pfo_algorithm fuel G w (NxInfo pl emb T outer) = Ok A,
      plot_planar_embedding true G (Some A) = Ok (Some D) &
      \det (\matrix_(i < n, j < n) let x := w (minn i j, maxn i j) in
              if ((i : nat), (j : nat)) \in D then x else if ((j : nat), (i : nat)) \in D then - x else 0)
      = (\sum_(c <- l) \prod_(e <- c) w e) ^+ 2].
Proof.
move=> num pe sp wr E0 hf en.
have [F [A [D [_ hA hD [hx _] _]]]] := C79_pfo pl outer num pe sp wr E0 hf.
have [F' [A' [_ hA' [r1 r2] pA _]]] := C14_pfo pl outer num pe sp wr E0 hf.
have eA : A' = A by move: hA'; rewrite hA => -[].
subst A'; exists A, D; split=> //.
have [B [hB rB cB dB]] := C15_det pl outer num pe sp wr E0 hf.
have [n0 _ hl] := num; have en0 : size (gnodes G) = n by rewrite n0 size_iota.
have eh : hafnian (toM n n (adjacency_matrix G w)) = \sum_(c <- l) \prod_(e <- c) w e.
  by rewrite -(hafnian_enum (numbered_simple num) w en) en0.
rewrite -eh -dB -[RHS]det_tr; congr (\det _); clear dB eh.
have eD : D = arrows G A.
  move: hD; rewrite C79_arrows; first by case.
    by move=> e /hl /andP[lt h]; rewrite r1 r2 (maxn_idPr (ltnW lt)) h.
  by move=> u v; have := pA u v; case: ifP => _ => [[->|->]|->]; rewrite ?rpredN ?real1 ?real0.
have rA := adjacency_nr num w; have cA := adjacency_nc num w; have gA := adjacency_get num w.
have {}hB : B = let A0 := adjacency_matrix G w in
   let B := mk (nr A0) (nc A0) (fun i j => get A i j * get A0 i j) in
   let B := mk (nr B) (nc B) (fun i j => if (i <= j)%N then get B i j else 0) in asub B (atr B).
  by move: hB; rewrite /pfo_matrix hA /= => -[<-].
move: (adjacency_matrix G w) hB rA cA gA => A0 -> rA cA gA; apply/matrixP => i j.
rewrite !mxE /= !getE ?rA ?cA //= !gA eD.
have ma (x y : nat) := mem_arrows x y num pA; rewrite !ma [has_edge G j i]has_edgeC.
case: (boolP (has_edge G i j)) => h; last first.
  move: h; rewrite /has_edge /wt => /norP[/negbTE -> /negbTE ->] /=.
  by case: ifP; case: ifP; rewrite ?mulr0 subrr.
have [_ _ nij] := edge_lt num h.
have ew a b : (a < b)%N -> has_edge G a b -> wt G w a b = w (a, b) /\ wt G w b a = w (a, b).
  move=> lt; rewrite /has_edge /wt => /orP[->|h1]; last by have /andP[/= ] := hl _ h1; rewrite ltnNge ltnW.
  by case: ifP => // /hl /andP[/=]; rewrite ltnNge ltnW.
case: (ltngtP i j) nij => // lt _; rewrite ?(minn_idPl (ltnW lt)) ?(maxn_idPr (ltnW lt)).
  have [-> _] := ew _ _ lt h; have := pm1_edge pA h; rewrite /seen /entry /= (minn_idPl (ltnW lt)) (maxn_idPr (ltnW lt)).
  rewrite [minn j i]minnC [maxn j i]maxnC (minn_idPl (ltnW lt)) (maxn_idPr (ltnW lt)) lt ltnNge ltnW //= sub0r => -[->|->].
    by rewrite one_neg eqxx mul1r.
  by rewrite eqxx mulN1r opprK.
rewrite has_edgeC in h.
have [-> _] := ew _ _ lt h; have := pm1_edge pA h; rewrite /seen /entry /=.
rewrite [minn i j]minnC [maxn i j]maxnC (minn_idPl (ltnW lt)) (maxn_idPr (ltnW lt)) lt ltnNge ltnW //= subr0 => -[->|->].
  by rewrite eqxx mul1r.
by rewrite opprK one_neg eqxx mulN1r.
Qed.

Theorem C79_errors G : [/\ forall o : option (arr C), plot_planar_embedding false G o = Ok None,
  plot_planar_embedding true G (None : option (arr C)) = Ok (Some [::]) &
  forall A, nr A = nc A -> (exists2 e, e \in gedges G & (nr A <= maxn e.1 e.2)%N) ->
    plot_planar_embedding true G (Some A) = Raise IndexError].
Proof.
split=> // A sq [e]; rewrite /plot_planar_embedding /=; elim: (gedges G) [::] => [//|x l IH] s.
rewrite inE /= /red_arrow /idx => /orP[/eqP <- h|h1 h2]; first by rewrite -sq [(maxn _ _ < _)%N]ltnNge h andbF.
by case: ifP => //= _; apply: IH.
Qed.
End Main.

(* the square with a diagonal: five arrows, an odd number of them along each of the three faces *)
Example C79_example (C : numClosedFieldType) : exists (A : arr C) D,
  [/\ pfo_algorithm 10 sq4 (fun _ => 1) (NxInfo true (emb_of sq4_rot) sq4_tree [:: 3; 0; 2; 1]%N) = Ok A,
      plot_planar_embedding true sq4 (Some A) = Ok (Some D), size D = 5%N,
      odd (count (mem D) [:: (0, 1); (1, 2); (2, 0)]%N) /\ odd (count (mem D) [:: (0, 2); (2, 3); (3, 0)]%N) &
      odd (count (mem D) [:: (0, 3); (3, 2); (2, 1); (1, 0)]%N)].
Proof.
have [num pe] := sq4_plane.
have := @C79_pfo C 4 sq4 (emb_of sq4_rot) sq4_tree (fun _ => 1) 10 true [:: 3; 0; 2; 1]%N
  num pe sq4_span (fun _ => real1 _) (fun h => ltac:(discriminate h)) (isT : size (edgeset sq4) <= 10)%N.
have [_ ->] := C12_example; case=> F [A [D [hF hA hD [_ hs] ho]]].
have {}hF : F = [:: [:: (0, 1); (1, 2); (2, 0)]; [:: (0, 2); (2, 3); (3, 0)]; [:: (0, 3); (3, 2); (2, 1); (1, 0)]]%N.
  by case: hF.
rewrite {}hF in ho; exists A, D; split; [exact: hA|exact: hD|exact: hs| |].
- by split; [exact: (ho 0%N isT)|exact: (ho 1%N isT)].
- exact: (ho 2%N isT).
Qed.
