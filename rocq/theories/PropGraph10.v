(* PropGraph10.v -- properties C63 (seeding of generate_random_planar_graph) and C68 (what it returns) *)
Set Warnings "-notation-overridden,-ambiguous-paths".
From Coq Require Import Reals.
From mathcomp Require Import all_ssreflect all_algebra.
From mathcomp.zify Require Import zify.
From Verif Require Import Base ArrC MCombinatorics MGraph GraphBrute GraphBfs PropGraph4 PropGraph5 Planar GraphMap PlaneCheck.
From mathcomp Require Import complex.
From Verif Require Import RealC MClean GraphPfo GraphCount MGraphR PropGraph1 PropGraph6 PropGraph7.
Set Implicit Arguments.
Unset Strict Implicit.
Unset Printing Implicit Defensive.
Import Order.Theory GRing.Theory Num.Theory.
Local Open Scope ring_scope.

(* what is assumed of random.randint and nx.gnm_random_graph: a value in the range; a simple graph with nodes
   0, ..., n-1 in order and m edges (all n(n-1)/2 of them when m is larger) *)
Record pygen_ok (P : pygen) : Prop := PygenOk {
  py_randint_ok : forall a b s, a <= b -> a <= (@py_randint P a b s).1 <= b;
  py_gnm_ok : forall n m s, (0 < n)%N -> (0 : int) <= m -> numbered n (@py_gnm P n m s).1 /\
    size (gedges (@py_gnm P n m s).1) = minn (absz m) 'C(n, 2) }.

Section Planar.
Variables (P : pygen) (check : graph nat_eqType -> bool).
Local Notation gen := (generate_random_planar_graph check).
Local Notation att := (attempts check).

(* ================================================================== *)
(* C63  seeded calls are reproducible                                  *)
(* ================================================================== *)
(* no assumption on the generator: with a seed other than 0 neither the outcome nor the state left behind depends on
   the state of the generator before the call *)
Theorem C63_planar n z (s s' : pst P) : z != 0 -> gen n (Some z) s = gen n (Some z) s'.
Proof. by rewrite /generate_random_planar_graph => /negbTE ->. Qed.

(* seed=0 is the same as no seed at all *)
Theorem C63_planar_seed0 n (s : pst P) : gen n (Some 0) s = gen n None s.
Proof. by rewrite /generate_random_planar_graph eqxx. Qed.

(* ================================================================== *)
(* C68  generate_random_planar_graph                                   *)
(* ================================================================== *)
(* fewer than two nodes: random.randint gets an empty range *)
Theorem C68_small n seed (s : pst P) : (n < 2)%N -> (gen n seed s).1 = Raise ValueError.
Proof.
move=> n2; have h k s0 : (att n k.+1 s0).1 = Raise ValueError :> res (option (graph nat_eqType)).
  by case: n n2 => [|[|n]].
exact: h.
Qed.

Hypothesis ok : pygen_ok P.

(* the graph drawn by one attempt in state s, and the state afterwards *)
Definition draw n (s : pst P) : graph nat_eqType * pst P :=
  let p := py_randint (n%:Z - 1) (2%:Z * n%:Z - 3%:Z) s in @py_gnm P n p.1 p.2.

Lemma drawP n (s : pst P) : (1 < n)%N ->
  numbered n (draw n s).1 /\ (n.-1 <= size (gedges (draw n s).1) <= minn (2 * n - 3) 'C(n, 2))%N.
Proof.
move=> n1; have := @py_randint_ok _ ok (n%:Z - 1) (2%:Z * n%:Z - 3%:Z) s.
rewrite /draw; case: py_randint => m s1 /= /(_ ltac:(lia)) h.
have [h1 ->] := @py_gnm_ok _ ok n m s1 ltac:(lia) ltac:(lia); split=> //.
have c2 : (n.-1 <= 'C(n, 2))%N.
  by case: n n1 {h h1} => [//|[//|n]] _; rewrite binS bin1 /= leq_addl.
by move: h c2; move: ('C(n, 2)) => c; lia.
Qed.

(* an attempt is a success when the draw passes the planarity test and is connected *)
Definition success n (s : pst P) := check (draw n s).1 && (if is_connected (draw n s).1 is Ok b then b else false).

Lemma attemptsE n k (s : pst P) : (1 < n)%N ->
  att n k s = if k is k'.+1 then
    if success n s then (Ok (Some (draw n s).1), (draw n s).2) else att n k' (draw n s).2
  else (Ok None, s).
Proof.
move=> n1; case: k => // k /=; rewrite ifF; last by lia.
rewrite -/(draw n s) /success; have [num _] := drawP s n1.
have ne : gnodes (draw n s).1 <> [::] by case: num => -> _ _; move: n1; clear; case: n.
have [b [-> _]] := is_connectedP (numbered_ok num) ne.
by case: check => //; case: b.
Qed.

(* from two nodes on the call never raises; it returns the first successful draw among 1000, or None if there is none *)
Lemma attempts_first n k (s : pst P) : (1 < n)%N ->
  (forall j, (j < k)%N -> ~~ success n (iter j (fun s => (draw n s).2) s)) /\ (att n k s).1 = Ok None \/
  exists2 j, (j < k)%N & [/\ forall i, (i < j)%N -> ~~ success n (iter i (fun s => (draw n s).2) s),
    success n (iter j (fun s => (draw n s).2) s) & (att n k s).1 = Ok (Some (draw n (iter j (fun s => (draw n s).2) s)).1)].
Proof.
move=> n1; elim: k s => [|k IH] s; first by left.
rewrite attemptsE //; case: (boolP (success n s)) => hs.
  by right; exists 0%N.
have [[h1 h2]|[j jk [h1 h2 h3]]] := IH (draw n s).2.
  by left; split=> // -[|j] // jk; rewrite iterSr; apply: h1.
right; exists j.+1 => //; rewrite iterSr; split=> // -[|i] // ij; rewrite iterSr; exact: h1.
Qed.

Theorem C68_first n seed (s : pst P) : (1 < n)%N ->
  let s0 := if seed is Some z then (if z == 0 then s else py_seed P z) else s in
  let state j := iter j (fun s => (draw n s).2) s0 in
  (forall j, (j < 1000)%N -> ~~ success n (state j)) /\ (gen n seed s).1 = Ok None \/
  exists2 j, (j < 1000)%N & [/\ forall i, (i < j)%N -> ~~ success n (state i), success n (state j) &
    (gen n seed s).1 = Ok (Some (draw n (state j)).1)].
Proof.
move=> n1; rewrite /generate_random_planar_graph; move: (match seed with Some _ => _ | None => _ end) => s0.
move: (1000%N) => k; exact: attempts_first.
Qed.

(* a returned graph passed the planarity test, is connected, simple, has nodes 0, ..., n-1 in order and between n-1 and
   2n-3 edges *)
Theorem C68_graph n seed (s : pst P) G : (gen n seed s).1 = Ok (Some G) ->
  [/\ (1 < n)%N, check G, connected G, numbered n G & (n.-1 <= size (gedges G) <= 2 * n - 3)%N].
Proof.
case: (ltnP 1 n) => n1; last by rewrite C68_small.
move=> e; have := C68_first seed s n1; rewrite e => -[[]//|[j _ [_ hs [->]]]].
move: (iter j _ _) hs => s1; rewrite /success => /andP[hc hs].
have [num /andP[h1 h2]] := drawP s1 n1.
have ne : gnodes (draw n s1).1 <> [::] by case: num => -> _ _; move: n1; clear; case: n.
have [b [hb hb']] := is_connectedP (numbered_ok num) ne.
split=> //; last by rewrite h1 (leq_trans h2) // geq_minl.
by apply/hb'; rewrite hb in hs.
Qed.

(* on a returned graph count_perfect_matchings gives the number of perfect matchings, for every embedding, spanning tree
   and outer face networkx may choose: the node numbering needed by C15 is the one of the generator *)
Theorem C68_counted n seed (s : pst P) G emb T fuel outer l : (gen n seed s).1 = Ok (Some G) ->
  plane_embedding G emb -> spanning G T -> (size (edgeset G) <= fuel)%N -> enumerates G l ->
  count_perfect_matchings_planar fuel G (fun _ => 1) (NxInfo true emb T outer) = Ok (OFloat (IZR (Z.of_nat (size l)))).
Proof.
move=> /C68_graph[n1 _ _ num /andP[h _]] pe sp hf en; apply: C15_unweighted num pe sp _ hf en.
by move=> e; move: h n1; rewrite e; clear; case: n => [|[]].
Qed.

(* never an exception from two nodes on *)
Theorem C68_total n seed (s : pst P) : (1 < n)%N -> exists o, (gen n seed s).1 = Ok o.
Proof. by move=> n1; have [[_ ->]|[j _ [_ _ ->]]] := C68_first seed s n1; eexists. Qed.

End Planar.

(* ------------------------------------------------------------------ *)
(* a generator that meets the contract: the first m pairs i < j; randint returns the lower end in state true and the
   upper end in state false *)
Definition pairs (n : nat) : seq dart := flatten [seq [seq (i, j) | i <- iota 0 j] | j <- iota 0 n].
Definition wgen : pygen := PyGen (fun _ => true) (fun (a b : int) (s : bool) => (if s then a else b, s))
  (fun n (m : int) s => (@Graph nat_eqType (iota 0 n) (take (absz m) (pairs n)), s)).

Lemma pairsS n : pairs n.+1 = pairs n ++ [seq (i, n) | i <- iota 0 n].
Proof. by rewrite /pairs -addn1 iotaD map_cat flatten_cat /= cats0 add0n. Qed.
Lemma pairs_lt n (e : nat * nat) : e \in pairs n -> (e.1 < e.2 < n)%N.
Proof.
elim: n => [//|n IH]; rewrite pairsS mem_cat => /orP[/IH|]; first by lia.
by case/mapP=> i; rewrite mem_iota => h -> /=; lia.
Qed.
Lemma pairs_uniq n : uniq (pairs n).
Proof.
elim: n => [//|n IH]; rewrite pairsS cat_uniq IH map_inj_uniq ?iota_uniq ?andbT => [|x y []//].
by apply/hasPn => e /mapP[i _ ->]; apply/negP => /pairs_lt /=; lia.
Qed.
Lemma size_pairs n : size (pairs n) = 'C(n, 2).
Proof. by elim: n => [//|n IH]; rewrite pairsS size_cat IH size_map size_iota binS bin1. Qed.

Theorem C68_contract : pygen_ok wgen.
Proof.
split=> [a b s ab|n m s n0 m0] /=; first by case: s; rewrite ?lexx ?ab.
split; last by rewrite size_take -size_pairs /minn.
by split=> [//||e /mem_take/pairs_lt//]; apply: take_uniq; exact: pairs_uniq.
Qed.

(* seed=0: the outcome depends on the history of the generator, for a legal generator and every planarity test that
   accepts the path and the triangle on three nodes *)
Theorem C63_refuted_planar_seed0 (check : graph nat_eqType -> bool) :
  (forall G, (gnodes G == iota 0 3) && (size (gedges G) <= 3)%N -> check G) ->
  exists s s' : pst wgen, (generate_random_planar_graph check 3 (Some 0) s).1 <>
                          (generate_random_planar_graph check 3 (Some 0) s').1.
Proof.
move=> h; exists true, false; rewrite !C63_planar_seed0 /generate_random_planar_graph; move: (1000%N) (isT : (0 < 1000)%N) => [//|K] _.
have e k (s : pst wgen) : (attempts check 3 k.+1 s).1 = Ok (Some (draw 3 s).1).
  by rewrite attemptsE //; last exact: C68_contract; rewrite /success h //; case: s.
by rewrite !e.
Qed.

Example C68_example : (generate_random_planar_graph (P := wgen) (fun _ => true) 3 (Some 7) false).1 =
  Ok (Some (Graph [:: 0; 1; 2] [:: (0, 1); (0, 2)]))%N.
Proof.
rewrite /generate_random_planar_graph; move: (1000%N) (isT : (0 < 1000)%N) => [//|K] _.
have e k (s : pst wgen) : (attempts (P := wgen) (fun _ => true) 3 k.+1 s).1 = Ok (Some (draw 3 s).1).
  by rewrite attemptsE //; last exact: C68_contract; case: s.
by rewrite e.
Qed.
