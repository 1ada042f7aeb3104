(* PropPlot.v -- property C69: the graph returned by plot_graph_with_edge_weights *)
Set Warnings "-notation-overridden,-ambiguous-paths".
From Coq Require Import Reals Lra.
From mathcomp Require Import all_ssreflect all_algebra.
From mathcomp Require Import complex.
From mathcomp.zify Require Import zify.
From Verif Require Import Base MCombinatorics RealC MClean PropClean MDist MGraph GraphBrute GraphBfs GraphMap MPlot.
Set Implicit Arguments.
Unset Strict Implicit.
Unset Printing Implicit Defensive.
Import Order.Theory GRing.Theory Num.Theory.
Local Open Scope ring_scope.

Local Notation rarr := (arr R_zmodType).

(* the weight of an edge is the entry rounded to four decimals: an integer multiple of 1e-4, at distance at most 5e-5 *)
Lemma edge_weightE x : edge_weight x = np_round x 4.
Proof.
have e : p10 4 = IZR 10000 by rewrite /p10 /=; lra.
by rewrite /edge_weight /np_round e Rmult_comm.
Qed.

Theorem C69_weight x : Rle (Rabs (Rminus (edge_weight x) x)) (Rdiv (IZR 5) (IZR 100000)) /\
  exists z : Z, edge_weight x = Rdiv (IZR z) (IZR 10000).
Proof.
split; last by eexists.
have := np_round_err x 4; rewrite -edge_weightE p10_N /p10 /=; lra.
Qed.

(* the pairs visited *)
Lemma mem_all_pairs n (e : dart) : (e \in all_pairs n) = (e.1 < n)%N && (e.2 < n)%N.
Proof.
apply/allpairsP/andP => [[[i j] /= [h1 h2 ->]]|[h1 h2]]; first by move: h1 h2; rewrite !mem_iota.
by exists e; rewrite !mem_iota; case: e h1 h2.
Qed.
Lemma uniq_all_pairs n : uniq (all_pairs n).
Proof. by apply: allpairs_uniq; rewrite ?iota_uniq // => -[a b] [c d]. Qed.

Lemma mem_up_pairs n (e : dart) : (e \in up_pairs n) = (e.1 < e.2 < n)%N.
Proof.
apply/flatten_mapP/idP => [[i hi /mapP[j hj ->]]|h].
  by move: hi hj; rewrite !mem_iota /=; lia.
exists e.1; first by rewrite mem_iota; lia.
by apply/mapP; exists e.2; [rewrite mem_iota; lia|case: e h].
Qed.
Lemma uniq_up_pairs n : uniq (up_pairs n).
Proof.
rewrite /up_pairs; have : uniq (iota 0 n) := iota_uniq 0 n.
elim: (iota 0 n) => [//|i l IH] /= /andP[hi /IH ul]; rewrite cat_uniq ul map_inj_uniq ?iota_uniq /= ?andbT => [|x y []//].
apply/hasPn => e /flatten_mapP[k hk /mapP[j _ ->]]; apply/negP => /mapP[j' _ [ik _]].
by rewrite -ik hk in hi.
Qed.

Lemma plot_fold (A : rarr) es (l : seq dart) : (forall e, e \in l -> (e.1 < nr A)%N && (e.2 < nc A)%N) ->
  foldM (plot_edge A) es l = Ok (es ++ [seq (e, edge_weight (get A e.1 e.2)) | e <- l & get A e.1 e.2 != 0]).
Proof.
elim: l es => [|e l IH] es h /=; first by rewrite cats0.
rewrite {1}/plot_edge /idx h ?mem_head //= IH; last by move=> d hd; apply: h; rewrite inE hd orbT.
by case: ifP => _ //=; rewrite cat_rcons.
Qed.

(* A is symmetric within numpy's tolerances *)
Definition nearly_symmetric n (A : 'M[R]_n) := forall i j, rclose (A i j) (A j i).
Definition ofR n (A : 'M[R]_n) : rarr := Arr A.

Lemma get_ofR n (A : 'M[R]_n) (i j : 'I_n) : get (ofR A) i j = A i j.
Proof. exact: (get_ord (A := ofR A)). Qed.

Lemma allclose_trP n (A : 'M[R]_n) : exists b, allclose_tr (ofR A) = Ok b /\ (b <-> nearly_symmetric A).
Proof.
rewrite /allclose_tr /bdim /= eqxx /=; eexists; split; first by [].
have bg (B : 'M[R]_n) (i j : 'I_n) : bget (ofR B) i j = B i j.
  rewrite /bget /=; have z (k : 'I_n) : (if n == 1%N then 0%N else k) = k.
    by case: eqP => // n1; case: k => k; rewrite n1 /=; lia.
  by rewrite !z get_ofR.
have e (i j : 'I_n) : bget (mk n n (fun i j => get (ofR A) j i)) i j = A j i.
  have -> : mk n n (fun i j => get (ofR A) j i) = ofR A^T; last by rewrite bg mxE.
  by congr Arr; apply/matrixP => a b; rewrite !mxE get_ofR.
split=> [/allP h i j|h].
  have in_n (k : 'I_n) : (k : nat) \in iota 0 n by rewrite mem_iota /=.
  by have /allP := h _ (in_n i); move/(_ _ (in_n j)); rewrite bg e.
apply/allP => i; rewrite mem_iota => /= hi; apply/allP => j; rewrite mem_iota /= => hj.
have := h (Ordinal hi) (Ordinal hj); rewrite -bg -(e (Ordinal hi) (Ordinal hj)); exact.
Qed.

(* ================================================================== *)
(* C69  the returned graph                                             *)
(* ================================================================== *)
(* nearly symmetric matrix: an undirected graph on 0, ..., n-1 with exactly one edge (i, j), i < j, for every non-zero
   entry above the diagonal *)
Theorem C69_undirected n (A : 'M[R]_n) : nearly_symmetric A -> exists G,
  [/\ plot_graph_with_edge_weights (ofR A) = Ok G, directed G = false, wnodes G = iota 0 n, uniq (unzip1 (wedges G)) &
   forall (e : dart) w, (e, w) \in wedges G <->
     exists i j : 'I_n, [/\ e = (i : nat, j : nat), (i < j)%N, A i j != 0 & w = edge_weight (A i j)]].
Proof.
move=> h; have [b [hb h']] := allclose_trP A; rewrite /plot_graph_with_edge_weights hb (h'.2 h) /=.
rewrite plot_fold => [|e]; last by rewrite mem_up_pairs /=; lia.
eexists; split; [by []|by []|by []| |].
  by rewrite /= /unzip1 -map_comp map_id filter_uniq ?uniq_up_pairs.
move=> [a c] w /=; split=> [/mapP[[i j]]|[i [j [[-> ->] ij nz ->]]]].
  rewrite mem_filter mem_up_pairs /= => /andP[nz hij] [-> -> ->].
  have [hi hj] : (i < n)%N /\ (j < n)%N.
    by case/andP: hij => a1 a2; split=> //; exact: ltn_trans a1 a2.
  exists (Ordinal hi), (Ordinal hj); rewrite -(get_ofR A (Ordinal hi) (Ordinal hj)) /=.
  by case/andP: hij.
apply/mapP; exists (i : nat, j : nat); last by rewrite /= get_ofR.
by rewrite mem_filter mem_up_pairs /= get_ofR nz ij ltn_ord.
Qed.

(* otherwise a directed graph with one edge for every non-zero entry, the diagonal included *)
Theorem C69_directed n (A : 'M[R]_n) : ~ nearly_symmetric A -> exists G,
  [/\ plot_graph_with_edge_weights (ofR A) = Ok G, directed G = true, wnodes G = iota 0 n, uniq (unzip1 (wedges G)) &
   forall (e : dart) w, (e, w) \in wedges G <->
     exists i j : 'I_n, [/\ e = (i : nat, j : nat), A i j != 0 & w = edge_weight (A i j)]].
Proof.
move=> h; have [b [hb h']] := allclose_trP A; rewrite /plot_graph_with_edge_weights hb.
case: b {hb} h' => h'; first by case: h; apply/h'.
rewrite /= plot_fold => [|e]; last by rewrite mem_all_pairs.
eexists; split; [by []|by []|by []| |].
  by rewrite /= /unzip1 -map_comp map_id filter_uniq ?uniq_all_pairs.
move=> [a c] w /=; split=> [/mapP[[i j]]|[i [j [[-> ->] nz ->]]]].
  rewrite mem_filter mem_all_pairs /= => /andP[nz /andP[hi hj]] [-> -> ->].
  by exists (Ordinal hi), (Ordinal hj); rewrite -(get_ofR A (Ordinal hi) (Ordinal hj)).
apply/mapP; exists (i : nat, j : nat); last by rewrite /= get_ofR.
by rewrite mem_filter mem_all_pairs /= get_ofR nz !ltn_ord.
Qed.

(* the diagonal of a nearly symmetric matrix is ignored (documented: entries are edge weights) *)
Theorem C69_refuted_loops n (A B : 'M[R]_n) : nearly_symmetric A -> (forall i j, i != j -> A i j = B i j) ->
  plot_graph_with_edge_weights (ofR A) = plot_graph_with_edge_weights (ofR B).
Proof.
move=> h e; have hB : nearly_symmetric B.
  move=> i j; case: (altP (i =P j)) => [->|ij]; last by rewrite -!e // eq_sym.
  by rewrite /rclose subrr normr0 addr_ge0 ?mulr_ge0 ?invr_ge0 ?exprn_ge0 ?ler0n.
have [b [hb h']] := allclose_trP A; have [c [hc h'']] := allclose_trP B.
rewrite /plot_graph_with_edge_weights hb hc (h'.2 h) (h''.2 hB) /=.
have hr (D : 'M[R]_n) x : x \in up_pairs n -> (x.1 < nr (ofR D))%N && (x.2 < nc (ofR D))%N.
  by rewrite mem_up_pairs /=; lia.
rewrite (plot_fold _ (hr A)) (plot_fold _ (hr B)).
have E x : x \in up_pairs n -> get (ofR A) x.1 x.2 = get (ofR B) x.1 x.2.
  rewrite mem_up_pairs => hx; have [h1 h2] : (x.1 < n)%N /\ (x.2 < n)%N.
    by case/andP: hx => a1 a2; split=> //; exact: ltn_trans a1 a2.
  rewrite -[x.1]/(nat_of_ord (Ordinal h1)) -[x.2]/(nat_of_ord (Ordinal h2)) !get_ofR e //.
  by apply/eqP => -[] hh; move: hx; rewrite hh ltnn.
congr (Ok (WGraph _ _ _)); rewrite /= (@eq_in_filter _ _ (fun x => get (ofR B) x.1 x.2 != 0)) => [|x hx].
  by apply/eq_in_map => x; rewrite mem_filter => /andP[_ hx]; rewrite E.
by rewrite E.
Qed.

(* an edge of weight 0: every non-zero entry below 5e-5 in absolute value gives one *)
Theorem C69_refuted_weight n (A : 'M[R]_n) (i j : 'I_n) : nearly_symmetric A -> (i < j)%N -> A i j != 0 ->
  Rlt (Rabs (A i j)) (Rdiv (IZR 5) (IZR 100000)) ->
  exists G, plot_graph_with_edge_weights (ofR A) = Ok G /\ ((i : nat, j : nat), 0) \in wedges G.
Proof.
move=> h ij nz sm; have [G [hG _ _ _ he]] := C69_undirected h; exists G; split=> //.
apply/he; exists i, j; split=> //; rewrite /edge_weight (@rnd_unique _ 0).
  by rewrite /Rdiv Rmult_0_l.
rewrite Rminus_0_r Rabs_mult (Rabs_pos_eq (IZR 10000)); lra.
Qed.

(* entries below the diagonal of a nearly symmetric matrix are not looked at: a small one is lost *)
Theorem C69_refuted_lower : exists (A : 'M[R]_2) G, [/\ A != 0, plot_graph_with_edge_weights (ofR A) = Ok G,
  directed G = false & wedges G = [::]].
Proof.
pose t : R := (10%:R ^+ 9)^-1; pose A : 'M[R]_2 := \matrix_(i, j) if (j < i)%N then t else 0.
have t0 : 0 < t by rewrite invr_gt0 exprn_gt0 // ltr0n.
have t1 : t <= (10%:R ^+ 8)^-1.
  by rewrite lef_pinv ?posrE ?exprn_gt0 ?ltr0n // ler_weexpn2l // ler1n.
have h : nearly_symmetric A.
  move=> i j; rewrite /rclose !mxE; apply: le_trans (_ : (10%:R ^+ 8)^-1 <= _); last first.
    by rewrite ler_addl mulr_ge0 ?invr_ge0 ?exprn_ge0 ?ler0n.
  apply: le_trans t1; case: ifP => ij; case: ifP => ji; rewrite ?subr0 ?sub0r ?subrr ?normrN ?normr0 ?gtr0_norm //;
    exact: ltW.
have [G [hG hd _ _ he]] := C69_undirected h; exists A, G; split=> //.
  apply/eqP => /matrixP/(_ 1 0); rewrite !mxE /= => e; by rewrite e ltxx in t0.
case E: (wedges G) => [//|[e w] s]; have /he[i [j [_ ij]]] : (e, w) \in wedges G by rewrite E mem_head.
by rewrite mxE ltnNge (ltnW ij) eqxx.
Qed.

(* arrays that are not square: numpy broadcasts a dimension of length 1 *)
Theorem C69_shape (A : rarr) : nr A != nc A ->
  if nr A == 1%N then exists G, plot_graph_with_edge_weights A = Ok G /\ wnodes G = [:: 0%N]
  else if (nc A == 1%N) && (1 < nr A)%N then plot_graph_with_edge_weights A = Raise IndexError
  else if nc A == 1%N then exists G, plot_graph_with_edge_weights A = Ok G /\ wnodes G = [::]
  else plot_graph_with_edge_weights A = Raise ValueError.
Proof.
move=> ne; rewrite /plot_graph_with_edge_weights; case E: (allclose_tr A) => [b|x]; last first.
  by move: E; rewrite /allclose_tr /bdim (negbTE ne); do 2!case: ifP => //= _; case=> <-.
have E' : (nr A == 1%N) || (nc A == 1%N).
  by move: E; rewrite /allclose_tr /bdim (negbTE ne); do 2!case: ifP => //= _.
rewrite [bind _ _]/=; case: ifP E' => [/eqP r1 _|r1 /= /eqP c1].
  case: b E => E; first by rewrite r1 /=; eexists.
  rewrite plot_fold => [|e]; first by rewrite r1 /=; eexists.
  rewrite mem_all_pairs r1 => /andP[-> h]; move: h; rewrite ltnS leqn0 => /eqP ->; rewrite lt0n.
  by apply/eqP => c0; move: E; rewrite /allclose_tr /bdim (negbTE ne) r1 c0.
rewrite c1 /=; case N: (nr A) r1 => [|[|k]] // _; first by case: b {E}; eexists.
have F l es : foldM (plot_edge A) es [:: (0, 1)%N & l] = Raise IndexError by rewrite /= /plot_edge /idx c1 andbF.
case: b {E}; first by rewrite -[up_pairs _]/((0, 1)%N :: _) F.
rewrite -[all_pairs _]/((0, 0)%N :: (0, 1)%N :: _).
rewrite [foldM _ _ _](_ : _ = Raise IndexError) //; set l := (X in _ :: _ :: X); rewrite -cat1s foldM_cat.
have -> : foldM (plot_edge A) [::] [:: (0, 0)%N] =
    Ok (if get A 0 0 != 0 then [:: ((0, 0)%N, edge_weight (get A 0 0))] else [::]) by rewrite /= /plot_edge /idx N c1.
exact: F.
Qed.

(* a 1 x n array is accepted: it is compared with its transpose entry by entry, and only its first entry is drawn *)
Theorem C69_row n (A : rarr) : nr A = 1%N -> nc A = n -> (1 < n)%N ->
  exists b : bool, [/\ b <-> (forall i j, (i < n)%N -> (j < n)%N -> rclose (get A 0 i) (get A 0 j)) &
    plot_graph_with_edge_weights A = Ok (WGraph (~~ b) [:: 0%N]
      (if ~~ b && (get A 0 0 != 0) then [:: ((0, 0)%N, edge_weight (get A 0 0))] else [::]))].
Proof.
move=> r1 cn n1; pose b := all (fun i => all (fun j => rclose (get A 0 j) (get A 0 i)) (iota 0 n)) (iota 0 n).
have eb : allclose_tr A = Ok b.
  rewrite /allclose_tr /bdim r1 cn; case: eqP n1 => [<- //|_ n1]; rewrite eqxx [bind _ _]/=; congr Ok.
  apply/eq_in_all => i; rewrite mem_iota /= => hi; apply/eq_in_all => j _.
  rewrite /bget r1 cn /= (gtn_eqF n1); congr (rclose _ _); rewrite getE //; exact: ltnW.
exists b; split.
  split=> [/allP h i j hi hj|h].
    have /h/allP : j \in iota 0 n by rewrite mem_iota.
    by apply; rewrite mem_iota.
  by apply/allP => i; rewrite mem_iota => hi; apply/allP => j; rewrite mem_iota => hj; exact: h.
rewrite /plot_graph_with_edge_weights eb [bind _ _]/= r1; case: b {eb} => //.
rewrite (_ : all_pairs 1 = [:: (0, 0)%N]) //= /plot_edge /idx r1 cn /= (ltnW n1) /=.
by case: ifP.
Qed.
Example C69_row_ex (x y : R) : rclose x y = false -> x != 0 ->
  plot_graph_with_edge_weights (mk 1 2 (fun _ j => if j == 0%N then x else y)) =
  Ok (WGraph true [:: 0%N] [:: ((0, 0)%N, edge_weight x)]).
Proof.
move=> h x0; set A := mk _ _ _; have [b [hb ->]] := @C69_row 2 A erefl erefl isT.
have b0 : b = false by apply/negP => /hb/(_ 0%N 1%N isT isT); rewrite /A !getE //= h.
by rewrite b0 /A getE //= x0.
Qed.

(* ------------------------------------------------------------------ *)
(* a graph as argument: its nodes are replaced by their positions *)
Lemma to_numpy_sym (G : graph nat_eqType) w : simple_graph G ->
  forall i j, get (to_numpy_array G w) i j = get (to_numpy_array G w) j i.
Proof.
move=> [_ _ hE] i j; rewrite /to_numpy_array !get_mk andbC; case: ifP => // _ /=.
set u := nth _ _ i; set v := nth _ _ j.
case: (boolP ((u, v) \in _)) => h1; case: (boolP ((v, u) \in _)) => h2 //.
by have [_ _ _] := hE _ h1; rewrite h2.
Qed.

Theorem C69_graph (G : graph nat_eqType) (w : dart -> R) : simple_graph G -> (forall e, e \in gedges G -> w e != 0) ->
  let pos x := index x (gnodes G) in exists H,
  [/\ plot_graph G w = Ok H, directed H = false, wnodes H = iota 0 (size (gnodes G)), uniq (unzip1 (wedges H)) &
   forall (e : dart) x, (e, x) \in wedges H <->
     exists2 d, d \in gedges G & e = sort2 (pos d.1, pos d.2) /\ x = edge_weight (w d)].
Proof.
move=> sG nz pos; have sym := to_numpy_sym w sG; have [un ue hE] := sG.
set n := size (gnodes G); pose A : 'M[R]_n := mx_of (to_numpy_array G w).
have eA : to_numpy_array G w = ofR A by [].
have aA (i j : 'I_n) : A i j = get (to_numpy_array G w) i j by rewrite eA get_ofR.
have h : nearly_symmetric A.
  move=> i j; rewrite !aA sym /rclose subrr normr0 addr_ge0 ?mulr_ge0 ?invr_ge0 ?exprn_ge0 ?ler0n //.
have [H [h1 h2 h3 h4 h5]] := C69_undirected h; exists H; split=> // e x; rewrite h5.
have val_ij (i j : 'I_n) : A i j = let e := (nth 0%N (gnodes G) i, nth 0%N (gnodes G) j) in
    if e \in gedges G then w e else if (e.2, e.1) \in gedges G then w (e.2, e.1) else 0.
  by rewrite aA /to_numpy_array getE ?ltn_ord.
have pK (i : 'I_n) : pos (nth 0%N (gnodes G) i) = i by rewrite /pos index_uniq.
split=> [[i [j [-> ij nzA ->]]]|[[u v] huv [-> ->]]].
  move: nzA; rewrite val_ij /=; case: ifP => [hd _|_]; last case: ifP => [hd _|]; rewrite ?eqxx //.
    by eexists; first exact: hd; rewrite /= !pK /sort2 /= (minn_idPl (ltnW ij)) (maxn_idPr (ltnW ij)).
  by eexists; first exact: hd; rewrite /= !pK /sort2 /= (minn_idPr (ltnW ij)) (maxn_idPl (ltnW ij)).
have [/= hu hv uv hvu] := hE _ huv.
have pu : (pos u < n)%N by rewrite index_mem.
have pv : (pos v < n)%N by rewrite index_mem.
have nu : nth 0%N (gnodes G) (pos u) = u by rewrite nth_index.
have nv : nth 0%N (gnodes G) (pos v) = v by rewrite nth_index.
case: (ltngtP (pos u) (pos v)) => [lt|lt|e1]; last by move: uv; rewrite -nu -nv e1 eqxx.
  exists (Ordinal pu), (Ordinal pv); rewrite val_ij /= nu nv huv nz //.
  by rewrite /sort2 /= (minn_idPl (ltnW lt)) (maxn_idPr (ltnW lt)).
exists (Ordinal pv), (Ordinal pu); rewrite val_ij /= nu nv huv (negbTE hvu) nz //.
by rewrite /sort2 /= (minn_idPr (ltnW lt)) (maxn_idPl (ltnW lt)).
Qed.

(* weights with at most four decimals are kept *)
Theorem C69_exact (z : Z) : edge_weight (Rdiv (IZR z) (IZR 10000)) = Rdiv (IZR z) (IZR 10000).
Proof.
rewrite /edge_weight (_ : Rmult _ _ = IZR z) ?rnd_IZR //; field.
Qed.

(* so a graph on 0, ..., n-1 with such weights is returned unchanged, up to the order of its edges *)
Theorem C69_roundtrip n (G : graph nat_eqType) (w : dart -> R) : numbered n G ->
  (forall e, e \in gedges G -> w e != 0 /\ exists z : Z, w e = Rdiv (IZR z) (IZR 10000)) ->
  exists H, [/\ plot_graph G w = Ok H, directed H = false, wnodes H = gnodes G &
    perm_eq (wedges H) [seq (e, w e) | e <- gedges G]].
Proof.
move=> num hw; have [e1 e2 e3] := num.
have sG : simple_graph G.
  split=> [||[a b] he]; rewrite ?e1 ?iota_uniq //; have /= /andP[h1 h2] := e3 _ he.
  rewrite !mem_iota /= add0n h2 (ltn_trans h1 h2) (ltn_eqF h1); split=> //.
  by apply/negP => /e3 /= /andP[h3 _]; rewrite ltnNge (ltnW h1) in h3.
have nz e : e \in gedges G -> w e != 0 by case/hw.
have [H [h1 h2 h3 h4 h5]] := C69_graph sG nz; exists H; split=> //.
  by rewrite h3 e1 size_iota.
apply: uniq_perm; first by apply: (@map_uniq _ _ fst).
  by rewrite map_inj_uniq // => x y [].
have so e : e \in gedges G -> sort2 (index e.1 (gnodes G), index e.2 (gnodes G)) = e.
  move=> he; have := e3 e he; rewrite e1; case: e {he} => a b /= h.
  have ix c : (c < n)%N -> index c (iota 0 n) = c.
    by move=> hc; rewrite -{1}[c](@nth_iota 0%N 0 n) // index_uniq ?iota_uniq ?size_iota.
  by rewrite !ix /sort2 /=; [congr pair; lia|lia|lia].
have ew e : e \in gedges G -> edge_weight (w e) = w e.
  by case/hw=> _ [z ->]; exact: C69_exact.
move=> [e x]; apply/idP/mapP => [/h5[d hd [-> ->]]|[d hd [-> ->]]].
  by exists d; rewrite ?so ?ew.
by apply/h5; exists d; rewrite ?so ?ew.
Qed.

(* two nodes joined by an edge of weight 3/2 *)
Example C69_example : exists H, plot_graph (Graph [:: 0; 1; 2] [:: (0, 1); (1, 2)])%N (fun _ => Rdiv (IZR 15000) (IZR 10000)) = Ok H
  /\ perm_eq (wedges H) [:: ((0, 1)%N, Rdiv (IZR 15000) (IZR 10000)); ((1, 2)%N, Rdiv (IZR 15000) (IZR 10000))].
Proof.
have [|e he|H [h1 _ _ h2]] := @C69_roundtrip 3 (Graph [:: 0; 1; 2] [:: (0, 1); (1, 2)])%N (fun _ => Rdiv (IZR 15000) (IZR 10000)).
- by split=> // e; rewrite !inE => /orP[] /eqP ->.
- by split; [apply/eqP; apply: (Rgt_not_eq _ (IZR 0)); lra|eexists].
- by exists H.
Qed.
