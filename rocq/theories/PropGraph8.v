(* PropGraph8.v -- counting in non-planar graphs: property C11.  A plane graph has at most 3n - 6 edges. *)
Set Warnings "-notation-overridden,-ambiguous-paths".
From Coq Require Import Reals.
From mathcomp Require Import all_ssreflect all_algebra.
From mathcomp.zify Require Import zify.
From Verif Require Import Base ArrC MCombinatorics RealC MClean MGraph MGraphR GraphBrute GraphBfs.
From Verif Require Import GraphCount PropGraph4 PropGraph5 Planar GraphMap PlaneCheck.
Set Implicit Arguments.
Unset Strict Implicit.
Unset Printing Implicit Defensive.

Section Bound.
Variables (n : nat) (G : graph nat_eqType) (emb : embedding).
Hypothesis num : numbered n G.
Hypothesis pe : plane_embedding G emb.

Lemma alone u v : emb u v = Some v -> has_edge G u v -> forall x, has_edge G u x -> x = v.
Proof.
have [_ ot _ _] := pe; move=> h uv x ux; have [k] := ot u v x uv ux.
suff -> : iter k (obind (emb u)) (Some v) = Some v by case.
by elim: k => //= k ->.
Qed.

Lemma face_three f : 3 <= n -> closed_face emb f -> (forall d, d \in f -> has_edge G d.1 d.2) -> 3 <= size f.
Proof.
move=> n3; case: f => [|[a b] [|[c e] [|y s]]] // cf h.
  have := h _ (mem_head _ _) => /= /(edge_lt num)[_ _ ne].
  by move: cf; rewrite /= /follows /= andbT => /andP[/eqP e _]; rewrite e eqxx in ne.
move: cf; rewrite /= /follows /= andbT => /andP[/andP[/eqP e1 e2] /andP[/eqP e3 e4]]; subst c; subst a.
have eb : has_edge G e b by exact: (h _ (mem_head _ _)).
have be : has_edge G b e by rewrite has_edgeC.
have A1 := alone (eqP e4) eb; have A2 := alone (eqP e2) be.
have [le1 le2 _] := edge_lt num eb.
have [x xn xne] : exists2 x, x < n & (x != e) && (x != b).
  have [h0|h0] := boolP (0 \in [:: e; b]); last by exists 0; [lia|move: h0; rewrite !inE negb_or].
  have [h1|h1] := boolP (1 \in [:: e; b]); last by exists 1; [lia|move: h1; rewrite !inE negb_or].
  by exists 2 => //; move: h0 h1; rewrite !inE; clear; lia.
have [_ _ cn _] := pe; have [gn _ _] := num.
have [p [hp lp]] := cn e x ltac:(by rewrite gn mem_iota) ltac:(by rewrite gn mem_iota).
have W q z : (z == e) || (z == b) -> path (has_edge G) z q -> (last z q == e) || (last z q == b).
  elim: q z => [|t q IH] z hz //= /andP[zt hq]; apply: IH hq.
  by case/orP: hz zt => /eqP -> => [/A1|/A2] ->; rewrite eqxx ?orbT.
by have := W p e; rewrite eqxx lp => /(_ isT hp); move: xne; rewrite -negb_or => /negbTE ->.
Qed.

Lemma plane_edge_bound : 3 <= n -> size (gedges G) + 6 <= 3 * n.
Proof.
move=> n3; case: (boolP (nilp (gedges G))) => [/nilP ->|/nilP E0]; first by move: n3; clear; rewrite /=; lia.
have [rs _ _ eu] := pe; have [F [_ h1 h2 _]] := C12_faces None [::] E0 rs (leqnn _).
have pF : perm_eq (flatten F) (edgeset G).
  by apply/allP => d _ /=; rewrite h1 count_uniq_mem ?edgeset_uniq ?mem_edgeset.
have hE := eu F h2 pF; have [gn ue hlt] := num; rewrite gn size_iota in hE.
have hs : 3 * size F <= size (flatten F).
  have h3 f : f \in F -> 3 <= size f.
    move=> fF; apply: face_three => //; first exact: (allP h2).
    by move=> d df; rewrite -mem_edgeset -(perm_mem pF); apply/flattenP; exists f.
  elim: (F) h3 => // f s IH h3; rewrite /= size_cat mulnS leq_add ?h3 ?mem_head // IH // => g gs.
  by apply: h3; rewrite inE gs orbT.
move: hs; rewrite (perm_size pF) size_edgeset //; last first.
  move=> e he; apply/negP => h; have /andP[l1 _] := hlt _ he; have /andP[/= l2 _] := hlt _ h.
  by have := ltn_trans l1 l2; rewrite ltnn.
by move: (size F) (size (gedges G)) hE n3; clear=> a b; lia.
Qed.
End Bound.

(* ------------------------------------------------------------------ *)
(* C11: graphs with at most 15 nodes                                    *)
Theorem C11_small fuel G w X l : simple_graph G -> nx_planar X = false -> size (gnodes G) <= 15 -> enumerates G l ->
  count_perfect_matchings fuel G w X = Ok (OInt (Z.of_nat (size l))).
Proof.
move=> sG np hn en; rewrite /count_perfect_matchings np.
by rewrite (enum_size sG (enumerates_brute sG hn)) (enum_size sG en).
Qed.

(* every larger graph gets 0 *)
Theorem C11_refuted_large fuel G w X : nx_planar X = false -> 15 < size (gnodes G) ->
  count_perfect_matchings fuel G w X = Ok (OInt 0).
Proof.
by move=> np hn; rewrite /count_perfect_matchings np /find_perfect_matchings_brute hn; case: ifP.
Qed.

(* the complete graph on 0, ..., n-1 *)
Definition complete (n : nat) : graph nat_eqType :=
  Graph (iota 0 n) [seq e <- [seq (i, j) | i <- iota 0 n, j <- iota 0 n] | e.1 < e.2].

Lemma complete_mem n e : (e \in gedges (complete n)) = (e.1 < e.2 < n).
Proof.
rewrite mem_filter; case: e => i j; rewrite [_.1]/= [_.2]/=; case: ltnP => //= h.
by apply/allpairsP/idP => [[[a b] /= []]|jn]; [rewrite !mem_iota => _ hb [_ ->]|exists (i, j); rewrite /= !mem_iota /= !add0n jn (ltn_trans h)].
Qed.
Lemma complete_numbered n : numbered n (complete n).
Proof.
split=> // [|e]; last by rewrite complete_mem.
by rewrite filter_uniq // allpairs_uniq ?iota_uniq // => -[a b] [c d].
Qed.
Lemma complete_size n : 2 * size (gedges (complete n)) = n * n.-1.
Proof.
elim: n => // n IH.
have p : perm_eq (gedges (complete n.+1)) (gedges (complete n) ++ [seq (i, n) | i <- iota 0 n]).
  have [_ u1 _] := complete_numbered n.+1; have [_ u2 _] := complete_numbered n.
  apply: uniq_perm => //.
    rewrite cat_uniq u2 map_inj_uniq ?iota_uniq ?andbT; last by move=> a b [].
    by apply/hasPn => e /mapP[i _ ->]; rewrite -[X in ~~ X]/((i, n) \in gedges (complete n)) complete_mem /= ltnn andbF.
  move=> e; rewrite mem_cat !complete_mem; apply/idP/orP => [h|[h|/mapP[i]]].
  - have [e2|ne] := eqVneq e.2 n; last by left; move: h ne; clear; lia.
    by right; apply/mapP; exists e.1; [rewrite mem_iota; move: h e2; clear; lia|rewrite -e2 -surjective_pairing].
  - by move: h; clear; lia.
  by rewrite mem_iota => h -> /=; move: h; clear; lia.
rewrite (perm_size p) size_cat size_map size_iota mulnDr IH /=; clear; case: n => // n; nia.
Qed.

(* no embedding is plane: the graph is not planar *)
Lemma complete_nonplanar n emb : 5 <= n -> ~ plane_embedding (complete n) emb.
Proof.
move=> n5 pe; have := plane_edge_bound (complete_numbered n) pe (ltnW (ltnW n5)).
have := complete_size n; move: (size _) => m; case: n n5 {pe} => // n n5; rewrite /= => e b; nia.
Qed.
Lemma complete_matching n : ~~ odd n -> is_matching (complete n) [seq (2 * i, (2 * i).+1) | i <- iota 0 n./2].
Proof.
move=> ev; split.
- by rewrite map_inj_uniq ?iota_uniq // => a b [] h _; lia.
- move=> e /mapP[i]; rewrite mem_iota /= => h ->; rewrite complete_mem /=; lia.
move=> x; rewrite mem_iota /= add0n => hx; rewrite count_map.
rewrite (eq_in_count (a2 := pred1 x./2)); last first.
  by move=> i _ /=; rewrite /incident /=; lia.
by rewrite count_uniq_mem ?iota_uniq // mem_iota /=; lia.
Qed.

(* C11 is false for all larger complete graphs of even order: they are not planar, have a perfect matching, and the
   result is 0 *)
Theorem C11_refuted fuel n w X l : 15 < n -> ~~ odd n -> nx_planar X = false -> enumerates (complete n) l ->
  [/\ forall emb, ~ plane_embedding (complete n) emb, 0 < size l &
      count_perfect_matchings fuel (complete n) w X = Ok (OInt 0)].
Proof.
move=> hn ev np [_ en]; split; last by apply: C11_refuted_large; rewrite ?size_iota.
  by move=> emb; apply: complete_nonplanar; lia.
by have := en _ (complete_matching ev); case: l {en} => //; rewrite /=.
Qed.

Example C11_example fuel w X : nx_planar X = false -> count_perfect_matchings fuel (complete 6) w X = Ok (OInt 15).
Proof. by move=> np; rewrite /count_perfect_matchings np; congr (Ok (OInt _)); vm_compute. Qed.
