(* PropDist1.v -- properties C27-C32: distances and entropies of probability distributions. *)
Set Warnings "-notation-overridden,-ambiguous-paths".
From Coq Require Import Reals.
From mathcomp Require Import all_ssreflect all_algebra.
From mathcomp Require Import complex.
From mathcomp.zify Require Import zify.
From Verif Require Import Base ArrC MCombinatorics MLib MUtils RealC Info MDist PropUtils1 PropUtils2.
Set Implicit Arguments.
Unset Strict Implicit.
Unset Printing Implicit Defensive.
Import Order.Theory GRing.Theory Num.Theory.
Local Open Scope ring_scope.

Local Notation arr := (arr CR).
Local Notation input := (input CR).

(* a real vector of length n *)
Definition rvec n (p : 'I_n -> R) : seq R := [seq p i | i <- enum 'I_n].

Lemma size_rvec n (p : 'I_n -> R) : size (rvec p) = n.
Proof. by rewrite size_map size_enum_ord. Qed.
Lemma rvec_sum n (p : 'I_n -> R) (F : R -> R) : \sum_(x <- rvec p) F x = \sum_i F (p i).
Proof. by rewrite big_map big_enum. Qed.
Lemma zip_rvec n (p q : 'I_n -> R) : zip (rvec p) (rvec q) = [seq (p i, q i) | i <- enum 'I_n].
Proof. by rewrite /rvec; elim: (enum _) => //= i s ->. Qed.
Lemma broadcast_rvec n (p q : 'I_n -> R) : broadcast (rvec p) (rvec q) = Ok [seq (p i, q i) | i <- enum 'I_n].
Proof. by rewrite /broadcast !size_rvec eqxx zip_rvec. Qed.
Lemma eq_rvec n (p q : 'I_n -> R) : p =1 q -> rvec p = rvec q.
Proof. by move=> e; exact: eq_map. Qed.

(* ------------------------------------------------------------------ *)
(* which inputs denote a distribution                                  *)
(* ------------------------------------------------------------------ *)
Lemma pdf_vec n (x : input) (v : 'I_n -> CR) : cast_to_pdf x = Ok (vec v) -> pdf x = Ok (rvec (fun i => re (v i))).
Proof. by rewrite /pdf => ->; rewrite /= /rvec /vec -map_comp. Qed.

(* a probability vector is taken as it is unless its 2-norm is within 1e-8 + 1e-5 of 1 *)
Lemma pdf_vin n (p : 'I_n -> R) : dist p ->
  ~~ (`|Num.sqrt (\sum_i p i ^+ 2) - 1| <= (10%:R ^+ 8)^-1 + (10%:R ^+ 5)^-1) ->
  pdf (vin (rvec p)) = Ok (rvec p).
Proof.
move=> [p0 p1] nn.
have e : vin (rvec p) = V1 (vec (fun i => toC (p i))) by rewrite /vin /rvec -map_comp.
rewrite e; apply: (@pdf_vec n _ (fun i => toC (p i))).
rewrite C26_probability; last 2 first.
- by move=> i; rewrite toC_ge0.
- by rewrite -rmorph_sum /= p1 rmorph1.
rewrite ifF //; apply/negP => h; move/negP: nn; case; move: h.
have -> : \sum_i toC (p i) ^+ 2 = toC (\sum_i p i ^+ 2).
  by rewrite rmorph_sum; apply: eq_bigr => i _; rewrite rmorphX.
rewrite toC_sqrt ?sumr_ge0 // => [|i _]; last exact: sqr_ge0.
rewrite /near -toC_le -toC_norm rmorphB rmorph1 rmorphD !fmorphV !rmorphX /= !toC_nat.
exact.
Qed.

(* states give distributions: the diagonal *)
Lemma pdf_density n (M : 'M[CR]_n) : density M ->
  pdf (V2 (ofM M)) = Ok (rvec (fun i => re (M i i))) /\ dist (fun i => re (M i i)).
Proof.
move=> d; have [e s ge] := C26_density d; split; first exact: pdf_vec e.
split=> [i|]; first exact: re0.
by apply: toC_inj; rewrite rmorph_sum rmorph1 -s; apply: eq_bigr => i _; rewrite /= toC_re // ger0_real.
Qed.

(* point masses are taken as they are *)
Lemma pdf_delta n (k : 'I_n) : pdf (vin (rvec (fun i => (i == k)%:R))) = Ok (rvec (fun i => (i == k)%:R)).
Proof.
have -> : vin (rvec (fun i => (i == k)%:R)) = V1 (vec (fun i => (i == k)%:R : CR)).
  rewrite /vin /rvec -map_comp; congr V1; apply: eq_map => i /=; exact: toC_nat.
rewrite (pdf_vec (C26_delta CR k)); congr Ok; apply: eq_rvec => i; exact: re_nat.
Qed.

Section TwoDistributions.
Variables (n : nat) (x y : input) (p q : 'I_n -> R).
Hypotheses (px : pdf x = Ok (rvec p)) (qy : pdf y = Ok (rvec q)).

(* ================================================================== *)
(* C27  total variation distance                                       *)
(* ================================================================== *)
Lemma tvE : total_variation_distance x y = Ok (2%:R^-1 * \sum_i `|p i - q i|).
Proof.
by rewrite /total_variation_distance px /= qy /= broadcast_rvec /= big_map big_enum.
Qed.

End TwoDistributions.

Theorem C27_value n (x y : input) (p q : 'I_n -> R) : pdf x = Ok (rvec p) -> pdf y = Ok (rvec q) ->
  total_variation_distance x y = Ok (2%:R^-1 * \sum_i `|p i - q i|).
Proof. exact: tvE. Qed.

(* maximal difference in probability of an event *)
Theorem C27_events n (x y : input) (p q : 'I_n -> R) : pdf x = Ok (rvec p) -> pdf y = Ok (rvec q) ->
  dist p -> dist q -> exists2 d, total_variation_distance x y = Ok d &
    (forall A : {set 'I_n}, `|\sum_(i in A) p i - \sum_(i in A) q i| <= d) /\
    (exists A : {set 'I_n}, \sum_(i in A) p i - \sum_(i in A) q i = d).
Proof.
move=> px qy dp dq; exists (tv p q); first exact: C27_value px qy.
split=> [A|]; [exact: tv_event|exact: tv_attained].
Qed.

Theorem C27_metric n (x y z : input) (p q r : 'I_n -> R) :
  pdf x = Ok (rvec p) -> pdf y = Ok (rvec q) -> pdf z = Ok (rvec r) ->
  exists dxy, exists dyz, exists dxz,
  [/\ [/\ total_variation_distance x y = Ok dxy, total_variation_distance y z = Ok dyz &
          total_variation_distance x z = Ok dxz],
      total_variation_distance y x = Ok dxy,
      dxy = 0 <-> p =1 q,
      dxz <= dxy + dyz &
      0 <= dxy /\ (dist p -> dist q -> dxy <= 1)].
Proof.
move=> px qy rz; exists (tv p q), (tv q r), (tv p r).
split; [split; exact: C27_value|by rewrite (C27_value qy px) -/(tv q p) tv_sym|exact: tv_eq0|exact: tv_tri|].
by split; [exact: tv_ge0|exact: tv_le1].
Qed.

(* arrays of different lengths are rejected, except that a length-1 array is broadcast: the bound 1 then fails *)
Theorem C27_lengths n m (x y : input) (p : 'I_n -> R) (q : 'I_m -> R) : pdf x = Ok (rvec p) -> pdf y = Ok (rvec q) ->
  n != m -> n != 1%N -> m != 1%N -> total_variation_distance x y = Raise ValueError.
Proof.
move=> px qy nm /negPf n1 /negPf m1.
by rewrite /total_variation_distance px /= qy /= /broadcast !size_rvec (negPf nm) n1 m1.
Qed.

(* uniform distribution *)
Definition uni n : 'I_n -> R := fun _ => n%:R^-1.
Lemma dist_uni n : (0 < n)%N -> dist (@uni n).
Proof.
move=> n0; split=> [i|]; first by rewrite invr_ge0 ler0n.
by rewrite /uni sumr_const card_ord -[_ *+ n]mulr_natl mulfV // pnatr_eq0 -lt0n.
Qed.
Lemma eps_small : (10%:R ^+ 8)^-1 + (10%:R ^+ 5)^-1 <= 5%:R^-1 :> R.
Proof.
have h k : (10%:R ^+ k.+1)^-1 <= 10%:R^-1 :> R.
  by rewrite lef_pinv ?posrE ?exprn_gt0 ?ltr0n // exprS ler_pemulr ?ler0n // exprn_ege1 // ler1n.
apply: (le_trans (ler_add (h _) (h _))).
have -> : 10%:R^-1 = 2%:R^-1 * 5%:R^-1 :> R by rewrite -invfM -natrM.
by rewrite -mulrDr half2.
Qed.
(* 2-norm squared at most 1/2: never mistaken for a wavefunction *)
Lemma far (s : R) : s <= 2%:R^-1 -> ~~ (`|Num.sqrt s - 1| <= (10%:R ^+ 8)^-1 + (10%:R ^+ 5)^-1).
Proof.
move=> h; rewrite -ltNge (le_lt_trans eps_small) //.
have s34 : Num.sqrt s <= 3%:R / 4%:R.
  have t : 3%:R / 4%:R = Num.sqrt ((3%:R / 4%:R) ^+ 2) :> R.
    by rewrite sqrtr_sqr ger0_norm // divr_ge0 ?ler0n.
  by rewrite t ler_wsqrtr // (le_trans h) //; rlra.
by rewrite distrC (lt_le_trans _ (ler_norm _)) //; rlra.
Qed.
Lemma pdf_uni n : (1 < n)%N -> pdf (vin (rvec (@uni n))) = Ok (rvec (@uni n)).
Proof.
move=> n1; apply: pdf_vin; first exact/dist_uni/ltnW.
apply: far; rewrite /uni sumr_const card_ord -[_ *+ n]mulr_natl expr2 mulrA mulfV ?mul1r; last first.
  by rewrite pnatr_eq0 -lt0n ltnW.
by rewrite lef_pinv ?posrE ?ltr0n ?ler_nat // ltnW.
Qed.

(* a one-element distribution against a uniform one on four points: 3/2 *)
Theorem C27_broadcast_refuted : exists x y : input, exists p q,
  [/\ pdf x = Ok p, pdf y = Ok q, \sum_(t <- p) t = 1 /\ \sum_(t <- q) t = 1,
      all (fun t => 0 <= t) p && all (fun t => 0 <= t) q & exists2 d, total_variation_distance x y = Ok d & 1 < d].
Proof.
exists (vin (rvec (fun i : 'I_1 => (i == ord0)%:R))), (vin (rvec (@uni 4))).
exists (rvec (fun i : 'I_1 => (i == ord0)%:R)), (rvec (@uni 4)).
split; [exact: pdf_delta|exact: pdf_uni| | |].
- by rewrite !rvec_sum big_ord1 eqxx; split=> //; have [] := @dist_uni 4 isT.
- by apply/andP; split; apply/allP => t /mapP[i _ ->]; rewrite ?ler0n // invr_ge0 ler0n.
exists (3%:R / 2%:R); last by rlra.
rewrite /total_variation_distance pdf_delta pdf_uni //= /broadcast !size_rvec /= big_map /= rvec_sum.
have -> : rvec (fun i : 'I_1 => (i == ord0)%:R) = [:: 1] by rewrite /rvec enum_ordSl enum_ord0.
by rewrite /uni !big_ord_recr big_ord0 /= (_ : `|1 - 4%:R^-1| = 3%:R / 4%:R); [congr Ok; rlra|rewrite ger0_norm; rlra].
Qed.

(* point mass against uniform on two points *)
Example C27_example : total_variation_distance (vin (rvec (fun i : 'I_2 => (i == ord0)%:R))) (vin (rvec (@uni 2))) = Ok (2%:R^-1).
Proof.
rewrite (C27_value (pdf_delta _) (pdf_uni _)) // !big_ord_recr big_ord0 /= /uni; congr Ok.
by rewrite (ger0_norm (_ : 0 <= 1 - 2%:R^-1)) ?(ler0_norm (_ : 0%:R - 2%:R^-1 <= 0)); rlra.
Qed.

(* ================================================================== *)
(* C28  Kullback-Leibler divergence                                    *)
(* ================================================================== *)
Lemma esum_Fin (I : Type) (s : seq I) (F : I -> ext) (f : I -> R) : (forall i, F i = Fin (f i)) ->
  esum [seq F i | i <- s] = Fin (\sum_(i <- s) f i).
Proof. by move=> h; elim: s => [|i s IH] /=; rewrite ?big_nil // big_cons h IH. Qed.

Lemma esum_PInf (I : eqType) (s : seq I) (F : I -> ext) : (forall i, F i = PInf \/ exists a, F i = Fin a) ->
  (exists2 i, i \in s & F i = PInf) -> esum [seq F i | i <- s] = PInf.
Proof.
move=> h; have g (l : seq I) : esum [seq F i | i <- l] = PInf \/ exists a, esum [seq F i | i <- l] = Fin a.
  elim: l => [|i l IH] /=; first by right; exists 0.
  case: (h i) => [->|[a ->]]; case: IH => [->|[b ->]]; [by left|by left|by left|by right; exists (a + b)].
elim: s => [|i s IH] /= [j]; rewrite ?in_nil // inE => /orP[/eqP -> -> /=|js e].
  by case: (g s) => [->|[b ->]].
by rewrite IH; [case: (h i) => [->|[a ->]]|exists j].
Qed.

Lemma rel_entrE (a b : R) : 0 <= a -> 0 <= b -> (b = 0 -> a = 0) -> rel_entr a b = Fin (klterm a b).
Proof.
move=> a0 b0 h; rewrite /rel_entr /klterm; case: (eqVneq a 0) => [->|an0]; first by rewrite ltxx b0.
have ap : 0 < a by rewrite lt_def an0 a0.
have bp : 0 < b by rewrite lt_def b0 andbT; apply: contra an0 => /eqP/h ->.
by rewrite ap bp.
Qed.
Lemma rel_entr_inf (a b : R) : 0 < a -> b = 0 -> rel_entr a b = PInf.
Proof. by move=> a0 ->; rewrite /rel_entr ltxx andbF gt_eqF. Qed.

Lemma entropy2E n (p q : 'I_n -> R) : dist p -> dist q -> (forall i, q i = 0 -> p i = 0) ->
  entropy2 (rvec p) (rvec q) = Ok (Fin (kl p q)).
Proof.
move=> dp dq h; rewrite /entropy2 rvec_sum dp.2.
have -> : [seq x / 1 | x <- rvec p] = rvec p by rewrite -[RHS]map_id; apply: eq_map => t; rewrite divr1.
rewrite broadcast_rvec /= big_map big_enum /= dq.2 -map_comp; congr Ok.
rewrite (@esum_Fin _ _ _ (fun i => klterm (p i) (q i))) ?big_enum // => i /=.
by rewrite divr1 rel_entrE ?dp.1 ?dq.1 //; exact: h.
Qed.

Lemma entropy2_inf n (p q : 'I_n -> R) : dist p -> dist q -> (exists i, 0 < p i /\ q i = 0) ->
  entropy2 (rvec p) (rvec q) = Ok PInf.
Proof.
move=> dp dq [i [pi qi]]; rewrite /entropy2 rvec_sum dp.2.
have -> : [seq x / 1 | x <- rvec p] = rvec p by rewrite -[RHS]map_id; apply: eq_map => t; rewrite divr1.
rewrite broadcast_rvec /= big_map big_enum /= dq.2 -map_comp; congr Ok; apply: esum_PInf => [j /=|].
  rewrite /rel_entr; case: ifP => _; first by right; eexists.
  by case: ifP => _; [right; exists 0|left].
by exists i; rewrite ?mem_enum //= divr1 rel_entr_inf.
Qed.

Theorem C28_finite n (x y : input) (p q : 'I_n -> R) : pdf x = Ok (rvec p) -> pdf y = Ok (rvec q) ->
  dist p -> dist q -> (forall i, q i = 0 -> p i = 0) ->
  exists d, [/\ relative_entropy x y = Ok (Fin d), d = \sum_(i | p i != 0) p i * ln (p i / q i), 0 <= d &
                d = 0 <-> p =1 q].
Proof.
move=> px qy dp dq h; exists (kl p q); split.
- by rewrite /relative_entropy px /= qy /= entropy2E.
- by rewrite [RHS]big_mkcond; apply: eq_bigr => i _; rewrite /klterm; case: eqP.
- exact: kl_ge0.
- exact: kl_eq0.
Qed.

Theorem C28_infinite n (x y : input) (p q : 'I_n -> R) : pdf x = Ok (rvec p) -> pdf y = Ok (rvec q) ->
  dist p -> dist q -> (relative_entropy x y = Ok PInf <-> exists i, 0 < p i /\ q i = 0).
Proof.
move=> px qy dp dq; split=> [|h]; last by rewrite /relative_entropy px /= qy /= entropy2_inf.
case: (boolP [exists i, (0 < p i) && (q i == 0)]) => [/existsP[i /andP[h /eqP h']] _|/existsPn h]; first by exists i.
rewrite /relative_entropy px /= qy /= entropy2E // => i qi; apply/eqP.
have := h i; rewrite qi eqxx andbT -leNgt => le0; by rewrite eq_le le0 dp.1.
Qed.

Example C28_example :
  relative_entropy (vin (rvec (fun i : 'I_2 => (i == ord0)%:R))) (vin (rvec (@uni 2))) = Ok (Fin (ln 2%:R)) /\
  relative_entropy (vin (rvec (@uni 2))) (vin (rvec (fun i : 'I_2 => (i == ord0)%:R))) = Ok PInf.
Proof.
have dd : dist (fun i : 'I_2 => (i == ord0)%:R : R).
  by split=> [i|]; rewrite ?ler0n // !big_ord_recr big_ord0 /= add0r addr0.
have du := @dist_uni 2 isT.
split; last first.
  apply/(C28_infinite (pdf_uni _) (pdf_delta _)) => //; exists (inord 1).
  by rewrite /uni -val_eqE /= inordK // invr_gt0 ltr0n.
have u0 (i : 'I_2) : @uni 2 i = 0 -> (i == ord0)%:R = 0 :> R by move/eqP; rewrite invr_eq0 pnatr_eq0.
have [d [-> -> _ _]] := C28_finite (pdf_delta _) (pdf_uni (ltnSn 1)) dd du u0.
rewrite big_mkcond !big_ord_recr big_ord0 /= add0r oner_neq0 eqxx addr0 mul1r /uni div1r invrK //.
Qed.

(* ================================================================== *)
(* C29  Jensen-Shannon divergence                                      *)
(* ================================================================== *)
Lemma jsE n (x y : input) (p q : 'I_n -> R) : pdf x = Ok (rvec p) -> pdf y = Ok (rvec q) ->
  dist p -> dist q -> jensen_shannon_divergence x y = Ok (Fin (js p q)).
Proof.
move=> px qy dp dq; rewrite /jensen_shannon_divergence px /= qy /= broadcast_rvec /= -map_comp.
have -> : [seq ((fun z => 2%:R^-1 * (z.1 + z.2)) \o (fun i => (p i, q i))) i | i <- enum 'I_n] = rvec (mid p q).
  by apply: eq_map.
by rewrite !entropy2E //=; [exact: dist_mid|move=> i; exact: mid0r|exact: dist_mid|move=> i; exact: mid0].
Qed.

Theorem C29_js n (x y : input) (p q : 'I_n -> R) : pdf x = Ok (rvec p) -> pdf y = Ok (rvec q) ->
  dist p -> dist q -> exists d,
  [/\ jensen_shannon_divergence x y = Ok (Fin d), jensen_shannon_divergence y x = Ok (Fin d),
      0 <= d <= ln 2%:R, d = 0 <-> p =1 q &
      d = 2%:R^-1 * (\sum_(i | p i != 0) p i * ln (p i / (2%:R^-1 * (p i + q i))) +
                     \sum_(i | q i != 0) q i * ln (q i / (2%:R^-1 * (p i + q i))))].
Proof.
move=> px qy dp dq; exists (js p q); split.
- exact: jsE.
- by rewrite (jsE qy px) // js_sym.
- by rewrite js_ge0 // js_le.
- exact: js_eq0.
- rewrite /js /kl; congr (_ * (_ + _)); rewrite [RHS]big_mkcond; apply: eq_bigr => i _; rewrite /klterm; by case: eqP.
Qed.

(* the bound log 2 is attained exactly by disjoint supports *)
Theorem C29_maximal n (x y : input) (p q : 'I_n -> R) : pdf x = Ok (rvec p) -> pdf y = Ok (rvec q) ->
  dist p -> dist q -> (forall i, p i = 0 \/ q i = 0) -> jensen_shannon_divergence x y = Ok (Fin (ln 2%:R)).
Proof.
move=> px qy dp dq h; rewrite (jsE px qy) //; congr (Ok (Fin _)).
have g (r : 'I_n -> R) (m : 'I_n -> R) : dist r -> (forall i, r i != 0 -> m i = 2%:R^-1 * r i) -> kl r m = ln 2%:R.
  move=> dr hm; rewrite -[RHS]mul1r -{1}dr.2 mulr_suml; apply: eq_bigr => i _; rewrite /klterm.
  case: eqP => [->|/eqP ni]; first by rewrite mul0r.
  by rewrite hm // invfM invrK mulrCA mulfV // mulr1.
rewrite /js !g ?half2 // => i ni; rewrite /mid; case: (h i) => e; rewrite e ?addr0 ?add0r //.
  by rewrite e eqxx in ni.
by rewrite e eqxx in ni.
Qed.

Example C29_example : jensen_shannon_divergence (vin (rvec (fun i : 'I_2 => (i == ord0)%:R)))
  (vin (rvec (fun i : 'I_2 => (i == ord_max)%:R))) = Ok (Fin (ln 2%:R)).
Proof.
apply: (C29_maximal (pdf_delta _) (pdf_delta _)) => [||[[|[|//]] hi]]; try by [left|right].
  by split=> [i|]; rewrite ?ler0n // !big_ord_recr big_ord0 /= add0r addr0.
by split=> [i|]; rewrite ?ler0n // !big_ord_recr big_ord0 /= add0r add0r.
Qed.

(* ================================================================== *)
(* C30  Bhattacharyya coefficient                                      *)
(* ================================================================== *)
Theorem C30_bc n (x y : input) (p q : 'I_n -> R) : pdf x = Ok (rvec p) -> pdf y = Ok (rvec q) ->
  dist p -> dist q -> exists b, exists2 t, total_variation_distance x y = Ok t &
  [/\ bhattacharyya_coeff x y = Ok (Fin b) /\ bhattacharyya_coeff y x = Ok (Fin b),
      b = \sum_i Num.sqrt (p i * q i) /\ 0 <= b <= 1, b = 1 <-> p =1 q,
      b = 0 <-> (forall i, p i = 0 \/ q i = 0) & 1 - b <= t].
Proof.
move=> px qy dp dq; exists (bc p q), (tv p q); first exact: C27_value px qy.
have e (z w : input) (r s : 'I_n -> R) : pdf z = Ok (rvec r) -> pdf w = Ok (rvec s) -> dist r -> dist s ->
  bhattacharyya_coeff z w = Ok (Fin (bc r s)).
  move=> rz sw dr ds; rewrite /bhattacharyya_coeff rz /= sw /= broadcast_rvec /= -map_comp.
  rewrite (@esum_Fin _ _ _ (fun i => Num.sqrt (r i * s i))) ?big_enum // => i /=.
  by rewrite /esqrt mulr_ge0 ?dr.1 ?ds.1.
split.
- by rewrite (e _ _ _ _ px qy) // (e _ _ _ _ qy px) // bc_sym.
- by rewrite bc_ge0 bc_le1.
- exact: bc_eq1.
- exact: bc_eq0.
- exact: bc_tv.
Qed.

Example C30_example : bhattacharyya_coeff (vin (rvec (fun i : 'I_2 => (i == ord0)%:R))) (vin (rvec (@uni 2))) =
  Ok (Fin (Num.sqrt 2%:R^-1)).
Proof.
have dd : dist (fun i : 'I_2 => (i == ord0)%:R : R).
  by split=> [i|]; rewrite ?ler0n // !big_ord_recr big_ord0 /= add0r addr0.
have [b [t _ [[-> _] [-> _] _ _ _]]] := C30_bc (pdf_delta _) (pdf_uni (ltnSn 1)) dd (@dist_uni 2 isT).
by rewrite !big_ord_recr big_ord0 /= add0r mul1r mul0r sqrtr0 addr0.
Qed.

(* ================================================================== *)
(* C31  Renyi entropies                                                *)
(* ================================================================== *)
(* textbook definition, with x^a = exp(a ln x) on the support *)
Definition renyi n (p : 'I_n -> R) (a : R) : R :=
  if a == 1 then - \sum_(i | p i != 0) p i * ln (p i)
  else ln (\sum_(i | p i != 0) exp (a * ln (p i))) / (1 - a).

Lemma renyi_S n (p : 'I_n -> R) a : dist p -> renyi p a = S p (a - 1).
Proof.
move=> dp; rewrite /renyi /S subr_eq0; case: eqP => [_|/eqP a1].
  congr (- _); rewrite big_mkcond; apply: eq_bigr => i _; by case: eqP => [->|//]; rewrite mul0r.
rewrite -mulrN -invrN opprB; congr (ln _ / _); rewrite big_mkcond; apply: eq_bigr => i _.
case: eqP => [->|/eqP ni] /=; first by rewrite mul0r.
have pi : 0 < p i by rewrite lt_def ni dp.1.
by rewrite -{2}(expRK pi) -expRD mulrBl mul1r addrC subrK.
Qed.

Lemma rvec_count n (p : 'I_n -> R) : count (fun x => x != 0) (rvec p) = #|[pred i | p i != 0]|.
Proof.
rewrite /rvec count_map cardE -size_filter; congr size.
by rewrite enumT; apply: eq_filter => i; rewrite inE.
Qed.

Theorem C31_value n (x : input) (p : 'I_n -> R) a : pdf x = Ok (rvec p) -> dist p -> 0 <= a ->
  renyi_entropy x (Ord a) = Ok (Fin (renyi p a)).
Proof.
move=> px dp a0; rewrite /renyi_entropy px /=; case: eqP => [->|/eqP a1].
  congr Ok; rewrite /entropy1 rvec_sum dp.2 /rvec -map_comp.
  rewrite (@esum_Fin _ _ _ (fun i => - (p i * ln (p i)))) ?big_enum => [|i /=].
    rewrite /renyi eqxx -sumrN [in RHS]big_mkcond; congr Fin; apply: eq_bigr => i _.
    by case: eqP => [->|//]; rewrite mul0r oppr0.
  rewrite divr1 /entr; case: ifP => // pi; have := dp.1 i.
  by rewrite le_eqVlt eq_sym pi orbF => h; rewrite h (eqP h) mul0r oppr0.
case: eqP => [->|/eqP an0].
  congr (Ok (Fin _)); rewrite rvec_count /renyi eq_sym oner_eq0 subr0 divr1; congr ln.
  rewrite (eq_bigr (fun=> 1)) ?sumr_const // => i _; by rewrite mul0r expR0.
congr (Ok (Fin _)); rewrite rvec_sum /renyi (negPf a1).
have e : \sum_i rpow `|p i| a = \sum_(i | p i != 0) exp (a * ln (p i)).
  rewrite [RHS]big_mkcond; apply: eq_bigr => i _; rewrite /rpow normr_eq0 ger0_norm ?dp.1 //.
  by case: eqP.
have zp : 0 < \sum_(i | p i != 0) exp (a * ln (p i)).
  have [i pi] := dist_pos dp; rewrite (bigD1 i) ?gt_eqF //= ltr_spaddl ?expR_gt0 // sumr_ge0 // => j _.
  exact: expR_ge0.
by rewrite e ln_rpow // mulrACA mulVf // mul1r.
Qed.

Theorem C31_inf n (x : input) (p : 'I_n -> R) : pdf x = Ok (rvec p) -> dist p ->
  exists2 m, renyi_entropy x OInf = Ok (Fin (- ln m)) & (forall i, p i <= m) /\ (exists i, p i = m).
Proof.
move=> px dp; have [i0 _] := dist_pos dp; have n0 : (0 < n)%N := leq_ltn_trans (leq0n _) (ltn_ord i0).
exists (amax (rvec p)); first by rewrite /renyi_entropy px /= /nilp size_rvec eqn0Ngt n0.
have h (s : seq R) d : (forall t, t \in s -> t <= foldr Num.max d s) /\ foldr Num.max d s \in d :: s.
  elim: s => [|t s [IH1 IH2]]; first by rewrite mem_head.
  split=> [u|] /=; first by rewrite inE le_maxr => /orP[/eqP ->|/IH1 ->]; rewrite ?lexx ?orbT.
  rewrite !inE maxEle; case: ifP => _; last by rewrite eqxx orbT.
  by move: IH2; rewrite inE => /orP[->|->]; rewrite ?orbT.
have [h1 h2] := h (rvec p) (head 0 (rvec p)).
split=> [i|]; first by apply: h1; apply/mapP; exists i; rewrite ?mem_enum.
have : amax (rvec p) \in rvec p.
  move: h2; rewrite inE -/(amax _) => /orP[/eqP ->|//].
  have : (0 < size (rvec p))%N by rewrite size_rvec.
  by case: (rvec p) => [|t s] //= _; rewrite mem_head.
by case/mapP => i _ e; exists i.
Qed.

Lemma renyi_any n (x : input) (p : 'I_n -> R) (a : order) : pdf x = Ok (rvec p) -> dist p ->
  (if a is Ord a then 0 <= a else true) -> exists s, renyi_entropy x a = Ok (Fin s).
Proof.
move=> px dp; case: a => [a a0|_]; first by exists (renyi p a); exact: C31_value.
by have [m -> _] := C31_inf px dp; exists (- ln m).
Qed.

Theorem C31_bounds n (x : input) (p : 'I_n -> R) (a : order) : pdf x = Ok (rvec p) -> dist p ->
  (if a is Ord a then 0 <= a else true) ->
  exists2 s, renyi_entropy x a = Ok (Fin s) & 0 <= s <= ln n%:R.
Proof.
move=> px dp; case: a => [a a0|_].
  exists (renyi p a); first exact: C31_value.
  by rewrite renyi_S // S_ge0 // S_le // ler_subr_addr addNr.
have [m e [pm [i pi]]] := C31_inf px dp; exists (- ln m) => //.
rewrite (le_trans (S_max 0 dp pm)) ?S_le // ?oppr_le0 ?ler01 // andbT oppr_ge0 ln_le0 //.
  by have [j pj] := dist_pos dp; exact: lt_le_trans pj (pm j).
by rewrite -pi dist_le1.
Qed.

(* non-increasing in the order *)
Definition ord_le (a b : order) : Prop :=
  match a, b with Ord a, Ord b => 0 <= a <= b | Ord a, OInf => 0 <= a | OInf, OInf => True | OInf, Ord _ => False end.

Theorem C31_monotone n (x : input) (p : 'I_n -> R) (a b : order) : pdf x = Ok (rvec p) -> dist p -> ord_le a b ->
  exists sa, exists2 sb, renyi_entropy x a = Ok (Fin sa) & renyi_entropy x b = Ok (Fin sb) /\ sb <= sa.
Proof.
move=> px dp; case: a b => [a|] [b|] //=.
- move=> /andP[a0 ab]; exists (renyi p a), (renyi p b); first exact: C31_value.
  split; first by apply: C31_value => //; exact: le_trans ab.
  by rewrite !renyi_S // S_anti // ler_add2r.
- move=> a0; have [m e [pm _]] := C31_inf px dp; exists (renyi p a), (- ln m); first exact: C31_value.
  by split=> //; rewrite renyi_S // S_max.
- by move=> _; have [m e _] := C31_inf px dp; exists (- ln m), (- ln m).
Qed.

(* flat distributions on m points: log m for every order; uniform and point masses are the two extremes *)
Theorem C31_flat n (x : input) (p : 'I_n -> R) (a : order) (c : R) : pdf x = Ok (rvec p) -> dist p ->
  (if a is Ord a then 0 <= a else true) -> (forall i, p i = 0 \/ p i = c) ->
  renyi_entropy x a = Ok (Fin (- ln c)).
Proof.
move=> px dp; case: a => [a a0|_] fl; first by rewrite (C31_value px) // renyi_S // (S_flat _ dp fl).
have [m -> [pm [i pi]]] := C31_inf px dp; congr (Ok (Fin (- ln _))).
have [j pj] := dist_pos dp; have m0 : 0 < m := lt_le_trans pj (pm j).
by case: (fl i) => e; move: m0; rewrite -pi e // ltxx.
Qed.

Theorem C31_uniform n (a : order) : (1 < n)%N -> (if a is Ord a then 0 <= a else true) ->
  renyi_entropy (vin (rvec (@uni n))) a = Ok (Fin (ln n%:R)).
Proof.
move=> n1 a0; have n0 : (0 < n)%N by exact: ltnW.
rewrite (C31_flat (pdf_uni n1) (dist_uni n0) a0 (c := n%:R^-1)) => [|i]; last by right.
by rewrite lnV ?opprK ?ltr0n.
Qed.

Lemma dist_delta n (k : 'I_n) : dist (fun i => (i == k)%:R : R).
Proof.
split=> [i|]; first by rewrite ler0n.
by rewrite (bigD1 k) //= eqxx big1 ?addr0 // => i /negPf ->.
Qed.

Theorem C31_point_mass n (k : 'I_n) (a : order) : (if a is Ord a then 0 <= a else true) ->
  renyi_entropy (vin (rvec (fun i => (i == k)%:R))) a = Ok (Fin 0).
Proof.
move=> a0; rewrite (C31_flat (pdf_delta k) (dist_delta k) a0 (c := 1)) ?lnR1 ?oppr0 // => i.
by case: (i == k); [right|left].
Qed.

(* a biased coin: collision entropy of (3/4, 1/4) *)
Example C31_example : let p := fun i : 'I_2 => if i == ord0 then 3%:R / 4%:R else 4%:R^-1 : R in
  renyi_entropy (vin (rvec p)) (Ord 2%:R) = Ok (Fin (- ln (10%:R / 16%:R))).
Proof.
move=> p; have dp : dist p.
  split=> [i|]; first by rewrite /p; case: ifP => _; rlra.
  by rewrite !big_ord_recr big_ord0 /= /p /=; rlra.
have s2 : \sum_i p i ^+ 2 = 10%:R / 16%:R by rewrite !big_ord_recr big_ord0 /= /p /=; rlra.
rewrite (@C31_value _ _ p) ?ler0n //; last first.
  apply: pdf_vin => //; rewrite s2 -ltNge (le_lt_trans eps_small) //.
  have s45 : Num.sqrt (10%:R / 16%:R) < 4%:R / 5%:R :> R.
    have -> : 4%:R / 5%:R = Num.sqrt ((4%:R / 5%:R) ^+ 2) :> R by rewrite sqrtr_sqr ger0_norm //; rlra.
    by rewrite ltr_sqrt; rlra.
  by rewrite distrC (lt_le_trans _ (ler_norm _)) //; rlra.
rewrite /renyi (_ : (2%:R == 1) = false); last by rewrite -[1]/(1%:R) eqr_nat.
rewrite (_ : 1 - 2%:R = -1); last by rlra.
rewrite invrN1 mulrN1; congr (Ok (Fin (- ln _))); rewrite -s2 (eq_bigl predT) => [|i].
  by apply: eq_bigr => i _; rewrite -lnX ?expRK //; [rewrite exprn_gt0 //|]; rewrite /p; case: ifP => _; rlra.
by rewrite /p /=; apply/eqP; case: ifP => _ h; have := h; rlra.
Qed.

(* ================================================================== *)
(* C32  linear entropy                                                 *)
(* ================================================================== *)
Lemma sqrt_nat d : (Nat.sqrt d * Nat.sqrt d <= d < (Nat.sqrt d).+1 * (Nat.sqrt d).+1)%N.
Proof. have := Nat.sqrt_spec d (Nat.le_0_l d); lia. Qed.
Lemma Nat_sqrt_sq k : Nat.sqrt (k * k) = k. Proof. exact: Nat.sqrt_square. Qed.

Lemma linear_of n (x : input) (p : 'I_n -> R) : pdf x = Ok (rvec p) ->
  linear_entropy x = if rclose (Num.sqrt n%:R - (Nat.sqrt n)%:R) 0 then Ok (1 - \sum_i p i ^+ 2) else Raise AssertionError.
Proof.
move=> px; rewrite /linear_entropy px /= size_rvec; case: ifP => _ //=.
rewrite !rvec_sum (eq_bigr (fun i => p i ^+ 2)) => [|i _]; last by rewrite -normrX ger0_norm ?sqr_ge0.
rewrite sqr_sqrtr ?sumr_ge0 // => [|i _]; last exact: sqr_ge0.
rewrite /rclose subrr normr0 (_ : _ <= _ = true) //; apply/idP.
by rewrite addr_ge0 ?mulr_ge0 ?invr_ge0 ?exprn_ge0 ?ler0n.
Qed.

Lemma Fz0 : (10%:R ^+ 8)^-1 + (10%:R ^+ 5)^-1 * `|0 : R| = (10%:R ^+ 8)^-1.
Proof. by rewrite normr0 mulr0 addr0. Qed.

Theorem C32_value k (x : input) (p : 'I_(k * k) -> R) : pdf x = Ok (rvec p) -> dist p ->
  exists s, [/\ linear_entropy x = Ok s, s = 1 - \sum_i p i ^+ 2, 0 <= s <= 1 - (k * k)%:R^-1,
    renyi_entropy x (Ord 2%:R) = Ok (Fin (- ln (1 - s))) & s = 0 <-> exists i, p i = 1].
Proof.
move=> px dp; exists (1 - \sum_i p i ^+ 2).
have kk : (0 < k * k)%N by have [[i hi] _] := dist_pos dp; exact: leq_ltn_trans hi.
have k0 : (k * k)%:R != 0 :> R by rewrite pnatr_eq0 -lt0n.
have le1 i : 0 <= p i - p i ^+ 2.
  by rewrite expr2 -[X in X - _]mulr1 -mulrBr mulr_ge0 ?subr_ge0 ?dist_le1 ?dp.1.
have gap : 1 - \sum_i p i ^+ 2 = \sum_i (p i - p i ^+ 2) by rewrite sumrB dp.2.
split=> //.
- rewrite (linear_of px) ifT // Nat_sqrt_sq natrM -expr2 sqrtr_sqr ger0_norm ?ler0n // subrr.
  by rewrite /rclose subrr Fz0 normr0 invr_ge0 exprn_ge0 // ler0n.
- apply/andP; split; first by rewrite gap sumr_ge0.
  rewrite ler_add2l ler_opp2; set c := (k * k)%:R^-1.
  have : 0 <= \sum_i (p i - c) ^+ 2 by apply: sumr_ge0 => i _; exact: sqr_ge0.
  rewrite (eq_bigr (fun i => p i ^+ 2 + (c ^+ 2 + (- (2%:R * c)) * p i))); last by move=> i _; rring.
  rewrite !big_split /= -!mulr_sumr dp.2 sumr_const card_ord -[c *+ (k * k)]mulr_natl.
  by rewrite mulfV // !mulr1; move: (\sum_i _) c => s c h; rlra.
- rewrite (C31_value px dp) ?ler0n // /renyi (_ : (2%:R == 1) = false); last by rewrite -[1]/(1%:R) eqr_nat.
  rewrite (_ : 1 - 2%:R = -1); last by rlra.
  rewrite invrN1 mulrN1; congr (Ok (Fin (- ln _))); rewrite opprB addrCA subrr addr0 big_mkcond.
  apply: eq_bigr => i _; case: eqP => [->|/eqP ni] /=; first by rewrite expr0n.
  by rewrite -lnX ?expRK ?exprn_gt0 // lt_def ni dp.1.
split=> [/eqP|[i pi]].
  rewrite gap psumr_eq0 // => /allP h; have [i pi] := dist_pos dp; exists i.
  have := h i (mem_index_enum _); rewrite /= expr2 -[X in X - _]mulr1 -mulrBr mulf_eq0 gt_eqF //=.
  by rewrite subr_eq0 => /eqP.
have z j : j != i -> p j = 0.
  move=> ji; have : \sum_(l | l != i) p l = 0.
    by have := dp.2; rewrite (bigD1 i) //= pi => /eqP; rewrite -[X in _ == X]addr0 (inj_eq (addrI _)) => /eqP.
  by move/eqP; rewrite psumr_eq0 ?dp.1 => [/allP/(_ j (mem_index_enum _))|l _]; rewrite ?ji ?dp.1 // => /eqP.
by rewrite (bigD1 i) //= pi expr1n big1 ?addr0 ?subrr // => j /z ->; rewrite expr0n.
Qed.

(* lengths that are not squares are rejected up to (5e7)^2 = 2.5e15 *)
Theorem C32_not_square n (x : input) (p : 'I_n -> R) : pdf x = Ok (rvec p) -> (forall k, n <> (k * k)%N) ->
  (2 * Nat.sqrt n + 1)%:R < 10%:R ^+ 8 :> R -> linear_entropy x = Raise AssertionError.
Proof.
move=> px ns small; rewrite (linear_of px) ifF //; apply/negbTE.
have /andP[lo hi] := sqrt_nat n; set k := Nat.sqrt n in lo hi small *.
have {}lo : (k * k + 1 <= n)%N by have := ns k; lia.
set s : R := Num.sqrt n%:R; have s0 : 0 <= s := sqrtr_ge0 _.
have s2 : s * s = n%:R by rewrite -expr2 sqr_sqrtr // ler0n.
have sk : s < k.+1%:R.
  by rewrite -(ltr_pexpn2r (ltn0Sn 1)) ?nnegrE ?ler0n // !expr2 s2 -natrM ltr_nat.
have ks : k%:R <= s.
  by rewrite -(ler_pexpn2r (ltn0Sn 1)) ?nnegrE ?ler0n // !expr2 s2 -natrM ler_nat; lia.
rewrite /rclose Fz0 subr0 ger0_norm ?subr_ge0 // -ltNge.
have pp : 0 < (2 * k + 1)%:R :> R by rewrite ltr0n; lia.
have h0 : (10%:R ^+ 8)^-1 < (2 * k + 1)%:R^-1 :> R by rewrite ltf_pinv ?posrE ?exprn_gt0 ?ltr0n //; lia.
apply: (lt_le_trans h0); rewrite -(ler_pmul2r pp) mulVf ?gt_eqF //.
have h1 : (s - k%:R) * (s + k%:R) <= (s - k%:R) * (2 * k + 1)%:R.
  by rewrite ler_wpmul2l ?subr_ge0 // natrD natrM; move: sk; rewrite -addn1 natrD; clear -s; move: (k%:R) => K h; rlra.
have h2 : 1 <= (s - k%:R) * (s + k%:R).
  have -> : (s - k%:R) * (s + k%:R) = n%:R - (k * k)%:R by rewrite natrM -s2; rring.
  by rewrite ler_subr_addr -[1]/(1%:R) -natrD ler_nat addnC.
exact: le_trans h1.
Qed.

(* refuted beyond: every distribution whose length is k^2 + 1 with k >= 1e8 is accepted *)
Theorem C32_not_square_refuted k (x : input) (p : 'I_(k * k + 1) -> R) : pdf x = Ok (rvec p) ->
  10%:R ^+ 8 <= k%:R :> R -> linear_entropy x = Ok (1 - \sum_i p i ^+ 2) /\ (forall l, k * k + 1 <> l * l)%N.
Proof.
move=> px big; have kp : 0 < k%:R :> R by apply: lt_le_trans big; rewrite exprn_gt0 // ltr0n.
have k0 : (0 < k)%N by rewrite -(ltr0n [numDomainType of R]).
split; last first.
  move=> l e; have [h|h] : (l <= k \/ k.+1 <= l)%N by lia.
    by have : (l * l <= k * k)%N; [exact: leq_mul|lia].
  by have : (k.+1 * k.+1 <= l * l)%N; [exact: leq_mul|lia].
rewrite (linear_of px) ifT //.
have -> : Nat.sqrt (k * k + 1) = k.
  have /andP[lo hi] := sqrt_nat (k * k + 1); move: lo hi; move: (Nat.sqrt _) => m lo hi.
  by apply/eqP; rewrite eqn_leq; apply/andP; split; rewrite leqNgt; apply/negP => h;
    [have : (k.+1 * k.+1 <= m * m)%N by exact: leq_mul|have : (m.+1 * m.+1 <= k * k)%N by exact: leq_mul]; lia.
set s : R := Num.sqrt _; have s0 : 0 <= s := sqrtr_ge0 _.
have s2 : s * s = (k * k + 1)%:R by rewrite -expr2 sqr_sqrtr // ler0n.
have ks : k%:R <= s by rewrite -(ler_pexpn2r (ltn0Sn 1)) ?nnegrE ?ler0n // !expr2 s2 -natrM ler_nat; lia.
have h0 : k%:R^-1 <= (10%:R ^+ 8)^-1 :> R by rewrite lef_pinv ?posrE ?exprn_gt0 ?ltr0n.
rewrite /rclose Fz0 subr0 ger0_norm ?subr_ge0 //; apply: le_trans h0.
rewrite -(ler_pmul2r kp) mulVf ?gt_eqF //.
have e : (s - k%:R) * (s + k%:R) = 1.
  have s2' : s * s = k%:R * k%:R + 1 by rewrite s2 natrD natrM.
  by transitivity (s * s - k%:R * k%:R); [rring|rewrite s2'; rring].
by rewrite -[X in _ <= X]e ler_wpmul2l ?subr_ge0 // ler_addr.
Qed.

Example C32_example : linear_entropy (vin (rvec (@uni (2 * 2)))) = Ok (3%:R / 4%:R) /\
  linear_entropy (vin (rvec (@uni 3))) = Raise AssertionError.
Proof.
split.
  have [s [-> -> _ _ _]] := C32_value (pdf_uni (isT : (1 < 2 * 2)%N)) (@dist_uni (2 * 2) isT).
  by rewrite /uni sumr_const card_ord; congr Ok; rewrite -[_ *+ (2 * 2)]mulr_natl -[(2 * 2)%N]/4%N; rlra.
apply: C32_not_square; [exact: pdf_uni| |].
  by case=> [|[|[|k]]] //; rewrite mulSn; lia.
rewrite -natrX ltr_nat -[Nat.sqrt 3]/1%N.
by rewrite (leq_trans (_ : _ < 10 ^ 1)%N) // leq_exp2l.
Qed.

(* such distributions exist *)
Theorem C32_huge_refuted : exists n, exists x : input, exists2 p : 'I_n -> R, pdf x = Ok (rvec p) &
  dist p /\ (forall l, n <> l * l)%N /\ exists s, linear_entropy x = Ok s.
Proof.
have [k hk] : exists k, 10%:R ^+ 8 <= k%:R :> R by exists (10 ^ 8)%N; rewrite natrX.
have k0 : (0 < k)%N.
  rewrite -(ltr0n [numDomainType of R]); apply: lt_le_trans hk; by rewrite exprn_gt0 // ltr0n.
have k1 : (1 < k * k + 1)%N by rewrite addn1 ltnS muln_gt0 k0.
exists (k * k + 1)%N, (vin (rvec (@uni (k * k + 1)))), (@uni (k * k + 1)); first exact: pdf_uni.
split; first by apply: dist_uni; rewrite addn1.
by have [h1 h2] := C32_not_square_refuted (pdf_uni k1) hk; split=> //; eexists; exact: h1.
Qed.

Print Assumptions C27_metric.
Print Assumptions C28_finite.
Print Assumptions C31_monotone.
