(* PropDist6.v -- property C80: inequalities between the distances, stochastic maps, independent pairs. *)
Set Warnings "-notation-overridden,-ambiguous-paths".
From Coq Require Import Reals.
From mathcomp Require Import all_ssreflect all_algebra.
From mathcomp Require Import complex mxtens.
From mathcomp.zify Require Import zify.
From Verif Require Import Base ArrC MCombinatorics MLib MUtils RealC Info Info2 MDist PropUtils1 PropUtils2 PropDist1.
Set Implicit Arguments.
Unset Strict Implicit.
Unset Printing Implicit Defensive.
Import Order.Theory GRing.Theory Num.Theory.
Local Open Scope ring_scope.

Local Notation input := (input CR).

Lemma bcE n (x y : input) (p q : 'I_n -> R) : pdf x = Ok (rvec p) -> pdf y = Ok (rvec q) -> dist p -> dist q ->
  bhattacharyya_coeff x y = Ok (Fin (bc p q)).
Proof. by move=> px qy dp dq; have [b [t _ [[-> _] [-> _] _ _ _]]] := C30_bc px qy dp dq. Qed.
Lemma klE n (x y : input) (p q : 'I_n -> R) : pdf x = Ok (rvec p) -> pdf y = Ok (rvec q) -> dist p -> dist q ->
  (forall i, q i = 0 -> p i = 0) -> relative_entropy x y = Ok (Fin (kl p q)).
Proof. by move=> px qy dp dq h; rewrite /relative_entropy px /= qy /= entropy2E. Qed.

(* ================================================================== *)
(* C80  how the distances bound each other                             *)
(* ================================================================== *)
(* total variation, Bhattacharyya coefficient and Jensen-Shannon divergence *)
Theorem C80_bounds n (x y : input) (p q : 'I_n -> R) : pdf x = Ok (rvec p) -> pdf y = Ok (rvec q) ->
  dist p -> dist q -> exists t, exists b, exists j,
  [/\ [/\ total_variation_distance x y = Ok t, bhattacharyya_coeff x y = Ok (Fin b) &
          jensen_shannon_divergence x y = Ok (Fin j)],
      1 - b <= t, t ^+ 2 <= 1 - b ^+ 2, 2%:R^-1 * t ^+ 2 <= j & j <= ln 2%:R * t].
Proof.
move=> px qy dp dq; exists (tv p q), (bc p q), (js p q); split.
- by rewrite (C27_value px qy) (bcE px qy) // (jsE px qy).
- exact: bc_tv.
- exact: tv_bc2.
- exact: js_pinsker.
- exact: js_tv.
Qed.

(* Pinsker's inequality, and the bound by the Bhattacharyya coefficient *)
Theorem C80_relative_entropy n (x y : input) (p q : 'I_n -> R) : pdf x = Ok (rvec p) -> pdf y = Ok (rvec q) ->
  dist p -> dist q -> (forall i, q i = 0 -> p i = 0) -> exists t, exists b, exists d,
  [/\ total_variation_distance x y = Ok t, bhattacharyya_coeff x y = Ok (Fin b),
      relative_entropy x y = Ok (Fin d), 2%:R * t ^+ 2 <= d & 0 < b /\ - (2%:R * ln b) <= d].
Proof.
move=> px qy dp dq h; exists (tv p q), (bc p q), (kl p q); split.
- exact: C27_value px qy.
- exact: bcE px qy dp dq.
- exact: klE px qy dp dq h.
- exact: pinsker.
split; last exact: kl_bc.
rewrite lt_def bc_ge0 andbT; apply/eqP => /(bc_eq0 dp dq) z; have [i pi] := dist_pos dp.
by case: (z i) => [e|/h e]; move: pi; rewrite e ltxx.
Qed.

(* the same stochastic map applied to both distributions brings them closer *)
Theorem C80_stochastic n m (W : 'I_n -> 'I_m -> R) (x y x' y' : input) (p q : 'I_n -> R) (p' q' : 'I_m -> R) :
  (forall i j, 0 <= W i j) -> (forall i, \sum_j W i j = 1) ->
  (forall j, p' j = \sum_i p i * W i j) -> (forall j, q' j = \sum_i q i * W i j) ->
  pdf x = Ok (rvec p) -> pdf y = Ok (rvec q) -> pdf x' = Ok (rvec p') -> pdf y' = Ok (rvec q') -> dist p -> dist q ->
  [/\ exists t, exists2 t', total_variation_distance x y = Ok t /\ total_variation_distance x' y' = Ok t' & t' <= t,
      exists b, exists2 b', bhattacharyya_coeff x y = Ok (Fin b) /\ bhattacharyya_coeff x' y' = Ok (Fin b') & b <= b',
      exists j, exists2 j', jensen_shannon_divergence x y = Ok (Fin j) /\
                            jensen_shannon_divergence x' y' = Ok (Fin j') & j' <= j &
      (forall i, q i = 0 -> p i = 0) -> exists d, exists2 d', relative_entropy x y = Ok (Fin d) /\
                            relative_entropy x' y' = Ok (Fin d') & d' <= d].
Proof.
move=> W0 W1 ep eq px qy px' qy' dp dq; have HW i : dist (W i) by split.
have ec r r' : (forall j, r' j = \sum_i r i * W i j) -> r' =1 chan W r by [].
rewrite (eq_rvec (ec _ _ ep)) in px'; rewrite (eq_rvec (ec _ _ eq)) in qy'.
have dp' := chan_dist HW dp; have dq' := chan_dist HW dq; split.
- exists (tv p q), (tv (chan W p) (chan W q)); last exact: chan_tv.
  by rewrite (C27_value px qy) (C27_value px' qy').
- exists (bc p q), (bc (chan W p) (chan W q)); last exact: chan_bc.
  by rewrite (bcE px qy) // (bcE px' qy').
- exists (js p q), (js (chan W p) (chan W q)); last exact: chan_js.
  by rewrite (jsE px qy) // (jsE px' qy').
move=> h; exists (kl p q), (kl (chan W p) (chan W q)).
  split; first exact: klE px qy dp dq h.
  by apply: (klE px' qy') => //; apply: (chan_abs HW) => //; [exact: dp.1|exact: dq.1].
by apply: chan_kl => //; [exact: dp.1|exact: dq.1].
Qed.

(* merging outcomes is a stochastic map; renaming them changes nothing *)
Theorem C80_relabel n (f : 'I_n -> 'I_n) (x y x' y' : input) (p q : 'I_n -> R) : injective f ->
  pdf x = Ok (rvec p) -> pdf y = Ok (rvec q) ->
  pdf x' = Ok (rvec (fun i => p (f i))) -> pdf y' = Ok (rvec (fun i => q (f i))) -> dist p -> dist q ->
  [/\ total_variation_distance x' y' = total_variation_distance x y,
      bhattacharyya_coeff x' y' = bhattacharyya_coeff x y,
      jensen_shannon_divergence x' y' = jensen_shannon_divergence x y &
      (forall i, q i = 0 -> p i = 0) -> relative_entropy x' y' = relative_entropy x y].
Proof.
move=> fi px qy px' qy' dp dq.
have re (F : 'I_n -> R) : \sum_i F (f i) = \sum_i F i by rewrite [RHS](reindex_inj fi).
have df (r : 'I_n -> R) : dist r -> dist (fun i => r (f i)) by move=> dr; split=> [i|]; [exact: dr.1|rewrite re dr.2].
split.
- by rewrite (C27_value px qy) (C27_value px' qy') (re (fun i => `|p i - q i|)).
- rewrite (bcE px qy) // (bcE px' qy') //; try exact: df; congr (Ok (Fin _)).
  exact: (re (fun i => Num.sqrt (p i * q i))).
- rewrite (jsE px qy) // (jsE px' qy') //; try exact: df; congr (Ok (Fin (_ * (_ + _)))).
    exact: (re (fun i => klterm (p i) (mid p q i))).
  exact: (re (fun i => klterm (q i) (mid p q i))).
move=> h; rewrite (klE px qy) // (klE px' qy'); try exact: df.
  by congr (Ok (Fin _)); exact: (re (fun i => klterm (p i) (q i))).
by move=> i; exact: h.
Qed.

(* independent pairs: entry i*m + j of the joint distribution (numpy.kron) is p_i r_j *)
Theorem C80_pairs n m (x y x' y' z w : input) (p q : 'I_n -> R) (r s : 'I_m -> R) (u v : 'I_(n * m) -> R) :
  (forall (i : 'I_n) (j : 'I_m) (k : 'I_(n * m)), k = (i * m + j)%N :> nat -> u k = p i * r j /\ v k = q i * s j) ->
  pdf x = Ok (rvec p) -> pdf y = Ok (rvec q) -> pdf x' = Ok (rvec r) -> pdf y' = Ok (rvec s) ->
  pdf z = Ok (rvec u) -> pdf w = Ok (rvec v) -> dist p -> dist q -> dist r -> dist s ->
  [/\ exists a, exists b, exists2 c, [/\ bhattacharyya_coeff x y = Ok (Fin a), bhattacharyya_coeff x' y' = Ok (Fin b) &
                                        bhattacharyya_coeff z w = Ok (Fin c)] & c = a * b,
      exists a, exists b, exists2 c, [/\ total_variation_distance x y = Ok a, total_variation_distance x' y' = Ok b &
                                        total_variation_distance z w = Ok c] & c <= a + b,
      (forall i, q i = 0 -> p i = 0) -> (forall i, s i = 0 -> r i = 0) ->
      exists a, exists b, exists2 c, [/\ relative_entropy x y = Ok (Fin a), relative_entropy x' y' = Ok (Fin b) &
                                        relative_entropy z w = Ok (Fin c)] & c = a + b &
      forall al, 0 <= al ->
      exists a, exists b, exists2 c, [/\ renyi_entropy x (Ord al) = Ok (Fin a), renyi_entropy x' (Ord al) = Ok (Fin b) &
                                        renyi_entropy z (Ord al) = Ok (Fin c)] & c = a + b].
Proof.
move=> H px qy px' qy' pz pw dp dq dr ds.
have ku (k : 'I_(n * m)) : u k = pr p r k /\ v k = pr q s k.
  by apply: H; rewrite -{1}(mxtens_unindexK k).
have ez : rvec u = rvec (pr p r) by apply: eq_rvec => k; exact: (ku k).1.
have ew : rvec v = rvec (pr q s) by apply: eq_rvec => k; exact: (ku k).2.
rewrite ez in pz; rewrite ew in pw; have du := pr_dist dp dr; have dv := pr_dist dq ds; split.
- exists (bc p q), (bc r s), (bc (pr p r) (pr q s)); last exact: pr_bc.
  by rewrite (bcE px qy) // (bcE px' qy') // (bcE pz pw).
- exists (tv p q), (tv r s), (tv (pr p r) (pr q s)); last exact: pr_tv.
  by rewrite (C27_value px qy) (C27_value px' qy') (C27_value pz pw).
- move=> h g; exists (kl p q), (kl r s), (kl (pr p r) (pr q s)); last exact: pr_kl.
  by rewrite (klE px qy) // (klE px' qy') // (klE pz pw) //; exact: pr_abs.
move=> al a0; exists (renyi p al), (renyi r al), (renyi (pr p r) al); last by rewrite !renyi_S // pr_S.
by rewrite (C31_value px) // (C31_value px') // (C31_value pz).
Qed.

(* relative entropy to the uniform distribution is what the entropy lacks from its maximum *)
Theorem C80_uniform n (x y : input) (p : 'I_n -> R) : (0 < n)%N -> pdf x = Ok (rvec p) ->
  pdf y = Ok (rvec (fun _ : 'I_n => n%:R^-1)) -> dist p ->
  exists h, renyi_entropy x (Ord 1) = Ok (Fin h) /\ relative_entropy x y = Ok (Fin (ln n%:R - h)).
Proof.
move=> n0 px qy dp; exists (renyi p 1); rewrite (C31_value px) ?ler01 //; split=> //.
have np : 0 < n%:R :> R by rewrite ltr0n.
rewrite (klE px qy) //; last 2 first.
- exact: dist_uni.
- by move=> i /eqP; rewrite invr_eq0 gt_eqF.
congr (Ok (Fin _)); rewrite /renyi eqxx opprK big_mkcond /=.
have -> : ln n%:R = \sum_i p i * ln n%:R by rewrite -mulr_suml dp.2 mul1r.
rewrite -big_split; apply: eq_bigr => i _ /=; rewrite /klterm; case: (eqVneq (p i) 0) => [->|nz /=].
  by rewrite mul0r addr0.
have pi : 0 < p i by rewrite lt_def nz dp.1.
by rewrite ln_div ?invr_gt0 // lnV // opprK mulrDr addrC.
Qed.

(* a certain outcome against a fair coin: t = 1/2, b^2 = 1/2, d = ln 2; Pinsker gives 1/2 <= ln 2 *)
Example C80_example :
  let x := vin (rvec (fun i : 'I_2 => (i == ord0)%:R)) in let y := vin (rvec (@uni 2)) in
  [/\ total_variation_distance x y = Ok 2%:R^-1, relative_entropy x y = Ok (Fin (ln 2%:R)) & 2%:R^-1 <= ln 2%:R :> R].
Proof.
set x := vin _; set y := vin _ => /=.
have dd : dist (fun i : 'I_2 => (i == ord0)%:R : R).
  by split=> [i|]; rewrite ?ler0n // !big_ord_recr big_ord0 /= add0r addr0.
have px : pdf x = Ok _ := pdf_delta _; have py : pdf y = Ok _ := pdf_uni (ltnSn 1).
have du := @dist_uni 2 isT.
have nz (i : 'I_2) : @uni 2 i = 0 -> (i == ord0)%:R = 0 :> R.
  by move/eqP; rewrite invr_eq0 pnatr_eq0.
have [t [b [d [et _ ed hp _]]]] := C80_relative_entropy px py dd du nz.
have t1 : t = 2%:R^-1.
  move: et; rewrite (C27_value px py) => -[<-]; rewrite !big_ord_recr big_ord0 /= add0r /uni.
  rewrite sub0r normrN [`|2%:R^-1|]gtr0_norm ?half_gt0 //.
  have -> : (1 : R) - 2%:R^-1 = 2%:R^-1 by rewrite -{1}(half2 1) mulrDr mulr1 addrK.
  by rewrite gtr0_norm ?half_gt0 // half2.
have d1 : d = ln 2%:R.
  move: ed; rewrite (klE px py) // => -[<-]; rewrite /kl !big_ord_recr big_ord0 /= add0r klterm0 addr0 klterm_pos ?ltr01 //.
  by rewrite !mul1r /uni invrK.
split; [by rewrite et t1|by rewrite ed d1|].
by move: hp; rewrite t1 d1 expr2 mulrA mulfV ?mul1r // pnatr_eq0.
Qed.
