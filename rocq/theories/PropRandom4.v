(* PropRandom4.v -- properties C58, C59: random pure free-fermion states with a given number of excitations *)
Set Warnings "-notation-overridden,-ambiguous-paths".
From mathcomp Require Import all_ssreflect all_algebra.
From mathcomp.zify Require Import zify.
From Verif Require Import Base ArrC MCombinatorics MLib JW OpFam FermAlg LibFacts LibFacts2 LibFacts3 Expm ExpmAd.
From Verif Require Import PropLib1 PropLib2 PropLib3 PropLib4 Spectral MUtils PropUtils2 MRandom RndFacts PropRandom1 PropRandom2.
Set Implicit Arguments.
Unset Strict Implicit.
Unset Printing Implicit Defensive.
Import Order.Theory GRing.Theory Num.Theory.
Local Open Scope ring_scope.

Section Fock.
Variable C : numClosedFieldType.
Local Notation arr := (arr C).
Variables (N n : nat) (B : nat -> 'M[C]_N).
Hypothesis HB : car n B.

(* modes 0..n-1: B_i creates, its adjoint annihilates *)
Lemma cre_ann i j : (i < n)%N -> (j < n)%N -> adjm (B i) *m B j = ((i == j)%:R)%:M - B j *m adjm (B i).
Proof.
move=> hi hj; have hi' : (i < 2 * n)%N by lia. have hj' : (j < 2 * n)%N by lia.
by have := car_adj HB hj' hi'; rewrite eq_sym => <-; rewrite [B j *m _ + _]addrC addrK.
Qed.
Lemma cre_cre i j : (i < n)%N -> (j < n)%N -> B i *m B j = - (B j *m B i).
Proof.
move=> hi hj; apply/eqP; rewrite -addr_eq0 HB.1; try lia.
by rewrite (_ : (j == sw n i) = false) ?raddf0 //; apply/eqP; rewrite /sw hi; lia.
Qed.
Lemma ann_ann i j : (i < n)%N -> (j < n)%N -> adjm (B i) *m adjm (B j) = - (adjm (B j) *m adjm (B i)).
Proof. by move=> hi hj; have := congr1 (@adjm C _ _) (cre_cre hj hi); rewrite adjmN !adjmM. Qed.
Lemma cre_sq i : (i < n)%N -> B i *m B i = 0.
Proof.
move=> hi; have /eqP := cre_cre hi hi; rewrite -addr_eq0 -mulr2n -scaler_nat scaler_eq0 pnatr_eq0 /= => /eqP; exact.
Qed.
Lemma ann_sq i : (i < n)%N -> adjm (B i) *m adjm (B i) = 0.
Proof. by move=> hi; rewrite -adjmM cre_sq // adjm0. Qed.

(* the occupation-number state: mode j has occupation K_j; Q is any operator anticommuting with the modes *)
Definition occ (K : seq nat) j (phi : 'cV[C]_N) := B j *m adjm (B j) *m phi = (nth 0%N K j)%:R *: phi.

Variables (K : seq nat) (Q : 'M[C]_N).
Hypothesis HK : forall j, (j < n)%N -> (nth 0%N K j <= 1)%N.
Hypothesis HQ : forall j, (j < n)%N -> Q *m B j = - (B j *m Q).
Hypothesis n0 : (0 < n)%N.

Definition exc m := (\sum_(m <= j < n) nth 0%N K j)%N.

Lemma fill_run m (phi : 'cV[C]_N) (eta : C) : (m <= n)%N -> unit_vector phi ->
  (forall i, (i < m)%N -> adjm (B i) *m phi = 0) -> (forall j, (m <= j < n)%N -> occ K j phi) ->
  Q *m phi = (eta * (-1) ^+ exc m) *: phi ->
  exists phi' : 'cV[C]_N, [/\ foldM (fun psi j => if nth 0%N K j == 1%N then let* a := item (ops B (2 * n)) j in amul_chk a psi else Ok psi)
      (ofM phi) (rev (iota 0 m)) = Ok (ofM phi'), unit_vector phi', forall j, (j < n)%N -> occ K j phi' &
      Q *m phi' = (eta * (-1) ^+ exc 0) *: phi'].
Proof.
elim: m phi => [|m IH] phi hm up ann oc hQ.
  by exists phi; split=> // j hj; apply: oc.
have -> : rev (iota 0 m.+1) = m :: rev (iota 0 m) by rewrite -addn1 iotaD rev_cat.
rewrite [foldM _ _ (_ :: _)]/=.
have a0 : adjm (B m) *m phi = 0 by apply: ann.
have excS : exc m = (nth 0%N K m + exc m.+1)%N by rewrite /exc big_ltn.
have cr j : (m < j < n)%N -> B j *m adjm (B j) *m B m = B m *m (B j *m adjm (B j)).
  move=> /andP[mj jn]; rewrite -mulmxA cre_ann // (_ : (j == m) = false) ?raddf0 ?sub0r; last by apply/eqP; lia.
  by rewrite mulmxN mulmxA [B j *m B m]cre_cre // mulNmx opprK mulmxA.
case: eqP => [e|ne].
  rewrite item_ops /=; last by lia.
  rewrite ofM_mul_chk /=.
  apply: IH; first exact: ltnW.
  - by rewrite /unit_vector adjmM mulmxA -(mulmxA (adjm phi)) cre_ann // eqxx mulmxBr mulmxBl mulmx1 up -!mulmxA a0 !mulmx0 subr0.
  - move=> i hi; rewrite mulmxA cre_ann; [|lia|lia].
    rewrite (_ : (i == m) = false) ?raddf0 ?sub0r; last by apply/eqP; lia.
    by rewrite mulNmx -mulmxA ann ?mulmx0 ?oppr0 //; lia.
  - move=> j /andP[]; rewrite leq_eqVlt => /orP[/eqP <- _|mj jn]; rewrite /occ.
      by rewrite e scale1r mulmxA -(mulmxA (B m)) cre_ann // eqxx mulmxBr mulmx1 mulmxA cre_sq // mul0mx subr0.
    by rewrite mulmxA cr ?mj // -mulmxA oc ?mj // -scalemxAr.
  by rewrite mulmxA HQ // mulNmx -mulmxA hQ -scalemxAr -scaleNr; congr (_ *: _); rewrite excS e add1n exprS mulN1r mulrN.
have z : nth 0%N K m = 0%N by have := HK hm; move/eqP: ne; case: (nth 0%N K m) => [|[|k]].
apply: IH => //; first exact: ltnW.
- by move=> i hi; apply: ann; lia.
- move=> j /andP[]; rewrite leq_eqVlt => /orP[/eqP <- _|mj jn]; last by apply: oc; rewrite mj.
  by rewrite /occ z scale0r -mulmxA a0 mulmx0.
by rewrite excS z.
Qed.

(* the projector on the joint vacuum *)
Lemma vac_run m : (m <= n)%N -> exists P : 'M[C]_N, [/\
  foldM (fun PP i => let* a := item (ops B (2 * n)) i in let* p := amul_chk a (aadj a) in amul_chk PP (asub (aeye N) p))
    (aeye N) (iota 0 m) = Ok (ofM P),
  forall i, (i < m)%N -> adjm (B i) *m P = 0, forall i, (m <= i < n)%N -> adjm (B i) *m P = P *m adjm (B i) &
  forall phi : 'cV[C]_N, (forall i, (i < n)%N -> adjm (B i) *m phi = 0) -> P *m phi = phi /\ adjm P *m phi = phi].
Proof.
elim: m => [|m IH] hm.
  exists 1%:M; rewrite /= ofM_eye; split=> // [i _|phi _]; first by rewrite mul1mx mulmx1.
  by rewrite adjm1 mul1mx.
have [P [e k c v]] := IH (ltnW hm); pose D := 1%:M - B m *m adjm (B m).
have aD : adjm D = D by rewrite /D adjmD adjmN adjm1 adjmM adjmK.
exists (P *m D); split.
- have -> : iota 0 m.+1 = iota 0 m ++ [:: m] by rewrite -addn1 iotaD.
  rewrite foldM_cat e /= item_ops /=; last by lia.
  by rewrite ofM_adj ofM_mul_chk /= ofM_eye ofM_sub ofM_mul_chk.
- move=> i; rewrite ltnS leq_eqVlt => /orP[/eqP ->|hi]; last by rewrite mulmxA k // mul0mx.
  rewrite mulmxA c ?leqnn // -mulmxA /D mulmxBr mulmx1 mulmxA cre_ann // eqxx mulmxBl mul1mx -mulmxA ann_sq //.
  by rewrite mulmx0 subr0 subrr mulmx0.
- move=> i /andP[mi hi]; rewrite mulmxA c; last by lia.
  rewrite -!mulmxA; congr (_ *m _); rewrite /D mulmxBr mulmxBl mulmx1 mul1mx; congr (_ - _).
  rewrite mulmxA cre_ann // (_ : (i == m) = false) ?raddf0 ?sub0r; last by apply/eqP; lia.
  by rewrite mulNmx -!mulmxA ann_ann // mulmxN opprK.
move=> phi h; have [e1 e2] := v phi h.
have eD : D *m phi = phi by rewrite /D mulmxBl mul1mx -mulmxA h // mulmx0 subr0.
by rewrite adjmM aD -!mulmxA eD e2 eD e1.
Qed.
End Fock.

Section Props.
Variable C : numClosedFieldType.
Local Notation arr := (arr C).
Variable G : gen C.
Hypothesis HG : gen_ok G.
Variables (E Lg : forall n, 'M[C]_n -> 'M[C]_n) (expm logm : arr -> arr).
Hypotheses (HE : expm_spec E) (HX : computes expm E) (HL : logm_spec E Lg) (HY : computes_u logm Lg).

(* ================================================================== *)
(* C58  random_FF_pure_state_W0 / _WN                                  *)
(* ================================================================== *)
(* W0: the vacuum rotated by a free-fermion unitary; unit vector of even parity *)
Theorem C58_W0 n seed (s : st G) : 0 < n -> seed_ok seed ->
  exists (W : 'M[C]_(2 ^ `|n|)) (psi : 'cV[C]_(2 ^ `|n|)), [/\
    (random_FF_rotation expm logm `|n| seed false false s).1 = Ok (ofM W),
    (random_FF_pure_state_W0 expm logm (PInt n) seed s).1 = Ok (ofM psi),
    psi = W *m e0 C `|n|, unit_vector psi & parity C `|n| *m psi = psi].
Proof.
move=> n0 hs; rewrite /random_FF_pure_state_W0 {1}/rbind /lift /check_n leNgt n0 /= {1}/rbind seed_optE //.
have : (0 < `|n|)%N by lia.
move: `|n|%N => {}n {}n0.
have [O [sO eO e]] := rotationE HG HX HY (seeded seed s) n0 hs; rewrite seeded2 in eO.
have [O' [_ eO' e']] := rotationE HG HX HY s n0 hs.
have eOO : O' = O by apply: (@ofM_inj C); rewrite -eO -eO'.
have u := rot_unitary HE HL (so_unitary sO).
exists (rotM E Lg O), (rotM E Lg O *m e0 C n).
have uv : unit_vector (rotM E Lg O *m e0 C n) by apply: unit_mul => //; exact: unit_e0.
split=> //; first by rewrite e' eOO.
  by rewrite {1}/rbind e {1}/rbind zeroE ofM_mul_chk {1}/rbind fro_unit // close_refl.
by rewrite mulmxA (parity_rot Lg HE) -mulmxA parity_e0.
Qed.

Definition valid_N (n : int) (N : option pynum) :=
  match N with None => true | Some (PInt z) => (0 <= z) && (z <= n) | Some PNotInt => false end.

Lemma nth_Kvec n k j : nth 0%N (Kvec n k) j = (j < k)%N :> nat.
Proof.
rewrite /Kvec nth_cat size_nseq; case: ltnP => h; first by rewrite nth_nseq h.
by rewrite nth_nseq; case: ifP.
Qed.

Lemma exc_Kvec n k : (k <= n)%N -> exc n (Kvec n k) 0 = k.
Proof.
move=> kn; rewrite /exc (eq_bigr (fun j : nat => nat_of_bool (j < k)%N)) => [|j _]; last exact: nth_Kvec.
by rewrite -big_mkcond /= -(big_nat_widen 0 k n xpredT (fun=> 1%N) kn) sum_nat_const_nat subn0 muln1.
Qed.

Lemma occ_am n k j (phi : 'cV[C]_(2 ^ n)) : (j < n)%N -> occ (alphaM C n) (Kvec n k) j phi ->
  adjm (am C n j) *m am C n j *m phi = ((j < k)%N)%:R *: phi.
Proof. by move=> hj; rewrite /occ /alphaM hj adjmK nth_Kvec. Qed.

(* the Fock state with the first k modes occupied *)
Lemma fill_vacuum n k : (0 < n)%N -> (k <= n)%N -> exists phi : 'cV[C]_(2 ^ n), [/\
  fill_modes n (Kvec n k) (jordan_wigner_alphas C n) (zero_state C n) = Ok (ofM phi), unit_vector phi,
  forall j, (j < n)%N -> adjm (am C n j) *m am C n j *m phi = ((j < k)%N)%:R *: phi &
  parity C n *m phi = (-1) ^+ k *: phi].
Proof.
move=> n0 kn; rewrite /fill_modes alphas_ops zeroE.
have [|||||phi [e u o p]] := @fill_run C _ n (alphaM C n) (alphas_car C n) (Kvec n k) (parity C n) _ _ n0 n (e0 C n) 1 (leqnn n) (unit_e0 C n).
- by move=> j _; rewrite nth_Kvec leq_b1.
- move=> j hj; have h : (j < 2 * n)%N by lia.
  exact: (parity_al C (Ordinal h)).
- by move=> i hi; rewrite /alphaM hi adjmK am_e0.
- by move=> j /andP[h1 h2]; have := leq_ltn_trans h1 h2; rewrite ltnn.
- by rewrite /exc big_geq // mulr1 scale1r parity_e0.
exists phi; split=> // [j hj|]; first exact: occ_am (o _ hj).
by rewrite p mul1r exc_Kvec.
Qed.

(* WN: unit vector of parity (-1)^N, the Fock state with the first N modes filled, rotated by a free-fermion unitary *)
Theorem C58_WN (n : int) N seed (s : st G) : 0 < n -> valid_N n N -> seed_ok seed -> seed_ok (next_seed seed) ->
  exists (k : nat) (W : 'M[C]_(2 ^ `|n|)) (phi psi : 'cV[C]_(2 ^ `|n|)), [/\
    (k <= `|n|)%N /\ match N with Some (PInt z) => k%:Z = z | _ => k = (g_randint G `|n|.+1 (seeded seed s)).1 end,
    (exists s' : st G, (random_FF_rotation expm logm `|n| (next_seed seed) false false s').1 = Ok (ofM W)) /\ unitary W,
    unit_vector phi /\ forall j, (j < `|n|)%N -> adjm (am C `|n| j) *m am C `|n| j *m phi = ((j < k)%N)%:R *: phi,
    (random_FF_pure_state_WN expm logm (PInt n) N seed s).1 = Ok (ofM psi) &
    [/\ psi = W *m phi, unit_vector psi & parity C `|n| *m psi = (-1) ^+ k *: psi]].
Proof.
move=> n0 vN hs hs'; rewrite /random_FF_pure_state_WN {1}/rbind /lift /check_n leNgt n0 /=.
have n1 : (0 < `|n|)%N by lia.
pose k := match N with Some (PInt z) => `|z|%N | _ => (g_randint G `|n|.+1 (seeded seed s)).1 end.
pose s1 := match N with Some (PInt z) => seeded seed s | _ => (g_randint G `|n|.+1 (seeded seed s)).2 end.
have kn : (k <= `|n|)%N.
  rewrite /k; move: vN; case: (N) => [[z|]|] //= vN; first by lia.
  by have := randint_ok HG (seeded seed s) (ltn0Sn `|n|).
have [O [sO eO e]] := rotationE HG HX HY s1 n1 hs'.
have u := rot_unitary HE HL (so_unitary sO).
have [phi [ef uf o p]] := fill_vacuum n1 kn.
exists k, (rotM E Lg O), phi, (rotM E Lg O *m phi); split=> //.
- by split=> //; rewrite /k; move: vN; case: (N) => [[z|]|] //= vN; lia.
- by split=> //; exists s1; rewrite e.
- rewrite {1}/rbind (_ : match N with Some (PInt z) => _ | Some PNotInt => _ | None => _ end = Ok tt); last first.
    by move: vN; case: (N) => [[z|]|] //= vN; rewrite ifF //; lia.
  rewrite {1}/rbind seed_optE // {1}/rbind.
  have -> : (match N with Some (PInt z) => ret `|z|%N | _ => sample (g_randint G `|n|.+1) end) (seeded seed s) = (Ok k, s1).
    by rewrite /k /s1; case: (N) => [[z|]|].
  by rewrite {1}/rbind ef {1}/rbind e ofM_mul_chk.
split=> //; first exact: unit_mul.
by rewrite mulmxA (parity_rot Lg HE) -mulmxA p -scalemxAr.
Qed.

(* N outside [0, n], or not an integer, raises ValueError whatever the seed *)
Theorem C58_invalid_N (n : int) N seed (s : st G) : 0 < n -> ~~ valid_N n N ->
  (random_FF_pure_state_WN expm logm (PInt n) N seed s).1 = Raise ValueError.
Proof.
move=> n0 vN; rewrite /random_FF_pure_state_WN {1}/rbind /lift /check_n leNgt n0 /=.
have -> : (match N with Some (PInt z) => if (z < 0) || (`|n|%N%:Z < z) then Raise ValueError else Ok tt
  | Some PNotInt => Raise ValueError | None => Ok tt end) = Raise ValueError; last by [].
by case: N vN => [[z|]|] //= vN; rewrite ifT //; lia.
Qed.

Lemma check_ok (n : int) : 0 < n -> check_n (PInt n) = Ok `|n|%N.
Proof. by move=> n0; rewrite /check_n leNgt n0. Qed.

Lemma rotation_bad_seed m seed rH rO (s : st G) : ~~ seed_ok seed ->
  random_FF_rotation expm logm m seed rH rO s = (Raise ValueError, s).
Proof. by case: seed => // z; rewrite /random_FF_rotation /rbind /seed_opt /seed_ok => /negPf ->. Qed.

(* the largest admissible seed is rejected, because seed + 1 is not admissible *)
Theorem C58_last_seed_refuted (n : int) N (s : st G) : 0 < n -> valid_N n N ->
  seed_ok (Some (2%:Z ^+ 32 - 1)) /\
  (random_FF_pure_state_WN expm logm (PInt n) N (Some (2%:Z ^+ 32 - 1)) s).1 = Raise ValueError /\
  (random_FF_pure_state_CN expm logm (PInt n) (Some (2%:Z ^+ 32 - 1)) s).1 = Raise ValueError.
Proof.
move=> n0 vN.
have [hs hb] : seed_ok (Some (2%:Z ^+ 32 - 1)) /\ ~~ seed_ok (next_seed (Some (2%:Z ^+ 32 - 1))).
  have c1 : 1 <= 2%:Z ^+ 32 by apply: exprn_ege1.
  rewrite /seed_ok /next_seed /omap /obind /oapp; move: (2%:Z ^+ 32) c1 => c c1.
  by rewrite subrK ltxx andbF; split=> //; apply/andP; split; lia.
move: (2%:Z ^+ 32 - 1) hs hb => z hs hb.
have ro m rH rO (s' : st G) := @rotation_bad_seed m (next_seed (Some z)) rH rO s' hb.
have n1 : (0 < `|n|)%N by lia.
split=> //; split; last first.
  by rewrite /random_FF_pure_state_CN {1}/rbind /lift check_ok // {1}/rbind seed_optE // {1}/rbind /sample {1}/rbind ro.
rewrite /random_FF_pure_state_WN {1}/rbind /lift check_ok // {1}/rbind.
have -> : (match N with Some (PInt z) => if (z < 0) || (`|n|%N%:Z < z) then Raise ValueError else Ok tt
  | Some PNotInt => Raise ValueError | None => Ok tt end) = Ok tt.
  by case: N vN => [[z'|]|] //= vN; rewrite ifF //; lia.
rewrite {1}/rbind seed_optE // {1}/rbind; set r := (match N with Some (PInt _) => _ | _ => _ end) _.
have [k [s1 [er kn]]] : exists k s1, r = (Ok k, s1) /\ (k <= `|n|)%N.
  rewrite /r /sample; move: vN; case: (N) => [[z'|]|] //= vN.
    by exists `|z'|%N, (seeded (Some z) s); split=> //; lia.
  by eexists; eexists; split; first reflexivity; exact: (randint_ok HG _ (ltn0Sn `|n|)).
by rewrite er {1}/rbind; have [phi [-> _ _ _]] := fill_vacuum n1 kn; rewrite /rbind ro.
Qed.

Example C58_example (s : st G) : exists psi : 'cV[C]_(2 ^ 3), [/\
  (random_FF_pure_state_WN expm logm (PInt 3) (Some (PInt 1)) (Some 7%:Z) s).1 = Ok (ofM psi), unit_vector psi &
  parity C 3 *m psi = - psi].
Proof.
have c : 2%:Z ^+ 4 <= 2%:Z ^+ 32 by apply: ler_weexpn2l.
have h : seed_ok (Some 7%:Z) by rewrite /seed_ok; move: (2%:Z ^+ 32) c => c h; apply/andP; split=> //; exact: lt_le_trans h.
have h' : seed_ok (next_seed (Some 7%:Z)).
  rewrite /seed_ok /next_seed /omap /obind /oapp; move: (2%:Z ^+ 32) c => c h'; apply/andP; split=> //; exact: lt_le_trans h'.
have [k [W [phi [psi [[_ /eqP ek] _ _ e [_ u p]]]]]] := C58_WN s (isT : 0 < 3%:Z) (isT : valid_N 3 (Some (PInt 1))) h h'.
by exists psi; split=> //; rewrite p (_ : k = 1%N) ?expr1 ?scaleN1r //; apply/eqP.
Qed.

(* ================================================================== *)
(* C59  random_FF_pure_state_CN                                        *)
(* ================================================================== *)
(* the modes rotated by the rows of an orbital matrix *)
Definition rotated n (Cm : 'M[C]_(2 * n)) (j : nat) : 'M[C]_(2 ^ n) := rot (alphaM C n) (2 * n) (get (ofM Cm)) j.

Lemma rotated_car n (Cm : 'M[C]_(2 * n)) : symplectic Cm -> unitary Cm -> car n (rotated Cm).
Proof.
move=> sy u; have e : swapM C n *m Cm^T *m swapM C n = adjm Cm.
  by rewrite -[LHS]mulmx1 -u mulmxA symp_inv // mul1mx.
split=> [i j hi hj|i hi].
  rewrite (rot_anti _ _ _ (alphas_car C n)).
  have := congr1 (fun M : 'M_(2 * n) => M (Ordinal hi) (Ordinal hj)) sy.
  rewrite /symplectic -SM_swap SME /= => <-; congr (_%:M); apply/esym.
  by apply: mulS => a; rewrite -ofM_get.
rewrite (rot_adj _ _ (alphas_car C n)); apply: eq_bigr => k _; congr (_ *: _).
have hk := ltn_ord k; have hk' := sw_lt hk; have hi' := sw_lt hi.
have := congr1 (fun M : 'M_(2 * n) => M (Ordinal hk') (Ordinal hi)) e.
rewrite /= [RHS]mxE [RHS]mxE -[Cm (Ordinal hi) _]ofM_get /= => <-.
rewrite -SM_swap [LHS]mxE (bigD1 (Ordinal hi')) //= big1 ?addr0 => [|j]; last first.
  rewrite -val_eqE /= => nj; rewrite SME (_ : (_ == _) = false) ?mulr0 //.
  by apply/negbTE; apply: contra nj => /eqP /= ->; rewrite swK.
rewrite SME /= swK // eqxx mulr1 mxE (bigD1 k) //= big1 ?addr0 => [|j]; last first.
  rewrite -val_eqE /= => nj; rewrite SME (_ : (_ == _) = false) ?mul0r //.
  by apply/negbTE; apply: contra nj => /eqP /= ->; rewrite swK.
by rewrite SME /= swK // eqxx mul1r mxE -ofM_get.
Qed.

Lemma fro_gt0 m (psi : 'cV[C]_m) : psi != 0 -> 0 < fro (ofM psi).
Proof.
move=> nz; rewrite fro_cV sqrtC_gt0 gram_cV lt0r; apply/andP; split; last by apply: sumr_ge0 => i _; exact: exprn_ge0.
apply: contra nz => /eqP /psumr_eq0P h; apply/eqP/matrixP => i j; rewrite ord1 mxE.
have /eqP : `|psi i 0| ^+ 2 = 0 by apply: h => // k _; exact: exprn_ge0.
by rewrite expf_eq0 normr_eq0 /= => /eqP.
Qed.

Lemma unit_normalise m (psi : 'cV[C]_m) : psi != 0 -> unit_vector ((fro (ofM psi))^-1 *: psi).
Proof.
move=> nz; have f0 := fro_gt0 nz; have e : (adjm psi *m psi) 0 0 = fro (ofM psi) ^+ 2 by rewrite fro_cV sqrtCK.
rewrite /unit_vector adjmZ -scalemxAr -scalemxAl scalerA; apply/matrixP => i j; rewrite !ord1 mxE e mxE eqxx.
rewrite (CrealP _) ?ger0_real ?invr_ge0 ?ltW // -expr2 exprVn mulVf //.
by rewrite expf_neq0 // gt_eqF.
Qed.

(* CN: for every orbital rotation whose non-zero entries are at least 1e-9 (the cutoff of rotate_operators), with P the
   orthogonal projector on the joint vacuum of the rotated modes: if P Y is non-zero the call succeeds (no assertion
   fires) and returns a unit vector in which exactly the first k rotated modes are occupied *)
Theorem C59_CN (n : nat) seed (s : st G) (O : 'M[C]_(2 * n)) : (0 < n)%N -> seed_ok seed -> seed_ok (next_seed seed) ->
  let s1 := (g_randint G n.+1 (seeded seed s)).2 in
  let k := (g_randint G n.+1 (seeded seed s)).1 in
  (g_ortho G (2 * n) (seeded (next_seed seed) s1)).1 = ofM O ->
  no_small ((10%:R ^+ 9)^-1) (ofM (orbM O)) ->
  let c := rotated (orbM O) in
  exists (P : 'M[C]_(2 ^ n)) (Y : 'cV[C]_(2 ^ n)), [/\
    [/\ adjm P = P, P *m P = P &
     forall v : 'cV[C]_(2 ^ n), P *m v = v <-> (forall j, (j < n)%N -> adjm (c j) *m v = 0)],
    (exists s' : st G, (g_randn G (2 ^ n) 1 s').1 = ofM Y) &
    P *m Y != 0 -> exists psi : 'cV[C]_(2 ^ n), [/\
      (random_FF_pure_state_CN expm logm (PInt n%:Z) seed s).1 = Ok (ofM psi), unit_vector psi, (k <= n)%N &
      forall j, (j < n)%N -> c j *m adjm (c j) *m psi = ((j < k)%N)%:R *: psi]].
Proof.
move=> n0 hs hs' s1 k eO ns c; rewrite /random_FF_pure_state_CN {1}/rbind /lift check_ok; last by lia.
rewrite absz_nat.
have [O' [sO eO' e]] := rotationE HG HX HY s1 n0 hs'.
have ? : O' = O by apply: (@ofM_inj C); rewrite -eO -eO'.
subst O'; have uC := orb_unitary (so_unitary sO); have syC : symplectic (orbM O) by apply: orb_symp; case: sO.
have hc : car n c := rotated_car syC uC.
have [P [eP ann _ fixv]] := vac_run hc n0 (leqnn n).
have hP (v : 'cV[C]_(2 ^ n)) : P *m v = v <-> (forall j, (j < n)%N -> adjm (c j) *m v = 0).
  by split=> [h j hj|h]; [rewrite -h mulmxA ann // mul0mx|have [] := fixv v h].
set s2 := (g_ortho G (2 * n) (seeded (next_seed seed) s1)).2 in e.
have [/shpP[rY cY] _] := randn_ok HG (2 ^ n) 1 s2.
pose Y : 'cV[C]_(2 ^ n) := toM (2 ^ n) 1 (g_randn G (2 ^ n) 1 s2).1.
have eY : (g_randn G (2 ^ n) 1 s2).1 = ofM Y by rewrite ofM_toM.
have ext (A B : 'M[C]_(2 ^ n)) : (forall v : 'cV[C]_(2 ^ n), A *m v = B *m v) -> A = B.
  by move=> h; apply/matrixP => i j; have := congr1 (fun M : 'cV_(2 ^ n) => M i 0) (h (delta_mx j 0)); rewrite -!colE !mxE.
have vP (v : 'cV[C]_(2 ^ n)) : forall j, (j < n)%N -> adjm (c j) *m (P *m v) = 0.
  by move=> j hj; rewrite mulmxA ann // mul0mx.
have PP : P *m P = P by apply: ext => v; rewrite -mulmxA; have [] := fixv _ (vP v).
have aPP : adjm P *m P = P by apply: ext => v; rewrite -mulmxA; have [] := fixv _ (vP v).
have aP : adjm P = P by rewrite -[in LHS]aPP adjmM adjmK aPP.
exists P, Y; split=> //; first by exists s2.
move=> PY; have Y0 : Y != 0 by apply: contraNneq PY => ->; rewrite mulmx0.
have uY := unit_normalise Y0.
pose Yh := (fro (ofM Y))^-1 *: Y.
have v0 : P *m Yh != 0 by rewrite /Yh -scalemxAr scaler_eq0 negb_or invr_eq0 (gt_eqF (fro_gt0 Y0)).
pose phi := (fro (ofM (P *m Yh)))^-1 *: (P *m Yh).
have uphi : unit_vector phi := unit_normalise v0.
have aphi j : (j < n)%N -> adjm (c j) *m phi = 0 by move=> hj; rewrite /phi -scalemxAr vP // scaler0.
have hK j : (j < n)%N -> (nth 0%N (Kvec n k) j <= 1)%N by rewrite nth_Kvec leq_b1.
have [|||psi [e1 u1 o1 _]] := @fill_run C _ n c hc (Kvec n k) 0 hK _ n0 n phi 0 (leqnn n) uphi aphi.
- by move=> j _; rewrite mul0mx mulmx0 oppr0.
- by move=> j /andP[h1 h2]; have := leq_ltn_trans h1 h2; rewrite ltnn.
- by rewrite mul0mx mul0r scale0r.
exists psi; split=> //; last 1 first.
- by move=> j hj; have := o1 j hj; rewrite /occ nth_Kvec.
- have th a b : thr (eps9 C) (get (ofM (orbM O)) a b) = get (ofM (orbM O)) a b.
    by case: (ns a b) => [->|h]; [exact: thr0|exact: thr_big].
  have er : rotate_operators (PArr (ofM (orbM O))) (PList (jordan_wigner_alphas C n)) false = Ok (Rot (ops c (2 * n))).
    rewrite /rotate_operators /rotate_core alphas_ops size_ops /= eqxx /= perform_rotation_ops //=.
    by congr (Ok (Rot _)); apply: eq_ops => j hj; rewrite /c /rotated /rot; apply: eq_bigr => i _; rewrite th.
  have eS : compute_algebra_S (ops c (2 * n)) = Ok (ofM (swapM C n)).
    rewrite (@C50_scalar _ _ _ _ (fun i j => (j == sw n i)%:R)) ?expn_gt0 //; last by case: hc.
    by congr (Ok (ofM _)); apply/matrixP => i j; rewrite -SM_swap SME mxE nat_big.
  rewrite {1}/rbind seed_optE // {1}/rbind /sample {1}/rbind -/s1 e.
  rewrite {1}/rbind ofM_adj ofM_mul_chk {1}/rbind uC -ofM_eye allclose_refl {1}/assertM.
  rewrite {1}/rbind er {1}/rbind {1}/rbind C50_jw // {1}/rbind eS {1}/rbind allclose_refl {1}/assertM.
  rewrite {1}/rbind eY {1}/rbind /vac_projector eP {1}/rbind ofM_scale ofM_mul_chk ofM_scale.
  by rewrite -/k /fill_modes e1.
by rewrite -ltnS; exact: (randint_ok HG _ (ltn0Sn n)).
Qed.
End Props.

(* a concrete sampler: the orbital matrix -1, the first basis vector, and one excitation *)
Section Concrete.
Variable C : numClosedFieldType.
Definition occ_gen : gen C :=
  @Gen C unit (fun _ => tt) (fun m n s => (mk m n (fun i j => ((i == 0%N) && (j == 0%N))%:R), s))
    (fun d s => (ofM (neg_draw C d), s))
    (fun d s => (aeye d, s)) (fun m s => (1 :: nseq m.-1 0, s)) (fun s => (0, s)) (fun m s => ((1 < m)%N : nat, s)).

Lemma occ_gen_ok : gen_ok occ_gen.
Proof.
case: (gen_ok_satisfiable C) => _ o u d e _; split=> //=.
- by move=> m n s; split=> [|i j]; [rewrite /shp !eqxx|rewrite get_mk; case: ifP; rewrite ?rpred0 ?realn].
- by case=> [|[|m]].
Qed.

Example C59_example (E Lg : forall n, 'M[C]_n -> 'M[C]_n) (expm logm : arr C -> arr C) n (s : unit) :
  expm_spec E -> computes expm E -> logm_spec E Lg -> computes_u logm Lg -> (0 < n)%N ->
  exists psi : 'cV[C]_(2 ^ n), [/\
    (@random_FF_pure_state_CN C occ_gen expm logm (PInt n%:Z) None s).1 = Ok (ofM psi), unit_vector psi &
    forall j, (j < n)%N -> adjm (am C n j) *m am C n j *m psi = ((j == 0%N))%:R *: psi].
Proof.
move=> HE HX HL HY n0.
have o1 : orbM (neg_draw C (2 * n)) = - 1%:M.
  by rewrite /neg_draw oddM /= raddfN /orbM mulmxN mulmx1 mulNmx unitaryC //; exact: OM_u.
have cE j : (j < 2 * n)%N -> rotated (orbM (neg_draw C (2 * n))) j = - alphaM C n j.
  move=> hj; rewrite /rotated /rot o1 (bigD1 (Ordinal hj)) //= big1 ?addr0 => [|i /negPf ij].
    by rewrite -[j in get _ j]/(val (Ordinal hj)) -[j in get _ _ j]/(val (Ordinal hj)) ofM_get !mxE eqxx scaleN1r.
  by rewrite -[j]/(val (Ordinal hj)) ofM_get !mxE eq_sym ij oppr0 scale0r.
have [|P [Y [[_ _ hP] [s' eY] H]]] := @C59_CN C occ_gen occ_gen_ok E Lg expm logm HX HY n None s _ n0 isT isT (erefl _).
- move=> i j; rewrite o1; have [hi|hi] := ltnP i (2 * n); last by left; rewrite get_out //= (leq_gtF hi).
  have [hj|hj] := ltnP j (2 * n); last by left; rewrite get_out //= (leq_gtF hj) andbF.
  rewrite -[i]/(val (Ordinal hi)) -[j]/(val (Ordinal hj)) ofM_get !mxE; case: eqP => _; last by left; rewrite oppr0.
  right; rewrite normrN normr1 -real_leNgt ?real1 ?realV ?rpredX ?realn //.
  by rewrite invf_le1 ?exprn_gt0 ?ltr0n // exprn_ege1 // ler1n.
have eY0 : Y = e0 C n.
  apply: (@ofM_inj C); rewrite -eY -zeroE.
  apply: arrP => //= i j hi hj; rewrite /zero_state !get_mk hi hj /= (_ : j == 0%N) ?andbT //; lia.
have PY : P *m Y = Y.
  apply/hP => j hj; rewrite cE; last by lia.
  by rewrite adjmN mulNmx /alphaM hj adjmK eY0 am_e0 ?oppr0.
have [|psi [e u _ o]] := H; first by rewrite PY eY0; apply: contraTneq isT => h; have := unit_e0 C n; rewrite /unit_vector h mulmx0 => /matrixP/(_ 0 0); rewrite !mxE => /esym/eqP; rewrite oner_eq0.
exists psi; split=> // j hj; have := o j hj; rewrite cE; last by lia.
by rewrite adjmN mulmxN !mulNmx opprK /alphaM hj adjmK /= ltnS n0 ltnS leqn0.
Qed.
End Concrete.
