(* PropRandom3.v -- properties C56, C57, C63: random qubit states, mixed free-fermion states, seeding *)
Set Warnings "-notation-overridden,-ambiguous-paths".
From mathcomp Require Import all_ssreflect all_algebra.
From mathcomp.zify Require Import zify.
From Verif Require Import Base ArrC MCombinatorics MLib JW OpFam FermAlg LibFacts LibFacts2 LibFacts3 Expm ExpmAd.
From Verif Require Import PropLib1 PropLib2 PropLib3 Spectral MUtils PropUtils2 MRandom RndFacts PropRandom1 PropRandom2.
Set Implicit Arguments.
Unset Strict Implicit.
Unset Printing Implicit Defensive.
Import Order.Theory GRing.Theory Num.Theory.
Local Open Scope ring_scope.

Section Seeds.
Variable C : numClosedFieldType.
Local Notation arr := (arr C).
Variable G : gen C.
Variables (expm logm : arr -> arr).

(* ================================================================== *)
(* C63  seeded calls are reproducible                                  *)
(* ================================================================== *)
(* no assumption on the generator, on expm or on logm: the outcome of a seeded call (value or exception) does not
   depend on the state left behind by earlier calls *)
Definition reproducible T (f : option int -> rnd G T) := forall z (s s' : st G), (f (Some z) s).1 = (f (Some z) s').1.

Lemma rep_seed T (k : option int -> rnd G T) : reproducible (fun seed => rbind (seed_opt seed) (fun _ => k seed)).
Proof. by move=> z s s'; rewrite /rbind /=; case: ifP. Qed.

Lemma rep_lift A T (m : res A) (k : A -> option int -> rnd G T) : (forall a, reproducible (k a)) ->
  reproducible (fun seed => rbind (lift m) (fun a => k a seed)).
Proof. by move=> h z s s'; rewrite /rbind /lift; case: m => //= a; exact: h. Qed.

Theorem C63_rotation n rH rO : reproducible (fun seed => random_FF_rotation expm logm n seed rH rO).
Proof. exact: rep_seed. Qed.
Theorem C63_H_generator n fixedN : reproducible (fun seed => draw_H_generator n fixedN seed).
Proof. exact: rep_seed. Qed.
Theorem C63_FF_state n fixedN rH pure : reproducible (fun seed => random_FF_state expm logm n fixedN seed rH pure).
Proof. exact: (@rep_seed _ (fun seed => _)). Qed.
Theorem C63_qubit_state n : reproducible (fun seed => random_qubit_state n seed).
Proof. by apply: rep_lift => m; exact: rep_seed. Qed.
Theorem C63_qubit_pure_state n : reproducible (fun seed => random_qubit_pure_state n seed).
Proof. by apply: rep_lift => m; exact: rep_seed. Qed.
Theorem C63_randH n : reproducible (fun seed => random_FF_state_randH expm n seed).
Proof. by apply: rep_lift => m; exact: rep_seed. Qed.
Theorem C63_rotPDF n rS : reproducible (fun seed => random_FF_state_rotPDF expm logm n rS seed).
Proof. by apply: rep_lift => m; exact: rep_seed. Qed.
Theorem C63_W0 n : reproducible (fun seed => random_FF_pure_state_W0 expm logm n seed).
Proof. by apply: rep_lift => m; exact: (@rep_seed _ (fun seed => _)). Qed.
Theorem C63_WN n N : reproducible (fun seed => random_FF_pure_state_WN expm logm n N seed).
Proof. by apply: rep_lift => m; apply: rep_lift => _; exact: (@rep_seed _ (fun seed => _)). Qed.
Theorem C63_CN n : reproducible (fun seed => random_FF_pure_state_CN expm logm n seed).
Proof. by apply: rep_lift => m; exact: (@rep_seed _ (fun seed => _)). Qed.

End Seeds.

Section States.
Variable C : numClosedFieldType.
Local Notation arr := (arr C).
Variable G : gen C.
Hypothesis HG : gen_ok G.

Lemma vecP' m (s : seq C) : size s = m -> s = vec (fun i : 'I_m => nth 0 s i).
Proof. by move=> <-; exact: vecP. Qed.

(* a unitary rotation of a probability vector is a density matrix *)
Lemma spectral_density m (U : 'M[C]_m) (p : 'I_m -> C) : unitary U -> (forall i, 0 <= p i) -> \sum_i p i = 1 ->
  density (U *m diag_mx (\row_i p i) *m adjm U).
Proof.
move=> u p0 p1; split; last first.
  rewrite mxtrace_mulC mulmxA unitaryC // mul1mx mxtrace_diag -[RHS]p1; by apply: eq_bigr => i _; rewrite mxE.
rewrite -{1}[U]adjmK; apply: psd_congr.
apply/(@psd_diag _ _ _ 1%:M (\row_i p i)); rewrite /unitary ?adjm1 ?mulmx1 ?mul1mx // => i.
by rewrite mxE.
Qed.

Lemma prob_vec m (s : seq C) : prob_vector m s ->
  exists p : 'I_m -> C, [/\ s = vec p, forall i, 0 <= p i & \sum_i p i = 1].
Proof.
move=> [sz pos sm]; have e := vecP' sz; exists (fun i => nth 0 s i); split=> //.
  by move=> i; apply: (allP pos); rewrite mem_nth ?sz.
by rewrite -[RHS]sm [in RHS]e big_map big_enum.
Qed.

(* ================================================================== *)
(* C56  random qubit states                                            *)
(* ================================================================== *)
(* for every draw: a density matrix with the drawn spectrum (p) and the drawn eigenbasis (U) *)
Theorem C56_mixed n seed (s : st G) : 0 < n -> seed_ok seed ->
  exists (U : 'M[C]_(2 ^ `|n|)) (p : 'I_(2 ^ `|n|) -> C) (rho : 'M[C]_(2 ^ `|n|)), [/\
    (g_dirichlet G (2 ^ `|n|) (seeded seed s)).1 = vec p, unitary U,
    (random_qubit_state (PInt n) seed s).1 = Ok (ofM rho),
    rho = U *m diag_mx (\row_i p i) *m adjm U & density rho].
Proof.
move=> n0 hs; have p0 : (0 < 2 ^ `|n|)%N := pow2_gt0 `|n|.
have [p [ep pp p1]] := prob_vec (dirichlet_ok HG (seeded seed s) p0).
have [U eU uU] := unitary_ok HG (g_dirichlet G (2 ^ `|n|) (seeded seed s)).2 p0.
have d := spectral_density uU pp p1.
exists U, p, (U *m diag_mx (\row_i p i) *m adjm U); split=> //.
rewrite /random_qubit_state {1}/rbind /lift /check_n leNgt n0 /= {1}/rbind seed_optE // /rbind /sample eU ep diag_arr.
rewrite ofM_mul_chk ofM_adj ofM_mul_chk.
have [|h _] := @C25_matrix _ _ (U *m diag_mx (\row_i p i) *m adjm U); last by have := h (near_density d); rewrite /= => ->.
by case: n n0 {p ep pp p1 U eU uU d hs p0} => [[|n]|n] //= _; rewrite expnS; have := pow2_gt0 n; lia.
Qed.

(* for every draw: the first column of the drawn unitary, a unit vector *)
Theorem C56_pure n seed (s : st G) : 0 < n -> seed_ok seed ->
  exists (U : 'M[C]_(2 ^ `|n|)) (psi : 'cV[C]_(2 ^ `|n|)), [/\
    (g_unitary G (2 ^ `|n|) (seeded seed s)).1 = ofM U,
    (random_qubit_pure_state (PInt n) seed s).1 = Ok (ofM psi),
    forall i, psi i 0 = U i (Ordinal (pow2_gt0 `|n|)) & unit_vector psi].
Proof.
move=> n0 hs; have p0 : (0 < 2 ^ `|n|)%N := pow2_gt0 `|n|.
have [U eU uU] := unitary_ok HG (seeded seed s) p0.
have uv : unit_vector (U *m e0 C `|n|) by apply: unit_mul => //; exact: unit_e0.
exists U, (U *m e0 C `|n|); split=> //.
  rewrite /random_qubit_pure_state {1}/rbind /lift /check_n leNgt n0 /= {1}/rbind seed_optE // /rbind /sample eU zeroE.
  by rewrite ofM_mul_chk fro_unit // close_refl.
by move=> i; rewrite -colE mxE.
Qed.

(* invalid sizes *)
Theorem C56_invalid seed (s : st G) :
  [/\ (random_qubit_state PNotInt seed s).1 = Raise TypeError,
      (random_qubit_pure_state PNotInt seed s).1 = Raise TypeError,
      forall n : int, n <= 0 -> (random_qubit_state (PInt n) seed s).1 = Raise ValueError &
      forall n : int, n <= 0 -> (random_qubit_pure_state (PInt n) seed s).1 = Raise ValueError].
Proof. by split=> // n n0; rewrite /random_qubit_state /random_qubit_pure_state /rbind /lift /check_n n0. Qed.

(* every CHP sample with a normalised amplitude list is a unit column; invalid n raises *)
Theorem C56_CHP (wf : nat -> seq C) (n : int) : 0 < n -> size (wf `|n|%N) = (2 ^ `|n|)%N ->
  \sum_(x <- wf `|n|%N) `|x| ^+ 2 = 1 ->
  exists2 psi : 'cV[C]_(2 ^ `|n|), random_CHP_state wf (PInt n) = Ok (ofM psi) &
     unit_vector psi /\ forall i, psi i 0 = nth 0 (wf `|n|%N) i.
Proof.
move=> n0 sz nrm; exists (\col_i nth 0 (wf `|n|%N) i); last first.
  split=> [|i]; last by rewrite mxE.
  apply/matrixP => i j; rewrite !ord1 gram_cV mxE eqxx -nrm [in RHS](vecP' sz) big_map big_enum.
  by apply: eq_bigr => k _; rewrite mxE.
rewrite /random_CHP_state /check_n leNgt n0 /=; congr Ok; apply: arrP => /=; rewrite ?sz // => i j hi hj.
rewrite getE ?sz // -[i in RHS]/(val (Ordinal hi)) -[j]/(val (Ordinal hj)) ofM_get mxE //.
Qed.

(* ================================================================== *)
(* C57  random mixed free-fermion states                               *)
(* ================================================================== *)
Variables (E Lg : forall n, 'M[C]_n -> 'M[C]_n) (expm logm : arr -> arr).
Hypotheses (HE : expm_spec E) (HX : computes expm E) (HL : logm_spec E Lg) (HY : computes_u logm Lg).

(* Hermiticity of  sum_ij r_ij alpha_i alpha_j  *)
Lemma direct_qlift n (r : nat -> nat -> C) :
  \sum_(i < 2 * n) \sum_(j < 2 * n) r i j *: (alphaM C n i *m alphaM C n j) =
  qlift (alphaM C n) (2 * n) (fun i j => r (sw n i) j).
Proof.
rewrite (sum_sw n (fun i => \sum_(j < 2 * n) r i j *: (alphaM C n i *m alphaM C n j))).
by apply: eq_bigr => i _; apply: eq_bigr => j _; rewrite (alphas_car C n).2.
Qed.

Lemma direct_herm n (r : nat -> nat -> C) :
  (forall i j, (i < 2 * n)%N -> (j < 2 * n)%N -> (r (sw n j) i)^* = r (sw n i) j) ->
  hermitian (\sum_(i < 2 * n) \sum_(j < 2 * n) r i j *: (alphaM C n i *m alphaM C n j)).
Proof. by move=> h; rewrite direct_qlift; apply: lift_herm => i j hi hj; exact: h. Qed.

Theorem C57_randH n seed (s : st G) : 0 < n -> seed_ok seed ->
  exists rho H : 'M[C]_(2 ^ `|n|), [/\ (random_FF_state_randH expm (PInt n) seed s).1 = Ok (ofM rho),
    hermitian H /\ (exists R : 'M[C]_(2 * `|n|), H = lift_spec R (alphaM C `|n|)),
    rho = (\tr (E (- H)))^-1 *: E (- H), density rho & parity C `|n| *m rho = rho *m parity C `|n|].
Proof.
move=> n0 hs; rewrite /random_FF_state_randH {1}/rbind /lift /check_n leNgt n0 /= {1}/rbind seed_optE //.
have : (0 < `|n|)%N by lia.
move: `|n|%N => {}n {}n0; rewrite /rbind /sample.
case e1 : (g_randn G n n _) => [a1 s1]; case e2 : (g_randn G n n _) => [a2 s2].
case e3 : (g_randn G n n _) => [z1 s3]; case e4 : (g_randn G n n _) => [z2 s4].
have [/shpP [r1 c1] _] := randn_ok HG n n (seeded seed s); rewrite e1 /= in r1 c1.
have [/shpP [r2 c2] _] := randn_ok HG n n s1; rewrite e2 /= in r2 c2.
have [/shpP [r3 c3] _] := randn_ok HG n n s2; rewrite e3 /= in r3 c3.
have [/shpP [r4 c4] _] := randn_ok HG n n s3; rewrite e4 /= in r4 c4.
rewrite ![(_, _).1]/= ![(_, _).2]/=.
set X := aadd a1 _; set Y := aadd z1 _; set A := aadd X _; set Z := asub Y _.
have sA : shp A n n by rewrite /shp /= r1 c1 !eqxx.
have sZ : shp Z n n by rewrite /shp /= r3 c3 !eqxx.
have [V -> hb] := C42_build_V sA sZ; have [hr hc hV] := hb.
have hA k l : (k < n)%N -> (l < n)%N -> (get A k l)^* = get A l k.
  have h i j : (i < n)%N -> (j < n)%N -> get A i j = get X i j + (get X j i)^*.
    by move=> hi hj; rewrite getE /= ?r1 ?c1 //; congr (_ + _); rewrite getE /= ?r1 ?c1.
  by move=> hk hl; rewrite !h // rmorphD conjCK addrC.
have hZ k l : (k < n)%N -> (l < n)%N -> get Z k l = - get Z l k.
  have h i j : (i < n)%N -> (j < n)%N -> get Z i j = get Y i j - get Y j i.
    by move=> hi hj; rewrite getE /= ?r3 ?c3 //; congr (_ - _); rewrite getE /= ?r3 ?c3.
  by move=> hk hl; rewrite !h // opprB.
set c : C := 2%:R ^ _.
have cr : c^* = c by apply: CrealP; rewrite /c; case: (2%:Z - n%:Z) => k; rewrite /exprz ?rpredV rpredX ?realn.
have sV i j : (i < 2 * n)%N -> (j < 2 * n)%N -> (get V (sw n j) i)^* = get V (sw n i) j.
  have half k : (n <= k)%N -> (k < 2 * n)%N -> (k - n < n)%N /\ k = (n + (k - n))%N by lia.
  have gV k l : (k < n)%N -> (l < n)%N -> [/\ get V k l = - (get Z k l)^*, get V k (n + l) = get A k l,
     get V (n + k) l = - get A l k & get V (n + k) (n + l) = get Z k l].
    by move=> hk hl; have [-> -> -> ->] := hV k l hk hl; rewrite hA.
  move=> hi hj; rewrite /sw (addnC i) (addnC j).
  case: (ltnP i n) => hi'; case: (ltnP j n) => hj'.
  - have [_ _ -> _] := gV j i hj' hi'; have [_ _ -> _] := gV i j hi' hj'; by rewrite rmorphN hA.
  - have [hk ek] := half j hj' hj; have [-> _ _ _] := gV (j - n)%N i hk hi'.
    by rewrite [in RHS]ek; have [_ _ _ ->] := gV i (j - n)%N hi' hk; rewrite rmorphN conjCK -hZ.
  - have [hk ek] := half i hi' hi; rewrite [in LHS]ek; have [_ _ _ ->] := gV j (i - n)%N hj' hk.
    by have [-> _ _ _] := gV (i - n)%N j hk hj'; rewrite [in LHS]hZ // rmorphN.
  have [hk ek] := half i hi' hi; have [hl el] := half j hj' hj; rewrite [in LHS]ek [in RHS]el.
  by have [_ -> _ _] := gV (j - n)%N (i - n)%N hl hk; have [_ -> _ _] := gV (i - n)%N (j - n)%N hk hl; rewrite hA.
pose M := c *: toM (2 * n) (2 * n) V; pose r := get (ofM (cutoff (10%:R ^+ 10)^-1 M)).
pose H := \sum_(i < 2 * n) \sum_(j < 2 * n) r i j *: (alphaM C n i *m alphaM C n j).
have rE i j : (i < 2 * n)%N -> (j < 2 * n)%N -> r i j = if `|c * get V i j| < (10%:R ^+ 10)^-1 then 0 else c * get V i j.
  by move=> hi hj; rewrite /r -[i]/(val (Ordinal hi)) -[j]/(val (Ordinal hj)) ofM_get !mxE.
have hH : hermitian H.
  apply: direct_herm => i j hi hj; rewrite !rE ?sw_lt // -sV //; move: (get V (sw n i) j) => v.
  have -> : c * v^* = (c * v)^* by rewrite rmorphM /= cr.
  by rewrite norm_conjC; case: ifP; rewrite ?rmorph0 ?conjCK.
exists ((\tr (E (- H)))^-1 *: E (- H)), H; split=> //.
- rewrite -(ofM_toM hr hc) ofM_scale -/M alphas_ops C47_direct //; last by lia.
  have -> : \sum_(i < 2 * n) \sum_(j < 2 * n) cutoff (10%:R ^+ 10)^-1 M i j *: (alphaM C n i *m alphaM C n j) = H.
    by apply: eq_bigr => i _; apply: eq_bigr => j _; rewrite /r ofM_get.
  by rewrite /= (_ : aopp (ofM H) = ofM (- H)) ?HX ?normaliseE //; exact: ofM_opp.
- split=> //; exists (\matrix_(i, j) r (sw n i) j); rewrite lift_qlift /H direct_qlift.
  apply: eq_bigr => i _; apply: eq_bigr => j _; by rewrite ofM_get mxE.
- by apply: (expm_density HE (pow2_gt0 n)); rewrite /hermitian adjmN hH.
rewrite -scalemxAl -scalemxAr; congr (_ *: _); apply/esym/(expm_comm HE); rewrite mulNmx mulmxN; congr (- _).
rewrite /H mulmx_suml mulmx_sumr; apply: eq_bigr => i _; rewrite mulmx_suml mulmx_sumr; apply: eq_bigr => j _.
by rewrite -scalemxAl -scalemxAr (parity_pair (parity_al C i) (parity_al C j)).
Qed.

(* a rotated probability distribution: for every draw the assertion passes and the result is a density matrix with the
   drawn spectrum, in the eigenbasis given by a free-fermion unitary *)
Theorem C57_rotPDF n returnS seed (s : st G) : 0 < n -> seed_ok seed ->
  exists (W : 'M[C]_(2 ^ `|n|)) (p : 'I_(2 ^ `|n|) -> C) (rho : 'M[C]_(2 ^ `|n|)), [/\
    (random_FF_rotation expm logm `|n| seed false false s).1 = Ok (ofM W),
    (random_FF_state_rotPDF expm logm (PInt n) returnS seed s).1 = Ok (ofM rho, if returnS then Some (vec p) else None),
    unitary W /\ exists s', (g_dirichlet G (2 ^ `|n|) s').1 = vec p,
    rho = W *m diag_mx (\row_i p i) *m adjm W & density rho].
Proof.
move=> n0 hs; rewrite /random_FF_state_rotPDF {1}/rbind /lift /check_n leNgt n0 /= {1}/rbind seed_optE //.
have : (0 < `|n|)%N by lia.
move: `|n|%N => {}n {}n0; have p0 := pow2_gt0 n.
have [O [sO eO e]] := rotationE HG HX HY (seeded seed s) n0 (isT : seed_ok None).
have [O' [_ eO' e']] := rotationE HG HX HY s n0 hs.
have eOO : O' = O by apply: (@ofM_inj C); rewrite -eO -eO'.
have u := rot_unitary HE HL (so_unitary sO).
set s1 := (g_ortho G (2 * n) (seeded seed s)).2 in e.
have [p [ep pp p1]] := prob_vec (dirichlet_ok HG s1 p0).
exists (rotM E Lg O), p, (rotM E Lg O *m diag_mx (\row_i p i) *m adjm (rotM E Lg O)); split=> //.
- by rewrite e' eOO.
- rewrite {1}/rbind [random_FF_rotation _ _ _ _ _ _ _]e {1}/rbind ofM_adj ofM_mul_chk u {1}/rbind -ofM_eye allclose_refl.
  rewrite /= {1}/rbind /sample /= ep /rbind diag_arr ofM_mul_chk ofM_mul_chk /=; by case: (returnS).
- by split=> //; exists s1.
exact: spectral_density.
Qed.
End States.

Section Examples.
Variable C : numClosedFieldType.

Example C56_example s : (@random_qubit_pure_state C (const_gen C) (PInt 2) None s).1 = Ok (ofM (e0 C 2)).
Proof.
have [U [psi [eU -> h _]]] := C56_pure (gen_ok_satisfiable C) s (isT : 0 < 2%:Z) (isT : seed_ok None).
congr (Ok (ofM _)); apply/colP => i; rewrite h; move: eU => /=.
rewrite ofM_eye => /ofM_inj <-; rewrite !mxE andbT; congr ((nat_of_bool (_ == _))%:R); exact: val_inj.
Qed.

(* the distribution drawn by [const_gen] is concentrated on the first state: a pure state, as a density matrix *)
Example C57_example (E Lg : forall n, 'M[C]_n -> 'M[C]_n) (expm logm : arr C -> arr C) seed s :
  expm_spec E -> computes expm E -> logm_spec E Lg -> computes_u logm Lg -> seed_ok seed ->
  exists2 rho : 'M[C]_(2 ^ 3), (@random_FF_state_rotPDF C (const_gen C) expm logm (PInt 3) false seed s).1 = Ok (ofM rho, None) &
    density rho /\ rho *m rho = rho.
Proof.
move=> HE HX HL HY hs.
have [W [p [rho [_ e [uW [s' ep]] er d]]]] := C57_rotPDF (gen_ok_satisfiable C) HE HX HL HY false s (isT : 0 < 3%:Z) hs.
exists rho => //; split=> //; rewrite er !mulmxA -(mulmxA _ (adjm W)) unitaryC // mulmx1.
congr (_ *m _); rewrite -mulmxA; congr (_ *m _); rewrite mulmx_diag; congr diag_mx; apply/rowP => i; rewrite !mxE.
have -> : p i = nth 0 ((1 : C) :: nseq 7 0) i by rewrite -nth_vec -ep.
move: (nat_of_ord i) => k; do 9 (case: k => [|k]; first by rewrite /= ?mulr1 ?mulr0).
by rewrite /= mulr0.
Qed.

(* without a seed the outcome does depend on the history *)
Definition two_gen : gen C :=
  @Gen C bool (fun _ => true) (fun m n s => (azeros m n, s)) (fun d s => (aeye d, s))
    (fun d s => (ascale (if s then 1 else -1) (aeye d), ~~ s)) (fun m s => (1 :: nseq m.-1 0, s)) (fun s => (0, s)) (fun _ s => (0%N, s)).
Example C63_example z : seed_ok (Some z) ->
  (random_qubit_pure_state (G := two_gen) (PInt 1) (Some z) false).1 = (random_qubit_pure_state (G := two_gen) (PInt 1) (Some z) true).1 /\
  (random_qubit_pure_state (G := two_gen) (PInt 1) None false).1 <> (random_qubit_pure_state (G := two_gen) (PInt 1) None true).1.
Proof.
move=> hz; split; first exact: C63_qubit_pure_state.
have e (b : bool) : (random_qubit_pure_state (G := two_gen) (PInt 1) None b).1 = Ok (ofM ((if b then 1 else -1) *: e0 C 1)).
  rewrite /random_qubit_pure_state /rbind /lift /check_n /= /ret /sample /= zeroE ofM_eye ofM_scale ofM_mul -scalemxAl mul1mx.
  rewrite fro_unit ?close_refl //; rewrite /unit_vector adjmZ -scalemxAl -scalemxAr scalerA unit_e0.
  by case: b; rewrite ?rmorphN ?conjC1 ?mulrNN ?mulr1 scale1r.
rewrite !e => h; have /matrixP /(_ (Ordinal (pow2_gt0 1)) 0) := ofM_inj (okI h); rewrite !mxE !eqxx !mulr1 => /eqP.
by rewrite eq_sym -addr_eq0 -mulr2n pnatr_eq0.
Qed.
End Examples.
