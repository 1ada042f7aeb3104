(* PropDist10.v -- property C83: the stabilizer distribution and the stabilizer Renyi entropy under Clifford unitaries
   and for independent systems, and bounds. *)
Set Warnings "-notation-overridden,-ambiguous-paths".
From Coq Require Import Reals.
From mathcomp Require Import all_ssreflect all_algebra.
From mathcomp Require Import complex mxtens.
From mathcomp.zify Require Import zify.
From Verif Require Import Base ArrC MCombinatorics MLib JW OpFam LibFacts3 MUtils Spectral RealC Info Info2 MDist PropUtils1 PropUtils2 PropDist1 PropDist2 PropDist6 PropDist7.
Set Implicit Arguments.
Unset Strict Implicit.
Unset Printing Implicit Defensive.
Import Order.Theory GRing.Theory Num.Theory.
Local Open Scope ring_scope.

Local Notation input := (input CR).

(* ------------------------------------------------------------------ *)
(* renyi_entropy depends on the multiset of probabilities only         *)
(* ------------------------------------------------------------------ *)
Lemma eaddC : commutative eadd.
Proof. by move=> [a| | |] [b| | |] //=; rewrite addrC. Qed.
Lemma eaddA : associative eadd.
Proof. by move=> [a| | |] [b| | |] [c| | |] //=; rewrite addrA. Qed.
Lemma esum_rem (T : eqType) (F : T -> ext) (s : seq T) x : x \in s ->
  esum [seq F y | y <- s] = eadd (F x) (esum [seq F y | y <- rem x s]).
Proof.
elim: s => //= y s IH; rewrite inE; case: (eqVneq x y) => [-> //|xy] /= h; rewrite IH //.
by rewrite eaddA [eadd (F y) _]eaddC -eaddA.
Qed.
Lemma esum_permE (T : eqType) (F : T -> ext) (s t : seq T) : perm_eq s t -> esum [seq F y | y <- s] = esum [seq F y | y <- t].
Proof.
elim: s t => [|x s IH] t p; first by rewrite perm_sym in p; rewrite (perm_nilP p).
have xt : x \in t by rewrite -(perm_mem p) mem_head.
rewrite (esum_rem _ xt) /= (IH (rem x t)) // -(perm_cons x) (perm_trans p) //; exact: perm_to_rem.
Qed.

Lemma amax_mem (p : seq R) : ~~ nilp p -> amax p \in p /\ forall t, t \in p -> t <= amax p.
Proof.
have h (s : seq R) d : (forall t, t \in s -> t <= foldr Num.max d s) /\ foldr Num.max d s \in d :: s.
  elim: s => [|t s [IH1 IH2]]; first by rewrite mem_head.
  split=> [u|] /=; first by rewrite inE le_maxr => /orP[/eqP ->|/IH1 ->]; rewrite ?lexx ?orbT.
  rewrite !inE maxEle; case: ifP => _; last by rewrite eqxx orbT.
  by move: IH2; rewrite inE => /orP[->|->]; rewrite ?orbT.
case: p => // x s _; have [h1 h2] := h (x :: s) x; split=> //.
by move: h2; rewrite /amax /= inE => /orP[/eqP ->|//]; rewrite mem_head.
Qed.

Lemma renyi_perm (x x' : input) (p p' : seq R) a : pdf x = Ok p -> pdf x' = Ok p' -> perm_eq p p' ->
  renyi_entropy x a = renyi_entropy x' a.
Proof.
move=> e e' pp; rewrite /renyi_entropy e e' /=; case: a => [a|].
  case: ifP => _; first by congr Ok; rewrite /entropy1 (perm_big _ pp) /=; exact: esum_permE.
  by case: ifP => _; rewrite ?(permP pp) // (perm_big _ pp).
have en : nilp p = nilp p' by rewrite /nilp (perm_size pp).
rewrite -en; case: ifP => // /negbT np; congr (Ok (Fin (- ln _))).
have [m1 u1] := amax_mem np; have [m2 u2] : amax p' \in p' /\ _ := amax_mem (etrans (esym (congr1 negb en)) np).
by apply/eqP; rewrite eq_le u2 -?(perm_mem pp) // u1 // (perm_mem pp).
Qed.

Lemma rvec_perm (T : eqType) n (f : 'I_n -> 'I_n) (g : 'I_n -> T) : injective f ->
  perm_eq [seq g (f i) | i <- enum 'I_n] [seq g i | i <- enum 'I_n].
Proof.
move=> fi; rewrite (map_comp g f); apply: perm_map; apply: uniq_perm.
- by rewrite (map_inj_uniq fi) enum_uniq.
- exact: enum_uniq.
move=> i; rewrite mem_enum; apply/mapP; have [h hK fK] := injF_bij fi.
by exists (h i); rewrite ?mem_enum.
Qed.

Lemma renyi_relabel n (f : 'I_n -> 'I_n) (p : 'I_n -> R) a : injective f -> dist p ->
  renyi_entropy (vin (rvec (fun i => p (f i)))) a = renyi_entropy (vin (rvec p)) a.
Proof.
move=> fi dp.
have rx (F : 'I_n -> CR) : \sum_i F (f i) = \sum_i F i by rewrite [RHS](reindex_inj fi).
have e (g : 'I_n -> R) : vin (rvec g) = V1 (vec (fun i => toC (g i))) by rewrite /vin /rvec -map_comp.
have c1 := @C26_probability CR n (fun i => toC (p i)); have c2 := @C26_probability CR n (fun i => toC (p (f i))).
have s1 : \sum_i toC (p i) = 1 by rewrite -rmorph_sum /= dp.2 rmorph1.
have s2 : \sum_i toC (p (f i)) = 1 by rewrite (rx (fun i => toC (p i))).
have {}c1 := c1 (fun i => etrans (toC_ge0 _) (dp.1 i)) s1.
have {}c2 := c2 (fun i => etrans (toC_ge0 _) (dp.1 (f i))) s2.
rewrite /= (rx (fun i => toC (p i) ^+ 2)) in c2; rewrite /= in c1.
rewrite !e; move: c1 c2; case: ifP => _.
  case: ifP => _ c1 c2; last by rewrite /renyi_entropy /pdf c1 c2.
  apply: (renyi_perm _ (pdf_vec c2) (pdf_vec c1)); exact: (rvec_perm (fun i => re (toC (p i) ^+ 2)) fi).
move=> c1 c2; apply: (renyi_perm _ (pdf_vec c2) (pdf_vec c1)); exact: (rvec_perm (fun i => re (toC (p i))) fi).
Qed.

(* U maps every Pauli string to a Pauli string, up to sign *)
Definition clifford n (P : nat -> 'M[CR]_(2 ^ n)) (U : 'M[CR]_(2 ^ n)) := unitary U /\
  forall k : 'I_(4 ^ n), exists j : 'I_(4 ^ n), adjm U *m P k *m U = P j \/ adjm U *m P k *m U = - P j.

Lemma pauli_trace n (k l : 'I_(4 ^ n)) : \tr (pauli n k *m pauli n l) = if k == l then 2%:R ^+ n else 0.
Proof. by rewrite -ofM_trace -ofM_mul !ofM_pauli pstr_trace. Qed.

Lemma clifford_perm n (U : 'M[CR]_(2 ^ n)) : clifford (pauli n) U ->
  exists2 f : 'I_(4 ^ n) -> 'I_(4 ^ n), injective f &
  forall k : 'I_(4 ^ n), adjm U *m pauli n k *m U = pauli n (f k) \/ adjm U *m pauli n k *m U = - pauli n (f k).
Proof.
case=> uU /fin_all_exists[f hf]; exists f => // k l e.
have U1 : U *m adjm U = 1%:M := uU.
have cK (A : 'M[CR]_(2 ^ n)) : U *m (adjm U *m A *m U) *m adjm U = A by rewrite !mulmxA U1 mul1mx -mulmxA U1 mulmx1.
have t0 : (2%:R ^+ n : CR) != 0 by rewrite expf_neq0 // pnatr_eq0.
have tkk : \tr (pauli n k *m pauli n k) = 2%:R ^+ n by rewrite pauli_trace eqxx.
apply/eqP; apply/negPn/negP => kl; have tkl := pauli_trace k l; rewrite (negPf kl) in tkl.
have [h|h] : pauli n l = pauli n k \/ pauli n l = - pauli n k.
  case: (hf k) (hf l) => hk [] hl; rewrite -[pauli n k]cK -[pauli n l]cK hk hl e; [by left|right|right|by left].
    by rewrite mulmxN mulNmx.
  by rewrite mulmxN mulNmx opprK.
  by rewrite h tkk in tkl; move/eqP: tkl; rewrite (negPf t0).
by rewrite h mulmxN raddfN /= tkk in tkl; move/eqP: tkl; rewrite oppr_eq0 (negPf t0).
Qed.

(* Clifford unitaries permute the stabilizer distribution and leave SRE unchanged, for every state and order *)
Theorem C83_clifford n (x x' : input) (U M : 'M[CR]_(2 ^ n)) l : (0 < n)%N -> density M ->
  generate_pauli_group CR n%:Z = Ok l -> clifford (fun k => toM (2 ^ n) (2 ^ n) (nth (azeros 0 0) l k)) U ->
  cast_to_density_matrix x = Ok (ofM M) -> cast_to_density_matrix x' = Ok (ofM (U *m M *m adjm U)) ->
  (exists q q', [/\ stabilizer_distribution x = Ok q, stabilizer_distribution x' = Ok q' & perm_eq q q']) /\
  (forall a, SRE x' a = SRE x a).
Proof.
move=> n0 d eg cU ex ex'.
have eP (k : 'I_(4 ^ n)) : toM (2 ^ n) (2 ^ n) (nth (azeros 0 0) l k) = pauli n k.
  by move: eg; rewrite pauli_groupE // => -[<-]; rewrite nth_mkseq.
have {}cU : clifford (pauli n) U by case: cU => uU h; split=> // k; have [j hj] := h k; exists j; rewrite -!eP.
have [uU _] := cU; have U2 : adjm U *m U = 1%:M := mulmx1C uU.
have d' : density (U *m M *m adjm U).
  have [p t1] := d; split; last by rewrite mxtrace_mulC mulmxA U2 mul1mx.
  by have := psd_congr (adjm U) p; rewrite adjmK.
have [f fi hf] := clifford_perm cU.
have exi : xi (U *m M *m adjm U) =1 (fun k => xi M (f k)).
  move=> k; rewrite /xi.
  have -> : \tr (U *m M *m adjm U *m (U *m M *m adjm U)) = \tr (M *m M).
    by rewrite !mulmxA -[U *m M *m adjm U *m U]mulmxA U2 mulmx1 mxtrace_mulC !mulmxA U2 mul1mx.
  congr (_ / _); have -> : \tr (pauli n k *m (U *m M *m adjm U)) = \tr (adjm U *m pauli n k *m U *m M).
    by rewrite mulmxA mxtrace_mulC !mulmxA.
  by case: (hf k) => ->; rewrite ?mulNmx ?raddfN /= ?sqrrN.
have e : rvec (xi (U *m M *m adjm U)) = rvec (fun k => xi M (f k)) by exact: eq_rvec.
have pe : perm_eq (rvec (fun k => xi M (f k))) (rvec (xi M)) by exact: rvec_perm.
split.
  exists (rvec (xi M)), (rvec (xi (U *m M *m adjm U))).
  by apply: And3 (stabE n0 ex d) (stabE n0 ex' d') _; rewrite e perm_sym.
move=> a; rewrite /SRE ex ex' /= (stabE n0 (C25_density d) d) (stabE n0 (C25_density d') d') /= e (permP pe).
by rewrite (renyi_relabel a fi (xi_dist d)).
Qed.

(* ------------------------------------------------------------------ *)
(* independent systems                                                 *)
(* ------------------------------------------------------------------ *)
Lemma ts_cat n m (f : nat -> arr CR) : site2 f -> ts (n + m) f = akron (ts n f) (ts m (fun j => f (n + j)%N)).
Proof.
move=> Hf; elim: m => [|m IH]; last by rewrite addnS !tsS IH akronA.
rewrite addn0 ts0; apply: arrP => [||i j]; rewrite /= ?muln1 // => hi hj.
by rewrite [RHS]getE /= ?muln1 // !divn1 !modn1 getE // mulr1.
Qed.

Lemma pstr_cat n m k : pstr CR (n + m) k = akron (pstr CR n (k %/ 4 ^ m)) (pstr CR m (k %% 4 ^ m)).
Proof.
rewrite /pstr ts_cat; last exact: pstr2; congr akron; apply: eq_ts => j hj; congr sig.
  rewrite /dig -divnMA -expnD; congr (_ %/ 4 ^ _ %% _)%N; lia.
rewrite /dig (_ : (n + m - (n + j).+1 = m - j.+1)%N); last by lia.
have -> : (4 ^ m = 4 ^ (m - j.+1) * 4 * 4 ^ j)%N by rewrite -mulnA -expnS -expnD; congr (4 ^ _)%N; lia.
move: (4 ^ (m - j.+1))%N (4 ^ j)%N => a b.
by rewrite !modn_divl modn_dvdm // [(4 * a)%N]mulnC dvdn_mulr.
Qed.

Lemma psd_tens m n (A : 'M[CR]_m) (B : 'M[CR]_n) : psd A -> psd B -> psd (A *t B).
Proof.
move=> pA pB; have [hA _] := pA; have [hB _] := pB.
have [U uU [e _ eA]] := spectral_herm hA; have [V uV [f _ eB]] := spectral_herm hB.
have e0 := (psd_diag uU eA).1 pA; have f0 := (psd_diag uV eB).1 pB.
pose g : 'rV[CR]_(m * n) := \row_k (e 0 (mxtens_unindex k).1 * f 0 (mxtens_unindex k).2).
have dg : diag_mx e *t diag_mx f = diag_mx g.
  apply/matrixP => r s; rewrite !mxE; case: (mxtens_indexP r) => i k; case: (mxtens_indexP s) => j l.
  rewrite !mxtens_indexK /= (can_eq (@mxtens_indexK _ _)) xpair_eqE.
  by case: (i == j); case: (k == l); rewrite ?mulr1n ?mulr0n ?mulr0 ?mul0r.
have eT : A *t B = adjm (U *t V) *m diag_mx g *m (U *t V).
  by rewrite -dg adjm_tens !tensmx_mul -eA -eB.
have uT : unitary (U *t V) by rewrite /unitary adjm_tens tensmx_mul uU uV tens11.
by apply/(psd_diag uT eT) => k; rewrite mxE mulr_ge0.
Qed.

Lemma tr_tens m n (A : 'M[CR]_m) (B : 'M[CR]_n) : \tr (A *t B) = \tr A * \tr B.
Proof. by rewrite -!ofM_trace -akron_tens atrace_kron. Qed.

Section Prod.
Variables (n m : nat) (M : 'M[CR]_(2 ^ n)) (N : 'M[CR]_(2 ^ m)).
Hypotheses (dM : density M) (dN : density N).

Let eD : (2 ^ n * 2 ^ m = 2 ^ (n + m))%N. Proof. by rewrite expnD. Qed.
Definition prodM : 'M[CR]_(2 ^ (n + m)) := castmx (eD, eD) (M *t N).

Lemma ofM_cast a b (e : a = b) (A : 'M[CR]_a) : ofM (castmx (e, e) A) = ofM A.
Proof. by subst b; rewrite castmx_id. Qed.
Lemma prodME : ofM prodM = akron (ofM M) (ofM N).
Proof. by rewrite ofM_cast akron_tens. Qed.

Lemma prod_density : density prodM.
Proof.
have h a b (e : a = b) (A : 'M[CR]_a) : density A -> density (castmx (e, e) A) by subst b; rewrite castmx_id.
apply: h; have [pM tM] := dM; have [pN tN] := dN; split; first exact: psd_tens.
by rewrite tr_tens tM tN mulr1.
Qed.

Lemma prod_tr k : (k < 4 ^ (n + m))%N ->
  \tr (pauli (n + m) k *m prodM) = \tr (pauli n (k %/ 4 ^ m) *m M) * \tr (pauli m (k %% 4 ^ m) *m N).
Proof.
move=> hk; rewrite -!ofM_trace -!ofM_mul !ofM_pauli prodME pstr_cat mixed_product ?nc_pstr //.
by rewrite atrace_kron //= ?nr_pstr.
Qed.

Lemma prod_pur : \tr (prodM *m prodM) = \tr (M *m M) * \tr (N *m N).
Proof.
rewrite -!ofM_trace -!ofM_mul prodME mixed_product // atrace_kron //.
Qed.

Lemma xi_prod (k : 'I_(4 ^ (n + m))) (i : 'I_(4 ^ n)) (j : 'I_(4 ^ m)) : k = (i * 4 ^ m + j)%N :> nat ->
  xi prodM k = xi M i * xi N j.
Proof.
move=> e; rewrite /xi prod_tr // prod_pur e divnMDl ?expn_gt0 // divn_small // addn0 modnMDl modn_small //.
have [[hM _] _] := dM; have [[hN _] _] := dN.
have rp p q (A : 'M[CR]_(2 ^ p)) (B : 'M[CR]_(2 ^ p)) (A' : 'M[CR]_(2 ^ q)) (B' : 'M[CR]_(2 ^ q)) :
    hermitian A -> hermitian B -> hermitian A' -> hermitian B' ->
    re (\tr (A *m B) * \tr (A' *m B')) = re (\tr (A *m B)) * re (\tr (A' *m B')).
  move=> h1 h2 h3 h4; have r1 := tr_herm_real h1 h2; have r2 := tr_herm_real h3 h4.
  by apply: toC_inj; rewrite rmorphM /= !toC_re // realM.
rewrite !rp //; try exact: pauli_herm.
by rewrite exprMn exprD [X in X^-1]mulrACA invfM mulrACA.
Qed.
End Prod.

Lemma rvec_cast a b (e : a = b) (F : 'I_b -> R) : rvec F = rvec (fun k => F (cast_ord e k)).
Proof. by subst b; apply: eq_rvec => k; congr F; exact: val_inj. Qed.

Lemma iota_pairs n m : iota 0 (n * m) = [seq (i * m + j)%N | i <- iota 0 n, j <- iota 0 m].
Proof.
elim: n => // n IH; rewrite mulSn addnC iotaD IH -addn1 iotaD allpairs_cat /= cats0; congr (_ ++ _).
by rewrite !add0n -{1}(addn0 (n * m)%N) iotaDl.
Qed.
Lemma rvec_pr n m (p : 'I_n -> R) (r : 'I_m -> R) : rvec (pr p r) = [seq u * v | u <- rvec p, v <- rvec r].
Proof.
have e q (F : 'I_q -> R) : rvec F = [seq (if insub k is Some i then F i else 0) | k <- iota 0 q].
  by rewrite -val_enum_ord -map_comp; apply: eq_map => i /=; rewrite valK.
rewrite [LHS]e iota_pairs map_allpairs (e n p) (e m r) allpairs_mapl allpairs_mapr.
apply/eq_in_allpairs => i j; rewrite !mem_iota /= => hi hj.
rewrite !insubT //; first by nia.
move=> h; rewrite -(prE p r); congr (pr _ _ _); apply: val_inj => //.
Qed.

(* pairs of independent systems: the distribution is the product, and SRE of pure states is additive at every order *)
Theorem C83_product n m (x y z : input) (M : 'M[CR]_(2 ^ n)) (N : 'M[CR]_(2 ^ m)) : (0 < n)%N -> (0 < m)%N ->
  density M -> density N -> cast_to_density_matrix x = Ok (ofM M) -> cast_to_density_matrix y = Ok (ofM N) ->
  cast_to_density_matrix z = Ok (akron (ofM M) (ofM N)) ->
  (exists p q, [/\ stabilizer_distribution x = Ok p, stabilizer_distribution y = Ok q &
     stabilizer_distribution z = Ok [seq u * v | u <- p, v <- q]]) /\
  (M *m M = M -> N *m N = N -> forall a, (if a is Ord a then 0 <= a else true) ->
   exists s t, [/\ SRE x a = Ok (Fin s), SRE y a = Ok (Fin t) & SRE z a = Ok (Fin (s + t))]).
Proof.
move=> n0 m0 dM dN ex ey; rewrite -prodME => ez.
have nm0 : (0 < n + m)%N by rewrite addn_gt0 n0.
have dK := prod_density dM dN; set K := prodM M N in dK ez.
have e4 : (4 ^ n * 4 ^ m = 4 ^ (n + m))%N by rewrite expnD.
have xk (k : 'I_(4 ^ n * 4 ^ m)) : xi K (cast_ord e4 k) = pr (xi M) (xi N) k.
  by rewrite (xi_prod dM dN (i := (mxtens_unindex k).1) (j := (mxtens_unindex k).2)) //= -{1}(mxtens_unindexK k).
have ek : rvec (xi K) = rvec (pr (xi M) (xi N)).
  by rewrite -(eq_rvec xk); exact: rvec_cast.
split.
  exists (rvec (xi M)), (rvec (xi N)); apply: And3 (stabE n0 ex dM) (stabE m0 ey dN) _.
  by apply: etrans (stabE nm0 ez dK) _; congr Ok; rewrite ek rvec_pr.
move=> M2 N2 a a0.
have K2 : K *m K = K.
  have h u v (e : u = v) (A : 'M[CR]_u) : A *m A = A -> castmx (e, e) A *m castmx (e, e) A = castmx (e, e) A.
    by subst v; rewrite castmx_id.
  by apply: h; rewrite tensmx_mul M2 N2.
case: a a0 => [a|] a0; last first.
  exists 0, 0; rewrite addr0; exact: And3 (C34_inf n0 ex dM M2) (C34_inf m0 ey dN N2) (C34_inf nm0 ez dK K2).
exists (renyi (xi M) a - ln (2%:R ^+ n)), (renyi (xi N) a - ln (2%:R ^+ m)).
have pe q (w : input) (L : 'M[CR]_(2 ^ q)) : (0 < q)%N -> density L -> L *m L = L ->
    cast_to_density_matrix w = Ok (ofM L) -> SRE w (Ord a) = Ok (Fin (renyi (xi L) a - ln (2%:R ^+ q))).
  by move=> q0 dL L2 ew; rewrite (SRE_pureE _ q0 ew dL L2) (C31_value (pdf_xi q0 dL L2) (xi_dist dL) a0).
apply: And3 (pe n x M n0 dM M2 ex) (pe m y N m0 dN N2 ey) _.
rewrite (pe _ z K nm0 dK K2 ez); congr (Ok (Fin _)).
have -> : renyi (xi K) a = renyi (pr (xi M) (xi N)) a.
  have := C31_value (pdf_xi nm0 dK K2) (xi_dist dK) a0; have pK := pdf_xi nm0 dK K2; rewrite {2}ek in pK.
  by rewrite (C31_value pK (pr_dist (xi_dist dM) (xi_dist dN)) a0) => -[].
rewrite (renyi_S _ (pr_dist (xi_dist dM) (xi_dist dN))) (renyi_S _ (xi_dist dM)) (renyi_S _ (xi_dist dN)).
rewrite (pr_S _ (xi_dist dM) (xi_dist dN)) exprD lnM ?exprn_gt0 ?ltr0n // opprD; exact: addrACA.
Qed.

(* the value of SRE on a pure state *)
Lemma SRE_S n (x : input) (M : 'M[CR]_(2 ^ n)) a : (0 < n)%N -> cast_to_density_matrix x = Ok (ofM M) ->
  density M -> M *m M = M -> 0 <= a -> SRE x (Ord a) = Ok (Fin (S (xi M) (a - 1) - ln (2%:R ^+ n))).
Proof.
move=> n0 ex d M2 a0; rewrite (SRE_pureE _ n0 ex d M2) (C31_value (pdf_xi n0 d M2) (xi_dist d) a0) /=.
by rewrite (renyi_S _ (xi_dist d)).
Qed.

(* SRE of a pure state does not increase with the order *)
Theorem C83_order n (x : input) (M : 'M[CR]_(2 ^ n)) (a b : R) : (0 < n)%N -> cast_to_density_matrix x = Ok (ofM M) ->
  density M -> M *m M = M -> 0 <= a -> a <= b ->
  exists s t, [/\ SRE x (Ord a) = Ok (Fin s), SRE x (Ord b) = Ok (Fin t) & t <= s].
Proof.
move=> n0 ex d M2 a0 ab; have b0 := le_trans a0 ab.
exists (S (xi M) (a - 1) - ln (2%:R ^+ n)), (S (xi M) (b - 1) - ln (2%:R ^+ n)).
apply: And3 (SRE_S n0 ex d M2 a0) (SRE_S n0 ex d M2 b0) _.
by rewrite ler_sub // S_anti ?ler_sub //; exact: xi_dist.
Qed.

Lemma Zf1 n (p : 'I_n -> R) : dist p -> Zf p 1 = \sum_i p i ^+ 2.
Proof.
move=> dp; apply: eq_bigr => i _; rewrite mul1r; have := dp.1 i; rewrite le_eqVlt => /orP[/eqP <-|h].
  by rewrite mul0r expr0n.
by rewrite expRK // expr2.
Qed.

(* a distribution with one entry fixed: Cauchy-Schwarz on the others *)
Lemma sq_lower n (p : 'I_n -> R) (k : 'I_n) : dist p -> (1 - p k) ^+ 2 <= n.-1%:R * (\sum_i p i ^+ 2 - p k ^+ 2).
Proof.
move=> dp; have s1 := dp.2; rewrite (bigD1_ord k) //= in s1.
rewrite (bigD1_ord k) //= [p k ^+ 2 + _]addrC addrK.
have -> : 1 - p k = \sum_(i < n.-1) p (lift k i) * 1.
  by rewrite -{1}s1 addrC addKr; apply: eq_bigr => i _; rewrite mulr1.
apply: le_trans (cs _ _) _; rewrite mulrC ler_wpmul2r //; first by apply: sumr_ge0 => i _; exact: sqr_ge0.
by rewrite (eq_bigr (fun=> 1)) ?sumr_const ?card_ord // => i _; rewrite expr1n.
Qed.

Lemma magic_bound (D P : R) : 1 < D -> (1 - D^-1) ^+ 2 <= (D ^+ 2 - 1) * (P - D^-1 ^+ 2) -> (D * ((D + 1) / 2%:R))^-1 <= P.
Proof.
move=> D1 h; have D0 : 0 < D := lt_trans ltr01 D1.
have d1 : 0 < D - 1 by rewrite subr_gt0.
have d2 : 0 < D + 1 by rewrite addr_gt0 ?ltr01.
have nz : D != 0 by rewrite gt_eqF.
have h2 : (D - 1) * (D - 1) <= (D - 1) * ((D + 1) * (D * D * P - 1)).
  have : D ^+ 2 * (1 - D^-1) ^+ 2 <= D ^+ 2 * ((D ^+ 2 - 1) * (P - D^-1 ^+ 2)) by rewrite ler_pmul2l ?exprn_gt0.
  have -> : D ^+ 2 * (1 - D^-1) ^+ 2 = (D - 1) * (D - 1) by rewrite -exprMn mulrBr mulr1 mulfV // expr2.
  suff -> : D ^+ 2 * ((D ^+ 2 - 1) * (P - D^-1 ^+ 2)) = (D - 1) * ((D + 1) * (D * D * P - 1)) by [].
  rewrite mulrCA [D ^+ 2 * (P - _)]mulrBr -exprMn mulfV // expr1n.
  by move: {nz h D1 D0 d1 d2} (D) (P) => E Q; rring.
rewrite ler_pmul2l // in h2.
have h3 : 2%:R * D <= D * ((D + 1) * (D * P)).
  have -> : D * ((D + 1) * (D * P)) = (D + 1) * (D * D * P - 1) + (D + 1).
    by move: {nz h h2 D1 D0 d1 d2} (D) (P) => E Q; rring.
  rewrite -ler_subl_addr; apply: le_trans h2.
  have -> // : 2%:R * D - (D + 1) = D - 1 by move: (D) => E; rring.
rewrite mulrC ler_pmul2l // in h3.
rewrite -[X in X <= _]mul1r ler_pdivr_mulr; last by rewrite mulr_gt0 // divr_gt0 ?ltr0n.
rewrite !mulrA ler_pdivl_mulr ?ltr0n // mul1r.
by have -> : P * D * (D + 1) = (D + 1) * (D * P) by move: (D) (P) => E Q; rring.
Qed.

(* upper bounds: n ln 2 for every order, ln ((2^n + 1)/2) from order 2 on *)
Theorem C83_bound n (x : input) (M : 'M[CR]_(2 ^ n)) (a : R) : (0 < n)%N -> cast_to_density_matrix x = Ok (ofM M) ->
  density M -> M *m M = M -> 0 <= a ->
  exists2 s, SRE x (Ord a) = Ok (Fin s) & s <= n%:R * ln 2%:R /\ (2%:R <= a -> s <= ln ((2%:R ^+ n + 1) / 2%:R)).
Proof.
move=> n0 ex d M2 a0; exists (S (xi M) (a - 1) - ln (2%:R ^+ n)); first exact: (SRE_S n0 ex d M2 a0).
have dx := xi_dist d; set D := 2%:R ^+ n.
have D0 : 0 < D by rewrite exprn_gt0 ?ltr0n.
have e4 : (4 ^ n)%N%:R = D ^+ 2 :> R by rewrite /D -exprM mulnC exprM -[(2%:R ^+ 2)]natrX natrX.
have h4 : (0 < 4 ^ n)%N by rewrite expn_gt0.
split=> [|a2].
  have t1 : - 1 <= a - 1 by rewrite ler_subr_addr addNr.
  have := S_le dx t1; rewrite e4 -(lnX n) ?ltr0n // -/D lnX // mulr_natl mulr2n => h.
  by rewrite ler_subl_addr.
have k := xi0 h4 d; rewrite M2 d.2 /= mulr1 -/D in k.
have D1 : 1 < D by rewrite /D exprn_egt1 ?ltr1n // -lt0n.
have := sq_lower (Ordinal h4) dx; rewrite k -subn1 natrB // e4 => /(magic_bound D1) h.
have P0 : 0 < (D * ((D + 1) / 2%:R))^-1 by rewrite invr_gt0 mulr_gt0 // divr_gt0 ?ltr0n // addr_gt0 ?ltr01.
have B0 : 0 < (D + 1) / 2%:R by rewrite divr_gt0 ?ltr0n // addr_gt0 ?ltr01.
have a1 : 1 <= a - 1 by rewrite ler_subr_addr.
rewrite ler_subl_addr; apply: le_trans (S_anti dx a1) _.
rewrite /S oner_eq0 divr1 (Zf1 dx) -lnM // -lnV; last exact: lt_le_trans P0 h.
have Q0 := lt_le_trans P0 h.
have -> : (D + 1) / 2%:R * D = (D * ((D + 1) / 2%:R))^-1^-1 by rewrite invrK mulrC.
rewrite ler_ln; [|by rewrite invr_gt0|by rewrite invr_gt0].
by rewrite lef_pinv ?posrE.
Qed.

(* ------------------------------------------------------------------ *)
(* the bound is attained: the qubit (1 + (X + Y + Z)/sqrt 3)/2 has SRE_2 = ln (3/2) *)
Lemma pauli1E k (i j : 'I_(2 ^ 1)) : (k < 4)%N -> pauli 1 k i j = get (sig CR k) i j.
Proof.
move=> hk; rewrite /pauli mxE /pstr tsS ts0.
have -> : dig 1 k 0 = k by rewrite /dig /= divn1 modn_small.
have [e1 e2] := sig2 CR k; have h2 (i' : 'I_(2 ^ 1)) : (i' < 2)%N by [].
by rewrite getE /= ?e1 ?e2 ?mul1n // !divn_small // !modn_small // getE //= mul1r.
Qed.

Section Magic.
Add Ring CRring10 : (ring_of CR).
Definition mc : R := sqrt (Rdiv (IZR 1) (IZR 3)).
Lemma mcE : mc * mc = 3%:R^-1.
Proof. rewrite [LHS](sqrt_sqrt (Rdiv (IZR 1) (IZR 3))); [rlra|Lra.lra]. Qed.
Definition msum : 'M[CR]_(2 ^ 1) := pauli 1 1 + pauli 1 2 + pauli 1 3.
Definition magic : 'M[CR]_(2 ^ 1) := 2%:R^-1 *: (1%:M + toC mc *: msum).

Lemma msum2 : msum *m msum = 3%:R%:M.
Proof.
have i2 : 'i * 'i = -1 :> CR by rewrite -expr2 sqrCi.
have e (i j : 'I_(2 ^ 1)) : msum i j = get (sig CR 1) i j + get (sig CR 2) i j + get (sig CR 3) i j.
  by rewrite [LHS]mxE [X in X + _]mxE !pauli1E.
apply/matrixP => i j; rewrite mxE big_ord_recl big_ord1 !e [RHS]mxE /sig.
case: i => [[|[|i]] hi] //; case: j => [[|[|j]] hj] //; rewrite /= !getE //= ?mulr1n ?mulr0n.
- have -> : (0 + 0 + 1) * (0 + 0 + 1) + (1 - 'i + 0) * (1 + 'i + 0) = 2%:R - 'i * 'i :> CR by xring CR.
  rewrite i2; xring CR.
- xring CR.
- xring CR.
have -> : (1 + 'i + 0) * (1 - 'i + 0) + (0 + 0 - 1) * (0 + 0 - 1) = 2%:R - 'i * 'i :> CR by xring CR.
rewrite i2; xring CR.
Qed.

Lemma magic2 : magic *m magic = magic.
Proof.
have r : toC mc * toC mc * 3%:R = 1 by rewrite -rmorphM mcE fmorphV /= toC_nat mulVf ?pnatr_eq0.
rewrite /magic -scalemxAl -scalemxAr; congr (_ *: _).
rewrite mulmxDl mul1mx mulmxDr mulmx1 -scalemxAl -scalemxAr msum2 scalerA scale_scalar_mx r.
rewrite [toC mc *: msum + _]addrC addrACA -!mulr2n -mulrnDl.
by rewrite -scaler_nat scalerA mulVf ?pnatr_eq0 // scale1r.
Qed.

Lemma magic_tr (k : 'I_(4 ^ 1)) : \tr (pauli 1 k *m magic) = if k == 0%N :> nat then 1 else toC mc.
Proof.
have t (a b : nat) (ha : (a < 4)%N) (hb : (b < 4)%N) : \tr (pauli 1 a *m pauli 1 b) = if a == b then 2%:R else 0.
  by rewrite (pauli_trace (Ordinal (ha : (a < 4 ^ 1)%N)) (Ordinal (hb : (b < 4 ^ 1)%N))) expr1.
rewrite /magic -(pauli0 1) /msum -scalemxAr mxtraceZ !mulmxDr -scalemxAr !mulmxDr !mxtraceD mxtraceZ !mxtraceD.
rewrite !t //; case: k => [[|[|[|[|k]]]] hk] //=; rewrite ?(mulr0, addr0, add0r) ?mulVf ?pnatr_eq0 //.
1-3: by rewrite mulrCA mulVf ?pnatr_eq0 // mulr1.
Qed.

Lemma magic_density : density magic.
Proof.
have r : toC mc \is Num.real := toC_real mc.
have hS : hermitian msum by rewrite /hermitian /msum !adjmD !(pauli_herm _).
have h : adjm magic = magic.
  by rewrite /magic adjmZ adjmD adjm1 adjmZ hS (CrealP r) rmorphV ?unitfE ?pnatr_eq0 // rmorph_nat.
split; last by have := magic_tr (Ordinal (isT : (0 < 4 ^ 1)%N)); rewrite /= pauli0 mul1mx.
by rewrite -magic2 -{1}h; exact: psd_gram.
Qed.

Example C83_magic : SRE (V2 (ofM magic)) (Ord 2%:R) = Ok (Fin (ln (3%:R / 2%:R))).
Proof.
have ex := C25_density magic_density; have d := magic_density.
rewrite (SRE_S (n := 1) isT ex d magic2 (ler0n _ 2)).
have -> : 2%:R - 1 = 1 :> R by rlra.
rewrite /S oner_eq0 divr1 (Zf1 (xi_dist d)).
have xE (k : 'I_(4 ^ 1)) : xi magic k = if k == 0%N :> nat then 2%:R^-1 else 6%:R^-1.
  have [-> _] := xi_pure k d magic2; rewrite magic_tr expr1; case: ifP => _; first by rewrite -[1]/(toC 1) reK expr1n mul1r.
  by rewrite reK expr2 mcE; rlra.
have -> : \sum_(i < 4 ^ 1) xi magic i ^+ 2 = 3%:R^-1.
  rewrite (eq_bigr _ (fun i _ => congr1 (fun z => z ^+ 2) (xE i))) !big_ord_recl big_ord0 /=; rlra.
by rewrite lnV ?ltr0n // opprK expr1 -ln_div ?ltr0n.
Qed.

(* two such qubits: SRE_2 = 2 ln (3/2) *)
Example C83_two_magic : SRE (V2 (ofM (prodM magic magic))) (Ord 2%:R) = Ok (Fin (ln (3%:R / 2%:R) + ln (3%:R / 2%:R))).
Proof.
have d := magic_density; have ex := C25_density d.
have ez : cast_to_density_matrix (V2 (ofM (prodM magic magic))) = Ok (akron (ofM magic) (ofM magic)).
  by rewrite (C25_density (prod_density d d)) prodME.
have [_ h] := C83_product (n := 1) (m := 1) isT isT d d ex ex ez.
have [s [t [e1 e2 ->]]] := h magic2 magic2 (Ord 2%:R) (ler0n _ 2).
by move: e1 e2; rewrite C83_magic => -[<-] [<-].
Qed.

(* the phase gate diag(1, i) is Clifford: X -> -Y, Y -> X, Z -> Z *)
Definition phase_gate : 'M[CR]_(2 ^ 1) := \matrix_(i, j) (if i == j then (if i == 0%N :> nat then 1 else 'i) else 0).
Example C83_phase_gate : clifford (pauli 1) phase_gate.
Proof.
have i2 : 'i * 'i = -1 :> CR by rewrite -expr2 sqrCi.
have ic : conjC 'i = - 'i :> CR by rewrite conjCi.
have gE (A : 'M[CR]_(2 ^ 1)) i j : (adjm phase_gate *m A *m phase_gate) i j =
    (if i == 0%N :> nat then 1 else - 'i) * A i j * (if j == 0%N :> nat then 1 else 'i).
  rewrite mxE (bigD1 j) //= big1 ?addr0 => [|k kj]; last by rewrite [X in _ * X]mxE (negPf kj) mulr0.
  rewrite [X in _ * X]mxE eqxx mxE (bigD1 i) //= big1 ?addr0 => [|k ki]; last first.
    by rewrite !mxE (negPf ki) conjC0 mul0r.
  congr (_ * _ * _); rewrite !mxE eqxx; case: ifP => _; [exact: conjC1|exact: ic].
split.
  apply: mulmx1C; apply/matrixP => i j; have := gE 1%:M i j; rewrite mulmx1 => ->; rewrite !mxE.
  case: i => [[|[|i]] hi] //; case: j => [[|[|j]] hj] //=; rewrite ?(mulr0, mul0r, mulr1) //.
  by rewrite mulNr i2 opprK.
move=> k; pose o (m : nat) (h : (m < 4)%N) : 'I_(4 ^ 1) := Ordinal (h : (m < 4 ^ 1)%N).
case: k => [[|[|[|[|k]]]] hk] //.
- exists (o 0%N isT); left; apply/matrixP => i j; rewrite gE !pauli1E //= /sig /= !getE //.
  case: i => [[|[|i]] hi] //; case: j => [[|[|j]] hj] //=; rewrite ?(mulr0, mul0r, mulr1) //.
  by rewrite mulNr i2 opprK.
- exists (o 2%N isT); right; apply/matrixP => i j; rewrite gE [RHS]mxE !pauli1E //= /sig /= !getE //.
  by case: i => [[|[|i]] hi] //; case: j => [[|[|j]] hj] //=; rewrite ?(mulr0, mul0r, mulr1, mul1r, oppr0, opprK).
- exists (o 1%N isT); left; apply/matrixP => i j; rewrite gE !pauli1E //= /sig /= !getE //.
  case: i => [[|[|i]] hi] //; case: j => [[|[|j]] hj] //=; rewrite ?(mulr0, mul0r, mulr1, mul1r, oppr0, opprK) //.
    by rewrite mulNr i2 opprK.
  by rewrite mulNr i2 opprK.
exists (o 3%N isT); left; apply/matrixP => i j; rewrite gE !pauli1E //= /sig /= !getE //.
case: i => [[|[|i]] hi] //; case: j => [[|[|j]] hj] //=; rewrite ?(mulr0, mul0r, mulr1, mul1r, oppr0, opprK) //.
by rewrite ?mulrN1 ?mulNr ?opprK i2.
Qed.
End Magic.
