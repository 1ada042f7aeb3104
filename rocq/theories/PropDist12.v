(* PropDist12.v -- property C85: covariance matrices of reduced states and of products, and additivity of FAF. *)
Set Warnings "-notation-overridden,-ambiguous-paths".
From Coq Require Import Reals.
From mathcomp Require Import all_ssreflect all_algebra.
From mathcomp Require Import complex mxtens.
From mathcomp.zify Require Import zify.
From Verif Require Import Base ArrC MCombinatorics MLib JW OpFam FermAlg LibFacts LibFacts3 MUtils Spectral RealC Info Info2 MDist RndFacts PropLib1 PropLib4 PropUtils1 PropUtils2 PropDist1 PropDist2 PropDist3 PropDist4 PropDist5 PropDist6 PropDist7 PropDist8 PropDist9 PropDist10 PropDist11.
Set Implicit Arguments.
Unset Strict Implicit.
Unset Printing Implicit Defensive.
Import Order.Theory GRing.Theory Num.Theory.
Local Open Scope ring_scope.

Local Notation input := (input CR).

(* ------------------------------------------------------------------ *)
(* Kronecker products of operators of n and of m sites                  *)
(* ------------------------------------------------------------------ *)
Section PM.
Variables n m : nat.
Implicit Types (A : 'M[CR]_(2 ^ n)) (B : 'M[CR]_(2 ^ m)).

Lemma prodM_mul A A' B B' : prodM A B *m prodM A' B' = prodM (A *m A') (B *m B').
Proof. by apply: ofM_inj; rewrite -ofM_mul !prodME mixed_product // !ofM_mul. Qed.
Lemma prodM_adj A B : adjm (prodM A B) = prodM (adjm A) (adjm B).
Proof. by apply: ofM_inj; rewrite -ofM_adj !prodME aadj_kron !ofM_adj. Qed.
Lemma prodM_tr A B : \tr (prodM A B) = \tr A * \tr B.
Proof. by rewrite -!ofM_trace prodME atrace_kron. Qed.
Lemma prodM1 : prodM (1%:M : 'M_(2 ^ n)) (1%:M : 'M_(2 ^ m)) = 1%:M.
Proof.
apply: ofM_inj; rewrite prodME -ofM_eye; apply: arrP => [||i j]; rewrite /= ?expnD // => hi hj.
have p0 : (0 < 2 ^ m)%N by rewrite expn_gt0.
rewrite getE //= -!ofM_eye !getE //= ?ltn_mod ?ltn_divLR // -natrM mulnb; congr ((_ : bool)%:R).
apply/andP/eqP => [[/eqP e1 /eqP e2]|->//]; by rewrite (divn_eq i (2 ^ m)) e1 e2 -divn_eq.
Qed.

Lemma castD a b (e : a = b) (X Y : 'M[CR]_a) : castmx (e, e) (X + Y) = castmx (e, e) X + castmx (e, e) Y.
Proof. by subst b; rewrite !castmx_id. Qed.
Lemma castZ a b (e : a = b) c (X : 'M[CR]_a) : castmx (e, e) (c *: X) = c *: castmx (e, e) X.
Proof. by subst b; rewrite !castmx_id. Qed.
Lemma prodMDl A A' B : prodM (A + A') B = prodM A B + prodM A' B.
Proof. by rewrite /prodM -castD; congr castmx; apply/matrixP => i j; rewrite !mxE mulrDl. Qed.
Lemma prodMDr A B B' : prodM A (B + B') = prodM A B + prodM A B'.
Proof. by rewrite /prodM -castD; congr castmx; apply/matrixP => i j; rewrite !mxE mulrDr. Qed.
Lemma prodMZl c A B : prodM (c *: A) B = c *: prodM A B.
Proof. by rewrite /prodM -castZ; congr castmx; apply/matrixP => i j; rewrite !mxE mulrA. Qed.
Lemma prodMZr c A B : prodM A (c *: B) = c *: prodM A B.
Proof. by rewrite /prodM -castZ; congr castmx; apply/matrixP => i j; rewrite !mxE mulrCA. Qed.
Lemma prodMNl A B : prodM (- A) B = - prodM A B.
Proof. by rewrite -scaleN1r prodMZl scaleN1r. Qed.
Lemma prodMNr A B : prodM A (- B) = - prodM A B.
Proof. by rewrite -scaleN1r prodMZr scaleN1r. Qed.

(* the annihilation operators of n + m sites: strings of the first n sites run into the second part *)
Lemma am_fst i : (i < n)%N -> am CR (n + m) i = prodM (am CR n i) 1%:M.
Proof.
move=> hi; apply: ofM_inj; rewrite prodME !ofM_toM ?nr_jw ?nc_jw // !jw_siteE ts_cat; last exact: jwf2.
congr akron; rewrite -ofM_eye -ts_eye; apply: eq_ts => k _; rewrite /jwf.
by rewrite !ifN //; [rewrite neq_ltn; apply/orP; right; lia|lia].
Qed.
Lemma am_snd i : am CR (n + m) (n + i) = prodM (parity CR n) (am CR m i).
Proof.
apply: ofM_inj; rewrite prodME !ofM_toM ?nr_jw ?nc_jw ?nr_ts ?nc_ts // !jw_siteE ts_cat; last exact: jwf2.
by congr akron; apply: eq_ts => k hk; rewrite /jwf ?ltn_add2l ?eqn_add2l // ltn_addr.
Qed.

(* positions of the modes of the first n and of the last m sites among those of n + m sites *)
Definition ia (i : 'I_(2 * n)) : 'I_(2 * (n + m)) :=
  Ordinal (ltac:(have := ltn_ord i; case: (ltnP i n); lia) : ((if (i < n)%N then i : nat else i + m) < 2 * (n + m))%N).
Definition ib (j : 'I_(2 * m)) : 'I_(2 * (n + m)) :=
  Ordinal (ltac:(have := ltn_ord j; case: (ltnP j m); lia) : ((if (j < m)%N then n + j else n + n + j) < 2 * (n + m))%N).

Lemma gam_fst i : gam CR (n + m) (ia i) = prodM (gam CR n i) 1%:M.
Proof.
have hi := ltn_ord i; have h := ltn_ord (ia i).
rewrite !gamE //; rewrite /= in h *; case: (ltnP i n) => hin.
  rewrite ltn_addr // am_fst // prodM_adj adjm1 prodMZl prodMDl; done.
rewrite ltnNge leq_add2r hin /= subnDr am_fst; last by lia.
by rewrite prodM_adj adjm1 !prodMZl prodMDl prodMNl.
Qed.
Lemma gam_snd j : gam CR (n + m) (ib j) = prodM (parity CR n) (gam CR m j).
Proof.
have hj := ltn_ord j; have h := ltn_ord (ib j).
rewrite !gamE //; rewrite /= in h *; case: (ltnP j m) => hjm.
  by rewrite ltn_add2l hjm am_snd prodM_adj parity_adj prodMZr prodMDr.
have -> : (n + n + j < n + m)%N = false by lia.
have -> : (n + n + j - (n + m) = n + (j - m))%N by lia.
by rewrite am_snd prodM_adj parity_adj !prodMZr prodMDr prodMNr.
Qed.
Lemma alpha_fst i : alphaM CR (n + m) (ia i) = prodM (alphaM CR n i) 1%:M.
Proof.
have hi := ltn_ord i; rewrite /alphaM /=; case: (ltnP i n) => hin.
  by rewrite ltn_addr // am_fst // prodM_adj adjm1.
by rewrite ltnNge leq_add2r hin /= subnDr am_fst //; lia.
Qed.
Lemma alpha_snd j : alphaM CR (n + m) (ib j) = prodM (parity CR n) (alphaM CR m j).
Proof.
have hj := ltn_ord j; rewrite /alphaM /=; case: (ltnP j m) => hjm.
  by rewrite ltn_add2l hjm am_snd prodM_adj parity_adj.
have -> : (n + n + j < n + m)%N = false by lia.
have -> : (n + n + j - (n + m) = n + (j - m))%N by lia.
by rewrite am_snd.
Qed.
End PM.

(* ------------------------------------------------------------------ *)
(* reduced states                                                      *)
(* ------------------------------------------------------------------ *)
Lemma tr_fst d e (M : 'M[CR]_(d * e)) (A : 'M[CR]_d) : \tr (M *m tens A 1%:M) = \tr (ptr2 M *m A).
Proof.
rewrite /mxtrace sum_prI; apply: eq_bigr => i _; rewrite mxE.
rewrite (eq_bigr (fun k => \sum_j M (prI i k) (prI j k) * A j i)) => [|k _].
  by rewrite exchange_big; apply: eq_bigr => j _; rewrite mxE mulr_suml.
rewrite mxE sum_prI; apply: eq_bigr => j _; rewrite (bigD1 k) //= big1 => [|l /negPf ne].
  by rewrite tensE mxE eqxx mulr1 addr0.
by rewrite tensE mxE ne mulr0 mulr0.
Qed.
Lemma tr_snd d e (M : 'M[CR]_(d * e)) (B : 'M[CR]_e) : \tr (M *m tens 1%:M B) = \tr (ptr1 M *m B).
Proof.
rewrite /mxtrace sum_prI exchange_big; apply: eq_bigr => k _; rewrite mxE.
rewrite (eq_bigr (fun i => \sum_l M (prI i k) (prI i l) * B l k)) => [|i _].
  by rewrite exchange_big; apply: eq_bigr => l _; rewrite mxE mulr_suml.
rewrite mxE sum_prI (bigD1 i) //= [X in _ + X]big1 => [|j /negPf ne].
  by rewrite addr0; apply: eq_bigr => l _; rewrite tensE mxE eqxx mul1r.
by rewrite big1 // => l _; rewrite tensE mxE ne mul0r mulr0.
Qed.

Lemma cast_mulM a b (e : a = b) (X Y : 'M[CR]_a) : castmx (e, e) X *m castmx (e, e) Y = castmx (e, e) (X *m Y).
Proof. by subst b; rewrite !castmx_id. Qed.
Lemma cast_trM a b (e : a = b) (X : 'M[CR]_a) : \tr (castmx (e, e) X) = \tr X.
Proof. by subst b; rewrite castmx_id. Qed.

Section Red.
Variables (n m : nat) (M : 'M[CR]_(2 ^ n * 2 ^ m)).
Let eD : (2 ^ n * 2 ^ m = 2 ^ (n + m))%N. Proof. by rewrite expnD. Qed.
Definition joint : 'M[CR]_(2 ^ (n + m)) := castmx (eD, eD) M.

Lemma jointE : ofM joint = ofM M. Proof. exact: ofM_cast. Qed.
Lemma prod_tens (A : 'M[CR]_(2 ^ n)) (B : 'M[CR]_(2 ^ m)) : prodM A B = castmx (eD, eD) (tens A B).
Proof. by apply: ofM_inj; rewrite prodME ofM_cast /tens ofM_toM. Qed.
Lemma joint_fst A : \tr (joint *m prodM A 1%:M) = \tr (ptr2 M *m A).
Proof. by rewrite prod_tens /joint cast_mulM cast_trM tr_fst. Qed.
Lemma joint_snd B : \tr (joint *m prodM 1%:M B) = \tr (ptr1 M *m B).
Proof. by rewrite prod_tens /joint cast_mulM cast_trM tr_snd. Qed.

Lemma joint_aa (F : nat -> 'M[CR]_(2 ^ (n + m))) (G : nat -> 'M[CR]_(2 ^ n)) :
  (forall i : 'I_(2 * n), F (ia m i) = prodM (G i) 1%:M) -> forall i j : 'I_(2 * n),
  \tr (joint *m F (ia m i) *m F (ia m j)) = \tr (ptr2 M *m G i *m G j).
Proof. by move=> h i j; rewrite !h -mulmxA prodM_mul mulmx1 joint_fst mulmxA. Qed.
Lemma joint_bb (F : nat -> 'M[CR]_(2 ^ (n + m))) (G : nat -> 'M[CR]_(2 ^ m)) :
  (forall j : 'I_(2 * m), F (ib n j) = prodM (parity CR n) (G j)) -> forall i j : 'I_(2 * m),
  \tr (joint *m F (ib n i) *m F (ib n j)) = \tr (ptr1 M *m G i *m G j).
Proof. by move=> h i j; rewrite !h -mulmxA prodM_mul parity_sqr joint_snd mulmxA. Qed.
End Red.

Lemma corrE N (rho : 'M[CR]_N) (A : nat -> 'M[CR]_N) k i j :
  (corr rho A k - (corr rho A k)^T) i j = \tr (rho *m A i *m A j) - \tr (rho *m A j *m A i).
Proof. by rewrite [LHS]mxE [X in _ + X]mxE [X in - X]mxE ![corr _ _ _ _ _]mxE. Qed.

(* covariance matrix of the state of the last m sites: the block of their modes, with either choice of operators *)
Theorem C85_last n m (M : 'M[CR]_(2 ^ n * 2 ^ m)) : exists r (K L : 'M[CR]_(2 * (n + m))),
  [/\ partial_trace_diagblocksum (ofM M) (2 ^ m) = Ok r,
      compute_cov_matrix (ofM M) (Some (n + m)%N) (Some (jordan_wigner_majoranas CR (n + m))) = Ok (ofM K),
      compute_cov_matrix r (Some m) (Some (jordan_wigner_majoranas CR m)) = Ok (ofM (\matrix_(i < 2 * m, j < 2 * m) K (ib n i) (ib n j))),
      compute_cov_matrix (ofM M) (Some (n + m)%N) None = Ok (ofM L) &
      compute_cov_matrix r (Some m) None = Ok (ofM (\matrix_(i < 2 * m, j < 2 * m) L (ib n i) (ib n j)))].
Proof.
exists (ofM (ptr1 M)).
exists (corr (joint M) (gam CR (n + m)) (2 * (n + m)) - (corr (joint M) (gam CR (n + m)) (2 * (n + m)))^T).
exists (corr (joint M) (alphaM CR (n + m)) (2 * (n + m)) - (corr (joint M) (alphaM CR (n + m)) (2 * (n + m)))^T).
rewrite C21_diagblocksum ?expn_gt0 // -(jointE M) !majoranas_ops !C48_default_ops !C48_cov //; split=> //.
  congr (Ok (ofM _)); apply/matrixP => i j; rewrite [RHS]mxE !corrE.
  by rewrite !(joint_bb M (@gam_snd n m)).
congr (Ok (ofM _)); apply/matrixP => i j; rewrite [RHS]mxE !corrE.
by rewrite !(joint_bb M (@alpha_snd n m)).
Qed.

(* products of two Majorana operators have entries of modulus at most 1/2 *)
Lemma gam2_le n i j (a b : 'I_(2 ^ n)) : (i < 2 * n)%N -> (j < 2 * n)%N -> `|(gam CR n i *m gam CR n j) a b| <= 2%:R^-1.
Proof.
move=> hi hj; have sq k : (k < 2 * n)%N -> gam CR n k *m gam CR n k = 2%:R^-1%:M.
  move=> hk; have := gam_anti CR hk hk; rewrite eqxx -mulr2n -scaler_nat => /(congr1 (fun X => 2%:R^-1 *: X)).
  by rewrite scalerA mulVf ?pnatr_eq0 // scale1r scale_scalar_mx mulr1.
have h2 : 2%:R != 0 :> CR by rewrite pnatr_eq0.
set U := 2%:R *: (gam CR n i *m gam CR n j).
have uU : unitary U.
  rewrite /unitary adjmZ adjmM !gam_herm // conjC_nat -scalemxAl -scalemxAr scalerA mulmxA -[X in _ *: (X *m _)]mulmxA sq //.
  by rewrite mul_mx_scalar -scalemxAl sq // scale_scalar_mx scale_scalar_mx mulrACA mulfV // mulr1.
have U1 : `|U a b| <= 1.
  rewrite -(@ler_pexpn2r _ 2) ?nnegrE ?ler01 // expr1n -(unitary_rows b uU) (bigD1 a) //= ler_addl sumr_ge0 // => l _.
  by rewrite exprn_ge0.
by move: U1; rewrite mxE normrM normr_nat -ler_pdivl_mull ?ltr0n // mulr1.
Qed.

(* the first n sites: the same up to the imaginary parts that partial_trace_blockTr drops *)
Theorem C85_first n m (M : 'M[CR]_(2 ^ n * 2 ^ m)) : exists r (K : 'M[CR]_(2 * (n + m))) (L : 'M[CR]_(2 * n)),
  [/\ partial_trace_blockTr (ofM M) (2 ^ n) = Ok r,
      compute_cov_matrix (ofM M) (Some (n + m)%N) (Some (jordan_wigner_majoranas CR (n + m))) = Ok (ofM K),
      compute_cov_matrix r (Some n) (Some (jordan_wigner_majoranas CR n)) = Ok (ofM L),
      forall i j, `|L i j - K (ia m i) (ia m j)| <= (2 ^ n * 2 ^ n)%:R * (10%:R ^+ 8)^-1 &
      (forall a b, M a b \is Num.real) -> forall i j, L i j = K (ia m i) (ia m j)].
Proof.
have [R eR [R1 R2 _ _]] := C21_blockTr M (expn_gt0 2 n).
exists (ofM R), (corr (joint M) (gam CR (n + m)) (2 * (n + m)) - (corr (joint M) (gam CR (n + m)) (2 * (n + m)))^T).
exists (corr R (gam CR n) (2 * n) - (corr R (gam CR n) (2 * n))^T).
rewrite -{2}(jointE M) !majoranas_ops !C48_cov //; split=> // [i j|rM i j]; last first.
  rewrite !corrE !(joint_aa M (@gam_fst n m)) R2 // => a b; rewrite mxE rpred_sum // => k _; exact: rM.
rewrite !corrE !(joint_aa M (@gam_fst n m)).
have lin (A B : 'M[CR]_(2 ^ n)) : \tr (R *m A *m B) - \tr (R *m B *m A) - (\tr (ptr2 M *m A *m B) - \tr (ptr2 M *m B *m A)) =
    \tr ((R - ptr2 M) *m (A *m B)) - \tr ((R - ptr2 M) *m (B *m A)).
  rewrite !mulmxBl !(raddfB (mxtrace_additive _ _)) /= !mulmxA; move: (\tr _) (\tr _) (\tr _) (\tr _) => a b c d.
  by rewrite !opprB addrACA [RHS]addrACA [- b - c]addrC.
rewrite lin; have half (k l : 'I_(2 * n)) : `|\tr ((R - ptr2 M) *m (gam CR n k *m gam CR n l))| <= (2 ^ n * 2 ^ n)%:R * (10%:R ^+ 8)^-1 * 2%:R^-1.
  apply: le_trans (ler_norm_sum _ _ _) _.
  have -> : (2 ^ n * 2 ^ n)%:R * (10%:R ^+ 8)^-1 * 2%:R^-1 = \sum_(a < 2 ^ n) \sum_(b < 2 ^ n) (10%:R ^+ 8)^-1 * 2%:R^-1 :> CR.
    by rewrite !sumr_const !card_ord -mulrnA -[RHS]mulr_natl mulrA.
  apply: ler_sum => a _; rewrite mxE; apply: le_trans (ler_norm_sum _ _ _) _; apply: ler_sum => b _.
  rewrite normrM; apply: ler_pmul => //; last exact: gam2_le.
  by rewrite mxE [X in _ + X]mxE; exact: R1.
apply: le_trans (ler_norm_sub _ _) _; apply: le_trans (ler_add (half i j) (half j i)) _.
by rewrite -mulrDr -mulr2n -[_ *+ 2]mulr_natl mulfV ?mulr1 // pnatr_eq0.
Qed.

(* ------------------------------------------------------------------ *)
(* independent systems                                                 *)
(* ------------------------------------------------------------------ *)
Lemma parity_gam n (i : 'I_(2 * n)) : parity CR n *m gam CR n i = - (gam CR n i *m parity CR n).
Proof. by apply: parity_spanned; exact: gam_spanned. Qed.

Section Tens.
Variables (n m : nat) (M : 'M[CR]_(2 ^ n)) (N : 'M[CR]_(2 ^ m)).

Lemma prod_aa (i j : 'I_(2 * n)) :
  \tr (prodM M N *m gam CR (n + m) (ia m i) *m gam CR (n + m) (ia m j)) = \tr (M *m gam CR n i *m gam CR n j) * \tr N.
Proof. by rewrite !gam_fst !prodM_mul !mulmx1 prodM_tr. Qed.
Lemma prod_bb (i j : 'I_(2 * m)) :
  \tr (prodM M N *m gam CR (n + m) (ib n i) *m gam CR (n + m) (ib n j)) = \tr M * \tr (N *m gam CR m i *m gam CR m j).
Proof. by rewrite !gam_snd !prodM_mul -[M *m _ *m _]mulmxA parity_sqr mulmx1 prodM_tr. Qed.
Lemma prod_ab (i : 'I_(2 * n)) (j : 'I_(2 * m)) :
  \tr (prodM M N *m gam CR (n + m) (ia m i) *m gam CR (n + m) (ib n j)) = \tr (M *m gam CR n i *m parity CR n) * \tr (N *m gam CR m j).
Proof. by rewrite gam_fst gam_snd !prodM_mul mulmx1 prodM_tr. Qed.
Lemma prod_ba (i : 'I_(2 * n)) (j : 'I_(2 * m)) :
  \tr (prodM M N *m gam CR (n + m) (ib n j) *m gam CR (n + m) (ia m i)) = - \tr (M *m gam CR n i *m parity CR n) * \tr (N *m gam CR m j).
Proof.
by rewrite gam_fst gam_snd !prodM_mul mulmx1 prodM_tr -mulmxA parity_gam mulmxN mulmxA raddfN.
Qed.

(* a matrix that commutes with the fermion parity has no odd expectation values *)
Lemma even_odd k (X : 'M[CR]_(2 ^ k)) (j : 'I_(2 * k)) : parity CR k *m X = X *m parity CR k ->
  \tr (X *m gam CR k j) = 0 /\ \tr (X *m gam CR k j *m parity CR k) = 0.
Proof.
move=> c; have h0 (z : CR) : z = - z -> z = 0.
  by move/eqP; rewrite -addr_eq0 -mulr2n mulrn_eq0 /= => /eqP.
have e (Y : 'M[CR]_(2 ^ k)) : parity CR k *m Y = Y *m parity CR k -> \tr (Y *m gam CR k j) = 0.
  move=> cY; apply: h0; transitivity (\tr (Y *m parity CR k *m (parity CR k *m gam CR k j))).
    by rewrite -mulmxA [parity CR k *m (_ *m _)]mulmxA parity_sqr mul1mx.
  by rewrite parity_gam mulmxN raddfN /= -cY !mulmxA mxtrace_mulC !mulmxA parity_sqr mul1mx.
split; first exact: e.
rewrite mxtrace_mulC mulmxA c; apply: e; by rewrite mulmxA c.
Qed.
End Tens.

(* covariance matrix of a Kronecker product: the blocks of the factors, and correlations between the parts only through
   odd expectation values, so none when one factor conserves the fermion parity *)
Theorem C85_product n m (M : 'M[CR]_(2 ^ n)) (N : 'M[CR]_(2 ^ m)) :
  exists (K : 'M[CR]_(2 * (n + m))) (KM : 'M[CR]_(2 * n)) (KN : 'M[CR]_(2 * m)),
  [/\ compute_cov_matrix (akron (ofM M) (ofM N)) (Some (n + m)%N) (Some (jordan_wigner_majoranas CR (n + m))) = Ok (ofM K),
      compute_cov_matrix (ofM M) (Some n) (Some (jordan_wigner_majoranas CR n)) = Ok (ofM KM),
      compute_cov_matrix (ofM N) (Some m) (Some (jordan_wigner_majoranas CR m)) = Ok (ofM KN) &
  [/\ forall i j, K (ia m i) (ia m j) = \tr N * KM i j,
      forall i j, K (ib n i) (ib n j) = \tr M * KN i j,
      forall i j, K (ia m i) (ib n j) = 2%:R * \tr (M *m gam CR n i *m parity CR n) * \tr (N *m gam CR m j) &
      parity CR n *m M = M *m parity CR n \/ parity CR m *m N = N *m parity CR m ->
      forall i j, K (ia m i) (ib n j) = 0 /\ K (ib n j) (ia m i) = 0]].
Proof.
exists (corr (prodM M N) (gam CR (n + m)) (2 * (n + m)) - (corr (prodM M N) (gam CR (n + m)) (2 * (n + m)))^T).
exists (corr M (gam CR n) (2 * n) - (corr M (gam CR n) (2 * n))^T), (corr N (gam CR m) (2 * m) - (corr N (gam CR m) (2 * m))^T).
rewrite -prodME !majoranas_ops !C48_cov //; split=> //; split=> [i j|i j|i j|h i j]; rewrite !corrE.
- by rewrite !prod_aa -mulrBl mulrC.
- by rewrite !prod_bb -mulrBr.
- by rewrite prod_ab prod_ba mulNr opprK -mulr2n mulr_natl mulrnAl.
rewrite prod_ab prod_ba; case: h => [/(even_odd i)[_ ->]|/(even_odd j)[-> _]]; by rewrite ?oppr0 ?mulr0 ?mul0r subrr.
Qed.

Section Blk.
Variables (n m : nat) (M : 'M[CR]_(2 ^ n)) (N : 'M[CR]_(2 ^ m)).
Hypotheses (dM : density M) (dN : density N).
Hypothesis ev : parity CR n *m M = M *m parity CR n \/ parity CR m *m N = N *m parity CR m.

Let eN : (2 * n + 2 * m = 2 * (n + m))%N. Proof. lia. Qed.
Definition place (k : 'I_(2 * n + 2 * m)) : 'I_(2 * (n + m)) :=
  match split k with inl i => ia m i | inr j => ib n j end.
Lemma place_inj : injective place.
Proof.
move=> k l; rewrite /place; case: (splitP k) => i ek; case: (splitP l) => j el /(congr1 val) /=; have := ltn_ord i; have := ltn_ord j.
- by case: (ltnP i n) => h1; case: (ltnP j n) => h2 *; apply: val_inj => /=; lia.
- by case: (ltnP i n) => h1; case: (ltnP j m) => h2 *; apply: val_inj => /=; lia.
- by case: (ltnP i m) => h1; case: (ltnP j n) => h2 *; apply: val_inj => /=; lia.
- by case: (ltnP i m) => h1; case: (ltnP j m) => h2 *; apply: val_inj => /=; lia.
Qed.

Let K := covM (prodM M N).
Definition blk2 : 'M[R]_(2 * n + 2 * m) := block_mx (covM M) 0 0 (covM N).

Lemma blk2E k l : K (place k) (place l) = blk2 k l.
Proof.
have [_ tM] := dM; have [_ tN] := dN.
rewrite /K mxE [covC _ _ _]mxE /place /blk2 [RHS]mxE; case: (split k) => i; rewrite mxE; case: (split l) => j.
- by rewrite !prod_aa tN !mulr1 ![covM _ _ _]mxE [covC _ _ _]mxE.
- rewrite prod_ab prod_ba mxE; case: ev => [/(even_odd i)[_ ->]|/(even_odd j)[-> _]];
  by rewrite ?oppr0 ?mulr0 ?mul0r subrr mulr0 raddf0.
- rewrite prod_ab prod_ba mxE; case: ev => [/(even_odd j)[_ ->]|/(even_odd i)[-> _]];
  by rewrite ?oppr0 ?mulr0 ?mul0r subrr mulr0 raddf0.
by rewrite !prod_bb tM !mul1r ![covM _ _ _]mxE [covC _ _ _]mxE.
Qed.

Lemma char_block (F : fieldType) p q (A : 'M[F]_p) (B : 'M[F]_q) :
  char_poly (block_mx A 0 0 B) = char_poly A * char_poly B.
Proof.
rewrite /char_poly (_ : char_poly_mx _ = block_mx (char_poly_mx A) 0 0 (char_poly_mx B)) ?det_ublock //.
apply/matrixP => i j; rewrite !mxE -!(inj_eq val_inj) /=.
case: (splitP i) => i' ei; rewrite !mxE; case: (splitP j) => j' ej; rewrite !mxE ei ej -?(inj_eq val_inj) /= ?eqn_add2l ?subr0 //.
  by rewrite ltn_eqF ?mulr0n ?subrr // ltn_addr.
by rewrite gtn_eqF ?mulr0n ?subrr // ltn_addr.
Qed.

Lemma char_place : char_poly (K^T *m K) = char_poly ((covM M)^T *m covM M) * char_poly ((covM N)^T *m covM N).
Proof.
pose c (k : 'I_(2 * (n + m))) := place (cast_ord (esym eN) k).
have ci : injective c by move=> k l /place_inj/cast_ord_inj.
pose Z : 'M[R]_(2 * (n + m)) := \matrix_(k, l) (l == c k)%:R.
have ZK (X : 'M[R]_(2 * (n + m))) k l : (Z *m X *m Z^T) k l = X (c k) (c l).
  rewrite mxE (bigD1 (c l)) //= big1 => [|j /negPf ne]; last by rewrite !mxE ne mulr0.
  rewrite ![Z^T _ _]mxE [Z l _]mxE eqxx mulr1 addr0 mxE (bigD1 (c k)) //= big1 => [|j /negPf ne]; last by rewrite !mxE ne mul0r.
  by rewrite mxE eqxx mul1r addr0.
have oZ : Z *m Z^T = 1%:M.
  by apply/matrixP => k l; rewrite -[Z in Z *m _]mulmx1 ZK !mxE (inj_eq ci).
rewrite -(char_poly_conj (K^T *m K) oZ) -char_block.
have -> : block_mx ((covM M)^T *m covM M) 0 0 ((covM N)^T *m covM N) = blk2^T *m blk2.
  by rewrite /blk2 tr_block_mx mulmx_block !trmx0 !mul0mx !mulmx0 !addr0 !add0r.
have -> : Z *m (K^T *m K) *m Z^T = (Z *m K *m Z^T)^T *m (Z *m K *m Z^T).
  by rewrite !trmx_mul trmxK !mulmxA -[Z *m K^T *m Z^T *m Z]mulmxA (mulmx1C oZ) mulmx1.
have -> : Z *m K *m Z^T = castmx (eN, eN) blk2.
  by apply/matrixP => k l; rewrite ZK castmxE /c blk2E.
by move: blk2; case: _ / eN => B; rewrite castmx_id.
Qed.
End Blk.

(* FAF is additive when one factor conserves the fermion parity, at every order; the distributions are joined *)
Theorem C85_additive schur n m (x y z : input) (M : 'M[CR]_(2 ^ n)) (N : 'M[CR]_(2 ^ m)) : schur_spec schur ->
  density M -> density N -> parity CR n *m M = M *m parity CR n \/ parity CR m *m N = N *m parity CR m ->
  cast_to_density_matrix x = Ok (ofM M) -> cast_to_density_matrix y = Ok (ofM N) ->
  cast_to_density_matrix z = Ok (akron (ofM M) (ofM N)) ->
  (exists l1 l2 l, [/\ cov_distribution schur x = Ok l1, cov_distribution schur y = Ok l2, cov_distribution schur z = Ok l &
    perm_eq l (l1 ++ l2)]) /\
  forall k, (0 < k)%N -> exists f g, [/\ FAF schur x k = Ok f, FAF schur y k = Ok g & FAF schur z k = Ok (f + g)].
Proof.
move=> sP dM dN ev ex ey; rewrite -prodME => ez; have dK := prod_density dM dN.
have [[s1 e1] [l1 h1 c1]] := C82_spectrum sP ex dM; have [[s2 e2] [l2 h2 c2]] := C82_spectrum sP ey dN.
have [_ [l h c]] := C82_spectrum sP ez dK.
have e12 : eigenvalues ((covM (prodM M N))^T *m covM (prodM M N)) (s1 ++ s2).
  by apply: etrans (char_place dM dN ev) _; rewrite big_cat; congr (_ * _).
have pl : perm_eq l (l1 ++ l2).
  apply: perm_half => v; rewrite count_cat mulnDr; apply: etrans (c _ e12 v) _.
  by rewrite (c1 _ e1 v) (c2 _ e2 v) count_cat; case: ifP.
split.
  exists [seq toC u | u <- l1], [seq toC u | u <- l2], [seq toC u | u <- l].
  by rewrite -map_cat; exact: (And4 h1 h2 h (perm_map _ pl)).
move=> k k0; exists (n%:R - \sum_(u <- l1) u ^+ k), (m%:R - \sum_(u <- l2) u ^+ k).
have F1 := FAF_sum ex dM k0 (dist_ge0 sP ex dM h1) h1; have F2 := FAF_sum ey dN k0 (dist_ge0 sP ey dN h2) h2.
have F3 := FAF_sum ez dK k0 (dist_ge0 sP ez dK h) h.
split=> //; apply: etrans F3 _; congr Ok.
by rewrite (perm_big _ pl) big_cat natrD addrACA /= opprD.
Qed.

(* the state (|0> + |1>)/sqrt 2 of one site *)
Definition plus : 'M[CR]_(2 ^ 1) := const_mx 2%:R^-1.

Lemma plus_density : density plus.
Proof.
have r : ((sqrtC 2%:R)^-1 : CR)^* = (sqrtC 2%:R)^-1 by apply/CrealP; rewrite rpredV ger0_real // sqrtC_ge0 ler0n.
have -> : plus = adjm (const_mx (sqrtC 2%:R)^-1 : 'rV[CR]_(2 ^ 1)) *m (const_mx (sqrtC 2%:R)^-1 : 'rV[CR]_(2 ^ 1)).
  by apply/matrixP => i j; rewrite !mxE big_ord1 !mxE r u2.
split; first exact: psd_gram.
rewrite mxtrace_mulC /mxtrace big_ord1 !mxE !big_ord_recl big_ord0 !mxE !r u2 addr0 -mulr2n -(mulr_natr 2%:R^-1).
by rewrite mulVf // pnatr_eq0.
Qed.

Lemma am10 : am CR 1 0 = \matrix_(i, j) ((val i == 0%N) && (val j == 1%N))%:R.
Proof.
apply/matrixP => i j; rewrite [LHS]mxE [RHS]mxE jw_siteE (ts_get (jwf2 CR 0)) // big_ord1 /jwf /= smE.
by case: i j => [[|[|]]] //= hi [[|[|]]] //= hj; rewrite !getE.
Qed.
Lemma parity1 : parity CR 1 = \matrix_(i, j) ((if val i == 0%N then 1 else -1) * (i == j)%:R).
Proof.
apply/matrixP => i j; rewrite [LHS]mxE [RHS]mxE (ts_get (@z2 CR)) // big_ord1 /=.
by case: i j => [[|[|]]] //= hi [[|[|]]] //= hj; rewrite !getE //= ?mulr1 ?mulr0.
Qed.
Lemma tr_plus (X : 'M[CR]_(2 ^ 1)) : \tr (plus *m X) = 2%:R^-1 * \sum_i \sum_j X i j.
Proof.
rewrite exchange_big mulr_sumr /=; apply: eq_bigr => i _; rewrite mxE mulr_sumr.
by apply: eq_bigr => j _; rewrite [plus _ _]mxE.
Qed.

Lemma am10_adj : adjm (am CR 1 0) = \matrix_(i, j) ((val i == 1%N) && (val j == 0%N))%:R.
Proof. by rewrite am10; apply/matrixP => i j; rewrite 3!mxE [RHS]mxE conjC_nat andbC. Qed.
Lemma g10 : gam CR 1 0 = \matrix_(i, j) ((sqrt2 CR)^-1 * (i != j)%:R).
Proof.
rewrite gamE //= am10_adj am10; apply/matrixP => i j; rewrite [LHS]mxE [RHS]mxE [X in _ * X]mxE ![(\matrix_(_, _) _) _ _]mxE.
by congr (_ * _); case: i j => [[|[|]]] //= hi [[|[|]]] //= hj; rewrite ?addr0 ?add0r.
Qed.
Lemma g11P : gam CR 1 1 *m parity CR 1 = \matrix_(i, j) ('i * (sqrt2 CR)^-1 * (i != j)%:R).
Proof.
rewrite gamE //= am10_adj am10 parity1 -!scalemxAl scalerA; apply/matrixP => i j.
rewrite [LHS]mxE [RHS]mxE mulrN -['i * _]mulrC mulNr -mulrN; congr (_ * _); rewrite mxE.
rewrite (bigD1 j) //= big1 => [|k /negPf ne]; last by rewrite ![(\matrix_(_, _) _) _ _]mxE ne !mulr0.
rewrite addr0 [(\matrix_(_, _) _) j j]mxE eqxx mulr1 [X in X * _]mxE [X in (_ + X) * _]mxE ![(\matrix_(_, _) _) _ _]mxE.
by case: i j => [[|[|]]] //= hi [[|[|]]] //= hj; rewrite ?subr0 ?sub0r ?mulr1 ?mulrN1 ?opprK ?mul0r ?oppr0 ?mulN1r ?mulr1.
Qed.

Lemma plus_odd : \tr (plus *m gam CR 1 0) = (sqrt2 CR)^-1 /\ \tr (plus *m gam CR 1 1 *m parity CR 1) = 'i * (sqrt2 CR)^-1.
Proof.
have h2 : 2%:R != 0 :> CR by rewrite pnatr_eq0.
have e (c : CR) : 2%:R^-1 * (\sum_(i < 2 ^ 1) \sum_(j < 2 ^ 1) (\matrix_(k, l) (c * (k != l)%:R) : 'M[CR]_(2 ^ 1)) i j) = c.
  rewrite !big_ord_recl !big_ord0 !mxE /= !mulr1 !mulr0 !addr0 !add0r -mulr2n -[c *+ 2]mulr_natl mulrA mulVf ?mul1r //.
by rewrite -mulmxA !tr_plus g10 g11P !e.
Qed.

Lemma plus_cov : covM plus = 0.
Proof.
have c : plus *m gam CR 1 0 = gam CR 1 0 *m plus.
  rewrite g10; apply/matrixP => i j; rewrite !mxE !big_ord_recl !big_ord0 !mxE /=.
  by case: i j => [[|[|]]] //= hi [[|[|]]] //= hj; rewrite ?mulr0 ?mul0r ?mulr1 ?mul1r ?addr0 ?add0r //; rewrite mulrC.
have c0 (j : 'I_(2 * 1)) : \tr (plus *m gam CR 1 0 *m gam CR 1 j) = \tr (plus *m gam CR 1 j *m gam CR 1 0).
  by rewrite c -mulmxA mxtrace_mulC.
apply/matrixP => i j; rewrite mxE [covC _ _ _]mxE [RHS]mxE.
case: (boolP (i == j)) => [/eqP ->|ne]; first by rewrite subrr mulr0 raddf0.
case: i j ne => [[|[|]]] //= hi [[|[|]]] //= hj ne.
  by rewrite (c0 (Ordinal hj)) subrr mulr0 raddf0.
by rewrite -(c0 (Ordinal hi)) subrr mulr0 raddf0.
Qed.

(* without it additivity fails: two copies of the state (|0> + |1>)/sqrt 2 *)
Theorem C85_odd_refuted schur (x z : input) : schur_spec schur -> cast_to_density_matrix x = Ok (ofM plus) ->
  cast_to_density_matrix z = Ok (akron (ofM plus) (ofM plus)) ->
  exists f g, [/\ FAF schur x 1 = Ok f, FAF schur z 1 = Ok g & g + 2%:R^-1 < f + f].
Proof.
move=> sP ex; rewrite -prodME => ez; have dp := plus_density; have dK := prod_density dp dp.
have [f hf /andP[f1 _]] := C36_value sP ex dp (ltn0Sn 0); have [g hg /andP[_ g1]] := C36_value sP ez dK (ltn0Sn 0).
exists f, g; split=> //.
set K := covM (prodM plus plus) in g1.
have e1 (X : 'M[R]_(2 * (1 + 1))) : mpow X 1 = X by rewrite /mpow /= ?mulmx1.
rewrite plus_cov trmx0 mul0mx [mpow _ 1](_ : _ = 0) ?mxtrace0 ?mulr0 ?subr0 in f1; last by rewrite /mpow /= mul0mx.
rewrite e1 in g1.
pose o1 : 'I_(2 * 1) := Ordinal (isT : 1 < 2 * 1)%N; pose o0 : 'I_(2 * 1) := Ordinal (isT : 0 < 2 * 1)%N.
pose a := ia 1 o1; pose b := ib 1 o0.
have Kab : K a b = 1.
  rewrite /K mxE [covC _ _ _]mxE (prod_ab plus plus o1 o0) (prod_ba plus plus o1 o0) /=.
  have [-> ->] := plus_odd.
  rewrite mulNr opprK -!mulrA -mulrDr nu2D mulr1 mulNr -expr2 sqrCi opprK.
  by have -> : (1 : CR) = toC 1; [rewrite rmorph1|exact: reK].
have Kba : K b a = -1.
  by have := covM_anti (prodM plus plus) => /matrixP/(_ a b); rewrite mxE [RHS]mxE -/K Kab.
have KK i : (K^T *m K) i i = \sum_k K k i ^+ 2.
  by rewrite mxE; apply: eq_bigr => k _; rewrite mxE -expr2.
have T2 : 2%:R <= \tr (K^T *m K).
  have ab : a != b by [].
  have ge0 i : 0 <= \sum_k K k i ^+ 2 by apply: sumr_ge0 => k _; rewrite sqr_ge0.
  rewrite /mxtrace (bigD1 a) //= (bigD1 b) 1?eq_sym //= !KK addrA.
  apply: ler_paddr; first by apply: sumr_ge0 => k _; rewrite KK.
  apply: ler_add.
    rewrite (bigD1 b) //= Kba sqrrN expr1n ler_addl; apply: sumr_ge0 => k _; exact: sqr_ge0.
  rewrite (bigD1 a) //= Kab expr1n ler_addl; apply: sumr_ge0 => k _; exact: sqr_ge0.
have tiny : (2 * (1 + 1))%:R * (10%:R ^+ 10)^-1 ^+ (2 * 1) < 2%:R^-1 :> R.
  rewrite exprVn ltr_pdivr_mulr ?exprn_gt0 ?ltr0n // ltr_pdivl_mull ?ltr0n // -natrM -!natrX ltr_nat.
  rewrite -expnM; apply: (@leq_trans (10 ^ 1)) => //; by rewrite leq_pexp2l.
apply: (@lt_le_trans _ _ (1 + 1)); last exact: ler_add.
have h1 : 2%:R^-1 + 2%:R^-1 = 1 :> R by rewrite -mulr2n -[_ *+ 2]mulr_natl mulfV // pnatr_eq0.
rewrite -[X in _ < _ + X]h1 addrA ltr_add2r; apply: le_lt_trans g1 _; apply: ler_lt_add tiny.
rewrite natrD ler_subl_addr ler_add2l -[X in X <= _](mulVf (_ : 2%:R != 0)) ?pnatr_eq0 //.
by rewrite ler_pmul2l // invr_gt0 ltr0n.
Qed.

(* modes of the two halves of two sites: x_0, p_0 at 0 and 2, x_1, p_1 at 1 and 3 *)
Example C85_positions : map (fun i : 'I_(2 * 1) => ia 1 i : nat) (enum 'I_(2 * 1)) = [:: 0; 2]%N /\
  map (fun j : 'I_(2 * 1) => ib 1 j : nat) (enum 'I_(2 * 1)) = [:: 1; 3]%N.
Proof. by rewrite !enum_ordSl !enum_ord0. Qed.

(* appending sites in the vacuum does not change FAF *)
Example C85_vacuum schur n m (x z : input) (M : 'M[CR]_(2 ^ n)) k : schur_spec schur -> density M -> (0 < k)%N ->
  cast_to_density_matrix x = Ok (ofM M) -> cast_to_density_matrix z = Ok (akron (ofM M) (ofM (vacuum m))) ->
  FAF schur z k = FAF schur x k.
Proof.
move=> sP dM k0 ex ez; have [u1 i1] := implements_1 m.
have ev : parity CR m *m vacuum m = vacuum m *m parity CR m.
  have p := parity_e0 CR m; rewrite /vacuum mulmxA p -mulmxA; congr (_ *m _).
  by rewrite -[in LHS]p adjmM parity_adj.
have dv : density (vacuum m).
  split; last exact: vacuum_tr.
  have -> : vacuum m = adjm (adjm (e0 CR m)) *m adjm (e0 CR m) by rewrite adjmK.
  exact: psd_gram.
have cy := C25_density dv; have [_ /(_ k k0)[f [g [ef eg ->]]]] := C85_additive sP dM dv (or_intror ev) ex cy ez.
have eg0 : FAF schur (V2 (ofM (vacuum m))) k = Ok 0.
  by apply: (C36_gaussian sP u1 i1 k0); rewrite mul1mx adjm1 mulmx1.
by move: eg; rewrite eg0 => -[<-]; rewrite addr0 ef.
Qed.
