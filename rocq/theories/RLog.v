(* RLog.v -- the principal logarithm of the unitary matrices over R[i]; it meets the contract logm_spec *)
Set Warnings "-notation-overridden,-ambiguous-paths".
From Coq Require Import Reals Lra Epsilon.
From mathcomp Require Import all_ssreflect all_algebra.
From mathcomp Require Import complex.
From mathcomp.zify Require Import zify.
From Verif Require Import Base ArrC MLib JW OpFam Expm Spectral NormalCalc RndFacts RealC Limits RExp.
Set Implicit Arguments.
Unset Strict Implicit.
Unset Printing Implicit Defensive.
Import Order.Theory GRing.Theory Num.Theory.
Local Open Scope ring_scope.

Local Notation C := CR.

(* ------------------------------------------------------------------ *)
(* exp(i theta) = cos theta + i sin theta                               *)
Definition ce : C -> C := cexp expmR.

Lemma psum1E (z : C) N : psum (z%:M : 'M[C]_1) N 0 0 = spsum z N.
Proof.
rewrite /psum spsumE summxE; apply: eq_bigr => k _; rewrite mxE; congr (_ * _).
by rewrite -rmorphX /= mxE eqxx mulr1n.
Qed.

Lemma ce_cvg (z : C) : cvg (spsum z) (ce z).
Proof. by have := expS_cvg (z%:M : 'M[C]_1) 0 0; apply: cvg_ext => N; exact: psum1E. Qed.

Lemma cos_cv t : Un_cv (sum_f_R0 (fun i => Rmult (cos_n i) (pow (Rsqr t) i))) (cos t).
Proof. by rewrite /cos; case: (exist_cos (Rsqr t)). Qed.
Lemma sin_cv t : cvg (fun N => toC t * toC (sum_f_R0 (fun i => Rmult (sin_n i) (pow (Rsqr t) i)) N)) (toC (sin t)).
Proof.
rewrite /sin; case: (exist_sin (Rsqr t)) => a ha.
by rewrite -[Rmult t a]/(t * a) rmorphM; apply: cvgZ; exact: cvg_toC.
Qed.

Lemma toCX (x : R) k : toC (pow x k) = toC x ^+ k.
Proof. by rewrite -exprRE rmorphX. Qed.
Lemma toCM (x y : R) : toC (Rmult x y) = toC x * toC y.
Proof. exact: rmorphM. Qed.
Lemma toCN1 : toC (Ropp (IZR 1)) = -1.
Proof. by rewrite -[Ropp _]/(- (1 : R)) rmorphN1. Qed.

Lemma even_term t k : cf C (2 * k) * ('i * toC t) ^+ (2 * k) = toC (Rmult (cos_n k) (pow (Rsqr t) k)).
Proof.
rewrite /cos_n /Rdiv !toCM !toCX /Rsqr toCM -cfE toCN1 exprMn [in LHS]exprM sqrCi [in LHS]exprM expr2.
by rewrite [RHS]mulrAC mulrC [in RHS]mulrC.
Qed.
Lemma odd_term t k : cf C (2 * k).+1 * ('i * toC t) ^+ (2 * k).+1 =
  'i * (toC t * toC (Rmult (sin_n k) (pow (Rsqr t) k))).
Proof.
rewrite /sin_n /Rdiv !toCM !toCX /Rsqr toCM PeanoNat.Nat.add_1_r -cfE toCN1 exprS exprMn [in LHS]exprM sqrCi [in LHS]exprM expr2.
rewrite -!mulrA mulrCA; congr (_ * _); rewrite mulrCA; congr (_ * _).
by rewrite [RHS]mulrCA.
Qed.

Lemma sum_toC (u : nat -> R) N : toC (sum_f_R0 u N) = \sum_(k < N.+1) toC (u k).
Proof.
elim: N => [|N IH]; first by rewrite big_ord1.
by rewrite big_ord_recr /= -IH -rmorphD.
Qed.

Lemma spsum_cossin t N : spsum ('i * toC t) (2 * N.+1) =
  toC (sum_f_R0 (fun i => Rmult (cos_n i) (pow (Rsqr t) i)) N) +
  'i * (toC t * toC (sum_f_R0 (fun i => Rmult (sin_n i) (pow (Rsqr t) i)) N)).
Proof.
rewrite !sum_toC 2!mulr_sumr -big_split /= spsumE.
elim: (N.+1) => [|M IH]; first by rewrite !big_ord0.
rewrite [RHS]big_ord_recr /= -IH mulnS addnC addn2 2!big_ord_recr /= -addrA; congr (_ + _).
by rewrite even_term odd_term.
Qed.

Lemma ce_i t : ce ('i * toC t) = toC (cos t) + 'i * toC (sin t).
Proof.
have h1 : cvg (fun N => spsum ('i * toC t) (2 * N.+1)) (ce ('i * toC t)).
  by apply: (cvg_shift (f := fun N => (2 * N.+1)%N)) (ce_cvg _) => n; lia.
apply: cvg_uniq h1 _; apply: (cvg_ext (fun N => esym (spsum_cossin t N))).
by apply: cvgD; [apply: cvg_toC; exact: cos_cv|apply: cvgZ; exact: sin_cv].
Qed.

(* ------------------------------------------------------------------ *)
(* the principal argument of a number of modulus one                    *)
Definition arg (z : C) : R := if 0 <= im z then acos (re z) else - acos (re z).

Lemma unit_sq (z : C) : `|z| = 1 -> Rplus (Rsqr (re z)) (Rsqr (im z)) = R1.
Proof.
move=> h; have e := normCK z; rewrite h expr1n in e.
have := congr1 re e; case: z {h e} => a b /= h; rewrite /Rsqr.
by move: h; rewrite mulrN opprK => /esym.
Qed.

Lemma unit_bounds a b : Rplus (Rsqr a) (Rsqr b) = R1 -> (Rle (Ropp (IZR 1)) a /\ Rle a (IZR 1))%R.
Proof. by rewrite /Rsqr => h; split; nra. Qed.

Lemma cos_arg (z : C) : `|z| = 1 -> cos (arg z) = re z /\ sin (arg z) = im z.
Proof.
move=> /unit_sq h; have hb := unit_bounds h; rewrite /arg.
have e : Rminus (IZR 1) (Rsqr (re z)) = Rsqr (im z) by lra.
case: (boolP (0 <= im z)) => [/RleP i0|i0].
  by rewrite cos_acos // sin_acos // e sqrt_Rsqr.
rewrite -[- acos _]/(Ropp (acos (re z))) cos_neg sin_neg cos_acos // sin_acos // e.
rewrite sqrt_Rsqr_abs Rabs_left ?Ropp_involutive //.
by apply/RltP; rewrite ltNge.
Qed.

(* the principal logarithm on the unit circle *)
Definition lg1 (z : C) : C := 'i * toC (arg z).

Lemma ce_lg1 (z : C) : `|z| = 1 -> ce (lg1 z) = z.
Proof. by move=> h; have [e1 e2] := cos_arg h; rewrite ce_i e1 e2 -reim. Qed.

Lemma lg1_anti (z : C) : (lg1 z)^* = - lg1 z.
Proof. by rewrite /lg1 rmorphM conjCi mulNr (CrealP _) // toC_real. Qed.

Lemma im_conj (z : C) : im z^* = - im z. Proof. by case: z. Qed.
Lemma re_conj (z : C) : re z^* = re z. Proof. by case: z. Qed.

Lemma lg1_conj (z : C) : `|z| = 1 -> z != -1 -> lg1 z^* = - lg1 z.
Proof.
move=> /unit_sq h zN; rewrite /lg1 -mulrN -rmorphN; congr (_ * toC _).
rewrite /arg im_conj re_conj oppr_ge0.
case: (ltrgtP 0 (im z)) => [//|_|e]; first by rewrite opprK.
have {}h : Rsqr (re z) = R1 by move: h; rewrite -e /Rsqr -[0]/(R0); lra.
have e1 : re z = 1.
  have [//|e1] : re z = IZR 1 \/ re z = Ropp (IZR 1) by move: h; rewrite /Rsqr => h; nra.
  case/eqP: zN; rewrite [z]reim -e e1 rmorph0 mulr0 addr0; exact: toCN1.
by rewrite e1 acos_1 oppr0.
Qed.

(* ------------------------------------------------------------------ *)
(* the logarithm of a unitary matrix, through any diagonalisation of it *)
Definition diagof n (U : 'M[C]_n) : 'M[C]_n * 'rV[C]_n :=
  epsilon (inhabits (0, 0)) (fun p => diagonalised U p.1 p.2).
Definition logmR n (U : 'M[C]_n) : 'M[C]_n := fcalc lg1 (diagof U).1 (diagof U).2.

Lemma diagofP n (U : 'M[C]_n) : unitary U -> diagonalised U (diagof U).1 (diagof U).2.
Proof.
move=> u; apply: (epsilon_spec (inhabits (0, 0)) (fun p => diagonalised U p.1 p.2)).
by have [P [d h]] := diagonalised_ex (unitary_normal u); exists (P, d).
Qed.

Theorem logmR_spec : logm_spec expmR logmR.
Proof.
split=> [n U u|n U u|m n U V X uU uV h|n U u|n U u dt].
- have [uP e] := diagofP u; rewrite /logmR /fcalc (expm_conj expmR_spec) // [RHS]e; congr (_ *m diag_mx _ *m _).
  by apply/rowP => i; rewrite !mxE -/ce ce_lg1 // (unitary_diag (diagofP u) u).
- rewrite /logmR fcalc_adj /fcalc -mulNmx -mulmxN -raddfN; congr (_ *m diag_mx _ *m _).
  by apply/rowP => i; rewrite !mxE; exact: lg1_anti.
- exact: (fcalc_inter lg1 (diagofP uU) (diagofP uV) h).
- have uT : unitary U^T by exact: unitary_tr.
  by rewrite /logmR -fcalc_tr; apply: fcalc_uniq (diagofP uT) _; exact: diagonalised_tr (diagofP u).
- have uA := unitary_adj u; rewrite /logmR.
  rewrite (fcalc_uniq lg1 (diagofP uA) (diagonalised_adj (diagofP u))) /fcalc -mulNmx -mulmxN -raddfN.
  congr (_ *m diag_mx _ *m _); apply/rowP => i; rewrite !mxE lg1_conj //; first exact: (unitary_diag (diagofP u) u).
  move: dt; rewrite (diag_det1 (diagofP u)) => /prodf_neq0/(_ i isT); by rewrite addr_eq0.
Qed.
