(* PropDistG.v -- property C102: trace_distance in rounded arithmetic *)
Set Warnings "-notation-overridden,-ambiguous-paths".
From Coq Require Import Reals.
From mathcomp Require Import all_ssreflect all_fingroup all_algebra.
From mathcomp Require Import complex.
From mathcomp.zify Require Import zify.
From Verif Require Import RealC Info Base ArrC MCombinatorics MUtils Spectral PropUtils1 PropUtils2 PropDist3 PropFloat PropFloat2
  PropFloat4 PropFloat6 MDistF PropDistF PropUtilsF PropUtilsF2 MDistG.
Set Implicit Arguments.
Unset Strict Implicit.
Unset Printing Implicit Defensive.
Import Order.Theory GRing.Theory Num.Theory.
Local Open Scope ring_scope.

Section Norms.
Variable n : nat.
Implicit Types H E : 'M[CR]_n.
Local Notation frob H := (\sum_i \sum_j `|H i j| ^+ 2).

Lemma frobE H (U : 'M[CR]_n) (D : 'rV[CR]_n) : hermitian H -> unitary U -> (forall i, D 0 i \is Num.real) -> H = adjm U *m diag_mx D *m U ->
  frob H = \sum_i `|D 0 i| ^+ 2.
Proof.
move=> hM uU rD eM.
have -> : frob H = \tr (H *m adjm H).
  by apply: eq_bigr => i _; rewrite mxE; apply: eq_bigr => j _; rewrite !mxE normCK.
have UU : U *m adjm U = 1%:M by exact: uU.
rewrite hM eM !mulmxA -[_ *m U *m adjm U]mulmxA UU mulmx1 mxtrace_mulC !mulmxA UU mul1mx mulmx_diag mxtrace_diag.
by apply: eq_bigr => i _; rewrite mxE real_normK // expr2.
Qed.
Lemma frob_tn H : hermitian H -> frob H <= tn H ^+ 2.
Proof.
move=> hH; have [U uU [D rD eH]] := spectral_herm hH; rewrite (frobE hH uU rD eH) (tn_diag uU eH).
rewrite [X in _ <= X]expr2 big_distrlr /=; apply: ler_sum => i _; rewrite (bigD1 i) //= -expr2 ler_addl.
by apply: sumr_ge0 => j _; rewrite mulr_ge0.
Qed.
Lemma tn_frob H : hermitian H -> tn H ^+ 2 <= n%:R * frob H.
Proof.
move=> hH; have [U uU [D rD eH]] := spectral_herm hH; rewrite (frobE hH uU rD eH) (tn_diag uU eH).
have := @sum_sq CR n (fun i => `|D 0 i|) (fun _ => 1) (fun i => normr_ge0 _) (fun _ => ler01).
rewrite expr1n sumr_const card_ord mulrC expr2 big_distrlr /= => h; apply: le_trans h.
by apply: ler_sum => i _; apply: ler_sum => j _; rewrite mul1r mulr1.
Qed.
Lemma eigvals_sz H : hermitian H -> size (eigvals H) = n.
Proof.
move=> hH; have [U uU [D rD eH]] := spectral_herm hH.
by rewrite (perm_size (eigvals_diag uU eH)) size_map size_enum_ord.
Qed.
(* an entrywise relative perturbation *)
Lemma tn_pert H H' (u : R) : 0 <= u -> hermitian H -> hermitian H' -> (forall i j, `|H' i j - H i j| <= toC u * `|H i j|) ->
  `|tn H' - tn H| <= toC (Num.sqrt n%:R * u) * tn H.
Proof.
move=> u0 hH hH' h; set E := H' - H; have hE : hermitian E by exact: hermB.
have tE : tn E <= toC (Num.sqrt n%:R * u) * tn H.
  have s0 : 0 <= Num.sqrt n%:R * u by rewrite mulr_ge0 // sqrtr_ge0.
  rewrite -(@ler_pexpn2r _ 2 isT) ?nnegrE ?mulr_ge0 ?tn_ge0 ?toC_ge0 //; apply: le_trans (tn_frob hE) _.
  have -> : (toC (Num.sqrt n%:R * u) * tn H) ^+ 2 = n%:R * (toC u ^+ 2 * tn H ^+ 2).
    have e : toC (Num.sqrt n%:R) ^+ 2 = n%:R by rewrite -rmorphX /= sqr_sqrtr ?ler0n // toC_nat.
    by rewrite rmorphM /= !exprMn e mulrA.
  rewrite ler_wpmul2l ?ler0n //; apply: le_trans (ler_wpmul2l _ (frob_tn hH)); last by rewrite exprn_ge0 // toC_ge0.
  rewrite mulr_sumr; apply: ler_sum => i _; rewrite mulr_sumr; apply: ler_sum => j _.
  have hij : `|E i j| <= toC u * `|H i j| by have := h i j; rewrite !mxE.
  by rewrite -exprMn; apply: (@ler_expn2r _ 2) => //; rewrite nnegrE // mulr_ge0 // toC_ge0.
apply: le_trans tE; have e1 : H' = H + E by rewrite addrC subrK.
have e2 : H = H' + - E by rewrite opprB addrC subrK.
have hN : hermitian (- E) by rewrite /hermitian adjmN hE.
have t1 : tn H' <= tn H + tn E by rewrite {1}e1; exact: tn_tri.
have t2 : tn H <= tn H' + tn E by rewrite {1}e2 -[X in _ <= _ + X](tnN hE); exact: tn_tri.
rewrite real_ler_norml; last by rewrite rpredB // ger0_real // tn_ge0.
by rewrite ler_subl_addl t1 andbT ler_subr_addr addrC ler_subl_addr.
Qed.
End Norms.

Section Float.
Variable u : R.
Hypothesis u0 : 0 <= u.
Local Notation arr := (arr CR).
Variables (castd : input CR -> res arr) (fsub : CR -> CR -> CR) (eigv : arr -> seq CR) (fabs : CR -> R) (fsum : seq R -> R)
  (fmul : R -> R -> R) (t : nat -> nat) (d : nat -> R).
Hypothesis subP : rel_err (toC u) fsub (fun x y => x - y).
Hypothesis subC : forall x y, fsub x^* y^* = (fsub x y)^*.
Hypothesis absP : forall z, `|fabs z - re `|z| | <= u * re `|z|.
Hypothesis sumP : sum_err u fsum t.
Hypothesis mulP : @rel_err RF u fmul *%R.
Hypothesis d0 : forall n, 0 <= d n.
(* the eigenvalues of a Hermitian matrix, each with an error of at most d n times the Frobenius norm, in some order *)
Definition eigv_err := forall n (H : 'M[CR]_n), hermitian H -> exists l, [/\ perm_eq l (eigvals H), size (eigv (ofM H)) = size l &
  forall i, `|nth 0 (eigv (ofM H)) i - nth 0 l i| ^+ 2 <= toC (d n) ^+ 2 * \sum_i \sum_j `|H i j| ^+ 2].
Hypothesis eigP : eigv_err.

Lemma rel_comp (a b x y z : R) : 0 <= y -> 0 <= x -> 0 <= b -> `|x - y| <= a * y -> `|z - x| <= b * x ->
  `|z - y| <= ((1 + a) * (1 + b) - 1) * y.
Proof.
move=> y0 x0 b0 h1 h2; have -> : z - y = (z - x) + (x - y) by rewrite addrA subrK.
have xy : x <= (1 + a) * y by rewrite mulrDl mul1r -ler_subl_addl; apply: le_trans (ler_norm _) h1.
apply: le_trans (ler_norm_add _ _) _.
have -> : ((1 + a) * (1 + b) - 1) * y = b * ((1 + a) * y) + a * y by rring.
by apply: ler_add => //; apply: le_trans h2 _; rewrite ler_wpmul2l.
Qed.

(* C102: the trace distance has a small relative error *)
Theorem C102_value n (x y : input CR) (A B : 'M[CR]_n) : castd x = Ok (ofM A) -> castd y = Ok (ofM B) -> hermitian A -> hermitian B ->
  let D := 2%:R^-1 * re (tn (A - B)) in
  exists2 r, trace_distance_f castd fsub eigv fabs fsum fmul x y = Ok r &
    `|r - D| <= ((1 + Num.sqrt n%:R * u) * (1 + n%:R * d n) * (1 + u) ^+ (t n + 2) - 1) * D.
Proof.
move=> ex ey hA hB D; pose H := A - B; pose H' : 'M[CR]_n := \matrix_(i, j) fsub (A i j) (B i j).
have e : sub_bcast_f fsub (ofM A) (ofM B) = Ok (ofM H').
  rewrite /sub_bcast_f /= !eqxx /=; congr Ok; apply: arrP => // p q hi hj; rewrite getE //.
  by rewrite -[p]/(val (Ordinal hi)) -[q]/(val (Ordinal hj)) !get_ofM mxE.
have hH : hermitian H by exact: hermB.
have hH' : hermitian H'.
  apply/matrixP => i j; rewrite !mxE -subC; congr fsub.
    by rewrite -[in RHS]hA !mxE.
  by rewrite -[in RHS]hB !mxE.
have hp : `|tn H' - tn H| <= toC (Num.sqrt n%:R * u) * tn H.
  by apply: tn_pert => // i j; rewrite !mxE; exact: subP.
rewrite /trace_distance_f ex ey /= e /=; eexists; first by [].
have [l [pl sl hl]] := eigP hH'; have nl : size l = n by rewrite (perm_size pl) eigvals_sz.
set y' := eigv _ in sl hl *; pose Y := \sum_(z <- y') re `|z|.
have eY : toC Y = \sum_(z <- y') `|z|.
  by rewrite rmorph_sum /=; apply: eq_bigr => z _; exact: toC_re_norm.
have hY : `|Y - re (tn H')| <= n%:R * d n * re (tn H').
  rewrite -toC_le -toC_norm rmorphB /= re_tn eY !rmorphM /= toC_nat re_tn /tn -(perm_big _ pl) /=.
  rewrite (big_nth 0) sl [X in `|_ - X|](big_nth 0) -sumrB.
  apply: le_trans (ler_norm_sum _ _ _) _; apply: le_trans (_ : \sum_(0 <= i < size l) toC (d n) * tn H' <= _).
    apply: ler_sum => i _; apply: le_trans (ler_dist_dist _ _) _.
    have dt0 : 0 <= toC (d n) * tn H' by apply: mulr_ge0; [rewrite toC_ge0|exact: tn_ge0].
    have nz : `|nth 0 y' i - nth 0 l i| \is Num.nneg by rewrite nnegrE.
    rewrite -(@ler_pexpn2r _ 2 isT _ _ nz dt0); apply: le_trans (hl i) _.
    by rewrite exprMn ler_wpmul2l ?exprn_ge0 ?toC_ge0 //; exact: frob_tn.
  by rewrite sumr_const_nat subn0 nl -mulr_natl mulrA /tn -(perm_big _ pl).
have Y0 : 0 <= Y by apply: sumr_ge0 => z _; apply: re0.
have r0 (M : 'M[CR]_n) : 0 <= re (tn M) by apply: re0; exact: tn_ge0.
have {}hp : `|re (tn H') - re (tn H)| <= Num.sqrt n%:R * u * re (tn H).
  by rewrite -toC_le -toC_norm rmorphB /= !re_tn rmorphM /= re_tn.
have nd0 : 0 <= n%:R * d n by rewrite mulr_ge0 ?ler0n.
have h1 := rel_comp (r0 H) (r0 H') nd0 hp hY.
have ha z : @approx RF u 1 (re `|z|) (fabs z) (re `|z|).
  split; last by rewrite ger0_norm //; apply: re0.
  have -> : @err RF u 1 = u by rewrite /err expr1 [1 + u]addrC addrK.
  exact: absP.
have h2 := sum_chain u0 sumP y' ha; rewrite sl nl -/Y in h2.
have [h3 _] := @approx_mull RF u u0 fmul mulP _ _ _ _ 2%:R^-1 h2.
have i0 : 0 <= 2%:R^-1 :> RF by rewrite invr_ge0 ler0n.
rewrite (ger0_norm i0) in h3; have en : (1 + t n).+1 = (t n + 2)%N by lia.
rewrite en in h3.
have h4 : `|2%:R^-1 * Y - D| <= ((1 + Num.sqrt n%:R * u) * (1 + n%:R * d n) - 1) * D.
  by rewrite /D -mulrBr normrM (ger0_norm i0) mulrCA ler_wpmul2l.
have := @rel_comp _ _ _ D _ _ _ _ h4 h3.
rewrite /err [1 + (_ - 1)]addrC subrK [1 + (_ - 1)]addrC subrK; apply.
- by rewrite mulr_ge0.
- by rewrite mulr_ge0.
- exact: (@err_ge0 RF u u0).
Qed.
End Float.
