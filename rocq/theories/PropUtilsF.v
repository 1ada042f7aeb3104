(* PropUtilsF.v -- property C101: cast_to_density_matrix and cast_to_pdf in rounded arithmetic *)
Set Warnings "-notation-overridden,-ambiguous-paths".
From mathcomp Require Import all_ssreflect all_fingroup all_algebra.
From mathcomp.zify Require Import zify.
From Verif Require Import Base ArrC MCombinatorics MUtils Spectral PropUtils1 PropUtils2 PropFloat PropFloat3 PropFloat5 MUtilsF.
Set Implicit Arguments.
Unset Strict Implicit.
Unset Printing Implicit Defensive.
Import Order.Theory GRing.Theory Num.Theory.
Local Open Scope ring_scope.

Section Float.
Variable C : numClosedFieldType.
Local Notation arr := (arr C).
Add Ring cringUF : (ring_of C).
Variable u : C.
Hypothesis u0 : 0 <= u.
Variables (fmul : C -> C -> C) (fsqrt : C -> C) (fsq2 fabs1 : seq C -> C) (ftr : arr -> C) (eig : arr -> seq C).
Variables (t : nat -> nat) (d : nat -> C).
Local Notation e8 := ((10%:R ^+ 8)^-1 : C).
Local Notation e12 := ((10%:R ^+ 12)^-1 : C).
Hypothesis mulP : rel_err u fmul *%R.
Hypothesis sqrtP : forall x, 0 <= x -> `|fsqrt x - sqrtC x| <= u * sqrtC x.
(* sums of n terms and traces have t n roundings *)
Definition sq2_err := forall v, fsq2 v \is Num.real /\
  approx u (t (size v)) (\sum_(x <- v) `|x| ^+ 2) (fsq2 v) (\sum_(x <- v) `|x| ^+ 2).
Definition abs1_err := forall v, approx u (t (size v)) (\sum_(x <- v) `|x|) (fabs1 v) (\sum_(x <- v) `|x|).
Hypothesis sq2P : sq2_err.
Hypothesis trP : tr_err u ftr t.
(* eigenvalues with an error of d n times the Frobenius norm, the bound of backward stable methods *)
Definition eig_err := forall n (H : 'M[C]_n), hermitian H -> forall y, y \in eig (ofM H) -> y \is Num.real /\
  exists2 l, l \in eigvals H & `|y - l| ^+ 2 <= d n ^+ 2 * \sum_i \sum_j `|H i j| ^+ 2.
Hypothesis eigP : eig_err.
Hypothesis d0 : forall n, 0 <= d n.

Lemma e8_ge0 : 0 <= e8. Proof. by rewrite invr_ge0 exprn_ge0 // ler0n. Qed.
Lemma tol_ge0 k (x : C) : 0 <= (10%:R ^+ k)^-1 * `|x|.
Proof. by rewrite mulr_ge0 // invr_ge0 exprn_ge0 // ler0n. Qed.

Lemma lower_hermF n (M : 'M[C]_n) : lower_herm (ofM M) = ofM (herm_of M).
Proof.
apply: arrP => // i j hi hj; rewrite getE //.
by rewrite -[i]/(val (Ordinal hi)) -[j]/(val (Ordinal hj)) !get_ofM mxE.
Qed.

(* sufficient conditions for the tests *)
Lemma validate_ok n (M : 'M[C]_n) c F : `|1 - ftr (ofM M)| <= e8 -> (forall i j, `|M i j - (M j i)^*| <= e8) ->
  0 <= c -> (forall x : 'cV[C]_n, - c * (adjm x *m x) 0 0 <= quad (herm_of M) x) ->
  0 <= F -> \sum_i \sum_j `|herm_of M i j| ^+ 2 <= F ^+ 2 -> c + d n * F <= e12 ->
  validate_state_f ftr eig (ofM M) = Ok (ofM M).
Proof.
move=> h1 h2 c0 h3 F0 hF h4; rewrite /validate_state_f /= eqxx /=.
have -> : close 1 (ftr (ofM M)) by apply: le_trans h1 _; rewrite ler_addl tol_ge0.
have -> : allclose (ofM M) (aadj (ofM M)).
  apply/allcloseP => i j /= hi hj; rewrite getE //= -[i]/(val (Ordinal hi)) -[j]/(val (Ordinal hj)) !get_ofM.
  by apply: le_trans (h2 _ _) _; rewrite ler_addl tol_ge0.
rewrite /= lower_hermF; have -> //= : all (fun x => - psd_tol C <= x) (eig (ofM (herm_of M))).
apply/allP => y hy; have hh := herm_of_herm M; have [ry [l hl yl]] := eigP hh hy.
have rc : c \is Num.real by exact: ger0_real.
have /allP/(_ l hl) lc := (eig_bound hh rc).2 h3.
have rl : l \is Num.real := eigvals_real hh hl.
have yl' : `|y - l| <= d n * F.
  rewrite -(@ler_pexpn2r _ 2 isT) ?nnegrE ?mulr_ge0 // exprMn; apply: le_trans yl _.
  by rewrite ler_wpmul2l // exprn_ge0.
have h5 : l - y <= d n * F.
  by apply: le_trans yl'; rewrite distrC real_ler_norm // rpredB.
rewrite /psd_tol ler_oppl; apply: le_trans h4; have -> : - y = - l + (l - y) by rewrite addrA addNr sub0r.
by apply: ler_add => //; rewrite ler_oppl.
Qed.

(* the rounded outer product *)
Definition outer_f n (v : 'I_n -> C) : 'M[C]_n := \matrix_(i, j) fmul (v i) (v j)^*.
Lemma outer_fE n (v : 'I_n -> C) : mk (size (vec v)) (size (vec v)) (fun i j => fmul (nth 0 (vec v) i) (nth 0 (vec v) j)^*) = ofM (outer_f v).
Proof.
apply: arrP; rewrite /= ?size_vec // => i j hi hj; rewrite getE //.
by rewrite -[i]/(val (Ordinal hi)) -[j]/(val (Ordinal hj)) !nth_vec get_ofM mxE.
Qed.
Lemma outer_f_err n (v : 'I_n -> C) i j : `|outer_f v i j - v i * (v j)^*| <= u * (`|v i| * `|v j|).
Proof. by rewrite mxE; apply: le_trans (mulP _ _) _; rewrite normrM norm_conjC. Qed.
Lemma herm_f_err n (v : 'I_n -> C) i j : `|herm_of (outer_f v) i j - v i * (v j)^*| <= u * (`|v i| * `|v j|).
Proof.
have h := outer_f_err v; rewrite mxE; case: eqP => [<-|_].
  have e : v i * (v i)^* = 'Re (v i * (v i)^*) by rewrite (Creal_ReP _ _) // -normCK rpredX // normr_real.
  rewrite e -raddfB /=; apply: le_trans (h i i).
  exact: (leif_normC_Re_Creal _).1.
case: ifP => _; first exact: h.
have -> : v i * (v j)^* = (v j * (v i)^*)^* by rewrite rmorphM conjCK mulrC.
by rewrite -rmorphB norm_conjC [`|v i| * _]mulrC; exact: h.
Qed.

Lemma am_gm (x y : C) : 0 <= x -> 0 <= y -> x * y *+ 2 <= x ^+ 2 + y ^+ 2.
Proof.
move=> hx hy; rewrite -subr_ge0.
have -> : x ^+ 2 + y ^+ 2 - x * y *+ 2 = (x - y) ^+ 2 by rewrite sqrrB addrAC.
by rewrite real_exprn_even_ge0 // rpredB // ger0_real.
Qed.

Lemma sum_sq n (a b : 'I_n -> C) : (forall i, 0 <= a i) -> (forall i, 0 <= b i) ->
  \sum_i \sum_j b i * (a i * a j) * b j <= (\sum_i a i ^+ 2) * (\sum_j b j ^+ 2).
Proof.
move=> a0 b0; rewrite -(@ler_pmuln2r _ 2) // [X in _ <= X]mulr2n !big_distrlr /= [X in _ <= _ + X]exchange_big /=.
rewrite -big_split -sumrMnl /=; apply: ler_sum => i _; rewrite -big_split -sumrMnl /=; apply: ler_sum => j _.
have -> : b i * (a i * a j) * b j = (a i * b j) * (a j * b i) by xring C.
apply: le_trans (am_gm _ _) _; rewrite ?mulr_ge0 //.
by rewrite !exprMn.
Qed.

Lemma quad_lower n (v : 'I_n -> C) (E : 'M[C]_n) (y : 'cV[C]_n) : hermitian E -> (forall i j, `|E i j| <= u * (`|v i| * `|v j|)) ->
  - (u * (\sum_i `|v i| ^+ 2) * (adjm y *m y) 0 0) <= quad E y.
Proof.
move=> hE h; have rq : quad E y \is Num.real.
  apply/CrealP; rewrite /quad; have e : adjm (adjm y *m E *m y) = adjm y *m E *m y by rewrite !adjmM adjmK hE mulmxA.
  by rewrite -{2}e !mxE.
have yy : (adjm y *m y) 0 0 = \sum_j `|y j 0| ^+ 2.
  by rewrite mxE; apply: eq_bigr => j _; rewrite !mxE mulrC normCK.
rewrite ler_oppl; apply: le_trans (_ : `|quad E y| <= _); first by rewrite -normrN real_ler_norm // rpredN.
rewrite /quad mxE; apply: le_trans (ler_norm_sum _ _ _) _.
apply: le_trans (_ : \sum_j \sum_i u * (`|y i 0| * (`|v i| * `|v j|) * `|y j 0|) <= _).
  apply: ler_sum => j _; rewrite normrM mxE.
  apply: le_trans (ler_wpmul2r (normr_ge0 _) (ler_norm_sum _ _ _)) _.
  rewrite mulr_suml; apply: ler_sum => i _; rewrite normrM !mxE norm_conjC.
  have -> : u * (`|y i 0| * (`|v i| * `|v j|) * `|y j 0|) = `|y i 0| * (u * (`|v i| * `|v j|)) * `|y j 0| by xring C.
  by rewrite ler_wpmul2r // ler_wpmul2l.
rewrite exchange_big /= yy -mulrA.
have -> : \sum_i \sum_j u * (`|y i 0| * (`|v i| * `|v j|) * `|y j 0|) = u * \sum_i \sum_j `|y i 0| * (`|v i| * `|v j|) * `|y j 0|.
  by rewrite mulr_sumr; apply: eq_bigr => i _; rewrite mulr_sumr.
by rewrite ler_wpmul2l //; apply: (@sum_sq n (fun i => `|v i|) (fun i => `|y i 0|)).
Qed.
Lemma e12_e8 : e12 + e12 <= e8.
Proof.
have -> : 12%N = (8 + 4)%N by [].
rewrite exprD invfM -mulrDr ler_pimulr ?e8_ge0 //.
have h : (10%:R ^+ 4)^-1 <= 2%:R^-1 :> C.
  by rewrite lef_pinv ?posrE ?exprn_gt0 ?ltr0n // -natrX ler_nat.
by apply: le_trans (ler_add h h) _; rewrite -[X in _ <= X](@divff C 2%:R) ?pnatr_eq0 // mulr_natl mulr2n.
Qed.

(* C101: a vector of 2-norm 1 up to rounding is accepted *)
Theorem C101_wavefunction n (v : 'I_n -> C) eta : let N := \sum_i `|v i| ^+ 2 in
  `|N - 1| <= eta -> eta + ((1 + u) ^+ (t n).+1 - 1) * (1 + eta) <= e8 -> (u + d n * (1 + u)) * (1 + eta) <= e12 ->
  exists2 M : 'M[C]_n, cast_to_density_matrix_f fmul fsqrt fsq2 fabs1 ftr eig (V1 (vec v)) = Ok (ofM M) &
    forall i j, `|M i j - v i * (v j)^*| <= u * (`|v i| * `|v j|).
Proof.
move=> N hN h8 h12; exists (outer_f v); last exact: outer_f_err.
have N0 : 0 <= N by apply: sumr_ge0 => i _; rewrite exprn_ge0.
have eta0 : 0 <= eta by apply: le_trans hN.
have N1 : N <= 1 + eta.
  rewrite -ler_subl_addl; apply: le_trans hN; rewrite real_ler_norm // rpredB ?rpred1 // ger0_real //.
have ee k : 0 <= err u k := err_ge0 u0 k.
rewrite -/(err u (t n).+1) in h8; set e := err u (t n) in h8.
have uN : 0 <= u * N by exact: mulr_ge0.
have h12' : u * N + d n * ((1 + u) * N) <= e12.
  by apply: le_trans h12; rewrite mulrA -mulrDl ler_wpmul2l // addr_ge0 // mulr_ge0 // addr_ge0 // ler01.
have uN12 : u * N <= e12 by apply: le_trans h12'; rewrite ler_addl !mulr_ge0 // addr_ge0 // ler01.
have [rx] := sq2P (vec v); rewrite size_vec big_map big_enum /= -/N; set x := fsq2 _ in rx *; move=> [hx _].
have es : err u (t n).+1 = u * (1 + e) + e by exact: errS.
have e1 : e <= 1.
  apply: le_trans (_ : e8 <= _); last by rewrite invf_le1 ?exprn_gt0 ?ltr0n // exprn_ege1 // ler1n.
  apply: le_trans h8; rewrite -[e]add0r ler_add // es; apply: le_trans (_ : e * 1 <= _); first by rewrite mulr1.
  have e0 : 0 <= e by exact: ee.
  have k : e <= u * (1 + e) + e by rewrite ler_addr mulr_ge0 // addr_ge0 // ler01.
  by apply: ler_pmul => //; rewrite ?ler01 // ler_addl.
have rN : N \is Num.real by exact: ger0_real.
have x0 : 0 <= x.
  rewrite -(ler_add2r (- N)) sub0r; have : `|x - N| <= N by apply: le_trans hx _; rewrite ler_pimull.
  by rewrite real_ler_norml ?rpredB // => /andP[].
have x1 : `|x - 1| <= eta + e * (1 + eta).
  have -> : x - 1 = (N - 1) + (x - N) by xring C.
  by apply: le_trans (ler_norm_add _ _) _; apply: ler_add => //; apply: le_trans hx _; rewrite ler_wpmul2l.
set q := sqrtC x; have q0 : 0 <= q by rewrite sqrtC_ge0.
have q1 : `|q - 1| <= `|x - 1|.
  have -> : x - 1 = (q - 1) * (q + 1) by rewrite -subr_sqr_1 sqrtCK.
  by rewrite normrM ler_pemulr // ger0_norm ?ler_addr // addr_ge0 // ler01.
have hq : q <= 1 + `|x - 1|.
  rewrite -ler_subl_addl; apply: le_trans q1; rewrite real_ler_norm // rpredB ?rpred1 // ger0_real //.
have c1 : close (fsqrt x) 1.
  rewrite /close; apply: le_trans (_ : e8 <= _); last by rewrite ler_addl tol_ge0.
  apply: le_trans h8; have -> : fsqrt x - 1 = (fsqrt x - q) + (q - 1) by rewrite addrA subrK.
  apply: le_trans (ler_norm_add _ _) _.
  apply: le_trans (ler_add (sqrtP x0) (le_trans q1 x1)) _; rewrite -/q.
  apply: le_trans (_ : u * (1 + (eta + e * (1 + eta))) + (eta + e * (1 + eta)) <= _).
    by rewrite ler_add2r ler_wpmul2l //; apply: le_trans hq _; rewrite ler_add2l.
  have -> // : u * (1 + (eta + e * (1 + eta))) + (eta + e * (1 + eta)) = eta + (u * (1 + e) + e) * (1 + eta) by xring C.
  by rewrite es.
rewrite /cast_to_density_matrix_f /cast_vector_f c1 outer_fE.
apply: (@validate_ok n _ (u * N) ((1 + u) * N)) => //.
- have ma : mapprox u 1 (\matrix_(i, j) (`|v i| * `|v j|)) (outer_f v) (outer v).
    move=> i j; rewrite [X in approx _ _ X]mxE [outer v i j]mxE; split; last by rewrite normrM norm_conjC.
    by have -> : err u 1 = u; [rewrite /err expr1 [1 + u]addrC addrK|exact: outer_f_err].
  have [+ _] := tr_approx u0 trP ma; rewrite outer_trace -/N.
  have -> : \tr (\matrix_(i, j) (`|v i| * `|v j|) : 'M[C]_n) = N by apply: eq_bigr => i _; rewrite mxE expr2.
  rewrite add1n => ht; apply: le_trans h8.
  have -> : 1 - ftr (ofM (outer_f v)) = - (N - 1) - (ftr (ofM (outer_f v)) - N) by xring C.
  apply: le_trans (ler_norm_sub _ _) _; rewrite normrN; apply: ler_add => //.
  by apply: le_trans ht _; rewrite ler_wpmul2l.
- move=> i j; set M := outer_f v.
  have -> : M i j - (M j i)^* = (M i j - v i * (v j)^*) - (M j i - v j * (v i)^*)^*.
    by rewrite rmorphB rmorphM conjCK opprB addrA [v i * _]mulrC subrK.
  apply: le_trans (ler_norm_sub _ _) _; rewrite norm_conjC.
  apply: le_trans (ler_add (outer_f_err v i j) (outer_f_err v j i)) _.
  rewrite [`|v j| * _]mulrC -mulrDr -mulr2n.
  have vN k : `|v k| ^+ 2 <= N by rewrite /N (bigD1 k) //= ler_addl sumr_ge0 // => l _; rewrite exprn_ge0.
  apply: le_trans (_ : u * (N + N) <= _).
    by rewrite ler_wpmul2l //; apply: le_trans (am_gm _ _) _ => //; apply: ler_add.
  rewrite mulrDr; apply: le_trans (ler_add uN12 uN12) _; exact: e12_e8.
- move=> y; pose E := herm_of (outer_f v) - outer v.
  have -> : herm_of (outer_f v) = outer v + E by rewrite addrC subrK.
  rewrite quadD -[X in X <= _]add0r; apply: ler_add; first by have [_] := outer_psd v; apply.
  have [ho po] := outer_psd v; have hE : hermitian E by rewrite /hermitian /E adjmD adjmN herm_of_herm ho.
  rewrite mulNr; apply: quad_lower => // i j.
  have -> : E i j = herm_of (outer_f v) i j - v i * (v j)^* by rewrite /E; move: (herm_of _) => H; rewrite !mxE.
  exact: herm_f_err.
- by rewrite mulr_ge0 // addr_ge0 // ler01.
- apply: le_trans (_ : \sum_i \sum_j (1 + u) ^+ 2 * (`|v i| ^+ 2 * `|v j| ^+ 2) <= _).
    apply: ler_sum => i _; apply: ler_sum => j _; rewrite -!exprMn ler_pexpn2r ?nnegrE ?mulr_ge0 ?addr_ge0 ?ler01 //.
    have -> : herm_of (outer_f v) i j = (herm_of (outer_f v) i j - v i * (v j)^*) + v i * (v j)^* by rewrite subrK.
    apply: le_trans (ler_norm_add _ _) _; rewrite mulrDl mul1r addrC normrM norm_conjC ler_add2l; exact: herm_f_err.
  rewrite exprMn [N ^+ 2]expr2 /N big_distrlr /= mulr_sumr; apply: ler_sum => i _; by rewrite mulr_sumr.
Qed.

(* C101: ... and the probabilities are accurate *)
Theorem C101_pdf n (v : 'I_n -> C) eta : let N := \sum_i `|v i| ^+ 2 in
  `|N - 1| <= eta -> eta + ((1 + u) ^+ (t n).+1 - 1) * (1 + eta) <= e8 -> (u + d n * (1 + u)) * (1 + eta) <= e12 ->
  exists2 q : 'I_n -> C, cast_to_pdf_f fmul fsqrt fsq2 fabs1 ftr eig (V1 (vec v)) = Ok (vec q) &
    forall i, q i \is Num.real /\ `|q i - `|v i| ^+ 2| <= u * `|v i| ^+ 2.
Proof.
move=> N hN h8 h12; have [M e h] := C101_wavefunction hN h8 h12.
have hM i : `|M i i - `|v i| ^+ 2| <= u * `|v i| ^+ 2 by have := h i i; rewrite -normCK -expr2.
have hR i : `|'Re (M i i) - `|v i| ^+ 2| <= u * `|v i| ^+ 2.
  have -> : 'Re (M i i) - `|v i| ^+ 2 = 'Re (M i i - `|v i| ^+ 2).
    by rewrite raddfB /= [in RHS](Creal_ReP (`|v i| ^+ 2) _) // rpredX // normr_real.
  exact: le_trans (leif_normC_Re_Creal _).1 (hM i).
have eta0 : 0 <= eta by exact: le_trans hN.
have N0 : 0 <= N by apply: sumr_ge0 => i _; rewrite exprn_ge0.
have N1 : N <= 1 + eta.
  by rewrite -ler_subl_addl; apply: le_trans hN; rewrite real_ler_norm // rpredB ?rpred1 // ger0_real.
have uv i : u * `|v i| ^+ 2 <= e12.
  apply: le_trans h12; apply: ler_pmul; rewrite ?exprn_ge0 //.
    by rewrite ler_addl mulr_ge0 // addr_ge0 // ler01.
  by apply: le_trans N1; rewrite /N (bigD1 i) //= ler_addl sumr_ge0 // => l _; rewrite exprn_ge0.
exists (fun i => 'Re (M i i)); last by move=> i; split; [exact: Creal_Re|exact: hR].
rewrite /cast_to_pdf_f e /=.
have -> : [seq get (ofM M) i i | i <- iota 0 n] = vec (fun i => M i i).
  apply: (@eq_from_nth _ 0); rewrite size_map size_iota ?size_vec // => i hi.
  by rewrite (nth_map 0%N) ?size_iota // nth_iota // add0n -[i]/(val (Ordinal hi)) get_ofM nth_vec.
have -> : all (fun x => close x ('Re x)) (vec (fun i => M i i)); last by rewrite /vec -map_comp.
apply/allP => y /mapP[i _ ->]; apply: le_trans (_ : e8 <= _); last by rewrite ler_addl tol_ge0.
have -> : M i i - 'Re (M i i) = (M i i - `|v i| ^+ 2) - ('Re (M i i) - `|v i| ^+ 2) by rewrite opprB addrA subrK.
apply: le_trans (ler_norm_sub _ _) _; apply: le_trans (ler_add (hM i) (hR i)) _.
exact: le_trans (ler_add (uv i) (uv i)) e12_e8.
Qed.

(* the Frobenius norm of a positive matrix is at most its trace *)
Lemma frob_psd n (M : 'M[C]_n) : psd M -> \sum_i \sum_j `|M i j| ^+ 2 <= (\tr M) ^+ 2.
Proof.
move=> p; have [hM _] := p; have [U uU [D _ eM]] := spectral_herm hM; have D0 := (psd_diag uU eM).1 p.
have -> : \sum_i \sum_j `|M i j| ^+ 2 = \tr (M *m adjm M).
  by apply: eq_bigr => i _; rewrite mxE; apply: eq_bigr => j _; rewrite !mxE normCK.
have UU : U *m adjm U = 1%:M by exact: uU.
rewrite hM; have -> : \tr M = \sum_i D 0 i.
  by rewrite eM mxtrace_mulC mulmxA UU mul1mx mxtrace_diag.
have -> : \tr (M *m M) = \sum_i D 0 i ^+ 2.
  rewrite eM !mulmxA -[_ *m U *m adjm U]mulmxA UU mulmx1 mxtrace_mulC !mulmxA UU mul1mx mulmx_diag mxtrace_diag.
  by apply: eq_bigr => i _; rewrite mxE expr2.
rewrite expr2 big_distrlr /=; apply: ler_sum => i _; rewrite (bigD1 i) //= -expr2 ler_addl.
by apply: sumr_ge0 => j _; rewrite mulr_ge0.
Qed.

Lemma validate_psd n (M : 'M[C]_n) eta : psd M -> `|\tr M - 1| <= eta ->
  eta + ((1 + u) ^+ t n - 1) * (1 + eta) <= e8 -> d n * (1 + eta) <= e12 -> validate_state_f ftr eig (ofM M) = Ok (ofM M).
Proof.
move=> p ht h8 h12; have [hM pM] := p; have t0 := psd_trace_ge0 p.
have eta0 : 0 <= eta by exact: le_trans ht.
have t1 : \tr M <= 1 + eta.
  by rewrite -ler_subl_addl; apply: le_trans ht; rewrite real_ler_norm // rpredB ?rpred1 // ger0_real.
have e i j : (M j i)^* = M i j by rewrite -[in RHS]hM !mxE.
apply: (@validate_ok n _ 0 (\tr M)) => //.
- have [h _] := trP M; apply: le_trans h8.
  have -> : 1 - ftr (ofM M) = - (\tr M - 1) - (ftr (ofM M) - \tr M) by xring C.
  apply: le_trans (ler_norm_sub _ _) _; rewrite normrN; apply: ler_add => //.
  apply: le_trans h _; rewrite ler_wpmul2l ?err_ge0 //; apply: le_trans t1.
  by apply: ler_sum => i _; rewrite ger0_norm // psd_diag_ge0.
- by move=> i j; rewrite e subrr normr0 e8_ge0.
- by move=> x; rewrite herm_of_id // oppr0 mul0r.
- by rewrite herm_of_id // frob_psd.
by rewrite add0r; apply: le_trans h12; rewrite ler_wpmul2l.
Qed.

(* C101: states of trace 1 up to rounding are returned unchanged *)
Theorem C101_density n (M : 'M[C]_n) eta : n != 1%N -> psd M -> `|\tr M - 1| <= eta ->
  eta + ((1 + u) ^+ t n - 1) * (1 + eta) <= e8 -> d n * (1 + eta) <= e12 ->
  cast_to_density_matrix_f fmul fsqrt fsq2 fabs1 ftr eig (V2 (ofM M)) = Ok (ofM M).
Proof. by move=> n1 p ht h8 h12; rewrite /= minnn (negPf n1); exact: validate_psd p ht h8 h12. Qed.

(* the computed 2-norm *)
Lemma two_norm n (v : 'I_n -> C) : let S := \sum_i `|v i| ^+ 2 in err u (t n) <= 1 ->
  `|fsqrt (fsq2 (vec v)) - sqrtC S| <= err u (t n).+1 * sqrtC S.
Proof.
move=> S; set e := err u (t n) => e1; have e0 : 0 <= e by exact: err_ge0.
have S0 : 0 <= S by apply: sumr_ge0 => i _; rewrite exprn_ge0.
have [rx] := sq2P (vec v); rewrite size_vec big_map big_enum /=.
rewrite -/S; set x := fsq2 _ in rx *; move=> [hx _]; rewrite -/e in hx.
have rS : S \is Num.real by exact: ger0_real.
have x0 : 0 <= x.
  rewrite -(ler_add2r (- S)) sub0r; have : `|x - S| <= S by apply: le_trans hx _; rewrite ler_pimull.
  by rewrite real_ler_norml ?rpredB // => /andP[].
set s := sqrtC S; set q := sqrtC x.
have q0 : 0 <= q by rewrite sqrtC_ge0.
have s0 : 0 <= s by rewrite sqrtC_ge0.
have qs : `|q - s| <= e * s.
  case: (eqVneq s 0) => [z|z].
    have z' : S = 0 by apply/eqP; rewrite -(sqrtC_eq0 S) -/s z.
    by move: hx; rewrite z' mulr0 normr_le0 subr0 => /eqP hx; rewrite z /q hx sqrtC0 subrr normr0 mulr0.
  have sp : 0 < s by rewrite lt_neqAle eq_sym z.
  rewrite -(ler_pmul2r sp) -mulrA -expr2 sqrtCK; apply: le_trans hx.
  have -> : x - S = (q - s) * (q + s) by rewrite -subr_sqr !sqrtCK.
  by rewrite normrM ler_wpmul2l // [`|q + s|]ger0_norm ?addr_ge0 // ler_addr.
have qs' : q <= (1 + e) * s.
  rewrite mulrDl mul1r -ler_subl_addl; apply: le_trans qs; rewrite real_ler_norm // rpredB // ger0_real //.
have -> : fsqrt x - s = (fsqrt x - q) + (q - s) by rewrite addrA subrK.
apply: le_trans (ler_norm_add _ _) _; rewrite (errS u) mulrDl; apply: ler_add => //.
by apply: le_trans (sqrtP x0) _; rewrite -mulrA ler_wpmul2l.
Qed.

Hypothesis abs1P : abs1_err.
(* C101: probability vectors whose 2-norm is away from 1 by more than the tolerance and the rounding errors are not squared *)
Theorem C101_probability n (p : 'I_n -> C) eta : let S := \sum_i p i ^+ 2 in
  (forall i, 0 <= p i) -> `|\sum_i p i - 1| <= eta ->
  eta + ((1 + u) ^+ t n - 1) * (1 + eta) <= e8 -> d n * (1 + eta) <= e12 ->
  e8 + (10%:R ^+ 5)^-1 + ((1 + u) ^+ (t n).+1 - 1) * sqrtC S < `|sqrtC S - 1| ->
  cast_to_density_matrix_f fmul fsqrt fsq2 fabs1 ftr eig (V1 (vec p)) = Ok (ofM (diag_mx (\row_i p i))).
Proof.
move=> S p0 ht h8 h12 hS.
have np i : `|p i| = p i by rewrite ger0_norm.
have eta0 : 0 <= eta by exact: le_trans ht.
have S0 : 0 <= S by apply: sumr_ge0 => i _; rewrite exprn_ge0.
set e := err u (t n); have e0 : 0 <= e by exact: err_ge0.
have e1 : e <= 1.
  apply: le_trans (_ : e8 <= _); last by rewrite invf_le1 ?exprn_gt0 ?ltr0n // exprn_ege1 // ler1n.
  by apply: le_trans h8; rewrite -[e]add0r ler_add // -/e -{1}[e]mulr1 ler_wpmul2l // ler_addl.
have s1 : \sum_i p i <= 1 + eta.
  rewrite -ler_subl_addl; apply: le_trans ht; rewrite real_ler_norm // rpredB ?rpred1 // ger0_real // sumr_ge0 //.
have fs : `|fsqrt (fsq2 (vec p)) - sqrtC S| <= err u (t n).+1 * sqrtC S.
  by have := @two_norm n p e1; have -> : \sum_i `|p i| ^+ 2 = S by apply: eq_bigr => i _; rewrite np.
set x := fsq2 _ in fs *; set s := sqrtC S in hS fs.
have c2 : close (fsqrt x) 1 = false.
  apply/negbTE/negP; rewrite /close normr1 mulr1 => h.
  have : `|s - 1| <= e8 + (10%:R ^+ 5)^-1 + err u (t n).+1 * s.
    have -> : s - 1 = (fsqrt x - 1) - (fsqrt x - s) by xring C.
    by apply: le_trans (ler_norm_sub _ _) _; exact: ler_add.
  by move=> h'; have := lt_le_trans hS h'; rewrite ltxx.
have c1 : close (fabs1 (vec p)) 1.
  have [h _] := abs1P (vec p); rewrite size_vec big_map big_enum /= in h.
  rewrite (eq_bigr p) // in h.
  apply: le_trans (_ : e8 <= _); last by rewrite ler_addl tol_ge0.
  apply: le_trans h8; have -> : fabs1 (vec p) - 1 = (\sum_i p i - 1) + (fabs1 (vec p) - \sum_i p i) by xring C.
  by apply: le_trans (ler_norm_add _ _) _; apply: ler_add => //; apply: le_trans h _; rewrite ler_wpmul2l.
rewrite /cast_to_density_matrix_f /cast_vector_f -/x c2 c1 diag_arr.
apply: (@validate_psd n _ eta) => //.
  apply/(@psd_diag _ _ _ 1%:M (\row_i p i)); rewrite /unitary ?adjm1 ?mulmx1 ?mul1mx // => i; by rewrite mxE.
by rewrite mxtrace_diag (eq_bigr p) // => i _; rewrite mxE.
Qed.
(* C101: vectors whose norms are both away from 1 are rejected *)
Theorem C101_rejected n (v : 'I_n -> C) : let s := sqrtC (\sum_i `|v i| ^+ 2) in let l := \sum_i `|v i| in
  (1 + u) ^+ t n <= 2%:R ->
  e8 + (10%:R ^+ 5)^-1 + ((1 + u) ^+ (t n).+1 - 1) * s < `|s - 1| -> e8 + (10%:R ^+ 5)^-1 + ((1 + u) ^+ t n - 1) * l < `|l - 1| ->
  cast_to_density_matrix_f fmul fsqrt fsq2 fabs1 ftr eig (V1 (vec v)) = Raise ValueError.
Proof.
move=> s l h2 hs hl.
have far (x y : C) b : `|x - y| <= b -> e8 + (10%:R ^+ 5)^-1 + b < `|y - 1| -> close x 1 = false.
  move=> h1 h3; apply/negbTE/negP; rewrite /close normr1 mulr1 => h.
  have : `|y - 1| <= e8 + (10%:R ^+ 5)^-1 + b; last by move=> h'; have := lt_le_trans h3 h'; rewrite ltxx.
  have -> : y - 1 = (x - 1) - (x - y) by xring C.
  by apply: le_trans (ler_norm_sub _ _) _; exact: ler_add.
have e1 : err u (t n) <= 1 by rewrite /err ler_subl_addr.
rewrite /= /cast_vector_f (far _ _ _ (two_norm v e1) hs).
have [h _] := abs1P (vec v); rewrite size_vec big_map big_enum /= in h.
by rewrite (far _ _ _ h hl).
Qed.

(* C101: rows and columns are treated as 1-D vectors *)
Theorem C101_columns n (v : 'I_n -> C) : (0 < n)%N ->
  let cast := cast_to_density_matrix_f fmul fsqrt fsq2 fabs1 ftr eig in
  cast (V2 (ofM (\col_i v i))) = cast (V1 (vec v)) /\ cast (V2 (ofM (\row_i v i))) = cast (V1 (vec v)).
Proof.
move=> n0; rewrite /= (minn_idPr n0) (minn_idPl n0) eqxx; split; congr cast_vector_f.
  apply: (@eq_from_nth _ 0); rewrite size_map size_iota muln1 ?size_vec // => i hi.
  rewrite (nth_map 0%N) ?size_iota ?muln1 // nth_iota ?muln1 // add0n divn1 modn1.
  by rewrite -[i]/(val (Ordinal hi)) nth_vec -[0%N]/(val (ord0 : 'I_1)) get_ofM mxE.
apply: (@eq_from_nth _ 0); rewrite size_map size_iota mul1n ?size_vec // => i hi.
rewrite (nth_map 0%N) ?size_iota ?mul1n // nth_iota ?mul1n // add0n divn_small // modn_small //.
by rewrite -[i]/(val (Ordinal hi)) nth_vec -[0%N]/(val (ord0 : 'I_1)) get_ofM mxE.
Qed.
End Float.
