(* PropUtils2.v -- cast_to_density_matrix (C25), cast_to_pdf (C26) *)
Set Warnings "-notation-overridden,-ambiguous-paths".
From mathcomp Require Import all_ssreflect all_algebra.
From mathcomp.zify Require Import zify.
From Verif Require Import Base ArrC MCombinatorics MUtils Spectral PropUtils1.
Set Implicit Arguments.
Unset Strict Implicit.
Unset Printing Implicit Defensive.
Import Order.Theory GRing.Theory Num.Theory.
Local Open Scope ring_scope.

Section PropUtils2.
Variable C : numClosedFieldType.
Local Notation arr := (arr C).

Add Ring cringU2 : (ring_of C).

Local Notation e12 := ((10%:R ^+ 12)^-1 : C).

(* the Hermitian matrix with the lower triangle of M *)
Definition herm_of n (M : 'M[C]_n) : 'M[C]_n :=
  \matrix_(i, j) if i == j then 'Re (M i i) else if (j < i)%N then M i j else (M j i)^*.

(* specification: a state up to numpy's tolerances (trace, Hermiticity) and eigenvalues >= -1e-12 *)
Definition near_state n (M : 'M[C]_n) :=
  [/\ `|1 - \tr M| <= (10%:R ^+ 8)^-1 + (10%:R ^+ 5)^-1 * `|\tr M|,
      forall i j, `|M i j - (M j i)^*| <= (10%:R ^+ 8)^-1 + (10%:R ^+ 5)^-1 * `|M j i| &
      forall v : 'cV[C]_n, - e12 * (adjm v *m v) 0 0 <= quad (herm_of M) v].

Lemma herm_of_herm n (M : 'M[C]_n) : hermitian (herm_of M).
Proof.
apply/matrixP => i j; rewrite !mxE eq_sym; case: eqP => [->|ne].
  by apply/CrealP; exact: Creal_Re.
case: (ltngtP i j) => h; rewrite ?conjCK //.
by case: ne; apply: val_inj.
Qed.

Lemma herm_of_id n (M : 'M[C]_n) : hermitian M -> herm_of M = M.
Proof.
move=> h; have e i j : (M j i)^* = M i j by rewrite -[in RHS]h !mxE.
apply/matrixP => i j; rewrite !mxE; case: eqP => [->|ne]; first by apply/Creal_ReP; apply/CrealP.
by case: ifP.
Qed.

Lemma lower_hermE n (M : 'M[C]_n) : toM n n (lower_herm (ofM M)) = herm_of M.
Proof. by apply/matrixP => i j; rewrite !mxE getE //= !get_ofM. Qed.

(* the eigenvalue test is a lower bound of the quadratic form *)
Lemma eig_bound n (A : 'M[C]_n) (c : C) : hermitian A -> c \is Num.real ->
  (all (fun x => - c <= x) (eigvals A) <-> forall v : 'cV[C]_n, - c * (adjm v *m v) 0 0 <= quad A v).
Proof.
move=> hA rc; have [U uU [d rd eA]] := spectral_herm hA.
have eS : A + c%:M = adjm U *m diag_mx (d + const_mx c) *m U.
  rewrite eA raddfD /= mulmxDr mulmxDl diag_const_mx mul_mx_scalar -scalemxAl (unitaryC uU).
  by rewrite scalemx1.
have p := eigvals_diag uU eA.
have q v : quad (A + c%:M) v = quad A v - - c * (adjm v *m v) 0 0.
  rewrite quadD; congr (_ + _); rewrite /quad mul_mx_scalar -scalemxAl mxE mulNr opprK //.
have hS : hermitian (A + c%:M) by rewrite /hermitian adjmD hA adjm_scalar (CrealP rc).
split=> [/allP h v|h].
  have /(psd_diag uU eS)[_ /(_ v)] : forall i, 0 <= (d + const_mx c) 0 i.
    move=> i; rewrite !mxE -ler_subl_addr sub0r; apply: h; rewrite (perm_mem p).
    by apply/mapP; exists i; rewrite ?mem_enum.
  by rewrite q subr_ge0.
apply/allP => x; rewrite (perm_mem p) => /mapP[i _ ->].
have /(psd_diag uU eS)/(_ i) : psd (A + c%:M) by split=> // v; rewrite q subr_ge0.
by rewrite !mxE -ler_subl_addr sub0r.
Qed.

Lemma psd_tol_real : psd_tol C \is Num.real.
Proof. by rewrite realV rpredX // realn. Qed.

Lemma validateP n (M : 'M[C]_n) :
  (near_state M -> validate_state (ofM M) = Ok (ofM M)) /\
  (~ near_state M -> validate_state (ofM M) = Raise AssertionError).
Proof.
rewrite /validate_state /= eqxx /= (@atraceE _ (ofM M) n) // toM_ofM lower_hermE.
have eb := eig_bound (herm_of_herm M) psd_tol_real.
case h1: (close 1 (\tr M)) => /=; last by split=> // -[]; rewrite -/(close 1 (\tr M)) => /idP; rewrite h1.
case h2: (allclose _ _) => /=; last first.
  split=> // -[_ h _]; move/negP: h2; case; apply/allcloseP => i j /= hi hj; rewrite getE //=.
  rewrite -[i]/(val (Ordinal hi)) -[j]/(val (Ordinal hj)) !get_ofM /close norm_conjC; exact: h.
case h3: (all _ _) => /=.
  split=> // -[]; split=> //; last exact/eb.
  move=> i j; have /allcloseP/(_ i j (ltn_ord i) (ltn_ord j)) := h2.
  by rewrite /close getE ?ltn_ord //= !get_ofM norm_conjC.
by split=> // -[_ _ /eb]; rewrite /psd_tol h3.
Qed.

Lemma minn1 n : (minn n n == 1%N) = (n == 1%N). Proof. by rewrite minnn. Qed.

(* a square matrix (other than 1x1) is returned unchanged iff it is a state up to the tolerances *)
Theorem C25_matrix n (M : 'M[C]_n) : n != 1%N ->
  (near_state M -> cast_to_density_matrix (V2 (ofM M)) = Ok (ofM M)) /\
  (~ near_state M -> cast_to_density_matrix (V2 (ofM M)) = Raise AssertionError).
Proof. by move=> n1; rewrite /= minn1 (negPf n1); exact: validateP. Qed.

Theorem C25_rectangular (A : arr) : nr A != nc A -> minn (nr A) (nc A) != 1%N ->
  cast_to_density_matrix (V2 A) = Raise ValueError.
Proof. by move=> h /negPf m; rewrite /= m /validate_state h. Qed.

(* vectors *)
Definition vec n (v : 'I_n -> C) : seq C := [seq v i | i <- enum 'I_n].
Definition outer n (v : 'I_n -> C) : 'M[C]_n := \matrix_(i, j) (v i * (v j)^*).

Lemma size_vec n (v : 'I_n -> C) : size (vec v) = n.
Proof. by rewrite size_map size_enum_ord. Qed.
Lemma nth_vec n (v : 'I_n -> C) (i : 'I_n) : nth 0 (vec v) i = v i.
Proof. by rewrite (nth_map i) ?size_enum_ord // nth_ord_enum. Qed.
Lemma vecP (s : seq C) : s = vec (fun i : 'I_(size s) => nth 0 s i).
Proof.
apply: (@eq_from_nth _ 0); rewrite ?size_vec // => i hi.
by rewrite -[i]/(val (Ordinal hi)) nth_vec.
Qed.

Lemma outer_arr n (v : 'I_n -> C) :
  amul_chk (col_of (vec v)) (aadj (col_of (vec v))) = Ok (ofM (outer v)).
Proof.
rewrite /amul_chk /=; congr Ok; apply: arrP; rewrite /= ?size_vec // => i j hi hj.
rewrite getE /= ?size_vec // big_ord1 !getE /= ?size_vec //.
by rewrite -[i]/(val (Ordinal hi)) -[j]/(val (Ordinal hj)) !nth_vec get_ofM mxE.
Qed.

Lemma diag_arr n (v : 'I_n -> C) : adiag (vec v) = ofM (diag_mx (\row_i v i)).
Proof.
apply: arrP; rewrite /= ?size_vec // => i j hi hj; rewrite getE ?size_vec //.
rewrite -[i]/(val (Ordinal hi)) -[j]/(val (Ordinal hj)) get_ofM nth_vec !mxE -val_eqE /=.
by case: (i == j); rewrite ?mulr1n ?mulr0n.
Qed.

Lemma outer_gram n (v : 'I_n -> C) : outer v = adjm (\row_i (v i)^*) *m (\row_i (v i)^* : 'rV[C]_n).
Proof. by apply/matrixP => i j; rewrite !mxE big_ord1 !mxE conjCK. Qed.
Lemma outer_psd n (v : 'I_n -> C) : psd (outer v).
Proof. by rewrite outer_gram; exact: psd_gram. Qed.
Lemma outer_trace n (v : 'I_n -> C) : \tr (outer v) = \sum_i `|v i| ^+ 2.
Proof. by apply: eq_bigr => i _; rewrite mxE normCK. Qed.

Lemma near_of_psd n (M : 'M[C]_n) : psd M -> `|1 - \tr M| <= (10%:R ^+ 8)^-1 + (10%:R ^+ 5)^-1 * `|\tr M| ->
  near_state M.
Proof.
move=> [h p] t; split=> // [i j|v].
  have -> : (M j i)^* = M i j by rewrite -[in RHS]h !mxE.
  by rewrite subrr normr0 addr_ge0 ?mulr_ge0 // invr_ge0 exprn_ge0 // ler0n.
rewrite herm_of_id // mulNr; apply: le_trans (p v); rewrite oppr_le0.
by rewrite mulr_ge0 ?norm2_ge0 // invr_ge0 exprn_ge0 // ler0n.
Qed.

Lemma tol1 : `|1 - 1| <= (10%:R ^+ 8)^-1 + (10%:R ^+ 5)^-1 * `|1| :> C.
Proof. by rewrite subrr normr0 addr_ge0 ?mulr_ge0 // invr_ge0 exprn_ge0 // ler0n. Qed.

Lemma near_density n (M : 'M[C]_n) : density M -> near_state M.
Proof. by move=> [p t]; apply: near_of_psd => //; rewrite t; exact: tol1. Qed.

Lemma l2_vec n (v : 'I_n -> C) : l2norm (vec v) = sqrtC (\sum_i `|v i| ^+ 2).
Proof. by rewrite /l2norm big_map big_enum. Qed.
Lemma l1_vec n (v : 'I_n -> C) : l1norm (vec v) = \sum_i `|v i|.
Proof. by rewrite /l1norm big_map big_enum. Qed.

(* the three kinds of vector input; `near x` is |x - 1| <= 1e-8 + 1e-5 *)
Definition near (x : C) : bool := `|x - 1| <= (10%:R ^+ 8)^-1 + (10%:R ^+ 5)^-1.
Lemma nearE x : close x 1 = near x.
Proof. by rewrite /close /near normr1 mulr1. Qed.

Theorem C25_vector n (v : 'I_n -> C) :
  let l2 := sqrtC (\sum_i `|v i| ^+ 2) in let l1 := \sum_i `|v i| in
  cast_to_density_matrix (V1 (vec v)) =
  if near l2 then
    if `|1 - l2 ^+ 2| <= (10%:R ^+ 8)^-1 + (10%:R ^+ 5)^-1 * `|l2 ^+ 2| then Ok (ofM (outer v))
    else Raise AssertionError
  else if near l1 then validate_state (ofM (diag_mx (\row_i v i)))
  else Raise ValueError.
Proof.
rewrite /= /cast_vector !nearE l2_vec l1_vec; case: ifP => // _; last by rewrite diag_arr.
rewrite outer_arr /= sqrtCK -outer_trace; have [h1 h2] := validateP (outer v).
case: ifP => t; first by apply: h1; apply: near_of_psd => //; exact: outer_psd.
by apply: h2 => -[]; rewrite t.
Qed.

(* a normalised wavefunction becomes |psi><psi| *)
Theorem C25_wavefunction n (v : 'I_n -> C) : \sum_i `|v i| ^+ 2 = 1 ->
  cast_to_density_matrix (V1 (vec v)) = Ok (ofM (outer v)) /\ density (outer v).
Proof.
move=> h; split; last by split; [exact: outer_psd|rewrite outer_trace].
rewrite C25_vector h sqrtC1 /near subrr normr0 ifT; last first.
  by rewrite addr_ge0 // invr_ge0 exprn_ge0 // ler0n.
by rewrite expr1n ifT // tol1.
Qed.

(* a probability vector of 2-norm away from 1 becomes a diagonal matrix *)
Theorem C25_probability n (p : 'I_n -> C) : (forall i, 0 <= p i) -> \sum_i p i = 1 ->
  ~~ near (sqrtC (\sum_i (p i) ^+ 2)) ->
  cast_to_density_matrix (V1 (vec p)) = Ok (ofM (diag_mx (\row_i p i))) /\ density (diag_mx (\row_i p i)).
Proof.
move=> p0 p1 nn.
have d : density (diag_mx (\row_i p i)).
  split; last by rewrite mxtrace_diag -[RHS]p1; apply: eq_bigr => i _; rewrite mxE.
  apply/(@psd_diag _ _ _ 1%:M (\row_i p i)); rewrite /unitary ?adjm1 ?mulmx1 ?mul1mx // => i.
  by rewrite mxE.
split=> //; rewrite C25_vector ifF; last first.
  rewrite -(negPf nn); congr (near (sqrtC _)); apply: eq_bigr => i _; by rewrite ger0_norm.
rewrite ifT; last first.
  rewrite /near (_ : \sum_i `|p i| = 1) ?subrr ?normr0 ?addr_ge0 ?invr_ge0 ?exprn_ge0 ?ler0n //.
  by rewrite -[RHS]p1; apply: eq_bigr => i _; rewrite ger0_norm.
by have [h _] := validateP (diag_mx (\row_i p i)); apply: h; exact: near_density.
Qed.

(* unnormalised vectors raise ValueError *)
Theorem C25_unnormalised n (v : 'I_n -> C) : ~~ near (sqrtC (\sum_i `|v i| ^+ 2)) -> ~~ near (\sum_i `|v i|) ->
  cast_to_density_matrix (V1 (vec v)) = Raise ValueError.
Proof. by move=> /negPf h2 /negPf h1; rewrite C25_vector h2 h1. Qed.

(* rows and columns are treated as 1-D vectors *)
Theorem C25_columns n (v : 'I_n -> C) : (0 < n)%N ->
  cast_to_density_matrix (V2 (ofM (\col_i v i))) = cast_to_density_matrix (V1 (vec v)) /\
  cast_to_density_matrix (V2 (ofM (\row_i v i))) = cast_to_density_matrix (V1 (vec v)).
Proof.
move=> n0; rewrite /= (minn_idPr n0) (minn_idPl n0) eqxx; split; congr cast_vector.
  apply: (@eq_from_nth _ 0); rewrite size_map size_iota muln1 ?size_vec // => i hi.
  rewrite (nth_map 0%N) ?size_iota ?muln1 // nth_iota ?muln1 // add0n divn1 modn1.
  by rewrite -[i]/(val (Ordinal hi)) nth_vec -[0%N]/(val (ord0 : 'I_1)) get_ofM mxE.
apply: (@eq_from_nth _ 0); rewrite size_map size_iota mul1n ?size_vec // => i hi.
rewrite (nth_map 0%N) ?size_iota ?mul1n // nth_iota ?mul1n // add0n divn_small // modn_small //.
by rewrite -[i]/(val (Ordinal hi)) nth_vec -[0%N]/(val (ord0 : 'I_1)) get_ofM mxE.
Qed.

Lemma arr_sq (A : arr) : nr A = nc A -> exists n, exists M : 'M[C]_n, A = ofM M.
Proof. by case: A => m n M /= e; exists n; subst; exists M. Qed.

(* every returned value is a state up to the tolerances *)
Theorem C25_sound (x : input C) r : cast_to_density_matrix x = Ok r ->
  exists n, exists2 M : 'M[C]_n, r = ofM M & near_state M.
Proof.
have V (A : arr) : validate_state A = Ok r -> exists n, exists2 M : 'M[C]_n, r = ofM M & near_state M.
  move=> h; have e : nr A = nc A by move: h; rewrite /validate_state; case: eqP.
  have [n [M eM]] := arr_sq e; rewrite eM in h; have [h1 h2] := validateP M.
  have ns : near_state M.
    move: h h2; rewrite /validate_state /= eqxx /= (@atraceE _ (ofM M) n) // toM_ofM lower_hermE.
    have eb := eig_bound (herm_of_herm M) psd_tol_real.
    case g1: (close 1 (\tr M)) => //=; case g2: (allclose _ _) => //=; case g3: (all _ _) => //= _ _.
    split=> //; last exact/eb.
    move=> i j; have /allcloseP/(_ i j (ltn_ord i) (ltn_ord j)) := g2.
    by rewrite /close getE ?ltn_ord //= !get_ofM norm_conjC.
  by move: h; rewrite h1 // => -[<-]; exists n, M.
have W (v : seq C) : cast_vector v = Ok r -> exists n, exists2 M : 'M[C]_n, r = ofM M & near_state M.
  rewrite /cast_vector; case: ifP => _; last by case: ifP => // _; exact: V.
  by rewrite [v]vecP outer_arr; exact: V.
by case: x => [v|A] /=; [exact: W|case: ifP => _; [exact: W|exact: V]].
Qed.

(* an exact density matrix is returned unchanged, in every dimension *)
Theorem C25_density n (M : 'M[C]_n) : density M -> cast_to_density_matrix (V2 (ofM M)) = Ok (ofM M).
Proof.
move=> d; case: (eqVneq n 1%N) => [e|n1]; last by have [h _] := C25_matrix M n1; apply: h; exact: near_density.
subst n; have [_ t] := d; have m1 : M = 1%:M by rewrite [M]mx11_scalar -trace_mx11 t.
have -> : M = \col_i (fun _ : 'I_1 => 1) i by rewrite m1; apply/matrixP => i j; rewrite !ord1 !mxE.
have [-> _] := C25_columns (fun _ : 'I_1 => 1 : C) isT.
have [-> _] := @C25_wavefunction 1 (fun _ => 1) (etrans (big_ord1 _ _) (etrans (congr1 (fun x => x ^+ 2) (normr1 _)) (expr1n _ _))).
by congr (Ok (ofM _)); apply/matrixP => i j; rewrite !ord1 !mxE conjC1 mulr1.
Qed.

(* idempotent in dimension at least 2 *)
Theorem C25_idempotent (x : input C) r : cast_to_density_matrix x = Ok r -> nr r != 1%N ->
  cast_to_density_matrix (V2 r) = Ok r.
Proof.
move=> /C25_sound[n [M -> ns]] n1; have [h _] := C25_matrix M n1; exact: h.
Qed.

(* ---------- C26 ---------- *)

Lemma pdf_of n (M : 'M[C]_n) x : cast_to_density_matrix x = Ok (ofM M) -> (forall i, M i i \is Num.real) ->
  cast_to_pdf x = Ok (vec (fun i => M i i)).
Proof.
move=> e r; rewrite /cast_to_pdf e /=.
have -> : [seq get (ofM M) i i | i <- iota 0 n] = vec (fun i => M i i).
  apply: (@eq_from_nth _ 0); rewrite size_map size_iota ?size_vec // => i hi.
  by rewrite (nth_map 0%N) ?size_iota // nth_iota // add0n -[i]/(val (Ordinal hi)) nth_vec get_ofM.
rewrite ifT.
  congr Ok; rewrite /vec -map_comp; apply: eq_map => i /=; exact/Creal_ReP.
by apply/allP => y /mapP[i _ ->]; rewrite (Creal_ReP _ (r i)) close_refl.
Qed.

(* Born rule *)
Theorem C26_wavefunction n (v : 'I_n -> C) : \sum_i `|v i| ^+ 2 = 1 ->
  cast_to_pdf (V1 (vec v)) = Ok (vec (fun i => `|v i| ^+ 2)).
Proof.
move=> h; have [e _] := C25_wavefunction h; rewrite (pdf_of e) => [|i]; last first.
  by rewrite mxE -normCK rpredX // normr_real.
by congr Ok; apply: eq_map => i; rewrite mxE normCK.
Qed.

Theorem C26_density n (M : 'M[C]_n) : density M ->
  [/\ cast_to_pdf (V2 (ofM M)) = Ok (vec (fun i => M i i)), \sum_i M i i = 1 & forall i, 0 <= M i i].
Proof.
move=> d; have [p t] := d; split=> //; last by move=> i; exact: psd_diag_ge0.
by rewrite (pdf_of (C25_density d)) // => i; rewrite ger0_real // psd_diag_ge0.
Qed.

(* probability vectors: returned unchanged when the 2-norm is away from 1; squared when it is close to 1 *)
Theorem C26_probability n (p : 'I_n -> C) : (forall i, 0 <= p i) -> \sum_i p i = 1 ->
  let l2 := sqrtC (\sum_i (p i) ^+ 2) in
  cast_to_pdf (V1 (vec p)) =
  if near l2 then
    if `|1 - l2 ^+ 2| <= (10%:R ^+ 8)^-1 + (10%:R ^+ 5)^-1 * `|l2 ^+ 2| then Ok (vec (fun i => p i ^+ 2))
    else Raise AssertionError
  else Ok (vec p).
Proof.
move=> p0 p1 /=; case: ifP => nn; last first.
  have [e _] := C25_probability p0 p1 (negbT nn).
  rewrite (pdf_of e) => [|i]; last by rewrite !mxE eqxx mulr1n ger0_real.
  by congr Ok; apply: eq_map => i; rewrite !mxE eqxx mulr1n.
have sq : \sum_i `|p i| ^+ 2 = \sum_i p i ^+ 2 by apply: eq_bigr => i _; rewrite ger0_norm.
have := C25_vector p; cbv zeta; rewrite sq nn; case: ifP => _ e; last by rewrite /cast_to_pdf e.
rewrite (pdf_of e) => [|i]; last by rewrite mxE -normCK rpredX // normr_real.
by congr Ok; apply: eq_map => i; rewrite mxE -normCK ger0_norm.
Qed.

(* comparing rational constants *)
Lemma ratr_le (a b : rat) (x y : C) : ratr a = x -> ratr b = y -> a <= b -> x <= y.
Proof. by move=> <- <-; rewrite ler_rat. Qed.

Local Notation r5 := ((10%:R ^+ 5)^-1 : C).
Local Notation r8 := ((10%:R ^+ 8)^-1 : C).
Lemma r5_ge0 : 0 <= r5. Proof. by rewrite invr_ge0 exprn_ge0 // ler0n. Qed.
Lemma r8_ge0 : 0 <= r8. Proof. by rewrite invr_ge0 exprn_ge0 // ler0n. Qed.
Lemma r8E : r8 = r5 * (10%:R ^+ 3)^-1.
Proof. by rewrite -invfM -exprD. Qed.
Lemma r5_small : r5 <= 10%:R^-1.
Proof. by rewrite lef_pinv ?posrE ?exprn_gt0 ?ltr0n // -{1}[10%:R]expr1 ler_eexpn2l // ltr1n. Qed.
Lemma r3_small : (10%:R ^+ 3)^-1 <= 10%:R^-1 :> C.
Proof. by rewrite lef_pinv ?posrE ?exprn_gt0 ?ltr0n // -{1}[10%:R]expr1 ler_eexpn2l // ltr1n. Qed.

(* the result is real and sums to 1 within 2e-5, whatever the input *)
Theorem C26_normalised (x : input C) q : cast_to_pdf x = Ok q ->
  all (fun y => y \is Num.real) q /\ `|1 - \sum_(y <- q) y| <= 2%:R / 10%:R ^+ 5.
Proof.
rewrite /cast_to_pdf; case E: cast_to_density_matrix => [r|//] /=.
have [n [M -> [t _ _]]] := C25_sound E; case: ifP => // _ -[<-]; split.
  by apply/allP => y /mapP[z _ ->]; exact: Creal_Re.
have -> : \sum_(y <- [seq 'Re y | y <- [seq get (ofM M) i i | i <- iota 0 (nr (ofM M))]]) y = 'Re (\tr M).
  rewrite !big_map raddf_sum /=.
  transitivity (\sum_(0 <= i < n) 'Re (get (ofM M) i i)); first by rewrite /index_iota subn0.
  by rewrite big_mkord; apply: eq_bigr => i _; rewrite get_ofM.
have b : `|1 - 'Re (\tr M)| <= `|1 - \tr M|.
  have -> : 1 - 'Re (\tr M) = 'Re (1 - \tr M) by rewrite raddfB /= (Creal_ReP _ (real1 _)).
  exact: (leif_normC_Re_Creal _).1.
apply: le_trans b _; set z := `|1 - \tr M| in t *.
have h : `|\tr M| <= 1 + z.
  by have := ler_norm_sub 1 (1 - \tr M); rewrite opprB addrCA subrr addr0 normr1.
have r0 : (0 : C) <= (10%:R ^+ 5)^-1 by rewrite invr_ge0 exprn_ge0 // ler0n.
move: (le_trans t (ler_add (lexx _) (ler_wpmul2l r0 h))) => {}t.
have c0 : 0 < 1 - r5.
  by rewrite subr_gt0; apply: le_lt_trans r5_small _; rewrite invf_lt1 ?ltr1n // ltr0n.
rewrite -(ler_pmul2l c0) mulrBl mul1r ler_subl_addr; apply: le_trans t _.
rewrite mulrDr mulr1 addrA ler_add2r r8E -{2}[r5]mulr1 -mulrDr mulrA [_ * 2%:R]mulrC [X in _ <= X]mulrC.
rewrite ler_wpmul2l // mulrBr mulr1; apply: (@le_trans _ _ (2%:R - 2%:R * 10%:R^-1)).
  apply: (@le_trans _ _ (10%:R^-1 + 1)); first by rewrite ler_add2r r3_small.
  apply: (@ratr_le (10%:R^-1 + 1) (2%:R - 2%:R * 10%:R^-1)); last by [].
    by rewrite rmorphD fmorphV /= ratr_nat rmorph1.
  by rewrite rmorphB rmorphM fmorphV /= !ratr_nat.
by rewrite ler_add2l ler_opp2 ler_wpmul2l ?ler0n // r5_small.
Qed.

(* refuted: the two-outcome distribution (1 - 4e-6, 4e-6) is taken for a wavefunction and comes back squared *)
Definition eps : C := 2%:R / 5%:R / 10%:R ^+ 5.
Definition near_delta (i : 'I_2) : C := if val i == 0%N then 1 - eps else eps.

Theorem C26_near_delta_refuted :
  [/\ forall i, 0 <= near_delta i, \sum_i near_delta i = 1,
      cast_to_pdf (V1 (vec near_delta)) = Ok (vec (fun i => near_delta i ^+ 2)) &
      vec (fun i => near_delta i ^+ 2) <> vec near_delta].
Proof.
have e0 : 0 < eps by rewrite !divr_gt0 ?exprn_gt0 ?ltr0n.
have k1 : 2%:R / 5%:R <= 1 :> C by rewrite ler_pdivr_mulr ?ltr0n // mul1r ler_nat.
have er : eps <= r5 by rewrite /eps -[X in _ <= X]mul1r ler_wpmul2r // r5_ge0.
have e1 : eps <= 10%:R^-1 := le_trans er r5_small.
have t1 : 10%:R^-1 < 1 :> C by rewrite invf_lt1 ?ltr1n // ltr0n.
have el : eps < 1 := le_lt_trans e1 t1.
have nd0 i : 0 <= near_delta i by rewrite /near_delta; case: ifP => _; rewrite ?subr_ge0 ltW.
have nd1 : \sum_i near_delta i = 1 by rewrite !big_ord_recl big_ord0 /near_delta /= addr0 subrK.
have sE : \sum_i near_delta i ^+ 2 = (1 - eps) ^+ 2 + eps ^+ 2.
  by rewrite !big_ord_recl big_ord0 /near_delta /= addr0.
have sE2 : \sum_i near_delta i ^+ 2 = 1 - 2%:R * eps * (1 - eps).
  have -> : 2%:R = 1 + 1 :> C by rewrite -mulr2n.
  rewrite sE !expr2; xring C.
have p0 : 0 <= 2%:R * eps * (1 - eps) by rewrite mulr_ge0 ?subr_ge0 ?(ltW el) // mulr_ge0 ?ler0n // ltW.
have ge : 1 - eps <= sqrtC (\sum_i near_delta i ^+ 2).
  have u : 0 <= 1 - eps by rewrite subr_ge0 ltW.
  rewrite sE -{1}[1 - eps](rootCK (isT : (0 < 2)%N)) -rootCX // ler_rootC ?qualifE ?addr_ge0 ?exprn_ge0 ?(ltW e0) //.
  by rewrite ler_addl exprn_ge0 // ltW.
have S1 : \sum_i near_delta i ^+ 2 <= 1 by rewrite sE2 ler_subl_addr ler_addl.
have S0 : 0 <= \sum_i near_delta i ^+ 2 by apply: sumr_ge0 => i _; rewrite exprn_ge0.
have le : sqrtC (\sum_i near_delta i ^+ 2) <= 1.
  by rewrite -(sqrtC1 C) ler_sqrtC ?qualifE ?ler01.
have e2 : 2%:R * eps * (1 - eps) <= 2%:R * eps.
  have ee : 0 <= 2%:R * eps := mulr_ge0 (ler0n _ _) (ltW e0).
  by rewrite ler_pimulr // ler_subl_addr ler_addl ltW.
split=> //.
- rewrite C26_probability // ifT; last first.
    rewrite /near ler0_norm ?subr_le0 // opprB ler_subl_addr -ler_subl_addl; apply: le_trans ge.
    by rewrite ler_add2l ler_opp2; apply: le_trans er _; rewrite ler_addr r8_ge0.
  rewrite ifT // sqrtCK (ger0_norm S0) sE2 opprB addrCA subrr addr0 (ger0_norm p0) -sE2.
  apply: (le_trans e2).
  apply: (@le_trans _ _ (r5 * \sum_i near_delta i ^+ 2)); last by rewrite ler_addr r8_ge0.
  have -> : 2%:R * eps = r5 * (2%:R * (2%:R / 5%:R)) by rewrite /eps [LHS]mulrA [LHS]mulrC.
  rewrite ler_wpmul2l ?r5_ge0 // sE2 ler_subr_addr -ler_subr_addl; apply: (le_trans e2).
  apply: (@le_trans _ _ (2%:R * 10%:R^-1)); first by rewrite ler_wpmul2l // ler0n.
  apply: (@ratr_le (2%:R * 10%:R^-1) (1 - 2%:R * (2%:R / 5%:R))); last by [].
    by rewrite rmorphM fmorphV /= !ratr_nat.
  by rewrite rmorphB !rmorphM fmorphV /= !ratr_nat rmorph1.
- move/(congr1 (nth 0 ^~ (1 : 'I_2))); rewrite !nth_vec /near_delta /= expr2 => /eqP.
  by rewrite -subr_eq0 -{3}[eps]mulr1 -mulrBr mulf_eq0 gt_eqF // subr_eq0 lt_eqF.
Qed.

(* point distributions come back unchanged *)
Theorem C26_delta n (k : 'I_n) : cast_to_pdf (V1 (vec (fun i => (i == k)%:R : C))) = Ok (vec (fun i => (i == k)%:R)).
Proof.
rewrite C26_wavefunction.
  by congr Ok; apply: eq_map => i; rewrite normr_nat -natrX; case: (i == k).
rewrite (bigD1 k) //= eqxx normr1 expr1n big1 ?addr0 // => i /negPf ->.
by rewrite normr0 expr0n.
Qed.

(* refuted: in dimension 1 the cast is not idempotent *)
Lemma cast_one (x : C) : 0 <= x -> x <= 1 -> 1 - x <= r5 / 5%:R ->
  cast_to_density_matrix (V1 (vec (fun _ : 'I_1 => x))) = Ok (ofM (\col_(i < 1) x ^+ 2)).
Proof.
move=> x0 x1 hx; rewrite C25_vector !big_ord1 (ger0_norm x0).
have -> : sqrtC (x ^+ 2) = x by rewrite rootCX // (rootCK (isT : (0 < 2)%N)).
have k5 : 5%:R^-1 <= 1 :> C by rewrite invf_le1 ?ler1n // ltr0n.
rewrite ifT; last first.
  rewrite /near ler0_norm ?subr_le0 // opprB; apply: le_trans hx _.
  by rewrite -[r5 / _]add0r ler_add ?r8_ge0 // ler_pimulr // r5_ge0.
have x2 : x ^+ 2 <= 1 by rewrite exprn_ile1.
have h2 : 1 - x ^+ 2 <= r5 * (2%:R / 5%:R).
  have -> : 1 - x ^+ 2 = (1 - x) * (1 + x) by rewrite expr2; xring C.
  rewrite mulrCA; apply: (@le_trans _ _ ((1 - x) * 2%:R)).
    by rewrite ler_wpmul2l ?subr_ge0 // -[2%:R]/(1 + 1) ler_add2l.
  by rewrite [X in X <= _]mulrC ler_wpmul2l // ler0n.
rewrite ifT; last first.
  rewrite ger0_norm ?subr_ge0 // ger0_norm ?exprn_ge0 //; apply: (le_trans h2).
  rewrite -[X in X <= _]add0r ler_add ?r8_ge0 // ler_wpmul2l ?r5_ge0 //.

  have : 1 - x ^+ 2 <= 10%:R^-1 * (2%:R / 5%:R).
    by apply: (le_trans h2); rewrite ler_wpmul2r ?r5_small // divr_ge0 ?ler0n.
  rewrite ler_subl_addl -ler_subl_addr; apply: le_trans.
  apply: (@ratr_le (2%:R / 5%:R) (1 - 10%:R^-1 * (2%:R / 5%:R))); last by [].
    by rewrite rmorphM fmorphV /= !ratr_nat.
  by rewrite rmorphB !rmorphM !fmorphV /= !ratr_nat rmorph1.
congr (Ok (ofM _)); apply/matrixP => i j; rewrite !mxE (CrealP (ger0_real x0)) expr2 //.
Qed.

Theorem C25_idempotent_refuted : exists x : input C, exists r r' : arr,
  [/\ cast_to_density_matrix x = Ok r, cast_to_density_matrix (V2 r) = Ok r' & r <> r'].
Proof.
pose t : C := 1 - r5 / 10%:R.
have r0 : 0 < r5 by rewrite invr_gt0 exprn_gt0 // ltr0n.
have d0 : 0 < r5 / 10%:R by rewrite divr_gt0 // ltr0n.
have d1 : r5 / 10%:R <= 10%:R^-1.
  by rewrite ler_pimull ?invr_ge0 ?ler0n // (le_trans r5_small) // invf_le1 ?ler1n // ltr0n.
have t1 : t < 1 by rewrite ltr_subl_addr ltr_addl.
have t0 : 0 < t.
  by rewrite subr_gt0; apply: le_lt_trans d1 _; rewrite invf_lt1 ?ltr1n // ltr0n.
have t2 : 1 - t ^+ 2 <= r5 / 5%:R.
  have -> : 1 - t ^+ 2 = (1 - t) * (1 + t) by rewrite expr2; xring C.
  have -> : 1 - t = r5 / 10%:R by rewrite opprB addrCA subrr addr0.
  apply: (@le_trans _ _ (r5 / 10%:R * 2%:R)).
    by rewrite ler_wpmul2l ?(ltW d0) // -[2%:R]/(1 + 1) ler_add2l ltW.
  by rewrite -mulrA ler_wpmul2l ?(ltW r0) // -[10%N]/(2 * 5)%N natrM invfM mulrAC mulVf ?mul1r ?pnatr_eq0.
exists (V1 (vec (fun _ : 'I_1 => t))), (ofM (\col_(i < 1) t ^+ 2)), (ofM (\col_(i < 1) (t ^+ 2) ^+ 2)).
split.
- apply: cast_one; [exact: ltW|exact: ltW|rewrite opprB addrCA subrr addr0].
  by rewrite ler_wpmul2l ?(ltW r0) // lef_pinv ?posrE ?ltr0n // ler_nat.
- have [-> _] := C25_columns (fun _ : 'I_1 => t ^+ 2) isT.
  by rewrite cast_one ?exprn_ge0 ?exprn_ile1 // ltW.
- move/(congr1 (fun A : arr => get A (0 : 'I_1) (0 : 'I_1))); rewrite !get_ofM !mxE => e.
  have n0 : t ^+ 2 != 0 by rewrite expf_eq0 /= gt_eqF.
  have : t ^+ 2 = 1 by apply: (mulfI n0); rewrite mulr1 -expr2.
  by apply/eqP; rewrite lt_eqF // expr_lt1 // ltW.
Qed.

Example C25_example : cast_to_density_matrix (V2 (ofM (2%:R^-1%:M : 'M[C]_2))) = Ok (ofM (2%:R^-1%:M : 'M[C]_2)).
Proof.
apply: C25_density; split; last by rewrite mxtrace_scalar -mulr_natr mulVf // pnatr_eq0.
rewrite -scalemx1; apply: psdZ; first by rewrite invr_ge0 ler0n.
by rewrite -[1%:M]mulmx1 -{1}(adjm1 C 2); exact: psd_gram.
Qed.
Example C26_example : cast_to_pdf (V1 (vec (fun _ : 'I_4 => 2%:R^-1 : C))) = Ok (vec (fun _ : 'I_4 => 4%:R^-1)).
Proof.
rewrite C26_wavefunction ?normfV ?normr_nat ?exprVn -?natrX //.
by rewrite big_const card_ord iter_addr addr0 -mulr_natl mulfV // pnatr_eq0.
Qed.

End PropUtils2.
