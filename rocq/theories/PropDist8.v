(* PropDist8.v -- property C82: cov_distribution lists the eigenvalues of the squared covariance matrix, and what
   follows for it and for FAF: independence of the Schur form, invariance under free-fermion rotations, values on
   states with independent modes. *)
Set Warnings "-notation-overridden,-ambiguous-paths".
From Coq Require Import Reals.
From mathcomp Require Import all_ssreflect all_algebra.
From mathcomp Require Import complex.
From mathcomp.zify Require Import zify.
From Verif Require Import Base ArrC MCombinatorics MLib JW OpFam FermAlg LibFacts LibFacts3 MUtils Spectral RealC Info MDist PropLib1 PropUtils1 PropUtils2 PropDist1 PropDist2 Skew PropDist4 PropDist5.
Set Implicit Arguments.
Unset Strict Implicit.
Unset Printing Implicit Defensive.
Import Order.Theory GRing.Theory Num.Theory.
Local Open Scope ring_scope.

Local Notation arr := (arr CR).
Local Notation input := (input CR).

Section Alg.
Variable C : numClosedFieldType.
Add Ring C_ring8 : (ring_of C).
Lemma alg4 (ui vi uj vj d x y : C) : ui * (vj * (d * x)) + vi * (uj * (d * y)) = d * (vi * uj * y + ui * vj * x).
Proof. xring C. Qed.
Lemma alg5 (I ui vi uj vj x : C) : - I * (1 * (vi * uj * (1 - x) + ui * vj * x) - 1 * (vj * ui * (1 - x) + uj * vi * x)) =
  - I * ((vi * uj - vj * ui) * (1 * (1 - 2%:R * x))).
Proof. by rewrite -[2%:R]/(1 + 1 : C); xring C. Qed.
End Alg.

(* s lists the eigenvalues of A with their algebraic multiplicities *)
Definition eigenvalues (F : fieldType) m (A : 'M[F]_m) (s : seq F) := char_poly A = \prod_(z <- s) ('X - z%:P).

Lemma prod_perm (F : fieldType) (s t : seq F) :
  \prod_(z <- s) ('X - z%:P) = \prod_(z <- t) ('X - z%:P) -> perm_eq s t.
Proof.
elim: s t => [|x s IH] t e.
  case: t e => // y t e; have := root_prod_XsubC (y :: t) y; by rewrite -e big_nil mem_head rootC oner_eq0.
have xt : x \in t by rewrite -root_prod_XsubC -e root_prod_XsubC mem_head.
have nz : 'X - x%:P != 0 by rewrite polyXsubC_eq0.
rewrite (perm_big _ (perm_to_rem xt)) !big_cons in e; have /IH h := mulfI nz e.
by rewrite perm_sym (perm_trans (perm_to_rem xt)) // perm_cons perm_sym.
Qed.

Lemma perm_half (F : eqType) (s t : seq F) : (forall v, (2 * count_mem v s = 2 * count_mem v t)%N) -> perm_eq s t.
Proof. by move=> h; apply/allP => v _ /=; apply/eqP; have := h v; lia. Qed.

Lemma char_poly_conj (F : fieldType) m (Z A : 'M[F]_m) : Z *m Z^T = 1%:M -> char_poly (Z *m A *m Z^T) = char_poly A.
Proof.
move=> oZ; pose P := map_mx polyC Z; have oP : P *m P^T = 1%:M by rewrite /P map_trmx -map_mxM oZ map_mx1.
rewrite /char_poly /char_poly_mx.
have -> : 'X%:M - map_mx polyC (Z *m A *m Z^T) = P *m ('X%:M - map_mx polyC A) *m P^T.
  by rewrite mulmxBr mulmxBl !map_mxM -map_trmx mul_mx_scalar -scalemxAl oP scalemx1.
by rewrite !det_mulmx mulrAC -det_mulmx oP det1 mul1r.
Qed.

Lemma char_poly_diagR (F : fieldType) m (d : 'rV[F]_m) : char_poly (diag_mx d) = \prod_(z <- [seq d 0 i | i <- enum 'I_m]) ('X - z%:P).
Proof.
rewrite char_poly_trig; last by apply/is_trig_mxP => i j ij; rewrite mxE -val_eqE /= ltn_eqF.
rewrite big_map enumT; apply: eq_bigr => i _; by rewrite mxE eqxx.
Qed.

Section Count.
Variables (m : nat) (T : 'M[R]_m).
Hypotheses (aT : T^T = - T) (qT : quasi_tri T).

(* every nonzero eigenvalue of T^T T occurs twice for each superdiagonal entry of that square *)
Lemma count_TT (v : R) : v != 0 -> exists2 s, eigenvalues (T^T *m T) s &
  count_mem v s = (2 * count (fun i => tf T i ^+ 2 == v) (iota 0 m))%N.
Proof.
move=> v0; exists [seq tf T i ^+ 2 + (if i is a.+1 then tf T a else 0) ^+ 2 | i <- iota 0 m].
  rewrite /eigenvalues TTE // char_poly_diagR -val_enum_ord -map_comp !big_map; apply: eq_bigr => i _.
  by rewrite /= mxE.
have e i : (tf T i ^+ 2 + (if i is a.+1 then tf T a else 0) ^+ 2 == v) =
    ((tf T i ^+ 2 == v) + ((if i is a.+1 then tf T a else 0) ^+ 2 == v))%N :> nat.
  have z : (0 == v) = false by rewrite eq_sym (negPf v0).
  case: i => [|i]; first by rewrite expr0n addr0 z addn0.
  by case: (tf_adj aT qT i) => ->; rewrite expr0n /= ?addr0 ?add0r z ?addn0.
have cn (P : pred nat) t : count P t = (\sum_(i <- t) (P i : nat))%N.
  by rewrite -sum1_count big_mkcond; apply: eq_bigr => i _; case: (P i).
rewrite count_map !cn /= (eq_bigr _ (fun i _ => e i)) big_split /= mul2n -addnn; congr (_ + _)%N.
have z : (0 ^+ 2 == v) = false by rewrite expr0n eq_sym (negPf v0).
have := @tf_out m T; move: (tf T) => F; case: (m) => [|m'] to; first by rewrite !big_nil.
rewrite -[in RHS]addn1 iotaD [in RHS]big_cat big_seq1 add0n /= to // z addn0 big_cons z add0n.
by rewrite (iotaDl 1 0) big_map.
Qed.
End Count.

Section S.
Variable schur : arr -> arr.
Hypothesis schurP : schur_spec schur.
Let th : R := (10%:R ^+ 10)^-1.

Lemma th_sq (t : R) : (th < `|t|) = (th ^+ 2 < t ^+ 2).
Proof. by rewrite -[t ^+ 2]real_normK ?num_real // ltr_pexpn2r ?nnegrE ?(ltW (th_gt0)). Qed.

(* what cov_distribution returns: every eigenvalue of M^T M above 1e-20, listed half as often as its multiplicity *)
Theorem C82_spectrum n (x : input) (rho : 'M[CR]_(2 ^ n)) : cast_to_density_matrix x = Ok (ofM rho) -> density rho ->
  (exists s, eigenvalues ((covM rho)^T *m covM rho) s) /\
  exists2 l : seq R, cov_distribution schur x = Ok [seq toC z | z <- l] &
  forall s, eigenvalues ((covM rho)^T *m covM rho) s ->
  forall v : R, (2 * count_mem v l)%N = if (10%:R ^+ 20)^-1 < v then count_mem v s else 0%N.
Proof.
move=> ex d; have [Z [T [oZ eM aT [qT t1] es]]] := schur_state schurP d.
have eT : char_poly ((covM rho)^T *m covM rho) = char_poly (T^T *m T).
  rewrite eM !trmx_mul trmxK -!mulmxA (mulmxA Z^T) (mulmx1C oZ) mul1mx !mulmxA -[Z *m T^T *m T]mulmxA.
  by rewrite char_poly_conj.
split; first by have [s hs _] := count_TT aT qT (oner_neq0 _); exists s; rewrite /eigenvalues eT.
exists [seq tf T i ^+ 2 | i <- iota 0 (2 * n) & th < `|tf T i|].
  rewrite (covdistE _ ex d) es list_E ?(ltW th_gt0) // -!map_comp; congr Ok.
  by apply: eq_map => i /=; rewrite rmorphX.
move=> s hs v; rewrite count_map count_filter.
have -> : (10%:R ^+ 20)^-1 = th ^+ 2 :> R by rewrite /th exprVn -exprM.
rewrite (@eq_count _ _ (fun i => (th ^+ 2 < v) && (tf T i ^+ 2 == v))) => [|i]; last first.
  by rewrite /= th_sq andbC; case: eqP => [->|]; rewrite ?andbT ?andbF.
case: ifP => [hv|hv] /=; last by rewrite (@eq_count _ _ pred0) ?count_pred0.
have v0 : v != 0 by rewrite gt_eqF // (le_lt_trans _ hv) // sqr_ge0.
have [s' e' <-] := count_TT aT qT v0; apply/permP/prod_perm.
by rewrite -hs -e' eT.
Qed.

Lemma FAF_sum n (x : input) (rho : 'M[CR]_(2 ^ n)) (l : seq R) k : cast_to_density_matrix x = Ok (ofM rho) -> density rho ->
  (0 < k)%N -> all (fun z => 0 <= z) l -> cov_distribution schur x = Ok [seq toC z | z <- l] ->
  FAF schur x k = Ok (n%:R - \sum_(z <- l) z ^+ k).
Proof.
move=> ex d k0 l0 el.
rewrite /FAF ex {1}/bind (_ : nr (ofM rho) = (2 ^ n)%N) // trunc_expnK //.
have -> : cov_distribution schur (V2 (ofM rho)) = cov_distribution schur x.
  by rewrite /cov_distribution ex (C25_density d).
rewrite el /bind knorm_powE // big_map; congr (Ok (_ - _)).
elim: l l0 {el} => [|z l IH]; first by rewrite !big_nil.
by case/andP=> z0 /IH e; rewrite !big_cons e toC_norm reK ger0_norm.
Qed.

Lemma dist_ge0 n (x : input) (rho : 'M[CR]_(2 ^ n)) (l : seq R) : cast_to_density_matrix x = Ok (ofM rho) -> density rho ->
  cov_distribution schur x = Ok [seq toC z | z <- l] -> all (fun z => 0 <= z) l.
Proof.
move=> ex d el; have [l' el' [_ h]] := C36_distribution schurP ex d.
have -> : l = l'.
  apply: (@inj_map _ _ toC); first exact: toC_inj.
  by rewrite el in el'; case: el'.
by apply: sub_all h => z /andP[/ltW].
Qed.
End S.

(* the distribution (as a multiset) and FAF depend on the state only through the characteristic polynomial of M^T M,
   whichever Schur form scipy returns *)
Theorem C82_determined schur1 schur2 n (x1 x2 : input) (r1 r2 : 'M[CR]_(2 ^ n)) : schur_spec schur1 -> schur_spec schur2 ->
  cast_to_density_matrix x1 = Ok (ofM r1) -> density r1 -> cast_to_density_matrix x2 = Ok (ofM r2) -> density r2 ->
  char_poly ((covM r1)^T *m covM r1) = char_poly ((covM r2)^T *m covM r2) ->
  (exists l1 l2, [/\ cov_distribution schur1 x1 = Ok l1, cov_distribution schur2 x2 = Ok l2 & perm_eq l1 l2]) /\
  (forall k, (0 < k)%N -> FAF schur1 x1 k = FAF schur2 x2 k).
Proof.
move=> s1 s2 e1 d1 e2 d2 ec.
have [[s hs] [l1 h1 c1]] := C82_spectrum s1 e1 d1; have [_ [l2 h2 c2]] := C82_spectrum s2 e2 d2.
have pl : perm_eq l1 l2.
  have hs2 : eigenvalues ((covM r2)^T *m covM r2) s := etrans (esym ec) hs.
  by apply: perm_half => v; exact: etrans (c1 _ hs v) (esym (c2 _ hs2 v)).
split.
  exists [seq toC z | z <- l1], [seq toC z | z <- l2]; exact: (And3 h1 h2 (perm_map _ pl)).
move=> k k0; apply: etrans (FAF_sum e1 d1 k0 (dist_ge0 s1 e1 d1 h1) h1) _.
by apply: etrans _ (esym (FAF_sum e2 d2 k0 (dist_ge0 s2 e2 d2 h2) h2)); rewrite (perm_big _ pl).
Qed.

Theorem C82_schur_form schur1 schur2 n (x : input) (rho : 'M[CR]_(2 ^ n)) k : schur_spec schur1 -> schur_spec schur2 ->
  cast_to_density_matrix x = Ok (ofM rho) -> density rho -> (0 < k)%N -> FAF schur1 x k = FAF schur2 x k.
Proof. by move=> s1 s2 ex d k0; have [_ ->] := C82_determined s1 s2 ex d ex d erefl. Qed.


(* free-fermion rotations change neither *)
Theorem C82_rotation schur n (x x' : input) (W rho : 'M[CR]_(2 ^ n)) O : schur_spec schur -> unitary W -> implements W O ->
  density rho -> cast_to_density_matrix x = Ok (ofM rho) -> cast_to_density_matrix x' = Ok (ofM (W *m rho *m adjm W)) ->
  (exists l l', [/\ cov_distribution schur x = Ok l, cov_distribution schur x' = Ok l' & perm_eq l l']) /\
  (forall k, (0 < k)%N -> FAF schur x k = FAF schur x' k).
Proof.
move=> sP uW hO d ex ex'.
have W2 : adjm W *m W = 1%:M := mulmx1C uW.
have d' : density (W *m rho *m adjm W).
  have [p t] := d; split; last by rewrite mxtrace_mulC mulmxA W2 mul1mx.
  by have := psd_congr (adjm W) p; rewrite adjmK.
apply: (C82_determined sP sP ex d ex' d'); rewrite (cov_rot uW hO); last by have [[]] := d.
have OO := implements_orth uW hO.
rewrite !trmx_mul trmxK -!mulmxA (mulmxA O^T) (mulmx1C OO) mul1mx !mulmxA -(mulmxA O) char_poly_conj //.
Qed.

(* ------------------------------------------------------------------ *)
(* states whose modes are uncorrelated with each other                 *)
(* ------------------------------------------------------------------ *)
Section Occ.
Variables (n : nat) (rho : 'M[CR]_(2 ^ n)) (f : nat -> R).
Hypotheses (h : hermitian rho) (t1 : \tr rho = 1).
Local Notation a := (am CR n).
Hypothesis paa : forall i j, (i < n)%N -> (j < n)%N -> \tr (rho *m (a i *m a j)) = 0.
Hypothesis pda : forall i j, (i < n)%N -> (j < n)%N -> \tr (rho *m (adjm (a i) *m a j)) = (i == j)%:R * toC (f i).

Lemma occ_ad i j : (i < n)%N -> (j < n)%N -> \tr (rho *m (a i *m adjm (a j))) = (i == j)%:R * toC (1 - f i).
Proof.
move=> hi hj; have /(canRL (addrK _)) -> := am_anti_adj CR hi hj.
rewrite mulmxBr raddfB /= pda // mul_mx_scalar mxtraceZ t1 mulr1 rmorphB rmorph1 mulrBr mulr1 eq_sym.
by case: eqP => [->//|_]; rewrite !mul0r.
Qed.
Lemma occ_dd i j : (i < n)%N -> (j < n)%N -> \tr (rho *m (adjm (a i) *m adjm (a j))) = 0.
Proof.
move=> hi hj; apply: (inv_inj (@conjCK CR)); rewrite -trace_adjm !adjmM !adjmK h mxtrace_mulC.
by rewrite paa // conjC0.
Qed.

Let u i : CR := (sqrt2 CR)^-1 * (if (i < n)%N then 1 else 'i).
Let v i : CR := (sqrt2 CR)^-1 * (if (i < n)%N then 1 else - 'i).

Lemma occ_gam i j : (i < 2 * n)%N -> (j < 2 * n)%N ->
  \tr (rho *m gam CR n i *m gam CR n j) = (i %% n == j %% n)%N%:R *
    (v i * u j * toC (1 - f (i %% n)%N) + u i * v j * toC (f (i %% n)%N)).
Proof.
move=> hi hj; have n0 : (0 < n)%N by lia.
have hi' : (i %% n < n)%N by rewrite ltn_mod. have hj' : (j %% n < n)%N by rewrite ltn_mod.
rewrite (gam_uv hi) (gam_uv hj) -/(u i) -/(u j) -/(v i) -/(v j) -mulmxA mulmxDl !mulmxDr -!scalemxAl -!scalemxAr !mxtraceD !mxtraceZ occ_dd // paa // pda // occ_ad //.
rewrite !mulr0 add0r addr0; exact: alg4.
Qed.

Lemma cov_occE i j : covM rho i j = if j == sw n i :> nat then (if (i < n)%N then 1 else -1) * (1 - 2%:R * f (i %% n)%N) else 0.
Proof.
have hi := ltn_ord i; have hj := ltn_ord j.
apply: toC_inj; rewrite mxE toC_re ?covC_real // mxE !occ_gam // [(j %% n == _)%N]eq_sym.
have -> : - 'i * ((i %% n == j %% n)%N%:R * (v i * u j * toC (1 - f (i %% n)%N) + u i * v j * toC (f (i %% n)%N)) -
      (i %% n == j %% n)%N%:R * (v j * u i * toC (1 - f (j %% n)%N) + u j * v i * toC (f (j %% n)%N))) =
    - 'i * ((v i * u j - v j * u i) * ((i %% n == j %% n)%N%:R * toC (1 - 2%:R * f (i %% n)%N))).
  case: eqP => [<-|_]; last by rewrite !mul0r subrr !mulr0.
  rewrite !rmorphB !rmorph1 rmorphM /= toC_nat; exact: alg5.
rewrite !modn_half //; move: (toC_nat) => _.
have nu := nu2D CR; rewrite /u /v /sw; set s := (sqrt2 CR)^-1 in nu *.
have ii : 'i * 'i = -1 :> CR by rewrite -expr2 sqrCi.
case: (ltnP i n) => hin; case: (ltnP j n) => hjn.
- by rewrite ifF ?subrr ?mul0r ?mulr0 ?raddf0 //; lia.
- rewrite alg1 // (_ : (_ == _ :> nat) = (j == (i + n)%N :> nat)); last by lia.
  by case: eqP => _; rewrite ?mul1r ?mul0r ?rmorph0.
- rewrite alg2 // (_ : (_ == _ :> nat) = (j == (i - n)%N :> nat)); last by lia.
  by case: eqP => _; rewrite ?mul1r ?mul0r ?mulN1r ?rmorphN ?rmorph0 ?oppr0.
rewrite ifF; last by lia.
by rewrite alg3 raddf0.
Qed.

Lemma cov_occ : (covM rho)^T *m covM rho = diag_mx (\row_(i < 2 * n) (1 - 2%:R * f (i %% n)%N) ^+ 2).
Proof.
apply/matrixP => i j; rewrite !mxE.
have hs := sw_lt (ltn_ord i); rewrite (bigD1 (Ordinal hs)) //= big1 ?addr0 => [|k nk].
  rewrite mxE !cov_occE /= !swK // eqxx eq_sym -val_eqE /=.
  have -> : (sw n i %% n = i %% n)%N by rewrite !modn_half // /sw; have := ltn_ord i; case: ifP; case: ifP; lia.
  case: eqP => _ ; last by rewrite mulr0.
  by rewrite mulr1n expr2; case: ifP; rewrite ?mulN1r ?mulrNN ?mul1r.
by rewrite mxE cov_occE (_ : _ == _ = false) ?mul0r //; apply/negP => /eqP e; case/eqP: nk; apply/val_inj; rewrite /= e swK.
Qed.
End Occ.

(* the sites of the state, or of a free-fermion rotation of it, are uncorrelated with occupations f_0 .. f_(n-1):
   the distribution is (1 - 2 f_j)^2 and FAF is n - sum_j (1 - 2 f_j)^(2k), without the terms below the threshold *)
Theorem C82_modes schur n (x : input) (W rho : 'M[CR]_(2 ^ n)) O (f : nat -> R) : schur_spec schur ->
  unitary W -> implements W O -> density rho -> cast_to_density_matrix x = Ok (ofM (W *m rho *m adjm W)) ->
  (forall i j, (i < n)%N -> (j < n)%N -> \tr (rho *m (am CR n i *m am CR n j)) = 0) ->
  (forall i j, (i < n)%N -> (j < n)%N -> \tr (rho *m (adjm (am CR n i) *m am CR n j)) = (i == j)%:R * toC (f i)) ->
  (exists2 l, cov_distribution schur x = Ok l &
     perm_eq l [seq toC ((1 - 2%:R * f j) ^+ 2) | j <- iota 0 n & (10%:R ^+ 10)^-1 < `|1 - 2%:R * f j|]) /\
  (forall k, (0 < k)%N -> FAF schur x k =
     Ok (n%:R - \sum_(j < n | (10%:R ^+ 10)^-1 < `|1 - 2%:R * f j|) (1 - 2%:R * f j) ^+ (2 * k))).
Proof.
move=> sP uW hO d ex paa pda; pose t j := 1 - 2%:R * f j.
have [h t1] : hermitian rho /\ \tr rho = 1 by have [[? _] ?] := d.
have W2 : adjm W *m W = 1%:M := mulmx1C uW.
have d' : density (W *m rho *m adjm W).
  have [p _] := d; split; last by rewrite mxtrace_mulC mulmxA W2 mul1mx.
  by have := psd_congr (adjm W) p; rewrite adjmK.
pose s := [seq t (i %% n)%N ^+ 2 | i <- iota 0 (2 * n)].
have hs : eigenvalues ((covM (W *m rho *m adjm W))^T *m covM (W *m rho *m adjm W)) s.
  have OO := implements_orth uW hO.
  rewrite /eigenvalues (cov_rot uW hO h) !trmx_mul trmxK -!mulmxA (mulmxA O^T) (mulmx1C OO) mul1mx !mulmxA -(mulmxA O).
  rewrite char_poly_conj // (cov_occ h t1 paa pda) char_poly_diagR /s -val_enum_ord -map_comp !big_map.
  by apply: eq_bigr => i _; rewrite /= mxE.
have [_ [l el cl]] := C82_spectrum sP ex d'.
have pl : perm_eq l [seq t j ^+ 2 | j <- iota 0 n & (10%:R ^+ 10)^-1 < `|t j|].
  apply: perm_half => v; rewrite (cl _ hs) [in RHS]count_map count_filter.
  rewrite (@eq_count _ _ (fun i => ((10%:R ^+ 20)^-1 < v) && (t i ^+ 2 == v))) => [|i]; last first.
    have e20 : ((10%:R ^+ 10)^-1) ^+ 2 = (10%:R ^+ 20)^-1 :> R by rewrite exprVn -exprM.
    rewrite /= th_sq e20.
    by rewrite andbC; case: eqP => [->|]; rewrite ?andbT ?andbF.
  case: ifP => _ /=; last by rewrite (@eq_count _ _ pred0) ?count_pred0.
  rewrite count_map mul2n -addnn iotaD count_cat add0n -[in iota n n](addn0 n) iotaDl count_map addn0 mul2n -addnn.
  by congr (_ + _)%N; apply: eq_in_count => i; rewrite mem_iota /= add0n => hi; rewrite ?modnDl modn_small.
split.
  exists [seq toC z | z <- l] => //; apply: perm_trans (perm_map toC pl) _; by rewrite -map_comp.
move=> k k0; apply: etrans (FAF_sum ex d' k0 (dist_ge0 sP ex d' el) el) _; congr (Ok (_ - _)).
rewrite (perm_big _ pl) big_map big_filter -(big_mkord (fun j => _ < `|t j|) (fun j => t j ^+ (2 * k))) /index_iota subn0.
by apply: eq_bigr => i _; rewrite exprM.
Qed.

(* FAF does not decrease with its order *)
Theorem C82_monotone schur n (x : input) (rho : 'M[CR]_(2 ^ n)) k k' : schur_spec schur ->
  cast_to_density_matrix x = Ok (ofM rho) -> density rho -> (0 < k <= k')%N ->
  exists f f', [/\ FAF schur x k = Ok f, FAF schur x k' = Ok f' & f <= f'].
Proof.
move=> sP ex d /andP[k0 kk]; have [l el [_ h]] := C36_distribution sP ex d.
have l0 := dist_ge0 sP ex d el; have k0' : (0 < k')%N by exact: leq_trans k0 kk.
exists (n%:R - \sum_(z <- l) z ^+ k), (n%:R - \sum_(z <- l) z ^+ k').
apply: And3 (FAF_sum ex d k0 l0 el) (FAF_sum ex d k0' l0 el) _.
rewrite ler_add2l ler_opp2 big_seq [X in _ <= X]big_seq; apply: ler_sum => z zl.
have /andP[z0 z1] := allP h _ zl; exact: (ler_wiexpn2l (ltW z0) z1 kk).
Qed.
