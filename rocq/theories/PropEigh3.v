(* PropEigh3.v -- properties C52, C53: the contracts of PropEigh1.v are satisfiable over R[i], concrete cases, and the
   statements that fail without the side conditions of C52_diagonal and C53_eigm_sp_can_canonical *)
Set Warnings "-notation-overridden,-ambiguous-paths".
From Coq Require Import Reals Epsilon.
From mathcomp Require Import all_ssreflect all_fingroup all_algebra.
From mathcomp Require Import complex.
From mathcomp.zify Require Import zify.
From Verif Require Import Base ArrC MCombinatorics MLib JW OpFam FermAlg LibFacts LibFacts2 LibFacts3 PropLib2 PropLib3 Spectral MEigh EighFacts PropEigh1 PropEigh2 RealC Skew.
Set Implicit Arguments.
Unset Strict Implicit.
Unset Printing Implicit Defensive.
Import Order.Theory GRing.Theory Num.Theory.
Local Open Scope ring_scope.

(* ------------------------------ sorting the diagonal blocks ------------------------------ *)
Section SortBlocks.
Variables (C : numClosedFieldType) (m : nat) (T : 'M[C]_m).
Hypothesis qT : quasi_upper T.
Hypothesis aT : T^T = - T.

Definition sel (i : 'I_m) := [exists j : 'I_m, ((val j == i.+1) || (val i == j.+1)) && (eps10 C < `|T i j|)].
Lemma selP i : reflect (selected T i) (sel i).
Proof.
apply: (iffP existsP) => [[j /andP[/orP h1 h2]]|[j h1 h2]]; exists j => //.
  by case: h1 => /eqP ->; [left|right].
by rewrite h2 andbT; case: h1 => ->; rewrite eqxx ?orbT.
Qed.

Lemma tE i j : T i j = - T j i.
Proof. by have := congr1 (fun M : 'M_m => M j i) aT; rewrite !mxE. Qed.
Lemma t0 i : T i i = 0.
Proof.
have h2 : (2%:R : C) != 0 by rewrite pnatr_eq0.
by apply: (mulfI h2); rewrite mulr0 mulr_natl mulr2n {1}tE addNr.
Qed.
Lemma tfar (i j : 'I_m) : T i j != 0 -> val j = i.+1 \/ val i = j.+1.
Proof.
case: qT => q _ h; case: (ltngtP i j) => hij; last by case/eqP: h; rewrite (ord_inj hij) t0.
  left; apply/eqP; rewrite eqn_leq hij andbT leqNgt; apply/negP => h1.
  by case/eqP: h; rewrite tE q ?oppr0.
right; apply/eqP; rewrite eqn_leq hij andbT leqNgt; apply/negP => h1.
by case/eqP: h; rewrite q.
Qed.
Lemma tone (i j k : 'I_m) : T i j != 0 -> T i k != 0 -> j = k.
Proof.
move=> hj hk; case: qT => _ q.
have e : T j i != 0 by rewrite tE oppr_eq0.
have e' : T k i != 0 by rewrite tE oppr_eq0.
case: (tfar hj) (tfar hk) => [h1|h1] [h2|h2].
- by apply: val_inj; rewrite h1 h2.
- by case: (q k i j h2 h1) => /eqP z; [rewrite z in hk|rewrite z in e].
- by case: (q j i k h1 h2) => /eqP z; [rewrite z in hj|rewrite z in e'].
by apply: val_inj => /=; lia.
Qed.

Lemma sel_nb (i j : 'I_m) : T i j != 0 -> sel i = sel j.
Proof.
move=> h; have W (a b : 'I_m) : T a b != 0 -> sel a -> sel b.
  move=> hab /selP[c hc1 hc2].
  have nz : T a c != 0 by rewrite -normr_gt0; apply: lt_trans hc2; rewrite eps10_gt0.
  have ec := tone hab nz; rewrite -ec in hc1 hc2.
  by apply/selP; exists a; [case: hc1; [right|left]|rewrite tE normrN].
by apply/idP/idP; apply: W => //; rewrite tE oppr_eq0.
Qed.

(* number of indices below k with the given selection bit *)
Definition cnt (b : bool) (k : nat) := (\sum_(i < m | (i < k) && (sel i == b)) 1)%N.
Lemma cnt_S b (i : 'I_m) : cnt b i.+1 = (cnt b i + (sel i == b))%N.
Proof.
rewrite /cnt; case: (sel i =P b) => e /=.
  rewrite (bigD1 i) /=; last by rewrite ltnSn e eqxx.
  rewrite addnC; congr addn; apply: eq_bigl => j; rewrite ltnS [RHS]andbC -andbA; case: (sel j == b) => //=.
    by rewrite ltn_neqAle andbC -(inj_eq val_inj).
  by rewrite andbF.
rewrite addn0; apply: eq_bigl => j; rewrite ltnS leq_eqVlt.
by case: (j =P i :> nat) => //= /val_inj ->; case: eqP => // e'; rewrite ltnn.
Qed.
Lemma cnt_mono b k l : (k <= l)%N -> (cnt b k <= cnt b l)%N.
Proof.
move=> h; rewrite /cnt big_mkcond [leqRHS]big_mkcond; apply: leq_sum => i _.
case: (ltnP i k) => //= hi; by rewrite (leq_trans hi h).
Qed.
Lemma cnt_lt (i : 'I_m) l : (i < l)%N -> (cnt (sel i) i < cnt (sel i) l)%N.
Proof. by move=> h; have := cnt_mono (sel i) h; rewrite cnt_S eqxx addn1. Qed.
Lemma cnt_tot : (cnt true m + cnt false m = m)%N.
Proof.
rewrite /cnt -[RHS]card_ord -[RHS]sum1_card [RHS](bigID sel) /=; congr (_ + _)%N; apply: eq_bigl => i; rewrite ltn_ord //=.
by case: (sel i). by case: (sel i).
Qed.

Definition pos (i : 'I_m) : nat := if sel i then cnt true i else (cnt true m + cnt false i)%N.
Lemma pos_ltm i : (pos i < m)%N.
Proof.
have := cnt_lt (ltn_ord i); have t := cnt_tot; rewrite /pos; case: (sel i) => h; lia.
Qed.
Lemma pos_sel i : (pos i < cnt true m)%N = sel i.
Proof.
have := cnt_lt (ltn_ord i); rewrite /pos; case: (sel i) => // _; lia.
Qed.
Definition po i := Ordinal (pos_ltm i).
Lemma po_inj : injective po.
Proof.
move=> i j /(congr1 val) /= e.
have es : sel i = sel j by rewrite -!pos_sel e.
apply: val_inj; case: (ltngtP i j) => // h.
  by have := cnt_lt h; move: e; rewrite /pos -es; case: (sel i) => /=; lia.
by have := cnt_lt h; move: e; rewrite /pos es; case: (sel j) => /=; lia.
Qed.
Lemma po_next (i j : 'I_m) : val j = i.+1 -> sel i = sel j -> val (po j) = (val (po i)).+1.
Proof.
move=> e es; rewrite /= /pos -es e.
have := cnt_S (sel i) i; rewrite eqxx addn1.
by case: (sel i) => ->; rewrite ?addnS.
Qed.

Definition ps : 'S_m := perm po_inj.
Definition T' : 'M[C]_m := \matrix_(i, j) T ((ps^-1)%g i) ((ps^-1)%g j).
Lemma T'E i j : T' (po i) (po j) = T i j.
Proof. by rewrite mxE -!(permE po_inj) -/ps !permK. Qed.
Lemma po_surj a : exists i, a = po i.
Proof. by exists ((ps^-1)%g a); rewrite -(permE po_inj) -/ps permKV. Qed.

Lemma T'_adj i j : T' (po i) (po j) != 0 -> val (po j) = (val (po i)).+1 \/ val (po i) = (val (po j)).+1.
Proof.
rewrite T'E => h; have es := sel_nb h.
by case: (tfar h) => e; [left; apply: po_next|right; apply: po_next].
Qed.

Lemma T'_quasi : quasi_upper T'.
Proof.
split=> [a b|a b c].
  have [i ->] := po_surj a; have [j ->] := po_surj b => h; apply/eqP/negPn/negP => nz.
  by case: (T'_adj nz) => e; move: h e => /=; lia.
have [i ->] := po_surj a; have [j ->] := po_surj b; have [k ->] := po_surj c => e1 e2.
rewrite !T'E; case: (T j i =P 0) => [|/eqP n1]; first by left.
right; apply/eqP/negPn/negP => n2; have n2' : T j k != 0 by rewrite tE oppr_eq0.
by move: e2 e1; rewrite -(tone n1 n2') /=; lia.
Qed.

Lemma T'_sorted (a b : 'I_m) : (a < b)%N -> selected T' b -> selected T' a.
Proof.
have S i : selected T' (po i) <-> sel i.
  split=> [[c]|/selP[j hj1 hj2]].
    have [j ->] := po_surj c; rewrite T'E => _ h; apply/selP; exists j => //; apply: tfar.
    by rewrite -normr_gt0; apply: lt_trans h; rewrite eps10_gt0.
  exists (po j); last by rewrite T'E.
  by apply: T'_adj; rewrite T'E -normr_gt0; apply: lt_trans hj2; rewrite eps10_gt0.
have [i ->] := po_surj a; have [j ->] := po_surj b => h /S; rewrite -pos_sel => hj; apply/S.
by rewrite -pos_sel; apply: ltn_trans h hj.
Qed.

Lemma T'_conj : T = perm_mx ps *m T' *m (perm_mx ps)^T.
Proof.
apply/matrixP => i j; rewrite tr_perm_mx -row_permE -col_permE !mxE.
by rewrite !permK.
Qed.

End SortBlocks.

Lemma sort_schur (C : numClosedFieldType) m (M T Z : 'M[C]_m) : M^T = - M -> real_schur M T Z ->
  exists T1 Z1, real_schur M T1 Z1 /\ forall i j : 'I_m, (i < j)%N -> selected T1 j -> selected T1 i.
Proof.
move=> aM [rT rZ oZ eM qT].
have aT : T^T = - T.
  have e : T = Z^T *m M *m Z by rewrite eM !mulmxA (mulmx1C oZ) mul1mx -mulmxA (mulmx1C oZ) mulmx1.
  by rewrite e !trmx_mul trmxK aM mulNmx mulmxN mulmxA.
exists (T' T), (Z *m perm_mx (ps T)); split; last exact: T'_sorted.
split.
- by move=> i j; rewrite mxE.
- by move=> i j; rewrite -[ps T]invgK -col_permE mxE.
- by rewrite trmx_mul mulmxA -(mulmxA Z) tr_perm_mx -perm_mxM mulgV perm_mx1 mulmx1.
- rewrite trmx_mul {1}eM {1}(T'_conj T) !mulmxA //.
exact: T'_quasi.
Qed.

(* ------------------------------ the contracts are satisfiable ------------------------------ *)
Local Notation RC := [numClosedFieldType of R[i]].

Lemma real_schur_exists m (M : 'M[RC]_m) : realmx M -> M^T = - M -> exists T Z, real_schur M T Z.
Proof.
move=> rM aM; pose N : 'M[R]_m := map_mx re M.
have eN : M = map_mx toC N by apply/matrixP => i j; rewrite !mxE toC_re //; exact: rM.
have aN : N^T = - N.
  by apply/matrixP => i j; apply: toC_inj; move/matrixP/(_ i j): aM; rewrite eN !mxE rmorphN.
have [Z [T [oZ eM aT qT]]] := skew_normal aN.
exists (map_mx toC T), (map_mx toC Z); split.
- by move=> i j; rewrite mxE toC_real.
- by move=> i j; rewrite mxE toC_real.
- by rewrite map_trmx -map_mxM oZ map_mx1.
- by rewrite map_trmx -!map_mxM -eM.
case: qT => q1 q2; split=> [i j h|i j k e1 e2]; rewrite !mxE.
  by rewrite q1 ?rmorph0.
by case: (q2 i j k e1 e2) => ->; rewrite rmorph0; [left|right].
Qed.

Section Choice.
Local Notation arr := (arr RC).
Variable Q : forall m, 'M[RC]_m -> 'M[RC]_m -> 'M[RC]_m -> Prop.
Hypothesis ex : forall m (M : 'M[RC]_m), realmx M -> M^T = - M -> exists T Z, Q M T Z.
Lemma choose_pair : exists f : arr -> arr * arr, forall m (M : 'M[RC]_m), (0 < m)%N -> realmx M -> M^T = - M ->
  exists T Z : 'M[RC]_m, f (ofM M) = (ofM T, ofM Z) /\ Q M T Z.
Proof.
pose P (a : arr) (b : arr * arr) := forall m (M : 'M[RC]_m), realmx M -> M^T = - M -> a = ofM M ->
  exists T Z : 'M[RC]_m, b = (ofM T, ofM Z) /\ Q M T Z.
exists (fun a => epsilon (inhabits (a, a)) (P a)) => m M m0 rM aM.
have exb : exists b, P (ofM M) b.
  have [T [Z h]] := ex rM aM; exists (ofM T, ofM Z) => m' M' rM' aM' e.
  have em : m = m' := congr1 (@nr _) e; case: m' / em M' rM' aM' e => M' rM' aM' /ofM_inj e.
  by exists T, Z; rewrite -e.
exact: (epsilon_spec (inhabits _) _ exb).
Qed.
End Choice.

Theorem C53_schur_exists : exists f, @schur_spec RC f.
Proof.
have [f h] := choose_pair (fun m M => @real_schur_exists m M).
by exists f => m M; exact: h.
Qed.

Theorem C52_schur_sort_exists : exists f, @schur_sort_spec RC f.
Proof.
have [|f h] := @choose_pair (fun m M T Z => real_schur M T Z /\ forall i j : 'I_m, (i < j)%N -> selected T j -> selected T i).
  by move=> m M rM aM; have [T [Z s]] := real_schur_exists rM aM; exact: (sort_schur aM s).
exists f => m M m0 rM aM; have [T [Z [e [s1 s2]]]] := h m M m0 rM aM.
by exists T, Z.
Qed.

Section Generic.
Variable C : numClosedFieldType.
Lemma real_leT : {in (Num.real : qualifier 0 C) &, total (<=%O : rel C)}.
Proof. by move=> x y hx hy; have := real_leVge hx hy. Qed.

Theorem C52_eigvalsh_exists : exists f, @eigvalsh_spec C f.
Proof.
exists (fun a => sort <=%O (eigvals (toM (nr a) (nr a) a))) => m A m0 hA.
rewrite -[nr (ofM A)]/m toM_ofM.
have [U uU [d rd eA]] := spectral_herm hA.
have p := eigvals_diag uU eA.
have r : all (fun x => x \is Num.real) (eigvals A).
  by rewrite (perm_all _ p); apply/allP => x /mapP[i _ ->].
split.
- by rewrite all_sort.
- by apply: (sort_sorted_in real_leT).
- by rewrite size_sort (perm_size p) size_map size_enum_ord.
rewrite (perm_big _ (permEl (perm_sort _ _))) (perm_big _ p) big_map /=.
by rewrite (char_poly_conj uU eA) char_poly_diag enumT.
Qed.

Theorem C52_argsort_exists : exists f, @argsort_spec C f.
Proof.
exists (fun l => sort (fun i j => nth 0 l i <= nth 0 l j) (iota 0 (size l))) => l hl; split.
  exact: permEl (perm_sort _ _).
have -> : [seq nth 0 l k | k <- sort (fun i j => nth 0 l i <= nth 0 l j) (iota 0 (size l))] =
          sort <=%O [seq nth 0 l k | k <- iota 0 (size l)] by rewrite sort_map.
apply: (sort_sorted_in real_leT); rewrite all_map; apply/allP => k; rewrite mem_iota => /andP[_ hk].
exact: (allP hl _ (mem_nth _ hk)).
Qed.
End Generic.

(* ------------------------------ statements that fail ------------------------------ *)
Section Strad.
Variable C : numClosedFieldType.
(* an antisymmetric quasi triangular matrix whose only block straddles positions 1 and 2 *)
Definition strad (e : C) : 'M[C]_(2 * 2) :=
  \matrix_(i, j) if (i == 1%N :> nat) && (j == 2%N :> nat) then e else
                 if (i == 2%N :> nat) && (j == 1%N :> nat) then - e else 0.

Lemma strad_real e : e \is Num.real -> realmx (strad e).
Proof. by move=> re i j; rewrite mxE; case: ifP => // _; case: ifP; rewrite ?rpredN ?rpred0. Qed.
Lemma strad_anti e : (strad e)^T = - strad e.
Proof.
apply/matrixP => i j; rewrite !mxE andbC [in RHS]andbC.
by case: i => -[|[|[|[|//]]]] //= hi; case: j => -[|[|[|[|//]]]] //= hj; rewrite ?oppr0 ?opprK.
Qed.
Lemma strad_quasi e : quasi_upper (strad e).
Proof.
split=> [i j|i j k]; rewrite !mxE.
  by case: i => -[|[|[|[|//]]]] //= hi; case: j => -[|[|[|[|//]]]].
by case: i => -[|[|[|[|//]]]] //= hi; case: j => -[|[|[|[|//]]]] //= hj; case: k => -[|[|[|[|//]]]] //= hk; auto.
Qed.
Lemma strad_schur e : e \is Num.real -> real_schur (strad e) (strad e) 1%:M.
Proof.
move=> re; split; [exact: strad_real| |by rewrite trmx1 mulmx1|by rewrite trmx1 mulmx1 mul1mx|exact: strad_quasi].
by move=> i j; rewrite mxE; case: (_ == _); rewrite ?rpred0 ?rpred1.
Qed.
Lemma strad_maj e : e \is Num.real -> majorana_form (- 'i *: strad e).
Proof.
move=> re; split; first by rewrite linearZ /= strad_anti scalerN.
by rewrite map_mxZ (iffLR (realmxP _) (strad_real re)) rmorphN conjCi scaleNr.
Qed.
Lemma strad_nz e : e != 0 -> strad e != 0.
Proof.
move=> ne; apply/eqP => /matrixP.
have h1 : (1 < 2 * 2)%N by []. have h2 : (2 < 2 * 2)%N by [].
by move/(_ (Ordinal h1) (Ordinal h2)); rewrite !mxE /=; apply/eqP.
Qed.
Lemma strad_lam e k : (k < 2)%N -> lam (strad e) k = 0.
Proof.
rewrite /lam; case: k => [|[|//]] _.
  have h0 : (2 * 0 < 2 * 2)%N by []. have h1 : (2 * 0 + 1 < 2 * 2)%N by [].
  by rewrite -[(2 * 0)%N]/(nat_of_ord (Ordinal h0)) -[(2 * 0 + 1)%N]/(nat_of_ord (Ordinal h1)) ofM_get mxE.
have h0 : (2 * 1 < 2 * 2)%N by []. have h1 : (2 * 1 + 1 < 2 * 2)%N by [].
by rewrite -[(2 * 1)%N]/(nat_of_ord (Ordinal h0)) -[(2 * 1 + 1)%N]/(nat_of_ord (Ordinal h1)) ofM_get mxE.
Qed.
Lemma strad_i e : 'i *: (- 'i *: strad e) = strad e.
Proof. by rewrite scalerA mulrN -expr2 sqrCi opprK scale1r. Qed.
End Strad.

Section Override.
Variable e : RC.
Hypothesis re : e \is Num.real.
Lemma schur_override : exists f, @schur_spec RC f /\ f (ofM (strad e)) = (ofM (strad e), ofM (1%:M : 'M[RC]_(2 * 2))).
Proof.
pose Q m (M T Z : 'M[RC]_m) := real_schur M T Z /\ (ofM M = ofM (strad e) -> T = M /\ Z = 1%:M).
have [m M rM aM|f h] := @choose_pair Q.
  case: (m =P (2 * 2)%N) => [em|nm]; last first.
    have [T [Z s]] := real_schur_exists rM aM; exists T, Z; split=> // E.
    by case: nm; rewrite -[m]/(nr (ofM M)) E.
  subst m; case: (M =P strad e) => [->|nM].
    by exists (strad e), 1%:M; split; first exact: strad_schur.
  have [T [Z s]] := real_schur_exists rM aM; exists T, Z; split=> // E.
  by case: nM; apply: ofM_inj.
exists f; split=> [m M m0 rM aM|].
  by have [T [Z [E [s _]]]] := h m M m0 rM aM; exists T, Z.
have [||T [Z [E [_ /(_ erefl) [eT eZ]]]]] := h _ (strad e) _ (strad_real re); [by []| |by rewrite E eT eZ].
exact: strad_anti.
Qed.

Lemma schur_sort_override : `|e| <= eps10 RC ->
  exists f, @schur_sort_spec RC f /\ f (ofM (strad e)) = (ofM (strad e), ofM (1%:M : 'M[RC]_(2 * 2))).
Proof.
move=> se.
pose Q m (M T Z : 'M[RC]_m) := (real_schur M T Z /\ forall i j : 'I_m, (i < j)%N -> selected T j -> selected T i) /\
  (ofM M = ofM (strad e) -> T = M /\ Z = 1%:M).
have X m (M : 'M[RC]_m) (rM : realmx M) (aM : M^T = - M) : exists T Z, real_schur M T Z /\ forall i j : 'I_m, (i < j)%N -> selected T j -> selected T i.
  by have [T [Z s]] := real_schur_exists rM aM; exact: (sort_schur aM s).
have [m M rM aM|f h] := @choose_pair Q.
  case: (m =P (2 * 2)%N) => [em|nm]; last first.
    have [T [Z s]] := X _ _ rM aM; exists T, Z; split=> // E.
    by case: nm; rewrite -[m]/(nr (ofM M)) E.
  subst m; case: (M =P strad e) => [->|nM].
    exists (strad e), 1%:M; split=> //; split; first exact: strad_schur.
    move=> i j _ [k _] h; exfalso.
    have : `|strad e j k| <= eps10 RC; last by rewrite (lt_geF h).
    rewrite mxE; case: ifP => _ //.
    by case: ifP => _; rewrite ?normrN // normr0 ltW // eps10_gt0.
  have [T [Z s]] := X _ _ rM aM; exists T, Z; split=> // E.
  by case: nM; apply: ofM_inj.
exists f; split=> [m M m0 rM aM|].
  by have [T [Z [E [[s1 s2] _]]]] := h m M m0 rM aM; exists T, Z.
have [||T [Z [E [_ /(_ erefl) [eT eZ]]]]] := h _ (strad e) _ (strad_real re); [by []| |by rewrite E eT eZ].
exact: strad_anti.
Qed.
End Override.

(* the conclusion of C52_diagonal fails without a gap: for a legal sorted Schur decomposition (and any eigvalsh, argsort)
   eigh_sp returns a matrix that is not diagonal, because blocks below the threshold 1e-10 are not moved to the end *)
Theorem C52_refuted_gapless : exists schur_sort, @schur_sort_spec RC schur_sort /\
  forall ev as_, eigvalsh_spec ev -> argsort_spec as_ ->
  exists H : 'M[RC]_(2 * 2), [/\ hermitian H, ph_symmetric H & exists L U : 'M[RC]_(2 * 2),
    eigh_sp schur_sort ev as_ (ofM H) = Ok (ofM L, ofM U) /\ exists i j, i != j /\ L i j != 0].
Proof.
have e0 := eps10_gt0 RC; have re : eps10 RC \is Num.real by apply: ger0_real; exact: ltW.
have [|f [hf ef]] := schur_sort_override re; first by rewrite ger0_norm // ltW.
exists f; split=> // ev as_ hev has; have [hH pH eG] := GH_ok (strad_maj re).
exists (adjm (OM RC 2) *m (- 'i *: strad (eps10 RC)) *m OM RC 2); split=> //.
have n0 : (0 < 2)%N by [].
have [T [Z [L [U [p [fl [[e1 [es rs] sT] [hp _ aT _] [uU fU eL] dL _]]]]]]] := eigh_main hf hev has n0 hH pH.
exists L, U; split=> //.
have [/existsP[i /existsP[j /andP[h1 h2]]]|/existsPn N] := boolP [exists i, [exists j, (i != j) && (L i j != 0)]].
  by exists i, j.
exfalso.
have eih : 'i *: (OM RC 2 *m (adjm (OM RC 2) *m (- 'i *: strad (eps10 RC)) *m OM RC 2) *m adjm (OM RC 2)) = strad (eps10 RC).
  by rewrite eG strad_i.
rewrite eih ef in es; have eT : strad (eps10 RC) = T := ofM_inj (congr1 fst es).
have L0 : L = 0.
  apply/matrixP => i j; rewrite [RHS]mxE; case: (i =P j) => [<-|/eqP nij].
    rewrite dL -eT strad_lam ?mulr0 //.
    have : nth 0%N p (i %% 2) \in iota 0 2.
      by rewrite -(perm_mem hp) mem_nth // (perm_size hp) size_iota ltn_mod.
    by rewrite mem_iota add0n.
  by have := N i; rewrite negb_exists => /forallP/(_ j); rewrite nij /= negbK => /eqP.
move: eL eih; move: (adjm _ *m _ *m OM RC 2) => H eL eih.
have H0 : H = 0 by rewrite -[H]mulmx1 -[H]mul1mx -uU !mulmxA -(mulmxA U) -(mulmxA U) -eL L0 mulmx0 mul0mx.
by move: (strad_nz (lt0r_neq0 e0)); rewrite -eih H0 mulmx0 mul0mx scaler0 eqxx.
Qed.

(* the conclusion of C53_eigm_sp_can_canonical fails for singular G: for a legal Schur decomposition (and any eigvalsh,
   argsort) the result of eigm_sp_can is not in block canonical form *)
Theorem C53_refuted_singular : exists schur, @schur_spec RC schur /\
  forall ev as_, eigvalsh_spec ev -> argsort_spec as_ ->
  exists G : 'M[RC]_(2 * 2), majorana_form G /\ exists O : 'M[RC]_(2 * 2),
    eigm_sp_can schur ev as_ (ofM G) = Ok (ofM (O^T *m G *m O), ofM O) /\
    ~ canonical ('i *: (O^T *m G *m O)).
Proof.
have r1 : (1 : RC) \is Num.real by exact: rpred1.
have [f [hf ef]] := schur_override r1.
exists f; split=> // ev as_ hev has; have mG := strad_maj r1; exists (- 'i *: strad 1); split=> //.
have n0 : (0 < 2)%N by [].
have [T [Z [O [fl [e1 es _ _ [_ _ eP]]]]]] := eigm_can_main hf hev has n0 mG.
exists O; split=> //; rewrite eP => -[_ _ c].
rewrite strad_i ef in es; have eT : strad 1 = T := ofM_inj (congr1 fst es).
have hp : perm_eq (iota 0 2) (iota 0 2) by [].
have hi : ((~~ fl 0%N) < 2 * 2)%N by case: (fl 0%N).
have hj : (2 + fl 1%N < 2 * 2)%N by case: (fl 1%N).
have := c (Ordinal hi) (Ordinal hj); rewrite (Pi_conj _ _ hp) -eT mxE /=.
have -> : bpos (iota 0 2) fl (~~ fl 0%N) = 1%N by rewrite /bpos; case e : (fl 0%N); rewrite /= e.
have -> : bpos (iota 0 2) fl (2 + fl 1%N) = 2%N by rewrite /bpos; case e : (fl 1%N); rewrite /= e.
move=> /= h; have : (1 : RC) = 0 by apply: h; rewrite /partner; case: (fl 0%N); case: (fl 1%N).
by move/eqP; rewrite oner_eq0.
Qed.
