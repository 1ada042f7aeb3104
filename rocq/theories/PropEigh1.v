(* PropEigh1.v -- property C52: eigh_sp returns a symplectic unitary that diagonalises H *)
Set Warnings "-notation-overridden,-ambiguous-paths".
From mathcomp Require Import all_ssreflect all_algebra.
From mathcomp.zify Require Import zify.
From Verif Require Import Base ArrC MLib JW OpFam FermAlg LibFacts LibFacts2 LibFacts3 PropLib2 PropLib3 Spectral MEigh EighFacts.
Set Implicit Arguments.
Unset Strict Implicit.
Unset Printing Implicit Defensive.
Import Order.Theory GRing.Theory Num.Theory.
Local Open Scope ring_scope.

Section Contracts.
Variable C : numClosedFieldType.
Local Notation arr := (arr C).

Definition realmx m n (M : 'M[C]_(m, n)) := forall i j, M i j \is Num.real.
(* quasi upper triangular: zero below the first subdiagonal, no two adjacent subdiagonal entries nonzero *)
Definition quasi_upper m (T : 'M[C]_m) :=
  (forall i j : 'I_m, (j.+1 < i)%N -> T i j = 0) /\
  (forall i j k : 'I_m, val j = i.+1 -> val k = j.+1 -> T j i = 0 \/ T k j = 0).
(* index i lies in a 2x2 diagonal block of the antisymmetric quasi triangular matrix T whose eigenvalues +-i T_ij are
   selected by sfunction (ff_lib.py:1077-1079), i.e. larger than 1e-10 in absolute value *)
Definition selected m (T : 'M[C]_m) (i : 'I_m) :=
  exists2 j : 'I_m, val j = i.+1 \/ val i = j.+1 & eps10 C < `|T i j|.

(* what a real Schur decomposition M = Z T Z^T is *)
Definition real_schur m (M T Z : 'M[C]_m) :=
  [/\ realmx T, realmx Z, Z *m Z^T = 1%:M, M = Z *m T *m Z^T & quasi_upper T].

(* contracts on real antisymmetric arrays; scipy's sort argument puts the selected eigenvalues first *)
Definition schur_spec (schur : arr -> arr * arr) := forall m (M : 'M[C]_m), (0 < m)%N -> realmx M -> M^T = - M ->
  exists T Z : 'M[C]_m, schur (ofM M) = (ofM T, ofM Z) /\ real_schur M T Z.
Definition schur_sort_spec (schur : arr -> arr * arr) := forall m (M : 'M[C]_m), (0 < m)%N -> realmx M -> M^T = - M ->
  exists T Z : 'M[C]_m, [/\ schur (ofM M) = (ofM T, ofM Z), real_schur M T Z &
    forall i j : 'I_m, (i < j)%N -> selected T j -> selected T i].

(* np.linalg.eigvalsh of a Hermitian array: its real eigenvalues with multiplicity, in ascending order *)
Definition eigvalsh_spec (ev : arr -> seq C) := forall m (A : 'M[C]_m), (0 < m)%N -> hermitian A ->
  [/\ all (fun x => x \is Num.real) (ev (ofM A)), sorted <=%O (ev (ofM A)), size (ev (ofM A)) = m &
      char_poly A = \prod_(x <- ev (ofM A)) ('X - x%:P)].

(* np.argsort of a list of reals: a permutation of the indices that sorts the list *)
Definition argsort_spec (as_ : seq C -> seq nat) := forall l, all (fun x => x \is Num.real) l ->
  perm_eq (as_ l) (iota 0 (size l)) /\ sorted <=%O [seq nth 0 l k | k <- as_ l].

(* ------------------------------ particle-hole symmetry ------------------------------ *)
(* S H^* S = -H, as established for build_H in C42 *)
Definition ph_symmetric n (H : 'M[C]_(2 * n)) := swapM C n *m map_mx conjC H *m swapM C n = - H.
(* every nonzero eigenvalue is larger than 1e-10 *)
Definition gapped m (H : 'M[C]_m) := forall x, eigenvalue H x -> x = 0 \/ eps10 C < `|x|.

(* U = [[s, t^*], [t, s^*]] with n x n blocks *)
Definition symp_form n (U : 'M[C]_(2 * n)) := forall i j i' j' : 'I_(2 * n), (i < n)%N -> (j < n)%N ->
  i' = (i + n)%N :> nat -> j' = (j + n)%N :> nat -> U i' j' = (U i j)^* /\ U i j' = (U i' j)^*.

End Contracts.

Section C52.
Variable C : numClosedFieldType.
Local Notation arr := (arr C).
Local Notation cj := (map_mx (@conjC C)).
Local Notation realmx := (@realmx C _ _).
Add Ring cringP52 : (ring_of C).

Lemma realmxP m n (M : 'M[C]_(m, n)) : realmx M <-> cj M = M.
Proof.
split=> [h|h i j]; first by apply/matrixP => i j; rewrite mxE (CrealP (h i j)).
by apply/CrealP; rewrite -[in RHS]h mxE.
Qed.

Lemma sform_form n (U : 'M[C]_(2 * n)) : sform U <-> symp_form U.
Proof.
split=> [/sformE h i j i' j' hi hj ei ej|h].
  split; first by apply: h; rewrite /sw ?hi ?hj.
  by apply: h; rewrite /sw ?hj // ei ltnNge leq_addl /= addnK.
apply/sformE => i j i' j'; have h1 := ltn_ord i; have h2 := ltn_ord j.
have l1 : ((i + n)%N - n = i)%N by rewrite addnK.
rewrite /sw; case: (ltnP i n) => hi; case: (ltnP j n) => hj ei ej.
- by have [] := h i j i' j' hi hj ei ej.
- have lj : (j' < n)%N by lia. have ej' : j = (j' + n)%N :> nat by lia.
  by have [_ ->] := h i j' i' j hi lj ei ej'; rewrite conjCK.
- have li : (i' < n)%N by lia. have ei' : i = (i' + n)%N :> nat by lia.
  by have [_ ->] := h i' j i j' li hj ei' ej.
have li : (i' < n)%N by lia. have ei' : i = (i' + n)%N :> nat by lia.
have lj : (j' < n)%N by lia. have ej' : j = (j' + n)%N :> nat by lia.
by have [-> _] := h i' j' i j li lj ei' ej'; rewrite conjCK.
Qed.

Lemma ih_facts n (H : 'M[C]_(2 * n)) (ih := 'i *: (OM C n *m H *m adjm (OM C n))) :
  hermitian H -> ph_symmetric H -> cj ih = ih /\ ih^T = - ih.
Proof.
move=> hH pH; have r : cj ih = ih.
  rewrite /ih map_mxZ !cjM cj_adj Omega_cj /= conjCi.
  have -> : cj H = - (SM C n *m H *m SM C n).
    by rewrite -mulNmx -mulmxN -pH -SM_swap !mulmxA S_sqr mul1mx -mulmxA S_sqr mulmx1.
  rewrite mulmxN mulNmx scalerN scaleNr opprK !mulmxA Omega_adj !mulmxA.
  by rewrite -[_ *m SM C n *m SM C n]mulmxA S_sqr mulmx1.
split=> //.
have : adjm ih = - ih.
  by rewrite /ih adjmZ conjCi !adjmM adjmK hH mulmxA scaleNr.
by rewrite /adjm r.
Qed.

Lemma ih_back n (H : 'M[C]_(2 * n)) : OM C n *m H *m adjm (OM C n) = - 'i *: ('i *: (OM C n *m H *m adjm (OM C n))).
Proof. by rewrite scalerA mulNr -expr2 sqrCi opprK scale1r. Qed.

Lemma are_ofM m n (M : 'M[C]_(m, n)) : realmx M -> are (ofM M) = ofM M.
Proof.
move=> h; apply: arrP => // i j /= hi hj; rewrite getE //.
by rewrite -[i]/(nat_of_ord (Ordinal hi)) -[j]/(nat_of_ord (Ordinal hj)) ofM_get; apply/Creal_ReP/h.
Qed.

Lemma allclose_refl (A : arr) : allclose A A.
Proof. by apply/allcloseP => i j _ _; apply/closeE/closeE/close_refl. Qed.

(* ------------------------------ the sorted Schur form ------------------------------ *)
Section Sorted.
Variables (n : nat) (T : 'M[C]_(2 * n)).
Hypothesis qT : quasi_upper T.
Hypothesis aT : T^T = - T.
Hypothesis sT : forall i j : 'I_(2 * n), (i < j)%N -> selected T j -> selected T i.

Lemma antiE i j : T i j = - T j i.
Proof. by have := congr1 (fun M : 'M_(2 * n) => M j i) aT; rewrite !mxE. Qed.
Lemma anti0 i : T i i = 0.
Proof.
have h2 : (2%:R : C) != 0 by rewrite pnatr_eq0.
by apply: (mulfI h2); rewrite mulr0 mulr_natl mulr2n {1}antiE addNr.
Qed.

Lemma far0 (i j : 'I_(2 * n)) : j != i.+1 :> nat -> i != j.+1 :> nat -> T i j = 0.
Proof.
case: qT => q _ h1 h2; case: (ltngtP i j) => h; last by rewrite (ord_inj h) anti0.
  by rewrite antiE q ?oppr0 //; lia.
by rewrite q //; lia.
Qed.

Lemma eps10_gt0 : 0 < eps10 C.
Proof. by rewrite invr_gt0 exprn_gt0 // ltr0n. Qed.

Lemma sel_even (i j : 'I_(2 * n)) : val j = i.+1 -> eps10 C < `|T i j| -> ~~ odd i.
Proof.
case: qT => _ q.
elim/ltn_ind: {i}(i : nat) {-2}i (erefl (i : nat)) j => k IH i ei j ej hl.
apply/negP => oi; have h1 := ltn_ord i.
have nz (x : C) : eps10 C < `|x| -> x <> 0 by move=> + e; rewrite e normr0 lt_gtF ?eps10_gt0.
have hp : (i.-1 < 2 * n)%N by lia.
have i0 : (0 < i)%N by case: (i : nat) oi.
pose i1 := Ordinal hp.
have e1 : val i = i1.+1 by rewrite /= prednK.
have [||b hb lb] := sT (i := i1) (j := i); [by rewrite /=; lia|by exists j; [left|]|].
case: hb => [hb|hb].
  have eb : b = i by apply: val_inj; rewrite hb e1.
  rewrite eb in lb; case: (q i1 i j e1 ej) => z.
    by apply: (nz (T i1 i) lb); rewrite antiE z oppr0.
  by apply: (nz (T i j) hl); rewrite antiE z oppr0.
have lb' : eps10 C < `|T b i1| by rewrite antiE normrN.
have : ~~ odd b.
  apply: (IH b _ b erefl i1) => //; move: hb => /=; lia.
move: hb => /= hb; have ei2 : (i : nat) = b.+2 by lia.
by move: oi; rewrite ei2 /= negbK => ->.
Qed.

Lemma sorted_off (u v : 'I_(2 * n)) : (u %/ 2 != v %/ 2)%N -> `|T u v| <= eps10 C.
Proof.
have K (i j : 'I_(2 * n)) : val j = i.+1 -> (i %/ 2 != j %/ 2)%N -> `|T i j| <= eps10 C.
  move=> ej hb; rewrite real_leNgt ?normr_real ?gtr0_real ?eps10_gt0 //.
  by apply/negP => /(sel_even ej); move: hb; rewrite ej => hb /negP; apply; lia.
move=> hb; case: (v =P u.+1 :> nat) => [e|/eqP h1]; first exact: K.
case: (u =P v.+1 :> nat) => [e|/eqP h2]; first by rewrite antiE normrN; apply: K => //; rewrite eq_sym.
by rewrite far0 // normr0 ltW ?eps10_gt0.
Qed.

(* a nonzero block entry is an eigenvalue *)
Lemma block_eig (u v : 'I_(2 * n)) : val v = u.+1 -> T u v != 0 ->
  exists2 x : 'rV[C]_(2 * n), x != 0 & x *m T = (- 'i * T u v) *: x.
Proof.
move=> ev nz; case: qT => _ q; set l := T u v in nz *.
have nuv : u != v by apply/eqP => e; have := congr1 val e; rewrite ev /=; lia.
have Tu w : T u w = l * (w == v)%:R.
  case: (w =P v) => [->|nw]; first by rewrite mulr1.
  rewrite mulr0; case: (u =P w.+1 :> nat) => [ew|/eqP h2].
    by case: (q w u v ew ev) => // z; case/eqP: nz; rewrite /l antiE z oppr0.
  by apply: far0 => //; apply/eqP => e; apply: nw; apply: val_inj; rewrite /= e -ev.
have Tv w : T v w = - l * (w == u)%:R.
  case: (w =P u) => [->|nw]; first by rewrite mulr1 antiE.
  rewrite mulr0; case: (w =P v.+1 :> nat) => [ew|/eqP h2].
    by case: (q u v w ev ew) => z; [case/eqP: nz; rewrite /l antiE z oppr0|rewrite antiE z oppr0].
  apply: far0 => //; apply/eqP => e; apply: nw; apply: val_inj => /=; move: e; rewrite ev; lia.
exists (delta_mx 0 u + 'i *: delta_mx 0 v).
  apply/eqP => /rowP /(_ u); rewrite !mxE !eqxx (negbTE nuv) mulr0 addr0 => /eqP.
  by rewrite oner_eq0.
rewrite mulmxDl -scalemxAl -!rowE; apply/rowP => w; rewrite !mxE Tu Tv !eqxx /= !(eq_sym w).
set a := (v == w)%:R; set b := (u == w)%:R.
have hi : 'i * 'i = -1 :> C by rewrite -expr2 sqrCi.
transitivity (- 'i * l * b - ('i * 'i) * l * a); last by xring C.
by rewrite hi; xring C.
Qed.

End Sorted.

Variables (schur_sort : arr -> arr * arr) (eigvalsh : arr -> seq C) (argsort : seq C -> seq nat).
Hypothesis schurP : schur_sort_spec schur_sort.
Hypothesis evP : eigvalsh_spec eigvalsh.
Hypothesis asP : argsort_spec argsort.

Lemma fancy_perm (p q : seq nat) : perm_eq q (iota 0 (size p)) -> perm_eq (fancy 0%N p q) p.
Proof.
move=> h; apply: (perm_trans (perm_map (nth 0%N p) h)).
by rewrite -/(mkseq (nth 0%N p) (size p)) mkseq_nth.
Qed.

(* the lower right block of H *)
Definition subA n (H : 'M[C]_(2 * n)) : 'M[C]_n := \matrix_(i, j) get (ofM H) (n + i) (n + j).
Lemma subA_herm n (H : 'M[C]_(2 * n)) : hermitian H -> hermitian (subA H).
Proof.
move=> hH; apply/matrixP => i j; rewrite !mxE.
have hi : (n + i < 2 * n)%N by have := ltn_ord i; lia.
have hj : (n + j < 2 * n)%N by have := ltn_ord j; lia.
rewrite -[(n + i)%N]/(nat_of_ord (Ordinal hi)) -[(n + j)%N]/(nat_of_ord (Ordinal hj)) !ofM_get.
by rewrite -{2}hH !mxE.
Qed.
Lemma slice_subA n (H : 'M[C]_(2 * n)) : aslice (ofM H) n n (2 * n - n) (2 * n - n) = ofM (subA H).
Proof.
have e : (2 * n - n = n)%N by lia.
by rewrite e /aslice ofM_mk.
Qed.

(* the permutation and the flips chosen by eigh_sp *)
Definition key_perm n (H T : 'M[C]_(2 * n)) : seq nat :=
  fancy 0%N (argsort [seq `|lam T k| | k <- iota 0 n]) (argsort [seq `|x| | x <- eigvalsh (ofM (subA H))]).
Definition key_flip n (H T : 'M[C]_(2 * n)) (k : nat) : bool :=
  close (Num.sg (lam T (nth 0%N (key_perm H T) k))) (Num.sg (nth 0 (eigvalsh (ofM (subA H))) k)).

Lemma key_perm_ok n (H T : 'M[C]_(2 * n)) : (0 < n)%N -> hermitian H -> perm_eq (key_perm H T) (iota 0 n).
Proof.
move=> n0 hH; have [_ _ sz _] := evP n0 (subA_herm hH).
have nrm (l : seq C) : all (fun x => x \is Num.real) [seq `|x| | x <- l].
  by apply/allP => x /mapP[y _ ->]; exact: normr_real.
have [pa _] := asP (nrm (eigvalsh (ofM (subA H)))).
have := asP (nrm [seq lam T k | k <- iota 0 n]); rewrite -map_comp => -[pl _].
rewrite size_map size_iota in pl; rewrite size_map sz in pa.
apply: (perm_trans _ pl); apply: fancy_perm; rewrite (perm_size pl) size_iota; exact: pa.
Qed.

Lemma resortE n (H T Z : 'M[C]_(2 * n)) : (0 < n)%N -> hermitian H ->
  eigh_resort eigvalsh argsort n (ofM H) (ofM T) (ofM Z) =
  Ok (ofM (if allclose (ofM (subA H)) (azeros n n) then Z else Z *m PiM C n (key_perm H T) (key_flip H T))).
Proof.
move=> n0 hH; rewrite /eigh_resort slice_subA /=.
case: ifP => // _.
have hp := key_perm_ok T n0 hH.
have [Pm] := resort_P (fancy 0 [seq lam T k | k <- iota 0 n] (key_perm H T)) (eigvalsh (ofM (subA H))) hp.
rewrite /key_perm /lam -map_comp /comp => -> ->.
rewrite ofM_mul; congr (Ok (ofM (_ *m _))); apply/matrixP => i j; rewrite !mxE /bpos.
have hj := ltn_ord j; have lj : (j %/ 2 < n)%N by lia.
have sp : size (key_perm H T) = n by rewrite (perm_size hp) size_iota.
congr ((nat_of_bool (_ == (_ + nat_of_bool (_ (+) _))%N))%:R); rewrite /key_flip; congr (close (Num.sg _) _).
rewrite -[X in fancy _ _ X]/(key_perm H T) /fancy (nth_map 0%N) ?sp // (nth_map 0%N) ?nth_iota ?size_iota //.
all: have : nth 0%N (key_perm H T) (j %/ 2) \in key_perm H T by rewrite mem_nth ?sp.
all: by rewrite (perm_mem hp) mem_iota.
Qed.

Lemma canon_ok n (T : 'M[C]_(2 * n)) : realmx T -> quasi_upper T -> T^T = - T ->
  (forall i j : 'I_(2 * n), (i < j)%N -> selected T j -> selected T i) -> check_canonical_form (ofM T).
Proof.
move=> rT qT aT sT; have R a : np_close a a by apply/closeE/close_refl.
apply/C45_decides; split=> [i j|i j|i j nj]; first by rewrite (CrealP (rT i j)).
  by rewrite -antiE.
rewrite /np_close sub0r normrN; case: (i %/ 2 =P j %/ 2)%N => hb.
  have -> : j = i by apply: val_inj => /=; move: nj; rewrite /partner; case: ifP => o /eqP; lia.
  rewrite anti0 // normr0 mulr0 addr0 invr_ge0 exprn_ge0 ?ler0n //.
apply: (@le_trans _ _ (eps10 C)); first by apply: sorted_off => //; apply/eqP.
apply: (@le_trans _ _ ((10%:R ^+ 8)^-1)).
  by rewrite /eps10 lef_pinv ?posrE ?exprn_gt0 ?ltr0n //; apply: ler_weexpn2l; rewrite ?ler1n.
by rewrite ler_addl mulr_ge0 // invr_ge0 exprn_ge0 ?ler0n.
Qed.

Lemma real_anti m (M T Z : 'M[C]_m) : M^T = - M -> Z *m Z^T = 1%:M -> M = Z *m T *m Z^T ->
  T^T = - T /\ Z^T *m M *m Z = T.
Proof.
move=> aM oZ eM; have oZ' := mulmx1C oZ.
have e : Z^T *m M *m Z = T by rewrite eM !mulmxA oZ' mul1mx -mulmxA oZ' mulmx1.
by split=> //; rewrite -e !trmx_mul trmxK aM mulNmx mulmxN mulmxA.
Qed.

(* the orthogonal matrix used, before the change to the Dirac basis *)
Definition key_orth n (H T Z : 'M[C]_(2 * n)) :=
  if allclose (ofM (subA H)) (azeros n n) then Z else Z *m PiM C n (key_perm H T) (key_flip H T).
Definition pre_U n (O : 'M[C]_(2 * n)) := adjm (OM C n) *m O *m OM C n *m adjm (KM C n).
Definition ph_of n (U : 'M[C]_(2 * n)) : 'rV[C]_(2 * n) :=
  \row_i (let p := (U i i)^* in if eps9 C < `|p| then p / `|p| else 1).
Definition fin_U n (O : 'M[C]_(2 * n)) := pre_U O *m diag_mx (ph_of (pre_U O)).

Lemma eigh_unfold n (H T Z : 'M[C]_(2 * n)) (ih := 'i *: (OM C n *m H *m adjm (OM C n))) :
  (0 < n)%N -> hermitian H -> ph_symmetric H ->
  schur_sort (ofM ih) = (ofM T, ofM Z) -> real_schur ih T Z ->
  (forall i j : 'I_(2 * n), (i < j)%N -> selected T j -> selected T i) ->
  eigh_sp schur_sort eigvalsh argsort (ofM H) =
  Ok (ofM (adjm (fin_U (key_orth H T Z)) *m H *m fin_U (key_orth H T Z)), ofM (fin_U (key_orth H T Z))).
Proof.
move=> n0 hH pH es [rT rZ oZ eZ qT] sT.
have [rih aih] := ih_facts hH pH; rewrite -/ih in rih aih.
have [aT eT] := real_anti aih oZ eZ.
have en : (2 * n %/ 2 = n)%N by lia.
have eO : build_Omega C n = ofM (OM C n) by rewrite /OM ofM_toM ?nr_Om ?nc_Om.
have eK : build_K C n = ofM (KM C n).
  by rewrite /KM ofM_toM //; exact: nc_Om.
have bOk A B (x : A) (f : A -> res B) : bind (Ok x) f = f x by [].
have aOk B (b : bool) (f : unit -> res B) : b -> bind (assertM b) f = f tt by case: b.
have rih' : realmx ih by apply/realmxP.
rewrite /eigh_sp (_ : nr (ofM H) %/ 2 = n)%N //; cbv zeta.
rewrite eO ofM_scale ofM_mul_chk bOk ofM_adj ofM_mul_chk bOk -!scalemxAl -/ih.
rewrite aOk; last by rewrite ofM_tr ofM_add aih addrN ofM_zeros allclose_refl.
rewrite aOk are_ofM //; last exact: allclose_refl.
rewrite es; change ((ofM T, ofM Z).1) with (ofM T); change ((ofM T, ofM Z).2) with (ofM Z).
rewrite aOk; last exact: canon_ok.
rewrite aOk; last by rewrite ofM_tr ofM_mul oZ -ofM_eye allclose_refl.
rewrite aOk; last by rewrite ofM_tr !ofM_mul eT canon_ok.
rewrite aOk; last by rewrite are_ofM // allclose_refl.
rewrite aOk; last by rewrite ofM_tr !ofM_mul -eZ allclose_refl.
rewrite resortE // bOk -/(key_orth H T Z).
rewrite eK ofM_adj.
have -> : amul (amul (amul (ofM (adjm (OM C n))) (ofM (key_orth H T Z))) (ofM (OM C n))) (ofM (adjm (KM C n))) = ofM (pre_U (key_orth H T Z)).
  by rewrite /pre_U -!ofM_mul.
have -> : adiag (eigh_phases (ofM (pre_U (key_orth H T Z)))) = ofM (diag_mx (ph_of (pre_U (key_orth H T Z)))).
  move: (pre_U (key_orth H T Z)) => V.
  rewrite /adiag /eigh_phases size_map size_iota [nr _]/= ofM_mk; congr ofM; apply/matrixP => i j; rewrite !mxE.
  case: (i =P j) => [<-|ne]; last by case: eqP => // e; case: ne; exact: ord_inj.
  by rewrite eqxx mulr1n (nth_map 0%N) ?size_iota // nth_iota // add0n !ofM_get.
have -> : amul (ofM (pre_U (key_orth H T Z))) (ofM (diag_mx (ph_of (pre_U (key_orth H T Z))))) = ofM (fin_U (key_orth H T Z)).
  by rewrite /fin_U -ofM_mul.
by move: (fin_U _) => V; rewrite ofM_adj -!ofM_mul.
Qed.

(* ------------------------------ the returned matrices ------------------------------ *)
Section Ret.
Variables (n : nat) (O : 'M[C]_(2 * n)).
Hypothesis oO : O *m O^T = 1%:M.
Hypothesis rO : cj O = O.

Lemma adjO : adjm O = O^T. Proof. by rewrite /adjm rO. Qed.

Lemma pre_unitary : unitary (pre_U O).
Proof.
rewrite /pre_U; apply: unitaryM; last exact/unitary_adj/K_unitary.
apply: unitaryM; last exact: Omega_unitary.
by apply: unitaryM; [exact/unitary_adj/Omega_unitary|rewrite /unitary adjO].
Qed.
Lemma pre_sform : sform (pre_U O).
Proof. by apply: sform_mul; [exact: sform_real|exact/sform_adj/sform_K]. Qed.

Lemma eps9_ge0 : 0 <= eps9 C.
Proof. by rewrite invr_ge0 exprn_ge0 ?ler0n. Qed.

Lemma ph_norm (U : 'M[C]_(2 * n)) i : `|ph_of U 0 i| = 1.
Proof.
rewrite mxE /=; case: ifP => h; last exact: normr1.
by rewrite normf_div normr_id divff // gt_eqF // (le_lt_trans eps9_ge0 h).
Qed.

Lemma ph_sym (U : 'M[C]_(2 * n)) (i i' : 'I_(2 * n)) : sform U -> i' = sw n i :> nat -> ph_of U 0 i' = (ph_of U 0 i)^*.
Proof.
move=> /sformE f e; rewrite !mxE (f i i i' i') //= conjCK norm_conjC.
by case: ifP => _; rewrite ?rmorph1 // rmorphM fmorphV /= conjCK (CrealP (normr_real _)).
Qed.

Lemma diag_unitary (d : 'rV[C]_(2 * n)) : (forall i, `|d 0 i| = 1) -> unitary (diag_mx d).
Proof.
move=> h; apply/matrixP => i j; rewrite mul_diag_mx !mxE rmorphMn /=.
rewrite eq_sym; case: (i =P j) => [->|_]; last by rewrite mulr0n mulr0.
by rewrite mulr1n -normCK h expr1n.
Qed.

Lemma diag_sform (d : 'rV[C]_(2 * n)) : (forall i i' : 'I_(2 * n), i' = sw n i :> nat -> d 0 i' = (d 0 i)^*) ->
  sform (diag_mx d).
Proof.
move=> h; apply/sformE => i j i' j' ei ej; rewrite !mxE rmorphMn /= (h i i') //; congr (_ *+ nat_of_bool _).
apply/eqP/eqP => e; last by apply: val_inj; rewrite /= ei ej e.
by apply: val_inj => /=; rewrite -(swK (ltn_ord i)) -(swK (ltn_ord j)) -ei -ej e.
Qed.

Lemma fin_unitary : unitary (fin_U O).
Proof. by apply: unitaryM; [exact: pre_unitary|apply: diag_unitary => i; exact: ph_norm]. Qed.
Lemma fin_sform : sform (fin_U O).
Proof. by apply: sform_mul; [exact: pre_sform|apply: diag_sform => i i' e; apply: ph_sym => //; exact: pre_sform]. Qed.

Lemma fin_conj (H : 'M[C]_(2 * n)) i j : (adjm (fin_U O) *m H *m fin_U O) i j =
  (ph_of (pre_U O) 0 i)^* * ph_of (pre_U O) 0 j *
  (QM C n *m (O^T *m (OM C n *m H *m adjm (OM C n)) *m O) *m adjm (QM C n)) i j.
Proof.
have -> : QM C n *m (O^T *m (OM C n *m H *m adjm (OM C n)) *m O) *m adjm (QM C n) = adjm (pre_U O) *m H *m pre_U O.
  by rewrite -!K_Omega /pre_U !adjmM !adjmK adjO !mulmxA.
rewrite /fin_U; move: (pre_U O) => V.
have -> : adjm (V *m diag_mx (ph_of V)) *m H *m (V *m diag_mx (ph_of V)) =
   diag_mx (map_mx conjC (ph_of V)) *m (adjm V *m H *m V) *m diag_mx (ph_of V).
  have <- : adjm (diag_mx (ph_of V)) = diag_mx (map_mx conjC (ph_of V)).
    by apply/matrixP => a b; rewrite !mxE rmorphMn /= eq_sym; case: (a =P b) => [->|].
  by rewrite adjmM !mulmxA.
by rewrite mul_mx_diag mxE mul_diag_mx mxE [map_mx _ _ _ _]mxE mulrAC.
Qed.

End Ret.

Lemma key_orthE n (H T Z : 'M[C]_(2 * n)) : (0 < n)%N -> hermitian H ->
  exists (p : seq nat) (fl : nat -> bool), perm_eq p (iota 0 n) /\ key_orth H T Z = Z *m PiM C n p fl.
Proof.
move=> n0 hH; rewrite /key_orth; case: ifP => _; last by exists (key_perm H T), (key_flip H T); split=> //; exact: key_perm_ok.
by exists (iota 0 n), (fun => false); split=> //; rewrite PiM_id mulmx1.
Qed.

(* everything about the returned pair in one statement *)
Lemma eigh_main n (H : 'M[C]_(2 * n)) (ih := 'i *: (OM C n *m H *m adjm (OM C n))) :
  (0 < n)%N -> hermitian H -> ph_symmetric H ->
  exists (T Z L U : 'M[C]_(2 * n)) (p : seq nat) (fl : nat -> bool),
  [/\ [/\ eigh_sp schur_sort eigvalsh argsort (ofM H) = Ok (ofM L, ofM U), schur_sort (ofM ih) = (ofM T, ofM Z) /\ real_schur ih T Z &
        forall i j : 'I_(2 * n), (i < j)%N -> selected T j -> selected T i],
      [/\ perm_eq p (iota 0 n), key_orth H T Z = Z *m PiM C n p fl, T^T = - T &
       ~~ allclose (ofM (subA H)) (azeros n n) -> p = key_perm H T /\ fl = key_flip H T],
      [/\ unitary U, sform U & L = adjm U *m H *m U],
      forall i, L i i = (if (i < n)%N then 1 else -1) * ((if fl (i %% n)%N then -1 else 1) * lam T (nth 0%N p (i %% n))) &
      forall i j e, i != j -> 0 <= e -> (forall u v : 'I_(2 * n), (u %/ 2 != v %/ 2)%N -> `|T u v| <= e) ->
        `|L i j| <= e + e].
Proof.
move=> n0 hH pH; have [rih aih] := ih_facts hH pH; rewrite -/ih in rih aih.
have m0 : (0 < 2 * n)%N by lia.
have [T [Z [es rs sT]]] := schurP m0 ((realmxP ih).2 rih) aih.
have [rT rZ oZ eZ qT] := rs; have [aT eT] := real_anti aih oZ eZ.
exists T, Z, (adjm (fin_U (key_orth H T Z)) *m H *m fin_U (key_orth H T Z)), (fin_U (key_orth H T Z)).
have [p [fl [hp eO hk]]] : exists (p : seq nat) (fl : nat -> bool), [/\ perm_eq p (iota 0 n), key_orth H T Z = Z *m PiM C n p fl &
     ~~ allclose (ofM (subA H)) (azeros n n) -> p = key_perm H T /\ fl = key_flip H T].
  rewrite /key_orth; case: ifP => _; last by exists (key_perm H T), (key_flip H T); split=> //; exact: key_perm_ok.
  by exists (iota 0 n), (fun => false); split=> //; rewrite PiM_id mulmx1.
exists p, fl.
have rO : cj (key_orth H T Z) = key_orth H T Z by rewrite eO cjM PiM_real (realmxP Z).1.
have oO : key_orth H T Z *m (key_orth H T Z)^T = 1%:M.
  by rewrite eO trmx_mul !mulmxA -[_ *m _ *m (PiM _ _ _ _)^T]mulmxA PiM_orth // mulmx1.
have eC : (key_orth H T Z)^T *m (OM C n *m H *m adjm (OM C n)) *m key_orth H T Z =
    - 'i *: ((PiM C n p fl)^T *m T *m PiM C n p fl).
  by rewrite ih_back -/ih -scalemxAr -scalemxAl eO trmx_mul -eT !mulmxA.
have aP := Pi_anti p fl aT.
split=> //.
- by split=> //; exact: eigh_unfold.
- by split=> //; [exact: fin_unitary|exact: fin_sform].
- move=> i; rewrite fin_conj // -normCKC ph_norm expr1n mul1r eC std_diag //.
  have hi := ltn_ord i; rewrite modn_half //; case: (ltnP i n) => h; rewrite Pi_lam ?mul1r ?mulN1r //; lia.
move=> i j e nij e0 B; rewrite fin_conj // normrM [X in X * _]normrM norm_conjC !ph_norm !mul1r eC.
by apply: std_off => //; exact: Pi_off.
Qed.

Lemma lam_real n (T : 'M[C]_(2 * n)) k : realmx T -> lam T k \is Num.real.
Proof.
move=> r; rewrite /lam; case: (boolP ((2 * k < 2 * n) && (2 * k + 1 < 2 * n))%N) => [/andP[h0 h1]|h]; last first.
  by rewrite get_out // rpred0.
by rewrite -[(2 * k)%N]/(nat_of_ord (Ordinal h0)) -[(2 * k + 1)%N]/(nat_of_ord (Ordinal h1)) ofM_get.
Qed.

(* U is a symplectic unitary of the form [[s, t^*], [t, s^*]], the first returned matrix is U^dagger H U, its diagonal
   is (-S, S) with S real, and its other entries are at most 2e-10 in absolute value; no assertion fails *)
Theorem C52_eigh_sp n (H : 'M[C]_(2 * n)) : (0 < n)%N -> hermitian H -> ph_symmetric H ->
  exists (L U : 'M[C]_(2 * n)) (S : nat -> C),
  [/\ eigh_sp schur_sort eigvalsh argsort (ofM H) = Ok (ofM L, ofM U),
      unitary U, symplectic U /\ symp_form U, L = adjm U *m H *m U &
      [/\ forall k, S k \is Num.real, forall i, L i i = if (i < n)%N then - S i else S (i - n)%N &
          forall i j, i != j -> `|L i j| <= 2%:R * (10%:R ^+ 10)^-1]].
Proof.
move=> n0 hH pH; have [T [Z [L [U [p [fl [[e1 [_ rs] sT] [hp _ aT _] [uU fU eL] dL oL]]]]]]] := eigh_main n0 hH pH.
have [rT rZ oZ eZ qT] := rs.
exists L, U, (fun k => - ((if fl k then -1 else 1) * lam T (nth 0%N p k))); split=> //.
- by split; [rewrite /symplectic -SM_swap; exact: sform_symp|exact/sform_form].
split=> [k|i|i j nij].
- have r := lam_real (nth 0%N p k) rT.
  by rewrite rpredN rpredM //; case: ifP => _; rewrite ?rpredN rpred1.
- rewrite dL; have hi := ltn_ord i; rewrite modn_half //; case: ifP => h; first by rewrite mul1r opprK.
  by rewrite mulN1r.
by rewrite mulr_natl mulr2n; apply: oL => //; [exact/ltW/eps10_gt0|exact: sorted_off].
Qed.

(* when every nonzero eigenvalue of H is larger than 1e-10, U^dagger H U is exactly diag(-S, S) *)
Theorem C52_diagonal n (H : 'M[C]_(2 * n)) : (0 < n)%N -> hermitian H -> ph_symmetric H -> gapped H ->
  exists (L U : 'M[C]_(2 * n)) (S : nat -> C),
  [/\ eigh_sp schur_sort eigvalsh argsort (ofM H) = Ok (ofM L, ofM U),
      unitary U, symplectic U /\ symp_form U, L = adjm U *m H *m U &
      forall k, S k \is Num.real] /\
  forall i j, L i j = if i == j then (if (i < n)%N then - S i else S (i - n)%N) else 0.
Proof.
move=> n0 hH pH gH; have [T [Z [L [U [p [fl [[e1 [_ rs] sT] [hp _ aT _] [uU fU eL] dL oL]]]]]]] := eigh_main n0 hH pH.
have [rT rZ oZ eZ qT] := rs.
exists L, U, (fun k => - ((if fl k then -1 else 1) * lam T (nth 0%N p k))); split.
  split=> //; first by split; [rewrite /symplectic -SM_swap; exact: sform_symp|exact/sform_form].
  move=> k; have r := lam_real (nth 0%N p k) rT.
  by rewrite rpredN rpredM //; case: ifP => _; rewrite ?rpredN rpred1.
move=> i j; case: (i =P j) => [<-|/eqP nij].
  rewrite dL; have hi := ltn_ord i; rewrite modn_half //; case: ifP => h; first by rewrite mul1r opprK.
  by rewrite mulN1r.
apply/eqP; rewrite -normr_le0 -[0 in X in _ <= X]addr0; apply: oL => // u v huv; rewrite normr_le0.
apply/negPn/negP => nz.
have K (a b : 'I_(2 * n)) : val b = a.+1 -> T a b != 0 -> eps10 C < `|T a b|.
  move=> eb nab; have [x x0 ex] := block_eig qT aT eb nab.
  have : eigenvalue H (- T a b).
    apply/eigenvalueP; exists (x *m Z^T *m OM C n).
      have -> : H = adjm (OM C n) *m (OM C n *m H *m adjm (OM C n)) *m OM C n.
        by rewrite !mulmxA (unitaryC (Omega_unitary C n)) mul1mx -mulmxA (unitaryC (Omega_unitary C n)) mulmx1.
      rewrite ih_back eZ !mulmxA -[_ *m OM C n *m adjm _]mulmxA (Omega_unitary C n) mulmx1.
      rewrite -scalemxAr !mulmxA -[_ *m Z^T *m Z]mulmxA (mulmx1C oZ) mulmx1 ex -!scalemxAl scalerA.
      congr (_ *: _); rewrite mulrA mulrNN -expr2 sqrCi mulN1r //.
    apply: contraNneq x0 => e0.
    have := congr1 (fun M => M *m adjm (OM C n) *m Z) e0.
    by rewrite -[_ *m OM C n *m _]mulmxA (Omega_unitary C n) mulmx1 -mulmxA (mulmx1C oZ) mulmx1 !mul0mx => ->.
  by case/gH => [/eqP|]; rewrite ?normrN // oppr_eq0 (negbTE nab).
case: (v =P u.+1 :> nat) => [e|/eqP h1].
  have := K u v e nz; rewrite real_ltNge ?normr_real ?gtr0_real ?eps10_gt0 //.
  by rewrite (sorted_off qT aT sT).
case: (u =P v.+1 :> nat) => [e|/eqP h2]; last by case/eqP: nz; exact: far0.
rewrite antiE // oppr_eq0 in nz; have := K v u e nz; rewrite real_ltNge ?normr_real ?gtr0_real ?eps10_gt0 //.
by rewrite (sorted_off qT aT sT) // eq_sym.
Qed.

End C52.
