(* EighFacts.v -- matrix facts behind eigh_sp: real orthogonal matrices in the Dirac basis, the change from block
   canonical form to diagonal form, block permutations *)
Set Warnings "-notation-overridden,-ambiguous-paths".
From mathcomp Require Import all_ssreflect all_algebra.
From mathcomp.zify Require Import zify.
From Verif Require Import Base ArrC MLib JW OpFam FermAlg LibFacts LibFacts2 LibFacts3 Spectral MEigh.
Set Implicit Arguments.
Unset Strict Implicit.
Unset Printing Implicit Defensive.
Import Order.Theory GRing.Theory Num.Theory.
Local Open Scope ring_scope.

Section EF.
Variable C : numClosedFieldType.
Local Notation arr := (arr C).
Add Ring cringEF : (ring_of C).

Local Notation cj := (map_mx (@conjC C)).

Lemma cjM m n p (A : 'M[C]_(m, n)) (B : 'M[C]_(n, p)) : cj (A *m B) = cj A *m cj B.
Proof. exact: map_mxM. Qed.
Lemma cjK m n (A : 'M[C]_(m, n)) : cj (cj A) = A.
Proof. by apply/matrixP => i j; rewrite !mxE conjCK. Qed.
Lemma cj_tr m n (A : 'M[C]_(m, n)) : cj A^T = (cj A)^T.
Proof. by rewrite map_trmx. Qed.
Lemma cj_adj m n (A : 'M[C]_(m, n)) : cj (adjm A) = A^T.
Proof. by apply/matrixP => i j; rewrite !mxE conjCK. Qed.

(* S U^* S = U: the form [[s, t^*], [t, s^*]] *)
Definition sform n (U : 'M[C]_(2 * n)) := SM C n *m cj U *m SM C n = U.

Lemma SM_cj n : cj (SM C n) = SM C n.
Proof. by rewrite -[in LHS](S_tr C n) cj_tr -/(adjm (SM C n)) S_adj. Qed.

Lemma sform_mul n (U V : 'M[C]_(2 * n)) : sform U -> sform V -> sform (U *m V).
Proof.
rewrite /sform => u v; rewrite cjM -{2}u -{2}v.
by rewrite !mulmxA -[_ *m SM C n *m SM C n]mulmxA S_sqr mulmx1.
Qed.
Lemma sform_adj n (U : 'M[C]_(2 * n)) : sform U -> sform (adjm U).
Proof.
rewrite /sform => u; rewrite -{2}u !adjmM S_adj mulmxA; congr (_ *m _ *m _).
by rewrite /adjm cj_tr.
Qed.

Lemma sformE n (U : 'M[C]_(2 * n)) : sform U <->
  forall i j i' j' : 'I_(2 * n), i' = sw n i :> nat -> j' = sw n j :> nat -> U i' j' = (U i j)^*.
Proof.
have E (i j i' j' : 'I_(2 * n)) : i' = sw n i :> nat -> j' = sw n j :> nat -> (SM C n *m cj U *m SM C n) i' j' = (U i j)^*.
  move=> hi hj; rewrite mxE (bigD1 j) //= big1 ?addr0 => [|k nk]; last first.
    rewrite SME (_ : (j' == _ :> nat) = false) ?mulr0 //; apply/eqP => e.
    by case/eqP: nk; apply: val_inj; rewrite /= -(swK (ltn_ord k)) -e hj swK.
  rewrite SME hj eqxx mulr1 mxE (bigD1 i) //= big1 ?addr0 => [|k nk]; last first.
    rewrite SME (_ : (k == _ :> nat) = false) ?mul0r //; apply/eqP => e.
    by case/eqP: nk; apply: val_inj; rewrite /= e hi swK.
  by rewrite SME hi swK // eqxx mul1r mxE.
split=> [h i j i' j' hi hj|h]; first by rewrite -{1}h (E i j).
apply/matrixP => i j; pose i' := Ordinal (sw_lt (ltn_ord i)); pose j' := Ordinal (sw_lt (ltn_ord j)).
by rewrite (E i' j') /= ?swK // (h i j) ?conjCK.
Qed.

Lemma sform_symp n (U : 'M[C]_(2 * n)) : unitary U -> sform U -> U *m SM C n *m U^T = SM C n.
Proof.
move=> u f; rewrite -{1}f -[_ *m SM C n *m SM C n]mulmxA S_sqr mulmx1 -mulmxA.
have -> : cj U *m U^T = 1%:M by rewrite -cj_adj -cjM u map_mx1.
by rewrite mulmx1.
Qed.

Lemma symp_sform n (U : 'M[C]_(2 * n)) : unitary U -> U *m SM C n *m U^T = SM C n -> sform U.
Proof.
move=> u s; rewrite /sform.
have e : U *m SM C n = SM C n *m cj U.
  have e1 : U^T *m cj U = 1%:M by rewrite -cj_adj -cjM unitaryC // map_mx1.
  by rewrite -{2}s -!mulmxA e1 mulmx1.
by rewrite -e -mulmxA S_sqr mulmx1.
Qed.

Lemma Omega_adj n : adjm (OM C n) = SM C n *m (OM C n)^T.
Proof.
have := Omega_S C n; rewrite -/(OM C n) -mulmxA => h.
by rewrite -[RHS]mul1mx -(unitaryC (Omega_unitary C n)) -/(OM C n) -mulmxA h mulmx1.
Qed.
Lemma Omega_cj n : cj (OM C n) = OM C n *m SM C n.
Proof.
have := congr1 (fun M => M^T) (Omega_adj n).
by rewrite /adjm trmxK trmx_mul trmxK S_tr.
Qed.

Lemma sform_real n (O : 'M[C]_(2 * n)) : cj O = O -> sform (adjm (OM C n) *m O *m OM C n).
Proof.
move=> r; rewrite /sform !cjM r cj_adj Omega_cj !mulmxA -Omega_adj.
by rewrite -[_ *m SM C n *m SM C n]mulmxA S_sqr mulmx1.
Qed.
Lemma real_sform n (U : 'M[C]_(2 * n)) : sform U -> cj (OM C n *m U *m adjm (OM C n)) = OM C n *m U *m adjm (OM C n).
Proof.
move=> f; rewrite !cjM cj_adj Omega_cj -{2}f Omega_adj !mulmxA.
by rewrite -[_ *m SM C n *m SM C n]mulmxA S_sqr mulmx1.
Qed.

Lemma sform_K n : sform (KM C n).
Proof. by apply: symp_sform; [exact: K_unitary|exact: K_symp]. Qed.

(* ---------------- from canonical to diagonal form ---------------- *)
Lemma WME n (a u : 'I_(2 * n)) : WM C n a u = (a %/ 2 == u %/ 2)%N%:R * get (K_w C) (a %% 2) (u %% 2).
Proof.
have h1 := ltn_ord a; have h2 := ltn_ord u.
by rewrite mxE getE /=; try lia; rewrite getE //; lia.
Qed.

Lemma block_sum n k (F : nat -> C) : (k < n)%N ->
  \sum_(u < 2 * n) (k == u %/ 2)%N%:R * F u = F (2 * k)%N + F (2 * k + 1)%N.
Proof.
move=> hk; have h0 : (2 * k < 2 * n)%N by lia. have h1 : (2 * k + 1 < 2 * n)%N by lia.
rewrite (bigD1 (Ordinal h0)) //= (bigD1 (Ordinal h1)) /=; last by apply/eqP => e; have := congr1 val e => /=; lia.
rewrite big1 ?addr0 => [|u /andP[n0 n1]].
  have -> : (2 * k %/ 2 = k)%N by lia. have -> : ((2 * k + 1) %/ 2 = k)%N by lia.
  by rewrite eqxx !mul1r.
rewrite (_ : (k == u %/ 2)%N = false) ?mul0r //; apply/eqP => e.
case: (u %% 2 =P 0)%N => e2; [case/eqP: n0|case/eqP: n1]; apply: val_inj => /=; lia.
Qed.

Lemma WTW n (T : 'M[C]_(2 * n)) (a b : 'I_(2 * n)) (t : nat -> nat -> C) (w := get (K_w C)) :
  (forall u v : 'I_(2 * n), T u v = t u v) ->
  let k := (a %/ 2)%N in let l := (b %/ 2)%N in let p := (a %% 2)%N in let q := (b %% 2)%N in
  (WM C n *m T *m adjm (WM C n)) a b =
   w p 0%N * (t (2 * k)%N (2 * l)%N * (w q 0%N)^* + t (2 * k)%N (2 * l + 1)%N * (w q 1%N)^*) +
   w p 1%N * (t (2 * k + 1)%N (2 * l)%N * (w q 0%N)^* + t (2 * k + 1)%N (2 * l + 1)%N * (w q 1%N)^*).
Proof.
move=> ht k l p q; have h1 := ltn_ord a; have h2 := ltn_ord b.
have hk : (k < n)%N by rewrite /k; lia. have hl : (l < n)%N by rewrite /l; lia.
rewrite -mulmxA mxE.
pose G u : C := \sum_(v < 2 * n) (l == v %/ 2)%N%:R * (t u v * (w q (v %% 2)%N)^*).
rewrite (eq_bigr (fun u : 'I_(2 * n) => (k == u %/ 2)%N%:R * (w p (u %% 2)%N * G u))) => [|u _]; last first.
  rewrite WME -/k -/p -mulrA; congr (_ * (_ * _)); rewrite mxE; apply: eq_bigr => v _.
  by rewrite ht [adjm _ _ _]mxE [map_mx _ _ _ _]mxE WME rmorphM conjC_nat -/l -/q -/w; set x := (w _ _)^*; xring C.
rewrite (block_sum (fun u => w p (u %% 2)%N * G u)) // /G !(block_sum (fun v => t _ v * (w q (v %% 2)%N)^*)) //.
have e0 m : (2 * m %% 2 = 0)%N by lia. have e1 m : ((2 * m + 1) %% 2 = 1)%N by lia.
by rewrite !e0 !e1.
Qed.

Lemma KwE : [/\ get (K_w C) 0 0 = (sqrt2 C)^-1, get (K_w C) 0 1 = - 'i * (sqrt2 C)^-1,
   get (K_w C) 1 0 = 'i * (sqrt2 C)^-1 & get (K_w C) 1 1 = - (sqrt2 C)^-1].
Proof. by rewrite K_wE; split; rewrite getE. Qed.

Lemma Kw_norm p q : (p < 2)%N -> (q < 2)%N -> `|get (K_w C) p q| = (sqrt2 C)^-1.
Proof.
have nu0 : 0 <= (sqrt2 C)^-1 by rewrite invr_ge0 ltW // sqrt2_gt0.
have [e1 e2 e3 e4] := KwE.
by case: p => [|[|//]] _; case: q => [|[|//]] _; rewrite ?e1 ?e2 ?e3 ?e4 ?normrM ?normrN ?normCi ?mul1r ger0_norm.
Qed.

(* the diagonal and the within-block entries for an antisymmetric T *)
Lemma WTW_diag n (T : 'M[C]_(2 * n)) (a : 'I_(2 * n)) (t : nat -> nat -> C) :
  (forall u v : 'I_(2 * n), T u v = t u v) -> (forall u v, t u v = - t v u) ->
  - 'i * (WM C n *m T *m adjm (WM C n)) a a =
  (if (a %% 2 == 0)%N then 1 else -1) * t (2 * (a %/ 2))%N (2 * (a %/ 2) + 1)%N.
Proof.
move=> ht at_; rewrite (WTW _ _ ht) /=.
set k := (a %/ 2)%N; have [e1 e2 e3 e4] := KwE.
have z u : t u u = 0.
  have h2 : (2%:R : C) != 0 by rewrite pnatr_eq0.
  by apply: (mulfI h2); rewrite mulr0 mulr_natl mulr2n {1}at_ addNr.
rewrite !z (at_ (2 * k + 1)%N) !mul0r add0r addr0; set l := t _ _.
have h := nu2D C; have hi : 'i * 'i = -1 :> C by rewrite -expr2 sqrCi.
have : (a %% 2 < 2)%N by rewrite ltn_mod.
case: (a %% 2)%N => [|[|//]] _ /=; rewrite ?e1 ?e2 ?e3 ?e4 !rmorphM ?rmorphN /= ?conjCi !nu_real; set nu := (sqrt2 C)^-1 in h *.
  transitivity (- ('i * 'i) * (nu * nu + nu * nu) * l); first by xring C.
  by rewrite h hi opprK !mul1r.
transitivity (('i * 'i) * (nu * nu + nu * nu) * l); first by xring C.
by rewrite h hi mulr1.
Qed.

Lemma WTW_in n (T : 'M[C]_(2 * n)) (a b : 'I_(2 * n)) (t : nat -> nat -> C) :
  (forall u v : 'I_(2 * n), T u v = t u v) -> (forall u v, t u v = - t v u) -> (a %/ 2 = b %/ 2)%N -> a != b ->
  (WM C n *m T *m adjm (WM C n)) a b = 0.
Proof.
move=> ht at_ eb nb; rewrite (WTW _ _ ht) /= -eb.
have nm : (a %% 2 != b %% 2)%N.
  apply/eqP => em; case/eqP: nb; apply: val_inj => /=; rewrite (divn_eq a 2) (divn_eq b 2) eb em; done.
set k := (a %/ 2)%N; have [e1 e2 e3 e4] := KwE.
have z u : t u u = 0.
  have h2 : (2%:R : C) != 0 by rewrite pnatr_eq0.
  by apply: (mulfI h2); rewrite mulr0 mulr_natl mulr2n {1}at_ addNr.
rewrite !z (at_ (2 * k + 1)%N) !mul0r add0r addr0; set l := t _ _.
have hi : 'i * 'i = -1 :> C by rewrite -expr2 sqrCi.
have : (a %% 2 < 2)%N by rewrite ltn_mod. have : (b %% 2 < 2)%N by rewrite ltn_mod.
move: nm; case: (a %% 2)%N => [|[|//]]; case: (b %% 2)%N => [|[|//]] // _ _ _;
  rewrite ?e1 ?e2 ?e3 ?e4 !rmorphM ?rmorphN /= ?conjCi !nu_real; set nu := (sqrt2 C)^-1.
  by transitivity (- l * nu * nu * (1 + 'i * 'i)); [xring C|rewrite hi addrN mulr0].
by transitivity (l * nu * nu * (1 + 'i * 'i)); [xring C|rewrite hi addrN mulr0].
Qed.

Lemma WTW_bound n (T : 'M[C]_(2 * n)) (a b : 'I_(2 * n)) (e : C) :
  (forall u v : 'I_(2 * n), (u %/ 2 = a %/ 2)%N -> (v %/ 2 = b %/ 2)%N -> `|T u v| <= e) ->
  `|(WM C n *m T *m adjm (WM C n)) a b| <= e + e.
Proof.
move=> hT; have ht (u v : 'I_(2 * n)) : T u v = get (ofM T) u v by rewrite ofM_get.
rewrite (WTW _ _ ht) /=; have h1 := ltn_ord a; have h2 := ltn_ord b.
have B u v : (u %/ 2 = a %/ 2)%N -> (v %/ 2 = b %/ 2)%N -> `|get (ofM T) u v| <= e.
  move=> hu hv; have lu : (u < 2 * n)%N by lia. have lv : (v < 2 * n)%N by lia.
  by rewrite -[u]/(nat_of_ord (Ordinal lu)) -[v]/(nat_of_ord (Ordinal lv)) ofM_get; apply: hT.
set k := (a %/ 2)%N in B *; set l := (b %/ 2)%N in B *.
have nu0 : 0 <= (sqrt2 C)^-1 by rewrite invr_ge0 ltW // sqrt2_gt0.
have K p q r s u v : (p < 2)%N -> (q < 2)%N -> (r < 2)%N -> (s < 2)%N -> (u %/ 2 = k)%N -> (v %/ 2 = l)%N ->
  `|get (K_w C) p q * (get (ofM T) u v * (get (K_w C) r s)^*)| <= (sqrt2 C)^-1 * (sqrt2 C)^-1 * e.
  move=> hp hq hr hs hu hv; rewrite !normrM norm_conjC !Kw_norm //.
  rewrite [X in _ * X]mulrC mulrA ler_wpmul2l ?mulr_ge0 //; exact: B.
have hp : (a %% 2 < 2)%N by rewrite ltn_mod. have hq : (b %% 2 < 2)%N by rewrite ltn_mod.
have d0 m : (2 * m %/ 2 = m)%N by lia. have d1 m : ((2 * m + 1) %/ 2 = m)%N by lia.
rewrite !mulrDr; apply: le_trans (ler_norm_add _ _) _.
have := ler_add (ler_add (K (a %% 2)%N 0%N (b %% 2)%N 0%N (2 * k)%N (2 * l)%N hp isT hq isT (d0 _) (d0 _))
   (K (a %% 2)%N 0%N (b %% 2)%N 1%N (2 * k)%N (2 * l + 1)%N hp isT hq isT (d0 _) (d1 _)))
  (ler_add (K (a %% 2)%N 1%N (b %% 2)%N 0%N (2 * k + 1)%N (2 * l)%N hp isT hq isT (d1 _) (d0 _))
   (K (a %% 2)%N 1%N (b %% 2)%N 1%N (2 * k + 1)%N (2 * l + 1)%N hp isT hq isT (d1 _) (d1 _))).
have hh : (sqrt2 C)^-1 * (sqrt2 C)^-1 * e + (sqrt2 C)^-1 * (sqrt2 C)^-1 * e = e by rewrite -mulrDl nu2D mul1r.
rewrite !hh => h; apply: le_trans h.
by apply: ler_add; exact: ler_norm_add.
Qed.

(* P: phases times reordering *)
Definition QM n : 'M[C]_(2 * n) := PhM C n *m PM C n *m WM C n.
Lemma QM_unitary n : unitary (QM n).
Proof.
rewrite /QM; apply: unitaryM; last exact: W_unitary; apply: unitaryM; first exact: Ph_unitary.
by rewrite /unitary PM_adj PM_orth.
Qed.
Lemma K_Omega n : KM C n *m adjm (OM C n) = QM n.
Proof. by rewrite KME -mulmxA (Omega_unitary C n) mulmx1. Qed.

Definition phk n (i : nat) : C := if (i < n)%N then 1 else - 'i.
Lemma phk_norm n i : `|phk n i| = 1.
Proof. by rewrite /phk; case: ifP => _; rewrite ?normrN ?normCi ?normr1. Qed.
Lemma QTQ n (T : 'M[C]_(2 * n)) (i j : 'I_(2 * n)) :
  (QM n *m T *m adjm (QM n)) i j = phk n i * (phk n j)^* *
   (WM C n *m T *m adjm (WM C n)) (Ordinal (ord_col_lt (ltn_ord i))) (Ordinal (ord_col_lt (ltn_ord j))).
Proof.
rewrite /QM !adjmM PM_adj.
have -> : PhM C n *m PM C n *m WM C n *m T *m (adjm (WM C n) *m ((PM C n)^T *m adjm (PhM C n)))
  = PhM C n *m (PM C n *m (WM C n *m T *m adjm (WM C n)) *m (PM C n)^T) *m adjm (PhM C n) by rewrite !mulmxA.
rewrite mxE (bigD1 j) //= big1 ?addr0 => [|k nk]; last first.
  by rewrite [adjm _ _ _]mxE [map_mx _ _ _ _]mxE [PhM _ _ _ _]mxE [j == k]eq_sym (negbTE nk) rmorph0 mulr0.
rewrite mxE (bigD1 i) //= big1 ?addr0 => [|k nk]; last first.
  by rewrite [PhM _ _ _ _]mxE eq_sym (negbTE nk) mul0r.
rewrite PM_mulrt PM_mulr [PhM C n i i]mxE [adjm _ _ _]mxE [map_mx _ _ _ _]mxE [PhM _ _ _ _]mxE !eqxx.
by rewrite -/(phk n i) -/(phk n j) mulrAC.
Qed.

(* the k-th superdiagonal entry of the 2x2 diagonal blocks *)
Definition lam n (T : 'M[C]_(2 * n)) (k : nat) : C := get (ofM T) (2 * k)%N (2 * k + 1)%N.

Lemma get_anti m (T : 'M[C]_m) u v : T^T = - T -> get (ofM T) u v = - get (ofM T) v u.
Proof.
move=> hT; case: (boolP ((u < m) && (v < m))%N) => [/andP[hu hv]|h].
  have := congr1 (fun M : 'M_m => M (Ordinal hv) (Ordinal hu)) hT; rewrite !mxE => e.
  by rewrite -[u]/(nat_of_ord (Ordinal hu)) -[v]/(nat_of_ord (Ordinal hv)) !ofM_get.
by rewrite !get_out ?oppr0 //= andbC.
Qed.

Lemma std_diag n (T : 'M[C]_(2 * n)) (i : 'I_(2 * n)) : T^T = - T ->
  (QM n *m (- 'i *: T) *m adjm (QM n)) i i = if (i < n)%N then lam T i else - lam T (i - n).
Proof.
move=> hT; rewrite -scalemxAr -scalemxAl mxE QTQ.
have -> : phk n i * (phk n i)^* = 1 by rewrite -normCK phk_norm expr1n.
rewrite mul1r (@WTW_diag _ _ _ (get (ofM T))); first last.
- by move=> u v; exact: get_anti.
- by move=> u v; rewrite ofM_get.
rewrite /= /ord_col /lam; have h := ltn_ord i; case: (ltnP i n) => hi.
  have -> : (2 * i %% 2 = 0)%N by lia. have -> : (2 * i %/ 2 = i)%N by lia.
  by rewrite mul1r.
have -> : ((2 * (i - n) + 1) %% 2 = 1)%N by lia. have -> : ((2 * (i - n) + 1) %/ 2 = i - n)%N by lia.
by rewrite mulN1r.
Qed.

Lemma std_off n (T : 'M[C]_(2 * n)) (i j : 'I_(2 * n)) (e : C) : T^T = - T -> i != j -> 0 <= e ->
  (forall u v : 'I_(2 * n), (u %/ 2 != v %/ 2)%N -> `|T u v| <= e) ->
  `|(QM n *m (- 'i *: T) *m adjm (QM n)) i j| <= e + e.
Proof.
move=> hT nij e0 B; rewrite -scalemxAr -scalemxAl mxE QTQ !normrM normrN normCi norm_conjC !phk_norm !mul1r.
set a := Ordinal _; set b := Ordinal _.
have nab : a != b.
  by apply: contraNneq nij => e'; apply/eqP/val_inj; apply: (ord_col_inj (ltn_ord i) (ltn_ord j)); have := congr1 val e'.
case: (a %/ 2 =P b %/ 2)%N => eb; last first.
  by apply: WTW_bound => u v hu hv; apply: B; rewrite hu hv; apply/eqP.
rewrite (@WTW_in _ _ _ _ (get (ofM T))) //; first by rewrite normr0 addr_ge0.
- by move=> u v; rewrite ofM_get.
by move=> u v; exact: get_anti.
Qed.

(* ---------------- block permutations ---------------- *)
Definition bpos (p : seq nat) (fl : nat -> bool) (j : nat) : nat :=
  (2 * nth 0 p (j %/ 2) + (odd j (+) fl (j %/ 2)))%N.
Definition PiM n (p : seq nat) (fl : nat -> bool) : 'M[C]_(2 * n) := \matrix_(i, j) (i == bpos p fl j :> nat)%:R.

Lemma bpos_lt n p fl j : perm_eq p (iota 0 n) -> (j < 2 * n)%N -> (bpos p fl j < 2 * n)%N.
Proof.
move=> hp hj; have sp : size p = n by rewrite (perm_size hp) size_iota.
have : nth 0%N p (j %/ 2) \in p by rewrite mem_nth // sp; lia.
by rewrite (perm_mem hp) mem_iota /bpos; case: (_ (+) _); lia.
Qed.
Lemma bpos_half p fl j : (bpos p fl j %/ 2 = nth 0 p (j %/ 2))%N.
Proof. by rewrite /bpos; case: (_ (+) _); lia. Qed.
Lemma bpos_odd p fl j : odd (bpos p fl j) = odd j (+) fl (j %/ 2)%N.
Proof. by rewrite /bpos oddD mul2n odd_double oddb. Qed.
Lemma bpos_inj n p fl i j : perm_eq p (iota 0 n) -> (i < 2 * n)%N -> (j < 2 * n)%N -> bpos p fl i = bpos p fl j -> i = j.
Proof.
move=> hp hi hj e; have sp : size p = n by rewrite (perm_size hp) size_iota.
have up : uniq p by rewrite (perm_uniq hp) iota_uniq.
have := congr1 (fun x => x %/ 2)%N e; rewrite !bpos_half => /eqP; rewrite nth_uniq ?sp //; try lia.
move/eqP => eh; have := congr1 odd e; rewrite !bpos_odd eh => /addIb eo.
by rewrite (divn_eq i 2) (divn_eq j 2) eh !modn2 eo.
Qed.

Lemma PiM_mul n p fl m (M : 'M[C]_(m, 2 * n)) (hp : perm_eq p (iota 0 n)) i (j : 'I_(2 * n)) :
  (M *m PiM n p fl) i j = M i (Ordinal (bpos_lt fl hp (ltn_ord j))).
Proof.
rewrite mxE (bigD1 (Ordinal (bpos_lt fl hp (ltn_ord j)))) //= big1 ?addr0 => [|k nk].
  by rewrite mxE eqxx mulr1.
by rewrite mxE (negbTE (_ : k != bpos p fl j :> nat)) ?mulr0.
Qed.
Lemma PiM_trmul n p fl m (M : 'M[C]_(2 * n, m)) (hp : perm_eq p (iota 0 n)) (i : 'I_(2 * n)) j :
  ((PiM n p fl)^T *m M) i j = M (Ordinal (bpos_lt fl hp (ltn_ord i))) j.
Proof. by rewrite -[_ *m M]trmxK trmx_mul trmxK mxE (PiM_mul _ _ hp) mxE. Qed.
Lemma PiM_real n p fl : cj (PiM n p fl) = PiM n p fl.
Proof. by apply/matrixP => i j; rewrite !mxE conjC_nat. Qed.
Lemma PiM_orth n p fl : perm_eq p (iota 0 n) -> PiM n p fl *m (PiM n p fl)^T = 1%:M.
Proof.
move=> hp; apply: mulmx1C; apply/matrixP => i j; rewrite (PiM_trmul _ _ hp) !mxE /=.
congr ((nat_of_bool _)%:R); apply/eqP/eqP => [e|->] //.
by apply: val_inj; exact: (bpos_inj hp (ltn_ord i) (ltn_ord j) e).
Qed.
Lemma PiM_id n : PiM n (iota 0 n) (fun => false) = 1%:M.
Proof.
apply/matrixP => i j; rewrite !mxE; congr ((nat_of_bool _)%:R); have hj := ltn_ord j.
rewrite /bpos nth_iota ?add0n ?addbF; last lia.
by rewrite -modn2 [(2 * (j %/ 2))%N]mulnC -divn_eq.
Qed.

(* conjugating an antisymmetric matrix by a block permutation *)
Lemma Pi_conj n p fl (T : 'M[C]_(2 * n)) (hp : perm_eq p (iota 0 n)) i j :
  ((PiM n p fl)^T *m T *m PiM n p fl) i j = T (Ordinal (bpos_lt fl hp (ltn_ord i))) (Ordinal (bpos_lt fl hp (ltn_ord j))).
Proof. by rewrite (PiM_mul _ _ hp) (PiM_trmul _ _ hp). Qed.

Lemma Pi_anti n p fl (T : 'M[C]_(2 * n)) : T^T = - T ->
  ((PiM n p fl)^T *m T *m PiM n p fl)^T = - ((PiM n p fl)^T *m T *m PiM n p fl).
Proof. by move=> h; rewrite !trmx_mul trmxK h mulNmx mulmxN mulmxA. Qed.

Lemma Pi_lam n p fl (T : 'M[C]_(2 * n)) k : perm_eq p (iota 0 n) -> T^T = - T -> (k < n)%N ->
  lam ((PiM n p fl)^T *m T *m PiM n p fl) k = (if fl k then -1 else 1) * lam T (nth 0%N p k).
Proof.
move=> hp hT hk; have h0 : (2 * k < 2 * n)%N by lia. have h1 : (2 * k + 1 < 2 * n)%N by lia.
rewrite /lam -{1}[(2 * k)%N]/(nat_of_ord (Ordinal h0)) -{1}[(2 * k + 1)%N]/(nat_of_ord (Ordinal h1)) ofM_get (Pi_conj _ _ hp).
set a := Ordinal _; set b := Ordinal _.
have d0 : (2 * k %/ 2 = k)%N by lia. have d1 : ((2 * k + 1) %/ 2 = k)%N by lia.
have o0 : odd (2 * k) = false by rewrite mul2n odd_double. have o1 : odd (2 * k + 1) by rewrite addn1 /= o0.
have ea : nat_of_ord a = (2 * nth 0 p k + fl k)%N by rewrite /= /bpos d0 o0.
have eb : nat_of_ord b = (2 * nth 0 p k + ~~ fl k)%N by rewrite /= /bpos d1 o1.
have eT x y : T x y = - T y x by have := congr1 (fun M : 'M_(2 * n) => M y x) hT; rewrite !mxE.
rewrite -!ofM_get; case: (fl k) ea eb => ea eb; last by rewrite ea eb addn0 mul1r.
by rewrite ofM_get eT -ofM_get ea eb addn0 mulN1r.
Qed.

Lemma Pi_off n p fl (T : 'M[C]_(2 * n)) (e : C) : perm_eq p (iota 0 n) ->
  (forall u v : 'I_(2 * n), (u %/ 2 != v %/ 2)%N -> `|T u v| <= e) ->
  forall u v : 'I_(2 * n), (u %/ 2 != v %/ 2)%N -> `|((PiM n p fl)^T *m T *m PiM n p fl) u v| <= e.
Proof.
move=> hp B u v huv; rewrite (Pi_conj _ _ hp); apply: B; rewrite /= !bpos_half.
have hu := ltn_ord u; have hv := ltn_ord v.
have sp : size p = n by rewrite (perm_size hp) size_iota.
have up : uniq p by rewrite (perm_uniq hp) iota_uniq.
by rewrite nth_uniq ?sp //; lia.
Qed.

(* the array P of eigh_sp *)
Lemma resort_P n (p : seq nat) (ll la : seq C) (fl := fun k => close (Num.sg (nth 0 ll k)) (Num.sg (nth 0 la k))) :
  perm_eq p (iota 0 n) ->
  exists2 Pm, permutation_to_matrix C [seq Posz k | k <- p] = Some Pm &
    amul (akron Pm (aeye 2)) (eigh_flips n ll la) = ofM (PiM n p fl).
Proof.
move=> hp; have sp : size p = n by rewrite (perm_size hp) size_iota.
rewrite permutation_to_matrixE /in_range size_map sp all_map (_ : all _ _); last first.
  by apply/allP => k; rewrite (perm_mem hp) mem_iota add0n => /= hk; lia.
eexists; first by [].
have -> : eigh_flips n ll la = mk (2 * n) (2 * n) (fun i j => (i == 2 * (j %/ 2) + (odd j (+) fl (j %/ 2)))%N%:R).
  rewrite /eigh_flips (@foldl_upd _ _ _ _ (fun k i j =>
    (i == 2 * (j %/ 2) + (odd j (+) ((j %/ 2 < k) && fl (j %/ 2))))%N%:R)).
  - apply: eq_mk => i j hi hj; congr ((nat_of_bool (_ == _ + nat_of_bool (_ (+) _))%N)%:R).
    by have hj' : (j < 2 * n)%N := hj; rewrite (_ : (j %/ 2 < n)%N) //; lia.
  - by move=> A k; case: ifP.
  - by move=> r c hr hc; rewrite getE //= addbF -modn2 [(2 * (c %/ 2))%N]mulnC -divn_eq.
  move=> A k hk /= e1 e2 IH r c hr hc; rewrite -/(fl k); case: ifP => hf; last first.
    rewrite IH //; congr ((nat_of_bool (_ == _ + nat_of_bool (_ (+) _))%N)%:R).
    case: (c %/ 2 =P k)%N => [->|ne]; first by rewrite hf !andbF.
    by rewrite (_ : (c %/ 2 < k.+1) = (c %/ 2 < k))%N //; lia.
  rewrite !get_upd //= ?e1 ?e2 // IH //.
  case: (c %/ 2 =P k)%N => [ec|ne]; last first.
    rewrite (_ : (c %/ 2 < k.+1) = (c %/ 2 < k))%N; last by lia.
    by do 4! [rewrite ifF; last by apply/negbTE/nandP; right; apply/eqP; lia].
  rewrite ec ltnSn ltnn hf /= addbT addbF.
  have : (c == 2 * k)%N || (c == 2 * k + 1)%N by lia.
  case/orP => /eqP ->.
    have -> : odd (2 * k) = false by rewrite mul2n odd_double.
    rewrite (_ : (2 * k == 2 * k + 1)%N = false); last lia.
    rewrite !andbF eqxx !andbT /=.
    case: (r =P 2 * k + 1)%N => n1; first by rewrite (_ : (r == 2 * k)%N = false) //; apply/eqP; lia.
    by rewrite addn0; case: (r =P 2 * k)%N.
  have -> : odd (2 * k + 1) by rewrite addn1 /= mul2n odd_double.
  rewrite (_ : (2 * k + 1 == 2 * k)%N = false); last lia.
  rewrite !andbF eqxx !andbT /= addn0.
  case: (r =P 2 * k + 1)%N => n1; first by rewrite (_ : (r == 2 * k)%N = false) //; apply/eqP; lia.
  by case: (r =P 2 * k)%N.
apply: (@toM_inj _ _ _ (2 * n) (2 * n)) => //=; try by rewrite mulnC.
rewrite (@toM_mul _ _ _ _ (2 * n)%N) //=; try by rewrite mulnC.
rewrite !toM_ofM; apply/matrixP => i j; have hi := ltn_ord i; have hj := ltn_ord j.
have lu : (2 * (j %/ 2) + (odd j (+) fl (j %/ 2)) < 2 * n)%N by case: (_ (+) _); lia.
rewrite mxE (bigD1 (Ordinal lu)) //= big1 ?addr0 => [|k nk]; last first.
  by rewrite [X in _ * X = 0]mxE (_ : (_ == _ :> nat) = false) ?mulr0 //; apply/negbTE.
rewrite [X in _ * X = _]mxE eqxx mulr1 !mxE getE /=; try lia.
set b := odd j (+) _ in lu *.
have hb : ((2 * (j %/ 2) + b) %/ 2 = j %/ 2)%N by case: (b); lia.
have mb : ((2 * (j %/ 2) + b) %% 2 = b)%N by case: (b); lia.
rewrite hb mb !getE; try (by case: (b)); try lia.
rewrite (nth_map 0%N) /=; last by rewrite sp; lia.
rewrite -natrM mulnb; congr ((nat_of_bool _)%:R); rewrite /bpos -/b.
apply/andP/eqP => [[/eqP e1 /eqP e2]|e]; first by rewrite {1}(divn_eq i 2) e1 e2 mulnC.
by rewrite e; split; apply/eqP; case: (b); lia.
Qed.

End EF.
