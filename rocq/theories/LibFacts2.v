(* LibFacts2.v -- reordering and K, coefficient matrices, symplectic test, canonical form, algebra matrix *)
Set Warnings "-notation-overridden,-ambiguous-paths".
From mathcomp Require Import all_ssreflect all_algebra.
From mathcomp.zify Require Import zify.
From Verif Require Import Base ArrC MLib JW OpFam FermAlg LibFacts.
Set Implicit Arguments.
Unset Strict Implicit.
Unset Printing Implicit Defensive.
Import Order.Theory GRing.Theory Num.Theory.
Local Open Scope ring_scope.

Section Facts2.
Variable C : numClosedFieldType.
Local Notation arr := (arr C).
Add Ring cring2 : (ring_of C).

Lemma get_upd (A : arr) i j v r c : (r < nr A)%N -> (c < nc A)%N ->
  get (upd A i j v) r c = if (r == i) && (c == j) then v else get A r c.
Proof. by move=> hr hc; rewrite getE. Qed.

(* loops that write entries, one or two per iteration, starting from a given array *)
Lemma foldl_upd (f : arr -> nat -> arr) (A0 : arr) m (spec : nat -> nat -> nat -> C) :
  (forall A k, nr (f A k) = nr A /\ nc (f A k) = nc A) ->
  (forall r c, (r < nr A0)%N -> (c < nc A0)%N -> spec 0%N r c = get A0 r c) ->
  (forall A k, (k < m)%N -> nr A = nr A0 -> nc A = nc A0 ->
     (forall r c, (r < nr A0)%N -> (c < nc A0)%N -> get A r c = spec k r c) ->
     forall r c, (r < nr A0)%N -> (c < nc A0)%N -> get (f A k) r c = spec k.+1 r c) ->
  foldl f A0 (iota 0 m) = mk (nr A0) (nc A0) (spec m).
Proof.
move=> Hs H0 HS.
have K k : (k <= m)%N -> let A := foldl f A0 (iota 0 k) in [/\ nr A = nr A0, nc A = nc A0 &
   forall r c, (r < nr A0)%N -> (c < nc A0)%N -> get A r c = spec k r c].
  elim: k => [|k IH] hk; first by split=> // r c hr hc; rewrite H0.
  rewrite -(addn1 k) iotaD foldl_cat /= add0n addn1; have [e1 e2 e3] := IH (ltnW hk).
  by split; rewrite ?(Hs _ _).1 ?(Hs _ _).2 // => r c hr hc; apply: HS.
by have [e1 e2 e3] := K m (leqnn m); apply: mkP.
Qed.

(* ------------------------------ reordering and K ------------------------------ *)
(* row r of the reordering picks column ord_col r *)
Definition ord_col n r := (if (r < n)%N then 2 * r else 2 * (r - n) + 1)%N.

Lemma reorderingE n : build_reordering C n = mk (2 * n) (2 * n) (fun r c => (c == ord_col n r)%:R).
Proof.
rewrite /build_reordering; rewrite (@foldl_upd _ _ _ (fun k r c =>
  if (r < n)%N then ((r < k) && (c == 2 * r))%N%:R else ((r - n < k) && (c == 2 * (r - n) + 1))%N%:R)) //=.
- by apply: eq_mk => r c hr hc; rewrite /ord_col; case: (ltnP r n) => h //; rewrite (_ : (r - n < n)%N) //; lia.
- by move=> r c hr hc; rewrite getE //; case: ifP.
move=> A k hk e1 e2 H r c hr hc; rewrite get_upd /= ?e1 ?e2 // get_upd ?e1 ?e2 // H //.
case: (ltnP r n) => h.
  rewrite (_ : (r == k + n)%N = false) /=; last by apply/eqP; lia.
  rewrite ltnS [(r <= k)%N]leq_eqVlt; case: (r =P k) => [->|ne] /=; last by [].
  by rewrite ltnn /=; case: eqP.
rewrite (_ : (r == k)%N = false) /=; last by apply/eqP; lia.
rewrite ltnS [(r - n <= k)%N]leq_eqVlt; case: (r =P k + n)%N => [->|ne] /=.
  by rewrite addnK eqxx ltnn /=; case: eqP.
by rewrite (_ : (r - n == k)%N = false) //; apply/eqP; lia.
Qed.

Lemma ord_col_lt n r : (r < 2 * n)%N -> (ord_col n r < 2 * n)%N.
Proof. by rewrite /ord_col; case: (ltnP r n) => h1 h2; lia. Qed.
Lemma ord_col_inj n r s : (r < 2 * n)%N -> (s < 2 * n)%N -> ord_col n r = ord_col n s -> r = s.
Proof. by rewrite /ord_col; case: (ltnP r n) => h1; case: (ltnP s n) => h2; lia. Qed.

Definition PM n : 'M[C]_(2 * n) := toM _ _ (build_reordering C n).
Lemma PME n (i j : 'I_(2 * n)) : PM n i j = (j == ord_col n i :> nat)%:R.
Proof. by rewrite mxE reorderingE getE. Qed.

Lemma PM_mulr n (X : 'M[C]_(2 * n)) i j : (PM n *m X) i j = X (Ordinal (ord_col_lt (ltn_ord i))) j.
Proof.
rewrite mxE (bigD1 (Ordinal (ord_col_lt (ltn_ord i)))) //= big1 ?addr0 => [|k nk].
  by rewrite PME eqxx mul1r.
by rewrite PME (negbTE (_ : k != ord_col n i :> nat)) ?mul0r.
Qed.
Lemma PM_mulrt n (X : 'M[C]_(2 * n)) i j : (X *m (PM n)^T) i j = X i (Ordinal (ord_col_lt (ltn_ord j))).
Proof. by rewrite -[X *m _]trmxK mxE trmx_mul trmxK PM_mulr mxE. Qed.

Lemma PM_orth n : PM n *m (PM n)^T = 1%:M.
Proof.
apply/matrixP => i j; rewrite PM_mulrt PME mxE; congr ((nat_of_bool _)%:R).
apply/eqP/eqP => [e|->] //; apply: val_inj; exact: (ord_col_inj (ltn_ord i) (ltn_ord j) (esym e)).
Qed.

Lemma PM_adj n : adjm (PM n) = (PM n)^T.
Proof. by apply/matrixP => i j; rewrite !mxE reorderingE getE // conjC_nat. Qed.

Definition PhM n : 'M[C]_(2 * n) := \matrix_(i, j) (if i == j then (if (i < n)%N then 1 else - 'i) else 0).
Definition WM n : 'M[C]_(2 * n) := toM _ _ (akron (aeye n) (K_w C)).
Definition OM n : 'M[C]_(2 * n) := toM _ _ (build_Omega C n).
Definition KM n : 'M[C]_(2 * n) := toM _ _ (build_K C n).

Lemma nr_Om n : nr (build_Omega C n) = (2 * n)%N. Proof. by rewrite /= addnn mul2n. Qed.
Lemma nc_Om n : nc (build_Omega C n) = (2 * n)%N. Proof. by rewrite /= addnn mul2n. Qed.
Lemma nr_re n : nr (build_reordering C n) = (2 * n)%N. Proof. by rewrite reorderingE. Qed.
Lemma nc_re n : nc (build_reordering C n) = (2 * n)%N. Proof. by rewrite reorderingE. Qed.

Lemma KME n : KM n = PhM n *m PM n *m WM n *m OM n.
Proof.
rewrite /KM /build_K.
rewrite !(@toM_mul _ _ _ _ (2 * n)%N) ?nr_re ?nc_re ?nr_Om ?nc_Om //= ?nc_re //; try by rewrite mulnC.
by congr (_ *m _ *m _ *m _); apply/matrixP => i j; rewrite !mxE getE.
Qed.

Lemma Ph_unitary n : unitary (PhM n).
Proof.
apply/matrixP => i j; rewrite !mxE (bigD1 i) //= big1 ?addr0 => [|k nk]; last first.
  by rewrite !mxE eq_sym (negbTE nk) mul0r.
rewrite !mxE eqxx [j == i]eq_sym; case: (i =P j) => [<-|_]; last by rewrite rmorph0 mulr0.
case: ifP => _; first by rewrite rmorph1 mulr1.
by rewrite rmorphN conjCi opprK mulNr -expr2 sqrCi opprK.
Qed.

(* w w^dagger = 1,  w w^T = i X *)
Lemma K_wE : K_w C = arr2 (sqrt2 C)^-1 (- 'i * (sqrt2 C)^-1) ('i * (sqrt2 C)^-1) (- (sqrt2 C)^-1).
Proof. by apply: arr2P => //; rewrite getE //= getE //= ?mulr1 ?mulrN1 // mulrC. Qed.

Lemma K_w_unitary : amul (K_w C) (aadj (K_w C)) = aeye 2.
Proof.
rewrite K_wE arr2_adj arr2_mul eye2E !rmorphM !rmorphN /= !nu_real conjCi.
have h := nu2D C; set nu := (sqrt2 C)^-1 in h *.
have hi : 'i * 'i = -1 :> C by rewrite -expr2 sqrCi.
congr arr2.
- by transitivity (nu * nu - ('i * 'i) * (nu * nu)); [xring C|rewrite hi mulN1r opprK].
- by xring C.
- by xring C.
- by transitivity (nu * nu - ('i * 'i) * (nu * nu)); [xring C|rewrite hi mulN1r opprK].
Qed.

Lemma atr_arr2 (a b c d : C) : atr (arr2 a b c d) = arr2 a c b d.
Proof. by apply: arr2P => //; rewrite getE //= getE. Qed.

Lemma K_w_tr : amul (K_w C) (atr (K_w C)) = ascale 'i (pauli_x C).
Proof.
rewrite K_wE atr_arr2 arr2_mul pxE arr2_scale.
have h := nu2D C; set nu := (sqrt2 C)^-1 in h *.
have hi : 'i * 'i = -1 :> C by rewrite -expr2 sqrCi.
congr arr2.
- by transitivity (nu * nu + ('i * 'i) * (nu * nu)); [xring C|rewrite hi mulN1r mulr0 addrN].
- by transitivity ('i * (nu * nu + nu * nu)); [xring C|rewrite h].
- by transitivity ('i * (nu * nu + nu * nu)); [xring C|rewrite h].
- by transitivity (nu * nu + ('i * 'i) * (nu * nu)); [xring C|rewrite hi mulN1r mulr0 addrN].
Qed.

Lemma toM_akron_eye n : toM (2 * n) (2 * n) (akron (aeye n : arr) (aeye 2)) = 1%:M.
Proof. by rewrite akron_eye mulnC toM_eye. Qed.

Lemma W_unitary n : unitary (WM n).
Proof.
rewrite /unitary /WM -toM_adj /=; [|by rewrite mulnC|by rewrite mulnC].
rewrite -(@toM_mul _ _ _ _ (2 * n)%N) /=; try by rewrite mulnC.
rewrite aadj_kron mixed_product // K_w_unitary aadj_eye.
by rewrite -[n in amul (aeye n)]/(nr (aeye n : arr)) amul1l toM_akron_eye.
Qed.

Lemma W_tr n : WM n *m (WM n)^T = 'i *: toM (2 * n) (2 * n) (akron (aeye n) (pauli_x C)).
Proof.
rewrite /WM -toM_tr /=; [|by rewrite mulnC|by rewrite mulnC].
rewrite -(@toM_mul _ _ _ _ (2 * n)%N) /=; try by rewrite mulnC.
rewrite atr_kron mixed_product // K_w_tr akron_scaler toM_scale /=; [|by rewrite mulnC|by rewrite mulnC].
congr (_ *: toM _ _ (akron _ _)); rewrite (_ : atr (aeye n) = aeye n); last first.
  by apply: arrP => // i j /= hi hj; rewrite !getE // eq_sym.
by rewrite -[n in amul (aeye n)]/(nr (aeye n : arr)) amul1l.
Qed.

Lemma K_unitary n : unitary (KM n).
Proof.
rewrite /unitary KME !adjmM PM_adj !mulmxA.
rewrite -[_ *m OM n *m adjm (OM n)]mulmxA (Omega_unitary C n) mulmx1.
rewrite -[_ *m WM n *m adjm (WM n)]mulmxA W_unitary mulmx1.
by rewrite -[PhM n *m PM n *m _]mulmxA PM_orth mulmx1 Ph_unitary.
Qed.

Lemma K_symp n : KM n *m SM C n *m (KM n)^T = SM C n.
Proof.
rewrite KME !trmx_mul.
have -> : PhM n *m PM n *m WM n *m OM n *m SM C n *m ((OM n)^T *m ((WM n)^T *m ((PM n)^T *m (PhM n)^T)))
  = PhM n *m (PM n *m (WM n *m (OM n *m SM C n *m (OM n)^T) *m (WM n)^T) *m (PM n)^T) *m (PhM n)^T.
  by rewrite !mulmxA.
rewrite Omega_S mulmx1 W_tr -scalemxAr -!scalemxAl -scalemxAr -scalemxAl.
apply/matrixP => i j; rewrite mxE mxE (bigD1 j) //= big1 ?addr0 => [|k nk]; last first.
  by rewrite !mxE eq_sym (negbTE nk) mulr0.
rewrite mxE (bigD1 i) //= big1 ?addr0 => [|k nk]; last first.
  by rewrite [PhM n i k]mxE eq_sym (negbTE nk) mul0r.
rewrite PM_mulrt PM_mulr !mxE !eqxx /=.
rewrite getE /=; [|by rewrite -/(ord_col n i) [(n * 2)%N]mulnC ord_col_lt|by rewrite [(n * 2)%N]mulnC ord_col_lt].
rewrite get_S // /sw /ord_col.
have p4 a b c d : get (arr2 a b c d : arr) 0 0 = a. by rewrite getE.
have hd m : ((2 * m) %/ 2 = m)%N by lia.
have hd1 m : ((2 * m + 1) %/ 2 = m)%N by lia.
have hm m : ((2 * m) %% 2 = 0)%N by lia.
have hm1 m : ((2 * m + 1) %% 2 = 1)%N by lia.
have hi := ltn_ord i; have hj := ltn_ord j.
case: (ltnP i n) => h1; case: (ltnP j n) => h2; rewrite ?hd ?hd1 ?hm ?hm1 !getE /= ?mulr0 ?mul0r ?mulr0 //; try lia.
- by rewrite (_ : (j == _ :> nat) = false) //; apply/eqP; lia.
- rewrite (_ : (j == _ :> nat) = (i == (j - n)%N :> nat)); last by apply/eqP/eqP; lia.
  case: eqP => _; rewrite ?mul0r ?mulr0 ?mul0r ?mulr0 //.
  by rewrite !mulr1 mul1r mulrN -expr2 sqrCi opprK.
- rewrite (_ : (j == _ :> nat) = ((i - n)%N == j :> nat)); last by apply/eqP/eqP; lia.
  case: eqP => _; rewrite ?mul0r ?mulr0 ?mul0r ?mulr0 //.
  by rewrite !mulr1 mulrN -expr2 sqrCi opprK.
by rewrite (_ : (j == _ :> nat) = false) //; apply/eqP; lia.
Qed.

End Facts2.
