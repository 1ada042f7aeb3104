(* Bipartite.v -- hafnian / pfaffian of bipartite matrices; determinant from eigenvalues. *)
Set Warnings "-notation-overridden,-ambiguous-paths".
From mathcomp Require Import all_ssreflect all_fingroup all_algebra.
From mathcomp.zify Require Import zify.
From Verif Require Import Base MCombinatorics CombPerm Matching Pfaffian.
Set Implicit Arguments.
Unset Strict Implicit.
Unset Printing Implicit Defensive.
Import GRing.Theory Num.Theory.
Local Open Scope ring_scope.

Section Bip.
Variable n : nat.
Local Notation L := (@lshift n n).
Local Notation Rr := (@rshift n n).

Definition bip (s : 'S_n) : {set {set 'I_(n + n)}} := [set [set L i; Rr (s i)] | i : 'I_n].

Lemma LR i j : (L i == Rr j) = false.
Proof. by apply/eqP => /(congr1 val) /=; have := ltn_ord i; lia. Qed.
Lemma Linj : injective L. Proof. exact: lshift_inj. Qed.
Lemma Rinj : injective Rr. Proof. exact: rshift_inj. Qed.

Lemma memL s i j : (L i \in [set L j; Rr (s j)]) = (i == j).
Proof. by rewrite !inE LR orbF (inj_eq Linj). Qed.
Lemma memR s i j : (Rr i \in [set L j; Rr (s j)]) = (i == s j).
Proof. by rewrite !inE eq_sym LR /= (inj_eq Rinj). Qed.

Lemma bip_blk_inj s : injective (fun i => [set L i; Rr (s i)]).
Proof.
move=> i j E; have : L i \in [set L i; Rr (s i)] by rewrite memL.
by rewrite E memL => /eqP.
Qed.

Lemma bip_inj : injective bip.
Proof.
move=> s t E; apply/permP => i.
have : [set L i; Rr (s i)] \in bip t by rewrite -E; apply/imsetP; exists i.
case/imsetP => j _ Ej.
have : L i \in [set L j; Rr (t j)] by rewrite -Ej memL.
have : Rr (s i) \in [set L j; Rr (t j)] by rewrite -Ej memR.
by rewrite memL memR => /eqP -> /eqP ->.
Qed.

Lemma bip_perfect s : perfect_matching (bip s).
Proof.
apply/andP; split.
  by apply/forallP => B; apply/implyP => /imsetP[i _ ->]; rewrite cards2 LR.
apply/forallP => x.
suff [i Hi] : exists i, forall j, (x \in [set L j; Rr (s j)]) = (j == i).
  have -> : [set B in bip s | x \in B] = [set [set L i; Rr (s i)]]; last by rewrite cards1.
  apply/setP => B; rewrite !inE; apply/andP/eqP => [[/imsetP[j _ ->]]|->].
    by rewrite Hi => /eqP ->.
  by rewrite Hi; split=> //; apply/imsetP; exists i.
case: (splitP x) => i ei.
  by exists i => j; have -> : x = L i by [apply: val_inj]; rewrite memL eq_sym.
exists ((s^-1)%g i) => j; have -> : x = Rr i by [apply: val_inj].
by rewrite memR -[RHS](inj_eq (@perm_inj _ s)) permKV eq_sym.
Qed.

Lemma big_bip (R : Type) (idx : R) (op : Monoid.com_law idx) s (F : 'I_(n + n) * 'I_(n + n) -> R) :
  \big[op/idx]_(e | edge (bip s) e) F e = \big[op/idx]_(i < n) F (L i, Rr (s i)).
Proof.
have lt i j : (L i < Rr j)%N by rewrite /= (leq_trans (ltn_ord i)) ?leq_addr.
rewrite -(big_imset (h := fun i => (L i, Rr (s i))) F) /=; last by move=> i j _ _ /(congr1 fst) /= /Linj.
apply: eq_bigl => -[a b]; apply/idP/imsetP => [/andP[/= ab /imsetP[i _ E]]|[i _ [-> ->]]].
  exists i => //.
  have : a \in [set L i; Rr (s i)] by rewrite -E !inE eqxx.
  have : b \in [set L i; Rr (s i)] by rewrite -E !inE eqxx orbT.
  rewrite !inE => /orP[] /eqP eb /orP[] /eqP ea; subst a b => //; rewrite ?ltnn // in ab.
  by have := ltn_trans (lt i (s i)) ab; rewrite ltnn.
by rewrite /edge /= lt; apply/imsetP; exists i.
Qed.

Lemma bip_surj (M : {set {set 'I_(n + n)}}) : perfect_matching M ->
  (forall e, edge M e -> (e.1 < n)%N /\ (n <= e.2)%N) -> exists s, M = bip s.
Proof.
move=> PM H.
have P i : exists j, [set L i; Rr j] \in M.
  have /andP[/forallP H2 /forallP H1] := PM.
  have /cards1P[B /setP EB] := H1 (L i).
  have := EB B; rewrite !inE eqxx => /andP[BM iB].
  have /cards2P[x [y [xy Exy]]] : #|B| == 2%N by have := H2 B; rewrite BM.
  have K (y' : 'I_(n+n)) : B = [set L i; y'] -> L i != y' -> exists j, [set L i; Rr j] \in M.
    move=> E ny; case: (ltngtP (L i) y') => [lt|lt|/val_inj e]; last by rewrite e eqxx in ny.
      have he : edge M (L i, y') by rewrite /edge /= lt -E.
      have [_ /= hy] := H _ he.
      case: (splitP y') => j ej; first by have := ltn_ord j; lia.
      by exists j; have -> : Rr j = y' by [apply: val_inj]; rewrite -E.
    have he : edge M (y', L i) by rewrite /edge /= lt setUC -E.
    by have [_ /= hy] := H _ he; have := ltn_ord i; lia.
  move: iB; rewrite Exy !inE => /orP[] /eqP e.
    by apply: (K y); rewrite e.
  by apply: (K x); rewrite e 1?eq_sym // setUC.
pose f i := xchoose (P i).
have fM i : [set L i; Rr (f i)] \in M by exact: xchooseP (P i).
have fi : injective f.
  move=> i j E; have : [set L i; Rr (f i)] = [set L j; Rr (f j)].
    by apply: (perfect_disj PM (fM i) (fM j) (x := Rr (f i))); rewrite ?E !inE eqxx orbT.
  move/setP/(_ (L i)); by rewrite !inE eqxx !LR !orbF (inj_eq Linj) => /esym/eqP.
exists (perm fi); apply/eqP; rewrite eq_sym eqEcard.
rewrite -[X in (X <= _)%N]doubleK -[X in (_ <= X)%N]doubleK !card_perfect ?bip_perfect // leqnn andbT.
by apply/subsetP => B /imsetP[i _ ->]; rewrite permE.
Qed.

Lemma sum_bip (T : comRingType) (g : {set {set 'I_(n + n)}} -> T) (A D : 'M[T]_n) :
  \sum_(M | perfect_matching M) g M * mweight (block_mx 0 A D 0) M =
  \sum_(s : 'S_n) g (bip s) * \prod_(i < n) A i (s i).
Proof.
rewrite (bigID (fun M => [exists s, M == bip s])) /= [X in _ + X]big1 ?addr0; last first.
  move=> M /andP[PM nM].
  have [/forallP H|] := boolP [forall e, edge M e ==> (e.1 < n)%N && (n <= e.2)%N].
    have [|s E] := bip_surj PM; first by move=> e he; have := H e; rewrite he => /andP.
    by case/negP: nM; apply/existsP; exists s; rewrite E.
  rewrite negb_forall => /existsP[e]; rewrite negb_imply => /andP[he ne].
  rewrite /mweight (bigD1 e) //=.
  suff -> : block_mx 0 A D 0 e.1 e.2 = 0 :> T by rewrite mul0r mulr0.
  case: e he ne => a b /andP[/= ab _] ne.
  case: (splitP a) => a' ea; case: (splitP b) => b' eb.
  - have -> : a = L a' by apply: val_inj.
    have -> : b = L b' by apply: val_inj.
    by rewrite block_mxEul mxE.
  - by exfalso; have := ltn_ord a'; have := ltn_ord b'; lia.
  - by exfalso; have := ltn_ord a'; have := ltn_ord b'; lia.
  - have -> : a = Rr a' by apply: val_inj.
    have -> : b = Rr b' by apply: val_inj.
    by rewrite block_mxEdr mxE.
rewrite [RHS](eq_bigr (fun s => g (bip s) * mweight (block_mx 0 A D 0) (bip s))); last first.
  move=> s _; rewrite /mweight big_bip; congr (_ * _); apply: eq_bigr => i _ /=.
  by rewrite block_mxEur.
rewrite -(big_imset (h := bip) (fun M => g M * mweight (block_mx 0 A D 0) M)) /=; last by move=> s t _ _ /bip_inj.
apply: eq_bigl => M; apply/andP/imsetP => [[_ /existsP[s /eqP ->]]|[s _ ->]].
  by exists s.
by split; [exact: bip_perfect|apply/existsP; exists s].
Qed.

Lemma crossings_bip (s : 'S_n) : (crossings (bip s) + ninv s = 'C(n, 2))%N.
Proof.
rewrite /crossings (@big_bip _ _ [com_law of addn] s (fun e => \sum_(f | edge (bip s) f)
    ((e.1 < f.1) && (f.1 < e.2) && (e.2 < f.2)))%N).
rewrite (eq_bigr (fun i : 'I_n => \sum_(j < n | (i < j)%N) (s i < s j)%N)%N); last first.
  move=> i _; rewrite (@big_bip _ _ [com_law of addn] s (fun f =>
    ((L i < f.1)%N && (f.1 < Rr (s i))%N && (Rr (s i) < f.2)%N) : nat)) [RHS]big_mkcond /=.
  apply: eq_bigr => j _; rewrite ltn_add2l (leq_trans (ltn_ord j)) ?leq_addr // andbT.
  by case: (i < j)%N.
rewrite ninvE inversionsE -big_split /= (eq_bigr (fun i : 'I_n => n - i.+1)%N); last first.
  move=> i _; rewrite -big_split /= (eq_bigr (fun _ => 1%N)); last first.
    move=> j ij; have : s i != s j by rewrite (inj_eq perm_inj) -val_eqE neq_ltn ij.
    by rewrite -val_eqE neq_ltn; case: ltngtP.
  rewrite sum1_card -[X in _ = (X - _)%N](card_ord n) -(cardC (fun j : 'I_n => i < j)%N).
  have -> : #|[predC (fun j : 'I_n => i < j)%N]| = i.+1; last by rewrite addnK.
  rewrite -[RHS]card_ord.
  have lei : (i.+1 <= n)%N by [].
  have wi : injective (widen_ord lei) by move=> x y /(congr1 val) /= /val_inj.
  rewrite -(card_image wi); apply: eq_card => j; rewrite !inE -leqNgt.
  apply/idP/imageP => [h|[x _ ->]]; last by rewrite /= -ltnS.
  by exists (Ordinal (h : (j < i.+1)%N)) => //; apply: val_inj.
rewrite -(big_mkord xpredT (fun i => n - i.+1)%N) big_nat_rev /= -triangular_sum.
by rewrite !big_mkord; apply: eq_bigr => i _; have := ltn_ord i; lia.
Qed.

Lemma hafnian_bip (T : comRingType) (A : 'M[T]_n) : hafnian (block_mx 0 A A^T 0) = perm_of A.
Proof.
rewrite /hafnian (eq_bigr (fun M => 1 * mweight (block_mx 0 A A^T 0) M)); last by move=> M _; rewrite mul1r.
by rewrite (sum_bip (fun _ => 1)); apply: eq_bigr => s _; rewrite mul1r.
Qed.

Lemma pfaffian_bip (T : comRingType) (A : 'M[T]_n) :
  pfaffian (block_mx 0 A (- A^T) 0) = (-1) ^+ 'C(n, 2) * \det A.
Proof.
rewrite /pfaffian (sum_bip (fun M => (-1) ^+ crossings M)) big_distrr; apply: eq_bigr => s _ /=.
rewrite mulrA; congr (_ * _); rewrite -(crossings_bip s) exprD -mulrA -odd_ninv signr_odd.
by rewrite -exprD (addnn (ninv s)) -[X in _ = _ * X]signr_odd odd_double mulr1.
Qed.
End Bip.

(* determinant as the product of the eigenvalues *)
Lemma det_eigvals (C : numClosedFieldType) n (A : 'M[C]_n) : \prod_(z <- eigvals A) z = \det A.
Proof.
rewrite /eigvals; case: (closed_field_poly_normal _) => r /= E.
have mon : lead_coef (char_poly A) = 1 by apply/eqP; exact: char_poly_monic.
rewrite mon scale1r in E.
have sz : size r = n.
  by have := size_char_poly A; rewrite E size_prod_XsubC => -[].
have := char_poly_det A; rewrite E -horner_coef0 horner_prod.
rewrite (eq_bigr (fun z => -1 * z)); last by move=> z _; rewrite hornerXsubC sub0r mulN1r.
rewrite big_split /= big_const_seq count_predT sz iter_mulr_1.
by apply: mulfI; rewrite signr_eq0.
Qed.

Lemma foldl_prod (R : ringType) (l : seq R) a : foldl (fun acc x => acc * x) a l = a * \prod_(x <- l) x.
Proof. by elim: l a => [|x l IH] a /=; rewrite ?big_nil ?mulr1 // IH big_cons mulrA. Qed.

Lemma dt_eigen_det (C : numClosedFieldType) (A : arr C) n : nr A = n -> nc A = n ->
  dt_eigen A = Some (\det (toM n n A)).
Proof. by move=> <- h; rewrite /dt_eigen h eqxx /= foldl_prod mul1r det_eigvals. Qed.
