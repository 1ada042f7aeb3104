(* PropEigh5.v -- property C67: the order and the signs of the eigenvalues returned by eigh_sp *)
Set Warnings "-notation-overridden,-ambiguous-paths".
From mathcomp Require Import all_ssreflect all_fingroup all_algebra.
From mathcomp.zify Require Import zify.
From Verif Require Import Base ArrC MCombinatorics MLib JW OpFam FermAlg LibFacts LibFacts2 LibFacts3 PropLib2 PropLib3 Spectral MEigh EighFacts PropEigh1 PropEigh2.
Set Implicit Arguments.
Unset Strict Implicit.
Unset Printing Implicit Defensive.
Import Order.Theory GRing.Theory Num.Theory.
Local Open Scope ring_scope.

Section CharPoly.
Variable C : numClosedFieldType.

Lemma char_poly_cast m m' (e : m = m') (M : 'M[C]_m) : char_poly (castmx (e, e) M) = char_poly M.
Proof. by case: m' / e; rewrite castmx_id. Qed.
Lemma char_poly_block m n (A : 'M[C]_m) (B : 'M[C]_n) : char_poly (block_mx A 0 0 B) = char_poly A * char_poly B.
Proof.
rewrite /char_poly /char_poly_mx map_block_mx !raddf0 scalar_mx_block opp_block_mx add_block_mx !oppr0 !addr0.
exact: det_ublock.
Qed.

Lemma close_pm (x y : C) : `|x| = 1 -> y = - x -> close x y = false.
Proof.
move=> nx ->; apply: lt_geF; rewrite opprK normrN nx mulr1 -mulr2n normrMn nx mulr2n.
by apply: ltr_add; rewrite invf_lt1 ?exprn_gt0 ?ltr0n // exprn_egt1 // ltr1n.
Qed.

Lemma real_sgE (x : C) : x \is Num.real -> x = Num.sg x * `|x|.
Proof.
move=> rx; have [->|nx] := eqVneq x 0; first by rewrite normr0 mulr0.
case/orP: (real_leVge rx (rpred0 _)) => h.
  by rewrite ltr0_sg ?ler0_norm ?mulN1r ?opprK // lt_neqAle nx.
by rewrite gtr0_sg ?ger0_norm ?mul1r // lt_neqAle eq_sym nx.
Qed.

Lemma perm_double (T : eqType) (s t : seq T) : perm_eq (s ++ s) (t ++ t) -> perm_eq s t.
Proof.
move=> h; apply/seq.permP => q; have := seq.permP h q; rewrite !count_cat !addnn; exact: double_inj.
Qed.
End CharPoly.

Section C67.
Variable C : numClosedFieldType.
Local Notation cj := (map_mx (@conjC C)).
Variables (schur_sort : arr C -> arr C * arr C) (eigvalsh : arr C -> seq C) (argsort : seq C -> seq nat).
Hypothesis schurP : schur_sort_spec schur_sort.
Hypothesis evP : eigvalsh_spec eigvalsh.
Hypothesis asP : argsort_spec argsort.

(* the block A = H[n:, n:] *)
Definition blockA n (H : 'M[C]_(2 * n)) : 'M[C]_n := \matrix_(i, j) get (ofM H) (n + i) (n + j).
(* no pairing terms: the block B = H[:n, n:] vanishes *)
Definition number_conserving n (H : 'M[C]_(2 * n)) := forall i j : 'I_(2 * n), (i < n)%N -> (n <= j)%N -> H i j = 0.

(* whenever A is not close to 0, each non-zero eigenvalue in the second half of the diagonal has the sign of the
   corresponding eigenvalue of A *)
Theorem C67_signs n (H : 'M[C]_(2 * n)) (a := eigvalsh (ofM (blockA H))) : (0 < n)%N -> hermitian H -> ph_symmetric H ->
  ~~ allclose (ofM (blockA H)) (azeros n n) ->
  exists (L U : 'M[C]_(2 * n)), eigh_sp schur_sort eigvalsh argsort (ofM H) = Ok (ofM L, ofM U) /\
  forall i : 'I_(2 * n), (n <= i)%N -> nth 0 a (i - n) != 0 -> L i i != 0 -> Num.sg (L i i) = Num.sg (nth 0 a (i - n)).
Proof.
move=> n0 hH pH nA.
have [T [Z [L [U [p [fl [[e1 [_ rs] _] [_ _ _ hk] _ dL _]]]]]]] := eigh_main schurP evP asP n0 hH pH.
have [rT _ _ _ _] := rs; exists L, U; split=> // i hi na.
have [ep ef] := hk nA; have hi2 := ltn_ord i.
have em : (i %% n = i - n)%N.
  have {1}-> : nat_of_ord i = (1 * n + (i - n))%N by lia.
  by rewrite modnMDl modn_small //; lia.
rewrite dL em ltnNge hi /= mulN1r; set l := lam T _; set x := nth 0 a _ in na *.
have rl : l \is Num.real := lam_real _ rT.
have ra : x \is Num.real.
  have [ra _ _ _] := evP n0 (subA_herm hH); rewrite /x.
  case: (ltnP (i - n)%N (size a)) => h; last by rewrite nth_default // rpred0.
  exact: (allP ra _ (mem_nth _ h)).
rewrite oppr_eq0 mulf_eq0 => /norP[_ nl].
have -> : fl (i - n)%N = close (Num.sg l) (Num.sg x) by rewrite ef /key_flip /l ep.
case/orP: (real_leVge ra (rpred0 _)) => hx; case/orP: (real_leVge rl (rpred0 _)) => hl.
- have ex : Num.sg x = -1 by apply: ltr0_sg; rewrite lt_neqAle na.
  have el : Num.sg l = -1 by apply: ltr0_sg; rewrite lt_neqAle nl.
  by rewrite ex el close_refl mulN1r opprK el.
- have ex : Num.sg x = -1 by apply: ltr0_sg; rewrite lt_neqAle na.
  have el : Num.sg l = 1 by apply: gtr0_sg; rewrite lt_neqAle eq_sym nl.
  by rewrite ex el close_pm ?normr1 // mul1r ltr0_sg // oppr_lt0 lt_neqAle eq_sym nl.
- have ex : Num.sg x = 1 by apply: gtr0_sg; rewrite lt_neqAle eq_sym na.
  have el : Num.sg l = -1 by apply: ltr0_sg; rewrite lt_neqAle nl.
  by rewrite ex el close_pm ?normrN ?normr1 ?opprK // mul1r gtr0_sg // oppr_gt0 lt_neqAle nl.
have ex : Num.sg x = 1 by apply: gtr0_sg; rewrite lt_neqAle eq_sym na.
have el : Num.sg l = 1 by apply: gtr0_sg; rewrite lt_neqAle eq_sym nl.
by rewrite ex el close_refl mulN1r opprK el.
Qed.

Lemma phE n (H : 'M[C]_(2 * n)) : ph_symmetric H <->
  forall i j i' j' : 'I_(2 * n), i' = sw n i :> nat -> j' = sw n j :> nat -> H i' j' = - (H i j)^*.
Proof.
have E : sform ('i *: H) <-> ph_symmetric H.
  rewrite /sform /ph_symmetric map_mxZ conjCi -scalemxAr -scalemxAl SM_swap; split=> [h|->]; last first.
    by rewrite scaleNr scalerN opprK.
  by apply: (scalerI (neq0Ci C)); rewrite scalerN -h scaleNr opprK.
rewrite -E sformE; split=> h i j i' j' ei ej; have := h i j i' j' ei ej; rewrite ![('i *: H) _ _]mxE rmorphM conjCi mulNr -mulrN.
  by move/(mulfI (neq0Ci C)).
by move=> ->.
Qed.

Lemma lower_upper n (H : 'M[C]_(2 * n)) (e : (n + n = 2 * n)%N) : hermitian H -> ph_symmetric H -> number_conserving H ->
  H = castmx (e, e) (block_mx (- cj (blockA H)) 0 0 (blockA H)).
Proof.
move=> hH pH nc; apply/matrixP => i j; rewrite castmxE.
have li := ltn_ord i; have lj := ltn_ord j.
have hm (k : nat) : (k < 2 * n)%N -> exists k' : 'I_(2 * n), k' = sw n k :> nat by move=> h; exists (Ordinal (sw_lt h)).
case: (split_ordP (cast_ord (esym e) i)) => i1 ei; case: (split_ordP (cast_ord (esym e) j)) => j1 ej; rewrite /= ei ej;
  move/(congr1 val): ei; move/(congr1 val): ej => /= ej ei; have l1 := ltn_ord i1; have l2 := ltn_ord j1.
- rewrite block_mxEul [RHS]mxE [(cj _) _ _]mxE [blockA _ _ _]mxE.
  have [i' ei'] := hm i li; have [j' ej'] := hm j lj.
  have hi : i = sw n i' :> nat by rewrite ei' swK.
  have hj : j = sw n j' :> nat by rewrite ej' swK.
  rewrite (iffLR (phE H) pH _ _ _ _ hi hj); congr (- (_)^*); rewrite -ofM_get; congr (get _ _ _); rewrite ?ei' ?ej' /sw.
    by rewrite ei l1 addnC.
  by rewrite ej l2 addnC.
- by rewrite block_mxEur [RHS]mxE nc // ?ei ?ej // leq_addr.
- rewrite block_mxEdl [RHS]mxE; have := congr1 (fun M : 'M_(2 * n) => M i j) hH.
  by rewrite !mxE (nc j i) ?rmorph0 => [<-|/=|/=] //; [rewrite ej|rewrite ei leq_addr].
by rewrite block_mxEdr mxE -ei -ej ofM_get.
Qed.

(* without pairing terms the eigenvalues of H are those of A and their negatives *)
Lemma char_number n (H : 'M[C]_(2 * n)) (a := eigvalsh (ofM (blockA H))) : (0 < n)%N -> hermitian H -> ph_symmetric H ->
  number_conserving H -> char_poly H = \prod_(x <- [seq - x | x <- a] ++ a) ('X - x%:P).
Proof.
move=> n0 hH pH nc; have hA : hermitian (blockA H) := subA_herm hH.
have [_ _ _ cA] := evP n0 hA.
have [V uV [d rd eA]] := spectral_herm hA.
have e : (n + n = 2 * n)%N by rewrite addnn mul2n.
rewrite {1}(lower_upper e hH pH nc) char_poly_cast char_poly_block cA big_cat /=; congr (_ * _).
have pd : perm_eq a [seq d 0 i | i <- enum 'I_n].
  by apply: prod_XsubC_perm; rewrite -cA (char_poly_conj uV eA) char_poly_diag big_map enumT.
have ea : adjm (cj V) = cj (adjm V) by rewrite cj_adj /adjm cjK.
have uV' : unitary (cj V) by rewrite /unitary ea -cjM uV map_mx1.
have eA' : - cj (blockA H) = adjm (cj V) *m diag_mx (- d) *m cj V.
  rewrite {1}eA !cjM -ea raddfN mulmxN mulNmx; congr (- (_ *m _ *m _)).
  by apply/matrixP => i j; rewrite !mxE rmorphMn (CrealP (rd i)).
rewrite (char_poly_conj uV' eA') char_poly_diag big_map (perm_big _ pd) big_map enumT.
by apply: eq_bigr => i _; rewrite mxE.
Qed.

Lemma real_sorted_eq (s t : seq C) : sorted <=%O s -> sorted <=%O t -> perm_eq s t -> s = t.
Proof. by apply: sorted_eq; [exact: le_trans|exact: le_anti]. Qed.

(* the returned values, without pairing terms: q = argsort |a| is applied twice *)
Theorem C67_order n (H : 'M[C]_(2 * n)) (a := eigvalsh (ofM (blockA H))) (q := argsort [seq `|x| | x <- a]) :
  (0 < n)%N -> hermitian H -> ph_symmetric H -> number_conserving H -> gapped H ->
  ~~ allclose (ofM (blockA H)) (azeros n n) ->
  exists (U : 'M[C]_(2 * n)) (S : nat -> C),
  eigh_sp schur_sort eigvalsh argsort (ofM H) = Ok (ofM (std_form n S), ofM U) /\
  forall k, (k < n)%N -> `|S k| = `|nth 0 a (nth 0%N q (nth 0%N q k))| /\
    (nth 0 a k != 0 -> S k = Num.sg (nth 0 a k) * `|S k|).
Proof.
move=> n0 hH pH nc gH nA.
have [L [U [S [[e uU _ eL rS] dL]]]] := C52_diagonal schurP evP asP n0 hH pH gH.
have eL' : L = std_form n S by apply/matrixP => i j; rewrite dL mxE.
exists U, S; rewrite -eL'; split=> //.
have [T [Z [L2 [U2 [p [fl [[e1 [_ rs] _] [hp _ _ hk] _ dL2 _]]]]]]] := eigh_main schurP evP asP n0 hH pH.
have [ep _] := hk nA.
move: (e); rewrite e1 => /okpair_inj[e2 _]; rewrite e2 in dL2 => {e1 e2 L2 U2}.
have [ra sra sz cA] := evP n0 (subA_herm hH); rewrite -/(blockA H) -/a in ra sra sz cA.
have hi2 k : (k < n)%N -> (n + k < 2 * n)%N by lia.
have LS k (hk' : (k < n)%N) (i := Ordinal (hi2 k hk')) : L i i = S k.
  by rewrite dL eqxx ifN ?addKn // -leqNgt leq_addr.
have Sl k : (k < n)%N -> `|S k| = `|lam T (nth 0%N p k)|.
  move=> hk'; rewrite -(LS k hk') dL2 normrM -[nat_of_ord _]/(n + k)%N modnDl modn_small //.
  by rewrite normrM; case: ifP => _; case: ifP => _; rewrite ?normrN ?normr1 !mul1r.
have nrm (l : seq C) : all (fun x => x \is Num.real) [seq `|x| | x <- l].
  by apply/allP => x /mapP[y _ ->]; exact: normr_real.
have [pq sq] := asP (nrm a); rewrite -/q size_map sz in pq sq.
have [pl sl] := asP (nrm [seq lam T k | k <- iota 0 n]); rewrite !size_map size_iota -map_comp /= in pl sl.
set pl_ := argsort _ in pl sl.
have spl : size pl_ = n by rewrite (perm_size pl) size_iota.
have spq : size q = n by rewrite (perm_size pq) size_iota.
have epk k : (k < n)%N -> nth 0%N p k = nth 0%N pl_ (nth 0%N q k).
  by move=> hk'; rewrite ep /key_perm /fancy (nth_map 0%N) -/q ?spq //; congr (nth _ _ _); congr argsort; rewrite -map_comp.
have qlt k : (k < n)%N -> (nth 0%N q k < n)%N.
  by move=> hk'; have := mem_nth 0%N (_ : (k < size q)%N); rewrite spq => /(_ hk'); rewrite (perm_mem pq) mem_iota.
have pllt k : (k < n)%N -> (nth 0%N pl_ k < n)%N.
  by move=> hk'; have := mem_nth 0%N (_ : (k < size pl_)%N); rewrite spl => /(_ hk'); rewrite (perm_mem pl) mem_iota.
(* magnitudes of the blocks and of the eigenvalues of A agree *)
have mags : perm_eq [seq `|lam T k| | k <- iota 0 n] [seq `|x| | x <- a].
  pose f k := `|lam T (nth 0%N p (k %% n))|.
  have fL (i : 'I_(2 * n)) : `|L i i| = f i.
    by rewrite dL2 !normrM; case: ifP => _; case: ifP => _; rewrite ?normrN ?normr1 !mul1r.
  have c1 : char_poly H = \prod_(x <- [seq L i i | i <- enum 'I_(2 * n)]) ('X - x%:P).
    rewrite -(char_poly_conj uU eL) (_ : L = diag_mx (\row_i L i i)).
      by rewrite char_poly_diag big_map enumT; apply: eq_bigr => i _; rewrite !mxE eqxx mulr1n.
    by apply/matrixP => i j; rewrite [RHS]mxE mxE; case: (i =P j) => [<-|/eqP nij]; rewrite ?mulr1n // dL (negbTE nij).
  have := prod_XsubC_perm (etrans (esym c1) (char_number n0 hH pH nc)).
  move/(perm_map Num.norm); rewrite map_cat -!map_comp -/a.
  have -> : map (Num.norm \o -%R) a = [seq `|x| | x <- a] by apply: eq_map => x; rewrite /= normrN.
  rewrite [X in perm_eq X _](_ : _ = [seq f k | k <- iota 0 n] ++ [seq f k | k <- iota 0 n]); last first.
    rewrite (eq_map (_ : _ =1 f \o val)); last by move=> i; rewrite /= fL.
    rewrite -enumT map_comp val_enum_ord mul2n -addnn iotaD map_cat; congr (_ ++ _).
    by rewrite add0n -{1}[n]addn0 iotaDl -map_comp; apply: eq_map => k; rewrite /= /f modnDl.
  move/perm_double => h; apply: (perm_trans _ h); rewrite perm_sym.
  have -> : [seq f k | k <- iota 0 n] = [seq `|lam T k| | k <- p].
    have sp : size p = n by rewrite (perm_size hp) size_iota.
    rewrite -[in RHS](mkseq_nth 0%N p) sp /mkseq -map_comp; apply/eq_in_map => k; rewrite mem_iota add0n => /andP[_ hk'].
    by rewrite /f modn_small.
  exact: perm_map.
have srt : [seq nth 0 [seq `|lam T k| | k <- iota 0 n] k | k <- pl_] = [seq nth 0 [seq `|x| | x <- a] k | k <- q].
  apply: real_sorted_eq => //.
  have X (s : seq C) (r : seq nat) : size s = n -> perm_eq r (iota 0 n) -> perm_eq [seq nth 0 s k | k <- r] s.
    move=> ss hr; apply: (perm_trans (perm_map _ hr)); rewrite -ss -/(mkseq _ _) mkseq_nth; exact: perm_refl.
  apply: (perm_trans (X _ _ _ pl)); first by rewrite size_map size_iota.
  by apply: (perm_trans mags); rewrite perm_sym; apply: X => //; rewrite size_map.
move=> k hk'; split; last first.
  move=> na; have [S0|nS] := eqVneq (S k) 0; first by rewrite S0 normr0 mulr0.
  have [L2 [U2 [e2 sg2]]] := C67_signs n0 hH pH nA.
  move: e2; rewrite e => /okpair_inj[e2 _]; rewrite -e2 in sg2.
  have := sg2 (Ordinal (hi2 k hk')); rewrite (LS k hk') /= leq_addr addKn => /(_ isT na nS) <-.
  exact: real_sgE.
rewrite Sl // epk //.
have l1 := qlt _ hk'; have l2 := qlt _ l1; have l3 := pllt _ l1.
have := congr1 (fun s => nth 0 s (nth 0%N q k)) srt; cbv beta.
rewrite [LHS](nth_map 0%N) ?spl // [LHS](nth_map 0%N) ?size_iota // nth_iota // add0n => ->.
by rewrite (nth_map 0%N) ?spq // (nth_map 0) // sz.
Qed.

(* when A is positive semidefinite, S is the list of eigenvalues of A *)
Theorem C67_positive n (H : 'M[C]_(2 * n)) (a := eigvalsh (ofM (blockA H))) :
  (0 < n)%N -> hermitian H -> ph_symmetric H -> number_conserving H -> gapped H ->
  ~~ allclose (ofM (blockA H)) (azeros n n) -> (forall k, 0 <= nth 0 a k) ->
  exists U : 'M[C]_(2 * n),
  eigh_sp schur_sort eigvalsh argsort (ofM H) = Ok (ofM (std_form n (nth 0 a)), ofM U).
Proof.
move=> n0 hH pH nc gH nA pa.
have [U [S [e h]]] := C67_order n0 hH pH nc gH nA; exists U.
rewrite -/a in h; set q := argsort _ in h.
suff E : forall k, (k < n)%N -> S k = nth 0 a k.
  rewrite e; congr (Ok (ofM _, _)); apply/matrixP => i j; rewrite !mxE; case: (_ == _) => //.
  have hi := ltn_ord i; case: ifP => hi'; first by rewrite E.
  by rewrite E //; lia.
have [ra sra sz _] := evP n0 (subA_herm hH); rewrite -/(blockA H) -/a in ra sra sz.
have nrm (l : seq C) : all (fun x => x \is Num.real) [seq `|x| | x <- l].
  by apply/allP => x /mapP[y _ ->]; exact: normr_real.
have ea : [seq `|x| | x <- a] = a.
  by rewrite -[RHS]map_id; apply/eq_in_map => x /(nthP 0)[k _ <-]; rewrite ger0_norm.
have [pq sq] := asP (nrm a); rewrite -/q size_map sz ea in pq sq.
have spq : size q = n by rewrite (perm_size pq) size_iota.
have srt : [seq nth 0 a k | k <- q] = a.
  apply: real_sorted_eq => //; apply: (perm_trans (perm_map _ pq)).
  by rewrite -sz -/(mkseq _ _) mkseq_nth perm_refl.
have aq k : (k < n)%N -> nth 0 a (nth 0%N q k) = nth 0 a k.
  by move=> hk; rewrite -[in RHS]srt (nth_map 0%N) ?spq.
have qlt k : (k < n)%N -> (nth 0%N q k < n)%N.
  by move=> hk'; have := mem_nth 0%N (_ : (k < size q)%N); rewrite spq => /(_ hk'); rewrite (perm_mem pq) mem_iota.
move=> k hk; have [hS hs] := h k hk; rewrite aq ?qlt // aq // (ger0_norm (pa k)) in hS.
have [a0|na] := eqVneq (nth 0 a k) 0; first by rewrite a0; apply/eqP; rewrite -normr_eq0 hS a0 eqxx.
by rewrite hs // hS gtr0_sg ?mul1r // lt_neqAle eq_sym na pa.
Qed.

End C67.

(* ------------------------------ refutation ------------------------------ *)
Section Refuted.
Variable C : numClosedFieldType.
Variables (schur_sort : arr C -> arr C * arr C) (eigvalsh : arr C -> seq C) (argsort : seq C -> seq nat).
Hypothesis schurP : schur_sort_spec schur_sort.
Hypothesis evP : eigvalsh_spec eigvalsh.
Hypothesis asP : argsort_spec argsort.

(* H = diag(3, -1, -2, -3, 1, 2): A = diag(-3, 1, 2), B = 0 *)
Definition exD : seq C := [:: 3%:R; -1; - 2%:R; - 3%:R; 1; 2%:R].
Definition exH3 : 'M[C]_(2 * 3) := diag_mx (\row_i nth 0 exD i).

Lemma exH3E (i j : 'I_(2 * 3)) : exH3 i j = if i == j then nth 0 exD i else 0.
Proof. by rewrite !mxE; case: eqP => [->|]. Qed.
Lemma exH3_herm : hermitian exH3.
Proof.
apply/matrixP => i j; rewrite !mxE rmorphMn eq_sym; case: eqP => [<-|_] //; congr (_ *+ _).
by case: i => -[|[|[|[|[|[|//]]]]]] //= _; rewrite ?rmorphN ?rmorph1 ?conjC_nat.
Qed.
Lemma exH3_ph : ph_symmetric exH3.
Proof.
apply/phE => i j i' j' ei ej; rewrite !exH3E.
have -> : (i' == j') = (i == j).
  by rewrite -!(inj_eq val_inj) /= ei ej; case: i {ei} => -[|[|[|[|[|[|//]]]]]] //= _; case: j {ej} => -[|[|[|[|[|[|//]]]]]].
case: eqP => _; last by rewrite rmorph0 oppr0.
by rewrite ei; case: i {ei} => -[|[|[|[|[|[|//]]]]]] //= _; rewrite ?rmorphN ?rmorph1 ?conjC_nat ?opprK.
Qed.
Lemma exH3_nc : number_conserving exH3.
Proof. by move=> i j hi hj; rewrite exH3E; case: eqP hi hj => // <-; case: ltnP. Qed.
Lemma exH3_gapped : gapped exH3.
Proof.
move=> x /eigenvalueP[v ev nv]; right.
have /rowP ev' := ev; have [j nj] : exists j, v 0 j != 0.
  apply/existsP; apply: contraNT nv => /existsPn h; apply/eqP/rowP => j; rewrite mxE; apply/eqP/negPn/h.
have := ev' j; rewrite mul_mx_diag !mxE mulrC => /(mulIf nj) <-.
have l1 : eps10 C < 1 by rewrite invf_lt1 ?exprn_gt0 ?ltr0n // exprn_egt1 // ltr1n.
by apply: (lt_le_trans l1); case: j {nj} => -[|[|[|[|[|[|//]]]]]] //= _; rewrite ?normrN ?normr1 ?normr_nat // ler1n.
Qed.
Lemma exH3_A : blockA exH3 = diag_mx (\row_i nth 0 [:: - 3%:R; 1; 2%:R] i).
Proof.
apply/matrixP => i j; rewrite [RHS]mxE mxE.
have hi : (3 + i < 2 * 3)%N by rewrite (leq_trans (_ : _ < 3 + 3)%N) // ltn_add2l.
have hj : (3 + j < 2 * 3)%N by rewrite (leq_trans (_ : _ < 3 + 3)%N) // ltn_add2l.
rewrite -[(3 + i)%N]/(nat_of_ord (Ordinal hi)) -[(3 + j)%N]/(nat_of_ord (Ordinal hj)) ofM_get exH3E.
rewrite -[in LHS](inj_eq val_inj) /= eqn_add2l -[in RHS](inj_eq val_inj) /=; case: eqP => _; by rewrite ?mulr1n ?mulr0n // mxE.
Qed.
Lemma exH3_ev : eigvalsh (ofM (blockA exH3)) = [:: - 3%:R; 1; 2%:R].
Proof.
have hA : hermitian (blockA exH3) := subA_herm exH3_herm.
have [_ s _ cA] := evP (isT : (0 < 3)%N) hA.
have s2 : sorted <=%O ([:: - 3%:R; 1; 2%:R] : seq C).
  by rewrite /= ler1n !andbT (le_trans (_ : _ <= 0)) ?ler01 // oppr_le0 ler0n.
apply: real_sorted_eq => //; apply: prod_XsubC_perm; rewrite -cA exH3_A char_poly_diag.
by rewrite !big_ord_recl big_ord0 !big_cons big_nil !mxE.
Qed.
Lemma exH3_as : argsort [seq `|x| | x <- eigvalsh (ofM (blockA exH3))] = [:: 1; 2; 0]%N.
Proof.
have nrm (l : seq C) : all (fun x => x \is Num.real) [seq `|x| | x <- l].
  by apply/allP => x /mapP[y _ ->]; exact: normr_real.
have [p s] := asP (nrm [:: - 3%:R; 1; 2%:R]); rewrite exH3_ev.
set q := argsort _ in p s *; rewrite /= normrN normr1 !normr_nat in s p.
have : q \in permutations (iota 0 3) by rewrite mem_permutations.
rewrite (_ : permutations _ = [:: [:: 1; 0; 2]; [:: 0; 1; 2]; [:: 2; 0; 1]; [:: 0; 2; 1]; [:: 1; 2; 0]; [:: 2; 1; 0]]%N); last by vm_compute.
have n31 : ((3%:R : C) <= 1) = false by rewrite lern1.
have n32 : ((3%:R : C) <= 2%:R) = false by rewrite ler_nat.
have n21 : ((2%:R : C) <= 1) = false by rewrite lern1.
by rewrite !inE => /or4P[/eqP e|/eqP e|/eqP e|/or3P[/eqP e|/eqP//|/eqP e]]; move: s; rewrite e /= ?n31 ?n32 ?n21 ?andbF.
Qed.

(* the eigenvalues of A are -3, 1, 2 but S = (-2, 3, 1): the blocks are not sorted in the order of A *)
Theorem C67_refuted_order : eigvalsh (ofM (blockA exH3)) = [:: - 3%:R; 1; 2%:R] /\
  exists (U : 'M[C]_(2 * 3)) (S : nat -> C),
  eigh_sp schur_sort eigvalsh argsort (ofM exH3) = Ok (ofM (std_form 3 S), ofM U) /\
  [/\ S 0%N = - 2%:R, S 1%N = 3%:R & S 2%N = 1].
Proof.
split; first exact: exH3_ev.
have nA : ~~ allclose (ofM (blockA exH3)) (azeros 3 3).
  apply/negP => /allcloseP/(_ 1%N 1%N isT isT); rewrite exH3_A get_mk //.
  have h1 : (1 < 3)%N by [].
  rewrite -[1%N]/(nat_of_ord (Ordinal h1)) ofM_get !mxE eqxx mulr1n /close /= subr0 normr1 normr0 mulr0 addr0.
  by apply/negP; rewrite lt_geF // invf_lt1 ?exprn_gt0 ?ltr0n // exprn_egt1 // ltr1n.
have n0 : (0 < 3)%N by [].
have [U [S [e h]]] := C67_order schurP evP asP n0 exH3_herm exH3_ph exH3_nc exH3_gapped nA.
exists U, S; split=> //; rewrite exH3_as exH3_ev /= in h.
have [h0 s0] := h 0%N isT; have [h1 s1] := h 1%N isT; have [h2 s2] := h 2%N isT.
rewrite /= normr_nat in h0; rewrite /= normrN normr_nat in h1; rewrite /= normr1 in h2.
split.
- by rewrite s0 ?oppr_eq0 ?pnatr_eq0 // h0 ltr0_sg ?mulN1r // oppr_lt0 ltr0n.
- by rewrite s1 ?oner_eq0 // h1 /= sgr1 mul1r.
by rewrite s2 ?pnatr_eq0 // h2 /= gtr0_sg ?mul1r // ltr0n.
Qed.
End Refuted.
