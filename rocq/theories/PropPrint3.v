(* PropPrint3.v -- property C93: the messages of is_symp, compute_algebra_S, and of the functions that report a failure *)
Set Warnings "-notation-overridden,-ambiguous-paths".
From Coq Require Import Reals String.
From mathcomp Require Import all_ssreflect all_algebra.
From mathcomp Require Import complex.
From mathcomp.zify Require Import zify.
From Verif Require Import Base ArrC MCombinatorics MLib JW OpFam FermAlg LibFacts LibFacts2 LibFacts3 Spectral RealC MUtils MDist MGraph MEmbed MPrint.
From Verif Require Import PropComb PropLib1 PropLib2 PropLib3 PropLib4 EighFacts PropEigh1 PropPrint1.
Set Implicit Arguments.
Unset Strict Implicit.
Unset Printing Implicit Defensive.
Import Order.Theory GRing.Theory Num.Theory.
Local Open Scope ring_scope.
Local Notation S s := (PStr s%string).

Section Props.
Variable C : numClosedFieldType.
Local Notation arr := (arr C).

(* ------------------------------ is_symp ------------------------------ *)
Lemma allclose_b_refl (A : arr) : allclose_b A A.
Proof. by apply/allP => i _; apply/allP => j _; exact: close_refl. Qed.

(* C93: for a unitary U that is symplectic, or has the block form (A, B; conj B, conj A), is_symp returns True silently: the
   two messages about a contradiction between the two tests appear only for matrices that are not unitary (or only
   approximately symplectic) *)
Theorem C93_symp n (U : 'M[C]_(2 * n)) : unitary U -> symplectic U \/ symp_form U -> is_symp_p (ofM U) = ([::], Ok true).
Proof.
move=> u h; have f : symp_form U.
  by case: h => // h; apply/sform_form/symp_sform => //; rewrite SM_swap.
have s : symplectic U by rewrite /symplectic -SM_swap; apply: sform_symp => //; apply/sform_form.
have := C44_accepts s; rewrite -[is_symp _](_ : (is_symp_p (ofM U)).2 = _); last by have [_ _ _ ->] := C93_values C.
have e : (2 * n %/ 2 = n)%N by rewrite mulKn.
have e' : (2 * n - 2 * n %/ 2 = n)%N by lia.
rewrite /is_symp_p /= eqxx /= e' e !bcast_id //=.
have -> : allclose_b (aslice (ofM U) 0 0 n n) (aconj (aslice (ofM U) n n n n)).
  suff <- : aslice (ofM U) 0 0 n n = aconj (aslice (ofM U) n n n n) by exact: allclose_b_refl.
  apply: arrP => // i j /= hi hj; rewrite !getE //= !add0n.
  have li : (i < 2 * n)%N by lia. have lj : (j < 2 * n)%N by lia.
  have li' : (n + i < 2 * n)%N by lia. have lj' : (n + j < 2 * n)%N by lia.
  have [] := f (Ordinal li) (Ordinal lj) (Ordinal li') (Ordinal lj') hi hj (addnC _ _) (addnC _ _).
  by rewrite -!ofM_get /= => -> _; rewrite conjCK.
have -> : allclose_b (aslice (ofM U) n 0 n n) (aconj (aslice (ofM U) 0 n n n)).
  suff <- : aslice (ofM U) n 0 n n = aconj (aslice (ofM U) 0 n n n) by exact: allclose_b_refl.
  apply: arrP => // i j /= hi hj; rewrite !getE //= !add0n.
  have li : (i < 2 * n)%N by lia. have lj : (j < 2 * n)%N by lia.
  have li' : (n + i < 2 * n)%N by lia. have lj' : (n + j < 2 * n)%N by lia.
  have [_] := f (Ordinal li) (Ordinal lj) (Ordinal li') (Ordinal lj') hi hj (addnC _ _) (addnC _ _).
  by rewrite -!ofM_get /= => ->; rewrite conjCK.
by rewrite /bindW /=; case: allclose.
Qed.

(* ------------------------------ compute_algebra_S ------------------------------ *)
Lemma foldW_log (X A : Type) (F : X -> A -> out C X) (lg : A -> seq (event C)) (g : X -> A -> X) (P : A -> Prop) s l :
  (forall x, List.In x l -> P x) -> (forall s x, P x -> F s x = (lg x, Ok (g s x))) ->
  foldW F s l = (flatten [seq lg x | x <- l], Ok (foldl g s l)).
Proof.
elim: l s => [|x l IH] s //= hP h; rewrite h; last by apply: hP; left.
by rewrite /bindW /= IH // => y hy; apply: hP; right.
Qed.
Lemma in_iota m i : List.In i (iota 0 m) -> (i < m)%N.
Proof.
move=> h; have : i \in iota 0 m by elim: (iota 0 m) h => //= a l IH [->|/IH h]; rewrite inE ?eqxx ?h ?orbT.
by rewrite mem_iota.
Qed.

Lemma qbind X Y (a : X) (f : X -> out C Y) : bindW (quiet (Ok a)) f = f a.
Proof. by rewrite /bindW /=; case: (f a). Qed.

Section Algebra.
Variables (N n : nat) (A : nat -> 'M[C]_N) (s : nat -> nat -> C).
Hypotheses (N0 : (0 < N)%N) (n0 : (0 < n)%N).
Hypothesis H : forall i j, (i < 2 * n)%N -> (j < 2 * n)%N -> A i *m A j + A j *m A i = (s i j)%:M.
Let R : 'M[C]_(2 * n) := \matrix_(i < 2 * n, j < 2 * n) (if `|s i j| <= (10%:R ^+ 8)^-1 then 0 else s i j).

(* the lines printed in the double loop *)
Definition pair_log (v : bool) (i : nat) : seq (event C) := if v then flatten [seq
  (if `|s i j| <= (10%:R ^+ 8)^-1 then [::] else
   [:: Print [:: S "s_ij="; PNum (s i j)]; Print [:: S "anticomm_ij.shape"; PShape N N]]) | j <- iota 0 (2 * n)] else [::].

Let a0 := ofM (A 0).
Lemma step_log v (T : arr) i j : (i < 2 * n)%N -> (j < 2 * n)%N -> algebra_step_p (ops A (2 * n)) a0 v T i j =
  (if v then if `|s i j| <= (10%:R ^+ 8)^-1 then [::] else
   [:: Print [:: S "s_ij="; PNum (s i j)]; Print [:: S "anticomm_ij.shape"; PShape N N]] else [::],
   Ok (if `|s i j| <= (10%:R ^+ 8)^-1 then T else upd T i j (s i j))).
Proof.
move=> hi hj; rewrite /algebra_step_p !item_ops // !qbind !ofM_mul_chk !qbind ofM_iadd qbind H //.
pose i0 := Ordinal N0.
have -> : allclose (ofM ((s i j)%:M : 'M[C]_N)) (azeros N N) = (`|s i j| <= atol).
  rewrite ofM_zeros; apply/allclose_ofM/idP => [/(_ i0 i0)|h a b].
    by rewrite /np_close !mxE eqxx subr0 normr0 mulr0 addr0.
  rewrite /np_close !mxE subr0 normr0 mulr0 addr0; case: eqP => _ //=.
  by rewrite mulr0n normr0 ltW // atol_gt0.
case: ifP => _; first by case: v.
rewrite [nr _]/= [nc _]/=; have -> : get (ofM ((s i j)%:M : 'M[C]_N)) 0 0 = s i j by rewrite -[0%N]/(val i0) ofM_get mxE eqxx.
by rewrite ofM_eye ofM_scale scalemx1 allclose_refl /=; case: v.
Qed.

(* C93: a family with scalar anticommutators: the loop prints no error; with verbose it prints every scalar above 1e-8 *)
Lemma algebra_log v : compute_algebra_S_p (ops A (2 * n)) v =
  bindW (flatten [seq pair_log v i | i <- iota 0 (2 * n)], Ok (ofM R))
    (fun T => bindW (when v (report_S T)) (fun _ => retW T)).
Proof.
pose T0 : arr := foldl (fun T i => foldl (fun T j => if `|s i j| <= (10%:R ^+ 8)^-1 then T else upd T i j (s i j)) T
  (iota 0 (2 * n))) (azeros (2 * n) (2 * n)) (iota 0 (2 * n)).
have E v' : foldW (fun T i => foldW (fun T j => algebra_step_p (ops A (2 * n)) a0 v' T i j) T (iota 0 (2 * n)))
    (azeros (2 * n) (2 * n)) (iota 0 (2 * n)) = (flatten [seq pair_log v' i | i <- iota 0 (2 * n)], Ok T0).
  apply: (foldW_log (P := fun i => (i < 2 * n)%N)) => [i|T i hi]; first exact: in_iota.
  rewrite (foldW_log (P := fun j => (j < 2 * n)%N) (lg := fun j => if v' then if `|s i j| <= (10%:R ^+ 8)^-1 then [::] else
   [:: Print [:: S "s_ij="; PNum (s i j)]; Print [:: S "anticomm_ij.shape"; PShape N N]] else [::])
   (g := fun T j => if `|s i j| <= (10%:R ^+ 8)^-1 then T else upd T i j (s i j))) => [|j|T' j hj].
  - by rewrite /pair_log; case: v' => //; congr (_, _); elim: (iota _ _).
  - exact: in_iota.
  exact: step_log.
have U v' : compute_algebra_S_p (ops A (2 * n)) v' = bindW (flatten [seq pair_log v' i | i <- iota 0 (2 * n)], Ok T0)
    (fun T => bindW (when v' (report_S T)) (fun _ => retW T)).
  have n20 : (0 < 2 * n)%N by rewrite muln_gt0.
  by rewrite /compute_algebra_S_p size_ops mulKn // item_ops // qbind E.
suff <- : T0 = ofM R by exact: U.
have := C50_scalar N0 n0 H; have [_ _ _ _ [_ _ _ _ [_ _ _ <-]]] := C93_values C.
by rewrite U /= => -[].
Qed.
End Algebra.

(* C93: with scalar anticommutators and without verbose, compute_algebra_S is silent *)
Theorem C93_algebra_quiet N n (A : nat -> 'M[C]_N) (s : nat -> nat -> C) : (0 < N)%N -> (0 < n)%N ->
  (forall i j, (i < 2 * n)%N -> (j < 2 * n)%N -> A i *m A j + A j *m A i = (s i j)%:M) ->
  (compute_algebra_S_p (ops A (2 * n)) false).1 = [::].
Proof.
move=> N0 n0 H; rewrite (algebra_log N0 n0 H) /bindW /= cats0 /pair_log.
by elim: (iota _ _).
Qed.

Lemma algebra_step2 alphas a0 v (T : arr) i j :
  (algebra_step_p alphas a0 v T i j).2 = (algebra_step_p alphas a0 false T i j).2.
Proof.
rewrite /algebra_step_p !bindW2; case: (quiet _).2 => //= ai; rewrite !bindW2; case: (quiet _).2 => //= aj.
rewrite !bindW2; case: (quiet _).2 => //= p; rewrite !bindW2; case: (quiet _).2 => //= q; rewrite !bindW2.
by case: (quiet _).2 => //= ac; case: ifP => // _; rewrite /when; case: v; case: (~~ _).
Qed.
Lemma foldM_inv A B (P : B -> Prop) (f : B -> A -> res B) s l s' : (forall s x s', P s -> f s x = Ok s' -> P s') ->
  P s -> foldM f s l = Ok s' -> P s'.
Proof.
move=> h; elim: l s => [|x l IH] s hs /=; first by case=> <-.
by case E : (f s x) => [s1|] //= /(IH _ (h _ _ _ hs E)).
Qed.
Lemma algebra_step_nr alphas a0 v (T T' : arr) i j m : nr T = m -> (algebra_step_p alphas a0 v T i j).2 = Ok T' -> nr T' = m.
Proof.
move=> hT; rewrite /algebra_step_p !bindW2; case: (quiet _).2 => //= ai; rewrite !bindW2; case: (quiet _).2 => //= aj.
rewrite !bindW2; case: (quiet _).2 => //= p; rewrite !bindW2; case: (quiet _).2 => //= q; rewrite !bindW2.
case: (quiet _).2 => //= ac; case: ifP => [_ [<-] //|_].
by rewrite /when; case: v; case: (~~ _) => /= -[<-].
Qed.

(* C93: verbose=True does not change the result of compute_algebra_S for two or more operators; for a single operator the
   report takes the maximum of no eigenvalues and the call fails, where verbose=False returns the empty array *)
Theorem C93_algebra_verbose (alphas : seq arr) : ((1 < size alphas)%N ->
    (compute_algebra_S_p alphas true).2 = compute_algebra_S alphas) /\
  (size alphas = 1%N -> (compute_algebra_S_p alphas true).2 = Raise ValueError /\
    exists2 T, compute_algebra_S alphas = Ok T & nr T = 0%N).
Proof.
have [_ _ _ _ [_ _ _ _ [_ _ _ E]]] := C93_values C.
have F v a0 (T0 : arr) l1 l2 : (foldW (fun T i => foldW (fun T j => algebra_step_p alphas a0 v T i j) T l1) T0 l2).2 =
   foldM (fun T i => foldM (fun T j => (algebra_step_p alphas a0 false T i j).2) T l1) T0 l2.
  rewrite foldW2; apply: eq_foldM => T i; rewrite foldW2; apply: eq_foldM => {}T j; exact: algebra_step2.
split=> h.
  rewrite -E /compute_algebra_S_p !bindW2; case: (quiet _).2 => //= a0; rewrite !bindW2 !F.
  set m := (2 * (size alphas %/ 2))%N; case EF : (foldM _ _ _) => [T|] //=; rewrite bindW2.
  have nT : nr T = m.
    apply: (foldM_inv (P := fun T : arr => nr T = m) _ _ EF) => // T1 i T2 h1.
    by apply: (foldM_inv (P := fun T : arr => nr T = m) _ h1) => T3 j T4; apply: algebra_step_nr.
  have m0 : (0 < m)%N by rewrite /m; lia.
  rewrite /report_S; set l := sort _ _; have sl : size l = nr T by rewrite size_sort; have [_ ->] := C08_eigvals_spec (toM (nr T) (nr T) T).
  by case: l sl => [|z r] /=; [lia|].
rewrite -E; case: alphas h {E F} => [|a [|]] // _; split; last by exists (azeros 0 0).
rewrite /compute_algebra_S_p /= /report_S.
have [_ e0] := C08_eigvals_spec (toM 0 0 (azeros 0 0 : arr)).
have -> : eigvals (toM 0 0 (azeros 0 0 : arr)) = [::] by apply: size0nil.
by [].
Qed.

Lemma swap_ev n z : z \in eigvals (swapM C n) -> z = 1 \/ z = -1.
Proof.
have [e _] := C08_eigvals_spec (swapM C n).
rewrite -root_prod_XsubC -e -eigenvalue_root_char => /eigenvalueP[v hv v0].
have : v = z ^+ 2 *: v by rewrite expr2 -scalerA -hv scalemxAl -hv -mulmxA swapM_sqr mulmx1.
move/eqP; rewrite -subr_eq0 -{1}[v]scale1r -scalerBl scaler_eq0 (negbTE v0) orbF subr_eq0 eq_sym sqrf_eq1.
by case/orP => /eqP; [left|right].
Qed.

Lemma lexle_total : total (@lexle C).
Proof.
move=> x y; rewrite /lexle; case: (real_ltgtP (Creal_Re x) (Creal_Re y)) => //= _.
exact: (real_leVge (Creal_Im x) (Creal_Im y)).
Qed.
Lemma lexle_refl : reflexive (@lexle C).
Proof. by move=> x; rewrite /lexle eqxx lexx orbT. Qed.
Lemma lexle_trans : transitive (@lexle C).
Proof.
move=> y x z; rewrite /lexle => /orP[h1|/andP[/eqP -> h1]] /orP[h2|/andP[/eqP e h2]].
- by rewrite (lt_trans h1 h2).
- by rewrite -e h1.
- by rewrite h2.
- by rewrite e eqxx (le_trans h1 h2) orbT.
Qed.

Lemma sorted_ends (l : seq C) : l <> [::] -> (forall z, z \in l -> z = 1 \/ z = -1) -> \sum_(z <- l) z = 0 ->
  exists2 r, sort (@lexle C) l = -1 :: r & last (-1) r = 1.
Proof.
move=> l0 hl s0; set l' := sort _ l.
have pl : perm_eq l' l by rewrite perm_sort.
have sl : sorted (@lexle C) l' by apply: sort_sorted; exact: lexle_total.
have hl' z : z \in l' -> z = 1 \/ z = -1 by rewrite (perm_mem pl); apply: hl.
have {}s0 : \sum_(z <- l') z = 0 by rewrite (perm_big _ pl).
have nle : lexle (1 : C) (-1) = false.
  have r1 : 'Re (1 : C) = 1 by apply/Creal_ReP/real1.
  have rN : 'Re (-1 : C) = -1 by apply/Creal_ReP; rewrite rpredN real1.
  rewrite /lexle r1 rN; have lt : -1 < 1 :> C by rewrite -subr_gt0 opprK -[1 + 1]/(2%:R) ltr0n.
  by rewrite (lt_gtF lt) gt_eqF.
have mono := sorted_leq_nth lexle_trans lexle_refl 0 sl.
case E : l' => [|x r].
  by case: l0; apply/nilP; rewrite /nilp -(perm_size pl) E.
have cst c : c = 1 \/ c = -1 -> (forall z, z \in l' -> z = c) -> False.
  move=> hc h; move: s0; rewrite big_seq (eq_bigr (fun _ => c)) // -big_seq big_const_seq count_predT iter_addr_0.
  move/eqP; rewrite mulrn_eq0 E /= => /eqP h0; case: hc => hc; move: h0; rewrite hc => /eqP; rewrite ?oppr_eq0 oner_eq0 //.
have xl : x \in l' by rewrite E mem_head.
have ll : last x r \in l' by rewrite E mem_last.
have ex : x = -1.
  case: (hl' _ xl) => // x1; case: (cst 1); first by left.
  move=> z zl; case: (hl' _ zl) => // zN.
  have i0 : (0 < size l')%N by rewrite E.
  have iz : (index z l' < size l')%N by rewrite index_mem.
  by have := mono 0%N (index z l') i0 iz (leq0n _); rewrite nth_index // zN E /= x1 nle.
exists r; first by rewrite -ex.
rewrite -ex; case: (hl' _ ll) => // lN; case: (cst (-1)); first by right.
move=> z zl; case: (hl' _ zl) => // z1.
have iz : (index z l' < size l')%N by rewrite index_mem.
have ir : (size r < size l')%N by rewrite E /=.
have il : (index z l' <= size r)%N by move: iz; rewrite E.
have := mono (index z l') (size r) iz ir il; rewrite nth_index // z1 E.
have -> : nth 0 (x :: r) (size r) = last x r by rewrite -[size r]/((size (x :: r)).-1) nth_last.
by rewrite lN nle.
Qed.

Lemma swapM_tr n : (swapM C n)^T = swapM C n. Proof. by rewrite -SM_swap S_tr. Qed.
Lemma swapM_tr0 n : (0 < n)%N -> \tr (swapM C n) = 0.
Proof.
move=> n0; apply: big1 => i _; rewrite mxE.
by have -> : (i == (i + n)%N :> nat) = false by apply/eqP; lia.
Qed.
Lemma swapM_rank n : \rank (swapM C n) = (2 * n)%N.
Proof. by apply/mxrank_unit; have [] := mulmx1_unit (swapM_sqr C n). Qed.

Lemma report_swap n : (0 < n)%N -> report_S (ofM (swapM C n)) =
  ([:: Print [:: S "\nAlgebra properties\n"]; Print [:: S "Is symmetric?"; PBool true]; Print [:: S "Rank:"; PNat (2 * n)];
     Print [:: S "Trace:"; PNum 0]; Print [:: S "Eigenvalue max,min:"; PNum (-1); PNum 1]], Ok tt).
Proof.
move=> n0; have [|||r e1 e2] := @sorted_ends (eigvals (swapM C n)).
- by move=> h; have [_] := C08_eigvals_spec (swapM C n); rewrite h /=; lia.
- exact: swap_ev.
- rewrite -trace_eigvals ?swapM_tr0 //; by rewrite /normal -SM_swap S_adj.
rewrite /report_S [nr _]/= [nc _]/= toM_ofM e1 ofM_tr ofM_sub swapM_tr subrr ofM_trace swapM_tr0 // swapM_rank.
by rewrite ofM_zeros allclose_refl /bindW /= e2.
Qed.

(* C93: compute_algebra_S(alphas, verbose=True) for the Jordan-Wigner ladder operators: 2n pairs of lines, then the report.
   The line labelled "max,min" shows the smallest eigenvalue first. *)
Theorem C93_algebra_refuted_label n : (0 < n)%N -> compute_algebra_S_p (jordan_wigner_alphas C n) true =
  (flatten (nseq (2 * n) [:: Print [:: S "s_ij="; PNum 1]; Print [:: S "anticomm_ij.shape"; PShape (2 ^ n) (2 ^ n)]]) ++
   [:: Print [:: S "\nAlgebra properties\n"]; Print [:: S "Is symmetric?"; PBool true]; Print [:: S "Rank:"; PNat (2 * n)];
     Print [:: S "Trace:"; PNum 0]; Print [:: S "Eigenvalue max,min:"; PNum (-1); PNum 1]], Ok (ofM (swapM C n))).
Proof.
move=> n0; pose s i j : C := (j == sw n i)%:R.
rewrite alphas_ops (@algebra_log _ _ _ s) ?expn_gt0 //; last by case: (alphas_car C n).
have -> : \matrix_(i < 2 * n, j < 2 * n) (if `|s i j| <= (10%:R ^+ 8)^-1 then 0 else s i j) = swapM C n.
  by apply/matrixP => i j; rewrite -SM_swap SME mxE nat_big.
rewrite [flatten _](_ : _ = flatten (nseq (2 * n) [:: Print [:: S "s_ij="; PNum 1];
    Print [:: S "anticomm_ij.shape"; PShape (2 ^ n) (2 ^ n)]])).
  apply: (bind_ok erefl); rewrite -[X in (X, _)]cats0; apply: (bind_ok _ erefl); exact: report_swap.
congr flatten; rewrite -[X in nseq X](size_iota 0 (2 * n)).
rewrite (_ : nseq _ _ = [seq [:: Print [:: S "s_ij="; PNum 1]; Print [:: S "anticomm_ij.shape"; PShape (2 ^ n) (2 ^ n)]]
  | i <- iota 0 (2 * n)]); last by elim: (iota _ _) => //= i l ->.
apply/eq_in_map => i; rewrite mem_iota => /= hi; rewrite /pair_log.
have hs : (sw n i < 2 * n)%N by apply: sw_lt.
rewrite (eq_map (f2 := fun j => if j == sw n i then [:: Print [:: S "s_ij="; PNum 1];
  Print [:: S "anticomm_ij.shape"; PShape (2 ^ n) (2 ^ n)]] else [::])) => [|j]; last first.
  have := nat_big C (j == sw n i); rewrite /s; case: (j == sw n i); case: ifP => // h; last by rewrite normr0 invr_ge0 exprn_ge0 ?ler0n in h.
  by move/esym/eqP; rewrite oner_eq0.
have -> : iota 0 (2 * n) = iota 0 (sw n i) ++ sw n i :: iota (sw n i).+1 (2 * n - (sw n i).+1).
  by rewrite -[_ :: _]/(iota (sw n i) (2 * n - (sw n i).+1).+1) -iotaD; congr iota; lia.
rewrite map_cat flatten_cat /= eqxx.
have z a b : (forall j, j \in iota a b -> j != sw n i) -> flatten [seq (if j == sw n i then [:: Print (C := C) [:: S "s_ij="; PNum 1];
  Print [:: S "anticomm_ij.shape"; PShape (2 ^ n) (2 ^ n)]] else [::]) | j <- iota a b] = [::].
  elim: b a => //= b IH a h; rewrite (negbTE (h a _)) ?mem_head //= IH // => j hj; apply: h; by rewrite inE hj orbT.
rewrite !z // => j; rewrite mem_iota; lia.
Qed.

(* ------------------------------ messages about invalid input ------------------------------ *)
Lemma bindW1 A B (m : out C A) (f : A -> out C B) : (bindW m f).1 = m.1 ++ (if m.2 is Ok a then (f a).1 else [::]).
Proof. by rewrite /bindW; case: m.2 => //= _; rewrite cats0. Qed.
Lemma quiet1 A B (r : res A) (f : A -> out C B) : (forall a, (f a).1 = [::]) -> (bindW (quiet r) f).1 = [::].
Proof. by move=> h; rewrite bindW1 /=; case: r. Qed.
Lemma mapW_nil A B (f : A -> out C B) l : (forall x, (f x).1 = [::]) -> (mapW f l).1 = [::].
Proof.
move=> h; elim: l => //= x l IH; rewrite bindW1 h /=; case: (f x).2 => // b; by rewrite bindW1 IH /=; case: (mapW f l).2.
Qed.

Lemma foldW1_nil A B (f : B -> A -> out C B) s l : (forall s x, (f s x).1 = [::]) -> (foldW f s l).1 = [::].
Proof. by move=> h; elim: l s => //= x l IH s; rewrite bindW1 h /=; case: (f s x).2. Qed.

Lemma perm_log (p : seq int) : (permutation_to_matrix_p C p).1 =
  if all (fun v => (0 <= v) && (v < (size p)%:Z)) p then [::] else [:: Print [:: S "Invalid permutation"]].
Proof.
have -> : all (fun v => (0 <= v) && (v < (size p)%:Z)) p = all (fun i => (0 <= nth 0 p i) && (nth 0 p i < (size p)%:Z)) (iota 0 (size p)).
  by rewrite -[X in all _ X = _](mkseq_nth 0) /mkseq all_map.
rewrite /permutation_to_matrix_p; set F := fun acc i => _.
have N l : (foldW F None l).1 = [::] by elim: l => //= i l IH; rewrite bindW1 /= IH.
elim: (iota _ _) (azeros _ _) => //= i l IH m.
case h : (_ && _); rewrite bindW1 /=; first exact: IH.
by rewrite N.
Qed.

Lemma build_log n (R : arr) alphas direct : (build_op_p n R alphas false direct).1 =
  if (nr R == 2 * n)%N && (nc R == 2 * n)%N then [::] else [:: Print [:: S "R incorrectly formmatted. Use `build_H` to create R"]].
Proof.
rewrite /build_op_p bindW1 -negb_and; set X := (X in _ ++ X).
suff -> : X = [::] by case: (_ && _).
rewrite /X {X}; case: (when _ _).2 => // _; apply: quiet1 => a0; apply: foldW1_nil => acc i; apply: foldW1_nil => {}acc j.
apply: quiet1 => r; case: ifP => // _; do 4![apply: quiet1 => ?]; by [].
Qed.

(* C93: which calls print a message (without verbose), and what they return then *)
Theorem C93_flags :
  [/\ forall p, (permutation_to_matrix_p C p).1 = [::] <-> permutation_to_matrix C p <> None,
      forall A : arr, (dt_eigen_p A).1 = [::] <-> dt_eigen A <> None,
      forall L : arr, (check_canonical_form_p L).1 = [::] <-> check_canonical_form L,
      forall (x y : pyarg C) left, (rotate_operators_p x y left false).1 = [::] <->
        (forall alphas M, (x = PList alphas /\ y = MLib.PArr M) \/ (x = MLib.PArr M /\ y = PList alphas) ->
          nr M = size alphas \/ nc M = size alphas) &
  [/\ forall (M : arr) verbose, size (is_matchgate_p M verbose).1 = (verbose || ~~ shp M 4%N 4%N) :> nat,
      forall (L : eqType) (G : graph L), (find_perfect_matchings_brute_p C G).1 = [::] <->
        odd (size (gnodes G)) \/ (size (gnodes G) <= 15)%N,
      forall n (R : arr) alphas direct, (build_op_p n R alphas false direct).1 = [::] <-> nr R = (2 * n)%N /\ nc R = (2 * n)%N &
      forall (expm : arr -> arr) n (H : arr) alphas, (generate_gaussian_state_p expm n H alphas).1 = [::] <->
        nr H = (2 * n)%N /\ nc H = (2 * n)%N \/ nr H = (2 ^ n)%N /\ nr H <> (2 * n)%N ] ].
Proof.
split; [| | | |split].
- move=> p; rewrite perm_log; have E : permutation_to_matrix C p = None <-> ~~ all (fun v => (0 <= v) && (v < (size p)%:Z)) p.
    have -> : all (fun v => (0 <= v) && (v < (size p)%:Z)) p =
       all (fun i => (0 <= nth 0 p i) && (nth 0 p i < (size p)%:Z)) (iota 0 (size p)).
      by rewrite -[X in all _ X = _](mkseq_nth 0) /mkseq all_map.
    rewrite /permutation_to_matrix; set F := fun acc i => _.
    have N l : foldl F None l = None by elim: l.
    elim: (iota _ _) (azeros _ _) => //= i l IH m.
    by case h : (_ && _) => /=; [exact: IH|rewrite N].
  by split; case: ifP E => //= _ [h1 h2] // h3; [move/h1|case: (h3); apply: h2].
- by move=> A; rewrite /dt_eigen_p /dt_eigen; case: ifP.
- by move=> L; rewrite /check_canonical_form_p /check_canonical_form; do 3?case: ifP.
- have E (M : arr) alphas left : (rotate_core_p M alphas left false).1 =
      if (nr M != size alphas) && (nc M != size alphas) then [:: Print [:: S "dimensions are incompatible"]] else [::].
    rewrite /rotate_core_p bindW1; set X := (X in _ ++ X); suff -> : X = [::] by case: (_ && _).
    rewrite /X {X}; case: (when _ _).2 => // _; case: ifP => // _.
    rewrite bindW1 mapW_nil /=; first by case: (perform_rotation_p _ _ _).2.
    move=> j; apply: quiet1 => b0; rewrite bindW1 /=; apply: foldW1_nil => b i; apply: quiet1 => c.
    by case: ifP => // _; do 2![apply: quiet1 => ?].
  have K (M : arr) alphas left : (rotate_core_p M alphas left false).1 = [::] <-> nr M = size alphas \/ nc M = size alphas.
    rewrite E; case: eqP => h1; case: eqP => h2 //=; split=> //; by [left|right|case].
  move=> x y left; case: x => [M|al]; case: y => [M'|al'] /=.
  + by split=> // _ ? ? [[]|[]].
  + rewrite K; split=> [h ? ? [[//]|[[<-] [<-]]] //|h]; exact: (h al' M (or_intror (conj erefl erefl))).
  + rewrite K; split=> [h ? ? [[[<-] [<-]]|[//]] //|h]; exact: (h al M' (or_introl (conj erefl erefl))).
  + by split=> // _ ? ? [[]|[]].
- by move=> M verbose; rewrite /is_matchgate_p; case: (shp _ _ _) => /=; rewrite ?orbT //; case: ifP; case: verbose.
- move=> L G; rewrite /find_perfect_matchings_brute_p modn2 eqb0 negbK; case: ifP => [h|_]; first by split=> // _; left.
  by rewrite ltnNge; case: (_ <= _)%N => /=; split=> //; [right|case].
- move=> n R alphas direct; rewrite build_log; split=> [|[-> ->]]; last by rewrite !eqxx.
  by case: ifP => // /andP[/eqP -> /eqP ->].
move=> expm n H alphas; rewrite /generate_gaussian_state_p; set al := (X in build_op_p _ _ X _ _).
rewrite bindW1; case: (nr H =P (2 * n)%N) => h1.
  have E : (let! o := build_op_p n H al false false in retW (Some o)).1 = (build_op_p n H al false false).1.
    by rewrite bindW1; case: (_.2) => [?|?]; rewrite /= cats0.
  rewrite E build_log h1 eqxx /=.
  have z : (if (let! o := build_op_p n H al false false in retW (Some o)).2 is Ok a then
    (match (if (2 * n)%N == (2 ^ n)%N then Some H else a) with
      | Some op => let rho := expm (aopp op) in retW (Some (ascale (atrace rho)^-1 rho))
      | None => let! _ := say [:: PShape (2 * n) (nc H)] in
          let! _ := say [:: S "Invalid Hamiltonian size "; PShape (2 * n) (nc H); S "\nShould be dim: "; PNat (2 * n); S " or ";
                          PNat (2 ^ n)] in retW None end).1 else [::]) = ([::] : seq (event C)).
    by rewrite bindW2; case: (build_op_p _ _ _ _ _).2 => //= o; case: ifP.
  rewrite z cats0; split; first by case: eqP => // -> _; left.
  by case=> [[_ ->]|[_ /(_ erefl)]//]; rewrite eqxx.
rewrite /=; case: (nr H =P (2 ^ n)%N) => h2 /=; first by split=> // _; right.
by split=> //; case=> -[].
Qed.

Example C93_flags_example : (permutation_to_matrix_p C [:: 1; 0]).1 = [::] /\
  permutation_to_matrix_p C [:: 2%:Z; 0] = ([:: Print [:: S "Invalid permutation"]], Ok None).
Proof. by []. Qed.

(* the two messages of is_symp do occur: 2 I has the block form but is not symplectic, diag(2, 1/2) is symplectic without it *)
Lemma symp_diag (a d : C) : is_symp_p (arr2 a 0 0 d) =
  if close a d^* then if close (a * d) 1 && close (d * a) 1 then ([::], Ok true)
    else ([:: Print [:: S "Error: Canonical form but not symplectic"]], Ok false)
  else if close (a * d) 1 && close (d * a) 1 then ([:: Print [:: S "Not canonical but still symplectic"]], Ok true) else ([::], Ok false).
Proof.
rewrite /is_symp_p [nr _]/= [nc _]/= eqxx (_ : (2 %/ 2)%N = 1%N) // (_ : (2 - 1)%N = 1%N) // !bcast_id // !qbind.
have -> : ablock (azeros 1 1) (aeye 1) (aeye 1) (azeros 1 1) = (arr2 0 1 1 0 : arr) by apply: arr2P => //; rewrite getE //= ?getE.
rewrite atr_arr2 !arr2_mul !(mulr0, mul0r, addr0, add0r, mulr1).
have -> : allclose (arr2 0 (a * d) (d * a) 0) (arr2 0 1 1 0) = close (a * d) 1 && close (d * a) 1.
  by rewrite /allclose /= ?getE // !close_refl /= !andbT.
have -> : allclose_b (aslice (arr2 a 0 0 d) 0 0 1 1) (aconj (aslice (arr2 a 0 0 d) 1 1 1 1)) = close a d^*.
  by rewrite /allclose_b /= /bget /= ?getE //= ?getE //= !andbT.
have -> : allclose_b (aslice (arr2 a 0 0 d) 1 0 1 1) (aconj (aslice (arr2 a 0 0 d) 0 1 1 1)).
  by rewrite /allclose_b /= /bget /= ?getE //= ?getE //= rmorph0 close_refl.
by rewrite andbT /bindW /=.
Qed.
Example C93_symp_messages :
  is_symp_p (arr2 2%:R 0 0 2%:R : arr) = ([:: Print [:: S "Error: Canonical form but not symplectic"]], Ok false) /\
  is_symp_p (arr2 2%:R 0 0 2%:R^-1 : arr) = ([:: Print [:: S "Not canonical but still symplectic"]], Ok true).
Proof.
have n2 : (2%:R : C) != 0 by rewrite pnatr_eq0.
have far (x y : C) : `|y| <= 1 -> 1 < `|x - y| -> close x y = false.
  move=> h1 h2; apply/negbTE/negP => h; have := lt_le_trans h2 h; rewrite lt_gtF //.
  have l a : (10%:R ^+ a.+1)^-1 <= 10%:R^-1 :> C.
    by rewrite lef_pinv ?qualifE ?exprn_gt0 ?ltr0n // exprS ler_pmulr ?ltr0n // exprn_ege1 // ler1n.
  have h3 : atol + rtol * `|y| <= 10%:R^-1 + 10%:R^-1.
    apply: ler_add; first exact: l. 
    apply: le_trans (l 4%N); rewrite -[X in _ <= X]mulr1; apply: ler_wpmul2l => //; exact: ltW (rtol_gt0 C).
  apply: le_lt_trans h3 _; have -> : 10%:R^-1 + 10%:R^-1 = 2%:R / 10%:R :> C by rewrite mulr_natl.
  by rewrite ltr_pdivr_mulr ?ltr0n // mul1r ltr_nat.
rewrite !symp_diag conjC_nat close_refl (far (2%:R * 2%:R) 1) ?normr1 //; last first.
  by rewrite -natrM -(natrB C (isT : 1 <= 4)%N) normr_nat ltr1n.
rewrite mulfV // mulVf // close_refl fmorphV conjC_nat far //.
- by rewrite normrV ?unitfE // normr_nat invf_le1 ?ltr0n // ler1n.
have -> : 2%:R - 2%:R^-1 = 3%:R / 2%:R :> C.
  by apply: (mulIf n2); rewrite mulrBl mulVf // divfK // -natrM -(natrB C (isT : 1 <= 4)%N).
by rewrite ger0_norm ?divr_ge0 ?ler0n // ltr_pdivl_mulr ?ltr0n // mul1r ltr_nat.
Qed.
End Props.

Lemma obind X Y (a : X) (f : X -> res Y) : bind (Ok a) f = f a. Proof. by []. Qed.
(* C93: stabilizer_distribution prints its warning exactly when it then fails with AssertionError; a call that returns is silent *)
Theorem C93_stabilizer x : (stabilizer_distribution_p x).2 = stabilizer_distribution x /\
  ((stabilizer_distribution_p x).1 = [::] \/
   exists t, (stabilizer_distribution_p x).1 = [:: Print [:: S "Warning: stabilizer distribution sum ="; PClean t]] /\
     stabilizer_distribution x = Raise AssertionError).
Proof.
rewrite /stabilizer_distribution_p /stabilizer_distribution.
case: (cast_to_density_matrix x) => [rho|e]; last by split=> //; left.
rewrite qbind obind.
case: (real_trace rho rho) => [pr|e]; last by split=> //; left.
rewrite qbind obind.
case: (generate_pauli_group _ _) => [g|e]; last by split=> //; left.
rewrite qbind obind.
case: (mapM _ _) => [xi|e]; last by split=> //; left.
rewrite qbind /= /assertM; case: (rclose _ _) => /=; split=> //; first by left.
by right; eexists.
Qed.
