(* PropPrint4.v -- property C93: the verbose reports of rotate_operators and build_op *)
Set Warnings "-notation-overridden,-ambiguous-paths".
From Coq Require Import Reals String.
From mathcomp Require Import all_ssreflect all_algebra.
From mathcomp Require Import complex.
From mathcomp.zify Require Import zify.
From Verif Require Import Base ArrC MCombinatorics MLib JW OpFam FermAlg LibFacts LibFacts2 LibFacts3 Spectral RealC MUtils MDist MGraph MEmbed MPrint.
From Verif Require Import PropLib1 PropLib2 PropLib3 PropLib4 PropGraph2 PropPrint1 PropPrint3.
Set Implicit Arguments.
Unset Strict Implicit.
Unset Printing Implicit Defensive.
Import Order.Theory GRing.Theory Num.Theory.
Local Open Scope ring_scope.
Local Notation S s := (PStr s%string).

Section Props.
Variable C : numClosedFieldType.
Local Notation arr := (arr C).
Local Notation ev := (event C).

Lemma mapW_log A B (f : A -> out C B) (lg : A -> seq ev) (g : A -> B) (P : A -> Prop) l :
  (forall x, List.In x l -> P x) -> (forall x, P x -> f x = (lg x, Ok (g x))) ->
  mapW f l = (flatten [seq lg x | x <- l], Ok [seq g x | x <- l]).
Proof.
elim: l => [|x l IH] //= hP h; rewrite h; last by apply: hP; left.
by rewrite /bindW /= IH ?cats0 // => y hy; apply: hP; right.
Qed.

(* ------------------------------ rotate_operators ------------------------------ *)
Definition head_line (j : nat) : ev := Print [:: S "\nj"; PNat j; S "\n----"].
Definition term_line (j i : nat) (c : C) : ev :=
  Print [:: S "b["; PNat j; S "] += C["; PNat j; S ","; PNat i; S "]  alpha_"; PNat i; S "= "; PRound 3 c;
            S " alpha_"; PNat i; S "\n"].

Lemma flatten_if (l : seq nat) (p : pred nat) (g : nat -> ev) :
  flatten [seq (if p i then [::] else [:: g i]) | i <- l] = [seq g i | i <- l & ~~ p i].
Proof. by elim: l => //= i l ->; case: (p i). Qed.

(* C93: the verbose report of rotate_operators: for every j a heading and then, in order, one line for every coefficient
   of size at least 1e-9 of the row of the rotation that is applied (the adjoint when Left); and the rotated operators *)
Theorem C93_rotation N n (A : nat -> 'M[C]_N) (M : 'M[C]_n) (left : bool) : let c := if left then adjm M else M in
  rotate_operators_p (PList (ops A n)) (MLib.PArr (ofM M)) left true =
  (flatten [seq head_line j :: [seq term_line j i (get (ofM c) j i) | i <- iota 0 n & ~~ (`|get (ofM c) j i| < eps9 C)]
           | j <- iota 0 n],
   Ok (Rot (ops (fun j => \sum_(i < n) (if `|get (ofM c) j i| < eps9 C then 0 else get (ofM c) j i) *: A i) n))).
Proof.
move=> c; rewrite /rotate_operators_p /rotate_core_p size_ops [nr _]/= [nc _]/= eqxx /=.
rewrite -[X in (X, _)]cat0s; apply: (bind_ok erefl) => /=.
have -> : (if left then aadj (ofM M) else ofM M) = ofM c by rewrite /c {c}; case: left; rewrite ?ofM_adj.
move: c => c {left}; rewrite -[X in (X, _)]cats0; apply: (bind_ok _ erefl).
rewrite /perform_rotation_p size_ops.
rewrite (mapW_log (P := fun j => (j < n)%N) (lg := fun j => head_line j ::
   [seq term_line j i (get (ofM c) j i) | i <- iota 0 n & ~~ (`|get (ofM c) j i| < eps9 C)])
   (g := fun j => ofM (\sum_(i < n) (if `|get (ofM c) j i| < eps9 C then 0 else get (ofM c) j i) *: A i))) //.
  by move=> j; exact: in_iota.
move=> j hj; rewrite item_ops ?(leq_ltn_trans _ hj) // qbind.
rewrite -[X in (X, _)]/([:: head_line j] ++ _); apply: (bind_ok erefl).
rewrite -flatten_if.
have E l (X : 'M[C]_N) : (forall i, List.In i l -> (i < n)%N) ->
  foldW (fun b i =>
      let! c := quiet (idx (ofM c) j i) in
      if `|c| < eps9 C then retW b else
      let! al := quiet (item (ops A n) i) in
      let! b := quiet (iadd b (ascale c al)) in
      let! _ := when true (say [:: S "b["; PNat j; S "] += C["; PNat j; S ","; PNat i; S "]  alpha_"; PNat i;
                                      S "= "; PRound 3 c; S " alpha_"; PNat i; S "\n"]) in retW b) (ofM X) l =
  (flatten [seq (if `|get (ofM c) j i| < eps9 C then [::] else [:: term_line j i (get (ofM c) j i)]) | i <- l],
   Ok (ofM (X + \sum_(i <- l) (if `|get (ofM c) j i| < eps9 C then 0 else get (ofM c) j i) *: A i))).
  elim: l X => [|i l IH] X hl; first by rewrite big_nil addr0.
  rewrite [foldW _ _ _]/= big_cons [flatten _]/= addrA.
  have hi : (i < n)%N by apply: hl; left.
  have IH' Y := IH Y (fun k hk => hl k (or_intror hk)).
  apply: (@bind_ok _ _ _ _ _ (ofM (X + (if `|get (ofM c) j i| < eps9 C then 0 else get (ofM c) j i) *: A i))); last exact: IH'.
  rewrite /idx hj hi qbind.
  case: ifP => _; first by rewrite scale0r addr0.
  by rewrite item_ops // qbind ofM_scale ofM_iadd qbind.
rewrite [nr _]/= [nc _]/= ofM_zeros E; last by move=> i; exact: in_iota.
by rewrite add0r big_iota.
Qed.

(* ------------------------------ build_op ------------------------------ *)
(* the pairs (i, j) that enter the sum, row by row *)
Definition kept n (R : 'M[C]_(2 * n)) : seq (nat * nat) :=
  [seq p <- [seq (i, j) | i <- iota 0 (2 * n), j <- iota 0 (2 * n)] | ~~ (`|get (ofM R) p.1 p.2| < eps10 C)].
Definition so_far N (X : 'M[C]_N) : seq ev := [:: Print [:: S "\nR_op so far:"]; Print [:: PArr (ofM X)]].

Lemma foldW_cat T A (f : T -> A -> out C T) s l1 l2 :
  foldW f s (l1 ++ l2) = bindW (foldW f s l1) (fun s => foldW f s l2).
Proof.
elim: l1 s => [|x l1 IH] s /=; first by rewrite /bindW /=; case: (foldW _ _ _).
rewrite /bindW; case E: (f s x).2 => [s'|] //=; rewrite IH /bindW; case: (foldW f s' l1).2 => //= s2.
by rewrite catA.
Qed.
Lemma foldW_pairs T (f : T -> nat -> nat -> out C T) s l1 l2 :
  foldW (fun s i => foldW (fun s j => f s i j) s l2) s l1 =
  foldW (fun s p => f s p.1 p.2) s [seq (i, j) | i <- l1, j <- l2].
Proof.
elim: l1 s => [|i l1 IH] s //=; rewrite foldW_cat /bindW.
have -> : foldW (fun s p => f s p.1 p.2) s [seq (i, j) | j <- l2] = foldW (fun s j => f s i j) s l2.
  by elim: l2 s {IH} => //= j l2 IH s; rewrite /bindW; case: (f s i j).2 => //= s'; rewrite IH.
by case: (foldW _ s l2).2 => //= s'; rewrite IH.
Qed.

(* C93: the verbose report of build_op: for every entry of size at least 1e-10, row by row, the sum of the terms so far; the
   last printed array is the result *)
Theorem C93_build_op N n (A : nat -> 'M[C]_N) (R : 'M[C]_(2 * n)) (direct : bool) : (0 < n)%N ->
  let term p := get (ofM R) p.1 p.2 *: ((if direct then A p.1 else adjm (A p.1)) *m A p.2) in
  build_op_p n (ofM R) (ops A (2 * n)) true direct =
  (flatten [seq so_far (\sum_(p <- take k.+1 (kept R)) term p) | k <- iota 0 (size (kept R))],
   Ok (ofM (\sum_(p <- kept R) term p))).
Proof.
move=> n0 term; rewrite /build_op_p /= eqxx /=.
rewrite -[X in (X, _)]cat0s; apply: (bind_ok erefl).
rewrite item_ops ?muln_gt0 // qbind foldW_pairs [nr _]/= [nc _]/= ofM_zeros /kept.
have : forall p, List.In p [seq (i, j) | i <- iota 0 (2 * n), j <- iota 0 (2 * n)] -> (p.1 < 2 * n)%N && (p.2 < 2 * n)%N.
  move=> p hp; have : p \in [seq (i, j) | i <- iota 0 (2 * n), j <- iota 0 (2 * n)].
    by elim: [seq _ | _ <- _, _ <- _] hp => //= q l IH [->|/IH h]; rewrite inE ?eqxx ?h ?orbT.
  by case/allpairsP => -[i j] [] /=; rewrite !mem_iota => /= hi hj ->; rewrite hi hj.
move: [seq _ | _ <- _, _ <- _] => l.
pose F (s : arr) (p : nat * nat) := let! r := quiet (idx (ofM R) p.1 p.2) in
     if `|r| < eps10 C then retW s else
     let! ai := quiet (item (ops A (2 * n)) p.1) in
     let! aj := quiet (item (ops A (2 * n)) p.2) in
     let! p0 := quiet (if direct then amul_chk ai aj else amul_chk (aadj ai) aj) in
     let! acc := quiet (iadd s (ascale r p0)) in
     let! _ := (let! _ := say [:: S "\nR_op so far:"] in say [:: PArr acc]) in retW acc.
suff E (X : 'M[C]_N) (k0 := [seq p <- l | ~~ (`|get (ofM R) p.1 p.2| < eps10 C)]) :
  (forall p : nat * nat, List.In p l -> (p.1 < 2 * n)%N && (p.2 < 2 * n)%N) ->
  foldW F (ofM X) l = (flatten [seq so_far (X + \sum_(p <- take k.+1 k0) term p) | k <- iota 0 (size k0)],
    Ok (ofM (X + \sum_(p <- k0) term p))).
  move=> hl; have := E 0 hl; rewrite /F => -> /=; rewrite add0r; congr (flatten _, _).
  by apply: eq_map => k; rewrite add0r.
rewrite /k0 {k0}; elim: l X => [|p l IH] X hl; first by rewrite /= big_nil addr0.
have /andP[h1 h2] : (p.1 < 2 * n)%N && (p.2 < 2 * n)%N by apply: hl; left.
have IH' Y := IH Y (fun q hq => hl q (or_intror hq)).
rewrite [foldW _ _ _]/= [filter _ _]/= ; case: ifP => hp; last first.
  rewrite -[X in (X, _)]cat0s; apply: (@bind_ok _ _ _ _ _ (ofM X)); last exact: IH'.
  by move/negbFE: hp => hp; rewrite /F /idx h1 h2 qbind hp.
rewrite [size _]/= [iota _ _]/= [map _ (_ :: _)]/= [flatten _]/= take0 big_cons big_nil addr0 big_cons addrA.
rewrite -[_ :: _ :: _]/(so_far (X + term p) ++ _); apply: (@bind_ok _ _ _ _ _ (ofM (X + term p))).
  rewrite /F /idx h1 h2 qbind (negbTE hp) !item_ops // !qbind.
  have -> : (if direct then amul_chk (ofM (A p.1)) (ofM (A p.2)) else amul_chk (aadj (ofM (A p.1))) (ofM (A p.2))) =
    Ok (ofM ((if direct then A p.1 else adjm (A p.1)) *m A p.2)) by rewrite /term; case: (direct); rewrite ?ofM_adj ofM_mul_chk.
  by rewrite qbind ofM_scale ofM_iadd qbind.
rewrite IH'; congr (flatten _, _); rewrite (iotaDl 1 0) -map_comp; apply: eq_map => k /=.
by rewrite big_cons addrA.
Qed.

(* ------------------------------ complete_face ------------------------------ *)
(* C93: what complete_face prints depends on the unassigned edges of the face (real part 0 up to 1e-8): with verbose they
   and the product of the other signs; a warning when there is none, and when there is more than one *)
Theorem C93_face (A : arr) f verbose : in_range A f -> let U := [seq e <- f | unassigned A e] in
  (complete_face_p A f verbose).1 =
    (if verbose then [:: Print [:: PEdges U];
                         Print [:: S "sign without edge:"; PNum (\prod_(e <- f | ~~ unassigned A e) seen A e)]] else [::]) ++
    (if size U == 0%N then [:: Print [:: S "no unassigned edges among:"; PEdges f]]
     else if (1 < size U)%N then [:: Print [:: S "more than one unassigned edge:"; PEdges U]] else [::]).
Proof.
move=> h U; rewrite /complete_face_p face_signE // qbind -/U bindW1; congr (_ ++ _); first by case: verbose.
have -> : (when verbose (let! _ := say [:: PEdges U] in
   say [:: S "sign without edge:"; PNum (\prod_(e <- f | ~~ unassigned A e) seen A e)])).2 = Ok tt by case: verbose.
rewrite [_.2]/= [_.1]/=; case: U => [|x r] //.
rewrite bindW1 -[X in _ = X]cats0; congr (_ ++ _); first by case: r.
have -> : (when (r != [::]) (say [:: S "more than one unassigned edge:"; PEdges (x :: r)])).2 = Ok tt by case: r.
by apply: quiet1 => a; apply: quiet1.
Qed.

(* ------------------------------ is_matchgate, check_canonical_form ------------------------------ *)
(* C93: the verbose message of is_matchgate says what the function returns and shows the determinants of the inner block
   (first) and of the corner block; check_canonical_form names the test that failed *)
Theorem C93_texts :
  [/\ forall M : 'M[C]_4, is_matchgate_p (ofM M) true = if is_matchgate (ofM M)
        then ([:: Print [:: S "Satisfies the matchgate condition, det1=det2="; PRound 4 (inner_det M)]], Ok true)
        else ([:: Print [:: S "Not matchgate\n det1="; PRound 4 (inner_det M); S "; det2="; PRound 4 (corner_det M)]], Ok false),
      forall (M : arr) verbose, (nr M != 4%N) || (nc M != 4%N) ->
        is_matchgate_p M verbose = ([:: Print [:: S "Wrong size - input must be 4x4 matrix"]], Ok false),
      forall L : arr, odd (nr L) -> check_canonical_form_p L = ([:: Print [:: S "Odd dimension for input matrix"]], Ok false),
      forall L : arr, ~~ odd (nr L) -> nr L != nc L ->
        check_canonical_form_p L = ([:: Print [:: S "Not square, real, and skew-symmetric"]], Ok false) &
  forall n (L : 'M[C]_(2 * n)), let rs := (forall i j, np_close (L i j) (L i j)^*) /\ (forall i j, np_close (L i j) (- L j i)) in
    (~ rs -> check_canonical_form_p (ofM L) = ([:: Print [:: S "Not square, real, and skew-symmetric"]], Ok false)) /\
    (rs -> ~ (forall i j : 'I_(2 * n), j != partner i :> nat -> np_close 0 (L i j)) ->
      check_canonical_form_p (ofM L) = ([:: Print [:: S "Too many non-zero elements"]], Ok false))].
Proof.
split.
- move=> M; rewrite /is_matchgate_p /is_matchgate /=.
  have D (f : nat -> nat -> C) : \det (toM 2 2 (mk 2 2 f)) = f 0%N 0%N * f 1%N 1%N - f 0%N 1%N * f 1%N 0%N.
    rewrite (expand_det_row _ ord0) 2!big_ord_recl big_ord0 addr0 /cofactor !det_mx11 !mxE !getE //=.
    by rewrite expr0 expr1 mul1r mulN1r mulrN.
  by rewrite !D /= !get_inord // -/(inner_det M) -/(corner_det M); case: (close _ _).
- by move=> M v h; rewrite /is_matchgate_p /shp negb_and h.
- by move=> L h; rewrite /check_canonical_form_p modn2 h.
- by move=> L /negbTE h h'; rewrite /check_canonical_form_p modn2 h (_ : nc L != nr L) // eq_sym.
move=> n L rs; rewrite /check_canonical_form_p /= modnMr /= mulKn // eqxx /= canon_copy ofM_conj ofM_tr ofM_opp.
have e1 : allclose (ofM L) (ofM (map_mx conjC L)) <-> forall i j, np_close (L i j) (L i j)^*.
  by split=> [/allclose_ofM h i j|h]; [have := h i j; rewrite mxE|apply/allclose_ofM => i j; rewrite mxE].
have e2 : allclose (ofM L) (ofM (- L^T)) <-> forall i j, np_close (L i j) (- L j i).
  by split=> [/allclose_ofM h i j|h]; [have := h i j; rewrite !mxE|apply/allclose_ofM => i j; rewrite !mxE].
split=> [nrs|[r1 r2] nb].
  case: (boolP (allclose _ _)) => //= /e1 h1; case: (boolP (allclose _ _)) => //= /e2 h2.
  by case: nrs.
move/e1: r1 => ->; move/e2: r2 => -> /=; case: (boolP (allclose _ _)) => //= /allclose_ofM h; case: nb => i j nj.
by have := h i j; rewrite mxE (negbTE nj).
Qed.

(* rotation of two operators by the swap: two headings, one term each *)
Example C93_rotation_example N (A : nat -> 'M[C]_N) :
  (rotate_operators_p (PList (ops A 2)) (MLib.PArr (ofM (\matrix_(i < 2, j < 2) (i != j)%:R))) false true).1 =
  [:: head_line 0; term_line 0 1 1; head_line 1; term_line 1 0 1].
Proof.
rewrite C93_rotation [LHS]/=.
have e0 : `|0 : C| < eps9 C by rewrite normr0 invr_gt0 exprn_gt0 ?ltr0n.
have e1 : (`|1 : C| < eps9 C) = false.
  by rewrite normr1 le_gtF // invf_le1 ?exprn_gt0 ?ltr0n // exprn_ege1 // ler1n.
pose M : 'M[C]_2 := \matrix_(i < 2, j < 2) (i != j)%:R.
have g i j : (i < 2)%N -> (j < 2)%N -> get (ofM M) i j = (i != j)%:R.
  by move=> hi hj; have := ofM_get M (Ordinal hi) (Ordinal hj); rewrite mxE.
by rewrite !g //= e0 e1 /= g //= g.
Qed.

(* ------------------------------ is_symp ------------------------------ *)
(* the blocks agree with (A, B; conj B, conj A) up to numpy's tolerances *)
Definition near_form n (U : 'M[C]_(2 * n)) : bool := [forall i : 'I_n, forall j : 'I_n,
  close (get (ofM U) i j) (get (ofM U) (n + i) (n + j))^* && close (get (ofM U) (n + i) j) (get (ofM U) i (n + j))^*].
Definition near_symp n (U : 'M[C]_(2 * n)) : bool :=
  [forall i, forall j, close ((U *m swapM C n *m U^T) i j) (swapM C n i j)].

Lemma all_ord n (P : nat -> bool) : all P (iota 0 n) = [forall i : 'I_n, P i].
Proof.
apply/allP/forallP => [h i|h i]; first by apply: h; rewrite mem_iota /=.
by rewrite mem_iota add0n => /= hi; exact: (h (Ordinal hi)).
Qed.
Lemma allclose_b_square n (f g : nat -> nat -> C) :
  allclose_b (mk n n f) (mk n n g) = [forall i : 'I_n, forall j : 'I_n, close (f i j) (g i j)].
Proof.
rewrite /allclose_b /= !maxnn all_ord; apply: eq_forallb => i; rewrite all_ord; apply: eq_forallb => j.
have z (k : 'I_n) : (if n == 1%N then 0%N else k) = k.
  by case: eqP => // e; move: (ltn_ord k); rewrite {2}e; case: (k : nat).
by rewrite /bget /= !z !getE.
Qed.

(* C93: the messages of is_symp: exactly one of the two when the two tests disagree, none otherwise *)
Theorem C93_symp_log n (U : 'M[C]_(2 * n)) : is_symp_p (ofM U) =
  (match near_form U, near_symp U with
   | true, false => [:: Print [:: S "Error: Canonical form but not symplectic"]]
   | false, true => [:: Print [:: S "Not canonical but still symplectic"]]
   | _, _ => [::]
   end, Ok (near_symp U)).
Proof.
have e : (2 * n %/ 2 = n)%N by rewrite mulKn.
have e' : (2 * n - 2 * n %/ 2 = n)%N by lia.
rewrite /is_symp_p [nr _]/= [nc _]/= eqxx e' e !bcast_id // !qbind -/(Smat C n).
have -> : Smat C n = ofM (swapM C n) by rewrite -SM_swap /SM ofM_toM //= addnn mul2n.
rewrite ofM_tr !ofM_mul.
have -> : allclose (ofM (U *m swapM C n *m U^T)) (ofM (swapM C n)) = near_symp U.
  apply/allclose_ofM/forallP => [h i|h i j]; first by apply/forallP => j; exact: h.
  by have /forallP := h i; apply.
have -> : (allclose_b (aslice (ofM U) 0 0 n n) (aconj (aslice (ofM U) n n n n)) &&
           allclose_b (aslice (ofM U) n 0 n n) (aconj (aslice (ofM U) 0 n n n))) = near_form U.
  rewrite /aslice /aconj [nr _]/= [nc _]/= !allclose_b_square.
  apply/andP/forallP => [[/forallP h1 /forallP h2] i|h].
    apply/forallP => j; have /forallP/(_ j) := h1 i; have /forallP/(_ j) := h2 i; rewrite !getE //= => -> ->.
    by [].
  by split; apply/forallP => i; apply/forallP => j; have /forallP/(_ j)/andP[] := h i; rewrite !getE.
by case: near_form; case: near_symp.
Qed.
End Props.
