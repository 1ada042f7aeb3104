(* PauliFacts.v -- products of Pauli strings; Jordan-Wigner Majorana operators are Pauli strings *)
Set Warnings "-notation-overridden,-ambiguous-paths".
From mathcomp Require Import all_ssreflect all_algebra.
From mathcomp.zify Require Import zify.
From Verif Require Import Base ArrC MLib JW OpFam FermAlg LibFacts LibFacts2 LibFacts3.
Set Implicit Arguments.
Unset Strict Implicit.
Unset Printing Implicit Defensive.
Import Order.Theory GRing.Theory Num.Theory.
Local Open Scope ring_scope.

Lemma dig_ex n (f : nat -> nat) : (forall j, (f j < 4)%N) -> exists2 k, (k < 4 ^ n)%N & forall j, (j < n)%N -> dig n k j = f j.
Proof.
move=> f4; elim: n => [|n [k hk e]]; first by exists 0%N.
exists (k * 4 + f n)%N; first by have := f4 n; rewrite expnSr; lia.
move=> j; rewrite ltnS leq_eqVlt => /orP[/eqP ->|hj].
  by rewrite dig_last modnMDl modn_small.
by rewrite digS // divnMDl // divn_small // addn0 e.
Qed.

Section P.
Variable C : numClosedFieldType.
Local Notation sig := (sig C).
Local Notation pstr := (pstr C).

Definition phase (c : C) := c \in [:: 1; -1; 'i; - 'i].

Lemma ii : 'i * 'i = -1 :> C. Proof. by rewrite -expr2 sqrCi. Qed.

Lemma phaseM c d : phase c -> phase d -> phase (c * d).
Proof.
rewrite /phase !inE; case/or4P=> /eqP-> /or4P[] /eqP->; rewrite ?mul1r ?mulN1r ?mulr1 ?mulrN1 ?mulNr ?mulrN ?opprK ?ii ?opprK ?eqxx ?orbT //.
Qed.
Lemma phase1 : phase 1. Proof. by rewrite /phase !inE eqxx. Qed.
Lemma phase_prod n (c : nat -> C) : (forall j, phase (c j)) -> phase (\prod_(k < n) c k).
Proof. by move=> h; elim/big_ind: _ => // [|x y]; [exact: phase1|exact: phaseM]. Qed.
Lemma phase_conj c : phase c -> phase c^*.
Proof.
by rewrite /phase !inE; case/or4P=> /eqP->; rewrite ?rmorphN ?conjC1 ?conjCi ?opprK ?eqxx ?orbT.
Qed.
Lemma phase_unit c : phase c -> c * c^* = 1.
Proof.
by rewrite /phase !inE; case/or4P=> /eqP->; rewrite ?rmorphN ?conjC1 ?conjCi ?mulrNN ?mulr1 // mulrN ?mulNr ii opprK.
Qed.
Lemma phase_sqr c : phase c -> c ^+ 2 = 1 \/ c ^+ 2 = -1.
Proof.
by rewrite /phase !inE; case/or4P=> /eqP->; rewrite ?sqrrN ?expr1n ?sqrCi; auto.
Qed.
Lemma phase_neq0 c : phase c -> c != 0.
Proof. by move/phase_unit => h; apply/eqP => e; move/eqP: h; rewrite e mul0r eq_sym oner_eq0. Qed.

Lemma sig_mul d e : (d < 4)%N -> (e < 4)%N ->
  exists cf : C * nat, [/\ phase cf.1, (cf.2 < 4)%N & amul (sig d) (sig e) = ascale cf.1 (sig cf.2)].
Proof.
have [p1 pm pi pmi] : [/\ phase 1, phase (-1), phase 'i & phase (- 'i)] by rewrite /phase !inE !eqxx !orbT.
case: d => [|[|[|[|d]]]] // _; case: e => [|[|[|[|e]]]] // _; rewrite /sig /=.
- by exists (1, 0%N); split=> //=; arr2s.
- by exists (1, 1%N); split=> //=; arr2s.
- by exists (1, 2%N); split=> //=; arr2s.
- by exists (1, 3%N); split=> //=; arr2s.
- by exists (1, 1%N); split=> //=; arr2s.
- by exists (1, 0%N); split=> //=; arr2s.
- by exists ('i, 3%N); split=> //=; arr2s.
- by exists (- 'i, 2%N); split=> //=; arr2s; rewrite ?mulrNN ?mulNr ?ii ?opprK.
- by exists (1, 2%N); split=> //=; arr2s.
- by exists (- 'i, 3%N); split=> //=; arr2s.
- by exists (1, 0%N); split=> //=; arr2s; rewrite ?mulrN ?mulNr ?ii ?opprK.
- by exists ('i, 1%N); split=> //=; arr2s.
- by exists (1, 3%N); split=> //=; arr2s.
- by exists ('i, 2%N); split=> //=; arr2s; rewrite ?mulrN ?ii ?opprK.
- by exists (- 'i, 1%N); split=> //=; arr2s.
by exists (1, 0%N); split=> //=; arr2s.
Qed.

Definition pM n k : 'M[C]_(2 ^ n) := toM (2 ^ n) (2 ^ n) (pstr n k).

Lemma pM_mul n k l : exists c m, [/\ phase c, (m < 4 ^ n)%N & pM n k *m pM n l = c *: pM n m].
Proof.
have [g0 g0P] : exists g0 : 'I_n -> C * nat, forall j : 'I_n, [/\ phase (g0 j).1, ((g0 j).2 < 4)%N &
    amul (sig (dig n k j)) (sig (dig n l j)) = ascale (g0 j).1 (sig (g0 j).2)].
  by apply: (fin_all_exists (P := fun (j : 'I_n) (cf : C * nat) => [/\ phase cf.1, (cf.2 < 4)%N &
    amul (sig (dig n k j)) (sig (dig n l j)) = ascale cf.1 (sig cf.2)])) => j; exact: (sig_mul (dig_lt n k j) (dig_lt n l j)).
pose g (j : nat) : C * nat := if insub j is Some i then g0 i else (1, 0%N).
have gP j : [/\ phase (g j).1, ((g j).2 < 4)%N & (j < n)%N -> amul (sig (dig n k j)) (sig (dig n l j)) = ascale (g j).1 (sig (g j).2)].
  rewrite /g; case: insubP => [i _ <-|/negbTE ->]; first by have [h1 h2 h3] := g0P i.
  by split=> //; exact: phase1.
have [|m hm em] := @dig_ex n (fun j => (g j).2); first by move=> j; have [] := gP j.
exists (\prod_(j < n) (g j).1), m; split=> //.
  by apply: (phase_prod n (c := fun j => (g j).1)) => j; have [] := gP j.
rewrite /pM -toM_jmul ?nr_pstr ?nc_pstr // /pstr (ts_mul n (pstr2 C n k) (pstr2 C n l)).
rewrite -(toM_scale _ (nr_pstr C n m) (nc_pstr C n m)); congr (toM _ _ _).
rewrite /pstr -(ts_scale n (fun j => (g j).1)); apply: eq_ts => j hj.
by have [_ _ ->] := gP j; rewrite ?em.
Qed.

Lemma pM_adj n k : adjm (pM n k) = pM n k.
Proof. by rewrite /pM -toM_adj ?nr_pstr ?nc_pstr // pstr_adj. Qed.

Lemma pM_sqr n k : pM n k *m pM n k = 1%:M.
Proof. by rewrite /pM -toM_jmul ?nr_pstr ?nc_pstr // pstr_sqr toM_eye. Qed.

Lemma pM_comm n k l : pM n k *m pM n l = pM n l *m pM n k \/ pM n k *m pM n l = - (pM n l *m pM n k).
Proof.
have [c [m [pc hm e]]] := pM_mul n k l.
have e2 : pM n l *m pM n k = c^* *: pM n m by rewrite -[LHS]adjmK adjmM !pM_adj e adjmZ pM_adj.
have : c = c^* \/ c = - c^*.
  by move: pc; rewrite /phase !inE; case/or4P=> /eqP->; rewrite ?rmorphN ?conjC1 ?conjCi ?opprK; auto.
by rewrite e e2 => -[<-|h]; [left|right; rewrite {1}h scaleNr].
Qed.

(* ---------------- Majorana operators ---------------- *)
Definition jwg (i : nat) (A : arr C) (k : nat) : arr C := if k == i then A else if (k < i)%N then pauli_z C else aeye 2.
Lemma jwg2 i A : nr A = 2%N -> nc A = 2%N -> site2 (jwg i A).
Proof. by move=> h1 h2 k; rewrite /jwg; case: ifP => // _; case: ifP. Qed.

Lemma jwg_scale n i c A : (i < n)%N -> ts n (jwg i (ascale c A)) = ascale c (ts n (jwg i A)).
Proof.
move=> hi; rewrite -[c in RHS](_ : \prod_(k < n) (if k == i :> nat then c else 1) = c).
  rewrite -(ts_scale n (fun k => if k == i then c else 1)); apply: eq_ts => k _; rewrite /jwg; case: eqP => // _.
  case: ifP => _; apply: arrP => // a b ha hb; by rewrite [RHS]getE // mul1r.
by rewrite (bigD1 (Ordinal hi)) //= eqxx big1 ?mulr1 // => k nk; rewrite -(inj_eq val_inj) /= in nk; rewrite (negbTE nk).
Qed.

Lemma jwg_am n i : ts n (jwg i (Sminus C)) = jw_site C n i.
Proof. by rewrite jw_siteE; apply: eq_ts => k _; rewrite /jwg /jwf; case: ltngtP. Qed.
Lemma jwg_ama n i : ts n (jwg i (aadj (Sminus C))) = aadj (jw_site C n i).
Proof.
rewrite jw_siteE ts_adj; apply: eq_ts => k _; rewrite /jwg /jwf; case: ltngtP => //= _; arr2s => //.
Qed.

Lemma jwg_lin n i c d : (i < n)%N -> toM (2 ^ n) (2 ^ n) (ts n (jwg i (aadd (ascale c (Sminus C)) (ascale d (aadj (Sminus C)))))) =
  c *: am C n i + d *: adjm (am C n i).
Proof.
move=> hi; rewrite /jwg ts_add //=; last by move=> k; case: ifP.
rewrite toM_add -/(jwg i _) -/(jwg i _); try by rewrite ?nr_ts ?nc_ts //; exact: jwg2.
rewrite (@jwg_scale n i c (Sminus C) hi) (@jwg_scale n i d (aadj (Sminus C)) hi) jwg_am jwg_ama.
by rewrite !toM_scale /= ?nr_jw ?nc_jw // am_adj.
Qed.

Lemma jwg_pM n i d : (d < 4)%N -> exists2 k, (k < 4 ^ n)%N & toM (2 ^ n) (2 ^ n) (ts n (jwg i (sig d))) = pM n k.
Proof.
move=> hd; have [|k hk ek] := @dig_ex n (fun j => if j == i then d else if (j < i)%N then 3 else 0)%N.
  by move=> j; case: ifP => // _; case: ifP.
exists k => //; rewrite /pM /pstr; congr (toM _ _ _); apply: eq_ts => j hj; rewrite ek // /jwg.
by case: ifP => // _; case: ifP.
Qed.

Lemma gam_low n j : (j < n)%N -> sqrt2 C *: gam C n j = toM (2 ^ n) (2 ^ n) (ts n (jwg j (sig 1))).
Proof.
have s2 : sqrt2 C != 0 by rewrite /sqrt2 sqrtC_eq0 pnatr_eq0.
move=> h; rewrite gamE ?h; last by lia.
rewrite scalerA mulfV // scale1r; have := @jwg_lin n j 1 1 h; rewrite !scale1r [in RHS]addrC => <-; congr (toM _ _ (ts _ (jwg _ _))).
by rewrite /sig /=; arr2s; rewrite ?conjC1.
Qed.

(* sqrt 2 times a Majorana operator is a Pauli string *)
Lemma gam_pM n j : (j < 2 * n)%N -> exists2 k, (k < 4 ^ n)%N & sqrt2 C *: gam C n j = pM n k.
Proof.
have s2 : sqrt2 C != 0 by rewrite /sqrt2 sqrtC_eq0 pnatr_eq0.
move=> hj; rewrite gamE //; case: ltnP => h; rewrite scalerA mulfV // scale1r.
  have [k hk e] := @jwg_pM n j 1 isT; exists k => //; rewrite -e.
  have := @jwg_lin n j 1 1 h; rewrite !scale1r [in RHS]addrC => <-; congr (toM _ _ (ts _ (jwg _ _))).
  by rewrite /sig /=; arr2s; rewrite ?conjC1.
have hi : (j - n < n)%N by lia.
have [k hk e] := @jwg_pM n (j - n) 2 isT; exists k => //; rewrite -e.
have := @jwg_lin n (j - n) (- 'i) 'i hi; rewrite scalerBr scaleNr !scaleNr opprK => <-; congr (toM _ _ (ts _ (jwg _ _))).
by rewrite /sig /=; arr2s; rewrite ?conjC1.
Qed.

Lemma gam2_pM n i j : (i < 2 * n)%N -> (j < 2 * n)%N ->
  exists c k, [/\ phase c, (k < 4 ^ n)%N & 2%:R *: (gam C n i *m gam C n j) = c *: pM n k].
Proof.
move=> /gam_pM[k _ ek] /gam_pM[l _ el]; have [c [m [pc hm e]]] := pM_mul n k l.
exists c, m; split=> //; rewrite -e -ek -el -scalemxAl -scalemxAr scalerA; congr (_ *: _).
by rewrite -expr2 sqrtCK.
Qed.
End P.
