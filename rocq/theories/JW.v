(* JW.v -- tensor strings and the algebra of the Jordan-Wigner operators *)
Set Warnings "-notation-overridden,-ambiguous-paths".
From mathcomp Require Import all_ssreflect all_algebra.
From mathcomp.zify Require Import zify.
From Verif Require Import Base ArrC MLib.
Set Implicit Arguments.
Unset Strict Implicit.
Unset Printing Implicit Defensive.
Import Order.Theory GRing.Theory Num.Theory.
Local Open Scope ring_scope.

Section Strings.
Variable C : numClosedFieldType.
Local Notation arr := (arr C).
Implicit Types f g : nat -> arr.

(* f 0 (x) f 1 (x) ... (x) f (n-1) *)
Definition ts n f : arr := foldl (fun acc j => akron acc (f j)) (aeye 1) (iota 0 n).
Definition site2 f := forall k, nr (f k) = 2%N /\ nc (f k) = 2%N.

Lemma ts0 f : ts 0 f = aeye 1. Proof. by []. Qed.
Lemma tsS n f : ts n.+1 f = akron (ts n f) (f n).
Proof. by rewrite /ts -(addn1 n) iotaD foldl_cat. Qed.

Lemma nr_ts n f : site2 f -> nr (ts n f) = (2 ^ n)%N.
Proof. by move=> H; elim: n => // n IH; rewrite tsS /= IH (H n).1 expnSr. Qed.
Lemma nc_ts n f : site2 f -> nc (ts n f) = (2 ^ n)%N.
Proof. by move=> H; elim: n => // n IH; rewrite tsS /= IH (H n).2 expnSr. Qed.

Lemma eq_ts n f g : (forall k, (k < n)%N -> f k = g k) -> ts n f = ts n g.
Proof.
elim: n => // n IH H; rewrite !tsS H // IH // => k hk; apply: H; exact: ltnW.
Qed.

Lemma ts_mul n f g : site2 f -> site2 g -> amul (ts n f) (ts n g) = ts n (fun k => amul (f k) (g k)).
Proof.
move=> Hf Hg; elim: n => [|n IH]; first by rewrite !ts0; exact: (amul1l (aeye 1 : arr)).
by rewrite !tsS mixed_product ?IH // ?nc_ts ?nr_ts // (Hf n).2 (Hg n).1.
Qed.

Lemma ts_scale n (c : nat -> C) f : ts n (fun k => ascale (c k) (f k)) = ascale (\prod_(k < n) c k) (ts n f).
Proof.
elim: n => [|n IH]; first by rewrite big_ord0 ascale1.
by rewrite !tsS IH akron_scalel akron_scaler ascaleA big_ord_recr.
Qed.

Lemma ts_adj n f : aadj (ts n f) = ts n (fun k => aadj (f k)).
Proof. by elim: n => [|n IH]; rewrite ?aadj_eye // !tsS aadj_kron IH. Qed.

Lemma ts_eye n : ts n (fun=> aeye 2) = aeye (2 ^ n).
Proof. by elim: n => // n IH; rewrite tsS IH akron_eye expnSr. Qed.

Lemma ascale0 (A : arr) : ascale 0 A = azeros (nr A) (nc A).
Proof. by apply: arrP => // i j /= hi hj; rewrite !getE // mul0r. Qed.

Lemma ts_zero n f k : site2 f -> (k < n)%N -> f k = azeros 2 2 -> ts n f = azeros (2 ^ n) (2 ^ n).
Proof.
move=> Hf hk e; rewrite -[RHS](_ : ascale 0 (ts n f) = _); last by rewrite ascale0 nr_ts // nc_ts.
have -> : ts n f = ts n (fun j => ascale (if j == k then 0 else 1) (f j)).
  apply: eq_ts => j _; case: eqP => [->|_]; last by rewrite ascale1.
  by rewrite e ascale0.
by rewrite ts_scale (bigD1 (Ordinal hk)) //= eqxx mul0r ascaleA mul0r.
Qed.

Lemma akronDl (A B D : arr) : nr A = nr B -> nc A = nc B -> akron (aadd A B) D = aadd (akron A D) (akron B D).
Proof.
move=> e1 e2; apply: arrP => // i j /= hi hj; rewrite !getE //= -?e1 -?e2 ?mulrDl //.
  by move: hi; case: (nr D) => [|k]; rewrite ?muln0 // ltn_divLR.
by move: hj; case: (nc D) => [|k]; rewrite ?muln0 // ltn_divLR.
Qed.

Lemma akronDr (A B D : arr) : nr B = nr D -> nc B = nc D -> akron A (aadd B D) = aadd (akron A B) (akron A D).
Proof.
move=> e1 e2; apply: arrP => // i j /= hi hj; rewrite !getE //= -?e1 -?e2 ?mulrDr //.
  by move: hi; case: (nr B) => [|k]; rewrite ?muln0 // ltn_mod.
by move: hj; case: (nc B) => [|k]; rewrite ?muln0 // ltn_mod.
Qed.

(* a sum at one site *)
Lemma ts_add n k (A B : arr) f : site2 f -> nr A = 2%N -> nc A = 2%N -> nr B = 2%N -> nc B = 2%N -> (k < n)%N ->
  ts n (fun j => if j == k then aadd A B else f j) =
  aadd (ts n (fun j => if j == k then A else f j)) (ts n (fun j => if j == k then B else f j)).
Proof.
move=> Hf e1 e2 e3 e4; elim: n => // n IH; rewrite ltnS leq_eqVlt => /orP[/eqP e|hk]; rewrite !tsS.
  subst k; rewrite eqxx akronDr ?e1 ?e2 //.
  by congr (aadd (akron _ _) (akron _ _)); apply: eq_ts => j hj; rewrite ltn_eqF.
rewrite gtn_eqF // IH // akronDl //; rewrite ?nr_ts ?nc_ts // => j; case: eqP => // _; exact: Hf.
Qed.

(* bit k of r, most significant first, among n bits *)
Definition bit n (r k : nat) : nat := ((r %/ 2 ^ (n - k.+1)) %% 2)%N.

Lemma bitS n r k : (k < n)%N -> bit n.+1 r k = bit n (r %/ 2)%N k.
Proof. by move=> hk; rewrite /bit -divnMA -expnS; congr (_ %/ 2 ^ _ %% _)%N; lia. Qed.

Lemma bit_last n r : bit n.+1 r n = (r %% 2)%N.
Proof. by rewrite /bit subnn expn0 divn1. Qed.

Lemma ts_get n f r c : site2 f -> (r < 2 ^ n)%N -> (c < 2 ^ n)%N ->
  get (ts n f) r c = \prod_(k < n) get (f k) (bit n r k) (bit n c k).
Proof.
move=> Hf; elim: n r c => [|n IH] r c hr hc.
  by rewrite ts0 big_ord0 getE //; move: hr hc; case: r => //; case: c.
rewrite tsS getE /= ?nr_ts ?nc_ts ?(Hf n).1 ?(Hf n).2 -?expnSr //.
rewrite IH ?ltn_divLR -?expnSr // big_ord_recr /= !bit_last; congr (_ * _).
by apply: eq_bigr => k _; rewrite !bitS.
Qed.

Lemma atrace_ts n f : site2 f -> atrace (ts n f) = \prod_(k < n) atrace (f k).
Proof.
move=> Hf; elim: n => [|n IH]; first by rewrite ts0 big_ord0 /atrace big_ord1 getE.
by rewrite tsS atrace_kron ?IH ?big_ord_recr //= ?nr_ts ?nc_ts // (Hf n).1 (Hf n).2.
Qed.

Lemma bit_lt n r k : (bit n r k < 2)%N. Proof. by rewrite ltn_mod. Qed.

Lemma bits_inj n r c : (r < 2 ^ n)%N -> (c < 2 ^ n)%N -> (forall k, (k < n)%N -> bit n r k = bit n c k) -> r = c.
Proof.
elim: n r c => [|n IH] r c; first by case: r c => [|r] [|c].
rewrite expnSr => hr hc H.
have e1 : (r %/ 2 = c %/ 2)%N.
  apply: IH; rewrite ?ltn_divLR // => k hk.
  by rewrite -!bitS //; apply: H; apply: ltnW.
have e2 := H n (ltnSn n); rewrite !bit_last in e2.
by rewrite (divn_eq r 2) (divn_eq c 2) e1 e2.
Qed.

(* ---------------------------------------------------------------- *)
(* 2x2 matrices                                                       *)
(* ---------------------------------------------------------------- *)
Lemma SminusE : Sminus C = mk 2 2 (fun i j => ((i == 0) && (j == 1))%N%:R).
Proof.
have h2 : (2%:R : C) != 0 by rewrite pnatr_eq0.
apply: arrP => // -[|[|i]] [|[|j]] //= _ _; rewrite !getE //= ?mulr0 ?addr0 ?mulr0 //.
  by rewrite mulrN -expr2 sqrCi opprK -[1 + 1]/(2%:R) mulVf.
by rewrite -expr2 sqrCi subrr mulr0.
Qed.

Definition arr2 (a b c d : C) : arr :=
  mk 2 2 (fun i j => if i == 0%N then (if j == 0%N then a else b) else (if j == 0%N then c else d)).

Lemma arr2P (A : arr) a b c d : nr A = 2%N -> nc A = 2%N ->
  get A 0 0 = a -> get A 0 1 = b -> get A 1 0 = c -> get A 1 1 = d -> A = arr2 a b c d.
Proof. by move=> e1 e2 *; apply: mkP => // -[|[|i]] [|[|j]]. Qed.

Lemma arr2_mul a b c d a' b' c' d' : amul (arr2 a b c d) (arr2 a' b' c' d') =
  arr2 (a * a' + b * c') (a * b' + b * d') (c * a' + d * c') (c * b' + d * d').
Proof. by apply: arr2P => //; rewrite getE //= 2!big_ord_recl big_ord0 addr0 !getE. Qed.
Lemma arr2_add a b c d a' b' c' d' : aadd (arr2 a b c d) (arr2 a' b' c' d') = arr2 (a + a') (b + b') (c + c') (d + d').
Proof. by apply: arr2P => //; rewrite getE //= !getE. Qed.
Lemma arr2_scale k a b c d : ascale k (arr2 a b c d) = arr2 (k * a) (k * b) (k * c) (k * d).
Proof. by apply: arr2P => //; rewrite getE //= !getE. Qed.
Lemma arr2_adj a b c d : aadj (arr2 a b c d) = arr2 a^* c^* b^* d^*.
Proof. by apply: arr2P => //; rewrite getE //= !getE. Qed.
Lemma arr2_trace a b c d : atrace (arr2 a b c d) = a + d.
Proof. by rewrite /atrace 2!big_ord_recl big_ord0 addr0 !getE. Qed.

Lemma eye2E : aeye 2 = arr2 1 0 0 1.
Proof. by apply: arr2P => //; rewrite getE. Qed.
Lemma zeros2E : azeros 2 2 = arr2 0 0 0 0.
Proof. by apply: arr2P => //; rewrite getE. Qed.
Lemma pxE : pauli_x C = arr2 0 1 1 0. Proof. by apply: arr2P => //; rewrite getE. Qed.
Lemma pyE : pauli_y C = arr2 0 (- 'i) 'i 0. Proof. by apply: arr2P => //; rewrite getE. Qed.
Lemma pzE : pauli_z C = arr2 1 0 0 (-1). Proof. by apply: arr2P => //; rewrite getE. Qed.
Lemma smE : Sminus C = arr2 0 1 0 0. Proof. by rewrite SminusE; apply: arr2P => //; rewrite getE. Qed.

End Strings.
Ltac arr2s := rewrite ?pxE ?pyE ?pzE ?smE ?eye2E ?zeros2E ?(arr2_mul, arr2_add, arr2_scale, arr2_adj)
  ?(rmorph0, rmorph1, rmorphN, rmorph1) ?(mulr0, mul0r, mulr1, mul1r, addr0, add0r, mulrN, mulNr, oppr0, opprK).

Section JW.
Variable C : numClosedFieldType.
Local Notation arr := (arr C).

(* the factor of a_i at site k *)
Definition jwf (i k : nat) : arr := if (k < i)%N then pauli_z C else if k == i then Sminus C else aeye 2.
Lemma jw_siteE n i : jw_site C n i = ts n (jwf i). Proof. by []. Qed.
Lemma jwf2 i : site2 (jwf i). Proof. by move=> k; rewrite /jwf; case: ifP => // _; case: ifP. Qed.
Lemma jwfa2 i : site2 (fun k => aadj (jwf i k)).
Proof. by move=> k; rewrite /= (jwf2 i k).1 (jwf2 i k).2. Qed.
Lemma nr_jw n i : nr (jw_site C n i) = (2 ^ n)%N. Proof. exact: nr_ts (jwf2 i). Qed.
Lemma nc_jw n i : nc (jw_site C n i) = (2 ^ n)%N. Proof. exact: nc_ts (jwf2 i). Qed.

Lemma mul22 (f g : nat -> arr) : site2 f -> site2 g -> site2 (fun k => amul (f k) (g k)).
Proof. by move=> Hf Hg k; rewrite /= (Hf k).1 (Hg k).2. Qed.

(* two strings whose factors commute everywhere but at site k, where they anticommute *)
Lemma ts_anti n k (f g : nat -> arr) : site2 f -> site2 g -> (k < n)%N ->
  amul (f k) (g k) = aopp (amul (g k) (f k)) ->
  (forall j, (j < n)%N -> j != k -> amul (f j) (g j) = amul (g j) (f j)) ->
  amul (ts n f) (ts n g) = aopp (amul (ts n g) (ts n f)).
Proof.
move=> Hf Hg hk e H; rewrite !ts_mul //.
rewrite (@eq_ts _ n (fun k => amul (f k) (g k)) (fun j => ascale (if j == k then -1 else 1) (amul (g j) (f j)))); last first.
  by move=> j hj; case: eqP => [->|/eqP nj]; rewrite ?ascaleN1 // ascale1 H.
by rewrite ts_scale (bigD1 (Ordinal hk)) //= eqxx big1 ?mulr1 ?ascaleN1 // => j nj; rewrite -(inj_eq val_inj) /= in nj; rewrite (negbTE nj).
Qed.

Lemma jw_anti_lt n i j : (i < j)%N -> (j < n)%N ->
  amul (jw_site C n i) (jw_site C n j) = aopp (amul (jw_site C n j) (jw_site C n i)).
Proof.
move=> ij jn; rewrite !jw_siteE; apply: (@ts_anti _ i); try exact: jwf2; first exact: ltn_trans jn.
  by rewrite /jwf ij ltnn eqxx -ascaleN1; arr2s.
move=> k kn ki; rewrite /jwf; case: (ltngtP k i) => [ki'|ki'|ki']; last by rewrite ki' eqxx in ki.
  by rewrite (ltn_trans ki' ij).
by case: (ltngtP k j) => h; arr2s.
Qed.

Lemma jw_anti_adj_lt n i j : (i < j)%N -> (j < n)%N ->
  amul (jw_site C n i) (aadj (jw_site C n j)) = aopp (amul (aadj (jw_site C n j)) (jw_site C n i)).
Proof.
move=> ij jn; rewrite !jw_siteE ts_adj.
apply: (@ts_anti _ i); [exact: jwf2|exact: jwfa2|exact: ltn_trans jn| |].
  by rewrite /jwf ij ltnn eqxx -ascaleN1; arr2s.
move=> k kn ki; rewrite /jwf; case: (ltngtP k i) => [ki'|ki'|ki']; last by rewrite ki' eqxx in ki.
  by rewrite (ltn_trans ki' ij); arr2s.
by case: (ltngtP k j) => h; arr2s.
Qed.

Lemma jw_sqr n i : (i < n)%N -> amul (jw_site C n i) (jw_site C n i) = azeros (2 ^ n) (2 ^ n).
Proof.
move=> hi; rewrite jw_siteE ts_mul; try exact: jwf2.
apply: (@ts_zero _ n _ i) => //; first by apply: mul22; exact: jwf2.
by rewrite /jwf ltnn eqxx; arr2s.
Qed.

(* number operator of site i *)
Lemma jw_num n i : (i < n)%N -> amul (aadj (jw_site C n i)) (jw_site C n i) =
  ts n (fun k => if k == i then arr2 0 0 0 1 else aeye 2).
Proof.
move=> hi; rewrite jw_siteE ts_adj ts_mul; [|exact: jwfa2|exact: jwf2].
apply: eq_ts => k hk; rewrite /jwf; case: ltngtP => h; arr2s => //.
Qed.

Lemma jw_hole n i : (i < n)%N -> amul (jw_site C n i) (aadj (jw_site C n i)) =
  ts n (fun k => if k == i then arr2 1 0 0 0 else aeye 2).
Proof.
move=> hi; rewrite jw_siteE ts_adj ts_mul; [|exact: jwf2|exact: jwfa2].
by apply: eq_ts => k hk; rewrite /jwf; case: ltngtP => h; arr2s.
Qed.

Lemma jw_anti_diag n i : (i < n)%N ->
  aadd (amul (jw_site C n i) (aadj (jw_site C n i))) (amul (aadj (jw_site C n i)) (jw_site C n i)) = aeye (2 ^ n).
Proof.
move=> hi; rewrite jw_hole // jw_num // -ts_add // -ts_eye; apply: eq_ts => k _.
by case: eqP => // _; arr2s.
Qed.

(* ---------------------------------------------------------------- *)
(* as square matrices of size 2^n                                     *)
(* ---------------------------------------------------------------- *)
Definition am n i : 'M[C]_(2 ^ n) := toM _ _ (jw_site C n i).

Lemma am_adj n i : toM (2 ^ n) (2 ^ n) (aadj (jw_site C n i)) = adjm (am n i).
Proof. by rewrite toM_adj ?nr_jw ?nc_jw. Qed.

Lemma toM_jmul n A B : nr A = (2 ^ n)%N -> nc A = (2 ^ n)%N -> nr B = (2 ^ n)%N -> nc B = (2 ^ n)%N ->
  toM (2 ^ n) (2 ^ n) (amul A B : arr) = toM (2 ^ n) (2 ^ n) A *m toM (2 ^ n) (2 ^ n) B.
Proof. by move=> *; apply: toM_mul. Qed.

Lemma am_anti n i j : (i < n)%N -> (j < n)%N -> am n i *m am n j + am n j *m am n i = 0.
Proof.
wlog: i j / (i <= j)%N => [H hi hj|].
  by case/orP: (leq_total i j) => h; [|rewrite addrC]; apply: H.
rewrite leq_eqVlt => /orP[/eqP <- hi _|ij hi hj].
  have := congr1 (toM (2 ^ n) (2 ^ n)) (jw_sqr hi).
  by rewrite toM_jmul ?nr_jw ?nc_jw // toM_zeros => ->; rewrite addr0.
have := congr1 (toM (2 ^ n) (2 ^ n)) (jw_anti_lt ij hj).
by rewrite toM_opp /= ?nr_jw ?nc_jw // !toM_jmul ?nr_jw ?nc_jw // => ->; rewrite addNr.
Qed.

Lemma am_anti_adj n i j : (i < n)%N -> (j < n)%N ->
  am n i *m adjm (am n j) + adjm (am n j) *m am n i = ((i == j)%:R)%:M.
Proof.
have L i1 j1 : (i1 < j1)%N -> (j1 < n)%N -> am n i1 *m adjm (am n j1) + adjm (am n j1) *m am n i1 = 0.
  move=> ij hj; have := congr1 (toM (2 ^ n) (2 ^ n)) (jw_anti_adj_lt ij hj).
  rewrite toM_opp /= ?nr_jw ?nc_jw // !toM_jmul ?nr_jw ?nc_jw //= ?nr_jw ?nc_jw // am_adj => ->.
  by rewrite addNr.
case: (ltngtP i j) => [ij|ij|->] hi hj.
- by rewrite L // raddf0.
- rewrite raddf0; by have := congr1 (@adjm _ _ _) (L _ _ ij hi); rewrite adjmD !adjmM adjmK adjm0 addrC addrC.
have := congr1 (toM (2 ^ n) (2 ^ n)) (jw_anti_diag hj).
by rewrite toM_eye toM_add /= ?nr_jw ?nc_jw // !toM_jmul ?nr_jw ?nc_jw //= ?nr_jw ?nc_jw // am_adj.
Qed.

(* occupation of bit i *)
Lemma num_get n i (r c : 'I_(2 ^ n)) : (i < n)%N ->
  (adjm (am n i) *m am n i) r c = ((r == c) && (bit n r i == 1%N))%:R.
Proof.
move=> hi; rewrite -am_adj -toM_jmul /= ?nr_jw ?nc_jw // jw_num // mxE.
have s2 : site2 (fun k => if k == i then arr2 0 0 0 1 else aeye 2 : arr) by move=> k; case: ifP.
rewrite ts_get //; case: (r =P c) => [<-|ne] /=.
  rewrite (bigD1 (Ordinal hi)) //= eqxx big1 ?mulr1 => [|k nk].
    by have := bit_lt n r i; case: (bit n r i) => [|[|?]] // _; rewrite getE.
  by rewrite -(inj_eq val_inj) /= in nk; rewrite (negbTE nk) getE ?bit_lt // eqxx.
have [k hk] : exists k : 'I_n, bit n r k != bit n c k.
  apply/existsP; apply: contra_notT ne => /existsPn H; apply/val_inj; apply: (@bits_inj n); try exact: ltn_ord; move=> k hk.
  by have := H (Ordinal hk); rewrite negbK => /eqP.
rewrite (bigD1 k) //=; case: ifP => _; last by rewrite getE ?bit_lt // (negbTE hk) mul0r.
have := bit_lt n r k; have := bit_lt n c k; move: hk.
by case: (bit n r k) => [|[|?]] //; case: (bit n c k) => [|[|?]] // _ _ _; rewrite getE // mul0r.
Qed.

(* vacuum *)
Lemma pow2_gt0 n : (0 < 2 ^ n)%N. Proof. by rewrite expn_gt0. Qed.
Definition e0 n : 'cV[C]_(2 ^ n) := delta_mx (Ordinal (pow2_gt0 n)) 0.

Lemma am_e0 n i : (i < n)%N -> am n i *m e0 n = 0.
Proof.
move=> hi; rewrite -colE; apply/matrixP => r c; rewrite !mxE jw_siteE ts_get ?pow2_gt0 //=; last exact: jwf2.
rewrite (bigD1 (Ordinal hi)) //= /jwf ltnn eqxx /bit div0n mod0n.
by have := ltn_mod (r %/ 2 ^ (n - i.+1)) 2; case: (_ %% 2)%N => [|[|?]] // _; rewrite smE getE // mul0r.
Qed.

(* parity operator  Z (x) ... (x) Z *)
Definition parity n : 'M[C]_(2 ^ n) := toM _ _ (ts n (fun=> pauli_z C)).

Lemma z2 : site2 (fun=> pauli_z C). Proof. by []. Qed.

Lemma parity_sqr n : parity n *m parity n = 1%:M.
Proof.
rewrite -toM_jmul ?nr_ts ?nc_ts // ts_mul // (@eq_ts _ n _ (fun=> aeye 2)) ?ts_eye ?toM_eye // => k _.
by arr2s.
Qed.

Lemma parity_adj n : adjm (parity n) = parity n.
Proof.
rewrite -toM_adj ?nr_ts ?nc_ts // ts_adj; congr toM; apply: eq_ts => k _; by arr2s.
Qed.

Lemma parity_am n i : (i < n)%N -> parity n *m am n i = - (am n i *m parity n).
Proof.
move=> hi; suff : amul (ts n (fun=> pauli_z C)) (jw_site C n i) = aopp (amul (jw_site C n i) (ts n (fun=> pauli_z C))).
  move/(congr1 (toM (2 ^ n) (2 ^ n))).
  rewrite toM_opp; [|by rewrite /= nr_jw|by rewrite /= nc_ts].
  by rewrite !toM_jmul ?nr_jw ?nc_jw ?nr_ts ?nc_ts.
rewrite jw_siteE; apply: (@ts_anti _ i) => //; [exact: jwf2| |].
  by rewrite /jwf ltnn eqxx -ascaleN1; arr2s.
move=> j hj ji; rewrite /jwf; case: (ltngtP j i) => h; arr2s => //. by rewrite h eqxx in ji.
Qed.

Lemma parity_e0 n : parity n *m e0 n = e0 n.
Proof.
rewrite -colE; apply/matrixP => r c; rewrite !mxE ts_get // ord1 eqxx andbT /=.
case: (altP (r =P Ordinal (pow2_gt0 n))) => [->|ne] /=.
  by rewrite big1 // => k _; rewrite /bit div0n mod0n pzE getE.
have [k hk] : exists k : 'I_n, bit n r k != bit n 0 k.
  apply/existsP; apply: contraNT ne => /existsPn H; apply/eqP/val_inj; apply: (@bits_inj n); try exact: ltn_ord; move=> k hk.
  by have := H (Ordinal hk); rewrite negbK => /eqP.
rewrite (bigD1 k) //= pzE; have := bit_lt n r k; have := bit_lt n 0 k; move: hk.
by case: (bit n r k) => [|[|?]] //; case: (bit n 0 k) => [|[|?]] // _ _ _; rewrite getE // mul0r.
Qed.

End JW.
