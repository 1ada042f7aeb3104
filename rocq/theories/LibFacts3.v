(* LibFacts3.v -- permutation matrices and the Pauli basis *)
Set Warnings "-notation-overridden,-ambiguous-paths".
From mathcomp Require Import all_ssreflect all_algebra.
From mathcomp.zify Require Import zify.
From Verif Require Import Base ArrC MLib JW OpFam FermAlg LibFacts LibFacts2.
Set Implicit Arguments.
Unset Strict Implicit.
Unset Printing Implicit Defensive.
Import Order.Theory GRing.Theory Num.Theory.
Local Open Scope ring_scope.

(* base-4 digits of k, most significant first, among n digits *)
Definition dig n (k j : nat) : nat := ((k %/ 4 ^ (n - j.+1)) %% 4)%N.

Lemma dig_lt n k j : (dig n k j < 4)%N. Proof. by rewrite ltn_mod. Qed.
Lemma digS n k j : (j < n)%N -> dig n.+1 k j = dig n (k %/ 4)%N j.
Proof. by move=> hk; rewrite /dig -divnMA -expnS; congr (_ %/ 4 ^ _ %% _)%N; lia. Qed.
Lemma dig_last n k : dig n.+1 k n = (k %% 4)%N.
Proof. by rewrite /dig subnn expn0 divn1. Qed.
Lemma dig_first n k : (k < 4 ^ n.+1)%N -> dig n.+1 k 0 = (k %/ 4 ^ n)%N.
Proof. by move=> h; rewrite /dig subn1 modn_small // ltn_divLR ?expn_gt0 // -expnS. Qed.
Lemma dig_rest n k j : (j < n)%N -> dig n.+1 k j.+1 = dig n (k %% 4 ^ n)%N j.
Proof.
move=> h; rewrite /dig subSS; set m := (n - j.+1)%N.
have -> : (4 ^ n = 4 ^ j.+1 * 4 ^ m)%N by rewrite -expnD; congr (_ ^ _)%N; rewrite /m; lia.
by rewrite -modn_divl modn_dvdm // expnS dvdn_mulr.
Qed.
Lemma dig_inj n k l : (k < 4 ^ n)%N -> (l < 4 ^ n)%N -> (forall j, (j < n)%N -> dig n k j = dig n l j) -> k = l.
Proof.
elim: n k l => [|n IH] k l; first by case: k l => [|k] [|l].
rewrite expnSr => hk hl H.
have e1 : (k %/ 4 = l %/ 4)%N.
  apply: IH; rewrite ?ltn_divLR // => j hj.
  by rewrite -!digS //; apply: H; apply: ltnW.
have e2 := H n (ltnSn n); rewrite !dig_last in e2.
by rewrite (divn_eq k 4) (divn_eq l 4) e1 e2.
Qed.

Lemma nth_flatten_rows (T : Type) (d0 : T) (x0 : T) (l : seq T) (P : seq (seq T)) k : (k < size l * size P)%N ->
  nth [::] (flatten [seq [seq x :: q | q <- P] | x <- l]) k =
  nth x0 l (k %/ size P) :: nth [::] P (k %% size P).
Proof.
elim: l k => [|x l IH] k //= hk; rewrite nth_cat size_map.
have P0 : (0 < size P)%N by move: hk; case: (size P) => //; rewrite muln0.
case: ltnP => h.
  by rewrite divn_small // modn_small // (nth_map [::]).
rewrite IH; last by rewrite mulSn in hk; lia.
by rewrite -{3 4}(subnK h) divnDr ?dvdnn // divnn P0 addn1 /= modnDr.
Qed.

Lemma size_rows (T : Type) (l : seq T) (P : seq (seq T)) :
  size (flatten [seq [seq x :: q | q <- P] | x <- l]) = (size l * size P)%N.
Proof. by elim: l => //= x l IH; rewrite size_cat size_map IH mulSn. Qed.

Lemma size_product (T : Type) (l : seq T) n : size (product l n) = (size l ^ n)%N.
Proof. by elim: n => //= n IH; rewrite size_rows IH expnS. Qed.

Lemma nth_product (T : Type) (x0 : T) (l : seq T) n k : size l = 4%N -> (k < 4 ^ n)%N ->
  nth [::] (product l n) k = mkseq (fun j => nth x0 l (dig n k j)) n.
Proof.
move=> sl; elim: n k => [|n IH] k hk; first by case: k hk.
rewrite /= (nth_flatten_rows x0 x0) ?sl ?size_product ?sl -?expnS //.
rewrite IH ?ltn_mod ?expn_gt0 // /mkseq /= dig_first //; congr (_ :: _).
rewrite -[1%N]addn0 iotaDl -map_comp; apply/eq_in_map => j; rewrite mem_iota add0n => /= hj.
by rewrite add1n dig_rest.
Qed.

Section Facts3.
Variable C : numClosedFieldType.
Local Notation arr := (arr C).
Add Ring cring3 : (ring_of C).

(* ------------------------------ permutation matrices ------------------------------ *)
Definition in_range (p : seq int) := all (fun v => (0 <= v) && (v < (size p)%:Z)) p.

Lemma permutation_to_matrixE p : permutation_to_matrix C p =
  if in_range p then Some (mk (size p) (size p) (fun r c => (r == `|nth 0%R p c|)%N%:R)) else None.
Proof.
rewrite /permutation_to_matrix; set f := (X in foldl X).
have K k : (k <= size p)%N -> foldl f (Some (azeros (size p) (size p))) (iota 0 k) =
  if all (fun v => (0 <= v) && (v < (size p)%:Z)) (take k p) then
    Some (mk (size p) (size p) (fun r c => ((c < k) && (r == `|nth 0%R p c|))%N%:R)) else None.
  elim: k => [|k IH] hk; first by rewrite take0 /=; congr Some; apply: eq_mk.
  rewrite -(addn1 k) iotaD foldl_cat IH /= ?addn1 ?add0n; last exact: ltnW.
  rewrite (take_nth 0 hk) -cats1 all_cat /= andbT.
  case: ifP => h1 //=; case: ifP => h2 //=; congr Some; apply: arrP => // r c /= hr hc.
  rewrite get_upd // !getE // ltnS [(c <= k)%N]leq_eqVlt.
  case: (c =P k) => [->|_]; last by rewrite andbF.
  by rewrite andbT ltnn /=; case: eqP.
rewrite (K _ (leqnn _)) take_size -/(in_range p); case: ifP => // _; congr Some.
by apply: eq_mk => r c hr hc; rewrite hc.
Qed.

(* ------------------------------ Pauli basis ------------------------------ *)
Definition sig (d : nat) : arr := nth (aeye 2) [:: aeye 2; pauli_x C; pauli_y C; pauli_z C] d.
Lemma sig2 d : nr (sig d) = 2%N /\ nc (sig d) = 2%N.
Proof. by case: d => [|[|[|[|d]]]]; rewrite /sig //= nth_nil. Qed.

(* the k-th Pauli string on n sites *)
Definition pstr n k : arr := ts n (fun j => sig (dig n k j)).
Lemma pstr2 n k : site2 (fun j => sig (dig n k j)). Proof. by move=> j; exact: sig2. Qed.

Lemma tensor_ts n (f : nat -> arr) : (0 < n)%N -> tensor (mkseq f n) = ts n f.
Proof.
have k1 (x : arr) : akron (aeye 1) x = x.
  apply: arrP => [||i j]; rewrite /= ?mul1n // => hi hj.
  rewrite getE /= ?mul1n // !divn_small // !modn_small // getE // mul1r //.
case: n => // n _; rewrite /tensor /ts /mkseq /= k1.
by elim: (iota 1 n) (f 0%N) => //= x l IH a; rewrite IH.
Qed.

Lemma pauli_groupE (n : nat) : (0 < n)%N -> generate_pauli_group C n%:Z = Ok (mkseq (pstr n) (4 ^ n)).
Proof.
move=> n0; rewrite /generate_pauli_group lez_nat leqNgt n0 /= ; congr Ok.
apply: (@eq_from_nth _ (azeros 0 0)); first by rewrite size_map size_product size_mkseq.
move=> k; rewrite size_map size_product /= => hk.
rewrite (nth_map [::]) ?size_product // nth_mkseq // (nth_product (aeye 2)) //.
by rewrite tensor_ts.
Qed.

Lemma sig_adj d : aadj (sig d) = sig d.
Proof.
case: d => [|[|[|[|d]]]]; rewrite /sig /= ?nth_nil; arr2s => //.
by rewrite conjCi opprK.
Qed.

Lemma sig_sqr d : amul (sig d) (sig d) = aeye 2.
Proof.
case: d => [|[|[|[|d]]]]; rewrite /sig /= ?nth_nil; arr2s => //.
by rewrite -expr2 sqrCi opprK.
Qed.

Lemma nr_pstr n k : nr (pstr n k) = (2 ^ n)%N. Proof. exact: nr_ts (pstr2 n k). Qed.
Lemma nc_pstr n k : nc (pstr n k) = (2 ^ n)%N. Proof. exact: nc_ts (pstr2 n k). Qed.

Lemma pstr_adj n k : aadj (pstr n k) = pstr n k.
Proof. by rewrite /pstr ts_adj; apply: eq_ts => j _; exact: sig_adj. Qed.

Lemma pstr_sqr n k : amul (pstr n k) (pstr n k) = aeye (2 ^ n).
Proof. by rewrite /pstr (ts_mul n (pstr2 n k) (pstr2 n k)) -ts_eye; apply: eq_ts => j _; exact: sig_sqr. Qed.

Lemma sig_trace d e : (d < 4)%N -> (e < 4)%N -> atrace (amul (sig d) (sig e)) = (if d == e then 2%:R else 0).
Proof.
case: d => [|[|[|[|d]]]] // _; case: e => [|[|[|[|e]]]] // _; rewrite /sig /=; arr2s; rewrite arr2_trace //= ?addr0 ?subrr //.
all: try by rewrite ?addNr ?subrr.
by rewrite -expr2 sqrCi opprK.
Qed.

Lemma pstr_trace n k l : (k < 4 ^ n)%N -> (l < 4 ^ n)%N ->
  atrace (amul (pstr n k) (pstr n l)) = if k == l then 2%:R ^+ n else 0.
Proof.
move=> hk hl; rewrite /pstr (ts_mul n (pstr2 n k) (pstr2 n l)) atrace_ts; last exact: mul22 (pstr2 n k) (pstr2 n l).
rewrite (eq_bigr (fun j : 'I_n => if dig n k j == dig n l j then 2%:R else 0)); last first.
  by move=> j _; rewrite sig_trace ?dig_lt.
case: (altP (k =P l)) => [->|ne].
  by rewrite (eq_bigr (fun=> 2%:R)) ?prodr_const ?card_ord // => j _; rewrite eqxx.
have [j hj] : exists j : 'I_n, dig n k j != dig n l j.
  apply/existsP; apply: contraNT ne => /existsPn H; apply/eqP; apply: (@dig_inj n) => // j hj.
  by have := H (Ordinal hj); rewrite negbK => /eqP.
by rewrite (bigD1 j) //= (negbTE hj) mul0r.
Qed.

(* sums over all digit strings factorise *)
Lemma sum_digits n (g : nat -> nat -> C) :
  \sum_(k < 4 ^ n) \prod_(j < n) g j (dig n k j) = \prod_(j < n) \sum_(d < 4) g j d.
Proof.
elim: n => [|n IH]; first by rewrite big_ord1 !big_ord0.
rewrite big_ord_recr /= -IH big_distrlr /=.
rewrite -(sum_divmod (4 ^ n) 4 (fun a b => (\prod_(j < n) g j (dig n a j)) * g n b)).
have -> : \sum_(k < 4 ^ n.+1) \prod_(j < n.+1) g j (dig n.+1 k j) =
   \sum_(k < 4 ^ n * 4) \prod_(j < n.+1) g j (dig n.+1 k j) by rewrite -expnSr.
apply: eq_bigr => k _; rewrite big_ord_recr /= dig_last; congr (_ * _).
by apply: eq_bigr => j _; rewrite digS.
Qed.

Lemma sig_complete a b r c : (a < 2)%N -> (b < 2)%N -> (r < 2)%N -> (c < 2)%N ->
  \sum_(d < 4) get (sig d) b a * get (sig d) r c = if (r == a) && (c == b) then 2%:R else 0.
Proof.
have hi : 'i * 'i = -1 :> C by rewrite -expr2 sqrCi.
move=> ha hb hr hc; rewrite !big_ord_recl big_ord0 addr0 /sig /= !getE //.
by move: a b r c ha hb hr hc => [|[|a]] [|[|b]] [|[|r]] [|[|c]] //= _ _ _ _;
  rewrite ?(mulr0, mul0r, mulr1, mul1r, addr0, add0r, mulNr, mulrN, hi, opprK) ?addrN ?addNr ?subrr //.
Qed.

Lemma pstr_complete n a b r c : (a < 2 ^ n)%N -> (b < 2 ^ n)%N -> (r < 2 ^ n)%N -> (c < 2 ^ n)%N ->
  \sum_(k < 4 ^ n) get (pstr n k) b a * get (pstr n k) r c = if (r == a) && (c == b) then 2%:R ^+ n else 0.
Proof.
move=> ha hb hr hc.
rewrite (eq_bigr (fun k : 'I_(4 ^ n) => \prod_(j < n)
   (get (sig (dig n k j)) (bit n b j) (bit n a j) * get (sig (dig n k j)) (bit n r j) (bit n c j)))); last first.
  by move=> k _; rewrite !(ts_get (pstr2 n k)) // big_split.
rewrite (sum_digits n (fun j d => get (sig d) (bit n b j) (bit n a j) * get (sig d) (bit n r j) (bit n c j))).
rewrite (eq_bigr (fun j : 'I_n => if (bit n r j == bit n a j) && (bit n c j == bit n b j) then 2%:R else 0)); last first.
  by move=> j _; rewrite sig_complete ?bit_lt.
case: (altP (r =P a)) => [->|ne] /=; last first.
  have [j hj] : exists j : 'I_n, bit n r j != bit n a j.
    apply/existsP; apply: contraNT ne => /existsPn H; apply/eqP; apply: (@bits_inj n) => // j hj.
    by have := H (Ordinal hj); rewrite negbK => /eqP.
  by rewrite (bigD1 j) //= (negbTE hj) mul0r.
case: (altP (c =P b)) => [->|ne] /=; last first.
  have [j hj] : exists j : 'I_n, bit n c j != bit n b j.
    apply/existsP; apply: contraNT ne => /existsPn H; apply/eqP; apply: (@bits_inj n) => // j hj.
    by have := H (Ordinal hj); rewrite negbK => /eqP.
  by rewrite (bigD1 j) //= (negbTE hj) andbF mul0r.
by rewrite (eq_bigr (fun=> 2%:R)) ?prodr_const ?card_ord // => j _; rewrite !eqxx.
Qed.

(* every matrix is a combination of Pauli strings *)
Lemma pauli_expand n (X : 'M[C]_(2 ^ n)) : X = (2%:R ^+ n)^-1 *:
  \sum_(k < 4 ^ n) \tr (toM (2 ^ n) (2 ^ n) (pstr n k) *m X) *: toM (2 ^ n) (2 ^ n) (pstr n k).
Proof.
have h : (2%:R ^+ n : C) != 0 by rewrite expf_neq0 // pnatr_eq0.
apply: (scalerI h); rewrite scalerA mulfV // scale1r; apply/matrixP => r c.
rewrite mxE summxE.
rewrite (eq_bigr (fun k : 'I_(4 ^ n) => \sum_b \sum_a X a b * (get (pstr n k) b a * get (pstr n k) r c))); last first.
  move=> k _; rewrite mxE /mxtrace mulr_suml; apply: eq_bigr => b _.
  rewrite mxE mulr_suml; apply: eq_bigr => a _; rewrite !mxE; by rewrite -mulrA mulrCA.
rewrite exchange_big /= (bigD1 c) //= [X in _ + X]big1 ?addr0 => [|b nb].
  rewrite exchange_big /= (bigD1 r) //= [X in _ + X]big1 ?addr0 => [|a na].
    by rewrite -mulr_sumr pstr_complete // !eqxx mulrC.
  by rewrite -mulr_sumr pstr_complete // eq_sym (negbTE (_ : a != r :> nat)) ?mulr0.
rewrite exchange_big big1 // => a _.
by rewrite -mulr_sumr pstr_complete // [c == b :> nat]eq_sym (negbTE (_ : b != c :> nat)) // andbF mulr0.
Qed.

End Facts3.
