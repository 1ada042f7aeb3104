(* PropKitaev.v -- property C76: the Kitaev chain built by kitaev_chain *)
Set Warnings "-notation-overridden,-ambiguous-paths".
From mathcomp Require Import all_ssreflect all_algebra.
From mathcomp.zify Require Import zify.
From Verif Require Import Base ArrC MLib JW OpFam FermAlg LibFacts LibFacts2 LibFacts3 Expm Spectral NormalCalc PropLib1 PropLib2 PropLib3 PropLib4
  MEigh EighFacts PropEigh1 PropEigh2 MRandom RndFacts PropRandom1 PropRandom2 PropRandom4 ManyBody PropModes.
Set Implicit Arguments.
Unset Strict Implicit.
Unset Printing Implicit Defensive.
Import Order.Theory GRing.Theory Num.Theory.
Local Open Scope ring_scope.

Section Kitaev.
Variable C : numClosedFieldType.
Local Notation arr := (arr C).
Add Ring cringKit : (ring_of C).

(* ------------------------------------------------------------------ *)
(* the shift matrix                                                    *)
(* ------------------------------------------------------------------ *)
Definition shift n : 'M[C]_n := \matrix_(i, j) (j == i.+1 :> nat)%N%:R.
Definition edge n (k : nat) : 'M[C]_n := diag_mx (\row_i (i == k :> nat)%N%:R).

Lemma shift_tr n : shift n *m (shift n)^T = 1%:M - edge n n.-1.
Proof.
apply/matrixP => i j; rewrite !mxE.
under eq_bigr do rewrite !mxE.
have hi := ltn_ord i; have hj := ltn_ord j; case: (i =P j) => [<-|ij].
  case: (ltnP i.+1 n) => h.
    rewrite (bigD1 (Ordinal h)) //= eqxx mulr1 big1 => [|k nk].
      by rewrite addr0 (_ : (i == n.-1 :> nat) = false) ?mulr0n ?subr0 //; lia.
    by rewrite (_ : (k == i.+1 :> nat) = false) ?mul0r //; apply: contraNF nk => /eqP e; apply/eqP/val_inj.
  rewrite big1 => [|k _]; first by rewrite (_ : (i == n.-1 :> nat)) ?subrr //; lia.
  by rewrite (_ : (k == i.+1 :> nat) = false) ?mul0r //; have := ltn_ord k; lia.
rewrite big1 => [|k _]; first by rewrite !mulr0n subr0.
case: (k =P i.+1 :> nat) => [e|_]; last by rewrite mul0r.
rewrite (_ : (k == j.+1 :> nat) = false) ?mulr0 //; apply/eqP => e'; apply: ij; apply: val_inj => /=; lia.
Qed.

Lemma tr_shift n : (shift n)^T *m shift n = 1%:M - edge n 0.
Proof.
apply/matrixP => i j; rewrite !mxE.
under eq_bigr do rewrite !mxE.
have hi := ltn_ord i; have hj := ltn_ord j; case: (i =P j) => [<-|ij].
  case: (ltnP 0 i) => h.
    have h' : (i.-1 < n)%N by lia.
    rewrite (bigD1 (Ordinal h')) //= prednK // eqxx mulr1 big1 => [|k nk].
      by rewrite addr0 (_ : (i == 0 :> nat)%N = false) ?mulr0n ?subr0 //; lia.
    rewrite (_ : (i == k.+1 :> nat) = false) ?mul0r //; apply: contraNF nk => /eqP e; apply/eqP/val_inj => /=; lia.
  rewrite big1 => [|k _]; first by rewrite (_ : (i == 0 :> nat)%N) ?subrr //; lia.
  by rewrite (_ : (i == k.+1 :> nat) = false) ?mul0r //; lia.
rewrite big1 => [|k _]; first by rewrite !mulr0n subr0.
case: (i =P k.+1 :> nat) => [e|_]; last by rewrite mul0r.
rewrite (_ : (j == k.+1 :> nat) = false) ?mulr0 //; apply/eqP => e'; apply: ij; apply: val_inj => /=; lia.
Qed.

Lemma edge_tr n k : \tr (edge n k) = (k < n)%N%:R.
Proof.
rewrite mxtrace_diag; case: (ltnP k n) => h.
  rewrite (bigD1 (Ordinal h)) //= mxE eqxx big1 ?addr0 // => i ni; rewrite mxE.
  by rewrite (_ : (i == k :> nat) = false) //; apply: contraNF ni => /eqP e; apply/eqP/val_inj.
by rewrite big1 // => i _; rewrite mxE (_ : (i == k :> nat) = false) //; have := ltn_ord i; lia.
Qed.

(* N e_0 = 0 and N^T e_last = 0 *)
Lemma shift_edge n : shift n *m edge n 0 = 0.
Proof.
apply/matrixP => i j; rewrite mul_mx_diag !mxE -natrM; have := ltn_ord j.
by case: eqP => //= h1; case: eqP => //= h2; lia.
Qed.
Lemma tr_shift_edge n : (shift n)^T *m edge n n.-1 = 0.
Proof.
apply/matrixP => i j; rewrite mul_mx_diag !mxE -natrM; have := ltn_ord j; have := ltn_ord i.
by case: eqP => //= h1; case: eqP => //= h2; lia.
Qed.

(* the coefficient matrix at mu = 0 and delta = t, in blocks *)
Definition kblock n (t : C) : 'M[C]_(n + n) :=
  t *: block_mx (shift n + (shift n)^T) (shift n - (shift n)^T) (- (shift n - (shift n)^T)) (- (shift n + (shift n)^T)).
(* the projector on the two zero modes, times 2 *)
Definition zproj n : 'M[C]_(n + n) :=
  block_mx (edge n 0 + edge n n.-1) (edge n 0 - edge n n.-1) (edge n 0 - edge n n.-1) (edge n 0 + edge n n.-1).

Lemma kblock_zproj n t : kblock n t *m zproj n = 0.
Proof.
rewrite -scalemxAl mulmx_block; have e1 := shift_edge n; have e2 := tr_shift_edge n.
rewrite (_ : block_mx _ _ _ _ = 0) ?scaler0 // -[RHS]block_mx0.
by congr block_mx; rewrite !(mulNmx, mulmxN, mulmxDl, mulmxDr) e1 e2;
  move: (shift n *m edge n n.-1) ((shift n)^T *m edge n 0) => x y; apply/matrixP => i j; rewrite !mxE; xring C.
Qed.

Lemma kblock_sqr n t : kblock n t *m kblock n t = (2%:R * t) ^+ 2 *: (1%:M - 2%:R^-1 *: zproj n).
Proof.
rewrite -scalemxAl -scalemxAr scalerA mulmx_block.
have e1 := shift_tr n; have e2 := tr_shift n.
have h2 : 2%:R * 2%:R^-1 = 1 :> C by rewrite mulfV // pnatr_eq0.
rewrite scalar_mx_block.
apply: (@etrans _ _ ((t * t) *: block_mx (2%:R *: (2%:R%:M - edge n 0 - edge n n.-1)) (2%:R *: (edge n n.-1 - edge n 0))
   (2%:R *: (edge n n.-1 - edge n 0)) (2%:R *: (2%:R%:M - edge n 0 - edge n n.-1)))).
  congr (_ *: block_mx _ _ _ _); rewrite !(mulNmx, mulmxN, mulmxDl, mulmxDr) e1 e2;
  move: (shift n *m shift n) ((shift n)^T *m (shift n)^T) (edge n 0) (edge n n.-1) => x y z w; apply/matrixP => i j;
  rewrite !mxE; set d := (i == j); case: d; xring C.
rewrite /zproj !scale_block_mx opp_block_mx add_block_mx !scale_block_mx.
have K d u : (2%:R * t) ^+ 2 * (d - 2%:R^-1 * u) = t * t * (2%:R * (2%:R * d - u)).
  rewrite (_ : 2%:R * d - u = 2%:R * d - (2%:R * 2%:R^-1) * u); last by rewrite h2 mul1r.
  clear h2; move: (2%:R^-1) => h; rewrite expr2; xring C.
by congr block_mx; move: (edge n 0) (edge n n.-1) => z w; apply/matrixP => i j; rewrite !mxE K;
  set d := (i == j); case: d; xring C.
Qed.

(* a Hermitian matrix with eigenvalues 0, c, -c only: multiplicities from the traces *)
Lemma three_level m (H : 'M[C]_m) (c : C) p : hermitian H -> H *m H *m H = c ^+ 2 *: H -> \tr H = 0 ->
  \tr (H *m H) = c ^+ 2 * (2 * p)%:R -> c != 0 ->
  char_poly H = ('X - c%:P) ^+ p * ('X + c%:P) ^+ p * 'X ^+ (m - 2 * p).
Proof.
move=> hH h3 t1 t2 c0; have [U uU [d rd eH]] := spectral_herm hH.
have U2 : adjm U *m U = 1%:M := unitary_left uU.
have eD : diag_mx d = U *m H *m adjm U by rewrite eH !mulmxA uU mul1mx -mulmxA uU mulmx1.
have eD3 : diag_mx d *m diag_mx d *m diag_mx d = c ^+ 2 *: diag_mx d.
  rewrite eD !mulmxA -(mulmxA (U *m H) (adjm U) U) U2 mulmx1 -(mulmxA (U *m H *m H) (adjm U) U) U2 mulmx1.
  by rewrite -!mulmxA (mulmxA H) (mulmxA (H *m H)) h3 -!scalemxAl -scalemxAr.
have d3 i : [|| d 0 i == c, d 0 i == - c | d 0 i == 0].
  have := congr1 (fun M : 'M_m => M i i) eD3; rewrite !mulmx_diag !mxE eqxx !mulr1n => e.
  have : (d 0 i - c) * ((d 0 i + c) * d 0 i) == 0.
    apply/eqP; transitivity (d 0 i * d 0 i * d 0 i - c ^+ 2 * d 0 i); last by rewrite e subrr.
    rewrite expr2; move: (d 0 i) => x; xring C.
  by rewrite !mulf_eq0 subr_eq0 addr_eq0.
pose a := #|[pred i | d 0 i == c]|; pose b := #|[pred i | d 0 i == - c]|.
have nc : - c != c by rewrite eq_sym -subr_eq0 opprK -mulr2n mulrn_eq0 negb_or.
have n0 : (0 == c) = false by rewrite eq_sym; exact/negbTE.
have n0' : (0 == - c) = false by rewrite eq_sym oppr_eq0; exact/negbTE.
have S (f : C -> C) : f 0 = 0 -> \sum_i f (d 0 i) = f c *+ a + f (- c) *+ b.
  move=> f0; rewrite (bigID (fun i => d 0 i == c)) /=; congr (_ + _).
    by rewrite (eq_bigr (fun=> f c)) ?sumr_const // => i /eqP ->.
  rewrite (bigID (fun i => d 0 i == - c)) /= [X in _ + X]big1 ?addr0.
    rewrite (eq_bigl [pred i | d 0 i == - c]); last first.
      by move=> i /=; case: (d 0 i =P - c) => [->|]; rewrite ?andbF ?nc.
    by rewrite (eq_bigr (fun=> f (- c))) ?sumr_const // => i /eqP ->.
  by move=> i /andP[/negbTE h1 /negbTE h2]; have := d3 i; rewrite h1 h2 => /eqP ->.
have tr (M : 'M[C]_m) : \tr (adjm U *m M *m U) = \tr M by rewrite mxtrace_mulC mulmxA uU mul1mx.
have eab : a = b.
  have := t1; rewrite eH tr mxtrace_diag (S id) // mulNrn => /eqP; rewrite subr_eq0 -[c *+ a]mulr_natl -[c *+ b]mulr_natl => /eqP.
  by move/(mulIf c0)/eqP; rewrite eqr_nat => /eqP.
have ep : a = p.
  have := t2; rewrite {1 2}eH !mulmxA -(mulmxA (adjm U *m diag_mx d) U (adjm U)) uU mulmx1 -(mulmxA (adjm U)) tr mulmx_diag mxtrace_diag.
  rewrite (eq_bigr (fun i => (fun x => x * x) (d 0 i))) => [|i _]; last by rewrite mxE.
  rewrite (S (fun x => x * x)) ?mulr0 // mulrNN -mulrnDr -eab -expr2 -[LHS]mulr_natr => /(mulfI (expf_neq0 2 c0))/eqP.
  by rewrite eqr_nat => /eqP; lia.
rewrite (char_poly_conj uU eH) char_poly_diag (bigID (fun i => d 0 i == c)) /= -mulrA; congr (_ * _).
  by rewrite (eq_bigr (fun=> 'X - c%:P)) ?prodr_const -/a ?ep // => i /eqP ->.
rewrite (bigID (fun i => d 0 i == - c)) /=; congr (_ * _).
  rewrite (eq_bigl [pred i | d 0 i == - c]); last first.
    by move=> i /=; case: (d 0 i =P - c) => [->|]; rewrite ?andbF ?nc.
  by rewrite (eq_bigr (fun=> 'X + c%:P)) ?prodr_const -/b -?eab ?ep // => i /eqP ->; rewrite polyCN opprK.
rewrite (eq_bigr (fun=> 'X)) => [|i /andP[/negbTE h1 /negbTE h2]]; last first.
  by have := d3 i; rewrite h1 h2 => /eqP ->; rewrite subr0.
rewrite prodr_const; congr (_ ^+ _); set r := #|_|.
suff : (a + (b + r) = m)%N by rewrite -eab ep; lia.
rewrite -[in RHS](card_ord m) -sum1_card (bigID (fun i => d 0 i == c)) /= -[a]sum1_card; congr (_ + _)%N.
rewrite (bigID (fun i => d 0 i == - c)) /= -[b]sum1_card -[r]sum1_card; congr (_ + _)%N.
by apply: eq_bigl => i /=; rewrite inE; case: (d 0 i =P - c) => [->|]; rewrite ?andbF ?nc.
Qed.

(* ================================================================== *)
(* C76  the Kitaev chain                                               *)
(* ================================================================== *)
Lemma kblock_entries n t (H : 'M[C]_(2 * n)) (e : (2 * n = n + n)%N) : t^* = t ->
  has_blocks n (ofM H) (fun i j => - (if i == j then - 0 else if neighbours i j then - t else 0)^*)
    (fun i j => if j == i.+1 then t else if i == j.+1 then - t else 0)
    (fun i j => - (if j == i.+1 then t else if i == j.+1 then - t else 0)^*)
    (fun i j => if i == j then - 0 else if neighbours i j then - t else 0) ->
  H = castmx (esym e, esym e) (kblock n t).
Proof.
move=> ht hb; apply/matrixP => i j; rewrite castmxE /= esymK.
have := has_blocks_get hb i j; rewrite toM_ofM => ->.
rewrite [in RHS]mxE; set i' := cast_ord e i; set j' := cast_ord e j.
have vi : val i' = val i by []; have vj : val j' = val j by [].
case: (split_ordP i') => a ea; case: (split_ordP j') => b eb; rewrite ea eb /= in vi vj *; have ha := ltn_ord a; have hb' := ltn_ord b;
  rewrite ?block_mxEul ?block_mxEur ?block_mxEdl ?block_mxEdr !mxE /neighbours -vi -vj ?addKn ?ha ?hb' ?ltnNge ?leq_addr /= ?oppr0;
  (case: (nat_of_ord a =P b) => [->|nab]; [rewrite ?(ltn_eqF (ltnSn _))|]; 
  case: (nat_of_ord b =P a.+1) => h1; case: (nat_of_ord a =P b.+1) => h2; try lia).
all: by rewrite ?rmorphN ?rmorph0 ?ht /= ?(oppr0, opprK, subr0, sub0r, mulrN, addr0, add0r, mulr1, mulr0).
Qed.

Lemma cast_char m k (e : m = k) (M : 'M[C]_k) : char_poly (castmx (esym e, esym e) M) = char_poly M.
Proof. by case: _ / e in M *; rewrite castmx_id. Qed.

Lemma kblock_herm n t : t^* = t -> hermitian (kblock n t).
Proof.
move=> ht; rewrite /hermitian /kblock adjmZ ht; congr (_ *: _).
have r : adjm (shift n) = (shift n)^T by apply/matrixP => i j; rewrite !mxE rmorph_nat.
have r' : adjm (shift n)^T = shift n by rewrite -r adjmK.
have rB : adjm (shift n - (shift n)^T) = - (shift n - (shift n)^T) by rewrite adjmB r r' opprB.
have rD : adjm (shift n + (shift n)^T) = shift n + (shift n)^T by rewrite adjmD r r' addrC.
by rewrite {1}/adjm map_block_mx tr_block_mx -!/(adjm _) !adjmN rB rD opprK.
Qed.

Lemma kblock_char n t : (0 < n)%N -> t^* = t ->
  char_poly (kblock n t) = ('X - (2%:R * t)%:P) ^+ n.-1 * ('X + (2%:R * t)%:P) ^+ n.-1 * 'X ^+ 2.
Proof.
move=> n0 ht; have [t0|t0] := eqVneq t 0.
  rewrite t0 /kblock scale0r (_ : 0 = diag_mx 0 :> 'M[C]_(n + n)); last by rewrite linear0.
  rewrite char_poly_diag mulr0 subr0 addr0 -!exprD.
  under eq_bigr do rewrite !mxE.
  by rewrite subr0 prodr_const card_ord; congr (_ ^+ _); lia.
have c0 : 2%:R * t != 0 by rewrite mulf_neq0 // pnatr_eq0.
rewrite (_ : 'X ^+ 2 = 'X ^+ (n + n - 2 * n.-1)); last by congr (_ ^+ _); lia.
apply: three_level => //; first exact: kblock_herm.
- by rewrite -mulmxA kblock_sqr -scalemxAr mulmxBr mulmx1 -scalemxAr kblock_zproj scaler0 subr0.
- by rewrite mxtraceZ mxtrace_block [\tr (- _)]raddfN /= subrr mulr0.
rewrite kblock_sqr mxtraceZ raddfB /= mxtraceZ mxtrace1 mxtrace_block !mxtraceD !edge_tr n0 prednK // leqnn; congr (_ * _).
have -> : 1 + 1 + (1 + 1) = 2%:R * 2%:R :> C by rewrite -natrM -[1 in LHS]/(1%:R) -!natrD.
rewrite mulKf ?pnatr_eq0 // -natrB; last lia.
by congr (_%:R); lia.
Qed.

Lemma storable_tt (mu t : C) : t \is Num.real -> storable mu t t.
Proof. by move=> h; split=> //; left. Qed.

Theorem C76_spectrum n (t : C) : (0 < n)%N -> t \is Num.real -> exists H : 'M[C]_(2 * n),
  [/\ kitaev_chain n 0 t t = Ok (ofM H), hermitian H, ph_symmetric H &
      char_poly H = ('X - (2%:R * t)%:P) ^+ n.-1 * ('X + (2%:R * t)%:P) ^+ n.-1 * 'X ^+ 2].
Proof.
move=> n0 rt; have [H0 eH hb] := C42_kitaev n (storable_tt 0 rt); have ht := CrealP rt.
have [r c _] := hb; exists (toM (2 * n) (2 * n) H0).
have [h1 h2] := C42_kitaev_hermitian (rpred0 _) rt rt eH.
split=> //; first by rewrite eH ofM_toM.
have e : (2 * n = n + n)%N by lia.
have -> := @kblock_entries n t (toM (2 * n) (2 * n) H0) e ht; first by rewrite (cast_char e) kblock_char.
by rewrite ofM_toM.
Qed.

Lemma std_char n (S : nat -> C) :
  char_poly (std_form n S) = \prod_(z <- [seq - S k | k <- iota 0 n] ++ [seq S k | k <- iota 0 n]) ('X - z%:P).
Proof.
have -> : std_form n S = diag_mx (\row_(i < 2 * n) (if (i < n)%N then - S i else S (i - n)%N)).
  by apply/matrixP => i j; rewrite !mxE; case: eqP => _; rewrite ?mulr1n ?mulr0n.
rewrite char_poly_diag big_cat !big_map /=.
under eq_bigr do rewrite mxE.
rewrite -(big_mkord xpredT (fun i => 'X - (if (i < n)%N then - S i else S (i - n)%N)%:P)).
rewrite (@big_cat_nat _ _ _ n) //=; last by lia.
congr (_ * _); first by rewrite /index_iota subn0; apply: eq_big_seq => i; rewrite mem_iota => /andP[_ ->].
rewrite -{1}[n]add0n big_addn /index_iota (_ : 2 * n - n - 0 = n)%N; last by lia.
by apply: eq_big_seq => i _; rewrite ltnNge leq_addl /= addnK.
Qed.

(* a standard form with the spectrum 0, 0, c (p times), -c (p times) has one zero and p entries of modulus |c| *)
Lemma std_three n p (S : nat -> C) (c : C) : c != 0 -> n = p.+1 ->
  char_poly (std_form n S) = ('X - c%:P) ^+ p * ('X + c%:P) ^+ p * 'X ^+ 2 ->
  exists k0, [/\ (k0 < n)%N, S k0 = 0 & forall k, (k < n)%N -> k != k0 -> `|S k| = `|c|].
Proof.
move=> c0 np; rewrite std_char.
have -> : ('X - c%:P) ^+ p * ('X + c%:P) ^+ p * 'X ^+ 2 =
    \prod_(z <- nseq p c ++ nseq p (- c) ++ nseq 2 0) ('X - z%:P).
  by rewrite !big_cat /= !big_nseq !iter_mulr_1 polyCN opprK mulrA; congr (_ * _); rewrite !big_cons big_nil subr0 mulr1 -expr2.
move=> /prod_XsubC_perm pm.
have cnt : count (fun k => S k == 0) (iota 0 n) = 1%N.
  have /permP /(_ (pred1 0)) := pm; rewrite !count_cat !count_map !count_nseq /= oppr_eq0 eqxx (negbTE c0) /= !mul0n.
  rewrite (@eq_count _ (preim (fun k => - S k) (pred1 0)) (fun k => S k == 0)); last by move=> k; rewrite /= oppr_eq0.
  by rewrite (@eq_count _ (preim (fun k => S k) (pred1 0)) (fun k => S k == 0)) //; lia.
move: cnt; rewrite -size_filter; case e : (filter _ _) => [|k0 [|//]] // _.
have h k : (k < n)%N -> (S k == 0) = (k == k0).
  move=> hk; have : (k \in filter (fun k => S k == 0) (iota 0 n)) = (k == k0) by rewrite e inE.
  by rewrite mem_filter mem_iota add0n leq0n hk /= andbT.
have : k0 \in filter (fun k => S k == 0) (iota 0 n) by rewrite e inE.
rewrite mem_filter mem_iota => /andP[/eqP z /andP[_ hk0]]; exists k0; split=> // k hk nk.
have : S k \in nseq p c ++ nseq p (- c) ++ nseq 2 0.
  by rewrite -(perm_mem pm) mem_cat; apply/orP; right; apply: map_f; rewrite mem_iota.
rewrite !mem_cat !mem_nseq (h k hk) (negbTE nk) !andbF orbF.
by case/orP=> /andP[_ /eqP->]; rewrite ?normrN.
Qed.

Section Eigh.
Variable schur_sort : arr -> arr * arr.
Variable eigvalsh : arr -> seq C.
Variable argsort : seq C -> seq nat.
Hypothesis schurP : schur_sort_spec schur_sort.
Hypothesis evP : eigvalsh_spec eigvalsh.
Hypothesis asP : argsort_spec argsort.
Local Notation eigh := (eigh_sp schur_sort eigvalsh argsort).

Lemma eps10_gt0 : 0 < eps10 C.
Proof. by rewrite invr_gt0 exprn_gt0 // ltr0n. Qed.

Lemma kitaev_gapped n (t : C) (H : 'M[C]_(2 * n)) : eps10 C <= `|t| ->
  char_poly H = ('X - (2%:R * t)%:P) ^+ n.-1 * ('X + (2%:R * t)%:P) ^+ n.-1 * 'X ^+ 2 -> gapped H.
Proof.
move=> ht ch x; rewrite eigenvalue_root_char ch !rootM => h.
have b : eps10 C < `|2%:R * t|.
  rewrite normrM normr_nat mulr_natl mulr2n; apply: (le_lt_trans ht).
  by rewrite ltr_addl (lt_le_trans eps10_gt0).
have [x0|x0] := eqVneq x 0; [by left|right].
suff : `|x| = `|2%:R * t| by move=> ->.
have rX : root 'X x = false by rewrite rootE hornerX (negbTE x0).
move: h; rewrite rX !orbF; case/orP; rewrite rootE horner_exp expf_eq0 => /andP[_]; rewrite !hornerE.
  by rewrite subr_eq0 => /eqP->.
by rewrite addr_eq0 => /eqP->; rewrite normrN.
Qed.

Definition big (x : C) := x = 0 \/ ~~ (`|x| < (10%:R ^+ 10)^-1).
Lemma big0 : big 0. Proof. by left. Qed.
Lemma bigN x : big x -> big (- x). Proof. by case=> [->|h]; [left; rewrite oppr0|right; rewrite normrN]. Qed.
Lemma bigC x : big x -> big x^*. Proof. by case=> [->|h]; [left; rewrite rmorph0|right; rewrite norm_conjC]. Qed.

Lemma kitaev_above n (mu t delta : C) (H : 'M[C]_(2 * n)) : storable mu t delta -> big mu -> big t -> big delta ->
  kitaev_chain n mu t delta = Ok (ofM H) -> above H.
Proof.
move=> hs bm bt bd e i j; have [H'] := C42_kitaev n hs; rewrite e => -[<-] hb.
have := has_blocks_get hb i j; rewrite toM_ofM => ->; have b0 := big0.
have bmN := bigN bm; have btN := bigN bt; have bdN := bigN bd.
by case: (_ < _)%N; case: (_ < _)%N; rewrite /= -?/(big _); try (apply: bigN; apply: bigC); case: (_ == _) => //; case: ifP.
Qed.

Theorem C76_eigh n (t : C) : (0 < n)%N -> t \is Num.real -> eps10 C <= `|t| ->
  exists (H U : 'M[C]_(2 * n)) (S : nat -> C) (O : 'M[C]_(2 ^ n)) (k0 : nat),
  [/\ kitaev_chain n 0 t t = Ok (ofM H) /\ build_op n (ofM H) (jordan_wigner_alphas C n) false = Ok (ofM O),
      eigh (ofM H) = Ok (ofM (std_form n S), ofM U),
      [/\ (k0 < n)%N, S k0 = 0 & forall k, (k < n)%N -> k != k0 -> `|S k| = 2%:R * `|t|],
      eigenvalue O (- (2%:R * `|t| * n.-1%:R)) &
      forall x, eigenvalue O x -> - (2%:R * `|t| * n.-1%:R) <= x].
Proof.
move=> n0 rt ht; have [H [eH hH pH cH]] := C76_spectrum n0 rt; have gH := kitaev_gapped ht cH.
have t0 : t != 0 by rewrite -normr_gt0 (lt_le_trans eps10_gt0).
have aH : above H.
  have bt : big t by right; rewrite (le_gtF ht).
  by apply: (@kitaev_above n 0 t t) => //; [exact: storable_tt|exact: big0].
have [L [U [S [[e uU [sU _] eL rS] dL]]]] := C52_diagonal schurP evP asP n0 hH pH gH.
have eL' : L = std_form n S by apply/matrixP => i j; rewrite dL mxE.
have [U' [S' [O [e' eO g1 g2]]]] := C72_ground schurP evP asP n0 hH pH gH aH.
have eS k : (k < n)%N -> S' k = S k.
  move=> hk; have ee := okI (etrans (esym e) e').
  have /matrixP q : std_form n S = std_form n S' by apply: (@ofM_inj C); rewrite -eL'; exact: (f_equal fst ee).
  have h2 : (k + n < 2 * n)%N by lia.
  have := q (Ordinal h2) (Ordinal h2); by rewrite !mxE eqxx /= ltnNge leq_addl /= addnK.
exists H, U, S, O.
have cS : char_poly (std_form n S) = char_poly H by rewrite -eL' (char_poly_conj uU eL).
have c0 : 2%:R * t != 0 by rewrite mulf_neq0 // pnatr_eq0.
have [k0 [h1 h2 h3]] := std_three c0 (esym (prednK n0)) (etrans cS cH).
exists k0; rewrite -eL'.
have -> : 2%:R * `|t| * n.-1%:R = \sum_(k < n) `|S' k|.
  rewrite (bigD1 (Ordinal h1)) //= eS // h2 normr0 add0r.
  rewrite (eq_bigr (fun=> 2%:R * `|t|)) => [|k nk]; last by rewrite eS // h3 // normrM normr_nat.
  by rewrite sumr_const cardC1 card_ord mulr_natr.
by split=> //; split=> // k hk nk; rewrite h3 // normrM normr_nat.
Qed.
End Eigh.

(* ------------------------------------------------------------------ *)
(* the many-body operator of a coefficient matrix [[-A^*, B], [-B^*, A]] *)
(* ------------------------------------------------------------------ *)
Lemma am_swap n i j : (i < n)%N -> (j < n)%N ->
  am C n i *m adjm (am C n j) = (i == j)%:R%:M - adjm (am C n j) *m am C n i.
Proof. by move=> hi hj; rewrite -am_anti_adj // addrK. Qed.

Theorem C76_quadratic n (H : 'M[C]_(2 * n)) (A B : nat -> nat -> C) : (0 < n)%N -> above H ->
  has_blocks n (ofM H) (fun i j => - (A i j)^*) B (fun i j => - (B i j)^*) A ->
  (forall i j, (i < n)%N -> (j < n)%N -> (A i j)^* = A j i) ->
  let a := am C n in let X := \sum_(i < n) \sum_(j < n) B i j *: (a i *m a j) in
  build_op n (ofM H) (jordan_wigner_alphas C n) false =
  Ok (ofM (2%:R *: (\sum_(i < n) \sum_(j < n) A i j *: (adjm (a i) *m a j)) + (X + adjm X) - (\sum_(i < n) A i i)%:M)).
Proof.
move=> n0 aH hb hA a X; rewrite alphas_ops C47_lift; try lia.
rewrite C47_cutoff_id //; congr (Ok (ofM _)).
have [_ _ g] := hb; rewrite /lift_spec.
have -> : adjm X = \sum_(i < n) \sum_(j < n) (- (B i j)^* *: (adjm (a i) *m adjm (a j))).
  rewrite /X adjm_sum; apply: eq_bigr => i _; rewrite adjm_sum; apply: eq_bigr => j _.
  rewrite adjmZ adjmM scaleNr -scalerN; congr (_ *: _).
  have := congr1 (@adjm C _ _) (am_anti C (ltn_ord i) (ltn_ord j)); rewrite adjmD !adjmM adjm0 => /eqP.
  by rewrite addr_eq0 => /eqP.
under eq_bigr do under eq_bigr do rewrite -ofM_get.
rewrite (sum_2n n (fun i => \sum_(j < 2 * n) get (ofM H) i j *: (adjm (alphaM C n i) *m alphaM C n j))).
rewrite (eq_bigr (fun i : 'I_n => \sum_(j < n) (A i j *: (adjm (a i) *m a j) + A j i *: (adjm (a j) *m a i) -
    (A j i * (i == j)%:R)%:M + (B i j *: (a i *m a j) - (B i j)^* *: (adjm (a i) *m adjm (a j)))))).
  under eq_bigr do rewrite !big_split /= !sumrN.
  rewrite !big_split /= !sumrN [\sum_(i < n) \sum_(j < n) A j i *: _]exchange_big /=.
  have -> : \sum_(i < n) \sum_(j < n) (A j i * (i == j)%:R)%:M = (\sum_(i < n) A i i)%:M :> 'M[C]_(2 ^ n).
    rewrite raddf_sum; apply: eq_bigr => i _.
    rewrite (bigD1 i) //= eqxx mulr1 big1 ?addr0 // => j; rewrite eq_sym => /negbTE ->; by rewrite mulr0 raddf0.
  rewrite scaler_nat mulr2n -!addrA; congr (_ + (_ + _)); rewrite [LHS]addrC -addrA; congr (_ + (_ + _)).
  by rewrite -sumrN; apply: eq_bigr => i _; rewrite -sumrN; apply: eq_bigr => j _; rewrite scaleNr.
move=> i _.
rewrite (sum_2n n (fun j => get (ofM H) i j *: (adjm (alphaM C n i) *m alphaM C n j))).
rewrite (sum_2n n (fun j => get (ofM H) (i + n) j *: (adjm (alphaM C n (i + n)) *m alphaM C n j))).
rewrite -big_split /=; apply: eq_bigr => j _; have [g1 g2 g3 g4] := g i j (ltn_ord i) (ltn_ord j).
rewrite ![(_ + n)%N]addnC g1 g2 g3 g4 /alphaM !ltn_ord ![(n + _ < n)%N]ltnNge !leq_addr /= !addKn adjmK.
rewrite am_swap // hA // !scaleNr scalerBr opprB -/a scale_scalar_mx.
move: (A j i *: _) (_%:M) (B i j *: _) (_^* *: _) (A i j *: _) => x1 x2 x3 x4 x5.
by apply/matrixP => u v; rewrite !mxE; xring C.
Qed.

Lemma sum_chain (V : zmodType) n (F : nat -> nat -> V) :
  \sum_(i < n) \sum_(j < n) (if (j == i.+1 :> nat)%N then F i j else 0) = \sum_(i < n.-1) F i i.+1.
Proof.
case: n => [|m]; first by rewrite !big_ord0.
rewrite big_ord_recr /= [X in _ + X]big1 ?addr0 => [|j _]; last by case: eqP => // h; have := ltn_ord j; lia.
apply: eq_bigr => i _; have h : (i.+1 < m.+1)%N by have := ltn_ord i; lia.
rewrite (bigD1 (Ordinal h)) //= eqxx big1 ?addr0 // => j nj; case: eqP => // e.
by case/eqP: nj; apply: val_inj.
Qed.

(* the Kitaev Hamiltonian with every coefficient doubled, shifted by n mu *)
Theorem C76_operator n (mu t delta : C) : (0 < n)%N -> mu \is Num.real -> t \is Num.real -> delta \is Num.real ->
  big mu -> big t -> big delta ->
  let a := am C n in
  let number := \sum_(i < n) adjm (a i) *m a i in
  let hopping := \sum_(i < n.-1) (adjm (a i) *m a i.+1 + adjm (a i.+1) *m a i) in
  let pairing := delta *: (\sum_(i < n.-1) a i *m a i.+1) in
  exists2 H : 'M[C]_(2 * n), kitaev_chain n mu t delta = Ok (ofM H) &
  build_op n (ofM H) (jordan_wigner_alphas C n) false =
  Ok (ofM (2%:R *: (- mu *: number - t *: hopping + (pairing + adjm pairing)) + (n%:R * mu)%:M)).
Proof.
move=> n0 rm rt rd bm bt bd a number hopping pairing.
have hs : storable mu t delta by split=> //; left.
have [H0 eH hb] := C42_kitaev n hs.
have [r c _] := hb; pose H := toM (2 * n) (2 * n) H0; have eH' : H0 = ofM H by rewrite ofM_toM.
exists H; first by rewrite eH eH'.
have aH : above H by apply: (kitaev_above hs bm bt bd); rewrite eH eH'.
rewrite eH' in hb; rewrite (C76_quadratic n0 aH hb) => [|i j hi hj]; last first.
  rewrite [j == i]eq_sym /neighbours [(i == j.+1) || _]orbC.
  by case: eqP => _; [|case: ifP => _]; rewrite ?rmorphN ?rmorph0 ?(CrealP rm) ?(CrealP rt).
congr (Ok (ofM _)).
have -> : \sum_(i < n) (if (i == i :> nat)%N then - mu else if neighbours i i then - t else 0) = - (n%:R * mu).
  by under eq_bigr do rewrite eqxx; rewrite sumr_const card_ord mulNrn mulr_natl.
rewrite raddfN opprK; congr (_ + _).
set X := \sum_(i < n) \sum_(j < n) (if (j == i.+1 :> nat)%N then delta else _) *: _.
have -> : X = 2%:R *: pairing.
  pose F i j := delta *: (a i *m a j); rewrite /X (eq_bigr (fun i : 'I_n => \sum_(j < n)
    ((if (j == i.+1 :> nat)%N then F i j else 0) + (if (i == j.+1 :> nat)%N then - F i j else 0)))); last first.
    move=> i _; apply: eq_bigr => j _; case: eqP => [->|_]; first by rewrite ifF ?addr0 //; apply/eqP; lia.
    by case: eqP => _; rewrite ?scaleNr ?scale0r ?add0r.
  under eq_bigr do rewrite big_split /=.
  rewrite big_split /= sum_chain exchange_big /= (sum_chain n (fun j i => - F i j)) -big_split /= /pairing !scaler_sumr.
  apply: eq_bigr => i _; have hi : (i.+1 < n)%N by have := ltn_ord i; lia.
  have := am_anti C (ltnW hi) hi; rewrite -/a addrC => /eqP; rewrite addr_eq0 => /eqP e.
  by rewrite /F e scalerN opprK scaler_nat mulr2n.
rewrite [RHS]scalerDr [2%:R *: (pairing + _)]scalerDr adjmZ rmorph_nat; congr (_ *: _ + _).
pose F i j := - t *: (adjm (a i) *m a j); pose D i j := - mu *: (adjm (a i) *m a j).
rewrite (eq_bigr (fun i : 'I_n => \sum_(j < n) ((if (i == j :> nat)%N then D i j else 0) +
    ((if (j == i.+1 :> nat)%N then F i j else 0) + (if (i == j.+1 :> nat)%N then F i j else 0))))); last first.
  move=> i _; apply: eq_bigr => j _; rewrite /neighbours; case: (i =P j :> nat) => [->|_].
    by rewrite eqn_leq ltnn andbF !addr0.
  case: (j =P i.+1 :> nat) => [->|_]; first by rewrite /= [if _ == _ then _ else _]ifF ?addr0 ?add0r //; apply/eqP; lia.
  by case: eqP => _; rewrite ?scale0r ?add0r.
under eq_bigr do rewrite !big_split /=.
rewrite !big_split /= sum_chain [X in _ + (_ + X)]exchange_big /= (sum_chain n (fun j i => F i j)).
congr (_ + _).
  rewrite scaler_sumr; apply: eq_bigr => i _; rewrite (bigD1 i) //= eqxx big1 ?addr0 // => j.
  by case: (i =P j :> nat) => // e; rewrite (_ : j = i) ?eqxx //; apply: val_inj.
rewrite -big_split /= /hopping scaler_sumr -sumrN; apply: eq_bigr => i _.
by rewrite /F -scalerDr scaleNr.
Qed.

(* ------------------------------------------------------------------ *)
(* the Majorana operators of the two ends                              *)
(* ------------------------------------------------------------------ *)
Definition left_end n := am C n 0 + adjm (am C n 0).
Definition right_end n := 'i *: (am C n n.-1 - adjm (am C n n.-1)).

Lemma kitaev_ends n t (H : 'M[C]_(2 * n)) : t \is Num.real -> kitaev_chain n 0 t t = Ok (ofM H) ->
  (forall i i' j : 'I_(2 * n), i = 0%N :> nat -> i' = n :> nat -> H i j + H i' j = 0) /\
  (forall i i' j : 'I_(2 * n), i = n.-1 :> nat -> i' = (n + n.-1)%N :> nat -> H i' j = H i j).
Proof.
move=> rt e; have ht := CrealP rt; have [H'] := C42_kitaev n (storable_tt 0 rt); rewrite e => -[<-] hb.
have g := has_blocks_get hb; rewrite toM_ofM in g.
split=> i i' j ei ei'; rewrite !g ei ei'; have hj := ltn_ord j; have hi := ltn_ord i; have hi' := ltn_ord i'.
  rewrite ltnn subnn /neighbours (_ : (0 < n)%N = true); last by lia.
  case: (ltnP j n) => h.
    case: (j : nat) => [|[|m]] /=; by rewrite ?rmorphN ?rmorph0 ?oppr0 ?rmorph0 ?ht ?opprK ?subrr ?addr0.
  by case: (j - n)%N => [|[|m]] /=; rewrite ?oppr0 ?subrr ?addr0.
have n0 : (n.-1 < n)%N by lia.
rewrite n0 ltnNge leq_addr addKn /neighbours /=; case: (ltnP j n) => h.
  case: (j =P n.-1.+1 :> nat) => [e1|_] /=; first by lia.
  case: (n.-1 =P j :> nat) => [e1|_] /=; last by case: ifP => //.
  by rewrite -e1 ifF // ?oppr0 //; apply/eqP; lia.
case: (j - n =P n.-1.+1)%N => [e1|_] /=; first by lia.
case: (n.-1 =P j - n)%N => [e1|_] /=; last by case: ifP.
by rewrite -e1 ifF // ?oppr0 //; apply/eqP; lia.
Qed.

Theorem C76_ends n (t : C) : (0 < n)%N -> t \is Num.real -> big t ->
  exists (H : 'M[C]_(2 * n)) (O : 'M[C]_(2 ^ n)),
  [/\ kitaev_chain n 0 t t = Ok (ofM H), build_op n (ofM H) (jordan_wigner_alphas C n) false = Ok (ofM O),
      O *m left_end n = left_end n *m O & O *m right_end n = right_end n *m O].
Proof.
move=> n0 rt bt; have [H [eH hH pH cH]] := C76_spectrum n0 rt.
have aH : above H := kitaev_above (storable_tt 0 rt) big0 bt bt eH.
have [r1 r2] := kitaev_ends rt eH; have pa := C47_ph_of_build_H hH pH.
exists H, (lift_spec H (alphaM C n)); split=> //.
  by rewrite alphas_ops C47_lift //; [rewrite C47_cutoff_id|lia].
have h0 : (0 < 2 * n)%N by lia.
have hn : (n < 2 * n)%N by lia.
  have := C47_commutator (Ordinal h0) (alphas_car C n) pa; have := C47_commutator (Ordinal hn) (alphas_car C n) pa.
  rewrite /= /alphaM n0 ltnn subnn => e1 e2; apply/eqP; rewrite -subr_eq0 /left_end mulmxDr mulmxDl opprD addrACA e1 e2.
  rewrite -scalerDr -big_split big1 ?scaler0 // => j _; by rewrite /= -scalerDl addrC (r1 (Ordinal h0) (Ordinal hn)) // scale0r.
have h0 : (n.-1 < 2 * n)%N by lia.
have hn : (n + n.-1 < 2 * n)%N by lia.
have := C47_commutator (Ordinal h0) (alphas_car C n) pa; have := C47_commutator (Ordinal hn) (alphas_car C n) pa.
rewrite /= /alphaM prednK // leqnn ltnNge leq_addr /= addKn => e1 e2; apply/eqP.
rewrite -subr_eq0 /right_end -scalemxAr -scalemxAl -scalerBr mulmxBr mulmxBl opprD addrACA -opprD e1 e2.
rewrite -scalerBr -sumrB big1 ?scaler0 // => j _; by rewrite -scalerBl (r2 (Ordinal h0) (Ordinal hn)) // subrr scale0r.
Qed.

Lemma left_end_herm n : adjm (left_end n) = left_end n.
Proof. by rewrite /left_end adjmD adjmK addrC. Qed.
Lemma am_nil n i : (i < n)%N -> am C n i *m am C n i = 0.
Proof.
move=> hi; have := am_anti C hi hi; rewrite -mulr2n -scaler_nat => /eqP.
by rewrite scaler_eq0 pnatr_eq0 /= => /eqP.
Qed.
Lemma left_end_sqr n : (0 < n)%N -> left_end n *m left_end n = 1%:M.
Proof.
move=> n0; rewrite /left_end mulmxDl !mulmxDr -adjmM am_nil // adjm0 add0r addr0.
by rewrite am_anti_adj // eqxx.
Qed.
Lemma left_end_parity n : (0 < n)%N -> parity C n *m left_end n = - (left_end n *m parity C n).
Proof.
move=> n0; have e := parity_am C n0; rewrite /left_end mulmxDr mulmxDl opprD e; congr (_ + _).
have := congr1 (@adjm C _ _) e; rewrite adjmN !adjmM parity_adj => h.
by rewrite h opprK.
Qed.

(* every energy level contains states of both parities *)
Theorem C76_degenerate n (t : C) (H : 'M[C]_(2 * n)) (O : 'M[C]_(2 ^ n)) : (0 < n)%N -> t \is Num.real -> big t ->
  kitaev_chain n 0 t t = Ok (ofM H) -> build_op n (ofM H) (jordan_wigner_alphas C n) false = Ok (ofM O) ->
  forall (x : C) (v : 'cV[C]_(2 ^ n)), O *m v = x *: v -> v != 0 ->
  exists v1 v2 : 'cV[C]_(2 ^ n), [/\ v1 != 0, v2 != 0, O *m v1 = x *: v1 /\ O *m v2 = x *: v2,
    parity C n *m v1 = v1 & parity C n *m v2 = - v2].
Proof.
move=> n0 rt bt eH eO x v hv v0; have [H' [O' [e1 e2 cl _]]] := C76_ends n0 rt bt.
have {e1} eHH : H = H' by apply: (@ofM_inj C); apply: okI; rewrite -eH.
have {e2} eOO : O = O' by apply: (@ofM_inj C); apply: okI; rewrite -eO eHH.
rewrite -eOO in cl.
have pO : parity C n *m O = O *m parity C n.
  suff -> : O = lift_spec (cutoff (10%:R ^+ 10)^-1 H) (alphaM C n) by exact: parity_lift.
  by apply: (@ofM_inj C); apply: okI; rewrite -eO alphas_ops C47_lift //; lia.
set P := parity C n in pO *; have PP : P *m P = 1%:M := parity_sqr C n.
set G := left_end n in cl; have GG : G *m G = 1%:M := left_end_sqr n0; have PG : P *m G = - (G *m P) := left_end_parity n0.
have G0 w : w != 0 -> G *m w != 0.
  by apply: contraNneq => h; rewrite -[w]mul1mx -GG -mulmxA h mulmx0.
have OG w : O *m w = x *: w -> O *m (G *m w) = x *: (G *m w) by move=> h; rewrite mulmxA cl -mulmxA h scalemxAr.
have OP : O *m (P *m v) = x *: (P *m v) by rewrite mulmxA -pO -mulmxA hv scalemxAr.
have [z|nz] := eqVneq (v + P *m v) 0.
  have pv : P *m v = - v by apply/eqP; rewrite -addr_eq0 addrC z.
  exists (G *m v), v; split=> //; [exact: G0|by split=> //; exact: OG|].
  by rewrite mulmxA PG mulNmx -mulmxA pv mulmxN opprK.
have hw : O *m (v + P *m v) = x *: (v + P *m v) by rewrite mulmxDr hv OP scalerDr.
have pw : P *m (v + P *m v) = v + P *m v by rewrite mulmxDr mulmxA PP mul1mx addrC.
exists (v + P *m v), (G *m (v + P *m v)); split=> //; [exact: G0|by split=> //; exact: OG|].
by rewrite mulmxA PG mulNmx -mulmxA pw.
Qed.

(* no hopping and no pairing: the eigenvalues are +-mu *)
Theorem C76_trivial n (mu : C) : mu \is Num.real ->
  kitaev_chain n mu 0 0 = Ok (ofM (std_form n (fun=> - mu))).
Proof.
move=> rm; have [H eH hb] := C42_kitaev n (storable_tt mu (rpred0 _)); have [r c _] := hb; rewrite eH -(ofM_toM r c); congr (Ok (ofM _)).
apply/matrixP => i j; rewrite (has_blocks_get hb) mxE; have hi := ltn_ord i; have hj := ltn_ord j.
have eij : (i == j) = (i == j :> nat) by [].
rewrite eij /neighbours; case: (ltnP i n) => h1; case: (ltnP j n) => h2.
- by case: eqP => _; rewrite ?oppr0 ?if_same ?rmorph0 ?rmorphN ?(CrealP rm) ?oppr0.
- by rewrite oppr0 !if_same ifF //; apply/eqP; lia.
- by rewrite oppr0 !if_same rmorph0 oppr0 ifF //; apply/eqP; lia.
rewrite (_ : (i - n == j - n)%N = (i == j :> nat)%N); last by apply/eqP/eqP; lia.
by rewrite oppr0 if_same.
Qed.

(* two sites, t = delta = 1 *)
Example C76_example : exists2 H : 'M[C]_(2 * 2), kitaev_chain 2 0 1 1 = Ok (ofM H) &
  char_poly H = ('X - 2%:R%:P) * ('X + 2%:R%:P) * 'X ^+ 2 /\
  H = \matrix_(i, j) nth 0 (nth [::] [:: [:: 0; 1; 0; 1]; [:: 1; 0; -1; 0]; [:: 0; -1; 0; -1]; [:: 1; 0; -1; 0]] i) j.
Proof.
have [|H [eH _ _ cH]] := @C76_spectrum 2%N 1 isT; first exact: rpred1.
exists H => //; split; first by rewrite cH mulr1 !expr1.
have [H'] := @C42_kitaev C 2%N 0 1 1 (storable_tt 0 (rpred1 _)); rewrite eH => -[<-] hb.
have g := has_blocks_get hb; rewrite toM_ofM in g.
apply/matrixP => i j; rewrite g mxE /neighbours.
by case: i => [[|[|[|[|i]]]] hi] //; case: j => [[|[|[|[|j]]]] hj] //=; rewrite ?rmorphN ?rmorph0 ?rmorph1 ?oppr0 ?opprK.
Qed.

(* the documented normalisation, H = -mu sum n_i + ..., is not the operator of the coefficient matrix: one site, mu = 1 *)
Theorem C76_refuted_normalisation : exists (H : 'M[C]_(2 * 1)) (O : 'M[C]_(2 ^ 1)),
  [/\ kitaev_chain 1 1 0 0 = Ok (ofM H), build_op 1 (ofM H) (jordan_wigner_alphas C 1) false = Ok (ofM O) &
      O <> - (adjm (am C 1 0) *m am C 1 0)].
Proof.
have b1 : big 1.
  by right; rewrite normr1 le_gtF // invf_le1 ?exprn_ege1 ?exprn_gt0 ?ltr0n ?ler1n.
have [|||H eH eO] := @C76_operator 1%N 1 0 0 isT _ _ _ b1 big0 big0; try exact: rpred1; try exact: rpred0.
exists H; eexists; split; [exact: eH|exact: eO|].
rewrite !scale0r adjm0 big_ord1 mulr1 !addr0 subr0 scaleN1r.
set N := adjm _ *m _ => /eqP; rewrite -subr_eq0.
have -> : 2%:R *: - N + 1%:M - - N = 1%:M - N.
  by rewrite scalerN scaler_nat mulr2n opprK opprD -!addrA (addrC 1%:M N) addKr addrC.
rewrite subr_eq0 => /eqP e.
have z : am C 1 0 = 0 by rewrite -[LHS]mul1mx e /N -mulmxA am_nil // mulmx0.
have := am_anti_adj C (isT : (0 < 1)%N) (isT : (0 < 1)%N); rewrite eqxx z adjm0 mulmx0 addr0 => /matrixP /(_ ord0 ord0) /eqP.
by rewrite !mxE eqxx eq_sym oner_eq0.
Qed.
End Kitaev.
