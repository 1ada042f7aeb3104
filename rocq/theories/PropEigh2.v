(* PropEigh2.v -- property C53: eigv_sp, eigm_sp and eigm_sp_can *)
Set Warnings "-notation-overridden,-ambiguous-paths".
From mathcomp Require Import all_ssreflect all_algebra.
From mathcomp.zify Require Import zify.
From Verif Require Import Base ArrC MLib MUtils JW OpFam FermAlg LibFacts LibFacts2 LibFacts3 PropLib2 PropLib3 Spectral MEigh EighFacts PropEigh1.
Set Implicit Arguments.
Unset Strict Implicit.
Unset Printing Implicit Defensive.
Import Order.Theory GRing.Theory Num.Theory.
Local Open Scope ring_scope.

Section C53.
Variable C : numClosedFieldType.
Local Notation arr := (arr C).
Local Notation cj := (map_mx (@conjC C)).
Local Notation realmx := (@realmx C _ _).
Add Ring cringP53 : (ring_of C).

Variables (schur_sort schur : arr -> arr * arr) (eigvalsh : arr -> seq C) (argsort : seq C -> seq nat).
Hypothesis schurP : schur_sort_spec schur_sort.
Hypothesis schur0P : schur_spec schur.
Hypothesis evP : eigvalsh_spec eigvalsh.
Hypothesis asP : argsort_spec argsort.

Local Notation eigh := (eigh_sp schur_sort eigvalsh argsort).
Local Notation eigv := (eigv_sp schur_sort eigvalsh argsort).
Local Notation eigm := (eigm_sp schur_sort eigvalsh argsort).
Local Notation eigmcan := (eigm_sp_can schur eigvalsh argsort).

(* diag(-S, S) and its Y forms *)
Definition std_form n (S : nat -> C) : 'M[C]_(2 * n) :=
  \matrix_(i, j) (if i == j then (if (i < n)%N then - S i else S (i - n)%N) else 0).
(* [[0, S], [-S, 0]] *)
Definition Y_form n (S : nat -> C) : 'M[C]_(2 * n) :=
  \matrix_(i, j) (if j == (i + n)%N :> nat then S i else if i == (j + n)%N :> nat then - S j else 0).

Lemma S_std n (S : nat -> C) : SM C n *m std_form n S = Y_form n S.
Proof.
apply/matrixP => i j; rewrite mxE (bigD1 (Ordinal (sw_lt (ltn_ord i)))) //= big1 ?addr0 => [|k nk]; last first.
  by rewrite SME (negbTE (_ : k != sw n i :> nat)) ?mul0r.
rewrite SME eqxx mul1r !mxE -val_eqE /= /sw; have hi := ltn_ord i; have hj := ltn_ord j.
case: (ltnP i n) => h.
  rewrite [(i + n < n)%N]ltnNge leq_addl /= addnK eq_sym; case: eqP => // _.
  by rewrite (_ : (i == (j + n)%N :> nat) = false) //; apply/eqP; lia.
rewrite (_ : (j == (i + n)%N :> nat) = false); last by apply/eqP; lia.
rewrite (_ : (i - n < n)%N); last lia.
rewrite (_ : (i == (j + n)%N :> nat) = ((i - n)%N == j :> nat)); last by apply/eqP/eqP; lia.
by case: eqP => // ->.
Qed.

Lemma okpair_inj m (A B A' B' : 'M[C]_m) : Ok (ofM A, ofM B) = Ok (ofM A', ofM B') -> A = A' /\ B = B'.
Proof.
move=> h; pose pr (r : res (arr * arr)) := if r is Ok x then x else (ofM A, ofM B).
by split; apply: ofM_inj; [have := congr1 (fun r => (pr r).1) h|have := congr1 (fun r => (pr r).2) h].
Qed.

(* V antisymmetric and particle-hole symmetric, H = S V *)
Lemma SV_ok n (V : 'M[C]_(2 * n)) : V^T = - V -> ph_symmetric V ->
  hermitian (swapM C n *m V) /\ ph_symmetric (swapM C n *m V).
Proof.
rewrite /ph_symmetric -SM_swap => aV pV.
have e : cj V *m SM C n = - (SM C n *m V) by rewrite -mulmxN -pV !mulmxA S_sqr mul1mx.
split.
  rewrite /hermitian adjmM S_adj /adjm -cj_tr aV.
  have -> : cj (- V) = - cj V by apply/matrixP => i j; rewrite !mxE rmorphN.
  by rewrite mulNmx e opprK.
by rewrite cjM SM_cj mulmxA S_sqr mul1mx e.
Qed.

(* eigv_sp returns (U^T V U, U) with the U that eigh_sp returns on S V; U^T V U has Y form up to 2e-10 off the two
   anti-diagonals *)
Theorem C53_eigv_sp n (V : 'M[C]_(2 * n)) : (0 < n)%N -> V^T = - V -> ph_symmetric V ->
  exists (L U : 'M[C]_(2 * n)),
  [/\ eigv (ofM V) = Ok (ofM (U^T *m V *m U), ofM U), eigh (ofM (swapM C n *m V)) = Ok (ofM L, ofM U),
      unitary U, symplectic U /\ symp_form U & U^T *m V *m U = swapM C n *m L].
Proof.
move=> n0 aV pV; have [hH pH] := SV_ok aV pV.
have [L [U [S [e uU [sU fU] eL _]]]] := C52_eigh_sp schurP evP asP n0 hH pH.
have eY : U^T *m V *m U = swapM C n *m L.
  have /sform_form fU' := fU.
  have t : SM C n *m adjm U *m SM C n = U^T.
    by rewrite -[in RHS]fU' !trmx_mul S_tr mulmxA.
  by rewrite eL -SM_swap -t !mulmxA.
exists L, U; split=> //.
rewrite /eigv_sp (_ : nr (ofM V) %/ 2 = n)%N; last by rewrite /= mulKn.
have -> : Smat C n = ofM (swapM C n) by rewrite -SM_swap /SM ofM_toM //= addnn mul2n.
by cbv zeta; rewrite ofM_mul_chk /bind e eY -ofM_mul.
Qed.

Theorem C53_eigv_sp_Y n (V : 'M[C]_(2 * n)) : (0 < n)%N -> V^T = - V -> ph_symmetric V -> gapped (swapM C n *m V) ->
  exists (U : 'M[C]_(2 * n)) (S : nat -> C),
  [/\ eigv (ofM V) = Ok (ofM (Y_form n S), ofM U), eigh (ofM (swapM C n *m V)) = Ok (ofM (std_form n S), ofM U),
      U^T *m V *m U = Y_form n S, unitary U /\ symplectic U & forall k, S k \is Num.real].
Proof.
move=> n0 aV pV g; have [hH pH] := SV_ok aV pV.
have [L [U [S [[e uU [sU fU] eL rS] dL]]]] := C52_diagonal schurP evP asP n0 hH pH g.
have eL' : L = std_form n S by apply/matrixP => i j; rewrite dL mxE.
have [L' [U' [e1 e2 _ _ e3]]] := C53_eigv_sp n0 aV pV.
move: e2; rewrite e => /okpair_inj[e2 e4]; rewrite -e4 -e2 eL' -SM_swap S_std in e1 e3.
by exists U, S; rewrite e1 e3 -eL'.
Qed.

(* ------------------------------ eigm_sp ------------------------------ *)
(* G = i times a real antisymmetric matrix *)
Definition majorana_form m (G : 'M[C]_m) := G^T = - G /\ cj G = - G.

Lemma GH_ok n (G : 'M[C]_(2 * n)) (H := adjm (OM C n) *m G *m OM C n) : majorana_form G ->
  [/\ hermitian H, ph_symmetric H & OM C n *m H *m adjm (OM C n) = G].
Proof.
case=> aG rG; split.
- rewrite /hermitian /H !adjmM adjmK mulmxA; congr (_ *m _ *m _).
  rewrite /adjm rG; apply/matrixP => i j; have := congr1 (fun M : 'M_(2 * n) => M i j) aG; rewrite !mxE => ->.
  by rewrite opprK.
- rewrite /ph_symmetric -SM_swap /H !cjM cj_adj rG Omega_cj !mulmxA -Omega_adj.
  by rewrite -[_ *m SM C n *m SM C n]mulmxA S_sqr mulmx1 mulmxN mulNmx.
by rewrite /H !mulmxA (Omega_unitary C n) mul1mx -mulmxA (Omega_unitary C n) mulmx1.
Qed.

Lemma eigm_unfold n (G L U : 'M[C]_(2 * n)) (O := OM C n *m U *m adjm (OM C n)) :
  eigh (ofM (adjm (OM C n) *m G *m OM C n)) = Ok (ofM L, ofM U) ->
  eigm (ofM G) = Ok (ofM (O^T *m G *m O), ofM O).
Proof.
move=> e; rewrite /eigm_sp (_ : nr (ofM G) %/ 2 = n)%N; last by rewrite /= mulKn.
have -> : build_Omega C n = ofM (OM C n) by rewrite /OM ofM_toM ?nr_Om ?nc_Om.
cbv zeta; rewrite ofM_adj ofM_mul_chk /bind ofM_mul_chk e.
change ((ofM L, ofM U).2) with (ofM U).
have -> : amul (amul (ofM (OM C n)) (ofM U)) (ofM (adjm (OM C n))) = ofM O by rewrite /O -!ofM_mul.
by rewrite ofM_tr -!ofM_mul.
Qed.

(* eigm_sp returns a real orthogonal O and O^T G O *)
Theorem C53_eigm_sp n (G : 'M[C]_(2 * n)) : (0 < n)%N -> majorana_form G ->
  exists (O : 'M[C]_(2 * n)),
  [/\ eigm (ofM G) = Ok (ofM (O^T *m G *m O), ofM O), realmx O & O *m O^T = 1%:M].
Proof.
move=> n0 mG; have [hH pH eG] := GH_ok mG.
have [L [U [S [e uU [sU fU] eL _]]]] := C52_eigh_sp schurP evP asP n0 hH pH.
have rO := real_sform (iffRL (sform_form U) fU).
exists (OM C n *m U *m adjm (OM C n)); split; first exact: (eigm_unfold e); first exact/realmxP.
have <- : adjm (OM C n *m U *m adjm (OM C n)) = (OM C n *m U *m adjm (OM C n))^T by rewrite {1}/adjm rO.
apply: unitaryM; last exact/unitary_adj/Omega_unitary.
by apply: unitaryM => //; exact: Omega_unitary.
Qed.

(* Omega diag(-S, S) Omega^dagger = i [[0, S], [-S, 0]] *)
Lemma Omega_std n (S : nat -> C) : OM C n *m std_form n S *m adjm (OM C n) = 'i *: Y_form n S.
Proof.
apply/matrixP => i j; rewrite -mulmxA mxE.
pose d k : C := if (k < n)%N then - S k else S (k - n)%N.
have n0 : (0 < n)%N by have := ltn_ord i; lia.
have -> : \sum_k OM C n i k * (std_form n S *m adjm (OM C n)) k j = \sum_(k < 2 * n) om C n i k * d k * (om C n j k)^*.
  apply: eq_bigr => k _; rewrite [(std_form _ _ *m _) _ _]mxE (bigD1 k) //= big1 ?addr0 => [|l nl]; last first.
    by rewrite [std_form _ _ _ _]mxE eq_sym (negbTE nl) mul0r.
  by rewrite !mxE eqxx !get_Omega // mulrA.
have hi := ltn_ord i; have hj := ltn_ord j.
rewrite -(big_mkord xpredT (fun k => om C n i k * d k * (om C n j k)^*)) (big_cat_nat _ _ _ (leq0n n)) /=; last by lia.
rewrite [X in _ + X](_ : _ = \sum_(0 <= k < n) om C n i (k + n) * S k * (om C n j (k + n))^*); last first.
  rewrite -{1}[n]add0n big_addn (_ : 2 * n - n = n)%N; last by lia.
  by apply: eq_bigr => k _; rewrite /d ltnNge leq_addl /= addnK.
rewrite -big_split /=.
have nu := nu2D C; have nr_ := nu_real C.
have hii : 'i * 'i = -1 :> C by rewrite -expr2 sqrCi.
have T k : (k < n)%N -> om C n i k * d k * (om C n j k)^* + om C n i (k + n) * S k * (om C n j (k + n))^* =
   (if (i < n)%N then (if (j < n)%N then 0 else 'i) else (if (j < n)%N then - 'i else 0)) * S k *
   ((i %% n == k)%N && (j %% n == k)%N)%:R.
  move=> hk; rewrite /om /d hk (_ : (k + n < n)%N = false) ?modnDr ?(modn_small hk); last by lia.
  set s := (sqrt2 C)^-1 in nu nr_ *; rewrite !rmorphM /= nr_ !conjC_nat.
  case: (i %% n == k)%N; last by rewrite !mul0r !mulr0 !mul0r addr0.
  case: (j %% n == k)%N; last by rewrite !mul0r !mulr0 addr0.
  rewrite !mul1r mulr1; case: (ltnP i n) => h1; case: (ltnP j n) => h2; rewrite ?rmorphN ?rmorph1 ?conjCi /= ?conjCi ?opprK.
  - by xring C.
  - by transitivity ('i * (s * s + s * s) * S k); [xring C|rewrite nu mulr1].
  - by transitivity (- 'i * (s * s + s * s) * S k); [xring C|rewrite nu mulr1].
  by xring C.
rewrite (eq_big_nat _ _ (F2 := fun k => (if (i < n)%N then (if (j < n)%N then 0 else 'i) else (if (j < n)%N then - 'i else 0)) * S k *
   ((i %% n == k)%N && (j %% n == k)%N)%:R)); last by move=> k /andP[_ hk]; exact: T.
rewrite (bigD1_seq (i %% n)%N) ?iota_uniq ?mem_index_iota ?ltn_mod //= big1 ?addr0 => [|k nk]; last first.
  by rewrite eq_sym (negbTE nk) /= mulr0.
rewrite eqxx /= !mxE !modn_half //.
case: (ltnP i n) => h1; case: (ltnP j n) => h2.
- by do 2! [rewrite ifF; last by apply/eqP; lia]; rewrite mulr0 !mul0r.
- rewrite (_ : (j == (i + n)%N :> nat) = ((j - n)%N == i)); last by apply/eqP/eqP; lia.
  case: eqP => _; first by rewrite mulr1.
  by rewrite ifF ?mulr0 //; apply/eqP; lia.
- rewrite ifF; last by apply/eqP; lia.
  rewrite (_ : (i == (j + n)%N :> nat) = (nat_of_ord j == (i - n)%N)); last by apply/eqP/eqP; lia.
  case: eqP => [->|_]; first by rewrite mulr1 mulNr mulrN.
  by rewrite !mulr0.
by do 2! [rewrite ifF; last by apply/eqP; lia]; rewrite mulr0 !mul0r.
Qed.

Theorem C53_eigm_sp_Y n (G : 'M[C]_(2 * n)) : (0 < n)%N -> majorana_form G -> gapped G ->
  exists (O : 'M[C]_(2 * n)) (S : nat -> C),
  [/\ eigm (ofM G) = Ok (ofM ('i *: Y_form n S), ofM O), realmx O, O *m O^T = 1%:M,
      O^T *m G *m O = 'i *: Y_form n S & forall k, S k \is Num.real].
Proof.
move=> n0 mG g; have [hH pH eG] := GH_ok mG.
have gH : gapped (adjm (OM C n) *m G *m OM C n).
  move=> x /eigenvalueP[v ev nv]; apply: g; apply/eigenvalueP; exists (v *m adjm (OM C n)).
    move: eG ev; move: (adjm (OM C n) *m G *m OM C n) => H eG ev.
    by rewrite -eG !mulmxA -[v *m _ *m OM C n]mulmxA (unitaryC (Omega_unitary C n)) mulmx1 ev -scalemxAl.
  apply: contraNneq nv => /(congr1 (fun M => M *m OM C n)).
  by rewrite -mulmxA (unitaryC (Omega_unitary C n)) mulmx1 mul0mx => ->.
have [L [U [S [[e uU [sU fU] eL rS] dL]]]] := C52_diagonal schurP evP asP n0 hH pH gH.
have eL' : L = std_form n S by apply/matrixP => i j; rewrite dL mxE.
have rO := real_sform (iffRL (sform_form U) fU).
pose O := OM C n *m U *m adjm (OM C n).
have aO : adjm O = O^T by rewrite {1}/adjm rO.
have eY : O^T *m G *m O = 'i *: Y_form n S.
  by rewrite -Omega_std -eL' eL -aO /O !adjmM adjmK !mulmxA.
exists O, S; split=> //; [by rewrite -eY; exact: (eigm_unfold e)|exact/realmxP|].
rewrite -aO; apply: unitaryM; last exact/unitary_adj/Omega_unitary.
by apply: unitaryM => //; exact: Omega_unitary.
Qed.

(* ------------------------------ eigm_sp_can ------------------------------ *)
Lemma aim_ofM n (G : 'M[C]_n) : cj G = - G -> aim (ofM G) = ofM (- 'i *: G).
Proof.
move=> rG; apply: arrP => // i j /= hi hj; rewrite getE //.
rewrite -[i]/(nat_of_ord (Ordinal hi)) -[j]/(nat_of_ord (Ordinal hj)) !ofM_get mxE.
have := congr1 (fun M : 'M_n => M (Ordinal hi) (Ordinal hj)) rG; rewrite !mxE => e.
have nz2 : (2%:R : C) != 0 by rewrite pnatr_eq0.
by apply: (mulIf nz2); rewrite ImE e mulfVK // mulr_natr mulr2n; set x := G _ _; xring C.
Qed.

(* the direct sum of blocks x and id is a block permutation that only flips *)
Lemma get_PiM n fl i j : (i < 2 * n)%N -> (j < 2 * n)%N ->
  get (ofM (PiM C n (iota 0 n) fl)) i j = (i == 2 * (j %/ 2) + (odd j (+) fl (j %/ 2)))%N%:R.
Proof.
move=> hi hj; rewrite -[i]/(nat_of_ord (Ordinal hi)) -[j]/(nat_of_ord (Ordinal hj)) ofM_get mxE /bpos /=.
by rewrite nth_iota ?add0n //; lia.
Qed.

Lemma can_blocksE n (l : seq C) : (0 < n)%N -> size l = n ->
  can_blocks n l = Ok (ofM (PiM C n (iota 0 n) (fun k => 0 < nth 0 l k))).
Proof.
move=> n0 sl; pose blk (k : nat) : arr := if 0 < nth 0 l k then pauli_x C else aeye 2.
set fl := fun k => _.
change (can_blocks n l) with (let* _ := item l 0 in foldM (fun P k => kron_plus P (blk k)) (blk 0%N) (iota 1 (n - 1))).
have -> : item l 0 = Ok (nth 0 l 0) by rewrite /item drop0; case: l sl {blk fl} => // e; rewrite -e in n0.
rewrite {1}/bind.
have B k : nr (blk k) = 2%N /\ nc (blk k) = 2%N by rewrite /blk; case: ifP.
have Bg k i j : (i < 2)%N -> (j < 2)%N -> get (blk k) i j = (i == odd j (+) fl k :> nat)%:R.
  rewrite /blk /fl => hi hj; case: (0 < _); last by rewrite getE // addbF; case: j hj => [|[|//]].
  by rewrite pxE getE //; case: i hi => [|[|//]] _; case: j hj => [|[|//]] _.
elim: n n0 {sl} => [//|[_|n IH] _].
  rewrite /=; congr Ok; have [b1 b2] := B 0%N; apply: arrP => //=; rewrite ?b1 ?b2 // => i j hi hj.
  rewrite Bg // get_PiM //.
  by rewrite (_ : j %/ 2 = 0)%N ?muln0 ?add0n //; lia.
have -> : iota 1 (n.+2 - 1) = iota 1 (n.+1 - 1) ++ [:: n.+1] by rewrite !subn1 ![_.-1]/= -[X in iota 1 X = _]addn1 iotaD add1n.
rewrite foldM_cat IH // {1}/bind /= /kron_plus /np_block.
have [b1 b2] := B n.+1; rewrite /= b1 b2 !eqxx /=.
congr Ok; apply: arrP; [by rewrite /=; lia|by rewrite /=; lia|].
move=> i j /= hi hj.
have hi' : (i < 2 * n.+2)%N by lia. have hj' : (j < 2 * n.+2)%N by lia.
rewrite getE // [RHS]get_PiM //.
case: (ltnP i (2 * n.+1)) => h1; case: (ltnP j (2 * n.+1)) => h2.
- by rewrite get_PiM.
- rewrite getE; [|lia|lia]; rewrite (_ : (_ == _)%N = false) //; case: (_ (+) _); lia.
- rewrite getE; [|rewrite /=; lia|rewrite /=; lia]; rewrite getE; [|lia|lia]; rewrite (_ : (_ == _)%N = false) //; case: (_ (+) _); lia.
rewrite Bg; [|lia|lia].
have -> : (j %/ 2 = n.+1)%N by lia.
have -> : odd (j - 2 * n.+1) = odd j by rewrite oddB // mul2n odd_double addbF.
by congr ((nat_of_bool _)%:R); case: (_ (+) _); lia.
Qed.

(* O^T G O = -i P^T T P with P a flip of 2x2 blocks; O real orthogonal *)
Lemma eigm_can_main n (G : 'M[C]_(2 * n)) : (0 < n)%N -> majorana_form G ->
  exists (T Z O : 'M[C]_(2 * n)) (fl : nat -> bool),
  [/\ eigmcan (ofM G) = Ok (ofM (O^T *m G *m O), ofM O), (schur (ofM ('i *: G))) = (ofM T, ofM Z),
      real_schur ('i *: G) T Z, T^T = - T /\ O = Z *m PiM C n (iota 0 n) fl &
      [/\ realmx O, O *m O^T = 1%:M & 'i *: (O^T *m G *m O) = (PiM C n (iota 0 n) fl)^T *m T *m PiM C n (iota 0 n) fl]].
Proof.
move=> n0 mG; have [aG rG] := mG.
have riG : realmx ('i *: G).
  by apply/realmxP; rewrite map_mxZ /= conjCi rG scaleNr scalerN opprK.
have aiG : ('i *: G)^T = - ('i *: G) by rewrite linearZ /= aG scalerN.
have m0 : (0 < 2 * n)%N by lia.
have [T [Z [es rs]]] := schur0P m0 riG aiG; have [rT rZ oZ eZ qT] := rs.
have [aT eT] := real_anti aiG oZ eZ.
pose H := adjm (OM C n) *m G *m OM C n; have [hH pH eG] := GH_ok mG.
have [_ _ sz _] := evP n0 (subA_herm hH).
have nrm (l : seq C) : all (fun x => x \is Num.real) [seq `|x| | x <- l].
  by apply/allP => x /mapP[y _ ->]; exact: normr_real.
have [pa _] := asP (nrm (eigvalsh (ofM (subA H)))).
pose l := fancy 0 (eigvalsh (ofM (subA H))) (rev (argsort [seq `|x| | x <- eigvalsh (ofM (subA H))])).
have szl : size l = n by rewrite size_map size_rev (perm_size pa) size_iota size_map.
pose fl := if allclose (ofM (subA H)) (azeros n n) then fun => false else fun k => 0 < nth 0 l k.
pose P := PiM C n (iota 0 n) fl.
have hp : perm_eq (iota 0 n) (iota 0 n) by [].
exists T, Z, (Z *m P), fl.
have rO : cj (Z *m P) = Z *m P by rewrite cjM PiM_real (realmxP Z).1.
have oO : (Z *m P) *m (Z *m P)^T = 1%:M.
  by rewrite trmx_mul !mulmxA -[Z *m P *m P^T]mulmxA PiM_orth // mulmx1.
split=> //; last first.
  split=> //; first exact/realmxP.
  by rewrite -eT trmx_mul !mulmxA -scalemxAr -!scalemxAl -!mulmxA.
rewrite /eigm_sp_can (_ : nr (ofM G) %/ 2 = n)%N; last by rewrite /= mulKn.
have -> : build_Omega C n = ofM (OM C n) by rewrite /OM ofM_toM ?nr_Om ?nc_Om.
have bOk A B (x : A) (f : A -> res B) : bind (Ok x) f = f x by [].
have aOk B (b : bool) (f : unit -> res B) : b -> bind (assertM b) f = f tt by case: b.
cbv zeta; rewrite aim_ofM // aOk; last first.
  by rewrite ofM_scale scalerA mulrN -expr2 sqrCi opprK scale1r allclose_refl.
rewrite ofM_opp -scaleNr opprK es; change ((ofM T, ofM Z).2) with (ofM Z).
rewrite ofM_adj ofM_mul_chk bOk ofM_mul_chk bOk -/H slice_subA.
have F : (if allclose (ofM (subA H)) (azeros (nr (ofM (subA H))) (nc (ofM (subA H)))) then Ok (ofM Z)
   else let* P0 := can_blocks n l in Ok (amul (ofM Z) P0)) = Ok (ofM (Z *m P)).
  rewrite /P /fl -[nr (ofM (subA H))]/n -[nc (ofM (subA H))]/n; case: ifP => _; first by rewrite PiM_id mulmx1.
  by rewrite can_blocksE // bOk -ofM_mul.
by rewrite -/l F bOk; move: (Z *m P) => O; rewrite ofM_tr -!ofM_mul.
Qed.

Theorem C53_eigm_sp_can n (G : 'M[C]_(2 * n)) : (0 < n)%N -> majorana_form G ->
  exists (O : 'M[C]_(2 * n)),
  [/\ eigmcan (ofM G) = Ok (ofM (O^T *m G *m O), ofM O), realmx O & O *m O^T = 1%:M].
Proof. by move=> n0 mG; have [T [Z [O [fl [e _ _ _ [rO oO _]]]]]] := eigm_can_main n0 mG; exists O. Qed.

(* an antisymmetric quasi triangular matrix without zero rows is block canonical *)
Lemma nonsing_canon n (T : 'M[C]_(2 * n)) (i j : 'I_(2 * n)) : quasi_upper T -> T^T = - T ->
  (forall i, exists j, T i j != 0) -> (i %/ 2 != j %/ 2)%N -> T i j = 0.
Proof.
move=> qT aT nz; have [_ q] := qT.
have E k (a b : 'I_(2 * n)) : a = (2 * k)%N :> nat -> b = a.+1 :> nat -> T a b != 0.
  elim: k a b => [|k IH] a b ea eb.
    have [c hc] := nz a; have [ec|/eqP h1] := c =P a.+1 :> nat; first by rewrite (_ : b = c) //; apply: val_inj; rewrite /= eb.
    by case/eqP: hc; apply: far0 => //; rewrite ea.
  have [c hc] := nz a; have [ec|/eqP h1] := c =P a.+1 :> nat; first by rewrite (_ : b = c) //; apply: val_inj; rewrite /= eb.
  have [ec|/eqP h2] := a =P c.+1 :> nat; last by case/eqP: hc; apply: far0.
  have hd : (2 * k < 2 * n)%N by have := ltn_ord a; lia.
  have := IH (Ordinal hd) c erefl; rewrite /= => /(_ (ltac:(lia))) nd.
  case: (q (Ordinal hd) c a); [by rewrite /=; lia|by []| |] => z.
    by case/eqP: nd; rewrite antiE // z oppr0.
  by case/eqP: hc.
have K (a b : 'I_(2 * n)) : b = a.+1 :> nat -> (a %/ 2 != b %/ 2)%N -> T a b = 0.
  move=> eb hab; have ha : (0 < a)%N by lia.
  have hd : (a.-1 < 2 * n)%N by have := ltn_ord a; lia.
  have := E (a %/ 2)%N (Ordinal hd) a; rewrite /= => /(_ (ltac:(lia)) (ltac:(lia))) nd.
  case: (q (Ordinal hd) a b); [by rewrite /=; lia|by []| |] => z.
    by case/eqP: nd; rewrite antiE // z oppr0.
  by rewrite antiE // z oppr0.
move=> hij; have [e|/eqP h1] := j =P i.+1 :> nat; first exact: K.
have [e|/eqP h2] := i =P j.+1 :> nat; last exact: far0.
by rewrite antiE // K ?oppr0 // eq_sym.
Qed.

(* for an invertible G, i O^T G O is the real block canonical matrix *)
Theorem C53_eigm_sp_can_canonical n (G : 'M[C]_(2 * n)) : (0 < n)%N -> majorana_form G -> G \in unitmx ->
  exists (O : 'M[C]_(2 * n)),
  [/\ eigmcan (ofM G) = Ok (ofM (O^T *m G *m O), ofM O), realmx O, O *m O^T = 1%:M &
      canonical ('i *: (O^T *m G *m O))].
Proof.
move=> n0 mG uG; have [T [Z [O [fl [e es [rT rZ oZ eZ qT] [aT eO] [rO oO eP]]]]]] := eigm_can_main n0 mG.
exists O; split=> //; rewrite eP.
have hp : perm_eq (iota 0 n) (iota 0 n) by [].
have nz i : exists j, T i j != 0.
  have [/existsP//|/existsPn h] := boolP [exists j, T i j != 0]; exfalso.
  have r0 : row i T = 0 by apply/rowP => j; rewrite !mxE; apply/eqP/negPn/h.
  have uT : T \in unitmx.
    have [_ <-] := real_anti (ltac:(by rewrite linearZ /= mG.1 scalerN) : ('i *: G)^T = - ('i *: G)) oZ eZ.
    by rewrite !unitmx_mul unitmx_tr (mulmx1_unit oZ).1 unitmxZ ?unitfE ?neq0Ci // uG.
  have : row i (T *m invmx T) = 0 by rewrite row_mul r0 mul0mx.
  rewrite mulmxV // => /rowP/(_ i); rewrite !mxE eqxx => /eqP; by rewrite oner_eq0.
split.
- by move=> i j; rewrite (Pi_conj _ _ hp).
- exact: Pi_anti.
move=> i j nj; case: (i %/ 2 =P j %/ 2)%N => [hb|/eqP hb].
  have -> : j = i by apply: val_inj => /=; move: nj; rewrite /partner; case: ifP => o /eqP; lia.
  by rewrite (Pi_conj _ _ hp) anti0.
rewrite (Pi_conj _ _ hp) nonsing_canon //= !bpos_half.
have hi := ltn_ord i; have hj := ltn_ord j.
by rewrite !nth_iota ?add0n //; lia.
Qed.

End C53.
