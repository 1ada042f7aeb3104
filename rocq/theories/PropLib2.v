(* PropLib2.v -- properties C42-C45 of ff_lib.py *)
Set Warnings "-notation-overridden,-ambiguous-paths".
From mathcomp Require Import all_ssreflect all_algebra.
From mathcomp.zify Require Import zify.
From Verif Require Import Base ArrC MLib JW OpFam FermAlg LibFacts LibFacts2 LibFacts3.
Set Implicit Arguments.
Unset Strict Implicit.
Unset Printing Implicit Defensive.
Import Order.Theory GRing.Theory Num.Theory.
Local Open Scope ring_scope.

Section Props.
Variable C : numClosedFieldType.
Local Notation arr := (arr C).
Add Ring cringP2 : (ring_of C).

(* ================================================================== *)
(* C42  coefficient matrices                                           *)
(* ================================================================== *)
(* H = [[a, b], [c, d]] with n x n blocks *)
Definition has_blocks n (H : arr) (a b c d : nat -> nat -> C) :=
  [/\ nr H = (2 * n)%N, nc H = (2 * n)%N &
   forall i j, (i < n)%N -> (j < n)%N -> [/\ get H i j = a i j, get H i (n + j) = b i j,
       get H (n + i) j = c i j & get H (n + i) (n + j) = d i j]].

Lemma blocks4E n (a b c d : arr) : shp a n n -> shp b n n -> shp c n n -> shp d n n ->
  exists2 H, blocks4 n a b c d = Ok H & has_blocks n H (get a) (get b) (get c) (get d).
Proof.
move=> /shpP[a1 a2] /shpP[b1 b2] /shpP[c1 c2] /shpP[d1 d2].
rewrite /blocks4 !bcast_id //=; eexists; first reflexivity.
split; rewrite /= ?a1 ?a2 ?b2 ?c1; try lia.
move=> i j hi hj; rewrite !(@get_block _ n) //; try lia.
by rewrite hi hj ![(n + _ < n)%N]ltnNge !leq_addr /= !addKn.
Qed.

Theorem C42_build_H n (A B : arr) : shp A n n -> shp B n n ->
  exists2 H, build_H n A (Some B) = Ok H &
    has_blocks n H (fun i j => - (get A i j)^*) (get B) (fun i j => - (get B i j)^*) (get A).
Proof.
move=> sA sB; have [a1 a2] := shpP _ _ _ sA; have [b1 b2] := shpP _ _ _ sB.
have [|//|||H e [h1 h2 h3]] := @blocks4E n (aopp (aconj A)) B (aopp (aconj B)) A => //.
exists H => //; split=> // i j hi hj; have [-> -> -> ->] := h3 i j hi hj.
by rewrite !getE /= ?a1 ?a2 ?b1 ?b2.
Qed.

Theorem C42_build_H_default n (A : arr) : shp A n n -> build_H n A None = build_H n A (Some (azeros n n)).
Proof. by move=> /shpP[a1 a2]; rewrite /build_H a1 a2. Qed.

Theorem C42_build_V n (A Z : arr) : shp A n n -> shp Z n n ->
  exists2 V, build_V n A (Some Z) = Ok V &
    has_blocks n V (fun i j => - (get Z i j)^*) (get A) (fun i j => - (get A i j)^*) (get Z).
Proof. by move=> sA sZ; exact: C42_build_H. Qed.

(* matrix form used below *)
Lemma has_blocks_get n H a b c d : has_blocks n H a b c d -> forall i j : 'I_(2 * n), toM (2 * n) (2 * n) H i j =
  if (i < n)%N then if (j < n)%N then a i j else b i (j - n)%N else
  if (j < n)%N then c (i - n)%N j else d (i - n)%N (j - n)%N.
Proof.
move=> [_ _ h] i j; rewrite mxE; have hi := ltn_ord i; have hj := ltn_ord j.
case: (ltnP i n) => h1; case: (ltnP j n) => h2.
- by have [-> _ _ _] := h i j h1 h2.
- have h3 : (j - n < n)%N by lia.
  by have [_ <- _ _] := h i (j - n)%N h1 h3; rewrite subnKC.
- have h3 : (i - n < n)%N by lia.
  by have [_ _ <- _] := h (i - n)%N j h3 h2; rewrite subnKC.
have h3 : (i - n < n)%N by lia.
have h4 : (j - n < n)%N by lia.
by have [_ _ _ <-] := h (i - n)%N (j - n)%N h3 h4; rewrite !subnKC.
Qed.

(* the matrix S = [[0, 1], [1, 0]] with n x n blocks *)
Definition swapM n : 'M[C]_(2 * n) := \matrix_(i, j) ((j == (i + n)%N :> nat) || (i == (j + n)%N :> nat))%:R.
Lemma SM_swap n : SM C n = swapM n.
Proof.
apply/matrixP => i j; rewrite SME mxE /sw; have hi := ltn_ord i; have hj := ltn_ord j.
by congr ((nat_of_bool _)%:R); case: (ltnP i n) => h; lia.
Qed.

(* particle-hole symmetry S H^* S = - H holds for every A and B *)
Lemma ph_blocks n (H : arr) (a b : nat -> nat -> C) :
  has_blocks n H (fun i j => - (a i j)^*) b (fun i j => - (b i j)^*) a ->
  swapM n *m map_mx conjC (toM (2 * n) (2 * n) H) *m swapM n = - toM (2 * n) (2 * n) H.
Proof.
rewrite -SM_swap => hb; apply/matrixP => i j.
pose i' := Ordinal (sw_lt (ltn_ord i)); pose j' := Ordinal (sw_lt (ltn_ord j)).
have -> : (SM C n *m map_mx conjC (toM (2 * n) (2 * n) H) *m SM C n) i j = (toM (2 * n) (2 * n) H i' j')^*.
  rewrite mxE (bigD1 j') //= big1 ?addr0 => [|k nk].
    rewrite SME /= swK // eqxx mulr1 mxE (bigD1 i') //= big1 ?addr0 => [|k nk].
      by rewrite SME eqxx mul1r mxE.
    by rewrite SME (negbTE (_ : k != sw n i :> nat)) ?mul0r.
  rewrite SME (_ : (j == _ :> nat) = false) ?mulr0 //; apply/eqP => e.
  by case/eqP: nk; apply: val_inj; rewrite /= e swK.
rewrite [RHS]mxE !(has_blocks_get hb) /= /sw.
have hi := ltn_ord i; have hj := ltn_ord j.
case: (ltnP i n) => h1; case: (ltnP j n) => h2.
- by do 2! [rewrite ifF; last lia]; rewrite !addnK opprK.
- by rewrite ifF ?ifT ?addnK ?rmorphN ?conjCK //; lia.
- by rewrite ifT ?ifF ?addnK ?opprK //; lia.
by do 2! [rewrite ifT; last lia]; rewrite rmorphN conjCK.
Qed.

Theorem C42_particle_hole n (A B H : arr) : shp A n n -> shp B n n -> build_H n A (Some B) = Ok H ->
  swapM n *m map_mx conjC (toM (2 * n) (2 * n) H) *m swapM n = - toM (2 * n) (2 * n) H.
Proof. by move=> sA sB e; have [H'] := C42_build_H sA sB; rewrite e => -[<-]; exact: ph_blocks. Qed.

Lemma herm_blocks n (H : arr) (a b : nat -> nat -> C) :
  (forall i j, (i < n)%N -> (j < n)%N -> (a j i)^* = a i j) ->
  (forall i j, (i < n)%N -> (j < n)%N -> b j i = - b i j) ->
  has_blocks n H (fun i j => - (a i j)^*) b (fun i j => - (b i j)^*) a ->
  hermitian (toM (2 * n) (2 * n) H).
Proof.
move=> ha hb hB; apply/matrixP => i j; rewrite !mxE -![get H _ _](mxE matrix_key (fun i j : 'I_(2 * n) => get H i j)).
rewrite -/(toM (2 * n) (2 * n) H) !(has_blocks_get hB).
have hi := ltn_ord i; have hj := ltn_ord j.
case: (ltnP i n) => h1; case: (ltnP j n) => h2; rewrite ?rmorphN /= ?conjCK.
- by rewrite -ha // conjCK.
- by rewrite -hb //; lia.
- by rewrite -rmorphN -hb //; lia.
by rewrite ha //; lia.
Qed.

(* A Hermitian and B antisymmetric: H is Hermitian *)
Theorem C42_hermitian n (A B H : arr) : shp A n n -> shp B n n -> build_H n A (Some B) = Ok H ->
  hermitian (toM n n A) -> (toM n n B)^T = - toM n n B -> hermitian (toM (2 * n) (2 * n) H).
Proof.
move=> sA sB e hA hB; have [H'] := C42_build_H sA sB; rewrite e => -[<-]; apply: herm_blocks.
  by move=> i j hi hj; have := congr1 (fun M : 'M_n => M (Ordinal hi) (Ordinal hj)) hA; rewrite !mxE.
by move=> i j hi hj; have := congr1 (fun M : 'M_n => M (Ordinal hi) (Ordinal hj)) hB; rewrite !mxE.
Qed.

(* and V is complex antisymmetric *)
Theorem C42_V_antisymmetric n (A Z V : arr) : shp A n n -> shp Z n n -> build_V n A (Some Z) = Ok V ->
  hermitian (toM n n A) -> (toM n n Z)^T = - toM n n Z ->
  (toM (2 * n) (2 * n) V)^T = - toM (2 * n) (2 * n) V.
Proof.
move=> sA sZ e hA hZ; have [V'] := C42_build_V sA sZ; rewrite e => -[<-] hB.
have ha i j : (i < n)%N -> (j < n)%N -> (get A j i)^* = get A i j.
  by move=> hi hj; have := congr1 (fun M : 'M_n => M (Ordinal hi) (Ordinal hj)) hA; rewrite !mxE.
have hz i j : (i < n)%N -> (j < n)%N -> get Z j i = - get Z i j.
  by move=> hi hj; have := congr1 (fun M : 'M_n => M (Ordinal hi) (Ordinal hj)) hZ; rewrite !mxE.
apply/matrixP => i j; rewrite [LHS]mxE [RHS]mxE !(has_blocks_get hB).
have hi := ltn_ord i; have hj := ltn_ord j.
case: (ltnP i n) => h1; case: (ltnP j n) => h2.
- by rewrite hz // rmorphN opprK.
- by rewrite ha //; lia.
- by rewrite opprK -ha ?conjCK //; lia.
by rewrite hz //; lia.
Qed.

(* kitaev_chain: chemical potential -mu, hopping -t, pairing +-delta between neighbours *)
Definition neighbours (i j : nat) := (j == i.+1) || (i == j.+1).

(* arguments the float arrays of the function can hold *)
Definition storable (mu t delta : C) := delta \is Num.real /\ (t \is Num.real \/ mu \isn't Num.real).

Lemma storableF n mu t delta : storable mu t delta ->
  (1 < n)%N && (((t \isn't Num.real) && (mu \is Num.real)) || (delta \isn't Num.real)) = false.
Proof. by case=> -> [->|/negbTE ->]; rewrite /= ?andbF ?orbF ?andbF. Qed.

Theorem C42_kitaev n (mu t delta : C) : storable mu t delta -> exists2 H, kitaev_chain n mu t delta = Ok H &
  let A i j := if i == j then - mu else if neighbours i j then - t else 0 in
  let B i j := if j == i.+1 then delta else if i == j.+1 then - delta else 0 in
  has_blocks n H (fun i j => - (A i j)^*) B (fun i j => - (B i j)^*) A.
Proof.
move=> hs; rewrite /kitaev_chain /= storableF //.
set A0 := foldl _ _ _; set B0 := foldl _ _ _.
have AE : A0 = mk n n (fun i j => if i == j then - mu else if neighbours i j then - t else 0).
  rewrite /A0 (@foldl_upd _ _ _ _ (fun k i j => if i == j then - mu else
     if (j == i.+1) && (i < k)%N || (i == j.+1) && (j < k)%N then - t else 0)) //=.
  - apply: eq_mk => i j hi hj; case: eqP => // _; rewrite /neighbours.
    by congr (if _ then _ else _); apply/idP/idP; case: eqP => //=; case: eqP => //=; lia.
  - by move=> i j hi hj; rewrite getE // getE //; case: eqP => _; rewrite ?mulr1 // ltn0 !andbF mulr0.
  move=> X k hk e1 e2 H i j hi hj; rewrite get_upd /= ?e1 ?e2 // get_upd ?e1 ?e2 // H //.
  case: (i =P j) => [->|ne].
    by do 2 (rewrite ifF; last by apply/negbTE; rewrite negb_and; case: eqP => //=; lia).
  case: ifP => [/andP[/eqP -> /eqP ->]|h1]; first by rewrite eqxx ltnSn orbT.
  case: ifP => [/andP[/eqP -> /eqP ->]|h2]; first by rewrite eqxx ltnSn.
  by congr (if _ then _ else _); lia.
have BE : B0 = mk n n (fun i j => if j == i.+1 then delta else if i == j.+1 then - delta else 0).
  rewrite /B0 (@foldl_upd _ _ _ _ (fun k i j => if (j == i.+1) && (i < k)%N then delta else
     if (i == j.+1) && (j < k)%N then - delta else 0)) //=.
  - apply: eq_mk => i j hi hj; rewrite (_ : (j == i.+1) && _ = (j == i.+1)); last lia.
    by rewrite (_ : (i == j.+1) && _ = (i == j.+1)); last lia.
  - by move=> i j hi hj; rewrite getE // ltn0 !andbF.
  move=> X k hk e1 e2 H i j hi hj; rewrite get_upd /= ?e1 ?e2 // get_upd ?e1 ?e2 // H //.
  case: ifP => [/andP[/eqP -> /eqP ->]|h1].
    by rewrite eqxx ltnSn /= ifF //; apply/negbTE; rewrite negb_and; case: eqP => //=; lia.
  case: ifP => [/andP[/eqP -> /eqP ->]|h2]; first by rewrite eqxx ltnSn.
  rewrite (_ : (j == i.+1) && (i < k.+1)%N = (j == i.+1) && (i < k)%N); last lia.
  by rewrite (_ : (i == j.+1) && (j < k.+1)%N = (i == j.+1) && (j < k)%N); last lia.
rewrite AE BE; have [||H e [h1 h2 h3]] := @C42_build_H n (mk n n (fun i j => if i == j then - mu else if neighbours i j then - t else 0))
  (mk n n (fun i j => if j == i.+1 then delta else if i == j.+1 then - delta else 0)).
  by rewrite /shp !eqxx. by rewrite /shp !eqxx.
exists H => //; split=> // i j hi hj; have [-> -> -> ->] := h3 i j hi hj; by rewrite !getE.
Qed.

(* any other coefficients, in particular a complex pairing, raise TypeError from two sites on *)
Theorem C42_kitaev_refuted_complex n (mu t delta : C) : (1 < n)%N -> ~ storable mu t delta ->
  kitaev_chain n mu t delta = Raise TypeError.
Proof.
move=> n1 h; rewrite /kitaev_chain n1 /=; case: ifP => // /negbT; rewrite negb_or negb_and !negbK => /andP[h1 h2].
by case: h; split=> //; case/orP: h1; [left|right].
Qed.

Lemma kitaev_storable n (mu t delta : C) H : (1 < n)%N -> kitaev_chain n mu t delta = Ok H -> storable mu t delta.
Proof.
move=> n1; rewrite /kitaev_chain n1 /=; case: ifP => // /negbT; rewrite negb_or negb_and !negbK => /andP[h1 h2] _.
by split=> //; case/orP: h1; [left|right].
Qed.

Theorem C42_kitaev_hermitian n (mu t delta : C) H : mu \is Num.real -> t \is Num.real -> delta \is Num.real ->
  kitaev_chain n mu t delta = Ok H -> hermitian (toM (2 * n) (2 * n) H) /\
  swapM n *m map_mx conjC (toM (2 * n) (2 * n) H) *m swapM n = - toM (2 * n) (2 * n) H.
Proof.
move=> rm0 rt0 rd0 e; have rm := CrealP rm0; have rt := CrealP rt0.
have [|H'] := @C42_kitaev n mu t delta; first by split=> //; left.
rewrite e => -[<-] hb.
split; last exact: ph_blocks hb.
apply: herm_blocks hb => i j hi hj.
  rewrite [j == i]eq_sym /neighbours [(i == j.+1) || _]orbC; case: eqP => _; rewrite ?rmorphN ?rm //.
  by case: ifP => _; rewrite ?rmorphN ?rmorph0 ?rt.
case: (i =P j.+1) => [->|h1]; first by rewrite ifF ?opprK //; apply/eqP; lia.
by case: eqP => _ //; rewrite oppr0.
Qed.

(* random_H_generator: for every draw of the four Gaussian matrices *)
Theorem C42_random_H n (fixedN : bool) (a1 a2 z1 z2 : arr) :
  shp a1 n n -> shp a2 n n -> shp z1 n n -> shp z2 n n ->
  exists H, [/\ random_H_generator n fixedN a1 a2 z1 z2 = Ok H, shp H (2 * n)%N (2 * n)%N,
    hermitian (toM (2 * n) (2 * n) H),
    swapM n *m map_mx conjC (toM (2 * n) (2 * n) H) *m swapM n = - toM (2 * n) (2 * n) H &
    fixedN -> forall i j, (i < n)%N -> (j < n)%N -> get H i (n + j) = 0 /\ get H (n + i) j = 0].
Proof.
move=> s1 s2 s3 s4; rewrite /random_H_generator.
have [r1 c1] := shpP _ _ _ s1; have [r2 c2] := shpP _ _ _ s2; have [r3 c3] := shpP _ _ _ s3; have [r4 c4] := shpP _ _ _ s4.
set X := aadd a1 _; set Z := aadd z1 _.
set A := aadd X _; set B0 := asub Z _; set B := if fixedN then _ else _.
have sA : shp A n n by rewrite /shp /= r1 c1 !eqxx.
have sB0 : shp B0 n n by rewrite /shp /= r3 c3 !eqxx.
have sB : shp B n n by rewrite /B; case: (fixedN) => //; rewrite /shp /= r3 c3 !eqxx.
have [H e hb] := C42_build_H sA sB; have [h1 h2 h3] := hb; exists H; split=> //; first by rewrite /shp h1 h2 !eqxx.
- apply: (C42_hermitian sA sB e).
    have E k l : (k < n)%N -> (l < n)%N -> get A k l = get X k l + (get X l k)^*.
      by move=> hk hl; rewrite getE /= ?r1 ?c1 //; congr (_ + _); rewrite getE /= ?r1 ?c1.
    by apply/matrixP => i j; rewrite !mxE !E // rmorphD conjCK addrC.
  apply/matrixP => i j; rewrite !mxE /B.
  have E k l : (k < n)%N -> (l < n)%N -> get B0 k l = get Z k l - get Z l k.
    by move=> hk hl; rewrite getE /= ?r3 ?c3 //; congr (_ - _); rewrite getE /= ?r3 ?c3.
  case: (fixedN); last by rewrite !E // opprB.
  by rewrite !(@getE _ (nr B0) (nc B0)) /= ?r3 ?c3 // !mul0r oppr0.
- exact: (C42_particle_hole sA sB e).
move=> f i j hi hj; have [_ -> -> _] := h3 i j hi hj; rewrite /B f.
by rewrite !(@getE _ (nr B0) (nc B0)) /= ?r3 ?c3 // !mul0r rmorph0 oppr0.
Qed.

Example C42_example : (exists2 H, kitaev_chain 2 1 2%:R 3%:R = Ok H & get H 0 3 = (3%:R : C) /\ get H 3 2 = - 2%:R :> C) /\
  kitaev_chain 2 1 2%:R ('i : C) = Raise TypeError.
Proof.
split; last first.
  apply: C42_kitaev_refuted_complex => // -[/CrealP h _]; have := h; rewrite conjCi => /eqP.
  by rewrite eq_sym -subr_eq0 opprK -mulr2n mulrn_eq0 /= (negbTE (neq0Ci _)).
have [|H e [_ _ h]] := @C42_kitaev 2 1 2%:R 3%:R; first by split; [exact: realn|left; exact: realn].
exists H => //; by have [_ -> _ _] := h 0%N 1%N isT isT; have [_ _ _ ->] := h 1%N 0%N isT isT.
Qed.

(* ================================================================== *)
(* C43  Omega, reordering, K                                           *)
(* ================================================================== *)
Theorem C43_Omega n : [/\ nr (build_Omega C n) = (2 * n)%N, nc (build_Omega C n) = (2 * n)%N,
   unitary (toM (2 * n) (2 * n) (build_Omega C n)) &
   has_blocks n (build_Omega C n) (fun i j => (sqrtC 2%:R)^-1 * (i == j)%:R) (fun i j => (sqrtC 2%:R)^-1 * (i == j)%:R)
     (fun i j => 'i * (sqrtC 2%:R)^-1 * (i == j)%:R) (fun i j => - 'i * (sqrtC 2%:R)^-1 * (i == j)%:R)].
Proof.
split; [exact: nr_Om|exact: nc_Om|exact: Omega_unitary|].
split; [exact: nr_Om|exact: nc_Om|] => i j hi hj; rewrite !(@get_block _ n) //; try lia.
by rewrite hi hj ![(n + _ < n)%N]ltnNge !leq_addr /= !addKn !getE //= !getE.
Qed.

(* row i of P reads x_{i}: position 2i for i < n, and p_{i-n}: position 2(i-n)+1 after *)
Theorem C43_reordering n : let P := build_reordering C n in
  [/\ nr P = (2 * n)%N, nc P = (2 * n)%N, toM (2 * n) (2 * n) P *m (toM (2 * n) (2 * n) P)^T = 1%:M &
   forall i j, (i < n)%N -> (j < 2 * n)%N ->
     get P i j = (j == 2 * i)%N%:R /\ get P (n + i) j = (j == 2 * i + 1)%N%:R].
Proof.
rewrite /= nr_re nc_re; split=> //; first exact: PM_orth.
move=> i j hi hj; rewrite reorderingE !getE //; try lia.
by rewrite /ord_col hi ltnNge leq_addr /= addKn.
Qed.

Theorem C43_K n : [/\ nr (build_K C n) = (2 * n)%N, nc (build_K C n) = (2 * n)%N, unitary (toM (2 * n) (2 * n) (build_K C n)) &
  toM (2 * n) (2 * n) (build_K C n) *m swapM n *m (toM (2 * n) (2 * n) (build_K C n))^T = swapM n].
Proof. by rewrite -SM_swap; split; [|rewrite [nc _]nc_Om|exact: K_unitary|exact: K_symp]. Qed.

Example C43_example : get (build_reordering C 2) 3 3 = 1 /\ get (build_reordering C 2) 1 2 = 1 /\
  get (build_Omega C 2) 3 1 = 'i * (sqrtC 2%:R)^-1.
Proof.
rewrite reorderingE; split; [by rewrite getE|split; first by rewrite getE].
by rewrite (@get_Omega C 2) // /om /= mul1r mulrC.
Qed.

End Props.
