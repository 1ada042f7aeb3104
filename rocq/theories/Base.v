(* Base.v -- Python results (values or exceptions), numpy-like 2-D arrays with dynamic shape,
   and the array operations used throughout the library.  Numbers are exact (no floating point). *)
Set Warnings "-notation-overridden,-ambiguous-paths".
From mathcomp Require Import all_ssreflect all_algebra.
From Coq Require Import setoid_ring.Ring setoid_ring.Field.
Set Implicit Arguments.
Unset Strict Implicit.
Unset Printing Implicit Defensive.
Import GRing.Theory Num.Theory.
Local Open Scope ring_scope.

(* ------------------------------------------------------------------ *)
(* Python outcomes                                                      *)
(* ------------------------------------------------------------------ *)

(* The exceptions the modelled code can raise. *)
Inductive exn := IndexError | ValueError | TypeError | AssertionError | ZeroDivisionError | LinAlgError
  | KeyError | UnboundLocalError | NetworkXPointlessConcept (* raised by networkx on graphs without nodes *)
  | OutOfFuel (* never a Python exception: a while loop model that ran out of fuel *).

(* Outcome of a Python call: a returned value or a raised exception. *)
Inductive res (A : Type) := Ok of A | Raise of exn.
Arguments Raise {A} _.

Definition bind A B (m : res A) (f : A -> res B) : res B :=
  match m with Ok a => f a | Raise e => Raise e end.
Notation "'let*' x := m 'in' f" := (bind m (fun x => f))
  (at level 200, x name, m at level 100, f at level 200, right associativity).

(* for x in l: s = body s x   (exceptions stop the loop) *)
Fixpoint foldM A S (body : S -> A -> res S) (s : S) (l : seq A) : res S :=
  match l with [::] => Ok s | x :: l' => let* s' := body s x in foldM body s' l' end.

(* [f x for x in l] with exceptions *)
Fixpoint mapM A B (f : A -> res B) (l : seq A) : res (seq B) :=
  match l with [::] => Ok [::] | x :: l' => let* y := f x in let* ys := mapM f l' in Ok (y :: ys) end.

Definition is_ok A (m : res A) := match m with Ok _ => true | Raise _ => false end.

(* assert b *)
Definition assertM (b : bool) : res unit := if b then Ok tt else Raise AssertionError.

Lemma foldM_ok A S (body : S -> A -> res S) (g : S -> A -> S) s l :
  (forall s x, List.In x l -> body s x = Ok (g s x)) -> foldM body s l = Ok (foldl g s l).
Proof.
elim: l s => [|x l IH] s //= H.
rewrite H /=; last by left.
by apply: IH => s' y Hy; apply: H; right.
Qed.

Lemma foldM_cat A S (body : S -> A -> res S) s l1 l2 :
  foldM body s (l1 ++ l2) = bind (foldM body s l1) (fun s' => foldM body s' l2).
Proof. by elim: l1 s => [|x l1 IH] s //=; case: (body s x). Qed.

Lemma In_mem (T : eqType) (x : T) l : List.In x l <-> x \in l.
Proof.
elim: l => [|y l IH] //=; rewrite in_cons; split.
  by case=> [->|/IH ->]; rewrite ?eqxx ?orbT.
by case/orP=> [/eqP ->|/IH]; [left|right].
Qed.

(* ------------------------------------------------------------------ *)
(* ring / field tactics over mathcomp (commutative) rings               *)
(* ------------------------------------------------------------------ *)
Section RingOps.
Variable R : comRingType.
Definition xadd (x y : R) : R := x + y.
Definition xmul (x y : R) : R := x * y.
Definition xopp (x : R) : R := - x.
Definition xsub (x y : R) : R := x - y.
Definition x0 : R := 0.
Definition x1 : R := 1.
Lemma ring_of : @ring_theory R x0 x1 xadd xmul xsub xopp eq.
Proof.
split=> //; rewrite /xadd /xmul /xsub /xopp; [exact: add0r|exact: addrC|exact: addrA
  |exact: mul1r|exact: mulrC|exact: mulrA|exact: mulrDl|exact: subrr].
Qed.
End RingOps.

Ltac xfold R :=
  repeat match goal with
  | |- context [@GRing.add ?Z ?x ?y] => change (@GRing.add Z x y) with (@xadd R x y)
  | |- context [@GRing.mul ?Z ?x ?y] => change (@GRing.mul Z x y) with (@xmul R x y)
  | |- context [@GRing.opp ?Z ?x] => change (@GRing.opp Z x) with (@xopp R x)
  | |- context [@GRing.zero ?Z] => change (@GRing.zero Z) with (@x0 R)
  | |- context [@GRing.one ?Z] => change (@GRing.one Z) with (@x1 R)
  end.
Ltac xsimp := rewrite ?expr2 ?mulr2n ?exprS ?expr0 ?mulrS ?mulr0n ?expr1n.
(* usage, in a section where [Add Ring foo : (ring_of R)] was executed: xring R *)
Ltac xring R := xsimp; xfold R;
  match goal with |- @eq ?T ?x ?y => change (@eq (GRing.ComRing.sort R) x y) end; ring.

(* ------------------------------------------------------------------ *)
(* Arrays                                                               *)
(* ------------------------------------------------------------------ *)
Section Arr.
Variable T : zmodType.

(* A 2-D numpy array: its shape (nr, nc) and its entries. *)
Record arr := Arr { nr : nat; nc : nat; mx_of : 'M[T]_(nr, nc) }.

(* A[i, j]; 0 outside the shape (code reading there raises IndexError, see [idx]) *)
Definition get (A : arr) (i j : nat) : T :=
  oapp (fun i' => oapp (fun j' => mx_of A i' j') 0 (insub j)) 0 (insub i).

(* the m x n array with entries f i j *)
Definition mk (m n : nat) (f : nat -> nat -> T) : arr := Arr (\matrix_(i < m, j < n) f i j).

(* A[i, j] with numpy's bounds check (non-negative indices) *)
Definition idx (A : arr) (i j : nat) : res T :=
  if (i < nr A)%N && (j < nc A)%N then Ok (get A i j) else Raise IndexError.

(* A[i, j] = v (in range) *)
Definition upd (A : arr) (i j : nat) (v : T) : arr :=
  mk (nr A) (nc A) (fun i' j' => if (i' == i) && (j' == j) then v else get A i' j').

(* A.shape == (m, n) *)
Definition shp (A : arr) m n := (nr A == m) && (nc A == n).

Lemma get_ord (A : arr) (i : 'I_(nr A)) (j : 'I_(nc A)) : get A i j = mx_of A i j.
Proof. by rewrite /get !valK. Qed.

Lemma getE m n f i j : (i < m)%N -> (j < n)%N -> get (mk m n f) i j = f i j.
Proof. by move=> hi hj; rewrite -[i]/(val (Ordinal hi)) -[j]/(val (Ordinal hj)) get_ord mxE. Qed.

Lemma get_out A i j : ~~ ((i < nr A)%N && (j < nc A)%N) -> get A i j = 0.
Proof. by rewrite /get; case: insubP => [i' -> _|] //=; case: insubP => [j' -> _|] //=. Qed.

Lemma get_mk m n f i j : get (mk m n f) i j = if (i < m)%N && (j < n)%N then f i j else 0.
Proof.
case: ifP => [/andP[hi hj]|h]; first exact: getE.
by apply: get_out; rewrite /= h.
Qed.

Lemma nr_mk m n f : nr (mk m n f) = m. Proof. by []. Qed.
Lemma nc_mk m n f : nc (mk m n f) = n. Proof. by []. Qed.

Lemma arrP (A B : arr) : nr A = nr B -> nc A = nc B ->
  (forall i j, (i < nr A)%N -> (j < nc A)%N -> get A i j = get B i j) -> A = B.
Proof.
case: A B => [m n A] [m' n' B] /= em en; subst m' n' => H.
congr Arr; apply/matrixP => i j.
by have := H i j (ltn_ord i) (ltn_ord j); rewrite /get !valK /=.
Qed.

Lemma shpP A m n : reflect (nr A = m /\ nc A = n) (shp A m n).
Proof. by apply: (iffP andP) => [[/eqP-> /eqP->]|[-> ->]]. Qed.

Lemma mkP (A : arr) m n f : nr A = m -> nc A = n ->
  (forall i j, (i < m)%N -> (j < n)%N -> get A i j = f i j) -> A = mk m n f.
Proof.
move=> em en H; apply: arrP => // i j; rewrite em en => hi hj.
by rewrite H // getE.
Qed.

Lemma mk_eta A : mk (nr A) (nc A) (get A) = A.
Proof. by symmetry; apply: mkP. Qed.

Lemma eq_mk m n f g : (forall i j, (i < m)%N -> (j < n)%N -> f i j = g i j) -> mk m n f = mk m n g.
Proof. by move=> H; apply: mkP => // i j hi hj; rewrite getE // H. Qed.

(* conversion to a mathcomp matrix of a chosen size (used by the specifications) *)
Definition toM m n (A : arr) : 'M[T]_(m, n) := \matrix_(i, j) get A i j.
Definition ofM m n (A : 'M[T]_(m, n)) : arr := Arr A.

Lemma toM_ofM m n (A : 'M[T]_(m, n)) : toM m n (ofM A) = A.
Proof. by apply/matrixP=> i j; rewrite mxE -[RHS](get_ord (A:=ofM A)). Qed.

Lemma ofM_toM A m n : nr A = m -> nc A = n -> ofM (toM m n A) = A.
Proof.
move=> <- <-; apply: arrP => // i j hi hj.
by rewrite -[in LHS]/(ofM _) /ofM /toM -/(mk _ _ _) mk_eta.
Qed.

Lemma toM_inj A B m n : nr A = m -> nc A = n -> nr B = m -> nc B = n -> toM m n A = toM m n B -> A = B.
Proof. by move=> h1 h2 h3 h4 e; rewrite -(ofM_toM h1 h2) e ofM_toM. Qed.

(* np.zeros((m, n)) *)
Definition azeros m n : arr := mk m n (fun _ _ => 0).
(* elementwise a + b, a - b, -a (shapes assumed equal; [aadd_chk] checks) *)
Definition aadd (A B : arr) := mk (nr A) (nc A) (fun i j => get A i j + get B i j).
Definition asub (A B : arr) := mk (nr A) (nc A) (fun i j => get A i j - get B i j).
Definition aopp (A : arr) := mk (nr A) (nc A) (fun i j => - get A i j).
(* A.T *)
Definition atr (A : arr) := mk (nc A) (nr A) (fun i j => get A j i).
(* A[i0:i0+m, j0:j0+n] (in range) *)
Definition aslice (A : arr) i0 j0 m n := mk m n (fun i j => get A (i0 + i) (j0 + j)).
(* np.trace of a square array *)
Definition atrace (A : arr) := \sum_(i < nr A) get A i i.
(* np.block([[a, b], [c, d]]), shapes assumed compatible *)
Definition ablock (a b c d : arr) := mk (nr a + nr c) (nc a + nc b) (fun i j =>
  if (i < nr a)%N then if (j < nc a)%N then get a i j else get b i (j - nc a)
  else if (j < nc a)%N then get c (i - nr a) j else get d (i - nr a) (j - nc a)).

End Arr.
Arguments mk {T} m n f.
Arguments azeros {T} m n.
Arguments toM {T} m n A.

Section ArrRing.
Variable T : ringType.
Local Notation arr := (arr T).
Implicit Types A B D : arr.

(* np.eye(n) *)
Definition aeye n : arr := mk n n (fun i j => (i == j)%:R).
(* c * A *)
Definition ascale (c : T) (A : arr) := mk (nr A) (nc A) (fun i j => c * get A i j).
(* A @ B (inner dimensions assumed equal; [amul_chk] checks) *)
Definition amul (A B : arr) := mk (nr A) (nc B) (fun i j => \sum_(k < nc A) get A i k * get B k j).
(* A @ B with numpy's check: ValueError on mismatched inner dimension *)
Definition amul_chk (A B : arr) : res arr :=
  if nc A == nr B then Ok (amul A B) else Raise ValueError.
(* np.kron(A, B) *)
Definition akron (A B : arr) := mk (nr A * nr B) (nc A * nc B) (fun i j =>
  get A (i %/ nr B) (j %/ nc B) * get B (i %% nr B) (j %% nc B)).
(* np.diag(v) for a 1-D v *)
Definition adiag (v : seq T) := mk (size v) (size v) (fun i j => if i == j then nth 0 v i else 0).

Lemma toM_mul A B m n p : nr A = m -> nc A = n -> nr B = n -> nc B = p ->
  toM m p (amul A B) = toM m n A *m toM n p B.
Proof.
move=> <- <- eB <-; apply/matrixP=> i j; rewrite !mxE getE //.
by apply: eq_bigr => k _; rewrite !mxE.
Qed.

Lemma toM_eye n : toM n n (aeye n) = 1%:M.
Proof. by apply/matrixP=> i j; rewrite !mxE getE. Qed.

Lemma toM_add A B m n : nr A = m -> nc A = n -> toM m n (aadd A B) = toM m n A + toM m n B.
Proof. by move=> <- <-; apply/matrixP=> i j; rewrite !mxE getE. Qed.

Lemma toM_sub A B m n : nr A = m -> nc A = n -> toM m n (asub A B) = toM m n A - toM m n B.
Proof. by move=> <- <-; apply/matrixP=> i j; rewrite !mxE getE. Qed.

Lemma toM_opp A m n : nr A = m -> nc A = n -> toM m n (aopp A) = - toM m n A.
Proof. by move=> <- <-; apply/matrixP=> i j; rewrite !mxE getE. Qed.

Lemma toM_scale c A m n : nr A = m -> nc A = n -> toM m n (ascale c A) = c *: toM m n A.
Proof. by move=> <- <-; apply/matrixP=> i j; rewrite !mxE getE. Qed.

Lemma toM_tr A m n : nr A = m -> nc A = n -> toM n m (atr A) = (toM m n A)^T.
Proof. by move=> <- <-; apply/matrixP=> i j; rewrite !mxE getE. Qed.

Lemma toM_zeros m n : toM m n (azeros m n : arr) = 0.
Proof. by apply/matrixP=> i j; rewrite !mxE getE. Qed.

Lemma atraceE A n : nr A = n -> atrace A = \tr (toM n n A).
Proof. by move=> <-; apply: eq_bigr => i _; rewrite mxE. Qed.

Lemma amulA A B D : nc A = nr B -> nc B = nr D -> amul A (amul B D) = amul (amul A B) D.
Proof.
move=> e1 e2; apply: (@toM_inj _ _ _ (nr A) (nc D)) => //.
rewrite (@toM_mul A (amul B D) _ (nc A)) // (@toM_mul (amul A B) D _ (nc B)) //.
by rewrite (@toM_mul B D _ (nc B)) // (@toM_mul A B _ (nc A)) // mulmxA.
Qed.

Lemma amulDl A B D : nr A = nr B -> nc A = nc B -> amul (aadd A B) D = aadd (amul A D) (amul B D).
Proof.
move=> e1 e2; apply: arrP => // i j /= hi hj; rewrite !getE //= -?e1 //.
by rewrite -e2 -big_split; apply: eq_bigr => k _; rewrite getE // mulrDl.
Qed.

Lemma amulDr A B D : nr B = nr D -> nc B = nc D -> nc A = nr B -> amul A (aadd B D) = aadd (amul A B) (amul A D).
Proof.
move=> e1 e2 e3; apply: arrP => // i j /= hi hj; rewrite !getE //= -?e2 //.
by rewrite -big_split; apply: eq_bigr => k _; rewrite getE ?e3 -?e3 // mulrDr.
Qed.

Lemma amul1l A : amul (aeye (nr A)) A = A.
Proof.
apply: arrP => // i j /= hi hj; rewrite getE //=.
rewrite (bigD1 (Ordinal hi)) //= getE // eqxx mul1r big1 ?addr0 // => k nk.
by rewrite getE // eq_sym (negbTE (_ : val k != i)) ?mul0r.
Qed.

Lemma amul1r A : amul A (aeye (nc A)) = A.
Proof.
apply: arrP => // i j /= hi hj; rewrite getE //=.
rewrite (bigD1 (Ordinal hj)) //= getE // eqxx mulr1 big1 ?addr0 // => k nk.
by rewrite getE // (negbTE (_ : val k != j)) ?mulr0.
Qed.

Lemma amul_scalel c A B : amul (ascale c A) B = ascale c (amul A B).
Proof.
apply: arrP => // i j /= hi hj; rewrite !getE //= big_distrr /=.
by apply: eq_bigr => k _; rewrite getE // mulrA.
Qed.

Lemma ascaleA a b A : ascale a (ascale b A) = ascale (a * b) A.
Proof. by apply: arrP => // i j /= hi hj; rewrite !getE // mulrA. Qed.
Lemma ascale1 A : ascale 1 A = A.
Proof. by apply: arrP => // i j /= hi hj; rewrite !getE // mul1r. Qed.
Lemma ascaleN1 A : ascale (-1) A = aopp A.
Proof. by apply: arrP => // i j /= hi hj; rewrite !getE // mulN1r. Qed.

End ArrRing.
Arguments aeye {T} n.

Section ArrComRing.
Variable T : comRingType.
Local Notation arr := (arr T).

Lemma amul_scaler c (A B : arr) : nc A = nr B -> amul A (ascale c B) = ascale c (amul A B).
Proof.
move=> e; apply: arrP => // i j /= hi hj; rewrite !getE //= big_distrr /=.
by apply: eq_bigr => k _; rewrite getE -?e // mulrCA.
Qed.

Lemma atr_mul (A B : arr) : nc A = nr B -> atr (amul A B) = amul (atr B) (atr A).
Proof.
move=> e; apply: arrP => // i j /= hi hj; rewrite !getE //=.
by rewrite e; apply: eq_bigr => k _; rewrite !getE ?e // mulrC.
Qed.

Lemma atrace_mulC (A B : arr) : nc A = nr B -> nc B = nr A -> atrace (amul A B) = atrace (amul B A).
Proof.
move=> e1 e2; rewrite (atraceE (n:=nr A)) // (atraceE (n:=nr B)) //.
rewrite (@toM_mul _ _ _ _ (nc A)) // (@toM_mul _ B A _ (nr A)) //.
by rewrite -e1 mxtrace_mulC.
Qed.

Lemma sum_divmod (m p : nat) (F : nat -> nat -> T) :
  \sum_(k < m * p) F (k %/ p)%N (k %% p)%N = \sum_(a < m) \sum_(b < p) F a b.
Proof.
elim: m => [|m IH]; first by rewrite !big_ord0.
rewrite big_ord_recr /= -IH mulSn addnC big_split_ord /=; congr (_ + _).
apply: eq_bigr => b _; have hp : (0 < p)%N by apply: leq_ltn_trans (ltn_ord b).
by rewrite divnMDl // modnMDl divn_small // modn_small // addn0.
Qed.

Lemma mixed_product (A B D E : arr) : nc A = nr D -> nc B = nr E ->
  amul (akron A B) (akron D E) = akron (amul A D) (amul B E).
Proof.
move=> e1 e2; apply: arrP => // i j /= hi hj; rewrite getE //= getE //=.
have hB : (0 < nr B)%N by move: hi; case: (nr B) => //; rewrite muln0.
have hE : (0 < nc E)%N by move: hj; case: (nc E) => //; rewrite muln0.
rewrite !getE ?ltn_mod // ?ltn_divLR //.
rewrite big_distrlr /= -(sum_divmod _ _ (fun a b => get A (i %/ nr B) a * get D a (j %/ nc E) *
  (get B (i %% nr B) b * get E b (j %% nc E)))); apply: eq_bigr => k _.
have hk := ltn_ord k; rewrite getE // getE //=; last by rewrite -e1 -e2.
by rewrite -e2 mulrACA.
Qed.

Lemma atr_kron (A B : arr) : atr (akron A B) = akron (atr A) (atr B).
Proof.
apply: arrP => // i j /= hi hj; rewrite !getE //=.
  by move: hi; case: (nc B) => [|k]; rewrite ?muln0 // ltn_mod.
  by move: hj; case: (nr B) => [|k]; rewrite ?muln0 // ltn_mod.
  by move: hi; case: (nc B) => [|k]; rewrite ?muln0 // ltn_divLR.
by move: hj; case: (nr B) => [|k]; rewrite ?muln0 // ltn_divLR.
Qed.

Lemma akron_scalel c (A B : arr) : akron (ascale c A) B = ascale c (akron A B).
Proof.
apply: arrP => // i j /= hi hj; rewrite !getE //= ?mulrA //.
  by move: hi; case: (nr B) => [|k]; rewrite ?muln0 // ltn_divLR.
by move: hj; case: (nc B) => [|k]; rewrite ?muln0 // ltn_divLR.
Qed.

Lemma akron_scaler c (A B : arr) : akron A (ascale c B) = ascale c (akron A B).
Proof.
apply: arrP => // i j /= hi hj; rewrite !getE //= 1?mulrCA //.
  by move: hi; case: (nr B) => [|k]; rewrite ?muln0 // ltn_mod.
by move: hj; case: (nc B) => [|k]; rewrite ?muln0 // ltn_mod.
Qed.

Lemma atrace_kron (A B : arr) : nr A = nc A -> nr B = nc B -> atrace (akron A B) = atrace A * atrace B.
Proof.
move=> eA eB; rewrite /atrace big_distrlr /= -(sum_divmod _ _ (fun a b => get A a a * get B b b)).
by apply: eq_bigr => k _; rewrite getE /= -?eA -?eB.
Qed.

Lemma akron_eye m n : akron (aeye m) (aeye n) = aeye (m * n) :> arr.
Proof.
apply: arrP => // i j /= hi hj; rewrite getE //=.
have hn : (0 < n)%N by move: hi; case: (n) => //; rewrite muln0.
rewrite !getE ?ltn_mod ?ltn_divLR // -natrM mulnb; congr (_%:R); congr nat_of_bool.
apply/andP/eqP => [[/eqP e1 /eqP e2]|->]; last by [].
by rewrite (divn_eq i n) (divn_eq j n) e1 e2.
Qed.

Lemma akronA (A B D : arr) : akron A (akron B D) = akron (akron A B) D.
Proof.
apply: arrP; try by rewrite /= mulnA.
move=> i j /= hi hj.
have hD : (0 < nr D)%N by move: hi; case: (nr D) => //; rewrite !muln0.
have hD' : (0 < nc D)%N by move: hj; case: (nc D) => //; rewrite !muln0.
have hB : (0 < nr B)%N by move: hi; case: (nr B) => //; rewrite ?muln0 ?mul0n ?muln0.
have hB' : (0 < nc B)%N by move: hj; case: (nc B) => //; rewrite ?muln0 ?mul0n ?muln0.
have gi : (i < nr A * nr B * nr D)%N by rewrite -mulnA.
have gj : (j < nc A * nc B * nc D)%N by rewrite -mulnA.
have ki : (i %/ nr D < nr A * nr B)%N by rewrite ltn_divLR.
have kj : (j %/ nc D < nc A * nc B)%N by rewrite ltn_divLR.
have li : (i %% (nr B * nr D) < nr B * nr D)%N by rewrite ltn_mod muln_gt0 hB hD.
have lj : (j %% (nc B * nc D) < nc B * nc D)%N by rewrite ltn_mod muln_gt0 hB' hD'.
rewrite /akron !getE //=.
rewrite -mulrA.
have e1 : forall a b c, (a %/ (b * c) = a %/ c %/ b)%N by move=> a b c; rewrite -divnMA mulnC.
have e2 : forall a b c, (a %% (b * c) %/ c = a %/ c %% b)%N by move=> a b c; rewrite modn_divl.
have e3 : forall a b c, (a %% (b * c) %% c = a %% c)%N by move=> a b c; rewrite modn_dvdm // dvdn_mull.
by rewrite !e1 !e2 !e3.
Qed.

End ArrComRing.
