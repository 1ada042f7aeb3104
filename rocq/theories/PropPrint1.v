(* PropPrint1.v -- property C93: the messages printed by the functions of ff_lib.py, ff_combinatorics.py and
   ff_distance_measures.py. *)
Set Warnings "-notation-overridden,-ambiguous-paths".
From Coq Require Import Reals String.
From mathcomp Require Import all_ssreflect all_algebra.
From mathcomp Require Import complex.
From mathcomp.zify Require Import zify.
From Verif Require Import Base ArrC MCombinatorics MLib JW OpFam FermAlg LibFacts LibFacts2 LibFacts3 Expm MUtils Spectral RealC MDist MGraph MEmbed MPrint PropLib1 PropLib2 PropLib3 PropLib4.
Set Implicit Arguments.
Unset Strict Implicit.
Unset Printing Implicit Defensive.
Import Order.Theory GRing.Theory Num.Theory.
Local Open Scope ring_scope.

Section Erase.
Variable C : numClosedFieldType.
Local Notation out := (out C).
Lemma bindW2 A B (m : out A) (f : A -> out B) : (let! x := m in f x).2 = let* x := m.2 in (f x).2.
Proof. by rewrite /bindW; case: m.2. Qed.
Lemma when2 b (m : out unit) : m.2 = Ok tt -> (when b m).2 = Ok tt.
Proof. by rewrite /when; case: b. Qed.
Lemma foldW2 T A (f : T -> A -> out T) s l : (foldW f s l).2 = foldM (fun s x => (f s x).2) s l.
Proof. by elim: l s => //= x l IH s; rewrite bindW2; case: (f s x).2 => //= s'; exact: IH. Qed.
Lemma mapW2 A B (f : A -> out B) l : (mapW f l).2 = mapM (fun x => (f x).2) l.
Proof. by elim: l => //= x l IH; rewrite bindW2; case: (f x).2 => //= y; rewrite bindW2 IH; case: (mapM _ _). Qed.
Lemma foldW_nil T A (f : T -> A -> out T) g s l : (forall s x, f s x = quiet (g s x)) -> foldW f s l = quiet (foldM g s l).
Proof. by move=> h; elim: l s => //= x l IH s; rewrite h /bindW /=; case: (g s x) => //= s'; rewrite IH. Qed.
End Erase.

Lemma eq_foldM T A (f g : T -> A -> res T) s l : (forall s x, f s x = g s x) -> foldM f s l = foldM g s l.
Proof. by move=> h; elim: l s => //= x l IH s; rewrite h; case: (g s x) => //= s'; exact: IH. Qed.
Lemma eq_mapM A B (f g : A -> res B) l : (forall x, f x = g x) -> mapM f l = mapM g l.
Proof. by move=> h; elim: l => //= x l IH; rewrite h IH. Qed.

Section Props.
Variable C : numClosedFieldType.
Local Notation arr := (arr C).
Local Notation S s := (PStr s%string).

Lemma bind_ok A B (m : out C A) l a (f : A -> out C B) l' r : m = (l, Ok a) -> f a = (l', r) ->
  bindW m f = (l ++ l', r).
Proof. by move=> ->; rewrite /bindW /= => ->. Qed.

Lemma complete_face2 (A : arr) f verbose : (complete_face_p A f verbose).2 = complete_face A f.
Proof.
rewrite /complete_face_p /complete_face bindW2 /=; case: (face_sign A f) => //= s.
rewrite bindW2 when2 //=; case: s.2 => //= x r; rewrite bindW2 when2 //= bindW2 /=.
by case: (upd_chk _ _ _ _) => //= a; rewrite bindW2 /=; case: (upd_chk _ _ _ _).
Qed.

(* printing does not change results *)
Theorem C93_values : [/\
  forall p : seq int, (@permutation_to_matrix_p C p).2 = Ok (permutation_to_matrix C p),
  forall n verbose, (generate_pauli_group_p C n verbose).2 = generate_pauli_group C n,
  forall (x y : pyarg C) left verbose, (rotate_operators_p x y left verbose).2 = rotate_operators x y left,
  forall U : arr, (is_symp_p U).2 = is_symp U &
 [/\ forall L : arr, (check_canonical_form_p L).2 = Ok (check_canonical_form L),
  forall n (R : arr) alphas verbose direct, (build_op_p n R alphas verbose direct).2 = build_op n R alphas direct,
  forall expm n (H : arr) alphas, (generate_gaussian_state_p expm n H alphas).2 = generate_gaussian_state expm n H alphas,
  forall (M : arr) verbose, (is_matchgate_p M verbose).2 = Ok (is_matchgate M) &
 [/\ forall A : arr, (dt_eigen_p A).2 = Ok (dt_eigen A),
     forall (L : eqType) (G : graph L), (find_perfect_matchings_brute_p C G).2 = Ok (find_perfect_matchings_brute G),
     forall (A : arr) f verbose, (complete_face_p A f verbose).2 = complete_face A f &
     forall alphas : seq arr, (compute_algebra_S_p alphas false).2 = compute_algebra_S alphas]]].
Proof.
have bo n (R : arr) alphas verbose direct : (build_op_p n R alphas verbose direct).2 = build_op n R alphas direct.
  rewrite /build_op_p /build_op bindW2 when2 //= bindW2 /=; case: (item alphas 0) => //= a0.
  rewrite foldW2; apply: eq_foldM => acc i; rewrite foldW2; apply: eq_foldM => {}acc j.
  rewrite bindW2 /=; case: (idx R i j) => //= r; case: ifP => // _.
  rewrite bindW2 /=; case: (item alphas i) => //= ai; rewrite bindW2 /=; case: (item alphas j) => //= aj.
  rewrite bindW2 /=; case: (if direct then _ else _) => //= p; rewrite bindW2 /=; case: (iadd _ _) => //= b.
  by case: verbose.
split; [| | | |split; [| | | |split]].
- move=> p; rewrite /permutation_to_matrix_p foldW2 /permutation_to_matrix.
  elim: (iota _ _) (Some _) => //= i l IH acc; case: acc => [m|] //=.
    by case: ifP => _ /=; rewrite ?bindW2 /= IH.
- move=> n verbose; rewrite /generate_pauli_group_p /generate_pauli_group; case: ifP => // _.
  rewrite mapW2; elim: (product _ _) => //= c l IH; by case: verbose IH => /= ->.
- move=> x y left verbose; have h (M : arr) alphas : (rotate_core_p M alphas left verbose).2 = rotate_core M alphas left.
    rewrite /rotate_core_p bindW2 when2 //= /rotate_core; case: ifP => // _.
    rewrite bindW2 /perform_rotation_p mapW2 /perform_rotation.
    congr (bind _ _); apply: eq_mapM => j; rewrite bindW2 /=; case: (item alphas 0) => //= a0.
    rewrite bindW2 when2 //= foldW2; apply: eq_foldM => b i; rewrite bindW2 /=; case: (idx _ _ _) => //= c.
    by case: ifP => // _; rewrite bindW2 /=; case: (item _ _) => //= al; rewrite bindW2 /=; case: (iadd _ _) => //= b'; case: verbose.
  by case: x y => [M|l] [M'|l'] //=; exact: h.
- move=> U; rewrite /is_symp_p /is_symp; case: ifP => // _.
  by rewrite bindW2 /=; case: (bcast _ _ _) => //= top; rewrite bindW2 /=; case: (bcast _ _ _) => //= bot; do 2?case: ifP.
- by move=> L; rewrite /check_canonical_form_p /check_canonical_form; do 3?case: ifP.
- done.
- move=> expm n H alphas; rewrite /generate_gaussian_state_p /generate_gaussian_state.
  rewrite bindW2; case: ifP => _ /=.
    by rewrite bindW2 bo; case: (build_op _ _ _ _) => //= o; case: ifP.
  by case: ifP.
- by move=> M verbose; rewrite /is_matchgate_p /is_matchgate; case: ifP => //= _; case: ifP => _; case: verbose.
- by move=> A; rewrite /dt_eigen_p /dt_eigen; case: ifP.
- by move=> L G; rewrite /find_perfect_matchings_brute_p /find_perfect_matchings_brute; do 2?case: ifP.
- exact: complete_face2.
move=> alphas; rewrite /compute_algebra_S_p /compute_algebra_S bindW2 /=; case: (item _ _) => //= a0.
rewrite bindW2 /= foldW2.
set F := foldM _ _ _; set G := foldM _ _ _; suff -> : F = G by case: G.
apply: eq_foldM => T i; rewrite foldW2; apply: eq_foldM => {}T j.
rewrite bindW2 /=; case: (item alphas i) => //= ai; rewrite bindW2 /=; case: (item alphas j) => //= aj.
rewrite bindW2 /=; case: (amul_chk _ _) => //= p; rewrite bindW2 /=; case: (amul_chk _ _) => //= q.
by rewrite bindW2 /=; case: (iadd p q) => //= ac; case: ifP => // _; rewrite /when; case: (~~ _).
Qed.


(* the words printed by generate_pauli_group(verbose=True) *)
Lemma append_assoc s t u : String.append (String.append s t) u = String.append s (String.append t u).
Proof. by elim: s => //= c s ->. Qed.
Lemma append0 s : String.append s "" = s. Proof. by elim: s => //= c s ->. Qed.
Lemma foldl_append (T : Type) (f : T -> string) s l :
  foldl (fun s x => String.append s (f x)) s l = String.append s (String.concat "" [seq f x | x <- l]).
Proof.
elim: l s => [|x l IH] s; first by rewrite append0.
by rewrite -[LHS]/(foldl _ _ l) IH append_assoc; case: l {IH} => //=; rewrite append0.
Qed.

Lemma find_pauli a : (a < 4)%N -> find (array_equal (nth (azeros 0 0) (paulis C) a)) (paulis C) = a.
Proof.
have n10 : (1 == 0 :> C) = false by apply: negbTE; rewrite oner_eq0.
have n01 : (0 == 1 :> C) = false by rewrite eq_sym.
have nN : (-1 == 1 :> C) = false.
  by apply: negbTE; rewrite -subr_eq0 -opprD oppr_eq0 -[_ + _]/(2%:R) pnatr_eq0.
have nI : (- 'i == 1 :> C) = false.
  apply: negbTE; apply/negP => /eqP h; have := sqrCi C; rewrite -sqrrN h expr1n => /esym/eqP; by rewrite nN.
rewrite /paulis pxE pyE pzE eye2E.
by case: a => [|[|[|[|]]]] // _; rewrite /= /array_equal /shp /= !getE ?eqxx ?n10 ?n01 ?nN ?nI ?andbF.
Qed.

(* C93: generate_pauli_group(n, verbose=True) prints 4^n lines; line k is the word whose j-th letter is the name of the j-th
   factor of the k-th operator (C38_order); without verbose nothing is printed *)
Theorem C93_pauli_names (n : nat) : (0 < n)%N ->
  (generate_pauli_group_p C n%:Z true).1 = mkseq (fun k => Print [:: PStr (String.concat ""
      [seq nth ""%string [:: "I"; "X"; "Y"; "Z"]%string (k %/ 4 ^ (n - j.+1) %% 4) | j <- iota 0 n])]) (4 ^ n) /\
  (generate_pauli_group_p C n%:Z false).1 = [::].
Proof.
move=> n0; have h0 : (n%:Z <= 0) = false by rewrite lez_nat leqNgt n0.
rewrite /generate_pauli_group_p h0 absz_nat.
have E b : (mapW (fun c : seq arr => let! _ := when b (say [:: PStr (pauli_string c)]) in retW (tensor c))
   (product (paulis C) n)).1 = if b then [seq Print [:: PStr (pauli_string c)] | c <- product (paulis C) n] else [::].
  elim: (product _ _) => [|c l IH] /=; first by case: b.
  rewrite /bindW; case: b IH => /=; case: (mapW _ l) => lg [r|e] /= -> //=; by rewrite ?cats0.
rewrite !E; split=> //; apply: (@eq_from_nth _ (Print [::])).
  by rewrite size_map size_product size_mkseq.
move=> k; rewrite size_map size_product /= => hk.
rewrite (nth_map [::]) ?size_product // nth_mkseq // (nth_product (azeros 0 0)) // /pauli_string foldl_append.
congr (Print [:: PStr (String.append _ (String.concat _ _))]).
rewrite /mkseq -map_comp; apply/eq_in_map => j _; by rewrite -[LHS]/(nth _ _ (find _ _)) find_pauli ?dig_lt.
Qed.

(* two qubits: II, IX, ..., ZZ; the seventh word is XY *)
Example C93_pauli_example : nth (Print [::]) (generate_pauli_group_p C 2 true).1 6 = Print [:: PStr "XY"] /\
  size (generate_pauli_group_p C 2 true).1 = 16%N.
Proof. by have [-> _] := @C93_pauli_names 2 isT; rewrite size_mkseq. Qed.

End Props.
