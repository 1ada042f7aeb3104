(* MPrint.v -- model of the messages that the functions print (and of the plots of pfo_algorithm(verbose=True)): every
   function is the computation of MLib.v, MCombinatorics.v, MGraph.v, MDist.v together with the list of its print calls, in
   order.  The text of a number or of an array is not modelled: an event holds the printed value itself. *)
Set Warnings "-notation-overridden,-ambiguous-paths".
From Coq Require Import Reals String.
From mathcomp Require Import all_ssreflect all_algebra.
From mathcomp Require Import complex.
From Verif Require Import Base ArrC MCombinatorics MLib MUtils RealC MDist MGraph MEmbed.
Set Implicit Arguments.
Unset Strict Implicit.
Unset Printing Implicit Defensive.
Import Order.Theory GRing.Theory Num.Theory.
Local Open Scope ring_scope.

Section Out.
Variable C : numClosedFieldType.
Local Notation arr := (arr C).

(* an argument of print *)
Inductive pval :=
  | PStr of string | PNat of nat | PBool of bool | PNum of C
  | PRound of nat & C                 (* np.round(x, k) *)
  | PClean of C                       (* ff_utils.clean(x) *)
  | PArr of arr | PVec of seq C | PShape of nat & nat | PEdges of seq dart.

(* print(...), or a call of plot_planar_embedding: the title and the red arrows *)
Inductive event := Print of seq pval | Plot of seq pval & seq dart.

(* what is printed until the call returns or raises, and its outcome *)
Definition out A := (seq event * res A)%type.
Definition retW A (a : A) : out A := ([::], Ok a).
Definition quiet A (r : res A) : out A := ([::], r).
Definition bindW A B (m : out A) (f : A -> out B) : out B :=
  match m.2 with Ok a => let r := f a in (m.1 ++ r.1, r.2) | Raise e => (m.1, Raise e) end.
Definition say (l : seq pval) : out unit := ([:: Print l], Ok tt).
Definition when (b : bool) (m : out unit) : out unit := if b then m else retW tt.
Fixpoint foldW S A (f : S -> A -> out S) (s : S) (l : seq A) : out S :=
  match l with [::] => retW s | x :: r => bindW (f s x) (fun s' => foldW f s' r) end.
Fixpoint mapW A B (f : A -> out B) (l : seq A) : out (seq B) :=
  match l with
  | [::] => retW [::]
  | x :: r => bindW (f x) (fun y => bindW (mapW f r) (fun ys => retW (y :: ys)))
  end.
End Out.
Arguments retW {C A}. Arguments quiet {C A}. Arguments PStr {C}. Arguments PNat {C}. Arguments PBool {C}.
Arguments PShape {C}. Arguments PEdges {C}.
Notation "'let!' x := m 'in' f" := (bindW m (fun x => f))
  (at level 200, x name, m at level 100, f at level 200, right associativity).

Section Lib.
Variable C : numClosedFieldType.
Local Notation arr := (arr C).
Local Notation out := (out C).
Local Notation S s := (PStr s%string).

(* ff_lib.py:27-46 permutation_to_matrix *)
Definition permutation_to_matrix_p (p : seq int) : out (option arr) :=
  let n := size p in
  foldW (fun acc i =>
    match acc with
    | None => retW None
    | Some m => let v := nth 0 p i in
        if (0 <= v) && (v < n%:Z) then retW (Some (upd m `|v|%N i 1))
        else let! _ := say [:: S "Invalid permutation"] in retW None      (* 44-45 *)
    end) (Some (azeros n n)) (iota 0 n).

(* np.array_equal *)
Definition array_equal (A B : arr) : bool :=
  shp A (nr B) (nc B) && all (fun i => all (fun j => get A i j == get B i j) (iota 0 (nc A))) (iota 0 (nr A)).

Definition paulis : seq arr := [:: aeye 2; pauli_x C; pauli_y C; pauli_z C].
Definition pauli_names : seq string := [:: "I"; "X"; "Y"; "Z"]%string.

(* ff_lib.py:160-167: the name of a combination; every matrix is looked up in the list *)
Definition pauli_string (c : seq arr) : string :=
  foldl (fun s M => String.append s (nth ""%string pauli_names (find (array_equal M) paulis))) ""%string c.

(* ff_lib.py:57-170 generate_pauli_group *)
Definition generate_pauli_group_p (n : int) (verbose : bool) : out (seq arr) :=
  if n <= 0 then quiet (Raise ValueError) else
  mapW (fun c => let t := tensor c in
    let! _ := when verbose (say [:: PStr (pauli_string c)]) in retW t)       (* 159-168 *)
    (product paulis `|n|%N).

(* ff_lib.py:299-345 _perform_rotation *)
Definition perform_rotation_p (M : arr) (alphas : seq arr) (verbose : bool) : out (seq arr) :=
  let n := size alphas in
  mapW (fun j =>
    let! a0 := quiet (item alphas 0) in
    let! _ := when verbose (say [:: S "\nj"; PNat j; S "\n----"]) in          (* 317-318 *)
    foldW (fun b i =>
      let! c := quiet (idx M j i) in
      if `|c| < eps9 C then retW b else
      let! al := quiet (item alphas i) in
      let! b := quiet (iadd b (ascale c al)) in
      let! _ := when verbose (say [:: S "b["; PNat j; S "] += C["; PNat j; S ","; PNat i; S "]  alpha_"; PNat i;
                                      S "= "; PRound 3 c; S " alpha_"; PNat i; S "\n"]) in   (* 326-341 *)
      retW b)
      (azeros (nr a0) (nc a0)) (iota 0 n)) (iota 0 n).

(* ff_lib.py:283-296 *)
Definition rotate_core_p (M : arr) (alphas : seq arr) (left verbose : bool) : out (rotres C) :=
  let n := size alphas in
  let bad := (nr M != n) && (nc M != n) in
  let! _ := when bad (say [:: S "dimensions are incompatible"]) in             (* 285-286 *)
  if bad && ~~ ((n < nr M)%N && (n < nc M)%N) then retW (RotZero C) else
  let M' := if left then aadj M else M in
  let! l := perform_rotation_p M' alphas verbose in retW (Rot l).

(* ff_lib.py:259-296 rotate_operators *)
Definition rotate_operators_p (x y : pyarg C) (left verbose : bool) : out (rotres C) :=
  match x, y with
  | PList alphas, MLib.PArr M => rotate_core_p M alphas left verbose
  | MLib.PArr M, PList alphas => rotate_core_p M alphas left verbose
  | _, _ => quiet (Raise TypeError)
  end.

(* ff_lib.py:630-673 is_symp *)
Definition is_symp_p (U : arr) : out bool :=
  let n := (nr U %/ 2)%N in
  if nr U != nc U then quiet (Raise ValueError) else
  let m := (nr U - n)%N in
  let aa := aslice U 0 0 n n in
  let bb := aslice U 0 n n m in
  let cc := aslice U n 0 m n in
  let dd := aslice U n n m m in
  let! top := quiet (bcast (aeye n) n m) in
  let! bot := quiet (bcast (aeye n) m n) in
  let T := ablock (azeros n n) top bot (azeros m m) in
  if allclose_b aa (aconj dd) && allclose_b cc (aconj bb) then
    if allclose (amul (amul U T) (atr U)) T then retW true
    else let! _ := say [:: S "Error: Canonical form but not symplectic"] in retW false   (* 667 *)
  else
    if allclose (amul (amul U T) (atr U)) T
    then let! _ := say [:: S "Not canonical but still symplectic"] in retW true           (* 670 *)
    else retW false.

(* ff_lib.py:676-715 check_canonical_form *)
Definition check_canonical_form_p (L : arr) : out bool :=
  if (nr L %% 2 != 0)%N then let! _ := say [:: S "Odd dimension for input matrix"] in retW false else
  let n := (nr L %/ 2)%N in
  if (nc L != nr L) || ~~ allclose L (aconj L) || ~~ allclose L (aopp (atr L)) then
    let! _ := say [:: S "Not square, real, and skew-symmetric"] in retW false else
  let M := foldl (fun M j =>
      if (j %% 2 != 0)%N then upd M j (j - 1) (get L j (j - 1)) else upd M j (j + 1) (get L j (j + 1))%N)
    (azeros (nr L) (nc L)) (iota 0 (2 * n)) in
  if ~~ allclose M L then let! _ := say [:: S "Too many non-zero elements"] in retW false else retW true.

(* ff_lib.py:758-794 build_op *)
Definition build_op_p (n : nat) (R : arr) (alphas : seq arr) (verbose direct : bool) : out arr :=
  let! _ := when ((nr R != 2 * n) || (nc R != 2 * n))%N
    (say [:: S "R incorrectly formmatted. Use `build_H` to create R"]) in        (* 774-775 *)
  let! a0 := quiet (item alphas 0) in
  foldW (fun acc i =>
    foldW (fun acc j =>
      let! r := quiet (idx R i j) in
      if `|r| < eps10 C then retW acc else
      let! ai := quiet (item alphas i) in
      let! aj := quiet (item alphas j) in
      let! p := quiet (if direct then amul_chk ai aj else amul_chk (aadj ai) aj) in
      let! acc := quiet (iadd acc (ascale r p)) in
      let! _ := when verbose (let! _ := say [:: S "\nR_op so far:"] in say [:: PArr acc]) in   (* 790-792 *)
      retW acc)
      acc (iota 0 (2 * n)))
    (azeros (nr a0) (nc a0)) (iota 0 (2 * n)).

(* ff_lib.py:718-755 generate_gaussian_state *)
Definition generate_gaussian_state_p (expm : arr -> arr) (n : nat) (H : arr) (alphas : option (seq arr)) :
    out (option arr) :=
  let alphas := match alphas with Some a => a | None => jordan_wigner_alphas C n end in
  let! H_op := (if nr H == (2 * n)%N then let! o := build_op_p n H alphas false false in retW (Some o) else retW None) in
  let H_op := if nr H == (2 ^ n)%N then Some H else H_op in
  match H_op with
  | None =>
      let! _ := say [:: PShape (nr H) (nc H)] in                                   (* 742-750 *)
      let! _ := say [:: S "Invalid Hamiltonian size "; PShape (nr H) (nc H); S "\nShould be dim: "; PNat (2 * n); S " or ";
                          PNat (2 ^ n)] in
      retW None
  | Some op => let rho := expm (aopp op) in retW (Some (ascale (atrace rho)^-1 rho))
  end.

(* numpy's order on complex numbers: real parts, then imaginary parts *)
Definition lexle (x y : C) : bool := ('Re x < 'Re y) || ('Re x == 'Re y) && ('Im x <= 'Im y).

(* ff_lib.py:934-941: the closing report.  np.linalg.matrix_rank (a count of singular values above a tolerance) is the rank,
   np.linalg.eigvals the roots of the characteristic polynomial.  For an empty S the code raises ValueError (a maximum of no
   numbers). *)
Definition report_S (T : arr) : out unit :=
  let! _ := say [:: S "\nAlgebra properties\n"] in
  let! _ := say [:: S "Is symmetric?"; PBool (allclose (azeros (nr T) (nc T)) (asub T (atr T)))] in
  let ev := sort lexle (eigvals (toM (nr T) (nr T) T)) in
  if ev is x :: r then
    let! _ := say [:: S "Rank:"; PNat (\rank (toM (nr T) (nr T) T))] in
    let! _ := say [:: S "Trace:"; PNum (atrace T)] in
    say [:: S "Eigenvalue max,min:"; PNum x; PNum (last x r)]                      (* np.min, np.max of the sorted array *)
  else quiet (Raise ValueError).

(* ff_lib.py:892-943 compute_algebra_S; Id = np.eye(alphas[0].shape[0]).  np.allclose(s_ij * Id, anticomm_ij) of two shapes
   is false when they differ, where numpy broadcasts or raises ValueError *)
Definition algebra_step_p (alphas : seq arr) (a0 : arr) (verbose : bool) (T : arr) (i j : nat) : out arr :=
  let! ai := quiet (item alphas i) in
  let! aj := quiet (item alphas j) in
  let! p := quiet (amul_chk ai aj) in
  let! q := quiet (amul_chk aj ai) in
  let! ac := quiet (iadd p q) in
  if allclose ac (azeros (nr a0) (nc a0)) then retW T else
  let s := get ac 0 0 in
  let! _ := when verbose (let! _ := say [:: S "s_ij="; PNum s] in
                          say [:: S "anticomm_ij.shape"; PShape (nr ac) (nc ac)]) in        (* 922-924 *)
  let! _ := when (~~ allclose (ascale s (aeye (nr a0))) ac)
    (let! _ := say [:: S "Error:"] in
     let! _ := say [:: PVec [seq get ac k k | k <- iota 0 (minn (nr ac) (nc ac))]] in
     say [:: PNum s]) in                                                                   (* 927-930 *)
  retW (upd T i j s).
Definition compute_algebra_S_p (alphas : seq arr) (verbose : bool) : out arr :=
  let m := (2 * (size alphas %/ 2))%N in
  let! a0 := quiet (item alphas 0) in
  let! T := foldW (fun T i => foldW (fun T j => algebra_step_p alphas a0 verbose T i j) T (iota 0 m))
    (azeros m m) (iota 0 m) in
  let! _ := when verbose (report_S T) in
  retW T.

(* ff_lib.py:946-989 is_matchgate *)
Definition is_matchgate_p (M : arr) (verbose : bool) : out bool :=
  if ~~ shp M 4%N 4%N then let! _ := say [:: S "Wrong size - input must be 4x4 matrix"] in retW false else
  let corner := mk 2 2 (fun i j => get M (3 * i) (3 * j))%N in
  let inner := aslice M 1 1 2 2 in
  let di := \det (toM 2 2 inner) in
  let dc := \det (toM 2 2 corner) in
  if close di dc then
    let! _ := when verbose (say [:: S "Satisfies the matchgate condition, det1=det2="; PRound 4 di]) in retW true
  else
    let! _ := when verbose (say [:: S "Not matchgate\n det1="; PRound 4 di; S "; det2="; PRound 4 dc]) in retW false.

(* ff_combinatorics.py:196-212 dt_eigen; LinAlgError cannot occur for exact numbers *)
Definition dt_eigen_p (A : arr) : out (option C) :=
  if nr A != nc A then let! _ := say [:: S "Input matrix must be square."] in retW None
  else retW (Some (foldl (fun acc l => acc * l) 1 (eigvals (toM (nr A) (nr A) A)))).
End Lib.

Section Graph.
Variable C : numClosedFieldType.
Local Notation arr := (arr C).
Local Notation out := (out C).
Local Notation S s := (PStr s%string).

(* ff_graph_theory.py:503-531 find_perfect_matchings_brute *)
Definition find_perfect_matchings_brute_p (L : eqType) (G : graph L) : out (seq (seq (L * L))) :=
  let n := size (gnodes G) in
  if (n %% 2 != 0)%N then retW [::] else
  if (15 < n)%N then let! _ := say [:: S "Warning brute force approach too expensive"] in retW [::] else
  retW [seq c <- combinations (n %/ 2) (gedges G) | size (nodes_in c) == n].

(* ff_graph_theory.py:390-451 complete_face *)
Definition complete_face_p (pfo : arr) (f : face) (verbose : bool) : out (arr * bool) :=
  let! s := quiet (face_sign pfo f) in
  let! _ := when verbose (let! _ := say [:: PEdges s.2] in say [:: S "sign without edge:"; PNum s.1]) in    (* 422-424 *)
  match s.2 with
  | [::] => let! _ := say [:: S "no unassigned edges among:"; PEdges f] in retW (pfo, false)
  | x :: r =>
    let! _ := when (r != [::]) (say [:: S "more than one unassigned edge:"; PEdges s.2]) in                   (* 430-431 *)
    let e := last x r in
    let u := minn e.1 e.2 in let v := maxn e.1 e.2 in
    let p := if s.1 == -1 then prefix C e else -1 * prefix C e in
    let! a := quiet (upd_chk pfo u v p) in
    let! b := quiet (upd_chk a v u p) in retW (b, true)
  end.

(* nx.check_planarity: which graphs nx.planar_layout accepts.  Its NetworkXException on the others is written
   NetworkXPointlessConcept here (a subclass of it). *)
Variable planar : graph nat_eqType -> bool.
Definition plot (title : seq (pval C)) G (pfo : option arr) : out unit :=
  match plot_planar_embedding (planar G) G pfo with
  | Ok (Some s) => ([:: Plot title s], Ok tt)
  | Ok None => quiet (Raise NetworkXPointlessConcept)
  | Raise e => quiet (Raise e)
  end.

Definition areal (A : arr) : arr := mk (nr A) (nc A) (fun i j => 'Re (get A i j)).

(* ff_graph_theory.py:614-622 *)
Definition leaf_step_p G F (verbose : bool) (s : arr * graph nat_eqType) (leaf : nat) : out (arr * graph nat_eqType) :=
  if (leaf < size F)%N then
    let f := nth [::] F leaf in
    let! r := complete_face_p s.1 f false in
    let! _ := when verbose (plot [:: S "Face"; PNat leaf; PEdges f] G (Some (areal r.1))) in
    retW (r.1, remove_node s.2 leaf)
  else quiet (Raise IndexError).

(* ff_graph_theory.py:607-622 *)
Fixpoint leaf_loop_p G F (root : nat) (verbose : bool) (fuel : nat) (A : arr) (H : graph nat_eqType) : out arr :=
  if (size (gnodes H) <= 1)%N then retW A else
  match fuel with
  | 0 => quiet (Raise OutOfFuel)
  | fuel'.+1 =>
    let leaves := [seq x <- gnodes H | (degree H x == 1%N) && (x != root)] in
    if leaves is [::] then retW A else
    let! s := foldW (leaf_step_p G F verbose) (A, H) leaves in
    leaf_loop_p G F root verbose fuel' s.1 s.2
  end.

(* ff_graph_theory.py:534-634 pfo_algorithm; print(H) shows the numbers of nodes and edges *)
Definition pfo_algorithm_p fuel G (w : weights C nat_eqType) (X : nxinfo) (verbose : bool) : out arr :=
  let T := nx_tree X in
  let! _ := when verbose (plot [:: S "T"] G (Some (ascale (- 10%:R) (adjacency_matrix T w)))) in     (* 554-556 *)
  let orientation := ascale (99%:R * 'i) (adjacency_matrix G w) in
  let! oF := quiet (faces fuel G (Some (nx_emb X)) None (nx_outer X)) in
  let F := odflt [::] oF in
  let H := dual_graph_H G F T in
  let! _ := when verbose (let! _ := plot [:: S "H"] H None in
                          let! _ := say [:: PNat (size F)] in
                          foldW (fun _ i => say [:: S "F["; PNat i; S "]"; PEdges (nth [::] F i)]) tt
                                (iota 0 (minn 5 (size F)))) in                                         (* 572-576 *)
  let! b := quiet (is_tree H) in
  let! _ := when (~~ b) (say [:: S "Graph with"; PNat (size (gnodes H)); S "nodes and"; PNat (size (gedges H)); S "edges"]) in
  let! _ := quiet (assertM b) in
  let! A := quiet (orient_tree orientation T) in
  let! _ := when verbose (plot [::] G (Some (areal A))) in                                             (* 589-590 *)
  let root := (\max_(x <- gnodes H) x)%N in
  let! A := leaf_loop_p G F root verbose (size (gnodes H)) A H in
  let! _ := say (if (10%:R ^+ 16)^-1 < \sum_(i < nr A) \sum_(j < nc A) 'Im (get A i j)
                   then [:: S "Incomplete pfo"] else [:: S "Complete pfo"]) in                         (* 624-627 *)
  let pfo := areal A in
  let! _ := when verbose (plot [:: S "Constructed PFO"] G (Some pfo)) in                                (* 631-632 *)
  retW pfo.
End Graph.

(* ff_distance_measures.py:35-149 stabilizer_distribution *)
Definition stabilizer_distribution_p (x : input CR) : out CR (seq R) :=
  let! rho := quiet (cast_to_density_matrix x) in
  let n_qubits := trunc_log 2 (nr rho) in
  let! pur_rho := quiet (real_trace rho rho) in
  let d := (2 ^ n_qubits)%:R * pur_rho in
  let! group := quiet (generate_pauli_group CR n_qubits%:Z) in
  let! xi := quiet (mapM (fun P => let* e := real_trace P rho in Ok (e * e / d)) group) in
  let! _ := when (~~ rclose (\sum_(t <- xi) t) 1)
    (say [:: PStr "Warning: stabilizer distribution sum ="%string; PClean (toC (\sum_(t <- xi) t))]) in     (* 142-143 *)
  let! _ := quiet (assertM (rclose (\sum_(t <- xi) t) 1)) in
  retW xi.
