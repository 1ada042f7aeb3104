(* MRandom.v -- model of the random samplers of /repo/src/ff/ff_lib.py (414-509) and of
   /repo/src/ff/ff_random_states.py.
   Numbers are exact elements of a numClosedFieldType.  The global numpy generator is a record `gen` of samplers on an
   abstract state; scipy's expm, logm and numpy's qr are arguments.  random_CHP_state (158-219) takes the vector
   produced by the stim package as an argument. *)
Set Warnings "-notation-overridden,-ambiguous-paths".
From mathcomp Require Import all_ssreflect all_algebra.
From mathcomp.zify Require Import zify.
From Verif Require Import Base ArrC MCombinatorics MLib MUtils.
Set Implicit Arguments.
Unset Strict Implicit.
Unset Printing Implicit Defensive.
Import Order.Theory GRing.Theory Num.Theory.
Local Open Scope ring_scope.

(* a Python argument that is an int or something else *)
Inductive pynum := PInt of int | PNotInt.

Section MRandom.
Variable C : numClosedFieldType.
Local Notation arr := (arr C).

(* numpy's global generator: its states, np.random.seed(s) for an admissible s, and the samplers the code uses.
   special_ortho_group.rvs and unitary_group.rvs (scipy) draw from the same global state. *)
Record gen := Gen {
  st : Type;
  g_seed : int -> st;
  g_randn : nat -> nat -> st -> arr * st;        (* np.random.randn(m, n) *)
  g_ortho : nat -> st -> arr * st;               (* special_ortho_group.rvs(dim) *)
  g_unitary : nat -> st -> arr * st;             (* unitary_group.rvs(dim) *)
  g_dirichlet : nat -> st -> seq C * st;         (* np.random.dirichlet(np.ones(m)) *)
  g_exponential : st -> C * st;                  (* np.random.exponential(1.0) *)
  g_randint : nat -> st -> nat * st              (* np.random.randint(m), m > 0 *)
}.

Arguments g_randn : clear implicits.
Arguments g_ortho : clear implicits.
Arguments g_unitary : clear implicits.
Arguments g_dirichlet : clear implicits.
Arguments g_exponential : clear implicits.
Arguments g_randint : clear implicits.

Variable G : gen.

(* computations that use the global generator: the outcome and the generator state afterwards *)
Definition rnd T := st G -> res T * st G.
Definition ret T (x : T) : rnd T := fun s => (Ok x, s).
Definition lift T (m : res T) : rnd T := fun s => (m, s).
Definition rbind A B (m : rnd A) (f : A -> rnd B) : rnd B :=
  fun s => match m s with (Ok a, s') => f a s' | (Raise e, s') => (Raise e, s') end.
Definition sample T (f : st G -> T * st G) : rnd T := fun s => let p := f s in (Ok p.1, p.2).

Local Notation "'do!' x := m 'in' f" := (rbind m (fun x => f))
  (at level 200, x name, m at level 100, f at level 200, right associativity).

(* if seed is not None: np.random.seed(seed); legacy seeding rejects integers outside [0, 2**32 - 1] *)
Definition seed_opt (seed : option int) : rnd unit :=
  match seed with
  | None => ret tt
  | Some z => fun s => if (0 <= z) && (z < 2%:Z ^+ 32) then (Ok tt, g_seed G z) else (Raise ValueError, s)
  end.

(* the checks "isinstance(n, int)" and "n > 0" at the head of every sampler of ff_random_states.py (76-80, 136-140,
   204-210, 259-265, 328-334, 389-395, 456-462, 535-541) *)
Definition check_n (n : pynum) : res nat :=
  match n with
  | PNotInt => Raise TypeError
  | PInt z => if z <= 0 then Raise ValueError else Ok `|z|%N
  end.

(* np.linalg.norm of a 2-D array (Frobenius) *)
Definition fro (A : arr) : C := sqrtC (\sum_(i < nr A) \sum_(j < nc A) `|get A i j| ^+ 2).

(* zero_state / psi: the column with a 1 in row 0 *)
Definition zero_state (n : nat) : arr := mk (2 ^ n) 1 (fun i _ => (i == 0%N)%:R).

Section Routines.
Variables (expm logm : arr -> arr).

(* special_ortho_group.rvs(dim=d): d <= 1 is a ValueError *)
Definition ortho (d : nat) : rnd arr :=
  if (d <= 1)%N then lift (Raise ValueError) else sample (g_ortho G d).

(* ff_lib.py 414-449: random_FF_rotation(n_sites, seed, returnH, returnOrb) *)
Definition random_FF_rotation (n : nat) (seed : option int) (returnH returnOrb : bool) : rnd arr :=
  do! _ := seed_opt seed in                                            (* 427-428 *)
  do! randO := ortho (2 * n) in                                        (* 430 *)
  let Omega := build_Omega C n in                                      (* 432 *)
  do! X := lift (amul_chk (aadj Omega) randO) in                       (* 434 *)
  do! Cm := lift (amul_chk X Omega) in
  do! b := lift (is_symp Cm) in                                        (* 435 *)
  do! _ := lift (assertM b) in
  if returnOrb then ret Cm else                                        (* 437-438 *)
  let z := - 'i in                                                     (* 440 *)
  let h := ascale z^-1 (aopp (logm Cm)) in                             (* 441 *)
  let H := ascale 2%:R^-1 (aopp h) in                                  (* 442 *)
  do! G_op := lift (build_op n H (jordan_wigner_alphas C n) false) in  (* 444 *)
  if returnH then ret G_op else                                        (* 446-447 *)
  ret (expm (ascale (- 'i) G_op)).                                     (* 449 *)

(* ff_lib.py 512-538 with its draws: random_H_generator(n_sites, fixedN, seed) *)
Definition draw_H_generator (n : nat) (fixedN : bool) (seed : option int) : rnd arr :=
  do! _ := seed_opt seed in                                            (* 525-526 *)
  do! a1 := sample (g_randn G n n) in                                  (* 528-531 *)
  do! a2 := sample (g_randn G n n) in
  do! z1 := sample (g_randn G n n) in
  do! z2 := sample (g_randn G n n) in
  lift (random_H_generator n fixedN a1 a2 z1 z2).

(* rho / np.trace(rho) (a zero trace, nan in numpy, is not modelled; it cannot occur for Hermitian H_op) *)
Definition normalise (rho : arr) : arr := ascale (atrace rho)^-1 rho.

(* ff_lib.py 452-509: random_FF_state(n_sites, fixedN, seed, returnH, pure); the second component is H_op, returned
   when returnH is set *)
Definition random_FF_state (n : nat) (fixedN : bool) (seed : option int) (returnH pure : bool) :
    rnd (arr * option arr) :=
  do! _ := seed_opt seed in                                            (* 470-471 *)
  if pure then
    do! W := random_FF_rotation n seed false false in                  (* 475 *)
    do! psi := lift (amul_chk W (zero_state n)) in                     (* 476-478 *)
    do! _ := lift (assertM (close 1 (fro psi))) in                     (* 481 *)
    if returnH then                                                    (* 483-488 *)
      do! H_op := random_FF_rotation n seed true false in
      ret (psi, Some H_op)
    else ret (psi, None)
  else
  do! H_op := (if fixedN                                               (* 492-498 *)
    then do! H := draw_H_generator n true seed in lift (build_op n H (jordan_wigner_alphas C n) false)
    else random_FF_rotation n seed true false) in
  do! beta := sample (g_exponential G) in                              (* 501 *)
  let rho := normalise (expm (ascale (- beta) H_op)) in                (* 502-503 *)
  ret (rho, if returnH then Some H_op else None).                      (* 506-509 *)

(* ff_random_states.py 42-93: random_qubit_state(n, seed) *)
Definition random_qubit_state (n : pynum) (seed : option int) : rnd arr :=
  do! n := lift (check_n n) in                                         (* 76-80 *)
  do! _ := seed_opt seed in                                            (* 82-83 *)
  do! s := sample (g_dirichlet G (2 ^ n)) in                           (* 86 *)
  do! U := sample (g_unitary G (2 ^ n)) in                             (* 89 *)
  do! US := lift (amul_chk U (adiag s)) in                             (* 91 *)
  do! USU := lift (amul_chk US (aadj U)) in
  lift (cast_to_density_matrix (V2 USU)).

(* ff_random_states.py 96-155: random_qubit_pure_state(n, seed) *)
Definition random_qubit_pure_state (n : pynum) (seed : option int) : rnd arr :=
  do! n := lift (check_n n) in                                         (* 136-140 *)
  do! _ := seed_opt seed in                                            (* 142-143 *)
  do! U := sample (g_unitary G (2 ^ n)) in                             (* 146 *)
  do! psi := lift (amul_chk U (zero_state n)) in                       (* 147-150 *)
  do! _ := lift (assertM (close 1 (fro psi))) in                       (* 153 *)
  ret psi.

(* ff_random_states.py 158-219: random_CHP_state(n_qubits); wf n is the 1-D state vector of the random stim tableau *)
Definition random_CHP_state (wf : nat -> seq C) (n : pynum) : res arr :=
  let* n := check_n n in Ok (col_of (wf n)).

(* ff_random_states.py 222-285: random_FF_state_randH(n_sites, seed) *)
Definition random_FF_state_randH (n : pynum) (seed : option int) : rnd arr :=
  do! n := lift (check_n n) in                                         (* 259-265 *)
  do! _ := seed_opt seed in                                            (* 267-268 *)
  do! a1 := sample (g_randn G n n) in                                  (* 270-273 *)
  do! a2 := sample (g_randn G n n) in
  do! z1 := sample (g_randn G n n) in
  do! z2 := sample (g_randn G n n) in
  let A := aadd a1 (ascale 'i a2) in
  let Z := aadd z1 (ascale 'i z2) in
  let A := aadd A (aadj A) in                                          (* 274 *)
  let Z := asub Z (atr Z) in                                           (* 275 *)
  let rescale := 2%:R ^ (2%:Z - n%:Z) in                               (* 277 *)
  do! V := lift (build_V n A (Some Z)) in                              (* 278 *)
  let Gm := ascale rescale V in
  do! H_op := lift (build_op n Gm (jordan_wigner_alphas C n) true) in  (* 280 *)
  ret (normalise (expm (aopp H_op))).                                  (* 282-285 *)

(* ff_random_states.py 288-352: random_FF_state_rotPDF(n_sites, returnS, seed) *)
Definition random_FF_state_rotPDF (n : pynum) (returnS : bool) (seed : option int) : rnd (arr * option (seq C)) :=
  do! n := lift (check_n n) in                                         (* 328-334 *)
  do! _ := seed_opt seed in                                            (* 336-337 *)
  do! W := random_FF_rotation n None false false in                    (* 339 *)
  do! WW := lift (amul_chk W (aadj W)) in                              (* 341-343 *)
  do! _ := lift (assertM (allclose WW (aeye (2 ^ n)))) in
  do! s := sample (g_dirichlet G (2 ^ n)) in                           (* 345 *)
  do! WS := lift (amul_chk W (adiag s)) in                             (* 347 *)
  do! rho := lift (amul_chk WS (aadj W)) in
  ret (rho, if returnS then Some s else None).                         (* 349-352 *)

(* ff_random_states.py 355-409: random_FF_pure_state_W0(n_sites, seed) *)
Definition random_FF_pure_state_W0 (n : pynum) (seed : option int) : rnd arr :=
  do! n := lift (check_n n) in                                         (* 389-395 *)
  do! _ := seed_opt seed in                                            (* 397-398 *)
  do! W := random_FF_rotation n seed false false in                    (* 401 *)
  do! psi := lift (amul_chk W (zero_state n)) in                       (* 402-404 *)
  do! _ := lift (assertM (close 1 (fro psi))) in                       (* 407 *)
  ret psi.

(* K = np.append(np.ones(N), np.zeros(n_sites - N)) *)
Definition Kvec (n N : nat) : seq nat := nseq N 1%N ++ nseq (n - N) 0%N.

(* for j in np.flip(range(n)): if K[j] == 1: psi = alphas[j] @ psi *)
Definition fill_modes (n : nat) (K : seq nat) (alphas : seq arr) (psi : arr) : res arr :=
  foldM (fun psi j =>
    if nth 0%N K j == 1%N then let* a := item alphas j in amul_chk a psi else Ok psi) psi (rev (iota 0 n)).

(* seed=seed + 1 if seed is not None else None *)
Definition next_seed (seed : option int) : option int := omap (fun z => z + 1) seed.

(* ff_random_states.py 412-489: random_FF_pure_state_WN(n_sites, N, seed) *)
Definition random_FF_pure_state_WN (n : pynum) (N : option pynum) (seed : option int) : rnd arr :=
  do! n := lift (check_n n) in                                         (* 456-462 *)
  do! _ := lift (match N with                                          (* 464-465 *)
    | Some (PInt z) => if (z < 0) || (n%:Z < z) then Raise ValueError else Ok tt
    | Some PNotInt => Raise ValueError
    | None => Ok tt end) in
  do! _ := seed_opt seed in                                            (* 467-468 *)
  do! N := (match N with                                               (* 470-471 *)
    | Some (PInt z) => ret `|z|%N
    | _ => sample (g_randint G n.+1) end) in
  let K := Kvec n N in                                                 (* 473 *)
  let alphas := jordan_wigner_alphas C n in                            (* 475 *)
  do! psi := lift (fill_modes n K alphas (zero_state n)) in            (* 478-483 *)
  do! W := random_FF_rotation n (next_seed seed) false false in        (* 486 *)
  lift (amul_chk W psi).                                               (* 487-489 *)

(* ff_random_states.py 571-576: PP = Id; for i: Pi = Id - a_i @ a_i^H; PP = PP @ Pi *)
Definition vac_projector (n : nat) (alphas : seq arr) : res arr :=
  let Id := aeye (2 ^ n) in
  foldM (fun PP i =>
    let* a := item alphas i in
    let* p := amul_chk a (aadj a) in
    amul_chk PP (asub Id p)) Id (iota 0 n).

(* ff_random_states.py 492-588: random_FF_pure_state_CN(n_sites, seed).  A zero norm of Y or of PP @ Y (nan in numpy)
   is not modelled. *)
Definition random_FF_pure_state_CN (n : pynum) (seed : option int) : rnd arr :=
  do! n := lift (check_n n) in                                         (* 535-541 *)
  do! _ := seed_opt seed in                                            (* 543-544 *)
  do! N := sample (g_randint G n.+1) in                                (* 546 *)
  let K := Kvec n N in                                                 (* 548 *)
  do! Cm := random_FF_rotation n (next_seed seed) false true in        (* 551-553 *)
  do! CC := lift (amul_chk Cm (aadj Cm)) in                            (* 555-557 *)
  do! _ := lift (assertM (allclose CC (aeye (2 * n)))) in
  do! rot := lift (rotate_operators (PArr Cm) (PList (jordan_wigner_alphas C n)) false) in   (* 559 *)
  do! rand_alphas := lift (match rot with Rot l => Ok l | RotZero => Raise TypeError end) in
  do! S := lift (compute_algebra_S (jordan_wigner_alphas C n)) in      (* 563 *)
  do! Sr := lift (compute_algebra_S rand_alphas) in                    (* 564 *)
  do! _ := lift (assertM (allclose S Sr)) in                           (* 565 *)
  do! Y := sample (g_randn G (2 ^ n) 1) in                             (* 568 *)
  let Y := ascale (fro Y)^-1 Y in                                      (* 569 *)
  do! PP := lift (vac_projector n rand_alphas) in                      (* 571-576 *)
  do! vac := lift (amul_chk PP Y) in                                   (* 578 *)
  let vac := ascale (fro vac)^-1 vac in                                (* 579 *)
  lift (fill_modes n K rand_alphas vac).                               (* 582-588 *)

End Routines.

(* ------------------------------------------------------------------ *)
(* vectors and paths                                                   *)
(* ------------------------------------------------------------------ *)

(* v = np.asarray(v); if len(v.shape) == 1: v = v.reshape(-1, 1) *)
Definition as_column (x : input C) : arr := match x with V1 v => col_of v | V2 A => A end.

(* result of get_orthogonal_vectors: a 2-D array or np.array([]) *)
Inductive orth_res := OArr of arr | OEmpty.

(* np.hstack((A, B)) of two 2-D arrays *)
Definition hstack (A B : arr) : res arr :=
  if nr A == nr B then Ok (mk (nr A) (nc A + nc B) (fun i j => if (j < nc A)%N then get A i j else get B i (j - nc A)))
  else Raise ValueError.

(* ff_random_states.py 591-652: get_orthogonal_vectors(v); qr A is the factor Q of np.linalg.qr(A) *)
Definition get_orthogonal_vectors (qr : arr -> arr) (x : input C) : res orth_res :=
  let v := as_column x in                                              (* 626-628 *)
  let n := nr v in                                                     (* 630 *)
  if (n < 2)%N then Ok OEmpty else                                     (* 632-633 *)
  let v_norm := fro v in                                               (* 636 *)
  if close v_norm 0 then Ok (OArr (aeye n)) else                       (* 637-639 *)
  let v_hat := ascale v_norm^-1 v in                                   (* 641 *)
  let* A := hstack v_hat (aslice (aeye n) 0 1 n (n - 1)) in            (* 644 *)
  let Q := qr A in                                                     (* 647 *)
  let* B := hstack v_hat (aslice Q 0 1 (nr Q) (nc Q - 1)) in           (* 650 *)
  Ok (OArr B).

(* np.reshape(W[:, i], (n, 1)) *)
Definition column_at (W : orth_res) (i n : nat) : res arr :=
  match W with
  | OEmpty => Raise IndexError
  | OArr A => if (nc A <= i)%N then Raise IndexError
              else if nr A != n then Raise ValueError else Ok (aslice A 0 i n 1)
  end.

(* W @ W.conj().T (an empty 1-D array gives a scalar; never reached) *)
Definition gram (W : orth_res) : res arr :=
  match W with OEmpty => Raise ValueError | OArr A => amul_chk A (aadj A) end.

(* ff_random_states.py 655-742: build_unitary_path(w, v); svdproj U is V_svd @ Wh of np.linalg.svd(U).  Vectors of
   norm 0 (nan in numpy) are not modelled. *)
Definition build_unitary_path (expm logm qr svdproj : arr -> arr) (w v : input C) : res (C -> arr) :=
  let w := as_column w in let v := as_column v in                      (* 696-702 *)
  let w := ascale (fro w)^-1 w in                                      (* 704 *)
  let v := ascale (fro v)^-1 v in                                      (* 705 *)
  let n := maxn (nr w) (nc w) in                                       (* 707 *)
  let* W := get_orthogonal_vectors qr (V2 w) in                        (* 710 *)
  let* V := get_orthogonal_vectors qr (V2 v) in                        (* 711 *)
  let* U := foldM (fun U i =>                                          (* 713-718 *)
      let* v_in := column_at W i n in
      let* v_out := column_at V i n in
      let* p := amul_chk v_out (aadj v_in) in Ok (aadd U p)) (azeros n n) (iota 0 n) in
  let* WW := gram W in                                                 (* 720 *)
  let* _ := assertM (allclose WW (aeye n)) in
  let* VV := gram V in                                                 (* 721 *)
  let* _ := assertM (allclose VV (aeye n)) in
  let U := if allclose (amul U (aadj U)) (aeye n) then U else svdproj U in   (* 723-726 *)
  let* _ := assertM (allclose (amul U (aadj U)) (aeye n)) in           (* 728 *)
  let H := ascale 'i (logm U) in                                       (* 731 *)
  let* _ := assertM (allclose (asub H (aadj H)) (azeros n n)) in       (* 733-735 *)
  Ok (fun t => amul (expm (ascale t (ascale (- 'i) H))) w).            (* 737-742 *)

(* values of build_linear_path: an array of numbers, or an array of nan (0/0) *)
Inductive numarr := Num of arr | NaN.

(* numpy broadcasting of a sum of two 2-D arrays *)
Definition badd (A B : arr) : res arr :=
  if [&& (nr A == nr B) || (nr A == 1%N) || (nr B == 1%N) & (nc A == nc B) || (nc A == 1%N) || (nc B == 1%N)]
  then Ok (mk (if nr A == 1%N then nr B else nr A) (if nc A == 1%N then nc B else nc A)
              (fun i j => bget A i j + bget B i j))
  else Raise ValueError.

(* ff_random_states.py 745-800: build_linear_path(w, v) applied to s *)
Definition build_linear_path (w v : input C) (s : C) : res numarr :=
  let w := as_column w in let v := as_column v in                      (* 786-792 *)
  let wh := ascale (fro w)^-1 w in                                     (* 794 *)
  let vh := ascale (fro v)^-1 v in                                     (* 795 *)
  let* x := badd (ascale s vh) (ascale (1 - s) wh) in                  (* 797-798 *)
  if (fro w == 0) || (fro v == 0) || (fro x == 0) then Ok NaN
  else Ok (Num (ascale (fro x)^-1 x)).

End MRandom.
Arguments g_randn {C} g _ _ _.
Arguments g_ortho {C} g _ _.
Arguments g_unitary {C} g _ _.
Arguments g_dirichlet {C} g _ _.
Arguments g_exponential {C} g _.
Arguments g_randint {C} g _ _.

Notation "'do!' x := m 'in' f" := (rbind m (fun x => f))
  (at level 200, x name, m at level 100, f at level 200, right associativity).
