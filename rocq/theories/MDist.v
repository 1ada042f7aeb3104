(* MDist.v -- model of /repo/src/ff/ff_distance_measures.py.
   Numbers are exact: complex entries are elements of CR = R[i] over Coq's reals R, results are reals extended with
   the IEEE values inf, -inf and nan.  Rounding and dtypes are not modelled. *)
Set Warnings "-notation-overridden,-ambiguous-paths".
From Coq Require Import Reals.
From mathcomp Require Import all_ssreflect all_algebra.
From mathcomp Require Import complex.
From mathcomp.zify Require Import zify.
From Verif Require Import Base ArrC MCombinatorics MLib MUtils RealC Info.
Set Implicit Arguments.
Unset Strict Implicit.
Unset Printing Implicit Defensive.
Import Order.Theory GRing.Theory Num.Theory.
Local Open Scope ring_scope.

Local Notation arr := (arr CR).
Local Notation input := (input CR).

(* a float result *)
Inductive ext := Fin of R | PInf | NInf | NaN.
Definition eadd (x y : ext) : ext :=
  match x, y with
  | Fin a, Fin b => Fin (a + b)
  | NaN, _ | _, NaN | PInf, NInf | NInf, PInf => NaN
  | PInf, _ | _, PInf => PInf
  | NInf, _ | _, NInf => NInf
  end.
Definition esum (s : seq ext) : ext := foldr eadd (Fin 0) s.
(* 0.5 * x *)
Definition ehalf (x : ext) : ext := if x is Fin a then Fin (2%:R^-1 * a) else x.
(* x - c for a finite c *)
Definition esubr (x : ext) (c : R) : ext := if x is Fin a then Fin (a - c) else x.

(* np.allclose on two real scalars *)
Definition rclose (a b : R) : bool := `|a - b| <= (10%:R ^+ 8)^-1 + (10%:R ^+ 5)^-1 * `|b|.

(* cast_to_pdf returns an array of floats *)
Definition pdf (x : input) : res (seq R) := let* p := cast_to_pdf x in Ok [seq re z | z <- p].

(* numpy broadcasting of two 1-D arrays *)
Definition broadcast (p q : seq R) : res (seq (R * R)) :=
  if size p == size q then Ok (zip p q)
  else if size p == 1%N then Ok [seq (nth 0 p 0, y) | y <- q]
  else if size q == 1%N then Ok [seq (x, nth 0 q 0) | x <- p]
  else Raise ValueError.

(* scipy.special.entr and rel_entr *)
Definition entr (x : R) : ext :=
  if 0 < x then Fin (- (x * ln x)) else if x == 0 then Fin 0 else NInf.
Definition rel_entr (x y : R) : ext :=
  if (0 < x) && (0 < y) then Fin (x * ln (x / y))
  else if (x == 0) && (0 <= y) then Fin 0 else PInf.

(* scipy.stats.entropy(pk): pk is normalised by its sum (a sum of 0, which gives nan, does not occur: cast_to_pdf
   returns values of sum close to 1) *)
Definition entropy1 (p : seq R) : ext :=
  let s := \sum_(x <- p) x in esum [seq entr (x / s) | x <- p].
(* scipy.stats.entropy(pk, qk): pk normalised, then broadcast against qk, then qk normalised *)
Definition entropy2 (p q : seq R) : res ext :=
  let s := \sum_(x <- p) x in
  let* pq := broadcast [seq x / s | x <- p] q in
  let t := \sum_(z <- pq) z.2 in
  Ok (esum [seq rel_entr z.1 (z.2 / t) | z <- pq]).

(* ff_distance_measures.py:490-535 total_variation_distance *)
Definition total_variation_distance (x y : input) : res R :=
  let* p := pdf x in
  let* q := pdf y in
  let* pq := broadcast p q in
  Ok (2%:R^-1 * \sum_(z <- pq) `|z.1 - z.2|).

(* ff_distance_measures.py:577-630 relative_entropy *)
Definition relative_entropy (x y : input) : res ext :=
  let* p := pdf x in
  let* q := pdf y in
  entropy2 p q.

(* ff_distance_measures.py:633-666 bhattacharyya_coeff; np.sqrt of a negative number is nan *)
Definition esqrt (x : R) : ext := if 0 <= x then Fin (Num.sqrt x) else NaN.
Definition bhattacharyya_coeff (x y : input) : res ext :=
  let* p := pdf x in
  let* q := pdf y in
  let* pq := broadcast p q in
  Ok (esum [seq esqrt (z.1 * z.2) | z <- pq]).

(* ff_distance_measures.py:669-725 jensen_shannon_divergence *)
Definition jensen_shannon_divergence (x y : input) : res ext :=
  let* p := pdf x in
  let* q := pdf y in
  let* pq := broadcast p q in
  let m := [seq 2%:R^-1 * (z.1 + z.2) | z <- pq] in                      (* 720 *)
  let* a := entropy2 p m in
  let* b := entropy2 q m in
  Ok (ehalf (eadd a b)).                                                   (* 723 *)

(* the order a of a Renyi entropy: a number or np.inf *)
Inductive order := Ord of R | OInf.

(* np.max of a non-empty array *)
Definition amax (p : seq R) : R := foldr Num.max (head 0 p) p.

(* ff_distance_measures.py:226-317 renyi_entropy.  For a finite a other than 0 and 1 the norm is
   (sum |p_i|^a)^(1/a); only a > 0 is meant to be modelled (for a < 0 numpy's 0^a is inf, here 0) *)
Definition renyi_entropy (x : input) (a : order) : res ext :=
  let* p := pdf x in
  match a with
  | OInf => if nilp p then Raise ValueError else Ok (Fin (- ln (amax p)))
  | Ord a =>
      if a == 1 then Ok (entropy1 p)
      else if a == 0 then Ok (Fin (ln ((count (fun x => x != 0) p)%:R)))
      else let l_a := rpow (\sum_(x <- p) rpow `|x| a) (a^-1) in
           Ok (Fin (ln l_a * (a / (1 - a))))
  end.

(* ff_distance_measures.py:320-395 linear_entropy; int(np.sqrt(d)) is the integer square root *)
Definition linear_entropy (x : input) : res R :=
  let* p := pdf x in
  let d := size p in
  let sqrt_d := Num.sqrt d%:R in
  let* _ := assertM (rclose (sqrt_d - (Nat.sqrt d)%:R) 0) in               (* 382-384 *)
  let l2_squared := (Num.sqrt (\sum_(x <- p) `|x| ^+ 2)) ^+ 2 in           (* 387 *)
  let sL := 1 - l2_squared in
  let sL_alt := 1 - \sum_(x <- p) x ^+ 2 in
  let* _ := assertM (rclose sL sL_alt) in                                  (* 393 *)
  Ok sL.

(* A - B with numpy broadcasting of square arrays *)
Definition sub_bcast (A B : arr) : res arr :=
  if (nr A == nr B) && (nc A == nc B) then Ok (asub A B)
  else if (nr A == 1%N) && (nc A == 1%N) then Ok (mk (nr B) (nc B) (fun i j => get A 0 0 - get B i j))
  else if (nr B == 1%N) && (nc B == 1%N) then Ok (mk (nr A) (nc A) (fun i j => get A i j - get B 0 0))
  else Raise ValueError.

(* ff_distance_measures.py:538-574 trace_distance *)
Definition trace_distance (x y : input) : res R :=
  let* A := cast_to_density_matrix x in
  let* B := cast_to_density_matrix y in
  let* diff := sub_bcast A B in
  let evals := eigvals (toM (nr diff) (nr diff) diff) in
  Ok (2%:R^-1 * \sum_(z <- evals) re `|z|).

(* np.trace(X @ Y) with X @ Y undefined (ValueError) for incompatible shapes; |Im| < 1e-9, else ValueError; real part *)
Definition real_trace (X Y : arr) : res R :=
  let* P := amul_chk X Y in
  let t := atrace P in
  if `|im t| < (10%:R ^+ 9)^-1 then Ok (re t) else Raise ValueError.

(* ff_distance_measures.py:35-149 stabilizer_distribution; int(np.log2(N)) is the floor of log2 N.
   The printed warning (lines 142-143) is not modelled *)
Definition stabilizer_distribution (x : input) : res (seq R) :=
  let* rho := cast_to_density_matrix x in
  let n_qubits := trunc_log 2 (nr rho) in
  let* pur_rho := real_trace rho rho in                                    (* 112-116 *)
  let d := (2 ^ n_qubits)%:R * pur_rho in                                  (* 111, 117 *)
  let* group := generate_pauli_group CR n_qubits%:Z in                     (* 120 *)
  let* xi := mapM (fun P => let* e := real_trace P rho in Ok (e * e / d)) group in   (* 126-139 *)
  let* _ := assertM (rclose (\sum_(t <- xi) t) 1) in                       (* 145-147 *)
  Ok xi.

(* a real vector as an input array *)
Definition vin (p : seq R) : input := V1 [seq toC x | x <- p].

(* ff_distance_measures.py:152-223 SRE *)
Definition SRE (x : input) (a : order) : res ext :=
  let* rho := cast_to_density_matrix x in
  let d := nr rho in
  let* xi := stabilizer_distribution (V2 rho) in
  if count (fun t => t != 0) xi == 1%N then Ok (Fin 0)                     (* 219-220 *)
  else let* s := renyi_entropy (vin xi) a in Ok (esubr s (ln d%:R)).       (* 223 *)

(* Frobenius norm of an array (np.linalg.norm of a 2-D array), as a real number *)
Definition fro (A : arr) : R := Num.sqrt (\sum_(i < nr A) \sum_(j < nc A) (re `|get A i j|) ^+ 2).

Section Cov.
(* T of scipy.linalg.schur(M) *)
Variable schur : arr -> arr.

(* ff_distance_measures.py:398-487 cov_distribution: the list of np.square(eigenvalues) *)
Definition cov_distribution (x : input) : res (seq CR) :=
  let* rho := cast_to_density_matrix x in
  let n_sites := trunc_log 2 (nr rho) in
  let gammas := jordan_wigner_majoranas CR n_sites in                      (* 460 *)
  let* K := compute_cov_matrix rho (Some n_sites) (Some gammas) in
  let M := ascale (- 'i) K in                                              (* 463 *)
  let M := if rclose (fro (mk (nr M) (nc M) (fun i j => toC (im (get M i j))))) 0   (* 466-467 *)
           then mk (nr M) (nc M) (fun i j => toC (re (get M i j))) else M in
  let* _ := assertM (rclose (fro (aadd M (atr M))) 0) in                   (* 470-472 *)
  let Lc := schur M in                                                     (* 475 *)
  let eigenvalues := flatten [seq [seq get Lc i j | j <- iota i (2 * n_sites - i) & (10%:R ^+ 10)^-1 < re `|get Lc i j|]
                             | i <- iota 0 (2 * n_sites)] in               (* 478-482 *)
  Ok [seq z ^+ 2 | z <- eigenvalues].                                      (* 485 *)

(* np.linalg.norm(pm, k) ** k for a natural number k *)
Definition knorm_pow (pm : seq CR) (k : nat) : R :=
  if k == 0%N then (count (fun z => z != 0) pm)%:R ^+ 0
  else (rpow (\sum_(z <- pm) (re `|z|) ^+ k) (k%:R^-1)) ^+ k.

(* ff_distance_measures.py:728-814 FAF, for a natural number k *)
Definition FAF (x : input) (k : nat) : res R :=
  let* rho := cast_to_density_matrix x in
  let n_sites := trunc_log 2 (nr rho) in
  let* pm := cov_distribution (V2 rho) in
  Ok (n_sites%:R - knorm_pow pm k).
End Cov.
