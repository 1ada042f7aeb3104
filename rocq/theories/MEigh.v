(* MEigh.v -- model of the symplectic eigensolvers of /repo/src/ff/ff_lib.py: eigh_sp (1016-1150),
   eigv_sp (1153-1200), eigm_sp_can (1203-1287) and eigm_sp (1290-1339).
   Numbers are exact (no rounding).  scipy.linalg.schur, np.linalg.eigvalsh and np.argsort are arguments; what is
   assumed of them is stated as contracts in PropEigh1.v.  They are taken not to raise on the inputs they get. *)
Set Warnings "-notation-overridden,-ambiguous-paths".
From mathcomp Require Import all_ssreflect all_algebra.
From Verif Require Import Base ArrC MCombinatorics MLib MUtils.
Set Implicit Arguments.
Unset Strict Implicit.
Unset Printing Implicit Defensive.
Import Order.Theory GRing.Theory Num.Theory.
Local Open Scope ring_scope.

Section Eigh.
Variable C : numClosedFieldType.
Local Notation arr := (arr C).

(* A.real and A.imag *)
Definition are (A : arr) : arr := mk (nr A) (nc A) (fun i j => 'Re (get A i j)).
Definition aim (A : arr) : arr := mk (nr A) (nc A) (fun i j => 'Im (get A i j)).

(* l[p] for a list (1-D array) l and an index array p (indices in range) *)
Definition fancy T (x0 : T) (l : seq T) (p : seq nat) : seq T := [seq nth x0 l k | k <- p].

Section Oracles.
(* [T, Z, _] = scipy.linalg.schur(M, sort=sfunction) with sfunction of lines 1077-1079 *)
Variable schur_sort : arr -> arr * arr.
(* [T, Z] = scipy.linalg.schur(M) *)
Variable schur : arr -> arr * arr.
(* np.linalg.eigvalsh *)
Variable eigvalsh : arr -> seq C.
(* np.argsort of a 1-D array of reals *)
Variable argsort : seq C -> seq nat.

(* ff_lib.py:1115-1121, the matrix Flips; evs_l_mag and evs_a are the two sign patterns.  The test
   np.allclose(np.sign(x), np.sign(y)) is close (sg x) (sg y) *)
Definition eigh_flips (n : nat) (evs_l_mag evs_a : seq C) : arr :=
  foldl (fun F i =>
    if close (Num.sg (nth 0 evs_l_mag i)) (Num.sg (nth 0 evs_a i)) then
      upd (upd (upd (upd F (2 * i)%N (2 * i + 1)%N 1) (2 * i + 1)%N (2 * i)%N 1) (2 * i)%N (2 * i)%N 0)
          (2 * i + 1)%N (2 * i + 1)%N 0
    else F) (aeye (2 * n)) (iota 0 n).

(* ff_lib.py:1092-1130, re-sorting of the Schur vectors by the eigenvalues of A; an index of
   permutation_to_matrix out of range is an IndexError *)
Definition eigh_resort (n : nat) (H L Orth : arr) : res arr :=
  let A := aslice H n n (nr H - n) (nc H - n) in                                    (* 1092 *)
  if allclose A (azeros (nr A) (nc A)) then Ok Orth else                            (* 1098 *)
  let evs_a := eigvalsh A in                                                        (* 1101 *)
  let evs_l := [seq get L (2 * i)%N (2 * i + 1)%N | i <- iota 0 n] in                (* 1102-1105 *)
  let perm_A := argsort [seq `|x| | x <- evs_a] in                                  (* 1108 *)
  let perm_l := argsort [seq `|x| | x <- evs_l] in                                  (* 1109 *)
  let perm := fancy 0%N perm_l perm_A in
  let evs_l_mag := fancy 0 evs_l perm in                                            (* 1112 *)
  let Flips := eigh_flips n evs_l_mag evs_a in                                      (* 1115-1121 *)
  match permutation_to_matrix C [seq Posz k | k <- perm] with                       (* 1124 *)
  | None => Raise IndexError
  | Some Pm => Ok (amul Orth (amul (akron Pm (aeye 2)) Flips))                      (* 1124-1130 *)
  end.

(* ff_lib.py:1138-1143, the phases applied to the columns of U *)
Definition eigh_phases (U : arr) : seq C :=
  [seq (let p := (get U i i)^* in if eps9 C < `|p| then p / `|p| else 1) | i <- iota 0 (nr U)].

(* ff_lib.py:1016-1150 eigh_sp *)
Definition eigh_sp (H : arr) : res (arr * arr) :=
  let n := (nr H %/ 2)%N in                                                         (* 1060 *)
  let Om := build_Omega C n in                                                      (* 1063 *)
  let Od := aadj Om in                                                              (* 1064 *)
  let* OH := amul_chk (ascale 'i Om) H in
  let* ih := amul_chk OH Od in                                                      (* 1067 *)
  let* _ := assertM (allclose (azeros (nr ih) (nc ih)) (aadd ih (atr ih))) in       (* 1070 *)
  let* _ := assertM (allclose ih (are ih)) in                                       (* 1071 *)
  let ih := are ih in                                                               (* 1074 *)
  let LO := schur_sort ih in                                                        (* 1082 *)
  let L := LO.1 in
  let Orth := LO.2 in
  let* _ := assertM (check_canonical_form L) in                                     (* 1085 *)
  let* _ := assertM (allclose (amul Orth (atr Orth)) (aeye (nr Orth))) in           (* 1086 *)
  let* _ := assertM (check_canonical_form (amul (amul (atr Orth) ih) Orth)) in      (* 1087 *)
  let* _ := assertM (allclose Orth (are Orth)) in                                   (* 1088 *)
  let* _ := assertM (allclose (amul (amul Orth L) (atr Orth)) ih) in                (* 1089 *)
  let* Orth := eigh_resort n H L Orth in                                            (* 1092-1130 *)
  let U_o := amul (amul Od Orth) Om in                                              (* 1133 *)
  let U := amul U_o (aadj (build_K C n)) in                                         (* 1134-1135 *)
  let U := amul U (adiag (eigh_phases U)) in                                        (* 1138-1146 *)
  let L := amul (amul (aadj U) H) U in                                              (* 1148 *)
  Ok (L, U).

(* ff_lib.py:1153-1200 eigv_sp; S is the array of lines 1191-1194 *)
Definition eigv_sp (V : arr) : res (arr * arr) :=
  let n := (nr V %/ 2)%N in
  let S := Smat C n in
  let* H := amul_chk S V in                                                         (* 1196 *)
  let* LU := eigh_sp H in                                                           (* 1198 *)
  Ok (amul S LU.1, LU.2).                                                           (* 1200 *)

(* ff_lib.py:1266-1280, the block diagonal matrix of 2x2 blocks x (positive) or id; evs_a_p[0] of an empty list is an
   IndexError *)
Definition can_blocks (n : nat) (evs_a_p : seq C) : res arr :=
  let blk k := if 0 < nth 0 evs_a_p k then pauli_x C else aeye 2 in
  let* _ := item evs_a_p 0 in
  foldM (fun P k => kron_plus P (blk k)) (blk 0%N) (iota 1 (n - 1)).

(* ff_lib.py:1203-1287 eigm_sp_can *)
Definition eigm_sp_can (G : arr) : res (arr * arr) :=
  let n := (nr G %/ 2)%N in                                                         (* 1240 *)
  let* _ := assertM (allclose G (ascale 'i (aim G))) in                             (* 1242 *)
  let iG := aopp (aim G) in                                                         (* 1244 *)
  let O := (schur iG).2 in                                                          (* 1247 *)
  let Om := build_Omega C n in                                                      (* 1252 *)
  let* GO := amul_chk (aadj Om) G in
  let* H := amul_chk GO Om in                                                       (* 1253 *)
  let A := aslice H n n (nr H - n) (nc H - n) in                                    (* 1254 *)
  let* O := (if allclose A (azeros (nr A) (nc A)) then Ok O else                    (* 1256 *)
    let evs_a := eigvalsh A in                                                      (* 1257 *)
    let p := rev (argsort [seq `|x| | x <- evs_a]) in                               (* 1260 *)
    let evs_a_p := fancy 0 evs_a p in                                               (* 1263 *)
    let* P := can_blocks n evs_a_p in                                               (* 1266-1280 *)
    Ok (amul O P)) in                                                               (* 1283 *)
  Ok (amul (amul (atr O) G) O, O).                                                  (* 1285-1287 *)

(* ff_lib.py:1290-1339 eigm_sp *)
Definition eigm_sp (G : arr) : res (arr * arr) :=
  let n := (nr G %/ 2)%N in
  let Om := build_Omega C n in                                                      (* 1328 *)
  let* GO := amul_chk (aadj Om) G in
  let* H := amul_chk GO Om in                                                       (* 1329 *)
  let* LU := eigh_sp H in                                                           (* 1331 *)
  let Orth := amul (amul Om LU.2) (aadj Om) in                                      (* 1334 *)
  Ok (amul (amul (atr Orth) G) Orth, Orth).                                         (* 1337-1339 *)

End Oracles.
End Eigh.
