(* MFormat.v -- model of formatted_output, /repo/src/ff/ff_utils.py 132-152.
   Floats are exact rationals (nan, inf and -0.0 are not modelled); an int is formatted as the float of the same value. *)
Set Warnings "-notation-overridden,-ambiguous-paths".
From Coq Require Import Ascii String.
From mathcomp Require Import all_ssreflect all_algebra.
From Verif Require Import Base.
Set Implicit Arguments.
Unset Strict Implicit.
Unset Printing Implicit Defensive.
Import Order.Theory GRing.Theory Num.Theory.
Local Open Scope string_scope.
Local Open Scope ring_scope.

(* the character of a decimal digit *)
Definition digit (d : nat) : ascii := ascii_of_nat (48 + d).
(* the k lowest decimal digits of n, most significant first *)
Definition dec (k n : nat) : seq nat := [seq (n %/ 10 ^ (k - i.+1) %% 10)%N | i <- iota 0 k].
(* number of decimal digits of n *)
Definition ndigits (n : nat) : nat := (trunc_log 10 n).+1.
Definition show_digits (s : seq nat) : string := string_of_list_ascii [seq digit d | d <- s].

(* round half to even of a / b *)
Definition div_even (a b : nat) : nat :=
  let q := (a %/ b)%N in let r := (a %% b)%N in
  if (2 * r < b)%N then q else if (b < 2 * r)%N then q.+1 else if odd q then q.+1 else q.
(* |x| * 10^p rounded *)
Definition scaled (x : rat) (p : nat) : nat := div_even (`|numq x| * 10 ^ p) `|denq x|.

(* f"{x:.{p}f}" *)
Definition fixed (x : rat) (p : nat) : string :=
  let n := scaled x p in
  let q := (n %/ 10 ^ p)%N in
  append (if x < 0 then "-" else "")
    (append (show_digits (dec (ndigits q) q))
      (if p == 0%N then "" else append "." (show_digits (dec p (n %% 10 ^ p)%N)))).

(* a negative precision is an invalid format specifier *)
Definition format (x : rat) (p : int) : res string := if p is Posz k then Ok (fixed x k) else Raise ValueError.

(* Python objects; PyOther s is any object that is not an int, float or complex, and s = str(obj) *)
Inductive pyobj := PyInt of int | PyFloat of rat | PyComplex of rat & rat | PyOther of string.

(* the literal 1e-10 *)
Definition tiny : rat := (10%:R ^+ 10)^-1.

(* ff_utils.py 132-152 *)
Definition formatted_output (o : pyobj) (precision : int) : res string :=
  match o with
  | PyComplex a b =>                                                    (* 144 *)
    if `|b| < tiny then format a precision                              (* 145-146 *)
    else let* s := format a precision in let* t := format b precision in
         Ok (append s (append " + " (append t "j")))                    (* 148 *)
  | PyFloat x => format x precision                                     (* 150 *)
  | PyInt z => format z%:Q precision                                    (* 150 *)
  | PyOther s => Ok s                                                   (* 152 *)
  end.
