(* MClean.v -- model of clean, print_custom and _print, /repo/src/ff/ff_utils.py 14-129, over the real numbers *)
From Coq Require Import Reals ZArith Lra Lia List String.
From Verif Require Import Base.
Import ListNotations.
Set Implicit Arguments.
Local Open Scope R_scope.

(* 10 ** k *)
Definition p10 (k : Z) : R := powerRZ 10 k.

(* round half to even (numpy rint) *)
Definition rnd (x : R) : Z :=
  let f := Int_part x in let d := frac_part x in
  if Rlt_dec d (1 / 2) then f else if Rlt_dec (1 / 2) d then (f + 1)%Z
  else if Z.even f then f else (f + 1)%Z.
(* np.round(x, k) : rint(x * 10^k) / 10^k *)
Definition np_round (x : R) (k : Z) : R := IZR (rnd (x * p10 k)) / p10 k.

Definition cplx := (R * R)%type.
Definition cround (z : cplx) (k : Z) : cplx := (np_round (fst z) k, np_round (snd z) k).
Definition cabs (z : cplx) : R := sqrt (fst z * fst z + snd z * snd z).

(* the argument `threshold`: a Python int or a float *)
Inductive threshold := TInt (k : Z) | TFlt (t : R).

(* Python objects reaching clean.  Arrays and (nested) lists of numbers carry their shape, a flag "complex dtype"
   and the entries in C order (imaginary parts are 0 when the flag is false).  ONpInt is a numpy integer scalar,
   which is not an instance of Python's int. *)
Inductive obj :=
| OList (shape : list nat) (cx : bool) (l : list cplx)
| OArr (shape : list nat) (cx : bool) (l : list cplx)
| OStr (s : string)
| OInt (z : Z)
| OFloat (x : R)
| OCplx (z : cplx)
| ONpInt (z : Z)
| OOther.

(* obj[np.abs(obj) < threshold] = 0 *)
Definition zero_small (t : R) (l : list cplx) : list cplx :=
  map (fun z => if Rlt_dec (cabs z) t then (0, 0) else z) l.

Definition all_small_im (t : R) (l : list cplx) : bool :=
  forallb (fun z => if Rlt_dec (Rabs (snd z)) t then true else false) l.

Section Clean.
(* parse s = Some x when s.replace(".", "", 1).isnumeric() and float(s) = x (lines 108-110);  show = str of a float *)
Variable parse : string -> option R.
Variable show : R -> string.

(* lines 80-85: number of digits and threshold; log10 of a non-positive float has no rounding
   (numpy gives -inf / nan and round raises: the class of that exception is simplified to ValueError) *)
Definition digits (th : threshold) : res (Z * R) :=
  match th with
  | TInt k => Ok (k, p10 (- k))
  | TFlt t => if Rlt_dec 0 t then Ok ((- rnd (ln t / ln 10))%Z, t) else Raise ValueError
  end.

(* ff_utils.py 66-129: clean(obj, threshold) *)
Definition clean (o : obj) (th : threshold) : res obj :=
  match digits th with
  | Raise e => Raise e
  | Ok (k, t) =>
    match o with
    | OList sh cx l =>                                                   (* 87-93 *)
        Ok (OList sh cx (zero_small t (map (fun z => cround z k) l)))
    | OArr sh cx l =>                                                    (* 95-105 *)
        if all_small_im t l then Ok (OArr sh false (map (fun z => (np_round (fst z) k, 0)) l))
        else Ok (OArr sh cx (zero_small t (map (fun z => cround z k) l)))
    | OStr s =>                                                          (* 107-115 *)
        match parse s with Some x => Ok (OStr (show (np_round x k))) | None => Ok (OStr s) end
    | OInt z => Ok (ONpInt (rnd (np_round (IZR z) k)))                   (* 117-118: a numpy integer *)
    | OFloat x => Ok (OFloat (np_round x k))                             (* 117-118 *)
    | OCplx z =>                                                         (* 120-127 *)
        if Rlt_dec (Rabs (snd z)) t then Ok (OFloat (np_round (fst z) k)) else Ok (OCplx (cround z k))
    | ONpInt _ | OOther => Raise TypeError                               (* 128-129 *)
    end
  end.
End Clean.

(* ------------------------------------------------------------------ *)
(* print_custom: the only global state is numpy's print precision         *)
(* A step reads and writes the precision and may raise; a step on an object may call user code (__repr__, __array__) *)
Section Print.
Variable prec : Type.
Definition step (A : Type) := prec -> res A * prec.

Definition sbind A B (m : step A) (f : A -> step B) : step B := fun p =>
  match m p with (Ok a, p') => f a p' | (Raise e, p') => (Raise e, p') end.
Definition sret A (a : A) : step A := fun p => (Ok a, p).
(* try: m  except (ValueError, TypeError): h *)
Definition try_except (m h : step unit) : step unit := fun p =>
  match m p with
  | (Raise ValueError, p') => h p'
  | (Raise TypeError, p') => h p'
  | r => r
  end.
(* try: m  finally: f  (an exception in f replaces the outcome) *)
Definition try_finally (m f : step unit) : step unit := fun p =>
  match m p with (r, p') => match f p' with (Ok _, p'') => (r, p'') | (Raise e, p'') => (Raise e, p'') end end.

Definition get_precision : step prec := fun p => (Ok p, p).
(* np.set_printoptions(precision=q): rejects an invalid q without changing anything *)
Variable valid : prec -> bool.
Definition set_precision (q : prec) : step unit := fun p =>
  if valid q then (Ok tt, q) else (Raise TypeError, p).

Variables obj val : Type.
Variable to_array : obj -> step val.          (* val = np.array(obj) *)
Variable drop_imag : val -> step val.         (* lines 46-49 *)
Variable clean_print : val -> prec -> step unit.   (* print(clean(val, k)) *)
Variable print_obj : obj -> step unit.        (* print(obj) *)
Variable is_number : obj -> bool.             (* isinstance(obj, (int, float, complex, list, ndarray, matrix)) *)

(* ff_utils.py 30-63 *)
Definition _print (o : obj) (k : prec) : step unit :=
  sbind get_precision (fun p =>                                          (* 41 *)
  try_finally
    (try_except
      (sbind (to_array o) (fun v => sbind (drop_imag v) (fun v =>        (* 44-49 *)
       sbind (set_precision k) (fun _ => clean_print v k))))             (* 52-55 *)
      (print_obj o))                                                     (* 57-59 *)
    (set_precision p)).                                                  (* 61-63 *)

(* ff_utils.py 14-27 *)
Definition print_custom (o : obj) (k : prec) : step unit :=
  if is_number o then _print o k else print_obj o.
End Print.
