(* PropFormat.v -- property C78: formatted_output *)
Set Warnings "-notation-overridden,-ambiguous-paths".
From Coq Require Import Ascii String.
From mathcomp Require Import all_ssreflect all_algebra.
From mathcomp.zify Require Import zify.
From Verif Require Import Base MFormat.
Set Implicit Arguments.
Unset Strict Implicit.
Unset Printing Implicit Defensive.
Import Order.Theory GRing.Theory Num.Theory.
Local Open Scope string_scope.
Local Open Scope ring_scope.

(* ------------------------------------------------------------------ *)
(* digits                                                              *)
(* ------------------------------------------------------------------ *)
Lemma size_dec k n : size (dec k n) = k. Proof. by rewrite size_map size_iota. Qed.
Lemma dec_lt k n : all (fun d => (d < 10)%N) (dec k n).
Proof. by apply/allP => d /mapP[i _ ->]; rewrite ltn_mod. Qed.
Lemma decS k n : dec k.+1 n = rcons (dec k (n %/ 10)) (n %% 10)%N.
Proof.
rewrite /dec -[in iota 0 _]addn1 iotaD map_cat /= cats1 add0n subnn expn0 divn1; congr rcons.
apply/eq_in_map => i; rewrite mem_iota => hi; rewrite -divnMA -expnS; congr (_ %/ 10 ^ _ %% _)%N; lia.
Qed.

(* the value of a list of digits *)
Definition decval (a : nat) (s : seq nat) : nat := foldl (fun a d => 10 * a + d)%N a s.
Lemma decval_dec k n a : (n < 10 ^ k)%N -> decval a (dec k n) = (a * 10 ^ k + n)%N.
Proof.
elim: k n => [|k IH] n h; first by rewrite expn0 in h *; rewrite /dec /decval /=; lia.
rewrite decS /decval foldl_rcons -/(decval _ _) IH; last by rewrite ltn_divLR // -expnSr.
by rewrite {3}(divn_eq n 10) expnS; lia.
Qed.

Lemma ndigits_ltn q : (q < 10 ^ ndigits q)%N. Proof. exact: trunc_log_ltn. Qed.
Lemma dec_head q : (0 < q)%N -> head 0%N (dec (ndigits q) q) != 0%N.
Proof.
move=> q0; rewrite /dec /= subSS subn0 -lt0n modn_small ?divn_gt0 ?expn_gt0 ?trunc_logP //.
by rewrite ltn_divLR ?expn_gt0 // -expnS ndigits_ltn.
Qed.

(* ------------------------------------------------------------------ *)
(* a reader of decimal numerals: optional sign, digits, optional point *)
(* ------------------------------------------------------------------ *)
Definition code (c : ascii) : nat := nat_of_ascii c.
(* (value of the digits, number of digits behind the point) *)
Fixpoint read_num (l : seq ascii) (acc k : nat) (dot : bool) : option (nat * nat) :=
  match l with
  | [::] => Some (acc, k)
  | c :: l => if code c == 46%N then if dot then None else read_num l acc k true
              else if (48 <= code c <= 57)%N then read_num l (10 * acc + (code c - 48)) (k + dot) dot
              else None
  end.
Definition value (x : nat * nat) : rat := x.1%:Q / 10%:Q ^+ x.2.
Definition read (s : string) : option rat :=
  match list_ascii_of_string s with
  | c :: l => if code c == 45%N then omap (fun x => - value x) (read_num l 0 0 false)
              else omap value (read_num (c :: l) 0 0 false)
  | [::] => None
  end.

Lemma ascii_append s t : list_ascii_of_string (append s t) = (list_ascii_of_string s ++ list_ascii_of_string t)%SEQ.
Proof. by elim: s => //= c s ->. Qed.
Lemma ascii_digits s : list_ascii_of_string (show_digits s) = [seq digit d | d <- s].
Proof. exact: list_ascii_of_string_of_list_ascii. Qed.

Lemma code_digit d : (d < 10)%N -> code (digit d) = (48 + d)%N.
Proof.
move=> h; have /allP /(_ d) : all (fun d => code (digit d) == (48 + d)%N) (iota 0 10) by vm_compute.
by rewrite mem_iota h => /(_ isT) /eqP.
Qed.

Lemma code_dot : code (ascii_of_nat 46) = 46%N. Proof. by []. Qed.
Lemma code_minus : code (ascii_of_nat 45) = 45%N. Proof. by []. Qed.
Lemma tinyE : tiny = (10%:R ^+ 10)^-1. Proof. by []. Qed.
Opaque code digit tiny.

Lemma read_cons c l a k dot : read_num (c :: l) a k dot =
  if code c == 46%N then if dot then None else read_num l a k true
  else if (48 <= code c <= 57)%N then read_num l (10 * a + (code c - 48)) (k + dot) dot else None.
Proof. by []. Qed.
Lemma read_digit d l a k dot : (d < 10)%N -> read_num (digit d :: l) a k dot = read_num l (10 * a + d) (k + dot) dot.
Proof.
move=> hd; rewrite read_cons code_digit // addKn.
have -> : (48 + d == 46)%N = false by apply/eqP; lia.
by have -> : (48 <= 48 + d <= 57)%N by lia.
Qed.
Lemma read_digits s l a k (dot : bool) : all (fun d => (d < 10)%N) s ->
  read_num ([seq digit d | d <- s] ++ l)%SEQ a k dot = read_num l (decval a s) (k + dot * size s) dot.
Proof.
elim: s a k => [|d s IH] a k; first by rewrite muln0 addn0.
rewrite map_cons cat_cons => /andP[hd hs]; rewrite read_digit // IH //.
by congr read_num; rewrite -addnA -mulnS.
Qed.

Lemma div_even_spec a b : (0 < b)%N ->
  (2 * a <= 2 * (b * div_even a b) + b)%N /\ (2 * (b * div_even a b) <= 2 * a + b)%N.
Proof.
move=> b0; rewrite /div_even; have := divn_eq a b; have := ltn_pmod a b0.
move: (a %/ b)%N (a %% b)%N => q r hr ->.
by case: ltngtP => h; [|rewrite mulnS|case: odd; rewrite ?mulnS]; lia.
Qed.
Lemma div_even_exact m b : (0 < b)%N -> div_even (m * b) b = m.
Proof. by move=> b0; rewrite /div_even mulnK // modnMl muln0 b0. Qed.

Definition read_list (l : seq ascii) : option rat :=
  match l with
  | c :: l => if code c == 45%N then omap (fun x => - value x) (read_num l 0 0 false)
              else omap value (read_num (c :: l) 0 0 false)
  | [::] => None
  end.
Lemma sign_digits (b : bool) d l : (d < 10)%N ->
  read_list ((if b then [:: ascii_of_nat 45] else [::]) ++ digit d :: l)%SEQ =
  omap (fun x => (if b then -1 else 1) * value x) (read_num (digit d :: l) 0 0 false).
Proof.
move=> hd; case: b; rewrite ?cat1s ?cat0s /read_list.
  by rewrite code_minus eqxx; case: read_num => [x|] //; rewrite /= mulN1r.
rewrite code_digit //; have -> : (48 + d == 45)%N = false by apply/eqP; lia.
by case: read_num => [x|] //; rewrite /= mul1r.
Qed.

Lemma fixed_list x p : list_ascii_of_string (fixed x p) =
  ((if (x < 0)%R then [:: ascii_of_nat 45] else [::]) ++
   [seq digit d | d <- dec (ndigits (scaled x p %/ 10 ^ p)) (scaled x p %/ 10 ^ p)] ++
   (if p == 0%N then [::] else ascii_of_nat 46 :: [seq digit d | d <- dec p (scaled x p %% 10 ^ p)%N]))%SEQ.
Proof.
rewrite /fixed !ascii_append ascii_digits; congr (_ ++ (_ ++ _))%SEQ; first by case: ifP.
by case: ifP => // _; rewrite ascii_append ascii_digits.
Qed.

Lemma fixed_read x p : read (fixed x p) = Some ((if x < 0 then -1 else 1) * ((scaled x p)%:Q / 10%:Q ^+ p)).
Proof.
rewrite -[read _]/(read_list (list_ascii_of_string (fixed x p))) fixed_list.
move: (scaled x p) => n; set q := (n %/ 10 ^ p)%N; set l := (if p == 0%N then _ else _).
have : (0 < size (dec (ndigits q) q))%N by rewrite size_dec.
have dl := dec_lt (ndigits q) q.
have := read_digits l 0 0 false dl; rewrite decval_dec ?ndigits_ltn // mul0n add0n mul0n.
case: (dec (ndigits q) q) dl => // d s /andP[hd _] rd _.
rewrite map_cons cat_cons sign_digits // -cat_cons -map_cons rd /l {l rd}; case: (posnP p) => [p0|p0].
  by rewrite /q p0 expn0 divn1 /= /value /= expr0.
rewrite read_cons code_dot eqxx -[map _ _]cats0 read_digits ?dec_lt // size_dec mul1n.
by rewrite decval_dec ?ltn_mod ?expn_gt0 // -divn_eq.
Qed.

Lemma div_even_tie a b : (0 < b)%N -> (2 * a = 2 * (b * div_even a b) + b)%N \/ (2 * (b * div_even a b) = 2 * a + b)%N ->
  ~~ odd (div_even a b).
Proof.
move=> b0; rewrite /div_even; have := divn_eq a b; have := ltn_pmod a b0.
move: (a %/ b)%N (a %% b)%N => q r hr ->.
case: ltngtP => h; rewrite ?mulnS; try lia.
by case E: (odd q); rewrite /= ?E.
Qed.

Lemma div_even_small a b : (0 < b)%N -> (2 * a <= b)%N -> div_even a b = 0%N.
Proof.
move=> b0 h; rewrite /div_even divn_small ?modn_small; try lia.
by case: ltngtP h.
Qed.

Lemma intrB (a b : int) : (a - b)%:Q = a%:Q - b%:Q. Proof. exact: rmorphB. Qed.
Lemma abs_frac (x : rat) : `|x| = `|numq x|%N%:Q / `|denq x|%N%:Q.
Proof. by rewrite -{1}[x]divq_num_den normrM normfV -!intr_norm -!abszE. Qed.

Lemma scaled_err (x : rat) p : let e := `|x| - (scaled x p)%:Q / 10%:Q ^+ p in
  2%:Q * 10%:Q ^+ p * `|e| <= 1 /\ (2%:Q * 10%:Q ^+ p * `|e| = 1 -> ~~ odd (scaled x p)).
Proof.
rewrite /= abs_frac /scaled; move: `|numq x|%N => a.
have : (0 < `|denq x|)%N by rewrite absz_gt0 denq_neq0.
move: `|denq x|%N => b b0.
have [h1 h2] := div_even_spec (a * 10 ^ p) b0; have h3 := @div_even_tie (a * 10 ^ p) b b0.
move: (div_even _ _) h1 h2 h3 => n h1 h2 h3.
have b1 : 0 < b%:Q by rewrite ltr0n.
have p1 : 0 < 10%:Q ^+ p by rewrite exprn_gt0.
have q1 : 0 < 2%:Q * 10%:Q ^+ p by rewrite mulr_gt0.
have e0 : 2%:Q * 10%:Q ^+ p * (a%:Q / b%:Q - n%:Q / 10%:Q ^+ p) = ((2 * (a * 10 ^ p))%N%:Q - (2 * (b * n))%N%:Q) / b%:Q.
  rewrite -!pmulrn !natrM natrX mulrBr mulrBl; congr (_ - _).
    by rewrite !mulrA; congr (_ / _); rewrite -!mulrA; congr (_ * _); rewrite mulrC.
  rewrite -!mulrA; congr (_ * _); rewrite mulrCA divff ?(gt_eqF p1) // mulr1.
  by rewrite mulrCA divff ?mulr1 // gt_eqF.
have e : 2%:Q * 10%:Q ^+ p * `|a%:Q / b%:Q - n%:Q / 10%:Q ^+ p| = `|(2 * (a * 10 ^ p))%N%:Q - (2 * (b * n))%N%:Q| / b%:Q.
  by rewrite -{1}(gtr0_norm q1) -normrM e0 normrM normfV (gtr0_norm b1).
rewrite e ler_pdivr_mulr // mul1r; split.
  by rewrite ler_distl; apply/andP; split; rewrite ?ler_subl_addr -?intrD ?ler_int; lia.
move=> /(congr1 ( *%R^~ b%:Q)); rewrite divfK ?gt_eqF // mul1r => h; apply: h3.
move: h; rewrite -intrB -intr_norm => /eqP; rewrite eqr_int => /eqP; lia.
Qed.

(* The text of a number is a numeral with p decimals whose value m/10^p is nearest to it, with ties to an even last digit. *)
Theorem C78_read x p : exists s (m : int),
  [/\ formatted_output (PyFloat x) (Posz p) = Ok s, read s = Some (m%:Q / 10%:Q ^+ p),
      2%:Q * 10%:Q ^+ p * `|x - m%:Q / 10%:Q ^+ p| <= 1 &
      2%:Q * 10%:Q ^+ p * `|x - m%:Q / 10%:Q ^+ p| = 1 -> (2 %| m)%Z].
Proof.
exists (fixed x p), ((if x < 0 then -1 else 1) * Posz (scaled x p)); have [h1 h2] := scaled_err x p.
have e : `|x - ((if x < 0 then -1 else 1) * Posz (scaled x p))%:Q / 10%:Q ^+ p| = `| `|x| - (scaled x p)%:Q / 10%:Q ^+ p|.
  case: (boolP (x < 0)) => x0; last by rewrite mul1r [`|x|]ger0_norm // leNgt.
  by rewrite mulN1r mulrNz mulNr opprK (ltr0_norm x0) -opprD normrN.
split=> //; first by rewrite fixed_read; case: (x < 0); rewrite ?mul1r // !mulN1r mulrNz mulNr.
  by rewrite e.
by rewrite e => /h2 ho; apply: dvdz_mull; rewrite dvdzE /= dvdn2.
Qed.

(* Multiples of 10^-p are read back exactly; in particular integers. *)
Theorem C78_exact (m : int) p : exists s,
  formatted_output (PyFloat (m%:Q / 10%:Q ^+ p)) (Posz p) = Ok s /\ read s = Some (m%:Q / 10%:Q ^+ p).
Proof.
have [s [k [h1 h2 h3 _]]] := C78_read (m%:Q / 10%:Q ^+ p) p; exists s; split=> //; rewrite h2; congr (Some (_%:Q / _)).
move: h3; have p1 : 0 < 10%:Q ^+ p by rewrite exprn_gt0.
rewrite -mulrBl normrM normfV (gtr0_norm p1) -mulrA [X in _ * X]mulrC divfK ?gt_eqF // -intrB -intr_norm -intrM.
by rewrite (_ : 1 = 1%:Q) // ler_int; lia.
Qed.
Theorem C78_int (z : int) p : exists s, formatted_output (PyInt z) (Posz p) = Ok s /\ read s = Some z%:Q.
Proof.
have [s] := C78_exact (z * 10 ^+ p) p; rewrite rmorphM rmorphX /= mulfK ?expf_neq0 // => -[h1 h2].
by exists s.
Qed.

(* The text: sign, integer part without a leading zero, point and exactly p digits (no point for p = 0). *)
Theorem C78_shape x p : exists ip fp,
  [/\ formatted_output (PyFloat x) (Posz p) =
         Ok (append (if x < 0 then "-" else "") (append (show_digits ip) (if p == 0%N then "" else append "." (show_digits fp)))),
      all (fun d => (d < 10)%N) (ip ++ fp)%SEQ, (0 < size ip)%N, head 0%N ip = 0%N -> ip = [:: 0%N] & size fp = p].
Proof.
exists (dec (ndigits (scaled x p %/ 10 ^ p)) (scaled x p %/ 10 ^ p)), (dec p (scaled x p %% 10 ^ p)).
split; rewrite ?size_dec ?all_cat ?dec_lt //.
case: (posnP (scaled x p %/ 10 ^ p)) => [-> //|/dec_head h e]; by rewrite e in h.
Qed.

(* Complex numbers. *)
Theorem C78_complex a b p :
  (`|b| < (10%:R ^+ 10)^-1 -> formatted_output (PyComplex a b) p = formatted_output (PyFloat a) p) /\
  ((10%:R ^+ 10)^-1 <= `|b| -> 0 <= p -> exists s t,
    [/\ formatted_output (PyFloat a) p = Ok s, formatted_output (PyFloat b) p = Ok t &
        formatted_output (PyComplex a b) p = Ok (append s (append " + " (append t "j")))]).
Proof.
rewrite -tinyE; split=> h; first by rewrite /formatted_output h; reflexivity.
case: p => p hp; last by case/negP: hp.
exists (fixed a p), (fixed b p); split; [reflexivity|reflexivity|].
by rewrite /formatted_output (le_gtF h); reflexivity.
Qed.

(* refuted: that the output determines the number to the requested precision.  For every precision above 10 two numbers with
   at most p decimals get the same text *)
Theorem C78_refuted_imag a p : (10 < p)%N -> exists m : int, m != 0 /\
  formatted_output (PyComplex a (m%:Q / 10%:Q ^+ p)) p = formatted_output (PyComplex a 0) p.
Proof.
move=> hp; exists 1; split; first by [].
have ten (k : nat) : 0 < (10%:R : rat) ^+ k by rewrite exprn_gt0.
have [h1 _] := C78_complex a (1%:Q / 10%:Q ^+ p) p; have [h2 _] := C78_complex a 0 p.
rewrite h2 ?h1; [reflexivity| |by rewrite normr0 invr_gt0; exact: ten].
rewrite div1r normfV (gtr0_norm (ten p)) ltf_pinv; [by rewrite ltr_eexpn2l|exact: ten|exact: ten].
Qed.
(* refuted: that the text depends on the rounded value only (the sign of a negative number rounded to 0 is kept) *)
Theorem C78_refuted_zero x p : x < 0 -> 2%:Q * 10%:Q ^+ p * `|x| <= 1 ->
  formatted_output (PyFloat x) (Posz p) = Ok (append "-" (fixed 0 p)).
Proof.
move=> x0 h; rewrite /= /fixed x0 ltxx; have -> : scaled x p = 0%N.
  rewrite /scaled div_even_small ?absz_gt0 ?denq_neq0 //; move: h.
  rewrite abs_frac mulrA ler_pdivr_mulr ?ltr0n ?absz_gt0 ?denq_neq0 // mul1r.
  rewrite -!pmulrn -natrX -!natrM ler_nat -mulnA [X in (2 * X)%N]mulnC; apply.
by rewrite (_ : scaled 0 p = 0%N) // /scaled div_even_small.
Qed.

Theorem C78_errors (o : pyobj) p : p < 0 ->
  formatted_output o p = if o is PyOther s then Ok s else Raise ValueError.
Proof.
case: p => p hp; first by case/negP: hp.
by case: o => [z|x|a b|s]; try reflexivity; rewrite /formatted_output; case: (_ < tiny); reflexivity.
Qed.

Example C78_example : formatted_output (PyFloat (22%:Q / 7%:Q)) (Posz 2) = Ok "3.14" /\
  formatted_output (PyComplex (1%:Q / 2%:Q) (- (1%:Q / 4%:Q))) (Posz 1) = Ok "0.5 + -0.2j".
Proof.
have e0 : fixed (22%:Q / 7%:Q) 2 = "3.14" by vm_compute.
split; first by rewrite /formatted_output /format e0; reflexivity.
have [_ h] := C78_complex (1%:Q / 2%:Q) (- (1%:Q / 4%:Q)) (Posz 1).
have [||s [t [hs ht ->]]] := h; [|by []|].
  have ten (k : nat) : 0 < (10%:R : rat) ^+ k by rewrite exprn_gt0.
  have four : `|4%:Q| <= 10%:R ^+ 1 by [].
  rewrite normrN div1r normfV lef_pinv; [|exact: ten|by []].
  by apply: le_trans four _; rewrite ler_eexpn2l.
have e1 : fixed (1%:Q / 2%:Q) 1 = "0.5" by vm_compute.
have e2 : fixed (- (1%:Q / 4%:Q)) 1 = "-0.2" by vm_compute.
by move: hs ht => [<-] [<-]; rewrite e1 e2.
Qed.
