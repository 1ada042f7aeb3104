(* PropFloat.v -- property C96: rounding errors of pf, hf, pt, dt *)
Set Warnings "-notation-overridden,-ambiguous-paths".
From mathcomp Require Import all_ssreflect all_fingroup all_algebra.
From mathcomp.zify Require Import zify.
From Verif Require Import Base MCombinatorics CombPerm Matching Pfaffian Bipartite CombFacts PropComb PropInt MFloat.
Set Implicit Arguments.
Unset Strict Implicit.
Unset Printing Implicit Defensive.
Import Order.Theory GRing.Theory Num.Theory.
Local Open Scope ring_scope.

Section Err.
Variable T : numFieldType.
Variable u : T.
Hypothesis u0 : 0 <= u.

(* the operation op computes ex with a relative error of at most u *)
Definition rel_err (op ex : T -> T -> T) := forall x y, `|op x y - ex x y| <= u * `|ex x y|.

Definition err (k : nat) : T := (1 + u) ^+ k - 1.
(* x approximates t: an error of k roundings relative to a, a bound for |t| *)
Definition approx k (a x t : T) := `|x - t| <= err k * a /\ `|t| <= a.

Lemma u1 : 1 <= 1 + u. Proof. by rewrite ler_addl. Qed.
Lemma err_ge0 k : 0 <= err k. Proof. by rewrite subr_ge0 exprn_ege1 // u1. Qed.
Lemma errS k : err k.+1 = u * (1 + err k) + err k.
Proof. by rewrite /err [1 + (_ - 1)]addrC subrK exprS mulrDl mul1r addrA [u * _ + _]addrC. Qed.
Lemma err_le k l : (k <= l)%N -> err k <= err l.
Proof. by move=> h; rewrite ler_add2r; apply: ler_weexpn2l => //; exact: u1. Qed.

Lemma approx_ge0 k a x t : approx k a x t -> 0 <= a.
Proof. by case=> _; apply: le_trans. Qed.
Lemma approx_le k l a x t : (k <= l)%N -> approx k a x t -> approx l a x t.
Proof. by move=> h H; have a0 := approx_ge0 H; case: H => h1 h2; split=> //; apply: le_trans h1 _; rewrite ler_wpmul2r // err_le. Qed.
Lemma approx_norm k a x t : approx k a x t -> `|x| <= (1 + err k) * a.
Proof.
case=> h1 h2; rewrite -(subrK t x); apply: le_trans (ler_norm_add _ _) _.
by rewrite mulrDl mul1r addrC ler_add.
Qed.
Lemma approx_exact x : approx 0 `|x| x x.
Proof. by split=> //; rewrite subrr normr0 /err expr0 subrr mul0r. Qed.
Lemma approx0 k : approx k 0 0 0.
Proof. by split; rewrite ?subrr ?normr0 ?mulr0. Qed.

(* one rounded operation on approximations: the exact operation ex is bounded by b, its perturbation by err k * b *)
Lemma approx_round k b z w t : `|z - w| <= u * `|w| -> `|w - t| <= err k * b -> `|t| <= b -> approx k.+1 b z t.
Proof.
move=> h1 h2 h3; split=> //; have h4 : `|w| <= (1 + err k) * b by apply: (@approx_norm k b w t).
have -> : z - t = (z - w) + (w - t) by rewrite addrA subrK.
apply: le_trans (ler_norm_add _ _) _; rewrite errS mulrDl; apply: ler_add => //.
by apply: le_trans h1 _; rewrite -mulrA ler_wpmul2l.
Qed.

Variables (fmul fadd fdiv : T -> T -> T).
Hypothesis mulP : rel_err fmul *%R.
Hypothesis addP : rel_err fadd +%R.
Hypothesis divP : rel_err fdiv (fun x y => x / y).

Lemma approx_mul k a x t y : approx k a x t -> approx k.+1 (a * `|y|) (fmul x y) (t * y).
Proof.
case=> h1 h2; apply: (approx_round (mulP x y)); last by rewrite normrM ler_wpmul2r.
by rewrite -mulrBl normrM mulrA ler_wpmul2r.
Qed.
Lemma approx_mull k a x t y : approx k a x t -> approx k.+1 (`|y| * a) (fmul y x) (y * t).
Proof.
case=> h1 h2; apply: (approx_round (mulP y x)); last by rewrite normrM ler_wpmul2l.
by rewrite -mulrBr normrM mulrCA ler_wpmul2l.
Qed.
Lemma approx_add k a b x y t s : approx k a x t -> approx k b y s -> approx k.+1 (a + b) (fadd x y) (t + s).
Proof.
case=> h1 h2 [h3 h4]; apply: (approx_round (addP x y)).
  by rewrite opprD addrACA mulrDr; apply: le_trans (ler_norm_add _ _) _; apply: ler_add.
by apply: le_trans (ler_norm_add _ _) _; apply: ler_add.
Qed.
Lemma approx_div k a x t y : approx k a x t -> approx k.+1 (a / `|y|) (fdiv x y) (t / y).
Proof.
case=> h1 h2; apply: (approx_round (divP x y)); last by rewrite normf_div ler_wpmul2r // invr_ge0.
by rewrite -mulrBl normrM normfV mulrA ler_wpmul2r // invr_ge0.
Qed.

(* ------------------------------ the loops ------------------------------ *)
Lemma prod_approx (A : arr T) l : all (fun e => (e.1 < nr A)%N && (e.2 < nc A)%N) l ->
  exists2 x, prod_entries_f fmul A l = Ok x &
    approx (size l) (\prod_(e <- l) `|get A e.1 e.2|) x (\prod_(e <- l) get A e.1 e.2).
Proof.
rewrite /prod_entries_f => H.
suff K k a x t : approx k a x t -> exists2 z,
    foldM (fun acc e => let* a := idx A e.1 e.2 in Ok (fmul acc a)) x l = Ok z &
    approx (k + size l) (a * \prod_(e <- l) `|get A e.1 e.2|) z (t * \prod_(e <- l) get A e.1 e.2).
  by have := K 0%N 1 1 1; rewrite !mul1r add0n; apply; have := approx_exact 1; rewrite normr1.
elim: l H k a x t => [|e l IH] /= H k a x t h; first by exists x; rewrite // addn0 !big_nil !mulr1.
have /andP[he hl] := H; rewrite /idx he /=.
have [z -> hz] := IH hl _ _ _ _ (approx_mul (get A e.1 e.2) h); exists z => //.
by rewrite !big_cons !mulrA addnS -addSn.
Qed.

Lemma sum_approx (I : eqType) (l : seq I) (body : I -> res T) (a t : I -> T) m :
  {in l, forall p, exists2 x, body p = Ok x & approx m (a p) x (t p)} ->
  exists2 z, foldM (fun acc p => let* x := body p in Ok (fadd acc x)) 0 l = Ok z &
    approx (m + size l) (\sum_(p <- l) a p) z (\sum_(p <- l) t p).
Proof.
move=> H.
suff K k b x s : (m <= k)%N -> approx k b x s -> exists2 z,
    foldM (fun acc p => let* x := body p in Ok (fadd acc x)) x l = Ok z &
    approx (k + size l) (b + \sum_(p <- l) a p) z (s + \sum_(p <- l) t p).
  by have := K m 0 0 0 (leqnn m) (approx0 m); rewrite !add0r.
elim: l H k b x s => [|p l IH] /= H k b x s hk h; first by exists x; rewrite // addn0 !big_nil !addr0.
have [y -> hy] := H p (mem_head _ _) => /=.
have [|z -> hz] := IH _ k.+1 _ _ _ (leqW hk) (approx_add h (approx_le hk hy)).
  by move=> q hq; apply: H; rewrite in_cons hq orbT.
by exists z => //; rewrite !big_cons !addrA addnS -addSn.
Qed.

Lemma gE n (M : 'M[T]_n) (i j : 'I_n) : get (ofM M) i j = M i j.
Proof. by rewrite (@get_ord _ (ofM M)). Qed.
Lemma size_permsE n : size (perms (iota 0 n)) = n`!.
Proof. by rewrite (perm_size (perms_iota n)) size_map -cardE card_Sn. Qed.
Lemma loop_approx n (body : seq nat -> res T) (a t : 'S_n -> T) m :
  (forall s, exists2 x, body (plist s) = Ok x & approx m (a s) x (t s)) ->
  exists2 z, foldM (fun acc p => let* x := body p in Ok (fadd acc x)) 0 (perms (iota 0 n)) = Ok z &
    approx (m + n`!) (\sum_s a s) z (\sum_s t s).
Proof.
move=> H; pose ext (f : 'S_n -> T) p := if [pick s | plist s == p] is Some s then f s else 0.
have E f s : ext f (plist s) = f s.
  by rewrite /ext; case: pickP => [s' /eqP/(@plist_inj n) ->|/(_ s)] //; rewrite eqxx.
have [p|z e h] := @sum_approx _ (perms (iota 0 n)) body (ext a) (ext t) m.
  by rewrite mem_perms ?iota_uniq // => /plist_surj [s ->]; rewrite !E.
exists z => //; move: h; rewrite size_permsE !sum_perms.
have -> : \sum_(s : 'S_n) ext a (plist s) = \sum_s a s by apply: eq_bigr => s _; rewrite E.
by have -> : \sum_(s : 'S_n) ext t (plist s) = \sum_s t s by apply: eq_bigr => s _; rewrite E.
Qed.

Lemma row_approx n (M : 'M[T]_n) (s : 'S_n) :
  exists2 x, prod_entries_f fmul (ofM M) [seq (i, nth 0%N (plist s) i) | i <- iota 0 n] = Ok x &
    approx n (\prod_i `|M i (s i)|) x (\prod_i M i (s i)).
Proof.
have r (F : nat -> nat -> T) : \prod_(e <- [seq (i, nth 0%N (plist s) i) | i <- iota 0 n]) F e.1 e.2 = \prod_(i < n) F i (s i).
  rewrite big_map -[X in iota 0 X]subn0 -/(index_iota 0 n) big_mkord; apply: eq_bigr => i _ /=.
  by rewrite nth_plist.
have [|x -> h] := @prod_approx (ofM M) [seq (i, nth 0%N (plist s) i) | i <- iota 0 n].
  apply/allP => e /mapP[i]; rewrite mem_iota add0n => /= hi -> /=.
  by rewrite hi -[X in nth _ _ X]/(val (Ordinal hi)) nth_plist ltn_ord.
exists x => //; move: h; rewrite size_map size_iota (r (fun i j => `|get (ofM M) i j|)) (r (get (ofM M))).
have -> : \prod_(i < n) `|get (ofM M) i (s i)| = \prod_i `|M i (s i)| by apply: eq_bigr => i _; rewrite gE.
by have -> : \prod_(i < n) get (ofM M) i (s i) = \prod_i M i (s i) by apply: eq_bigr => i _; rewrite gE.
Qed.
Lemma mate_approx k (M : 'M[T]_(k.*2)) (s : 'S_(k.*2)) :
  exists2 x, prod_entries_f fmul (ofM M) (match_pairs (plist s) k) = Ok x &
    approx k (\prod_i `|M (s (d i false)) (s (d i true))|) x (\prod_i M (s (d i false)) (s (d i true))).
Proof.
have r (F : nat -> nat -> T) : \prod_(e <- match_pairs (plist s) k) F e.1 e.2 = \prod_(i < k) F (s (d i false)) (s (d i true)).
  have nd (i : 'I_k) (e : bool) : nth 0%N (plist s) (e + i.*2) = s (d i e) by rewrite -[(e + i.*2)%N]/(val (d i e)) nth_plist.
  have -> : match_pairs (plist s) k = [seq (val (s (d i false)), val (s (d i true))) | i <- enum 'I_k].
    rewrite /match_pairs -(val_enum_ord k) -map_comp; apply: eq_map => i /=.
    by rewrite mul2n addnC -[X in (nth _ _ X, _)]add0n !(nd i false, nd i true).
  by rewrite big_map big_enum.
have [|x -> h] := @prod_approx (ofM M) (match_pairs (plist s) k).
  by apply: (pairs_ok (w := 2)) => //; rewrite mem_perms ?iota_uniq //; apply: plist_perm.
exists x => //; move: h; rewrite size_map size_iota (r (fun i j => `|get (ofM M) i j|)) (r (get (ofM M))).
have -> : \prod_(i < k) `|get (ofM M) (s (d i false)) (s (d i true))| = \prod_i `|M (s (d i false)) (s (d i true))|.
  by apply: eq_bigr => i _; rewrite gE.
have -> : \prod_(i < k) get (ofM M) (s (d i false)) (s (d i true)) = \prod_i M (s (d i false)) (s (d i true)) => //.
by apply: eq_bigr => i _; rewrite gE.
Qed.
Lemma sgn_approx m n (s : 'S_n) a x t : approx m a x t ->
  approx m.+1 a (fmul (sgn (plist s))%:~R x) ((-1) ^+ s * t).
Proof.
move/(approx_mull (sgn (plist s))%:~R); rewrite sgn_signr normr_sign mul1r; exact.
Qed.
Lemma bind_body (A : Type) (f : A -> res T) (g : A -> T -> T) (l : seq A) a :
  foldM (fun acc p => let* x := f p in Ok (fadd acc (g p x))) a l =
  foldM (fun acc p => let* x := (let* x := f p in Ok (g p x)) in Ok (fadd acc x)) a l.
Proof. by apply: eq_foldM => x p; case: (f p). Qed.

(* C96: in arithmetic with relative error u per operation, pt and dt of an n x n array differ from the permanent and the
   determinant by at most ((1+u)^(n + n!) - 1), resp. ((1+u)^(n + 1 + n!) - 1), times the permanent of the moduli *)
Theorem C96_pt_dt n (M : 'M[T]_n) : let P := \sum_(s : 'S_n) \prod_i `|M i (s i)| in
  (exists2 v, pt_f fmul fadd (ofM M) = Ok v &
     `|v - \sum_(s : 'S_n) \prod_i M i (s i)| <= ((1 + u) ^+ (n + n`!) - 1) * P) /\
  (exists2 v, dt_f fmul fadd (ofM M) = Ok v & `|v - \det M| <= ((1 + u) ^+ (n.+1 + n`!) - 1) * P).
Proof.
move=> P; split.
  have [z e [h _]] := @loop_approx n (fun p => prod_entries_f fmul (ofM M) [seq (i, nth 0%N p i) | i <- iota 0 n]) _ _ _ (row_approx M).
  by exists z.
rewrite /dt_f bind_body; have [s|z e [h _]] := @loop_approx n (fun p =>
    let* x := prod_entries_f fmul (ofM M) [seq (i, nth 0%N p i) | i <- iota 0 n] in Ok (fmul (sgn p)%:~R x))
  (fun s => \prod_i `|M i (s i)|) (fun s : 'S_n => (-1) ^+ s * \prod_i M i (s i)) n.+1; last by exists z.
by have [x -> h] := row_approx M s; eexists; [reflexivity|exact: sgn_approx].
Qed.

(* C96: hf and pf of 2k x 2k arrays: k + (2k)! + 1 and k + 1 + (2k)! + 1 roundings, relative to hf of the moduli *)
Theorem C96_hf_pf k (M : 'M[T]_(k.*2)) : forall H, hf (ofM (map_mx Num.norm M)) = Ok H ->
  (exists v t, [/\ hf_f fmul fadd fdiv (ofM M) = Ok v, hf (ofM M) = Ok t & `|v - t| <= ((1 + u) ^+ (k + k.*2`!).+1 - 1) * H]) /\
  (exists v t, [/\ pf_f fmul fadd fdiv (ofM M) = Ok v, pf (ofM M) = Ok t & `|v - t| <= ((1 + u) ^+ (k.+1 + k.*2`!).+1 - 1) * H]).
Proof.
pose D := (2 ^ k * k`!)%N%:R : T; have D0 : `|D| = D by rewrite normr_nat.
pose N : 'M[T]_(k.*2) := map_mx Num.norm M.
have HE : hsum N = \sum_(s : 'S_(k.*2)) \prod_i `|M (s (d i false)) (s (d i true))|.
  by apply: eq_bigr => s _; apply: eq_bigr => i _; rewrite mxE.
have HF : hf (ofM N) = Ok (hsum N / D) by have := @hf_hsum T (ofM N) k erefl erefl; rewrite toM_ofM.
move=> H e0; have {e0} := etrans (esym HF) e0; rewrite HE => -[<-]; split.
  have [z e h] := @loop_approx _ (fun p => prod_entries_f fmul (ofM M) (match_pairs p k)) _ _ _ (mate_approx M); have [h1 _] := approx_div D h.
  exists (fdiv z D), (hsum M / D); split; last by rewrite D0 in h1.
    by rewrite /hf_f /= modn2 odd_double /= divn2 doubleK e.
  by have := @hf_hsum T (ofM M) k erefl erefl; rewrite toM_ofM.
have [s|z e h] := @loop_approx k.*2 (fun p =>
    let* x := prod_entries_f fmul (ofM M) (match_pairs p k) in Ok (fmul (sgn p)%:~R x))
  (fun s => \prod_i `|M (s (d i false)) (s (d i true))|) (fun s : 'S_(k.*2) => (-1) ^+ s * \prod_i M (s (d i false)) (s (d i true))) k.+1.
  by have [x -> h] := mate_approx M s; eexists; [reflexivity|exact: sgn_approx].
have [h1 _] := approx_div D h.
exists (fdiv z D), (psum M / D); split; last by rewrite D0 in h1.
  by rewrite /pf_f /= modn2 odd_double /= divn2 doubleK bind_body e.
by have := @pf_psum T (ofM M) k erefl erefl; rewrite toM_ofM.
Qed.

(* C96: the factor in closed form: (1+u)^m - 1 <= m u / (1 - m u) as long as m u < 1 *)
Theorem C96_factor m : m%:R * u < 1 -> (1 + u) ^+ m - 1 <= m%:R * u / (1 - m%:R * u).
Proof.
move=> h; have p : 0 < 1 - m%:R * u by rewrite subr_gt0.
rewrite ler_pdivl_mulr // mulrBl mul1r ler_subl_addr [_%:R * u + _]addrC subrK.
have p' l : (l <= m)%N -> 0 <= 1 - l%:R * u.
  by move=> hl; rewrite subr_ge0; apply: le_trans (ltW h); rewrite ler_wpmul2r // ler_nat.
clear p; elim: m {h} p' => [|m IH] p; first by rewrite expr0 mul0r subr0 mulr1.
apply: le_trans (IH (fun l hl => p l (leqW hl))); rewrite exprSr -mulrA ler_wpmul2l ?exprn_ge0 ?addr_ge0 ?ler01 //.
set x := m.+1%:R * u; have -> : m%:R * u = x - u by rewrite /x -addn1 natrD mulrDl mul1r addrK.
have x0 : 0 <= x by rewrite mulr_ge0 ?ler0n.
have -> : (1 + u) * (1 - x) = 1 - (x - u) - u * x by rewrite mulrDl mul1r mulrBr mulr1 opprB !addrA [1 - x + u]addrAC.
by rewrite ler_subl_addr ler_addl mulr_ge0.
Qed.
End Err.

(* ------------------------------ integer arrays ------------------------------ *)
Section Exact.
Variable T : numFieldType.
Variables (fmul fadd fdiv : T -> T -> T).
Variable L : nat.
(* the operation is exact when its exact result is an integer below L in size (L = 2^53 in float64) *)
Definition int_exact (op ex : T -> T -> T) := forall x y (z : int), ex x y = z%:~R -> `|z| < L%:Z -> op x y = z%:~R.
Hypothesis mulP : int_exact fmul *%R.
Hypothesis addP : int_exact fadd +%R.
Hypothesis divP : int_exact fdiv (fun x y => x / y).
Variable B : nat.
Hypothesis B0 : (0 < B)%N.

Definition Tm n (M : 'M[int]_n) : arr T := ofM (map_mx intr M : 'M[T]_n).
Lemma TmE n (M : 'M[int]_n) (i j : 'I_n) : get (Tm M) i j = (M i j)%:~R.
Proof. by rewrite /Tm gE mxE. Qed.

Lemma prod_exact (A : arr T) (f : nat * nat -> int) l z : 
  {in l, forall e, [/\ (e.1 < nr A)%N, (e.2 < nc A)%N, get A e.1 e.2 = (f e)%:~R & `|f e| <= B%:Z]} ->
  `|z| * (B ^ size l)%N%:Z < L%:Z ->
  foldM (fun acc e => let* a := idx A e.1 e.2 in Ok (fmul acc a)) z%:~R l = Ok (z * \prod_(e <- l) f e)%:~R.
Proof.
elim: l z => [|e l IH] z H hz /=; first by rewrite big_nil mulr1.
have [h1 h2 h3 h4] := H e (mem_head _ _); rewrite /idx h1 h2 /= h3.
have hz' : `|z * f e| * (B ^ size l)%N%:Z < L%:Z.
  by apply: le_lt_trans hz; rewrite normrM /= expnS PoszM mulrA ler_wpmul2r // ler_wpmul2l.
have -> : fmul z%:~R (f e)%:~R = (z * f e)%:~R.
  apply: mulP; first by rewrite intrM.
  by apply: le_lt_trans hz'; rewrite ler_pemulr // lez_nat expn_gt0 B0.
by rewrite IH ?big_cons ?mulrA // => q hq; apply: H; rewrite in_cons hq orbT.
Qed.

Lemma sum_exact (I : eqType) (l : seq I) (body : I -> res T) (t : I -> int) (K : nat) z :
  {in l, forall p, body p = Ok (t p)%:~R /\ `|t p| <= K%:Z} -> `|z| + (size l * K)%N%:Z < L%:Z ->
  foldM (fun acc p => let* x := body p in Ok (fadd acc x)) z%:~R l = Ok (z + \sum_(p <- l) t p)%:~R.
Proof.
elim: l z => [|p l IH] z H hz /=; first by rewrite big_nil addr0.
have [-> hp] := H p (mem_head _ _) => /=.
have hz' : `|z + t p| + (size l * K)%N%:Z < L%:Z.
  apply: le_lt_trans hz; rewrite /= mulSn PoszD addrA ler_add2r; apply: le_trans (ler_norm_add _ _) _.
  by rewrite ler_add2l.
have -> : fadd z%:~R (t p)%:~R = (z + t p)%:~R.
  apply: addP; first by rewrite intrD.
  by apply: le_lt_trans hz'; rewrite ler_addl.
by rewrite IH ?big_cons ?addrA // => q hq; apply: H; rewrite in_cons hq orbT.
Qed.

Lemma loop_exact n (body : seq nat -> res T) (t : 'S_n -> int) (K : nat) :
  (forall s, body (plist s) = Ok (t s)%:~R /\ `|t s| <= K%:Z) -> (n`! * K < L)%N ->
  foldM (fun acc p => let* x := body p in Ok (fadd acc x)) 0 (perms (iota 0 n)) = Ok (\sum_s t s)%:~R.
Proof.
move=> H hK; pose ext p := if [pick s : 'S_n | plist s == p] is Some s then t s else 0.
have E s : ext (plist s) = t s.
  by rewrite /ext; case: pickP => [s' /eqP/(@plist_inj n) ->|/(_ s)] //; rewrite eqxx.
have := @sum_exact _ (perms (iota 0 n)) body ext K 0; rewrite size_permsE add0r normr0 add0r.
rewrite [X in _ -> _ -> _ = Ok X](_ : _ = (\sum_s t s)%:~R); first apply.
- by move=> p; rewrite mem_perms ?iota_uniq // => /plist_surj [s ->]; rewrite E.
- by rewrite ltz_nat.
by rewrite sum_perms; congr (_%:~R); apply: eq_bigr => s _; rewrite E.
Qed.

Section Matrix.
Variable n : nat.
Variable M : 'M[int]_n.
Hypothesis hB : forall i j, `|M i j| <= B%:Z.

Lemma row_exact (s : 'S_n) : (B ^ n < L)%N ->
  prod_entries_f fmul (Tm M) [seq (i, nth 0%N (plist s) i) | i <- iota 0 n] = Ok (\prod_i M i (s i))%:~R /\
  `|\prod_i M i (s i)| <= (B ^ n)%N%:Z.
Proof.
move=> hL; split; last exact: norm_prod_le.
pose f (e : nat * nat) := get (ofM M : arr int_Ring) e.1 e.2.
have := @prod_exact (Tm M) f [seq (i, nth 0%N (plist s) i) | i <- iota 0 n] 1.
rewrite mul1r size_map size_iota normr1 mul1r /prod_entries_f => -> //.
  congr (Ok _%:~R); rewrite big_map -[X in iota 0 X]subn0 -/(index_iota 0 n) big_mkord; apply: eq_bigr => i _ /=.
  by rewrite nth_plist /f (@get_ord _ (ofM M)).
move=> e /mapP[i]; rewrite mem_iota add0n => /= hi -> /=.
rewrite /f -[X in nth _ _ X]/(val (Ordinal hi)) -[i]/(val (Ordinal hi)) nth_plist TmE.
by rewrite (@get_ord _ (ofM M)) !ltn_ord.
Qed.

(* C96: an array of integers of size at most B held in floats: pt and dt are exact if n! B^n < L (2^53 in float64) *)
Theorem C96_integers : (n`! * B ^ n < L)%N ->
  pt_f fmul fadd (Tm M) = Ok (\sum_(s : 'S_n) \prod_i M i (s i))%:~R /\ dt_f fmul fadd (Tm M) = Ok (\det M)%:~R.
Proof.
move=> hL; have hL' : (B ^ n < L)%N by apply: leq_ltn_trans hL; rewrite leq_pmull // fact_gt0.
split.
  exact: (@loop_exact n (fun p => prod_entries_f fmul (Tm M) [seq (i, nth 0%N p i) | i <- iota 0 n]) _ _ (fun s => row_exact s hL')).
rewrite /dt_f bind_body; apply: (@loop_exact n (fun p =>
    let* x := prod_entries_f fmul (Tm M) [seq (i, nth 0%N p i) | i <- iota 0 n] in Ok (fmul (sgn p)%:~R x))
    (fun s => (-1) ^+ s * \prod_i M i (s i)) (B ^ n)%N) => // s.
have [-> h] := row_exact s hL'; rewrite normrM normr_sign mul1r; split=> //=; congr Ok.
rewrite (mulP (z := (-1) ^+ s * \prod_i M i (s i))) //.
  by rewrite sgn_signr intrM rmorph_sign.
by rewrite normrM normr_sign mul1r (le_lt_trans h).
Qed.
End Matrix.

Section Matchings.
Variable k : nat.
Variable M : 'M[int]_(k.*2).
Hypothesis hB : forall i j, `|M i j| <= B%:Z.
Hypothesis hL : (k.*2`! * B ^ k < L)%N.

Lemma mate_exact (s : 'S_(k.*2)) :
  prod_entries_f fmul (Tm M) (match_pairs (plist s) k) = Ok (\prod_i M (s (d i false)) (s (d i true)))%:~R /\
  `|\prod_i M (s (d i false)) (s (d i true))| <= (B ^ k)%N%:Z.
Proof.
split; last exact: norm_prod_le.
pose f (e : nat * nat) := get (ofM M : arr int_Ring) e.1 e.2.
have hL' : (B ^ k < L)%N by apply: leq_ltn_trans hL; rewrite leq_pmull // fact_gt0.
have nd (i : 'I_k) (e : bool) : nth 0%N (plist s) (e + i.*2) = s (d i e) by rewrite -[(e + i.*2)%N]/(val (d i e)) nth_plist.
have E : match_pairs (plist s) k = [seq (val (s (d i false)), val (s (d i true))) | i <- enum 'I_k].
  rewrite /match_pairs -(val_enum_ord k) -map_comp; apply: eq_map => i /=.
  by rewrite mul2n addnC -[X in (nth _ _ X, _)]add0n !(nd i false, nd i true).
have := @prod_exact (Tm M) f (match_pairs (plist s) k) 1.
rewrite mul1r size_map size_iota normr1 mul1r /prod_entries_f => -> //.
  by congr (Ok _%:~R); rewrite E big_map big_enum; apply: eq_bigr => i _ /=; rewrite /f (@get_ord _ (ofM M)).
by rewrite E => e /mapP[i _ ->]; rewrite /f TmE (@get_ord _ (ofM M)) !ltn_ord.
Qed.

Lemma D_gt0 : (0 < 2 ^ k * k`!)%N. Proof. by rewrite muln_gt0 expn_gt0 fact_gt0. Qed.
Lemma quot_exact (x h : int) : x = h *+ (2 ^ k * k`!) -> `|x| <= (k.*2`! * B ^ k)%N%:Z -> fdiv x%:~R (2 ^ k * k`!)%N%:R = h%:~R.
Proof.
move=> e hx; have D0 := D_gt0; apply: divP.
  by rewrite e rmorphMn /= -mulr_natr mulfK // pnatr_eq0 -lt0n.
apply: le_lt_trans (_ : `|x| < L%:Z); last by apply: le_lt_trans hx _; rewrite ltz_nat.
by rewrite e normrMn -mulr_natr ler_pemulr // natz lez_nat.
Qed.

(* C96: pf of an antisymmetric and hf of a symmetric array of integers of size at most B, held in floats, are exact if
   (2k)! B^k < L *)
Theorem C96_matchings :
  (M^T = - M -> pf_f fmul fadd fdiv (Tm M) = Ok (pfaffian M)%:~R) /\ (M^T = M -> hf_f fmul fadd fdiv (Tm M) = Ok (hafnian M)%:~R).
Proof.
have hL' : (B ^ k < L)%N by apply: leq_ltn_trans hL; rewrite leq_pmull // fact_gt0.
split=> sk.
  rewrite /pf_f /= modn2 odd_double /= divn2 doubleK bind_body (@loop_exact k.*2 (fun p =>
      let* x := prod_entries_f fmul (Tm M) (match_pairs p k) in Ok (fmul (sgn p)%:~R x))
      (fun s => (-1) ^+ s * \prod_i M (s (d i false)) (s (d i true))) (B ^ k)%N) // => [|s].
    congr Ok; apply: quot_exact; first exact: psumE.
    by apply: norm_sumS => s; have [_] := mate_exact s; rewrite normrM normr_sign mul1r.
  have [-> h] := mate_exact s; rewrite normrM normr_sign mul1r; split=> //=; congr Ok.
  rewrite (mulP (z := (-1) ^+ s * \prod_i M (s (d i false)) (s (d i true)))) //.
    by rewrite sgn_signr intrM rmorph_sign.
  by rewrite normrM normr_sign mul1r (le_lt_trans h).
rewrite /hf_f /= modn2 odd_double /= divn2 doubleK (@loop_exact k.*2 (fun p =>
    prod_entries_f fmul (Tm M) (match_pairs p k)) (fun s => \prod_i M (s (d i false)) (s (d i true))) (B ^ k)%N) //; last exact: mate_exact.
congr Ok; apply: quot_exact; first exact: hsumE.
by apply: norm_sumS => s; have [_] := mate_exact s.
Qed.
End Matchings.
End Exact.
