(* Skew.v -- every real antisymmetric matrix is orthogonally similar to a block diagonal matrix with blocks
   (0) and ((0, t), (-t, 0)): existence of the real Schur form used by the contracts of scipy.linalg.schur. *)
Set Warnings "-notation-overridden,-ambiguous-paths".
From Coq Require Import Reals Epsilon.
From mathcomp Require Import all_ssreflect all_algebra.
From mathcomp Require Import complex.
From mathcomp.zify Require Import zify.
From Verif Require Import Base ArrC Spectral RealC.
Set Implicit Arguments.
Unset Strict Implicit.
Unset Printing Implicit Defensive.
Import Order.Theory GRing.Theory Num.Theory.
Local Open Scope ring_scope.

(* zero below the first subdiagonal, no two adjacent subdiagonal entries nonzero *)
Definition quasi_tri m (T : 'M[R]_m) :=
  (forall i j : 'I_m, (j.+1 < i)%N -> T i j = 0) /\
  (forall i j k : 'I_m, val j = i.+1 -> val k = j.+1 -> T j i = 0 \/ T k j = 0).

Lemma quasi_block p q (A : 'M[R]_p) (B : 'M[R]_q) : quasi_tri A -> quasi_tri B -> quasi_tri (block_mx A 0 0 B).
Proof.
move=> [a1 a2] [b1 b2]; split.
  move=> i j; case: (split_ordP i) => i' ->; case: (split_ordP j) => j' -> /= h;
    rewrite ?block_mxEul ?block_mxEur ?block_mxEdl ?block_mxEdr ?mxE //; [exact: a1|apply: b1; lia].
move=> i j k; case: (split_ordP i) => i' ->; case: (split_ordP j) => j' -> /= e1;
  case: (split_ordP k) => k' -> /= e2; rewrite ?block_mxEul ?block_mxEur ?block_mxEdl ?block_mxEdr ?mxE; auto.
by apply: b2; apply: (@addnI p); rewrite addnS; [exact: e1|exact: e2].
Qed.

(* real Householder reflection *)
Definition rn (m : nat) (u : 'rV[R]_m) : R := (u *m u^T) 0 0.
Lemma rnE m (u : 'rV[R]_m) : rn u = \sum_j u 0 j ^+ 2.
Proof. by rewrite /rn mxE; apply: eq_bigr => j _; rewrite mxE expr2. Qed.
Lemma rn_ge0 m (u : 'rV[R]_m) : 0 <= rn u.
Proof. by rewrite rnE; apply: sumr_ge0 => j _; exact: sqr_ge0. Qed.
Lemma rn_eq0 m (u : 'rV[R]_m) : (rn u == 0) = (u == 0).
Proof.
rewrite rnE psumr_eq0; last by move=> j _; rewrite sqr_ge0.
apply/allP/eqP => [h|-> j _]; last by rewrite mxE expr0n /= eqxx.
by apply/matrixP => i j; rewrite ord1 mxE; have := h j; rewrite mem_index_enum sqrf_eq0 => /(_ isT)/eqP.
Qed.
Lemma mul11R (A B : 'M[R]_1) : A *m B = (A 0 0 * B 0 0)%:M.
Proof. by rewrite [A]mx11_scalar [B]mx11_scalar -scalar_mxM !mxE. Qed.
Lemma rnM m (u : 'rV[R]_m) : u *m u^T = (rn u)%:M. Proof. exact: mx11_scalar. Qed.

Lemma real_completion m (u : 'rV[R]_m.+1) : rn u = 1 ->
  exists2 Z : 'M[R]_m.+1, Z *m Z^T = 1%:M & delta_mx 0 0 *m Z = u.
Proof.
move=> hu; pose e : 'rV[R]_m.+1 := delta_mx 0 0; pose w := u - e.
have ee : rn e = 1.
  by rewrite rnE (bigD1 0) //= mxE eqxx expr1n big1 ?addr0 // => j /negPf h; rewrite mxE eqxx h expr0n.
case: (eqVneq w 0) => [w0|w0].
  exists 1%:M; rewrite ?trmx1 ?mulmx1 //; apply/eqP; rewrite eq_sym -subr_eq0; exact/eqP.
have nw : rn w != 0 by rewrite rn_eq0.
pose c := 2%:R / rn w; pose Z := 1%:M - c *: (w^T *m w).
have sZ : Z^T = Z by rewrite /Z linearB /= linearZ /= trmx_mul trmxK trmx1.
have ww : (w^T *m w) *m (w^T *m w) = rn w *: (w^T *m w).
  by rewrite mulmxA -(mulmxA w^T) rnM -mulmxA mul_scalar_mx -scalemxAr.
exists Z.
  rewrite sZ /Z; move: (w^T *m w) ww => W ww; rewrite mulmxBl mul1mx mulmxBr mulmx1 -scalemxAl -scalemxAr ww !scalerA.
  rewrite (_ : c * c * rn w = c + c); last by rewrite -mulrA {2}/c divfK // mulr_natr mulr2n.
  by rewrite scalerDl opprB addrA addrA subrK addrK.
have ew : (e *m w^T) 0 0 = u 0 0 - 1.
  by rewrite mxE (bigD1 0) //= big1 ?addr0 => [|j /negPf h]; rewrite !mxE ?eqxx ?h ?mul1r ?mul0r.
have eu : (u *m e^T) 0 0 = u 0 0.
  by rewrite mxE (bigD1 0) //= big1 ?addr0 => [|j /negPf h]; rewrite !mxE ?eqxx ?h ?mulr1 ?mulr0.
have nwE : rn w = - (2%:R * (u 0 0 - 1)).
  have uw : (u *m w^T) 0 0 = 1 - u 0 0.
    by rewrite /w linearB /= mulmxBr mxE -/(rn u) hu [X in 1 + X]mxE eu.
  rewrite /rn {1}/w mulmxBl mxE uw [X in _ + X]mxE ew mulrBr mulr1; rring.
rewrite /Z mulmxBr mulmx1 -scalemxAr mulmxA [e *m w^T]mx11_scalar ew mul_scalar_mx scalerA.
have -> : c * (u 0 0 - 1) = -1.
  apply: (mulIf nw); rewrite /c mulrAC divfK // mulN1r nwE; rring.
by rewrite scaleN1r opprK addrC subrK.
Qed.

(* an eigenvector of i M, split into real and imaginary parts *)
Lemma skew_pair m (M : 'M[R]_m.+1) : M^T = - M ->
  exists x y : 'rV[R]_m.+1, exists l : R, [/\ x *m M = l *: y, y *m M = - l *: x & (x != 0) || (y != 0)].
Proof.
move=> hM; pose A : 'M[CR]_m.+1 := 'i *: map_mx toC M.
have hA : hermitian A.
  rewrite /hermitian /A adjmZ conjCi; apply/matrixP => i j; rewrite !mxE.
  have -> : M j i = - M i j by move/matrixP/(_ i j): hM; rewrite !mxE.
  by rewrite !raddfN mulrN mulNr opprK; congr (_ * _); exact: (CrealP (toC_real _)).
have [u nu [l hl]] := eigen_row A.
have lr : l \is Num.real.
  apply/CrealP; have e : u *m A *m adjm u = (l * rn2 u)%:M by rewrite hl -scalemxAl [u *m _]mx11_scalar -/(rn2 u) scale_scalar_mx.
  move: e; rewrite nu mulr1 => e; have := congr1 (@adjm _ _ _) e.
  rewrite !adjmM adjmK hA mulmxA e => /matrixP/(_ 0 0); rewrite !mxE eqxx !mulr1n => h.
  by rewrite -h.
have h1 (z : CR) t : im (z * ('i * toC t)) = re z * t.
  rewrite -complexiE; case: z => a b; rewrite /im /re /=; rring.
have h2 (z : CR) t : re (z * ('i * toC t)) = - (im z * t).
  rewrite -complexiE; case: z => a b; rewrite /im /re /=; rring.
have h3 (z : CR) t : im (toC t * z) = t * im z.
  by case: z => a b; rewrite /im /= mul0r addr0.
exists (map_mx re u), (map_mx im u), (re l); split.
- apply/matrixP => i j; move/matrixP/(_ i j): hl; rewrite !mxE => /(congr1 im).
  rewrite raddf_sum -{1}(toC_re lr) h3 => <-; apply: eq_bigr => k _; by rewrite mxE [A _ _]mxE [X in 'i * X]mxE; exact/esym/h1.
- apply/matrixP => i j; move/matrixP/(_ i j): hl; rewrite !mxE => /(congr1 re).
  rewrite raddf_sum -{1}(toC_re lr) re_toC_mul mulNr => <-; rewrite -sumrN; apply: eq_bigr => k _; by rewrite mxE [A _ _]mxE [X in 'i * X]mxE; apply: canRL (@opprK _) _; exact/esym/h2.
apply/norP => -[/negPn/eqP x0 /negPn/eqP y0].
have u0 : u = 0.
  by apply/matrixP => i j; rewrite mxE; apply: CReq; [move/matrixP: x0|move/matrixP: y0] => /(_ i j); rewrite !mxE.
by move: nu; rewrite u0 /rn2 mul0mx mxE => /eqP; rewrite eq_sym oner_eq0.
Qed.

Definition skew_ok m (M : 'M[R]_m) :=
  exists Z T : 'M[R]_m, [/\ Z *m Z^T = 1%:M, M = Z *m T *m Z^T, T^T = - T & quasi_tri T].

Lemma quasi_small p (A : 'M[R]_p) : (p <= 2)%N -> quasi_tri A.
Proof.
move=> hp; split=> [i j h|i j k e1 e2]; first by have := ltn_ord i; lia.
by move: e1 e2 (ltn_ord k) => /= -> ->; lia.
Qed.

Lemma skew_step p q (M Z0 : 'M[R]_(p + q)) : (p <= 2)%N -> M^T = - M -> Z0 *m Z0^T = 1%:M ->
  ursubmx (Z0 *m M *m Z0^T) = 0 -> (forall M' : 'M[R]_q, M'^T = - M' -> skew_ok M') -> skew_ok M.
Proof.
move=> hp hM hZ; pose B := Z0 *m M *m Z0^T; rewrite -/B => hB ih.
have aB : B^T = - B by rewrite /B !trmx_mul trmxK hM mulNmx mulmxN mulmxA.
have MB : M = Z0^T *m B *m Z0.
  by rewrite /B !mulmxA (mulmx1C hZ) mul1mx -mulmxA (mulmx1C hZ) mulmx1.
clearbody B; have {}hB : B = block_mx (ulsubmx B) 0 0 (drsubmx B).
  rewrite -{1}(submxK B) hB; congr block_mx; apply/matrixP => i j.
  move/matrixP/(_ j i): hB; rewrite !mxE => h; move/matrixP/(_ (rshift p i) (lshift q j)): aB; rewrite !mxE h => /esym/eqP.
  by rewrite oppr_eq0 => /eqP.
have aJ : (ulsubmx B)^T = - ulsubmx B by rewrite trmx_ulsub aB; apply/matrixP => i j; rewrite !mxE.
have aD : (drsubmx B)^T = - drsubmx B by rewrite trmx_drsub aB; apply/matrixP => i j; rewrite !mxE.
have [Z [T [oZ eD aT qT]]] := ih _ aD.
move: hB aJ; move: (ulsubmx B) => J hB aJ.
pose Y := block_mx 1%:M 0 0 Z : 'M[R]_(p + q).
have oY : Y *m Y^T = 1%:M.
  by rewrite /Y tr_block_mx !trmx0 trmx1 mulmx_block !(mulmx0, mul0mx, addr0, add0r) mulmx1 oZ -scalar_mx_block.
exists (Z0^T *m Y), (block_mx J 0 0 T); split.
- by rewrite trmx_mul trmxK mulmxA -(mulmxA Z0^T) oY mulmx1 (mulmx1C hZ).
- rewrite trmx_mul trmxK MB hB eD /Y tr_block_mx !trmx0 trmx1 !mulmxA; congr (_ *m Z0); rewrite -!mulmxA; congr (_ *m _).
  by rewrite !mulmx_block !(mulmx0, mul0mx, addr0, add0r, mulmx1, mul1mx) mulmxA.
- by rewrite tr_block_mx !trmx0 aJ aT opp_block_mx !oppr0.
by apply: quasi_block => //; exact: quasi_small.
Qed.

Lemma rnZ m c (u : 'rV[R]_m) : rn (c *: u) = c ^+ 2 * rn u.
Proof. by rewrite /rn linearZ /= -scalemxAl -scalemxAr !mxE mulrA expr2. Qed.
Lemma rn_normalise m (u : 'rV[R]_m) : u != 0 -> exists2 c : R, c != 0 & rn (c *: u) = 1.
Proof.
move=> nz; have p : 0 < rn u by rewrite lt0r rn_eq0 nz rn_ge0.
exists (Num.sqrt (rn u))^-1; first by rewrite invr_eq0 sqrtr_eq0 -ltNge.
by rewrite rnZ exprVn sqr_sqrtr ?ltW // mulVf // gt_eqF.
Qed.

Lemma orth_block m (Z : 'M[R]_m) : Z *m Z^T = 1%:M ->
  (block_mx 1%:M 0 0 Z : 'M[R]_(1 + m)) *m (block_mx 1%:M 0 0 Z : 'M[R]_(1 + m))^T = 1%:M.
Proof.
by move=> o; rewrite tr_block_mx !trmx0 trmx1 mulmx_block !(mulmx0, mul0mx, addr0, add0r) mulmx1 o -scalar_mx_block.
Qed.

Lemma rowblk m (Z : 'M[R]_m) a (b : 'rV[R]_m) :
  (row_mx a b : 'rV[R]_(1 + m)) *m (block_mx 1%:M 0 0 Z : 'M[R]_(1 + m)) = row_mx a (b *m Z).
Proof. by rewrite mul_row_block !(mulmx0, mul0mx, addr0, add0r) mulmx1. Qed.

Theorem skew_normal m (M : 'M[R]_m) : M^T = - M -> skew_ok M.
Proof.
elim/ltn_ind: m M => -[_ M hM|m ih M hM].
  exists 1%:M, M; split=> //; rewrite ?trmx1 ?mulmx1 ?mul1mx //; exact: quasi_small.
have [x [y [l [hx hy nz]]]] := skew_pair hM.
have anti (a b : 'rV[R]_m.+1) : (a *m M *m b^T) 0 0 = - (b *m M *m a^T) 0 0.
  have -> : (a *m M *m b^T) 0 0 = (a *m M *m b^T)^T 0 0 by rewrite [RHS]mxE.
  by rewrite !trmx_mul trmxK hM mulNmx mulmxN mulmxA mxE.
case: (eqVneq l 0) => [l0|l0].
  have [v nv hv] : exists2 v : 'rV[R]_m.+1, v != 0 & v *m M = 0.
    by case/orP: nz => h; [ exists x | exists y ]; rewrite ?hx ?hy ?l0 ?oppr0 ?scale0r.
  have [c _ nc] := rn_normalise nv; have [Z oZ eZ] := real_completion nc.
  apply: (@skew_step 1 m M Z) => //; last by move=> M' ?; exact: ih.
  have r0 : row 0 (Z *m M *m Z^T) = 0 by rewrite rowE !mulmxA eZ -scalemxAl hv scaler0 mul0mx.
  clear -r0; move: r0; move: (Z *m M *m Z^T) => B r0; apply/matrixP => i j; rewrite !mxE.
  by move/rowP/(_ (rshift 1 j)): r0; rewrite !mxE ord1 => <-; congr (B _ _); exact: val_inj.
have xy : (y *m x^T) 0 0 = 0.
  have /eqP := anti x x; rewrite hx -scalemxAl mxE -addr_eq0 -mulr2n mulrn_eq0 /= mulf_eq0 (negPf l0) /=.
  by move/eqP.
have nxy : rn x = rn y.
  have := anti x y; rewrite hx hy -!scalemxAl [LHS]mxE [X in _ = - X]mxE mulNr opprK => /(mulfI l0).
  by rewrite -/(rn x) -/(rn y) => ->.
have x0 : x != 0 by apply/negP => /eqP h; move: nz; rewrite -!rn_eq0 -nxy h /rn mul0mx mxE eqxx.
have [c c0 nc] := rn_normalise x0.
have ncy : rn (c *: y) = 1 by rewrite -nc !rnZ nxy.
have [Z1 o1 e1] := real_completion nc.
have hx' : (c *: x) *m M = l *: (c *: y) by rewrite -scalemxAl hx !scalerA mulrC.
have hy' : (c *: y) *m M = - l *: (c *: x) by rewrite -scalemxAl hy !scalerA mulrC.
have {}xy : ((c *: y) *m (c *: x)^T) 0 0 = 0 by rewrite linearZ /= -scalemxAl -scalemxAr mxE [X in _ * X]mxE xy !mulr0.
move: hx' hy' xy ncy e1 {nc hx hy nz nxy x0}; move: (c *: x) (c *: y) => {}x {}y hx hy xy ny e1.
pose w : 'rV[R]_(1 + m) := y *m Z1^T.
have wE : w = row_mx 0 (rsubmx w).
  have xk k : x 0 k = Z1 0 k by rewrite -e1 -rowE mxE.
  rewrite -{1}(hsubmxK w); congr row_mx; apply/matrixP => i j; rewrite [RHS]mxE -[RHS]xy !mxE.
  by apply: eq_bigr => k _; rewrite !mxE xk !ord1; congr (_ * Z1 _ _); exact: val_inj.
have nw : rn (rsubmx w) = 1.
  have : rn w = 1 by rewrite /rn /w trmx_mul trmxK mulmxA -(mulmxA y) (mulmx1C o1) mulmx1.
  by rewrite wE /rn tr_row_mx mul_row_col mul0mx add0r row_mxKr.
case: m => [|m] in M hM ih anti x y hx hy xy ny Z1 o1 e1 w wE nw *.
  by move/eqP: nw; rewrite /rn mxE big_ord0 eq_sym oner_eq0.
have [Z2 o2 e2] := real_completion nw.
pose Z : 'M[R]_(2 + m) := (block_mx 1%:M 0 0 Z2 : 'M[R]_(1 + m.+1)) *m Z1.
have oZ : Z *m Z^T = 1%:M.
  rewrite /Z trmx_mul mulmxA -(mulmxA _ Z1) o1 mulmx1; exact: orth_block.
have z0 : delta_mx 0 0 *m Z = x.
  rewrite /Z mulmxA -e1; congr (_ *m _).
  have -> : (delta_mx 0 0 : 'rV[R]_(1 + m.+1)) = row_mx 1%:M 0.
    by apply/rowP => j; rewrite !mxE; case: (@splitP 1 m.+1 j) => k e; rewrite !mxE ?ord1 /= -!val_eqE /= e ?ord1.
  by rewrite (rowblk Z2) mul0mx.
have z1 : delta_mx 0 1 *m Z = y.
  rewrite /Z mulmxA; have -> : (delta_mx 0 1 : 'rV[R]_(1 + m.+1)) = row_mx 0 (delta_mx 0 0).
    by apply/rowP => j; rewrite !mxE; case: (@splitP 1 m.+1 j) => k e; rewrite !mxE ?ord1 /= -!val_eqE /= e ?ord1.
  rewrite (rowblk Z2) e2 -wE /w -mulmxA (mulmx1C o1) mulmx1 //.
clearbody Z; apply: (@skew_step 2 m M Z) => //; last by move=> M' ?; apply: ih; rewrite // ltnW.
have r0 : row 0 (Z *m M *m Z^T) = l *: delta_mx 0 1.
  by rewrite rowE !mulmxA [X in X *m _ *m _]z0 hx -z1 -scalemxAl -mulmxA oZ mulmx1.
have r1 : row 1 (Z *m M *m Z^T) = - l *: delta_mx 0 0.
  by rewrite rowE !mulmxA [X in X *m _ *m _]z1 hy -z0 -scalemxAl -mulmxA oZ mulmx1.
clear -r0 r1; move: r0 r1; move: (Z *m M *m Z^T) => B r0 r1; apply/matrixP => i j; rewrite !mxE.
case: (unliftP 0 i) => [i'|] ->.
  move/rowP/(_ (rshift 2 j)): r1; rewrite !mxE ord1 (_ : rshift 2 j == 0 = false) ?andbF ?mulr0 // => <-.
  by congr (B _ _); apply/val_inj; rewrite /= ?ord1.
move/rowP/(_ (rshift 2 j)): r0; rewrite !mxE (_ : rshift 2 j == 1 = false) ?andbF ?mulr0 // => <-.
by congr (B _ _); apply/val_inj.
Qed.

(* so the contract of the real Schur decomposition can be met *)
