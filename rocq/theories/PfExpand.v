(* PfExpand.v -- expansion of the Pfaffian along the first row *)
Set Warnings "-notation-overridden,-ambiguous-paths".
From mathcomp Require Import all_ssreflect all_fingroup all_algebra.
From mathcomp.zify Require Import zify.
From Verif Require Import Base MCombinatorics CombPerm Matching Pfaffian.
Set Implicit Arguments.
Unset Strict Implicit.
Unset Printing Implicit Defensive.
Import GRing.Theory Num.Theory.
Local Open Scope ring_scope.

Lemma sum_perm_fix (V : zmodType) n (G : 'S_n.+1 -> V) i0 j0 :
  \sum_(s : 'S_n.+1 | s i0 == j0) G s = \sum_(t : 'S_n) G (lift_perm i0 j0 t).
Proof.
rewrite (reindex (lift_perm i0 j0)); last first.
  pose ulsf i (s : 'S_n.+1) k := odflt k (unlift (s i) (s (lift i k))).
  have ulsfK i (s : 'S_n.+1) k: lift (s i) (ulsf i s k) = s (lift i k).
    rewrite /ulsf; have:= neq_lift i k.
    by rewrite -(can_eq (permK s)) => /unlift_some[] ? ? ->.
  have inj_ulsf: injective (ulsf i0 _).
    move=> s; apply: can_inj (ulsf (s i0) s^-1%g) _ => k'.
    by rewrite {1}/ulsf ulsfK !permK liftK.
  exists (fun s => perm (inj_ulsf s)) => [s _ | s].
    by apply/permP=> k'; rewrite permE /ulsf lift_perm_lift lift_perm_id liftK.
  move/(s _ =P _) => si0; apply/permP=> k.
  case: (unliftP i0 k) => [k'|] ->; rewrite ?lift_perm_id //.
  by rewrite lift_perm_lift -si0 permE ulsfK.
by apply: eq_bigl => s; rewrite lift_perm_id eqxx.
Qed.

Section Expand.
Variables (T : comRingType) (k : nat).
Local Notation n := (k.*2).
Local Notation n2 := (k.+1.*2).
Implicit Types A : 'M[T]_n2.

(* A without the rows and columns 0 and j + 1 *)
Definition minor2 A (j : 'I_n.+1) : 'M[T]_n := \matrix_(a, b) A (lift (ord0 : 'I_n.+2) (lift j a)) (lift (ord0 : 'I_n.+2) (lift j b)).

Definition pterm A (s : 'S_n2) : T :=
  (-1) ^+ (odd_perm s) * \prod_(i < k.+1) A (s (@d k.+1 i false)) (s (@d k.+1 i true)).

Lemma minor2_skew A j : A^T = - A -> (minor2 A j)^T = - minor2 A j.
Proof. by move=> h; apply/matrixP => a b; rewrite !mxE -[A in LHS]opprK -h !mxE. Qed.

(* the term depends on the matching only *)
Lemma pterm_mof A (s t : 'S_n2) : A^T = - A -> @mof k.+1 s = @mof k.+1 t -> pterm A s = pterm A t.
Proof.
move=> skA e.
have H (u : 'S_(k.+1.*2)) : pterm A u = (-1) ^+ crossings (mof u) * mweight A (mof u).
  rewrite /pterm sign_mof signr_addb signr_odd -mulrA; congr (_ * _).
  rewrite /mweight big_edge.
  have -> : (-1) ^+ (\big[addb/false]_(i < k.+1) (u (d i true) < u (d i false))%N) =
     \prod_(i < k.+1) (-1) ^+ (u (d i true) < u (d i false))%N :> T.
    by apply: (big_morph (fun b : bool => (-1) ^+ b : T)) => // a b; rewrite signr_addb.
  rewrite -big_split; apply: eq_bigr => i _ /=; rewrite /e_of.
  have := d_neq u i; rewrite -val_eqE neq_ltn; case: ltngtP => //= h _; first by rewrite mul1r.
  by rewrite expr1 mulN1r -{1}[A]opprK -skA !mxE opprK.
by rewrite !H e.
Qed.

Lemma pterm_pos A (x : 'I_n2) : A^T = - A ->
  \sum_(s : 'S_n2 | s x == (ord0 : 'I_n.+2)) pterm A s = \sum_(s : 'S_n2 | s ord0 == (ord0 : 'I_n.+2)) pterm A s.
Proof.
move=> skA; have [i [e ex]] := @dP k.+1 x; have e0 : (ord0 : 'I_n.+2) = @d k.+1 ord0 false by apply: val_inj.
pose pf : {perm 'I_k.+1} * {ffun 'I_k.+1 -> bool} := (tperm ord0 i, [ffun => e]).
pose h (s : 'S_n2) : 'S_n2 := @act k.+1 s pf.
have hE s : h s (ord0 : 'I_n.+2) = s x by rewrite {1}e0 /h actE /= tpermL ffunE ex.
have hi : injective h.
  move=> s t E; apply/permP => y; have [j [b ->]] := @dP k.+1 y.
  have := congr1 (fun u : 'S_n2 => u (@d k.+1 (tperm ord0 i j) (b (+) e))) E.
  by rewrite /h !actE /= !ffunE tpermK addbK.
rewrite [RHS](reindex h) /=; last exact: onW_bij (injF_bij hi).
by apply: eq_big => [s|s _]; [rewrite hE|apply: pterm_mof => //; rewrite /h mof_act].
Qed.

Lemma psum_first A : A^T = - A ->
  @psum T k.+1 A = (\sum_(s : 'S_n2 | s ord0 == (ord0 : 'I_n.+2)) pterm A s) *+ k.+1.*2.
Proof.
move=> skA; rewrite /psum (partition_big (fun s : 'S_n2 => s^-1%g (ord0 : 'I_n.+2)) xpredT) //=.
rewrite -[X in _ *+ X](card_ord n2) -sumr_const; apply: eq_bigr => x _.
rewrite -(pterm_pos x skA); apply: eq_bigl => s.
by rewrite (canF_eq (permKV s)) eq_sym.
Qed.

Lemma d_lift (i : 'I_k) e : @d k.+1 (lift ord0 i) e = lift ord0 (lift ord0 (d i e)).
Proof. by apply: val_inj; rewrite /= /bump /=; lia. Qed.

Lemma psum_fix A : \sum_(s : 'S_n2 | s ord0 == (ord0 : 'I_n.+2)) pterm A s =
  \sum_(j < n.+1) (-1) ^+ j * A (ord0 : 'I_n.+2) (lift (ord0 : 'I_n.+2) j) * psum (minor2 A j).
Proof.
rewrite sum_perm_fix (partition_big (fun t : 'S_n.+1 => t ord0) xpredT) //=.
apply: eq_bigr => j _; rewrite sum_perm_fix big_distrr /=; apply: eq_bigr => u _.
have e0 : @d k.+1 ord0 false = ord0 by apply: val_inj.
have e1 : @d k.+1 ord0 true = lift ord0 ord0 by apply: val_inj.
rewrite [pterm _ _]/pterm big_ord_recl e0 e1 lift_perm_id !lift_perm_lift lift_perm_id.
rewrite !odd_lift_perm /= signr_addb signr_odd !mulrA; congr (_ * _).
  by rewrite mulrAC.
by apply: eq_bigr => i _; rewrite !d_lift !lift_perm_lift mxE.
Qed.
End Expand.

Theorem pfaffian_expand (F : numFieldType) k (A : 'M[F]_(k.+1.*2)) : A^T = - A ->
  pfaffian A = \sum_(j < k.*2.+1) (-1) ^+ j * A (ord0 : 'I_k.*2.+2) (lift (ord0 : 'I_k.*2.+2) j) * pfaffian (minor2 A j).
Proof.
move=> skA; have := psum_first skA; rewrite psum_fix psumE //.
rewrite (eq_bigr (fun j : 'I_k.*2.+1 => ((-1) ^+ j * A (ord0 : 'I_k.*2.+2) (lift (ord0 : 'I_k.*2.+2) j) * pfaffian (minor2 A j)) *+ (2 ^ k * k`!))).
  rewrite sumrMnl -mulrnA => /(congr1 (fun x => x / (2 ^ k * k`! * k.+1.*2)%:R)).
  have -> : (2 ^ k.+1 * k.+1`! = 2 ^ k * k`! * k.+1.*2)%N by rewrite factS expnS -muln2; lia.
  rewrite -[X in X / _ = _]mulr_natr -[X in _ = X / _]mulr_natr !mulfK // pnatr_eq0 -lt0n;
    by rewrite !muln_gt0 expn_gt0 fact_gt0.
by move=> j _; rewrite psumE; [rewrite mulrnAr|exact: minor2_skew].
Qed.
