(* RealC.v -- Coq's real numbers as a MathComp real closed field; complex numbers C = R[i].
   Classical epsilon (Coq.Logic.Epsilon) gives the choice structure, functional extensionality its extensionality. *)
Set Warnings "-notation-overridden,-ambiguous-paths,-redundant-canonical-projection".
From Coq Require Import Reals Lra Epsilon FunctionalExtensionality.
From mathcomp Require Import all_ssreflect all_algebra.
From mathcomp Require Import complex.
Set Implicit Arguments.
Unset Strict Implicit.
Unset Printing Implicit Defensive.
Import Order.Theory GRing.Theory Num.Theory.

Local Open Scope R_scope.

Definition eqr (x y : R) : bool := if Req_EM_T x y is left _ then true else false.
Lemma eqrP : Equality.axiom eqr.
Proof. by move=> x y; rewrite /eqr; case: Req_EM_T => h; constructor. Qed.
Canonical R_eqMixin := EqMixin eqrP.
Canonical R_eqType := Eval hnf in EqType R R_eqMixin.

Definition pickR (P : pred R) (n : nat) := let x := epsilon (inhabits 0) P in if P x then Some x else None.
Fact pickR_some P n x : pickR P n = Some x -> P x.
Proof. by rewrite /pickR; case: (boolP (P _)) => // Px [<-]. Qed.
Fact pickR_ex (P : pred R) : (exists x, P x) -> exists n, pickR P n.
Proof. by rewrite /pickR; move=> /(epsilon_spec (inhabits 0)) Px; exists 0%N; rewrite Px. Qed.
Fact pickR_ext (P Q : pred R) : P =1 Q -> pickR P =1 pickR Q.
Proof. by move=> /functional_extensionality ->. Qed.
Definition R_choiceMixin : choiceMixin R := Choice.Mixin pickR_some pickR_ex pickR_ext.
Canonical R_choiceType := Eval hnf in ChoiceType R R_choiceMixin.

Fact RplusA : associative Rplus. Proof. by move=> *; rewrite Rplus_assoc. Qed.
Definition R_zmodMixin := ZmodMixin RplusA Rplus_comm Rplus_0_l Rplus_opp_l.
Canonical R_zmodType := Eval hnf in ZmodType R R_zmodMixin.

Fact RmultA : associative Rmult. Proof. by move=> *; rewrite Rmult_assoc. Qed.
Fact R1_neq_0 : R1 != R0. Proof. by apply/eqP/R1_neq_R0. Qed.
Definition R_ringMixin :=
  RingMixin RmultA Rmult_1_l Rmult_1_r Rmult_plus_distr_r Rmult_plus_distr_l R1_neq_0.
Canonical R_ringType := Eval hnf in RingType R R_ringMixin.
Canonical R_comRingType := Eval hnf in ComRingType R Rmult_comm.

Definition unit_R (x : R) := x != 0.
Definition Rinvx (x : R) := if x != 0 then / x else x.
Lemma RmultRinvx : {in unit_R, left_inverse 1 Rinvx Rmult}.
Proof. by move=> x; rewrite -topredE /unit_R /Rinvx => /= h; rewrite h Rinv_l //; apply/eqP. Qed.
Lemma RinvxRmult : {in unit_R, right_inverse 1 Rinvx Rmult}.
Proof. by move=> x; rewrite -topredE /unit_R /Rinvx => /= h; rewrite h Rinv_r //; apply/eqP. Qed.
Lemma intro_unit_R x y : y * x = 1 /\ x * y = 1 -> unit_R x.
Proof. by case=> [h _]; apply/eqP => e; move: h; rewrite e Rmult_0_r => /esym/R1_neq_R0. Qed.
Lemma Rinvx_out : {in predC unit_R, Rinvx =1 id}.
Proof. by move=> x; rewrite inE /= /Rinvx -if_neg => ->. Qed.
Definition R_unitRingMixin := UnitRingMixin RmultRinvx RinvxRmult intro_unit_R Rinvx_out.
Canonical R_unitRingType := Eval hnf in UnitRingType R R_unitRingMixin.
Canonical R_comUnitRingType := Eval hnf in [comUnitRingType of R].

Lemma R_idomainMixin (x y : R) : x * y = 0 -> (x == 0) || (y == 0).
Proof. by move=> /Rmult_integral [->|->]; rewrite eqxx ?orbT. Qed.
Canonical R_idomainType := Eval hnf in IdomainType R R_idomainMixin.
Lemma R_field_mixin : GRing.Field.mixin_of [unitRingType of R]. Proof. by []. Qed.
Canonical R_fieldType := Eval hnf in FieldType R R_field_mixin.

Definition Rleb (x y : R) := if Rle_dec x y is left _ then true else false.
Definition Rltb (x y : R) := if Rlt_dec x y is left _ then true else false.
Lemma RlebP x y : reflect (x <= y) (Rleb x y).
Proof. by rewrite /Rleb; case: Rle_dec => h; constructor. Qed.
Lemma RltbP x y : reflect (x < y) (Rltb x y).
Proof. by rewrite /Rltb; case: Rlt_dec => h; constructor. Qed.

Lemma Rleb_norm_add x y : Rleb (Rabs (x + y)) (Rabs x + Rabs y).
Proof. by apply/RlebP/Rabs_triang. Qed.
Lemma addr_Rgtb0 x y : Rltb 0 x -> Rltb 0 y -> Rltb 0 (x + y).
Proof. by move=> /RltbP hx /RltbP hy; apply/RltbP/Rplus_lt_0_compat. Qed.
Lemma Rnorm0_eq0 x : Rabs x = 0 -> x = 0.
Proof. by move=> h; case: (x =P 0) => // /Rabs_no_R0; rewrite h. Qed.
Lemma Rleb_leVge x y : Rleb 0 x -> Rleb 0 y -> (Rleb x y) || (Rleb y x).
Proof.
move=> /RlebP hx /RlebP hy; case: (Rlt_le_dec x y) => h.
  by apply/orP; left; apply/RlebP; left.
by apply/orP; right; apply/RlebP.
Qed.
Lemma RnormM : {morph Rabs : x y / x * y}. Proof. exact: Rabs_mult. Qed.
Lemma Rleb_def x y : Rleb x y = (Rabs (y - x) == y - x).
Proof.
apply/RlebP/eqP => h; first by rewrite Rabs_pos_eq //; lra.
have := Rabs_pos (y - x); rewrite h; lra.
Qed.
Lemma Rltb_def x y : Rltb x y = (y != x) && Rleb x y.
Proof.
apply/RltbP/andP => [h|[/eqP h /RlebP h']]; last lra.
by split; [apply/eqP; lra|apply/RlebP; lra].
Qed.
Definition R_numMixin := NumMixin Rleb_norm_add addr_Rgtb0 Rnorm0_eq0 Rleb_leVge RnormM Rleb_def Rltb_def.
Canonical R_porderType := Eval hnf in POrderType ring_display R R_numMixin.
Canonical R_numDomainType := Eval hnf in NumDomainType R R_numMixin.
Canonical R_normedZmodType := Eval hnf in NormedZmodType R R R_numMixin.
Canonical R_numFieldType := Eval hnf in [numFieldType of R].

Lemma R_total : totalPOrderMixin R_porderType.
Proof.
move=> x y; case: (Rle_lt_dec x y) => h; first by apply/orP; left; apply/RlebP.
by apply/orP; right; apply/RlebP; left.
Qed.
Canonical R_latticeType := Eval hnf in LatticeType R R_total.
Canonical R_distrLatticeType := Eval hnf in DistrLatticeType R R_total.
Canonical R_orderType := Eval hnf in OrderType R R_total.
Canonical R_realDomainType := Eval hnf in [realDomainType of R].
Canonical R_realFieldType := Eval hnf in [realFieldType of R].

Lemma RleP (x y : R) : reflect (Rle x y) (x <= y)%R. Proof. exact: RlebP. Qed.
Lemma RltP (x y : R) : reflect (Rlt x y) (x < y)%R. Proof. exact: RltbP. Qed.

Lemma Rarchimedean_axiom : Num.archimedean_axiom R_numDomainType.
Proof.
move=> x; exists (Z.to_nat (up (Rabs x)) + 1)%N.
have [h _] := archimed (Rabs x); apply/RltP.
have nz (n : nat) : (n%:R)%R = INR n :> R.
  by elim: n => [|n IH] //; rewrite S_INR -IH -addn1 natrD.
rewrite nz plus_INR /= INR_IZR_INZ Znat.Z2Nat.id; last first.
  by apply: le_IZR; apply: Rlt_le; apply: Rle_lt_trans h; exact: Rabs_pos.
by rewrite -[(`|x|)%R]/(Rabs x); lra.
Qed.
Canonical R_archiFieldType := Eval hnf in ArchiFieldType R Rarchimedean_axiom.

Lemma natrINR (n : nat) : (n%:R)%R = INR n :> R.
Proof. by elim: n => [|n IH] //; rewrite S_INR -IH -addn1 natrD. Qed.
Lemma exprRE (x : R) n : (x ^+ n)%R = pow x n.
Proof. by elim: n => [|n IH] //; rewrite exprS IH. Qed.

(* continuity of polynomials and the intermediate value property *)
Lemma continuity_poly (p : {poly R}) : continuity (fun x => (p.[x])%R).
Proof.
elim/poly_ind: p => [|p c IH].
  have -> : (fun x => ((0 : {poly R}).[x])%R) = fct_cte 0 by apply: functional_extensionality => x; rewrite horner0.
  exact: continuity_const.
have -> : (fun x => ((p * 'X + c%:P).[x])%R) = plus_fct (mult_fct (fun x => (p.[x])%R) id) (fct_cte c).
  by apply: functional_extensionality => x; rewrite hornerMXaddC.
apply: continuity_plus; last exact: continuity_const.
by apply: continuity_mult => //; exact: derivable_continuous derivable_id.
Qed.

Lemma Rreal_closed_axiom : Num.real_closed_axiom R_numDomainType.
Proof.
move=> p a b ab /andP[/RleP pa /RleP pb].
have c : continuity (fun x => (p.[x])%R) := @continuity_poly p.
have [z [[/RleP az /RleP zb] /eqP pz]] : {z : R | a <= z <= b /\ (p.[z])%R = 0}.
  apply: (IVT_cor _ _ _ c); first exact/RleP.
  move: pa pb; move: (p.[a])%R (p.[b])%R => u v pa pb.
  have {}pa : u <= 0 by [].
  have {}pb : 0 <= v by [].
  have h : 0 <= - u * v by apply: Rmult_le_pos => //; lra.
  lra.
by exists z; rewrite ?az ?zb.
Qed.
Canonical R_rcfType := Eval hnf in RcfType R Rreal_closed_axiom.

(* the complex numbers *)
Definition CR := [numClosedFieldType of (R[i])%C].

(* notations in arguments of type R are those of ring_scope *)
#[global] Bind Scope ring_scope with R.
#[global] Arguments ln _%R.
#[global] Arguments exp _%R.
#[global] Arguments sqrt _%R.
#[global] Arguments Rabs _%R.
#[global] Arguments cos _%R.
#[global] Arguments sin _%R.

(* numerals *)
Lemma natrZ n : (n%:R)%R = IZR (Z.of_nat n) :> R. Proof. by rewrite natrINR INR_IZR_INZ. Qed.
Lemma natrVZ n : (n.+1%:R^-1)%R = Rinv (IZR (Z.of_nat n.+1)) :> R.
Proof. by rewrite -natrZ -[(_^-1)%R]/(Rinvx _) /Rinvx pnatr_eq0. Qed.

(* decision of linear / ring goals by Coq's lra, ring *)
Ltac toR1 :=
  match goal with
  | |- context [@GRing.add ?T ?a ?b] => change (@GRing.add T a b) with (Rplus a b)
  | |- context [@GRing.opp ?T ?a] => change (@GRing.opp T a) with (Ropp a)
  | |- context [@GRing.mul ?T ?a ?b] => change (@GRing.mul T a b) with (Rmult a b)
  | |- context [@GRing.zero ?T] => change (@GRing.zero T) with R0
  | |- context [@GRing.one ?T] => change (@GRing.one T) with R1
  end.
Ltac eqR := lazymatch goal with |- @eq _ ?a ?b => change (@eq R a b) | |- _ => idtac end.
Ltac numR := rewrite ?natrVZ ?natrZ; cbn [Z.of_nat Pos.of_succ_nat Pos.succ]; rewrite ?mulr2n ?expr2; repeat toR1.
Ltac rring := eqR; numR; ring.
Ltac rlra :=
  first [apply/RleP|apply/RltP|eqR];
  repeat match goal with
  | h : is_true (@Order.le _ _ _ _) |- _ => move/RleP: h
  | h : is_true (@Order.lt _ _ _ _) |- _ => move/RltP: h
  | h : @eq _ ?a ?b |- _ => change (@eq R a b) in h; revert h
  end; numR; intros; lra.

(* real part, imaginary part, and embedding of the reals *)
Definition re (z : CR) : R := complex.Re z.
Definition im (z : CR) : R := complex.Im z.
Definition toC (x : R) : CR := (x%:C)%C.

Section Bridge.
Local Open Scope ring_scope.
Implicit Types (x y : R) (z : CR).

Lemma toC_is_rmorphism : rmorphism toC. Proof. exact: ComplexField.real_complex_is_rmorphism. Qed.
Canonical toC_additive := Additive toC_is_rmorphism.
Canonical toC_rmorphism := RMorphism toC_is_rmorphism.
Lemma re_is_additive : additive re. Proof. by move=> [a b] [c d]. Qed.
Canonical re_additive := Additive re_is_additive.
Lemma im_is_additive : additive im. Proof. by move=> [a b] [c d]. Qed.
Canonical im_additive := Additive im_is_additive.

Lemma reK x : re (toC x) = x. Proof. by []. Qed.
Lemma im_toC x : im (toC x) = 0. Proof. by []. Qed.
Lemma toC_inj : injective toC. Proof. exact: complexI. Qed.
Lemma toC_le x y : (toC x <= toC y) = (x <= y). Proof. exact: lecR. Qed.
Lemma toC_lt x y : (toC x < toC y) = (x < y). Proof. exact: ltcR. Qed.
Lemma toC_ge0 x : (0 <= toC x) = (0 <= x). Proof. exact: ler0c. Qed.
Lemma toC_real x : toC x \is Num.real. Proof. by apply/complex_realP; exists x. Qed.
Lemma toC_norm x : `|toC x| = toC `|x|.
Proof. by rewrite [LHS]normc_def /= expr0n addr0 sqrtr_sqr. Qed.
Lemma toC_re z : z \is Num.real -> toC (re z) = z. Proof. exact: RRe_real. Qed.
Lemma toC_Re z : toC (re z) = 'Re z. Proof. exact: complexRe. Qed.
Lemma toC_Im z : toC (im z) = 'Im z. Proof. exact: complexIm. Qed.
Lemma re_norm_ge0 z : 0 <= re `|z|. Proof. by rewrite -toC_ge0 toC_re ?normr_ge0 // normr_real. Qed.
Lemma toC_re_norm z : toC (re `|z|) = `|z|. Proof. by rewrite toC_re // normr_real. Qed.
Lemma toC_sqrt x : 0 <= x -> sqrtC (toC x) = toC (Num.sqrt x).
Proof.
move=> h; apply/eqP; rewrite -(eqr_expn2 (ltn0Sn 1)) ?sqrtC_ge0 ?toC_ge0 ?sqrtr_ge0 //.
by rewrite sqrtCK -rmorphX /= sqr_sqrtr.
Qed.
Lemma re_le z z' : z <= z' -> re z <= re z'.
Proof. by rewrite [(_ <= _)]lecE => /andP[]. Qed.
Lemma re_toC_mul x z : re (toC x * z) = x * re z.
Proof. by case: z => a b; rewrite /re /= mul0r subr0. Qed.
Lemma toC_nat n : toC n%:R = n%:R. Proof. exact: rmorph_nat. Qed.
Lemma re_nat n : re n%:R = n%:R. Proof. by rewrite -toC_nat. Qed.
Lemma CReq z z' : re z = re z' -> im z = im z' -> z = z'.
Proof. by case: z z' => a b [c d]; rewrite /re /im /= => -> ->. Qed.
Lemma re0 z : 0 <= z -> 0 <= re z.
Proof. by move=> h; rewrite -toC_ge0 toC_re ?ger0_real. Qed.
End Bridge.
