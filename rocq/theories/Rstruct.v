(** The real numbers of the standard library as a real closed field of mathcomp. *)
From Coq Require Import Reals Lra ClassicalEpsilon FunctionalExtensionality.
From mathcomp Require Import all_ssreflect all_algebra.
Set Implicit Arguments.
Unset Strict Implicit.
Unset Printing Implicit Defensive.
Local Open Scope R_scope.

Definition eqr (x y : R) : bool := if Req_EM_T x y is left _ then true else false.
Lemma eqrP : Equality.axiom eqr.
Proof. by move=> x y; rewrite /eqr; case: Req_EM_T => H; constructor. Qed.
Canonical R_eqMixin := EqMixin eqrP.
Canonical R_eqType := Eval hnf in EqType R R_eqMixin.

Definition pickR (P : pred R) (n : nat) : option R :=
  let x := epsilon (inhabits 0) P in if P x then Some x else None.
Fact pickR_some P n x : pickR P n = Some x -> P x.
Proof. by rewrite /pickR; case: ifP => // Px [<-]. Qed.
Fact pickR_ex (P : pred R) : (exists x : R, P x) -> exists n, pickR P n.
Proof. by move=> H; exists 0%nat; rewrite /pickR (epsilon_spec (inhabits 0) P H). Qed.
Fact pickR_ext (P Q : pred R) : P =1 Q -> pickR P =1 pickR Q.
Proof. by move=> /functional_extensionality ->. Qed.
Definition R_choiceMixin : choiceMixin R := Choice.Mixin pickR_some pickR_ex pickR_ext.
Canonical R_choiceType := Eval hnf in ChoiceType R R_choiceMixin.

Fact RplusA : associative Rplus. Proof. by move=> x y z; rewrite Rplus_assoc. Qed.
Definition R_zmodMixin := ZmodMixin RplusA Rplus_comm Rplus_0_l Rplus_opp_l.
Canonical R_zmodType := Eval hnf in ZmodType R R_zmodMixin.

Fact RmultA : associative Rmult. Proof. by move=> x y z; rewrite Rmult_assoc. Qed.
Fact R1_neq_0 : R1 != R0. Proof. by apply/eqP; apply: R1_neq_R0. Qed.
Definition R_ringMixin := RingMixin RmultA Rmult_1_l Rmult_1_r Rmult_plus_distr_r Rmult_plus_distr_l R1_neq_0.
Canonical R_ringType := Eval hnf in RingType R R_ringMixin.
Canonical R_comRingType := Eval hnf in ComRingType R Rmult_comm.

Definition Rinvx r := if r != 0 then / r else r.
Definition unit_R r := r != 0.
Lemma RmultRinvx : {in unit_R, left_inverse 1 Rinvx Rmult}.
Proof. by move=> r; rewrite -topredE /unit_R /Rinvx => /= rN; rewrite rN Rinv_l //; apply/eqP. Qed.
Lemma RinvxRmult : {in unit_R, right_inverse 1 Rinvx Rmult}.
Proof. by move=> r; rewrite -topredE /unit_R /Rinvx => /= rN; rewrite rN Rinv_r //; apply/eqP. Qed.
Lemma intro_unit_R x y : y * x = 1 /\ x * y = 1 -> unit_R x.
Proof. by case=> yxE1 _; apply/eqP => xE0; move: yxE1; rewrite xE0 Rmult_0_r => /esym; apply: R1_neq_R0. Qed.
Lemma Rinvx_out : {in predC unit_R, Rinvx =1 id}.
Proof. by move=> x; rewrite inE /= /Rinvx -if_neg => ->. Qed.
Definition R_unitRingMixin := UnitRingMixin RmultRinvx RinvxRmult intro_unit_R Rinvx_out.
Canonical R_unitRing := Eval hnf in UnitRingType R R_unitRingMixin.
Canonical R_comUnitRingType := Eval hnf in [comUnitRingType of R].

Lemma R_idomainMixin (x y : R) : x * y = 0 -> (x == 0) || (y == 0).
Proof. by case/Rmult_integral => ->; rewrite eqxx // orbT. Qed.
Canonical R_idomainType := Eval hnf in IdomainType R R_idomainMixin.
Lemma R_field_mixin : GRing.Field.mixin_of [unitRingType of R]. Proof. by done. Qed.
Definition R_fieldIdomainMixin := FieldIdomainMixin R_field_mixin.
Canonical R_fieldType := FieldType R R_field_mixin.

Definition Rleb (x y : R) : bool := if Rle_dec x y is left _ then true else false.
Definition Rltb (x y : R) : bool := if Rlt_dec x y is left _ then true else false.
Lemma RlebP x y : reflect (x <= y) (Rleb x y).
Proof. by rewrite /Rleb; case: Rle_dec => H; constructor. Qed.
Lemma RltbP x y : reflect (x < y) (Rltb x y).
Proof. by rewrite /Rltb; case: Rlt_dec => H; constructor. Qed.

Section Order.
Import GRing.Theory.
Lemma Rle0D x y : Rleb 0 x -> Rleb 0 y -> Rleb 0 (x + y).
Proof. by move=> /RlebP ? /RlebP ?; apply/RlebP; lra. Qed.
Lemma Rle0M x y : Rleb 0 x -> Rleb 0 y -> Rleb 0 (x * y).
Proof. by move=> /RlebP ? /RlebP ?; apply/RlebP; apply: Rmult_le_pos. Qed.
Lemma Rle0_anti x : Rleb 0 x -> Rleb x 0 -> x = 0.
Proof. by move=> /RlebP ? /RlebP ?; lra. Qed.
Lemma Rsub_ge0 x y : Rleb 0 (y - x) = Rleb x y.
Proof. by apply/RlebP/RlebP; lra. Qed.
Lemma Rle0_total x : Rleb 0 x || Rleb x 0.
Proof. by apply/orP; case: (Rle_dec 0 x) => ?; [left|right]; apply/RlebP; lra. Qed.
Lemma RabsN x : Rabs (- x) = Rabs x. Proof. exact: Rabs_Ropp. Qed.
Lemma Rge0_abs x : Rleb 0 x -> Rabs x = x.
Proof. by move=> /RlebP ?; rewrite Rabs_pos_eq. Qed.
Lemma Rlt_def x y : Rltb x y = (y != x) && Rleb x y.
Proof.
apply/RltbP/andP => [H|[/eqP H1 /RlebP H2]].
  by split; [apply/eqP; lra | apply/RlebP; lra].
by case: H2 => // E; case: H1; rewrite E.
Qed.
End Order.

Definition R_leMixin : realLeMixin [idomainType of R] :=
  RealLeMixin Rle0D Rle0M Rle0_anti Rsub_ge0 Rle0_total RabsN Rge0_abs Rlt_def.
Canonical R_porderType := POrderType ring_display R R_leMixin.
Canonical R_latticeType := LatticeType R R_leMixin.
Canonical R_distrLatticeType := DistrLatticeType R R_leMixin.
Canonical R_orderType := OrderType R R_leMixin.
Canonical R_numDomainType := NumDomainType R R_leMixin.
Canonical R_normedZmodType := NormedZmodType R R R_leMixin.
Canonical R_numFieldType := [numFieldType of R].
Canonical R_realDomainType := [realDomainType of R].
Canonical R_realFieldType := [realFieldType of R].

(** ** Translation of the operations *)
Section Translate.
Import GRing.Theory Num.Theory.
Lemma RplusE (x y : R) : Rplus x y = (x + y)%R. Proof. by []. Qed.
Lemma RminusE (x y : R) : Rminus x y = (x - y)%R. Proof. by []. Qed.
Lemma RoppE (x : R) : Ropp x = (- x)%R. Proof. by []. Qed.
Lemma RmultE (x y : R) : Rmult x y = (x * y)%R. Proof. by []. Qed.
Lemma RinvE (x : R) : GRing.inv x = / x.
Proof.
rewrite /GRing.inv /= /Rinvx; case: ifP => // /negbFE /eqP ->.
by rewrite Rinv_0.
Qed.
Lemma RdivE (x y : R) : (GRing.mul x (GRing.inv y)) = x / y.
Proof. by rewrite RinvE. Qed.
Lemma R0E : GRing.zero _ = 0 :> R. Proof. by []. Qed.
Lemma R1E : GRing.one _ = 1 :> R. Proof. by []. Qed.
Lemma RlePx (x y : R) : reflect (x <= y) (Order.le x y). Proof. exact: RlebP. Qed.
Lemma RltPx (x y : R) : reflect (x < y) (Order.lt x y). Proof. exact: RltbP. Qed.
Lemma RabsE (x : R) : Num.norm x = Rabs x. Proof. by []. Qed.
Lemma RpowE (x : R) n : GRing.exp x n = pow x n.
Proof. by elim: n => [|n IH]; rewrite ?expr0 // exprS IH. Qed.
Lemma INRE n : (GRing.natmul (GRing.one _) n : R) = INR n.
Proof. by elim: n => [|n IH]; rewrite ?mulr0n // S_INR -IH -addn1 natrD. Qed.
End Translate.

(** ** Polynomials have the intermediate value property *)
Section Rcf.
Import GRing.Theory Num.Theory Order.TTheory.
Local Open Scope ring_scope.
Lemma continuity_horner (p : {poly R}) : continuity (fun x => p.[x]).
Proof.
elim/poly_ind: p => [|p c IH].
  have -> : (fun x => (0 : {poly R}).[x]) = fct_cte 0%R.
    by apply: functional_extensionality => x; rewrite horner0.
  by apply: continuity_const.
have -> : (fun x => (p * 'X + c%:P).[x]) = (fun x => Rplus (Rmult p.[x] x) c).
  by apply: functional_extensionality => x; rewrite hornerMXaddC.
apply: continuity_plus; last by apply: continuity_const.
apply: (continuity_mult (fun x => p.[x]) id) => //.
by apply: derivable_continuous; apply: derivable_id.
Qed.

Lemma R_real_closed : Num.real_closed_axiom [numDomainType of R].
Proof.
move=> p a b /RlePx ab /andP[/RlePx pa /RlePx pb].
have G (u v : R) : Rle u R0 -> Rle R0 v -> Rle (Rmult u v) R0 by move=> ? ?; nra.
have H := G _ _ pa pb.
have [z [[az zb] pz]] := IVT_cor (fun x => p.[x]) a b (@continuity_horner p) ab H.
exists z; first by apply/andP; split; apply/RlePx.
by apply/rootP.
Qed.
Canonical R_rcfType := RcfType R R_real_closed.

Lemma RsqrtE (x : R) : Num.sqrt x = sqrt x.
Proof.
have [x0|x0] := lerP 0 x; last first.
  by rewrite ltr0_sqrtr // sqrt_neg_0 //; apply/RlePx; apply: ltW.
rewrite -{2}(sqr_sqrtr x0) expr2 -RmultE sqrt_square //.
by apply/RlePx; apply: sqrtr_ge0.
Qed.
End Rcf.

(** Turns the operations of mathcomp on [R] into those of the standard library. *)
Lemma Rnat2E : (GRing.natmul (GRing.one _) 2 : R) = 2. Proof. by []. Qed.

Lemma RnatE n : (GRing.natmul (GRing.one _) n : R) = IZR (Z.of_nat n).
Proof. by rewrite INRE INR_IZR_INZ. Qed.

Ltac Rify_ops :=
  repeat match goal with
  | |- context [@GRing.natmul ?V (GRing.one ?W) ?n] =>
      let r := eval cbv in (Z.of_nat n) in
      (change (@GRing.natmul V (GRing.one W) n) with (IZR r) ||
       rewrite (RnatE n : @GRing.natmul V (GRing.one W) n = IZR r))
  | |- context [@GRing.add ?V ?x (@GRing.opp ?W ?y)] => change (@GRing.add V x (@GRing.opp W y)) with (Rminus x y)
  | |- context [@GRing.add ?V ?x ?y] => change (@GRing.add V x y) with (Rplus x y)
  | |- context [@GRing.mul ?V ?x ?y] => change (@GRing.mul V x y) with (Rmult x y)
  | |- context [@GRing.opp ?V ?x] => change (@GRing.opp V x) with (Ropp x)
  | |- context [GRing.zero ?V] => change (GRing.zero V) with (IZR Z0)
  | |- context [GRing.one ?V] => change (GRing.one V) with (IZR (Zpos xH))
  | |- context [@Num.Def.normr ?V ?W ?x] => change (@Num.Def.normr V W x) with (Rabs x)
  end.
(** Rewrites the goal (a hypothesis) with the operations of the standard library. *)
Ltac Rify_expr := rewrite ?RinvE ?RsqrtE ?RpowE; Rify_ops.
Ltac Rify :=
  try match goal with
  | |- is_true (@Order.le ?d ?T ?a ?b) => apply (introT (RlePx a b))
  | |- is_true (@Order.lt ?d ?T ?a ?b) => apply (introT (RltPx a b))
  | |- @eq ?T ?a ?b => change (@eq R a b)
  end; Rify_expr.
Ltac Rify_in H :=
  try match type of H with
  | is_true (@Order.le ?d ?T ?a ?b) => apply (elimT (RlePx a b)) in H
  | is_true (@Order.lt ?d ?T ?a ?b) => apply (elimT (RltPx a b)) in H
  | @eq ?T ?a ?b => change (@eq R a b) in H
  end; revert H; Rify_expr; intro H.
Section Test.
Import GRing.Theory Num.Theory Order.TTheory.
Local Open Scope ring_scope.
Goal forall x y : R_rcfType, 0 <= x -> x < y -> `|x| + 1 <= y ^+ 2 * 2%:R + 2%:R.
Proof. move=> x y H H'; Rify; Rify_in H; Rify_in H'. rewrite Rabs_pos_eq; nra. Qed.
Goal forall x y : R_rcfType, x != 0 -> Num.sqrt (x ^+ 2) / x = `|x| * x^-1.
Proof. move=> x y x0; Rify. by rewrite -Rsqr_pow2 sqrt_Rsqr_abs. Qed.
End Test.
