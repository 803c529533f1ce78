(** Instances of [NumOps]: IEEE-754 binary64 and the real numbers. *)
From Coq Require Import ZArith Bool SpecFloat Reals Lra Lia.
From Verif Require Import Num_Model Num_Spec.

(** * binary64: NumPy float64 and Python float.
    Operations round to nearest even (standard library [SpecFloat], precision
    53, maximal exponent 1024).  [powf] is the platform's [pow], only used with
    user-supplied real exponents. *)
Definition f64_of_Z (z : Z) : spec_float := binary_normalize 53 1024 z 0 false.
Definition f64_is_zero (x : spec_float) : bool :=
  match x with S754_zero _ => true | _ => false end.

Definition f64 (powf : spec_float -> spec_float -> spec_float) : NumOps :=
  {| num := spec_float;
     n_of_Z := f64_of_Z;
     nadd := SFadd 53 1024;
     nsub := SFsub 53 1024;
     nmul := SFmul 53 1024;
     ndiv := fun x y => Ok (SFdiv 53 1024 x y);
     ndiv_py := fun x y => if f64_is_zero y then Raise ZeroDivisionError
                           else Ok (SFdiv 53 1024 x y);
     nneg := SFopp;
     nabs := SFabs;
     nsqrt := SFsqrt 53 1024;
     npow := powf;
     nlt := SFltb;
     nle := SFleb;
     nisnan := fun x => match x with S754_nan => true | _ => false end |}.

(** * The reals, with failing division by zero.  [pow] with real exponent is
    [Rpower] (0 for a zero base, which is right for positive exponents). *)
Definition Rltb (x y : R) : bool := if Rlt_dec x y then true else false.
Definition Rleb (x y : R) : bool := if Rle_dec x y then true else false.
Definition Rdiv_res (x y : R) : res R :=
  if Req_EM_T y 0 then Raise ZeroDivisionError else Ok (x / y)%R.
Definition Rpow_np (x y : R) : R :=
  if Req_EM_T x 0 then (if Req_EM_T y 0 then 1 else 0)%R else Rpower x y.

Definition Rnum : NumOps :=
  {| num := R;
     n_of_Z := IZR;
     nadd := Rplus;
     nsub := Rminus;
     nmul := Rmult;
     ndiv := Rdiv_res;
     ndiv_py := Rdiv_res;
     nneg := Ropp;
     nabs := Rabs;
     nsqrt := sqrt;
     npow := Rpow_np;
     nlt := Rltb;
     nle := Rleb;
     nisnan := fun _ => false |}.

Lemma Rltb_spec x y : Rltb x y = true <-> (x < y)%R.
Proof. unfold Rltb; destruct (Rlt_dec x y); split; auto; discriminate. Qed.
Lemma Rleb_spec x y : Rleb x y = true <-> (x <= y)%R.
Proof. unfold Rleb; destruct (Rle_dec x y); split; auto; discriminate. Qed.
Lemma Rltb_false x y : Rltb x y = false <-> (y <= x)%R.
Proof. unfold Rltb; destruct (Rlt_dec x y); split; intros; try lra; try discriminate; auto. Qed.
Lemma Rleb_false x y : Rleb x y = false <-> (y < x)%R.
Proof. unfold Rleb; destruct (Rle_dec x y); split; intros; try lra; try discriminate; auto. Qed.

Lemma Rnum_laws : OrderLaws Rnum.
Proof.
  split; simpl; try discriminate; intros.
  - unfold Rleb, Rltb; destruct (Rle_dec x y), (Rlt_dec y x); simpl; auto; lra.
  - apply Rleb_spec; lra.
  - apply Rleb_spec in H, H0. apply Rleb_spec; lra.
  - apply Rltb_spec in H. apply Rleb_spec; lra.
  - apply Rltb_spec in H. apply Rleb_spec in H0. apply Rltb_spec; lra.
  - apply Rleb_spec in H. apply Rltb_spec in H0. apply Rltb_spec; lra.
  - reflexivity.
  - unfold Rdiv_res in H. destruct (Req_EM_T y 0); congruence.
  - unfold Rdiv_res in H. destruct (Req_EM_T y 0); congruence.
Qed.

(** The binary64 comparison is a lexicographic comparison of integer keys. *)
Definition f64_key (x : spec_float) : option (Z * Z * Z) :=
  match x with
  | S754_nan => None
  | S754_zero _ => Some (0, 0, 0)
  | S754_infinity s => Some (if s then -2 else 2, 0, 0)
  | S754_finite s m e =>
      Some (if s then (-1, - e, - Zpos m) else (1, e, Zpos m))
  end%Z.

Definition klt (a b : Z * Z * Z) : Prop :=
  let '(a1, a2, a3) := a in let '(b1, b2, b3) := b in
  (a1 < b1 \/ (a1 = b1 /\ (a2 < b2 \/ (a2 = b2 /\ a3 < b3))))%Z.

Lemma f64_ltb_key x y : SFltb x y = true <->
  exists a b, f64_key x = Some a /\ f64_key y = Some b /\ klt a b.
Proof.
  unfold SFltb.
  split.
  - intros H; destruct x as [sx|sx| |sx mx ex], y as [sy|sy| |sy my ey];
      simpl in H |- *; try discriminate H;
      try destruct sx; try destruct sy; simpl in H; try discriminate H;
      eexists; eexists; (split; [reflexivity|split; [reflexivity|]]); simpl; try lia;
      destruct (Z.compare_spec ex ey); try discriminate H; try lia;
      change (Pos.compare_cont Eq mx my) with (Pos.compare mx my) in H;
      destruct (Pos.compare_spec mx my); simpl in H; try discriminate H; lia.
  - intros (a & b & Ha & Hb & H).
    destruct x as [sx|sx| |sx mx ex], y as [sy|sy| |sy my ey];
      simpl in Ha, Hb |- *; try discriminate Ha; try discriminate Hb;
      try destruct sx; try destruct sy;
      injection Ha as <-; injection Hb as <-; simpl in H; try lia; auto;
      destruct (Z.compare_spec ex ey); try lia; auto;
      change (Pos.compare_cont Eq mx my) with (Pos.compare mx my);
      destruct (Pos.compare_spec mx my); simpl; auto; lia.
Qed.

Lemma f64_leb_key x y : SFleb x y = true <->
  exists a b, f64_key x = Some a /\ f64_key y = Some b /\ ~ klt b a.
Proof.
  unfold SFleb.
  split.
  - intros H; destruct x as [sx|sx| |sx mx ex], y as [sy|sy| |sy my ey];
      simpl in H |- *; try discriminate H;
      try destruct sx; try destruct sy; simpl in H; try discriminate H;
      eexists; eexists; (split; [reflexivity|split; [reflexivity|]]); simpl; try lia;
      destruct (Z.compare_spec ex ey); try discriminate H; try lia;
      change (Pos.compare_cont Eq mx my) with (Pos.compare mx my) in H;
      destruct (Pos.compare_spec mx my); simpl in H; try discriminate H; lia.
  - intros (a & b & Ha & Hb & H).
    destruct x as [sx|sx| |sx mx ex], y as [sy|sy| |sy my ey];
      simpl in Ha, Hb |- *; try discriminate Ha; try discriminate Hb;
      try destruct sx; try destruct sy;
      injection Ha as <-; injection Hb as <-; simpl in H; try lia; auto;
      destruct (Z.compare_spec ex ey); try lia; auto;
      change (Pos.compare_cont Eq mx my) with (Pos.compare mx my);
      destruct (Pos.compare_spec mx my); simpl; auto; lia.
Qed.

Lemma f64_key_nan x : f64_key x = None <-> x = S754_nan.
Proof. destruct x; simpl; split; congruence. Qed.

Lemma f64_laws powf : OrderLaws (f64 powf).
Proof.
  split; simpl; intros.
  - destruct x; try discriminate; reflexivity.
  - destruct y; try discriminate; destruct x; reflexivity.
  - destruct x; try discriminate; reflexivity.
  - destruct y; try discriminate; destruct x; reflexivity.
  - destruct (f64_key x) as [a|] eqn:Ea; [|apply f64_key_nan in Ea; subst; discriminate].
    destruct (f64_key y) as [b|] eqn:Eb; [|apply f64_key_nan in Eb; subst; discriminate].
    destruct (SFltb y x) eqn:E; simpl.
    + apply f64_ltb_key in E as (a' & b' & H1 & H2 & H3).
      destruct (SFleb x y) eqn:E'; auto.
      apply f64_leb_key in E' as (a'' & b'' & H1' & H2' & H3'). congruence.
    + apply f64_leb_key. exists a, b. repeat split; auto.
      intros K. assert (SFltb y x = true) by (apply f64_ltb_key; eauto). congruence.
  - destruct (f64_key x) as [a|] eqn:Ea; [|apply f64_key_nan in Ea; subst; discriminate].
    apply f64_leb_key. exists a, a. repeat split; auto.
    destruct a as [[? ?] ?]; simpl; lia.
  - apply f64_leb_key in H as (a & b & H1 & H2 & H3).
    apply f64_leb_key in H0 as (b' & c & H1' & H2' & H3').
    apply f64_leb_key. exists a, c. repeat split; auto.
    assert (b = b') by congruence; subst b'.
    destruct a as [[? ?] ?], b as [[? ?] ?], c as [[? ?] ?]; simpl in *; lia.
  - apply f64_ltb_key in H as (a & b & H1 & H2 & H3).
    apply f64_leb_key. exists a, b. repeat split; auto.
    destruct a as [[? ?] ?], b as [[? ?] ?]; simpl in *; lia.
  - apply f64_ltb_key in H as (a & b & H1 & H2 & H3).
    apply f64_leb_key in H0 as (b' & c & H1' & H2' & H3').
    apply f64_ltb_key. exists a, c. repeat split; auto.
    assert (b = b') by congruence; subst b'.
    destruct a as [[? ?] ?], b as [[? ?] ?], c as [[? ?] ?]; simpl in *; lia.
  - apply f64_leb_key in H as (a & b & H1 & H2 & H3).
    apply f64_ltb_key in H0 as (b' & c & H1' & H2' & H3').
    apply f64_ltb_key. exists a, c. repeat split; auto.
    assert (b = b') by congruence; subst b'.
    destruct a as [[? ?] ?], b as [[? ?] ?], c as [[? ?] ?]; simpl in *; lia.
  - reflexivity.
  - discriminate.
  - destruct (f64_is_zero y); congruence.
Qed.
