(** Properties of the constructors: C49. *)
From Coq Require Import ZArith List Bool String Lia.
From Verif Require Import Num_Model Problem_Model Constructors_Model.
Import ListNotations.
Local Open Scope Z_scope.

(** ** Specification: what [Manifold.__init__] may accept *)
Definition valid_layout (l : layout_arg) (lay : layout) : Prop :=
  match l with
  | LInt n => 0 < n /\ lay = Flat n
  | LSeq g => Forall (fun n => 0 < n) g /\ lay = Groups g
  | _ => False
  end.

(** A manifold object exists exactly when the dimension is a non-negative integer and the layout a positive integer
    or a sequence of them; otherwise construction raises, and the object reports what was passed. *)
Theorem C49_base : forall d l,
  (forall z lay, manifold_init d l = Ok (z, lay) <-> d = DInt z /\ 0 <= z /\ valid_layout l lay) /\
  (forall e, manifold_init d l = Raise e ->
     match d with
     | DFloat => e = TypeError
     | DInt z => if z <? 0 then e = ValueError
                 else match l with LOther | LSeqBad => e = TypeError | _ => e = ValueError end
     end).
Proof.
  intros d l. split.
  - intros z lay. destruct d as [z'|]; simpl; [|split; [discriminate|intros (E & _); discriminate]].
    destruct (Z.ltb_spec z' 0).
    + split; [discriminate|]. intros (E & H0 & _). injection E as ->. lia.
    + destruct l as [n|g| |]; simpl.
      * destruct (Z.leb_spec n 0); split; try discriminate.
        -- intros (_ & _ & H1 & _). lia.
        -- intros E. injection E as -> <-. auto.
        -- intros (E & _ & _ & ->). injection E as ->. reflexivity.
      * destruct (forallb _ g) eqn:Eg; split; try discriminate.
        -- intros E. injection E as -> <-. split; [reflexivity|]. split; [assumption|]. split; [|reflexivity].
           apply Forall_forall. intros n Hn. rewrite forallb_forall in Eg. specialize (Eg n Hn).
           apply Z.gtb_lt in Eg. exact Eg.
        -- intros (E & _ & _ & ->). injection E as ->. reflexivity.
        -- intros (_ & _ & Hg & _). exfalso. rewrite <- not_true_iff_false in Eg. apply Eg.
           rewrite forallb_forall. intros n Hn. apply Z.gtb_lt. rewrite Forall_forall in Hg. auto.
      * split; [discriminate|tauto].
      * split; [discriminate|tauto].
  - intros e. destruct d as [z|]; simpl; [|congruence]. destruct (z <? 0); [congruence|].
    destruct l as [n|g| |]; try congruence.
    + destruct (n <=? 0); congruence.
    + destruct (forallb _ g); congruence.
Qed.
Print Assumptions C49_base.

(** [num_values] counts the arrays of a point: a point of layout [Flat n] is a sequence of [n] arrays, one of layout
    [Groups g] a sequence of groups with as many arrays each as [g] says. *)
Theorem C49_num_values : forall (A : Type),
  (forall (point : list A) n, Z.of_nat (List.length point) = n -> Z.of_nat (List.length point) = num_values (Flat n)) /\
  (forall (point : list (list A)) g, map (fun part => Z.of_nat (List.length part)) point = g ->
     Z.of_nat (List.length (List.concat point)) = num_values (Groups g)).
Proof.
  intros A. split; [auto|]. intros point g <-. simpl. induction point as [|part point IH]; [reflexivity|].
  simpl. rewrite app_length, Nat2Z.inj_add, IH. reflexivity.
Qed.
Print Assumptions C49_num_values.

(** ** The classes: when construction succeeds, and with which dimension *)
Lemma array_manifold_spec (z d : Z) lay : array_manifold z = Ok (d, lay) <-> d = z /\ 0 <= z /\ lay = Flat 1.
Proof.
  unfold array_manifold. rewrite (proj1 (C49_base _ _)). simpl. split.
  - intros (E & H & _ & ->). injection E as <-. auto.
  - intros (-> & H & ->). repeat split; auto; lia.
Qed.
Lemma int_half_even (a : Z) : Z.even a = true -> 2 * int_half a = a.
Proof.
  intros H. apply Z.even_spec in H as [b ->]. unfold int_half. rewrite (Z.mul_comm 2 b), Z.quot_mul by lia. lia.
Qed.
Lemma even_triangle (n : Z) : Z.even (n * (n + 1)) = true.
Proof. rewrite Z.even_mul, Z.even_add. destruct (Z.even n); reflexivity. Qed.
Lemma half_triangle (k n : Z) : 2 * int_half (k * n * (n + 1)) = k * n * (n + 1).
Proof. apply int_half_even. rewrite <- Z.mul_assoc, Z.even_mul, even_triangle. apply orb_true_r. Qed.
Lemma half_triangle' (k n : Z) : 2 * int_half (k * n * (n - 1)) = k * n * (n - 1).
Proof.
  apply int_half_even. rewrite <- Z.mul_assoc, Z.even_mul.
  replace (n * (n - 1)) with ((n - 1) * (n - 1 + 1)) by lia. rewrite even_triangle. apply orb_true_r.
Qed.


(** Case analysis on the checks, then arithmetic. *)
Ltac no_error := split; [discriminate|intros; exfalso; intuition (subst; lia)].
Ltac checks :=
  repeat match goal with
  | |- context [?a <? ?b] => destruct (Z.ltb_spec a b); cbn [orb]; [no_error|]
  end.
Lemma ok_iff (z d : Z) lay (P : Prop) :
  (d = z /\ 0 <= z /\ lay = Flat 1 <-> P) -> (array_manifold z = Ok (d, lay) <-> P).
Proof. rewrite array_manifold_spec. auto. Qed.

(** Arrays, spheres and circles. *)
Theorem C49_flat : forall d lay,
  (forall shape, euclidean_init shape = Ok (d, lay) <->
     shape <> [] /\ 0 <= d /\ d = prod_shape shape /\ lay = Flat 1) /\
  (forall shape, complex_euclidean_init shape = Ok (d, lay) <->
     shape <> [] /\ 0 <= d /\ d = 2 * prod_shape shape /\ lay = Flat 1) /\
  (forall n k, symmetric_init n k = Ok (d, lay) <-> 1 <= k /\ 0 <= d /\ 2 * d = k * (n * (n + 1)) /\ lay = Flat 1) /\
  (forall n k, skew_symmetric_init n k = Ok (d, lay) <-> 1 <= k /\ 0 <= d /\ 2 * d = k * (n * (n - 1)) /\ lay = Flat 1) /\
  (forall shape, sphere_init shape = Ok (d, lay) <->
     shape <> [] /\ 0 <= d /\ d + 1 = prod_shape shape /\ lay = Flat 1) /\
  (forall shape rank, sphere_subspace_init shape rank = Ok (d, lay) <->
     (exists rows columns, shape = [rows; columns] /\ columns <= rows) /\ 0 <= d /\ d + 1 = rank /\ lay = Flat 1) /\
  (forall n, complex_circle_init n = Ok (d, lay) <-> 0 <= d /\ d = n /\ lay = Flat 1) /\
  (forall m n, oblique_init m n = Ok (d, lay) <-> 0 <= d /\ d = (m - 1) * n /\ lay = Flat 1) /\
  (forall m n k, positive_init m n k = Ok (d, lay) <-> 0 <= d /\ d = k * m * n /\ lay = Flat 1) /\
  (forall n k, poincare_init n k = Ok (d, lay) <-> 1 <= n /\ 1 <= k /\ d = k * n /\ lay = Flat 1).
Proof.
  intros d lay.
  split. { intros [|a s]; [split; [discriminate|tauto]|]. apply ok_iff. split; [intros (-> & H & ->)|intros (_ & H & -> & ->)]; repeat split; auto; discriminate. }
  split. { intros [|a s]; [split; [discriminate|tauto]|]. apply ok_iff. split; [intros (-> & H & ->)|intros (_ & H & -> & ->)]; repeat split; auto; discriminate. }
  split. { intros n k. unfold symmetric_init. checks. apply ok_iff. pose proof (half_triangle k n). intuition (subst; try lia). }
  split. { intros n k. unfold skew_symmetric_init. checks. apply ok_iff. pose proof (half_triangle' k n). intuition (subst; try lia). }
  split. { intros [|a s]; [split; [discriminate|tauto]|]. apply ok_iff. generalize (prod_shape (a :: s)). intros p. intuition (subst; try lia; try discriminate). }
  split. { intros shape rank. unfold sphere_subspace_init.
    assert (B : forall r, r = Raise ValueError -> (forall a b, shape <> [a; b]) ->
      (r = Ok (d, lay) <-> (exists rows columns, shape = [rows; columns] /\ columns <= rows) /\ 0 <= d /\ d + 1 = rank /\ lay = Flat 1)).
    { intros r -> H. split; [discriminate|]. intros ((a & b & E & _) & _). exfalso. eapply H; eauto. }
    destruct shape as [|a [|b [|c s]]]; try (apply B; [reflexivity|discriminate]).
    destruct (Z.ltb_spec a b).
    - split; [discriminate|]. intros ((a' & b' & E & L) & _). injection E as <- <-. lia.
    - apply ok_iff. split.
      + intros (-> & H1 & ->). split; [exists a, b; auto|]. repeat split; auto; lia.
      + intros (_ & H1 & H2 & ->). repeat split; lia. }
  split. { intros n. apply ok_iff. intuition (subst; lia). }
  split. { intros m n. apply ok_iff. intuition (subst; lia). }
  split. { intros m n k. apply ok_iff. intuition (subst; lia). }
  intros n k. unfold poincare_init. checks. apply ok_iff. intuition (subst; nia).
Qed.
Print Assumptions C49_flat.

(** Matrix manifolds.  Only these two retractions have a name. *)
Lemma known_retraction_spec name : known_retraction name = true <-> name = "qr"%string \/ name = "polar"%string.
Proof.
  unfold known_retraction. rewrite orb_true_iff, !String.eqb_eq. tauto.
Qed.
Lemma with_retraction (m : res (Z * layout)) name d lay (P : Prop) :
  (m = Ok (d, lay) <-> P) ->
  ((let* m := m in if known_retraction name then Ok m else Raise ValueError) = Ok (d, lay) <->
   (name = "qr"%string \/ name = "polar"%string) /\ P).
Proof.
  intros H. rewrite <- known_retraction_spec, <- H. destruct m as [m|e]; cbn [bind].
  - destruct (known_retraction name); intuition discriminate.
  - split; [discriminate|intros [_ E]; discriminate E].
Qed.

Theorem C49_matrices : forall d lay,
  (forall n p k name, stiefel_init n p k name = Ok (d, lay) <->
     (name = "qr"%string \/ name = "polar"%string) /\
     1 <= p <= n /\ 1 <= k /\ 2 * d = k * (2 * n * p - p * (p + 1)) /\ lay = Flat 1) /\
  (forall n p k, grassmann_init n p k = Ok (d, lay) <->
     1 <= p <= n /\ 1 <= k /\ d = k * (p * (n - p)) /\ lay = Flat 1) /\
  (forall n p k, complex_grassmann_init n p k = Ok (d, lay) <->
     1 <= p <= n /\ 1 <= k /\ d = 2 * (k * (p * (n - p))) /\ lay = Flat 1) /\
  (forall n k name, so_init n k name = Ok (d, lay) <->
     (name = "qr"%string \/ name = "polar"%string) /\
     1 <= k /\ 2 * d = k * (if n <? 0 then 0 else n * (n - 1)) /\ lay = Flat 1) /\
  (forall n k name, unitary_init n k name = Ok (d, lay) <->
     (name = "qr"%string \/ name = "polar"%string) /\ 1 <= k /\ d = k * (n * n) /\ lay = Flat 1) /\
  (forall n k, spd_init n k = Ok (d, lay) <-> 0 <= d /\ 2 * d = k * (n * (n + 1)) /\ lay = Flat 1) /\
  (forall n k, hpd_init n k = Ok (d, lay) <-> 0 <= d /\ d = k * (n * (n + 1)) /\ lay = Flat 1) /\
  (forall n k, shpd_init n k = Ok (d, lay) <-> 0 <= d /\ d = k * (n * (n + 1) - 1) /\ lay = Flat 1) /\
  (forall n k, psd_init n k = Ok (d, lay) <-> 0 <= d /\ 2 * d = 2 * k * n - k * (k - 1) /\ lay = Flat 1) /\
  (forall n k, complex_psd_init n k = Ok (d, lay) <-> 0 <= d /\ d = 2 * k * n - k * k /\ lay = Flat 1) /\
  (forall n k, elliptope_init n k = Ok (d, lay) <-> 0 <= d /\ 2 * d = (k - 1) * (2 * n - k) /\ lay = Flat 1) /\
  (forall m n k, fixed_rank_init m n k = Ok (d, lay) <->
     1 <= k <= m /\ k <= n /\ d = (m + n - k) * k /\ lay = Flat 3).
Proof.
  intros d lay.
  split. { intros n p k name. unfold stiefel_init. checks.
    rewrite (with_retraction _ name d lay (1 <= p <= n /\ 1 <= k /\ 2 * d = k * (2 * n * p - p * (p + 1)) /\ lay = Flat 1)); [tauto|].
    apply ok_iff. pose proof (half_triangle 1 p) as E. rewrite !Z.mul_1_l in E.
    generalize dependent (int_half (p * (p + 1))). intros h E. split.
    - intros (-> & K & ->). repeat split; auto; try lia; nia.
    - intros (_ & _ & K & ->). assert (d = k * (n * p - h)) by nia. repeat split; auto. nia. }
  split. { intros n p k. unfold grassmann_init. checks. apply ok_iff. rewrite Z.pow_2_r. split.
    - intros (-> & K & ->). repeat split; auto; try lia; nia.
    - intros (_ & _ & -> & ->). repeat split; auto; nia. }
  split. { intros n p k. unfold complex_grassmann_init. checks. apply ok_iff. rewrite Z.pow_2_r. split.
    - intros (-> & K & ->). repeat split; auto; try lia; nia.
    - intros (_ & _ & -> & ->). repeat split; auto; nia. }
  split. { intros n k name. unfold so_init. destruct (Z.ltb_spec k 1); [split; [discriminate|intros; lia]|].
    rewrite (with_retraction _ name d lay (1 <= k /\ 2 * d = k * (if n <? 0 then 0 else n * (n - 1)) /\ lay = Flat 1)); [tauto|].
    apply ok_iff.
    assert (E : 2 * comb2 n = if n <? 0 then 0 else n * (n - 1)).
    { unfold comb2. pose proof (half_triangle' 1 n) as E. rewrite !Z.mul_1_l in E.
      destruct (Z.ltb_spec n 2), (Z.ltb_spec n 0); try lia.
      assert (n = 0 \/ n = 1) as [-> | ->] by lia; reflexivity. }
    rewrite <- E. assert (0 <= comb2 n).
    { destruct (Z.ltb_spec n 0); [lia|]. nia. }
    split.
    - intros (-> & K & ->). repeat split; auto; lia.
    - intros (_ & K & ->). assert (d = k * comb2 n) by lia. repeat split; auto; nia. }
  split. { intros n k name. unfold unitary_init. destruct (Z.ltb_spec k 1); [split; [discriminate|intros; lia]|].
    rewrite (with_retraction _ name d lay (1 <= k /\ d = k * (n * n) /\ lay = Flat 1)); [tauto|].
    apply ok_iff. rewrite Z.pow_2_r. intuition (subst; nia). }
  split. { intros n k. apply ok_iff. pose proof (half_triangle k n). intuition (subst; try lia). }
  split. { intros n k. apply ok_iff. intuition (subst; lia). }
  split. { intros n k. apply ok_iff. intuition (subst; lia). }
  split. { intros n k. apply ok_iff.
    assert (E : 2 * int_half (2 * (k * n) - k * (k - 1)) = 2 * k * n - k * (k - 1)).
    { rewrite int_half_even; [lia|]. rewrite Z.even_sub, Z.even_mul.
      replace (k * (k - 1)) with ((k - 1) * (k - 1 + 1)) by lia. rewrite even_triangle. reflexivity. }
    unfold int_half in E. intuition (subst; try lia). }
  split. { intros n k. apply ok_iff. intuition (subst; lia). }
  split. { intros n k. apply ok_iff.
    assert (E : 2 * int_half (2 * (n * (k - 1)) - k * (k - 1)) = (k - 1) * (2 * n - k)).
    { rewrite int_half_even; [lia|]. rewrite Z.even_sub, Z.even_mul.
      replace (k * (k - 1)) with ((k - 1) * (k - 1 + 1)) by lia. rewrite even_triangle. reflexivity. }
    unfold int_half in E. intuition (subst; try lia). }
  intros m n k. unfold fixed_rank_init, stiefel_init.
  destruct (Z.ltb_spec m k); cbn [orb bind]; [split; [discriminate|intros; lia]|].
  destruct (Z.ltb_spec k 1); cbn [orb bind]; [split; [discriminate|intros; lia]|].
  assert (A : forall q, k <= q -> exists v, array_manifold (1 * (q * k - int_half (k * (k + 1)))) = Ok v).
  { intros q Hq. pose proof (half_triangle 1 k) as E. rewrite !Z.mul_1_l in E.
    exists (1 * (q * k - int_half (k * (k + 1))), Flat 1). apply array_manifold_spec. repeat split; auto. nia. }
  destruct (A m) as [v ->]; [lia|]. cbn [bind known_retraction String.eqb Ascii.eqb Bool.eqb orb Z.ltb Z.compare Pos.compare Pos.compare_cont].
  destruct (Z.ltb_spec n k); cbn [orb bind]; [split; [discriminate|intros; lia]|].
  destruct (A n) as [v' ->]; [lia|]. cbn [bind].
  rewrite (proj1 (C49_base _ _)). simpl. split.
  - intros (E & K & _ & ->). injection E as <-. repeat split; auto; lia.
  - intros (K1 & K2 & -> & ->). repeat split; auto; nia.
Qed.
Print Assumptions C49_matrices.

(** The checks leave gaps: sizes for which there are no such matrices at all are accepted. *)
Theorem C49_sizes_refuted :
  symmetric_init (-3) 1 = Ok (3, Flat 1) /\ euclidean_init [-2; -3] = Ok (6, Flat 1) /\
  spd_init (-2) 1 = Ok (1, Flat 1) /\ spd_init 2 0 = Ok (0, Flat 1) /\ unitary_init (-2) 1 "qr" = Ok (4, Flat 1) /\
  positive_init (-1) (-1) 1 = Ok (1, Flat 1) /\ oblique_init 0 (-2) = Ok (2, Flat 1) /\
  (* matrices of rank 4 with two rows, and with three rows and unit rows *)
  psd_init 2 4 = Ok (2, Flat 1) /\ elliptope_init 3 4 = Ok (3, Flat 1).
Proof. repeat split. Qed.
Print Assumptions C49_sizes_refuted.
