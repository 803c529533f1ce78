(** Calculus with several arrays. *)
From Coq Require Import ZArith List Bool Reals Lra Lia.
From Coquelicot Require Import Coquelicot.
From Verif Require Import Num_Model Problem_Model Backends_Model Backends_Spec.
Import ListNotations.
Local Open Scope R_scope.

(** * Sums *)
Lemma rsum_ext {A} (f g : A -> R) l : (forall a, In a l -> f a = g a) -> rsum (map f l) = rsum (map g l).
Proof. intros H. unfold rsum. induction l as [|a l IH]; simpl; auto. rewrite H, IH; auto with datatypes. Qed.
Lemma rsum_plus {A} (f g : A -> R) l : rsum (map (fun a => f a + g a) l) = rsum (map f l) + rsum (map g l).
Proof. unfold rsum. induction l as [|a l IH]; simpl; [lra|]. rewrite IH. lra. Qed.
Lemma rsum_scale {A} (c : R) (f : A -> R) l : rsum (map (fun a => c * f a) l) = c * rsum (map f l).
Proof. unfold rsum. induction l as [|a l IH]; simpl; [lra|]. rewrite IH. lra. Qed.
Lemma rsum_zero {A} (f : A -> R) l : (forall a, In a l -> f a = 0) -> rsum (map f l) = 0.
Proof. intros H. unfold rsum. induction l as [|a l IH]; simpl; auto. rewrite H, IH; auto with datatypes. lra. Qed.
Lemma rsum_nonneg {A} (f : A -> R) l : (forall a, In a l -> 0 <= f a) -> 0 <= rsum (map f l).
Proof.
  intros H. unfold rsum. induction l as [|a l IH]; simpl; [lra|]. specialize (IH (fun b Hb => H b (or_intror Hb))).
  pose proof (H a (or_introl eq_refl)). lra.
Qed.
Lemma rsum_zero_inv {A} (f : A -> R) l : (forall a, In a l -> 0 <= f a) -> rsum (map f l) = 0 ->
  forall a, In a l -> f a = 0.
Proof.
  unfold rsum. induction l as [|b l IH]; simpl; intros H E a [].
  - subst b. pose proof (H a (or_introl eq_refl)). pose proof (rsum_nonneg f l (fun c Hc => H c (or_intror Hc))).
    unfold rsum in *. lra.
  - pose proof (H b (or_introl eq_refl)). pose proof (rsum_nonneg f l (fun c Hc => H c (or_intror Hc))).
    apply IH; auto. unfold rsum in *. lra.
Qed.
Lemma is_derive_rsum {A} (F : A -> R -> R) (d : A -> R) l : (forall a, In a l -> is_derive (F a) 0 (d a)) ->
  is_derive (fun t => rsum (map (fun a => F a t) l)) 0 (rsum (map d l)).
Proof.
  unfold rsum. induction l as [|a l IH]; simpl; intros H.
  - apply (is_derive_const 0 0).
  - apply (is_derive_plus (F a)); [apply H; auto|apply IH; auto].
Qed.
Lemma combine_seq {A B} (d : A) (d' : B) (h : A * B -> R) l m : length l = length m ->
  rsum (map h (combine l m)) = rsum (map (fun i => h (nth i l d, nth i m d')) (seq 0 (length l))).
Proof.
  revert m. induction l as [|a l IH]; intros [|b m] E; simpl in E; try discriminate; [reflexivity|].
  simpl. f_equal. rewrite IH by lia. rewrite <- seq_shift, map_map. reflexivity.
Qed.

(** * Entries *)
Lemma entry_move a t b j : length (entries a) = length (entries b) ->
  entry (move_arr a t b) j = Cplus (entry a j) (Cmult (RtoC t) (entry b j)).
Proof.
  intros E. unfold entry, move_arr. cbn [entries].
  set (f := fun zw : C * C => Cplus (fst zw) (Cmult (RtoC t) (snd zw))).
  replace (RtoC 0) with (f (RtoC 0, RtoC 0)) at 1.
  - rewrite map_nth, combine_nth by exact E. reflexivity.
  - unfold f. simpl. unfold Cplus, Cmult, RtoC. simpl. f_equal; ring.
Qed.
Lemma length_move a t b : length (entries a) = length (entries b) -> length (entries (move_arr a t b)) = length (entries a).
Proof. intros E. unfold move_arr. cbn [entries]. rewrite map_length, combine_length. lia. Qed.
Lemma entry_conj a j : entry (np_conj a) j = Cconj (entry a j).
Proof.
  unfold entry, np_conj. cbn [entries]. replace (RtoC 0) with (Cconj (RtoC 0)) at 1.
  - apply map_nth.
  - unfold Cconj, RtoC. simpl. f_equal. ring.
Qed.
Lemma entry_zeros a j : entry (zeros_like a) j = RtoC 0.
Proof. unfold entry, zeros_like. cbn [entries]. apply (map_nth (fun _ => RtoC 0) (entries a) (RtoC 0)). Qed.
Lemma conj_conj a : np_conj (np_conj a) = a.
Proof.
  destruct a as [k l]. unfold np_conj. cbn [is_complex entries]. f_equal. rewrite map_map.
  rewrite <- (map_id l) at 2. apply map_ext. intros [u v]. unfold Cconj. simpl. f_equal. ring.
Qed.
Lemma map_conj_conj l : map np_conj (map np_conj l) = l.
Proof. rewrite map_map. rewrite <- (map_id l) at 2. apply map_ext. apply conj_conj. Qed.

Lemma arr_eq a b : is_complex a = is_complex b -> length (entries a) = length (entries b) ->
  (forall j, (j < length (entries a))%nat -> entry a j = entry b j) -> a = b.
Proof.
  destruct a as [k l], b as [k' l']. cbn. intros -> E H. f_equal. unfold entry in H. cbn in H.
  apply nth_ext with (d := RtoC 0) (d' := RtoC 0); auto.
Qed.

(** * Directions *)
Lemma like_length x v : like x v -> length x = length v.
Proof. induction 1; simpl; congruence. Qed.
Lemma like_nth x v i : like x v -> (i < length x)%nat -> same (nth i x none) (nth i v none).
Proof.
  intros H. revert i. induction H; simpl; intros [|i] Hi; try lia; auto. apply IHForall2; lia.
Qed.
Lemma like_of_nth x v : length x = length v -> (forall i, (i < length x)%nat -> same (nth i x none) (nth i v none)) -> like x v.
Proof.
  revert v. induction x as [|a x IH]; intros [|b v] E H; simpl in E; try discriminate; constructor.
  - apply (H 0%nat). simpl; lia.
  - apply IH; [lia|]. intros i Hi. apply (H (S i)). simpl; lia.
Qed.
Lemma same_trans a b c : same a b -> same b c -> same a c.
Proof. intros (A1 & A2 & A3) (B1 & B2 & B3). split; [congruence|]. split; [congruence|auto]. Qed.
Lemma same_back a b c : same a b -> same a c -> same b c.
Proof. intros (A1 & A2 & A3) (B1 & B2 & B3). split; [congruence|]. split; [congruence|auto]. Qed.
Lemma like_back x y v : like x y -> like x v -> like y v.
Proof.
  intros H1 H2. pose proof (like_length _ _ H1). pose proof (like_length _ _ H2).
  apply like_of_nth; [lia|]. intros i Hi. apply same_back with (nth i x none); apply like_nth; auto; lia.
Qed.
Lemma like_trans x y v : like x y -> like y v -> like x v.
Proof.
  intros H1 H2. pose proof (like_length _ _ H1). pose proof (like_length _ _ H2).
  apply like_of_nth; [lia|]. intros i Hi. apply same_trans with (nth i y none); apply like_nth; auto; lia.
Qed.
Lemma like_point x v : like x v -> point v.
Proof. unfold point. induction 1 as [|a b x v H]; constructor; auto. apply H. Qed.
Lemma like_refl x : point x -> like x x.
Proof. unfold point. induction 1 as [|a x H]; constructor; auto. split; auto. Qed.
Lemma same_move a b t : same a b -> sound_arr a -> same a (move_arr a t b).
Proof.
  intros (E1 & E2 & E3) Ha. split; [reflexivity|]. split; [symmetry; now apply length_move|].
  intros Hk j. rewrite entry_move by exact E2. specialize (Ha Hk j). specialize (E3 ltac:(unfold move_arr in Hk; cbn in Hk; congruence) j).
  unfold Cplus, Cmult, RtoC, Im in *. simpl. rewrite Ha, E3. ring.
Qed.
Lemma nth_move x t v i : length x = length v -> nth i (move x t v) none = move_arr (nth i x none) t (nth i v none).
Proof.
  intros E. unfold move. set (f := fun ab : arr * arr => move_arr (fst ab) t (snd ab)).
  replace none with (f (none, none)) at 1 by reflexivity. rewrite map_nth, combine_nth by exact E. reflexivity.
Qed.
Lemma length_move_args x t v : length x = length v -> length (move x t v) = length x.
Proof. intros E. unfold move. rewrite map_length, combine_length. lia. Qed.
Lemma like_move x t v : point x -> like x v -> like x (move x t v).
Proof.
  intros Hp H. pose proof (like_length _ _ H) as E. apply like_of_nth; [now rewrite length_move_args|].
  intros i Hi. rewrite nth_move by exact E. apply same_move; [now apply like_nth|].
  unfold point in Hp. rewrite Forall_forall in Hp. apply Hp. apply nth_In. exact Hi.
Qed.

(** * The inner product *)
Lemma inner_seq g v : length g = length v ->
  inner g v = rsum (map (fun i => inner_arr (nth i g none) (nth i v none)) (seq 0 (length g))).
Proof. intros E. unfold inner. rewrite (combine_seq none none) by exact E. reflexivity. Qed.
Lemma Re_conj_mult (a b : C) : Re (Cmult (Cconj a) b) = Re a * Re b + Im a * Im b.
Proof. unfold Cmult, Cconj, Re, Im. simpl. ring. Qed.
Lemma inner_arr_move a t b c : length (entries a) = length (entries b) ->
  inner_arr (move_arr a t b) c = inner_arr a c + t * inner_arr b c.
Proof.
  intros E. unfold inner_arr. rewrite length_move by exact E. rewrite <- E, <- rsum_scale, <- rsum_plus.
  apply rsum_ext. intros j _. rewrite entry_move by exact E. rewrite !Re_conj_mult.
  unfold Cplus, Cmult, RtoC, Re, Im. simpl. ring.
Qed.
Lemma inner_move g t h v : like g h -> length g = length v -> inner (move g t h) v = inner g v + t * inner h v.
Proof.
  intros H E. pose proof (like_length _ _ H) as E2.
  rewrite !inner_seq by (rewrite ?length_move_args; lia). rewrite length_move_args, <- E2 by exact E2.
  rewrite <- rsum_scale, <- rsum_plus. apply rsum_ext. intros i Hi. apply in_seq in Hi. rewrite nth_move by exact E2.
  apply inner_arr_move. apply (like_nth _ _ i H). lia.
Qed.
Lemma inner_arr_pos a : 0 <= inner_arr a a.
Proof. unfold inner_arr. apply rsum_nonneg. intros j _. rewrite Re_conj_mult. nra. Qed.
Lemma inner_arr_def a : inner_arr a a = 0 -> forall j, entry a j = RtoC 0.
Proof.
  intros H j. destruct (Nat.lt_ge_cases j (length (entries a))) as [Hj|Hj].
  - unfold inner_arr in H.
    pose proof (rsum_zero_inv (fun j => Re (Cmult (Cconj (entry a j)) (entry a j))) _ ltac:(intros k _; cbv beta; rewrite Re_conj_mult; nra) H j
      ltac:(apply in_seq; lia)) as K. cbv beta in K. rewrite Re_conj_mult in K.
    assert (Re (entry a j) = 0) by nra. assert (Im (entry a j) = 0) by nra.
    destruct (entry a j) as [u v]. unfold Re, Im, RtoC in *. simpl in *. congruence.
  - unfold entry. apply nth_overflow. exact Hj.
Qed.

Lemma inner_unique x g h : point x -> like x g -> like x h -> (forall v, like x v -> inner g v = inner h v) -> g = h.
Proof.
  intros Hp Hg Hh H. pose proof (like_back _ _ _ Hg Hh) as Hgh.
  pose proof (like_length _ _ Hg) as L1. pose proof (like_length _ _ Hh) as L2.
  pose proof (like_move g (-1) h (like_point _ _ Hg) Hgh) as Hm.
  set (v := move g (-1) h) in *.
  assert (Hv : like x v) by exact (like_trans _ _ _ Hg Hm).
  assert (E : inner v v = 0).
  { unfold v at 1. rewrite inner_move; [rewrite (H v Hv); ring|exact Hgh|]. apply like_length in Hm. exact Hm. }
  pose proof (like_length _ _ Hv) as L3.
  rewrite inner_seq in E by reflexivity.
  assert (Z : forall i, (i < length x)%nat -> inner_arr (nth i v none) (nth i v none) = 0).
  { intros i Hi. apply (rsum_zero_inv (fun i => inner_arr (nth i v none) (nth i v none)) (seq 0 (length v)));
      [intros; apply inner_arr_pos|exact E|apply in_seq; lia]. }
  apply nth_ext with (d := none) (d' := none); [lia|]. intros i Hi.
  pose proof (like_nth _ _ i Hgh Hi) as (S1 & S2 & S3).
  apply arr_eq; auto. intros j Hj.
  pose proof (inner_arr_def _ (Z i ltac:(lia)) j) as K. unfold v in K.
  rewrite nth_move in K by lia. rewrite entry_move in K by exact S2.
  destruct (entry (nth i g none) j) as [u w], (entry (nth i h none) j) as [u' w'].
  unfold Cplus, Cmult, RtoC in K. simpl in K. injection K as K1 K2. f_equal; lra.
Qed.

Lemma gradient_unique f x G G' : point x -> is_gradient f x G -> is_gradient f x G' -> G = G'.
Proof.
  intros Hp (H1 & H2) (H3 & H4). apply (inner_unique x); auto. intros v Hv.
  rewrite <- (is_derive_unique _ _ _ (H2 v Hv)). apply is_derive_unique. auto.
Qed.

(** * The derivative of the slope along a fixed direction *)
Lemma inner_arr_derive c d v : arr_derivative c d -> is_derive (fun t => inner_arr (c t) v) 0 (inner_arr d v).
Proof.
  intros (H1 & H2). unfold inner_arr.
  apply is_derive_ext with (fun t => rsum (map (fun j => Re (Cmult (Cconj (entry (c t) j)) (entry v j))) (seq 0 (length (entries d))))).
  { intros t. destruct (H1 t) as (_ & -> & _). reflexivity. }
  apply (is_derive_rsum (fun j t => Re (Cmult (Cconj (entry (c t) j)) (entry v j)))). intros j _.
  destruct (H2 j) as [D1 D2].
  apply is_derive_ext with (fun t => Re (entry (c t) j) * Re (entry v j) + Im (entry (c t) j) * Im (entry v j)).
  { intros t. now rewrite Re_conj_mult. }
  rewrite Re_conj_mult.
  apply (is_derive_plus (fun t => Re (entry (c t) j) * Re (entry v j)) (fun t => Im (entry (c t) j) * Im (entry v j))).
  - apply (is_derive_scal_l (fun t => Re (entry (c t) j)) 0 (Re (entry d j)) (Re (entry v j))). exact D1.
  - apply (is_derive_scal_l (fun t => Im (entry (c t) j)) 0 (Im (entry d j)) (Im (entry v j))). exact D2.
Qed.

Lemma slope_gradient f g x D v : point x -> second_derivative f g x D -> like x v ->
  is_gradient (fun y => inner (g y) v) x (D v).
Proof.
  intros Hp (H1 & H2 & H3) Hv. split; [apply (H2 v Hv)|]. intros w Hw.
  destruct (H2 w Hw) as [L1 L2]. pose proof (like_length _ _ L1) as E1. pose proof (like_length _ _ Hv) as E2.
  rewrite (H3 v w Hv Hw), inner_seq by lia. rewrite <- E1.
  apply is_derive_ext with (fun t => rsum (map (fun i => inner_arr (nth i (g (move x t w)) none) (nth i v none)) (seq 0 (length x)))).
  { intros t. pose proof (like_move x t w Hp Hw) as Hm. destruct (H1 _ Hm) as [Hg _].
    pose proof (like_length _ _ (like_trans _ _ _ Hm Hg)) as E3. rewrite inner_seq by lia. now rewrite <- E3. }
  apply (is_derive_rsum (fun i t => inner_arr (nth i (g (move x t w)) none) (nth i v none))).
  intros i Hi. apply in_seq in Hi. apply inner_arr_derive. apply L2. lia.
Qed.

Lemma arr_derivative_unique c d d' : arr_derivative c d -> arr_derivative c d' -> d = d'.
Proof.
  intros (A1 & A2) (B1 & B2). destruct (A1 0) as (K1 & K2 & _), (B1 0) as (K3 & K4 & _).
  apply arr_eq; [congruence|congruence|]. intros j _. destruct (A2 j) as [P1 P2], (B2 j) as [Q1 Q2].
  apply is_derive_unique in P1, P2, Q1, Q2.
  destruct (entry d j) as [u w], (entry d' j) as [u' w']. unfold Re, Im in *. cbn in *. congruence.
Qed.

(** * Full contractions *)
Lemma Re_tensordot a b : Re (tensordot a b) = rsum (map (fun j => Re (Cmult (entry a j) (entry b j))) (seq 0 (length (entries a)))).
Proof.
  unfold tensordot, rsum. induction (seq 0 (length (entries a))) as [|j l IH]; cbn [fold_right map]; [reflexivity|].
  rewrite <- IH. reflexivity.
Qed.
Lemma contraction g v : Re (tensordot (np_conj g) v) = inner_arr g v.
Proof.
  rewrite Re_tensordot. unfold inner_arr, np_conj at 2. cbn [entries]. rewrite map_length.
  apply rsum_ext. intros j _. now rewrite entry_conj.
Qed.

(** * Delivery *)
Lemma deliver_ok n l : length l = n -> deliver n (Ok l) = Ok (answer n l).
Proof.
  intros <-. unfold deliver, answer. cbn [bind]. destruct l as [|a [|b l]]; reflexivity.
Qed.
