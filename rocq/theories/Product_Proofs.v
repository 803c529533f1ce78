(** Proofs about product manifolds. *)
From Coq Require Import ZArith List Bool Reals Lra Lia.
From Verif Require Import Num_Model Num_Instances Problem_Model Product_Model Product_Spec.
Import ListNotations.

Lemma mapM_iff : forall A B (f : A -> res B) l r,
  mapM f l = Ok r <-> Forall2 (fun a b => f a = Ok b) l r.
Proof.
  intros A B f. induction l as [|a l IH]; intros r; simpl.
  - split; [intros [= <-]; constructor | inversion 1; reflexivity].
  - split.
    + destruct (f a) as [b|] eqn:E; [|discriminate]. cbn [bind]. fold (mapM f).
      destruct (mapM f l) as [u|] eqn:U; [|discriminate]. cbn [bind]. intros [= <-].
      constructor; auto. apply IH. reflexivity.
    + inversion 1 as [|? b ? u Ea Eu]; subst. rewrite Ea. cbn [bind]. fold (mapM f).
      apply IH in Eu. rewrite Eu. reflexivity.
Qed.

Lemma map2M_iff : forall A B C (f : A -> B -> res C) l m r,
  length l = length m ->
  (map2M f l m = Ok r <->
   Forall2 (fun ab c => f (fst ab) (snd ab) = Ok c) (combine l m) r).
Proof.
  intros A B C f. induction l as [|a l IH]; intros [|b m] r L; simpl in *; try discriminate.
  - split; [intros [= <-]; constructor | inversion 1; reflexivity].
  - fold (map2M f). split.
    + destruct (f a b) as [c|] eqn:E; [|discriminate]. cbn [bind].
      destruct (map2M f l m) as [u|] eqn:U; [|discriminate]. cbn [bind]. intros [= <-].
      constructor; auto. apply IH; auto.
    + inversion 1 as [|? c ? u Ea Eu]; subst. simpl in Ea. rewrite Ea. cbn [bind].
      apply IH in Eu; auto. rewrite Eu. reflexivity.
Qed.

Lemma heads_some : forall A (cols : list (list A)) hs ts,
  heads cols = Some (hs, ts) ->
  row cols 0 hs /\ forall i a, row cols (S i) a <-> row ts i a.
Proof.
  intros A. unfold row. induction cols as [|c cols IH]; intros hs ts; simpl.
  - intros [= <- <-]. split; [constructor|]. intros. split; intros H; inversion H; constructor.
  - destruct c as [|x c]; [discriminate|].
    destruct (heads cols) as [[hs' ts']|] eqn:E; [|discriminate]. intros [= <- <-].
    destruct (IH _ _ eq_refl) as [H0 H1]. split.
    + constructor; auto.
    + intros i a. split; intros H; inversion H; subst; constructor; auto; apply H1; auto.
Qed.

Lemma heads_none : forall A (cols : list (list A)) i a, heads cols = None -> ~ row cols i a.
Proof.
  intros A. unfold row. induction cols as [|c cols IH]; intros i a; simpl; [discriminate|].
  destruct c as [|x c].
  - intros _ H. inversion H as [|? ? ? ? E]; subst. destruct i; discriminate.
  - destruct (heads cols) as [[]|] eqn:E; [discriminate|]. intros _ H. inversion H; subst.
    eapply IH; eauto.
Qed.

Lemma row_fun : forall A (cols : list (list A)) i a b, row cols i a -> row cols i b -> a = b.
Proof.
  intros A cols i a b H. revert b. induction H as [|col x cols a E H IH]; intros b K;
    inversion K; subst; auto. f_equal; [congruence|]. auto.
Qed.

Lemma zip_rows_nth : forall M A (ms : list M) (cols : list (list A)) i m a,
  nth_error (zip_rows ms cols) i = Some (m, a) <-> nth_error ms i = Some m /\ row cols i a.
Proof.
  intros M A. induction ms as [|m0 ms IH]; intros cols i m a; simpl.
  - destruct i; simpl; split; try discriminate; intros []; discriminate.
  - destruct (heads cols) as [[hs ts]|] eqn:E.
    + destruct (heads_some _ _ _ _ E) as [H0 H1]. destruct i as [|i]; simpl.
      * split.
        -- intros [= <- <-]. auto.
        -- intros [[= <-] R]. rewrite (row_fun _ _ _ _ _ R H0). reflexivity.
      * rewrite IH, H1. reflexivity.
    + split; [destruct i; discriminate|]. intros [_ R]. exfalso. eapply heads_none; eauto.
Qed.

Lemma row_exists : forall A (cols : list (list A)) i,
  Forall (fun c => (i < length c)%nat) cols -> exists a, row cols i a.
Proof.
  intros A cols i H. unfold row. induction H as [|c cols L _ [a IH]].
  - exists []. constructor.
  - apply nth_error_Some in L. destruct (nth_error c i) as [x|] eqn:E; [|congruence].
    exists (x :: a). constructor; auto.
Qed.

Lemma zip_rows_length_eq : forall M A (ms : list M) (cols : list (list A)),
  Forall (fun c => length c = length ms) cols -> length (zip_rows ms cols) = length ms.
Proof.
  intros M A ms cols H.
  assert (LE : forall (ms : list M) (cols : list (list A)),
    (length (zip_rows ms cols) <= length ms)%nat).
  { induction ms0 as [|m0 ms0 IH]; intros cs; simpl; auto.
    destruct (heads cs) as [[hs ts]|]; simpl; [|lia]. specialize (IH ts). lia. }
  specialize (LE ms cols).
  destruct (Nat.eq_dec (length (zip_rows ms cols)) (length ms)) as [|NE]; auto. exfalso.
  set (i := length (zip_rows ms cols)) in *.
  assert (LT : (i < length ms)%nat) by lia.
  destruct (row_exists _ cols i) as [a R].
  { eapply Forall_impl; [|exact H]. intros c E. simpl in *. lia. }
  destruct (nth_error ms i) as [m|] eqn:E; [|apply nth_error_None in E; lia].
  assert (X : nth_error (zip_rows ms cols) i = Some (m, a)) by (apply zip_rows_nth; auto).
  assert (i < length (zip_rows ms cols))%nat by (apply nth_error_Some; congruence).
  unfold i in *. lia.
Qed.

Lemma Forall2_nth : forall A B (P : A -> B -> Prop) l r,
  Forall2 P l r <->
  length l = length r /\
  forall i a b, nth_error l i = Some a -> nth_error r i = Some b -> P a b.
Proof.
  intros A B P. induction l as [|a l IH]; intros [|b r]; split.
  - intros _. split; auto. intros [|i]; discriminate.
  - constructor.
  - inversion 1.
  - intros [? _]; discriminate.
  - inversion 1.
  - intros [? _]; discriminate.
  - inversion 1 as [|? ? ? ? H1 H2]; subst. apply IH in H2 as [L H2]. split; simpl; auto.
    intros [|i] a' b'; simpl; [congruence|apply H2].
  - intros [L H]. constructor; [apply (H 0%nat); reflexivity|]. apply IH. split; [simpl in L; lia|].
    intros i. apply (H (S i)).
Qed.

(** The central lemma: what a dispatched call returns when every argument has one entry per manifold. *)
Lemma dispatch_iff : forall N (AR : Arrays N) (ms : list (manifold AR)) method transform args cols f,
  Forall2 (fun v c => items v = Ok c) args cols ->
  Forall (fun c => length c = length ms) cols ->
  (forall m a, f m a = let* v := mf_call m method a in transform v) ->
  forall reduction r,
  dispatch ms method transform reduction args = Ok r <->
  exists outs, entrywise ms cols f outs /\ reduction outs = Ok r.
Proof.
  intros N AR ms method transform args cols f HI HL Hf reduction r. unfold dispatch.
  apply mapM_iff in HI. rewrite HI. cbn [bind].
  assert (K : forall outs,
    mapM (fun ma : manifold AR * list (val AR) =>
            let* v := mf_call (fst ma) method (snd ma) in transform v) (zip_rows ms cols) = Ok outs
    <-> entrywise ms cols f outs).
  { intros outs. rewrite mapM_iff, Forall2_nth, (zip_rows_length_eq _ _ _ _ HL).
    unfold entrywise. split.
    - intros [L H]. split; auto. intros i m a E R.
      assert (Z : nth_error (zip_rows ms cols) i = Some (m, a)) by (apply zip_rows_nth; auto).
      destruct (nth_error outs i) as [o|] eqn:O.
      + exists o. split; auto. rewrite Hf. apply (H i (m, a) o); auto.
      + exfalso. apply nth_error_None in O.
        assert (i < length ms)%nat by (apply nth_error_Some; congruence). lia.
    - intros [L H]. split; [lia|]. intros i [m a] o Z O. apply zip_rows_nth in Z as [E R].
      destruct (H i m a E R) as (o' & O' & F). simpl. rewrite <- Hf. congruence. }
  split.
  - destruct (mapM _ (zip_rows ms cols)) as [outs|] eqn:E; [|discriminate]. cbn [bind]. intros R.
    exists outs. split; auto. apply K. reflexivity.
  - intros (outs & H & R). apply K in H. rewrite H. exact R.
Qed.

Lemma flat_layouts : forall N (AR : Arrays N) (ms : list (manifold AR)),
  forallb (fun m => match mf_layout m with Flat _ => true | _ => false end) ms = true ->
  forallb (fun n => n >? 0)%Z
    (map (fun m => match mf_layout m with Flat n => n | Groups _ => 0%Z end) ms) = true ->
  Forall2 (fun mi n => mf_layout mi = Flat n /\ (0 < n)%Z) ms
    (map (fun m => match mf_layout m with Flat n => n | Groups _ => 0%Z end) ms).
Proof.
  intros N AR ms F G. induction ms as [|a ms IH]; simpl in *; [constructor|].
  apply andb_prop in F as [F1 F2]. apply andb_prop in G as [G1 G2].
  constructor; auto. destruct (mf_layout a); [|discriminate]. split; auto.
  apply Z.gtb_lt in G1. lia.
Qed.

Lemma product_shape : forall N (AR : Arrays N) (ms : list (manifold AR)) m,
  product_init ms = Ok m ->
  mf_call m = product_call ms /\ ms <> [] /\ mf_product m = true /\
  mf_typical_dist m = product_typical_dist ms /\
  existsb mf_product ms = false /\
  mf_dim m = fold_right Z.add 0%Z (map mf_dim ms) /\ (0 <= mf_dim m)%Z /\
  exists sig, mf_layout m = Groups sig /\ Forall2 (fun mi n => mf_layout mi = Flat n /\ (0 < n)%Z) ms sig.
Proof.
  intros N AR ms m. unfold product_init. destruct (existsb mf_product ms) eqn:X; [discriminate|].
  unfold product_dim, product_layout, manifold_init.
  destruct ms as [|m0 ms']; [discriminate|]. set (ms := m0 :: ms') in *.
  destruct (Z.ltb_spec (fold_right Z.add 0%Z (map mf_dim ms)) 0) as [|D]; [discriminate|].
  destruct (forallb _ ms) eqn:F; [|discriminate].
  destruct (forallb _ (map _ ms)) eqn:G; [|discriminate]. intros [= <-]. simpl.
  repeat split; auto; [unfold ms; discriminate|].
  eexists. split; [reflexivity|]. exact (flat_layouts N AR ms F G).
Qed.

(** Sums. *)
Lemma nsum_R : forall l : list R, nsum (N := Rnum) l = Rsum l.
Proof.
  unfold nsum. simpl. intros l.
  assert (K : forall l a, fold_left Rplus l a = (a + Rsum l)%R).
  { unfold Rsum. induction l0 as [|x l0 IH]; intros a; simpl; [lra|]. rewrite IH. lra. }
  rewrite K. lra.
Qed.

Lemma np_sum_nums : forall (AR : Arrays Rnum) (l : list (val AR)) (xs : list R),
  Forall2 (fun v x => v = Num (x : Rnum)) l xs -> np_sum l = Ok (Num (Rsum xs : Rnum)).
Proof.
  intros AR l xs H. unfold np_sum.
  assert (E : mapM num_of l = Ok (xs : list Rnum)).
  { apply mapM_iff. clear -H. induction H; constructor; subst; auto. }
  rewrite E. cbn [bind]. rewrite nsum_R. reflexivity.
Qed.

Lemma Rsum_ge0 : forall l, Forall (fun x => 0 <= x)%R l -> (0 <= Rsum l)%R.
Proof. unfold Rsum. induction 1; simpl; lra. Qed.

Lemma Rsum_eq0 : forall l, Forall (fun x => 0 <= x)%R l -> Rsum l = 0%R -> Forall (fun x => x = 0%R) l.
Proof.
  induction 1 as [|x l Hx H IH]; intros E; constructor; unfold Rsum in *; simpl in *.
  - pose proof (Rsum_ge0 l H). unfold Rsum in *. lra.
  - apply IH. pose proof (Rsum_ge0 l H). unfold Rsum in *. lra.
Qed.

(** Cauchy-Schwarz and Minkowski for lists of pairs. *)
Lemma lagrange : forall l : list (R * R),
  (Rsum (map (fun p => fst p * snd p) l) * Rsum (map (fun p => fst p * snd p) l) <=
   Rsum (map (fun p => fst p * fst p) l) * Rsum (map (fun p => snd p * snd p) l))%R.
Proof.
  unfold Rsum. induction l as [|[x y] l IH]; simpl; [lra|].
  set (a := fold_right Rplus 0%R (map (fun p => fst p * snd p)%R l)) in *.
  set (b := fold_right Rplus 0%R (map (fun p => fst p * fst p)%R l)) in *.
  set (c := fold_right Rplus 0%R (map (fun p => snd p * snd p)%R l)) in *.
  assert (B : (0 <= b)%R).
  { unfold b. apply Rsum_ge0. apply Forall_map, Forall_forall. intros. simpl. nra. }
  assert (C : (0 <= c)%R).
  { unfold c. apply Rsum_ge0. apply Forall_map, Forall_forall. intros. simpl. nra. }
  clearbody a b c.
  (* 2 x y a <= x^2 c + y^2 b *)
  assert (K : (2 * x * y * a <= x * x * c + y * y * b)%R).
  { assert (X1 : (0 <= x * x * c)%R) by (apply Rmult_le_pos; [nra|auto]).
    assert (X2 : (0 <= y * y * b)%R) by (apply Rmult_le_pos; [nra|auto]).
    destruct (Rle_lt_dec (2 * x * y * a) 0) as [|P]; [lra|].
    assert (S : ((2 * x * y * a) * (2 * x * y * a) <=
                 (x * x * c + y * y * b) * (x * x * c + y * y * b))%R).
    { assert (((2 * x * y * a) * (2 * x * y * a) <= 4 * (x * x * c) * (y * y * b))%R).
      { pose proof (Rle_0_sqr (x*y)) as Q. unfold Rsqr in Q.
        replace ((2 * x * y * a) * (2 * x * y * a))%R with (4 * ((x*y)*(x*y)) * (a * a))%R by ring.
        replace (4 * (x * x * c) * (y * y * b))%R with (4 * ((x*y)*(x*y)) * (b * c))%R by ring.
        apply Rmult_le_compat_l; lra. }
      pose proof (Rle_0_sqr (x * x * c - y * y * b)) as Q. unfold Rsqr in Q.
      set (X := (x * x * c)%R) in *. set (Y := (y * y * b)%R) in *. clearbody X Y. lra. }
    apply Rsqr_incr_0_var; [unfold Rsqr; lra|lra]. }
  nra.
Qed.

Lemma minkowski : forall l : list (R * R),
  (sqrt (Rsum (map (fun p => (fst p + snd p) * (fst p + snd p)) l)) <=
   sqrt (Rsum (map (fun p => fst p * fst p) l)) + sqrt (Rsum (map (fun p => snd p * snd p) l)))%R.
Proof.
  intros l. pose proof (lagrange l) as L.
  set (a := Rsum (map (fun p => fst p * snd p)%R l)) in *.
  set (b := Rsum (map (fun p => fst p * fst p)%R l)) in *.
  set (c := Rsum (map (fun p => snd p * snd p)%R l)) in *.
  assert (E : Rsum (map (fun p => (fst p + snd p) * (fst p + snd p))%R l) = (b + 2 * a + c)%R).
  { unfold a, b, c, Rsum. clear. induction l as [|[x y] l IH]; simpl; [lra|]. rewrite IH. lra. }
  rewrite E.
  assert (B : (0 <= b)%R).
  { unfold b. apply Rsum_ge0. apply Forall_map, Forall_forall. intros. simpl. nra. }
  assert (C : (0 <= c)%R).
  { unfold c. apply Rsum_ge0. apply Forall_map, Forall_forall. intros. simpl. nra. }
  assert (AB : (a <= sqrt b * sqrt c)%R).
  { rewrite <- sqrt_mult by auto. destruct (Rle_lt_dec a 0) as [|P].
    - pose proof (sqrt_pos (b * c)). lra.
    - rewrite <- (sqrt_square a) by lra. apply sqrt_le_1_alt. exact L. }
  pose proof (sqrt_pos b). pose proof (sqrt_pos c).
  pose proof (sqrt_sqrt b B). pose proof (sqrt_sqrt c C).
  rewrite <- (sqrt_square (sqrt b + sqrt c)) by lra.
  apply sqrt_le_1_alt. nra.
Qed.

Lemma sqrt_Rsum_mono : forall l m : list R,
  Forall2 (fun x y => 0 <= x <= y)%R l m ->
  (sqrt (Rsum (map (fun x => x * x) l)) <= sqrt (Rsum (map (fun x => x * x) m)))%R.
Proof.
  intros l m H. apply sqrt_le_1_alt. unfold Rsum. induction H as [|x y l m [A B] _ IH]; simpl; nra.
Qed.
