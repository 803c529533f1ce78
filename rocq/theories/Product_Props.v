(** Properties C44-C48: product manifolds. *)
From Coq Require Import ZArith List Bool Reals Lra Lia.
From Verif Require Import Num_Model Num_Instances Problem_Model Product_Model Product_Spec
  Product_Proofs Product_Proofs2 Problem_Instances.
Import ListNotations.
Local Open Scope R_scope.

(* ------------------------------------------------------------------ *)
(** ** C44 *)

Lemma entrywise_call : forall N (AR : Arrays N) (ms : list (manifold AR)) method arity cls args,
  In (method, (arity, cls)) entrywise_operations -> length args = arity ->
  product_call ms method args = dispatch ms method keep (fun l => Ok (Seq cls l)) args.
Proof.
  intros N AR ms method arity cls args I L. simpl in I.
  repeat (destruct I as [[= <- <- <-]|I];
    [repeat (destruct args as [|? args]; simpl in L; try discriminate); reflexivity|]).
  contradiction.
Qed.

(** Every listed operation returns exactly the list (or product tangent vector) of the results of the
    components' operation on the entries, and raises if one of them does. *)
Theorem C44_entrywise :
  forall N (AR : Arrays N) (ms : list (manifold AR)) m method arity cls args cols r,
  product_init ms = Ok m ->
  In (method, (arity, cls)) entrywise_operations -> length args = arity ->
  Forall2 (fun v c => items v = Ok c) args cols ->
  Forall (fun c => length c = length ms) cols ->
  (mf_call m method args = Ok r <->
   exists outs, r = Seq cls outs /\ entrywise ms cols (fun mi a => mf_call mi method a) outs).
Proof.
  intros N AR ms m method arity cls args cols r H I L HI HL.
  apply product_shape in H as (C & _). rewrite C, (entrywise_call _ _ _ _ _ _ _ I L).
  rewrite (dispatch_iff N AR ms method keep args cols (fun mi a => mf_call mi method a) HI HL).
  - split.
    + intros (outs & E & [= <-]). eauto.
    + intros (outs & -> & E). eauto.
  - intros mi a. destruct (mf_call mi method a); reflexivity.
Qed.

(** Random tangent vectors are the components' ones, scaled by 1/sqrt(number of components). *)
Theorem C44_random_tangent_vector :
  forall N (AR : Arrays N) (ms : list (manifold AR)) m point ps r,
  product_init ms = Ok m -> items point = Ok ps -> length ps = length ms ->
  (mf_call m MRandomTangent [point] = Ok r <->
   exists outs, r = Seq CProductTV outs /\
     entrywise ms [ps] (fun mi a => let* v := mf_call mi MRandomTangent a in
       val_scale (tangent_scale (length ms)) v) outs).
Proof.
  intros N AR ms m point ps r H I L.
  apply product_shape in H as (C & _). rewrite C. cbn [product_call].
  rewrite (dispatch_iff N AR ms MRandomTangent _ [point] [ps]
    (fun mi a => let* v := mf_call mi MRandomTangent a in
       val_scale (tangent_scale (length ms)) v)); auto.
  split.
  - intros (outs & E & [= <-]). eauto.
  - intros (outs & -> & E). eauto.
Qed.
Example C44_instance :
  exists m, product_init [u1; u1] = Ok m /\
  mf_call m MGradient [Seq CList [A 0 1; A 1 0]; Seq CList [A 0 1; A 2 0]] =
    Ok (Seq CProductTV [Arr (cmul (cconj (0, 1)) (0, 1) : C0d); Arr (cmul (cconj (1, 0)) (2, 0) : C0d)]).
Proof. eexists. split; reflexivity. Qed.

(* ------------------------------------------------------------------ *)
(** ** C45 *)

(** If the components' tangent vectors are inner product spaces, so are the product's, and its
    inner product is the sum of theirs. *)
Theorem C45_inner_product :
  forall (AR : Arrays Rnum) (cs : list (component AR)) m k,
  product_init (map c_m cs) = Ok m ->
  Forall (fun c => inner_space (c_m c) (c_x c) (c_T c) (c_ip c)) cs ->
  inner_space m (Seq k (map c_x cs)) (product_vectors (map c_T cs)) (sum_inner (map c_ip cs)).
Proof. intros. apply product_inner_space; auto. Qed.

(** The norm is the square root of the inner product of the vector with itself. *)
Theorem C45_norm :
  forall (AR : Arrays Rnum) (ms : list (manifold AR)) m p v (x : R),
  product_init ms = Ok m ->
  mf_call m MInner [p; v; v] = Ok (Num (x : Rnum)) ->
  mf_call m MNorm [p; v] = Ok (Num (sqrt x : Rnum)).
Proof.
  intros AR ms m p v x H. apply product_shape in H as (C & _). rewrite C. cbn [product_call].
  intros E. rewrite E. reflexivity.
Qed.

(** The distance is the root of the sum of squares of the components' distances, and a metric if they
    are metrics. *)
Theorem C45_distance :
  forall (AR : Arrays Rnum) (cs : list (component AR)) m k,
  product_init (map c_m cs) = Ok m ->
  Forall (fun c => metric_space (c_m c) (c_X c) (c_d c)) cs ->
  metric_space m (product_points k (map c_X cs)) (root_sum_squares (map c_d cs)).
Proof. intros. apply product_metric_space; auto. Qed.

(** The typical distance of the product is the root of the sum of squares of the typical distances. *)
Theorem C45_typical_distance :
  forall (AR : Arrays Rnum) (ms : list (manifold AR)) m (ds : list R),
  product_init ms = Ok m ->
  Forall2 (fun mi d => mf_typical_dist mi = Ok (d : Rnum)) ms ds ->
  mf_typical_dist m = Ok (sqrt (Rsum (map (fun d => d * d) ds)) : Rnum).
Proof.
  intros AR ms m ds H F. apply product_shape in H as (_ & _ & _ & T & _). rewrite T.
  unfold product_typical_dist.
  assert (E : mapM mf_typical_dist ms = Ok (ds : list Rnum)).
  { apply mapM_iff. exact F. }
  rewrite E. cbn [bind]. rewrite nsum_R. reflexivity.
Qed.

(** Instance: U(1) x U(1). *)
Definition u1_component : component C0d :=
  mkComponent C0d u1 (A 1 0) (fun v => exists x y, v = A x y)
    (fun a b => match a, b with Arr a, Arr b => fst (cmul (cconj a) b) | _, _ => 0 end)
    (fun v => exists x y, v = A x y)
    (fun a b => match a, b with
       | Arr a, Arr b => Rabs (fst (a : CR) - fst (b : CR)) + Rabs (snd (a : CR) - snd (b : CR))
       | _, _ => 0 end).
Lemma u1_inner_space :
  inner_space (c_m u1_component) (c_x u1_component) (c_T u1_component) (c_ip u1_component).
Proof.
  constructor; simpl.
  - intros a b (x & y & ->) (x' & y' & ->). reflexivity.
  - intros a b (x & y & ->) (x' & y' & ->). unfold A, cmul, cconj. simpl. lra.
  - intros a (x & y & ->). unfold A, cmul, cconj. simpl. nra.
  - intros a (x & y & ->). unfold A, cmul, cconj. simpl. intros E.
    assert (x = 0) by nra. assert (y = 0) by nra. subst. reflexivity.
  - intros a b c d (x & y & ->) (x' & y' & ->) _ (x2 & y2 & ->). unfold A, cmul, cconj. simpl.
    intros [= <-]. simpl. lra.
  - intros s a b d (x & y & ->) _ (x2 & y2 & ->). unfold A, cmul, cconj. simpl.
    intros [= <-]. simpl. lra.
Qed.
Lemma u1_metric_space :
  metric_space (c_m u1_component) (c_X u1_component) (c_d u1_component).
Proof.
  constructor; simpl.
  - intros a b (x & y & ->) (x' & y' & ->). reflexivity.
  - intros a (x & y & ->). simpl. rewrite !Rminus_eq_0, Rabs_R0. lra.
  - intros a b (x & y & ->) (x' & y' & ->). simpl. rewrite (Rabs_minus_sym x), (Rabs_minus_sym y).
    reflexivity.
  - intros a b (x & y & ->) (x' & y' & ->). simpl.
    pose proof (Rabs_pos (x - x')). pose proof (Rabs_pos (y - y')). lra.
  - intros a b (x & y & ->) (x' & y' & ->). simpl. intros E.
    pose proof (Rabs_pos (x - x')). pose proof (Rabs_pos (y - y')).
    assert (X : Rabs (x - x') = 0) by lra. assert (Y : Rabs (y - y') = 0) by lra.
    revert X Y. unfold Rabs. destruct (Rcase_abs _), (Rcase_abs _); intros.
    all: assert (x = x') by lra; assert (y = y') by lra; subst; reflexivity.
  - intros a b c (x & y & ->) (x' & y' & ->) (x2 & y2 & ->). simpl.
    pose proof (Rabs_triang (x - x') (x' - x2)) as T1. pose proof (Rabs_triang (y - y') (y' - y2)) as T2.
    replace (x - x' + (x' - x2)) with (x - x2) in T1 by lra.
    replace (y - y' + (y' - y2)) with (y - y2) in T2 by lra. lra.
Qed.
Example C45_instance :
  let cs := [u1_component; u1_component] in
  (exists m, product_init (map c_m cs) = Ok m) /\
  Forall (fun c => inner_space (c_m c) (c_x c) (c_T c) (c_ip c)) cs /\
  Forall (fun c => metric_space (c_m c) (c_X c) (c_d c)) cs.
Proof.
  split; [eexists; reflexivity|]. split; repeat apply Forall_cons; try apply Forall_nil; apply u1_inner_space || apply u1_metric_space.
Qed.

(* ------------------------------------------------------------------ *)
(** ** C46 *)

(** If the entries range over vector spaces, product tangent vectors form a vector space. *)
Theorem C46_vector_space :
  forall (AR : Arrays Rnum) (Ts : list (val AR -> Prop)),
  Forall vector_space Ts -> vector_space (product_vectors Ts).
Proof. intros. apply product_vector_space. auto. Qed.

(** Adding or subtracting a sequence of another length raises ValueError. *)
Theorem C46_lengths_rejected :
  forall N (AR : Arrays N) l c (l' : list (val AR)), length l <> length l' ->
  val_add (Seq CProductTV l) (Seq c l') = Raise ValueError /\
  val_sub (Seq CProductTV l) (Seq c l') = Raise ValueError.
Proof.
  intros N AR l c l' NE. cbn [val_add val_sub items bind].
  destruct (Nat.eqb_spec (length l) (length l')); [contradiction|]. auto.
Qed.

(** Instance: zero-dimensional complex arrays. *)
Lemma C0d_vector_space : vector_space (fun v : val C0d => exists x y, v = A x y).
Proof.
  assert (EQ : forall x y x' y' : R, x = x' -> y = y' -> (Ok (A x y) : res (val C0d)) = Ok (A x' y'))
    by (intros; subst; reflexivity).
  constructor.
  - intros a b (x & y & ->) (x' & y' & ->). eexists. split; [reflexivity|]. do 2 eexists; reflexivity.
  - intros a (x & y & ->). eexists. split; [reflexivity|]. do 2 eexists; reflexivity.
  - intros s a (x & y & ->). eexists. split; [reflexivity|]. do 2 eexists; reflexivity.
  - intros a b (x & y & ->) (x' & y' & ->). simpl. apply EQ; lra.
  - intros a b c ab bc (x & y & ->) (x' & y' & ->) (x2 & y2 & ->). simpl.
    intros [= <-] [= <-]. apply EQ; simpl; lra.
  - intros a b na z (x & y & ->) (x' & y' & ->). simpl. intros [= <-]. simpl. intros [= <-]. simpl.
    apply EQ; lra.
  - intros a (x & y & ->). simpl. apply EQ; lra.
  - intros s t a ta (x & y & ->). simpl. intros [= <-]. simpl. apply EQ; lra.
  - intros s a b ab sa sb (x & y & ->) (x' & y' & ->). simpl. intros [= <-] [= <-] [= <-]. simpl.
    apply EQ; lra.
  - intros s t a sa ta (x & y & ->). simpl. intros [= <-] [= <-]. simpl. apply EQ; lra.
  - intros a b nb (x & y & ->) (x' & y' & ->). simpl. intros [= <-]. simpl. apply EQ; lra.
  - intros a (x & y & ->). simpl. apply EQ; lra.
  - intros s a NZ (x & y & ->). simpl. apply EQ; field; auto.
Qed.
Example C46_instance :
  vector_space (product_vectors [c_T u1_component; c_T u1_component]).
Proof. apply C46_vector_space. repeat apply Forall_cons; try apply Forall_nil; apply C0d_vector_space. Qed.

(* ------------------------------------------------------------------ *)
(** ** C47 *)

(** If the tangent vectors the components draw have unit length, and the components' inner products are
    homogeneous, then the product's random tangent vector has norm 1. *)
Theorem C47_unit_norm :
  forall (AR : Arrays Rnum) (ms : list (manifold AR)) m k ps draws,
  product_init ms = Ok m ->
  Forall2 (fun mi pd =>
      mf_call mi MRandomTangent [fst pd] = Ok (snd pd) /\
      forall s : R, exists w, val_scale (s : Rnum) (snd pd) = Ok w /\
        mf_call mi MInner [fst pd; w; w] = Ok (Num ((s * s * 1)%R : Rnum)))
    ms (combine ps draws) ->
  length ps = length draws ->
  exists v, mf_call m MRandomTangent [Seq k ps] = Ok v /\
    mf_call m MNorm [Seq k ps; v] = Ok (Num (1 : Rnum)).
Proof.
  intros AR ms m k ps draws H F L. apply product_shape in H as (C & NE & _). rewrite C.
  cbn [product_call]. unfold product_inner, dispatch.
  set (t := tangent_scale (N := Rnum) (length ms)).
  assert (K : forall (t : R) ms ps draws, length ps = length draws ->
    Forall2 (fun (mi : manifold AR) (pd : val AR * val AR) =>
      mf_call mi MRandomTangent [fst pd] = Ok (snd pd) /\
      forall s : R, exists w, val_scale (s : Rnum) (snd pd) = Ok w /\
        mf_call mi MInner [fst pd; w; w] = Ok (Num ((s * s * 1)%R : Rnum)))
      ms (combine ps draws) ->
    exists vs,
      mapM (fun ma : manifold AR * list (val AR) =>
          let* v := mf_call (fst ma) MRandomTangent (snd ma) in val_scale (t : Rnum) v)
        (zip_rows ms [ps]) = Ok vs /\
      mapM (fun ma : manifold AR * list (val AR) =>
          let* v := mf_call (fst ma) MInner (snd ma) in keep v)
        (zip_rows ms [ps; vs; vs]) = Ok (repeat (Num ((t * t * 1)%R : Rnum)) (length ms))).
  { clear. intros t ms. induction ms as [|mi ms IH]; intros ps draws L F.
    - destruct ps; [|exfalso; destruct draws; simpl in F, L; (now inversion F) || (now inversion L)].
      exists []. split; reflexivity.
    - destruct ps as [|p ps], draws as [|d draws]; simpl in F; try (exfalso; now inversion F); try (exfalso; now inversion L).
      simpl in F. inversion F as [|? ? ? ? [R K] F']; subst. cbn [fst snd] in R, K.
      simpl in L. destruct (IH ps draws) as (vs & E1 & E2); [lia|auto|].
      destruct (K t) as (w & W1 & W2). exists (w :: vs).
      cbn [zip_rows heads]. rewrite !mapM_cons. cbn [fst snd]. rewrite R. cbn [bind].
      rewrite W1. cbn [bind]. rewrite E1, W2. cbn [bind keep]. rewrite E2. split; reflexivity. }
  destruct (K t ms ps draws L F) as (vs & E1 & E2).
  cbn [mapM items bind].
  fold t. rewrite E1. cbn [bind as_ptv]. eexists. split; [reflexivity|].
  cbn [mapM items bind]. rewrite E2. cbn [bind].
  rewrite (np_sum_nums AR _ (repeat (t * t * 1) (length ms))).
  - cbn [bind np_sqrt num_of].
    assert (S : Rsum (repeat (t * t * 1) (length ms)) = 1).
    { assert (G : forall n x, Rsum (repeat x n) = INR n * x).
      { unfold Rsum. induction n as [|n IH]; intros x; [simpl; lra|].
        rewrite S_INR. simpl. rewrite IH. lra. }
      rewrite G. rewrite Rmult_1_r. apply tangent_scale_sq. destruct ms; [congruence|simpl; lia]. }
    rewrite S. simpl. rewrite sqrt_1. reflexivity.
  - generalize (length ms). clear. induction n; simpl; constructor; auto.
Qed.
Example C47_instance :
  Forall2 (fun mi pd =>
      mf_call mi MRandomTangent [fst pd] = Ok (snd pd) /\
      forall s : R, exists w, val_scale (s : Rnum) (snd pd) = Ok w /\
        mf_call mi MInner [fst pd; w; w] = Ok (Num ((s * s * 1)%R : Rnum)))
    [u1; u1] (combine [A 1 0; A 1 0] [A 0 1; A 0 1]).
Proof.
  repeat constructor; eexists; split; try reflexivity; simpl; do 2 f_equal; unfold cmul, cconj; simpl; lra.
Qed.

(** C105: the components of a random tangent vector of a product all have the same length, so most unit tangent vectors are
    never returned: none with a component that vanishes. *)
Theorem C105_product_refuted :
  forall (AR : Arrays Rnum) (ms : list (manifold AR)) m k ps draws,
  product_init ms = Ok m ->
  Forall2 (fun mi pd =>
      mf_call mi MRandomTangent [fst pd] = Ok (snd pd) /\
      forall s : R, exists w, val_scale (s : Rnum) (snd pd) = Ok w /\
        mf_call mi MInner [fst pd; w; w] = Ok (Num ((s * s * 1)%R : Rnum)))
    ms (combine ps draws) ->
  length ps = length draws ->
  (exists vs, mf_call m MRandomTangent [Seq k ps] = Ok (Seq CProductTV vs) /\ length vs = length ms /\
     Forall2 (fun mi pv => mf_call mi MInner [fst pv; snd pv; snd pv] = Ok (Num (/ INR (length ms) : Rnum))) ms (combine ps vs)) /\
  forall ws i mi p w, nth_error ms i = Some mi -> nth_error ps i = Some p -> nth_error ws i = Some w ->
    mf_call mi MInner [p; w; w] = Ok (Num (0 : Rnum)) -> mf_call m MRandomTangent [Seq k ps] <> Ok (Seq CProductTV ws).
Proof.
  intros AR ms m k ps draws H F L. apply product_shape in H as (C & NE & _). rewrite C.
  cbn [product_call]. unfold dispatch.
  set (t := tangent_scale (N := Rnum) (length ms)).
  assert (T2 : (t * t * 1 = / INR (length ms))%R).
  { assert (P : (0 < INR (length ms))%R) by (apply lt_0_INR; destruct ms; [congruence|simpl; lia]).
    apply Rmult_eq_reg_l with (INR (length ms)); [|lra]. rewrite Rinv_r by lra. rewrite Rmult_1_r.
    apply tangent_scale_sq. destruct ms; [congruence|simpl; lia]. }
  assert (K : forall (t c : R) ms ps draws, (t * t * 1 = c)%R -> length ps = length draws ->
    Forall2 (fun (mi : manifold AR) (pd : val AR * val AR) =>
      mf_call mi MRandomTangent [fst pd] = Ok (snd pd) /\
      forall s : R, exists w, val_scale (s : Rnum) (snd pd) = Ok w /\
        mf_call mi MInner [fst pd; w; w] = Ok (Num ((s * s * 1)%R : Rnum)))
      ms (combine ps draws) ->
    exists vs,
      mapM (fun ma : manifold AR * list (val AR) =>
          let* v := mf_call (fst ma) MRandomTangent (snd ma) in val_scale (t : Rnum) v)
        (zip_rows ms [ps]) = Ok vs /\ length vs = length ms /\
      Forall2 (fun mi pv => mf_call mi MInner [fst pv; snd pv; snd pv] = Ok (Num (c : Rnum))) ms (combine ps vs)).
  { clear. intros t c ms. induction ms as [|mi ms IH]; intros ps draws Tc L F.
    - destruct ps; [|exfalso; destruct draws; simpl in F, L; (now inversion F) || (now inversion L)].
      exists []. repeat split; constructor.
    - destruct ps as [|p ps], draws as [|d draws]; simpl in F; try (exfalso; now inversion F); try (exfalso; now inversion L).
      simpl in F. inversion F as [|? ? ? ? [R K] F']; subst. cbn [fst snd] in R, K.
      simpl in L. destruct (IH ps draws) as (vs & E1 & E2 & E3); [reflexivity|lia|auto|].
      destruct (K t) as (w & W1 & W2). exists (w :: vs).
      cbn [zip_rows heads]. rewrite !mapM_cons. cbn [fst snd]. rewrite R. cbn [bind].
      rewrite W1. cbn [bind]. rewrite E1. cbn [bind]. split; [reflexivity|]. split; [simpl; lia|].
      simpl. constructor; [exact W2|exact E3]. }
  destruct (K t (/ INR (length ms))%R ms ps draws T2 L F) as (vs & E1 & E2 & E3).
  cbn [mapM items bind]. fold t. rewrite E1. cbn [bind as_ptv]. split.
  - exists vs. repeat split; assumption.
  - intros ws i mi p w Hm Hp Hw Z [= <-].
    assert (P : (0 < INR (length ms))%R) by (apply lt_0_INR; destruct ms; [congruence|simpl; lia]).
    revert P E3. generalize (INR (length ms)). intros c P E3. clear - Hm Hp Hw Z P E3.
    revert ms ps vs Hm Hp Hw E3. induction i as [|i IH]; intros [|m0 ms] [|p0 ps] [|v0 vs] Hm Hp Hw E3; simpl in *; try discriminate.
    + injection Hm as <-. injection Hp as <-. injection Hw as <-. inversion E3 as [|? ? ? ? E _]; subst.
      cbn [fst snd] in E. rewrite Z in E. injection E as E. pose proof (Rinv_0_lt_compat _ P). lra.
    + inversion E3; subst. eapply IH; eassumption.
Qed.

(* ------------------------------------------------------------------ *)
(** ** C48 *)

(** Nested and empty products are rejected. *)
Theorem C48_nested_rejected :
  forall N (AR : Arrays N) (ms ms' : list (manifold AR)) m,
  product_init ms = Ok m -> In m ms' -> product_init ms' = Raise ValueError.
Proof.
  intros N AR ms ms' m H I. apply product_shape in H as (_ & _ & P & _).
  unfold product_init. replace (existsb mf_product ms') with true; auto.
  symmetry. apply existsb_exists. eauto.
Qed.
Theorem C48_empty_rejected : forall N (AR : Arrays N), product_init (AR := AR) [] = Raise TypeError.
Proof. reflexivity. Qed.

(** The part that fails: arguments with too many or too few entries are not rejected.  The operation
    acts on as many components as the shortest argument has. *)
Theorem C48_wrong_number_of_components_refuted :
  forall N (AR : Arrays N) (ms : list (manifold AR)) m method arity cls args cols extra r,
  product_init ms = Ok m ->
  In (method, (arity, cls)) entrywise_operations -> length args = arity ->
  Forall2 (fun v c => items v = Ok c) args cols ->
  Forall (fun c => length c = length ms) cols ->
  mf_call m method args = Ok r ->
  length extra = length cols ->
  mf_call m method (map (fun ce => Seq CList (fst ce ++ snd ce)) (combine cols extra)) = Ok r.
Proof.
  intros N AR ms m method arity cls args cols extra r H I L HI HL E LE.
  assert (LC : length args = length cols) by (clear - HI; induction HI; simpl; auto).
  apply product_shape in H as (C & _). rewrite C in *.
  rewrite (entrywise_call _ _ _ _ _ _ _ I L) in E.
  rewrite (entrywise_call _ _ _ _ arity cls)
    by (auto; rewrite map_length, combine_length; lia).
  unfold dispatch in *.
  apply mapM_iff in HI. rewrite HI in E. cbn [bind] in E.
  assert (HI' : mapM items (map (fun ce : list (val AR) * list (val AR) =>
      Seq CList (fst ce ++ snd ce)) (combine cols extra)) =
      Ok (map (fun ce => fst ce ++ snd ce) (combine cols extra))).
  { clear. induction (combine cols extra) as [|ce l IH]; [reflexivity|].
    rewrite map_cons, mapM_cons. cbn [items bind]. rewrite IH. reflexivity. }
  rewrite HI'. cbn [bind].
  assert (Z : forall (ms : list (manifold AR)) cols extra,
    Forall (fun c => length c = length ms) cols -> length extra = length cols ->
    zip_rows ms (map (fun ce : list (val AR) * list (val AR) => fst ce ++ snd ce) (combine cols extra))
    = zip_rows ms cols).
  { clear. induction ms as [|mi ms IH]; intros cols extra HL LE; [reflexivity|]. cbn [zip_rows].
    assert (HH : exists hs ts, heads cols = Some (hs, ts) /\
      heads (map (fun ce : list (val AR) * list (val AR) => fst ce ++ snd ce) (combine cols extra)) =
        Some (hs, map (fun ce => fst ce ++ snd ce) (combine ts extra)) /\
      Forall (fun c => length c = length ms) ts /\ length ts = length cols).
    { revert extra LE. induction HL as [|c cols Hc HL IHc]; intros extra LE.
      - exists [], []. destruct extra; [|discriminate]. repeat split; constructor.
      - destruct extra as [|e extra]; [discriminate|]. destruct c as [|x c]; [discriminate|].
        simpl in LE. destruct (IHc extra) as (hs & ts & E1 & E2 & E3 & E4); [lia|].
        exists (x :: hs), (c :: ts). simpl. rewrite E1, E2. repeat split; auto. }
    destruct HH as (hs & ts & E1 & E2 & E3 & E4). rewrite E1, E2. f_equal. apply IH; auto. lia. }
  rewrite Z; auto.
Qed.
Theorem C48_refuted :
  exists m, product_init [u1; u1] = Ok m /\
  mf_call m MZero [Seq CList [A 1 0; A 1 0; A 5 5]] = Ok (Seq CProductTV [A 0 0; A 0 0]) /\
  mf_call m MZero [Seq CList [A 1 0]] = Ok (Seq CProductTV [A 0 0]).
Proof. eexists. repeat split. Qed.
