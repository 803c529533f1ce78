(** Product inner products, distances and vector spaces. *)
From Coq Require Import ZArith List Bool Reals Lra Lia.
From Verif Require Import Num_Model Num_Instances Problem_Model Product_Model Product_Spec
  Product_Proofs.
Import ListNotations.
Local Open Scope R_scope.

Section Metric.
Context {AR : Arrays Rnum}.
Implicit Types (Ts : list (val AR -> Prop)) (a b : val AR) (la lb lc : list (val AR)) (cs : list (component AR)).
Notation allT Ts l := (Forall2 (fun (T : val AR -> Prop) v => T v) Ts l).

Lemma allT_length : forall (Ts : list (val AR -> Prop)) l, allT Ts l -> length l = length Ts.
Proof. intros Ts l H. induction H; simpl; auto. Qed.

Lemma inner_rows : forall cs la lb,
  Forall (fun c => inner_space (c_m c) (c_x c) (c_T c) (c_ip c)) cs ->
  allT (map c_T cs) la -> allT (map c_T cs) lb ->
  mapM (fun ma : manifold AR * list (val AR) =>
          let* v := mf_call (fst ma) MInner (snd ma) in keep v)
    (zip_rows (map c_m cs) [map c_x cs; la; lb]) =
  Ok (map Num (entry_values (map c_ip cs) la lb : list Rnum)).
Proof.
  induction cs as [|c cs IH]; intros la lb F A B; simpl in *.
  - reflexivity.
  - inversion A as [|? x ? la' Ha A']; subst. inversion B as [|? y ? lb' Hb B']; subst.
    inversion F as [|? ? Hc F']; subst. cbn [zip_rows heads mapM fst snd].
    rewrite (is_value _ _ _ _ Hc x y Ha Hb). cbn [bind keep].
    fold (mapM (fun ma : manifold AR * list (val AR) =>
      let* v := mf_call (fst ma) MInner (snd ma) in keep v)).
    rewrite (IH la' lb' F' A' B'). reflexivity.
Qed.

Lemma product_inner_value : forall k cs la lb,
  Forall (fun c => inner_space (c_m c) (c_x c) (c_T c) (c_ip c)) cs ->
  allT (map c_T cs) la -> allT (map c_T cs) lb ->
  product_inner (map c_m cs) [Seq k (map c_x cs); Seq CProductTV la; Seq CProductTV lb] =
  Ok (Num (Rsum (entry_values (map c_ip cs) la lb) : Rnum)).
Proof.
  intros k cs la lb F A B. unfold product_inner, dispatch. cbn [mapM items bind].
  rewrite (inner_rows cs la lb F A B). cbn [bind]. apply np_sum_nums.
  generalize (entry_values (map c_ip cs) la lb). clear.
  induction l; simpl; constructor; auto.
Qed.

Lemma zero_rows : forall cs la,
  Forall2 (fun c v => mf_call (c_m c) MZero [c_x c] = Ok v) cs la ->
  mapM (fun ma : manifold AR * list (val AR) =>
          let* v := mf_call (fst ma) MZero (snd ma) in keep v)
    (zip_rows (map c_m cs) [map c_x cs]) = Ok la.
Proof.
  intros cs la H. induction H as [|c v cs la E _ IH]; simpl; auto.
  rewrite E. cbn [bind keep]. simpl in IH. rewrite IH. reflexivity.
Qed.

Lemma add_shape : forall Ts la lb c, allT Ts la -> allT Ts lb ->
  val_add (Seq CProductTV la) (Seq CProductTV lb) = Ok c ->
  exists lc, c = Seq CProductTV lc /\ map2M val_add la lb = Ok lc.
Proof.
  intros Ts la lb c A B. cbn [val_add items bind].
  rewrite (allT_length _ _ A), (allT_length _ _ B), Nat.eqb_refl.
  destruct (map2M val_add la lb) as [lc|]; [|discriminate]. cbn [bind as_instance].
  intros [= <-]. eauto.
Qed.

Lemma entry_values_add : forall cs la lb lc ld,
  Forall (fun c => inner_space (c_m c) (c_x c) (c_T c) (c_ip c)) cs ->
  allT (map c_T cs) la -> allT (map c_T cs) lb -> allT (map c_T cs) lc -> allT (map c_T cs) ld ->
  map2M val_add la lb = Ok lc ->
  Rsum (entry_values (map c_ip cs) lc ld) =
  Rsum (entry_values (map c_ip cs) la ld) + Rsum (entry_values (map c_ip cs) lb ld).
Proof.
  induction cs as [|c cs IH]; intros la lb lc ld F A B C D E; simpl in *.
  - unfold Rsum; simpl; lra.
  - inversion F as [|? ? Hc F']; subst.
    inversion A as [|? x ? la' Ha A']; subst. inversion B as [|? y ? lb' Hb B']; subst.
    inversion C as [|? z ? lc' Hz C']; subst. inversion D as [|? w ? ld' Hw D']; subst.
    cbn [map2M] in E. destruct (val_add x y) as [z'|] eqn:Ez; [|discriminate]. cbn [bind] in E.
    fold (@map2M (val AR) (val AR) (val AR) val_add) in E.
    destruct (map2M val_add la' lb') as [lc''|] eqn:El; [|discriminate]. cbn [bind] in E.
    injection E as -> ->. unfold Rsum; simpl. fold (Rsum (entry_values (map c_ip cs) lc' ld')).
    fold (Rsum (entry_values (map c_ip cs) la' ld')). fold (Rsum (entry_values (map c_ip cs) lb' ld')).
    rewrite (IH la' lb' lc' ld' F' A' B' C' D' El).
    rewrite (is_add _ _ _ _ Hc x y z w); auto. lra.
Qed.

Lemma entry_values_scale : forall cs (s : R) la lb ld,
  Forall (fun c => inner_space (c_m c) (c_x c) (c_T c) (c_ip c)) cs ->
  allT (map c_T cs) la -> allT (map c_T cs) lb -> allT (map c_T cs) ld ->
  mapM (val_scale (s : Rnum)) la = Ok lb ->
  Rsum (entry_values (map c_ip cs) lb ld) = s * Rsum (entry_values (map c_ip cs) la ld).
Proof.
  induction cs as [|c cs IH]; intros s la lb ld F A B D E; simpl in *.
  - unfold Rsum; simpl; lra.
  - inversion F as [|? ? Hc F']; subst.
    inversion A as [|? x ? la' Ha A']; subst. inversion B as [|? y ? lb' Hb B']; subst.
    inversion D as [|? w ? ld' Hw D']; subst.
    cbn [mapM] in E. destruct (val_scale (s : Rnum) x) as [z'|] eqn:Ez; [|discriminate].
    cbn [bind] in E. fold (mapM (val_scale (AR := AR) (s : Rnum))) in E.
    destruct (mapM (val_scale (s : Rnum)) la') as [lc''|] eqn:El; [|discriminate]. cbn [bind] in E.
    injection E as -> ->. unfold Rsum; simpl. fold (Rsum (entry_values (map c_ip cs) lb' ld')).
    fold (Rsum (entry_values (map c_ip cs) la' ld')).
    rewrite (IH s la' lb' ld' F' A' B' D' El).
    rewrite (is_scale _ _ _ _ Hc s x y w); auto. lra.
Qed.

Lemma entry_values_sym : forall cs la lb,
  Forall (fun c => inner_space (c_m c) (c_x c) (c_T c) (c_ip c)) cs ->
  allT (map c_T cs) la -> allT (map c_T cs) lb ->
  entry_values (map c_ip cs) la lb = entry_values (map c_ip cs) lb la.
Proof.
  induction cs as [|c cs IH]; intros la lb F A B; simpl in *; auto.
  inversion F as [|? ? Hc F']; subst.
  inversion A as [|? x ? la' Ha A']; subst. inversion B as [|? y ? lb' Hb B']; subst.
  f_equal; auto. apply (is_sym _ _ _ _ Hc); auto.
Qed.

Lemma entry_values_pos : forall cs la,
  Forall (fun c => inner_space (c_m c) (c_x c) (c_T c) (c_ip c)) cs ->
  allT (map c_T cs) la -> Forall (fun x => 0 <= x) (entry_values (map c_ip cs) la la).
Proof.
  induction cs as [|c cs IH]; intros la F A; simpl in *; [constructor|].
  inversion F as [|? ? Hc F']; subst. inversion A as [|? x ? la' Ha A']; subst.
  constructor; auto. apply (is_pos _ _ _ _ Hc); auto.
Qed.

Lemma entry_values_def : forall cs la,
  Forall (fun c => inner_space (c_m c) (c_x c) (c_T c) (c_ip c)) cs ->
  allT (map c_T cs) la -> Forall (fun x => x = 0) (entry_values (map c_ip cs) la la) ->
  Forall2 (fun c v => mf_call (c_m c) MZero [c_x c] = Ok v) cs la.
Proof.
  induction cs as [|c cs IH]; intros la F A Z; simpl in *.
  - inversion A. constructor.
  - inversion F as [|? ? Hc F']; subst. inversion A as [|? x ? la' Ha A']; subst.
    inversion Z; subst. constructor; auto. apply (is_def _ _ _ _ Hc); auto.
Qed.

Lemma product_inner_space : forall m k cs,
  product_init (map c_m cs) = Ok m ->
  Forall (fun c => inner_space (c_m c) (c_x c) (c_T c) (c_ip c)) cs ->
  inner_space m (Seq k (map c_x cs)) (product_vectors (map c_T cs)) (sum_inner (map c_ip cs)).
Proof.
  intros m k cs H F. apply product_shape in H as (C & _). constructor.
  - intros a b (la & -> & A) (lb & -> & B). rewrite C. apply product_inner_value; auto.
  - intros a b (la & -> & A) (lb & -> & B). unfold sum_inner. simpl.
    rewrite (entry_values_sym cs la lb); auto.
  - intros a (la & -> & A). apply Rsum_ge0. apply entry_values_pos; auto.
  - intros a (la & -> & A) Z. rewrite C. cbn [product_call]. unfold dispatch. cbn [mapM items bind].
    rewrite (zero_rows cs la); [reflexivity|]. apply entry_values_def; auto.
    apply Rsum_eq0; auto. apply entry_values_pos; auto.
  - intros a b c d (la & -> & A) (lb & -> & B) (lc & -> & C') (ld & -> & D) E.
    destruct (add_shape _ _ _ _ A B E) as (lc' & E1 & E2). injection E1 as ->.
    apply (entry_values_add cs la lb lc' ld); auto.
  - intros s a b d (la & -> & A) (lb & -> & B) (ld & -> & D) E.
    cbn [val_scale] in E. destruct (mapM (val_scale (s : Rnum)) la) as [l|] eqn:El; [|discriminate].
    injection E as ->. apply (entry_values_scale cs s la lb ld); auto.
Qed.

(** Distances. *)
Lemma dist_rows : forall cs la lb,
  Forall (fun c => metric_space (c_m c) (c_X c) (c_d c)) cs ->
  allT (map c_X cs) la -> allT (map c_X cs) lb ->
  mapM (fun ma : manifold AR * list (val AR) =>
          let* v := mf_call (fst ma) MDist (snd ma) in square v)
    (zip_rows (map c_m cs) [la; lb]) =
  Ok (map Num (map (fun d => d * d) (entry_values (map c_d cs) la lb) : list Rnum)).
Proof.
  induction cs as [|c cs IH]; intros la lb F A B; simpl in *.
  - reflexivity.
  - inversion A as [|? x ? la' Ha A']; subst. inversion B as [|? y ? lb' Hb B']; subst.
    inversion F as [|? ? Hc F']; subst. cbn [zip_rows heads mapM fst snd].
    rewrite (ms_value _ _ _ Hc x y Ha Hb). cbn [bind square num_of].
    fold (mapM (fun ma : manifold AR * list (val AR) =>
      let* v := mf_call (fst ma) MDist (snd ma) in square v)).
    rewrite (IH la' lb' F' A' B'). reflexivity.
Qed.

Lemma product_metric_space : forall m k cs,
  product_init (map c_m cs) = Ok m ->
  Forall (fun c => metric_space (c_m c) (c_X c) (c_d c)) cs ->
  metric_space m (product_points k (map c_X cs)) (root_sum_squares (map c_d cs)).
Proof.
  intros m k cs H F. apply product_shape in H as (C & _).
  assert (VAL : forall la lb, allT (map c_X cs) la -> allT (map c_X cs) lb ->
    Forall (fun x => 0 <= x) (entry_values (map c_d cs) la lb)).
  { clear C m. induction F as [|c cs Hc F IH]; intros la lb A B; simpl in *; [constructor|].
    inversion A; subst. inversion B; subst. constructor; auto. apply (ms_pos _ _ _ Hc); auto. }
  assert (SQ : forall l : list R, Forall (fun x => 0 <= x) (map (fun d => d * d) l)).
  { intros l. apply Forall_map, Forall_forall. intros. nra. }
  constructor.
  - intros a b (la & -> & A) (lb & -> & B). rewrite C. cbn [product_call]. unfold dispatch.
    cbn [mapM items bind]. rewrite (dist_rows cs la lb F A B). cbn [bind].
    rewrite (np_sum_nums AR _ (map (fun d => d * d) (entry_values (map c_d cs) la lb))).
    + reflexivity.
    + generalize (map (fun d => d * d) (entry_values (map c_d cs) la lb)). clear.
      induction l; simpl; constructor; auto.
  - intros a (la & -> & A). unfold root_sum_squares. simpl.
    replace (Rsum _) with 0; [apply sqrt_0|]. symmetry. clear C.
    revert la A. induction F as [|c cs Hc F IH]; intros la A; simpl in *; [reflexivity|].
    inversion A as [|? x ? l' Hx A']; subst. unfold Rsum in *. simpl.
    rewrite (ms_refl _ _ _ Hc x Hx), IH; auto; [lra|].
    intros la lb A1 B1.
    specialize (VAL (x :: la) (x :: lb)). simpl in VAL.
    assert (V : Forall (fun x => 0 <= x) (c_d c x x :: entry_values (map c_d cs) la lb))
      by (apply VAL; constructor; auto).
    inversion V; auto.
  - intros a b (la & -> & A) (lb & -> & B). unfold root_sum_squares. simpl.
    do 3 f_equal. clear C VAL. revert la lb A B.
    induction F as [|c cs Hc F IH]; intros la lb A B; simpl in *; auto.
    inversion A; subst. inversion B; subst. f_equal; auto. apply (ms_sym _ _ _ Hc); auto.
  - intros. apply sqrt_pos.
  - intros a b (la & -> & A) (lb & -> & B) Z. unfold root_sum_squares in Z. simpl in Z.
    apply sqrt_eq_0 in Z; [|apply Rsum_ge0; auto].
    apply Rsum_eq0 in Z; auto. f_equal. clear C VAL. revert la lb A B Z.
    induction F as [|c cs Hc F IH]; intros la lb A B Z; simpl in *.
    + inversion A. inversion B. reflexivity.
    + inversion A; subst. inversion B; subst. inversion Z; subst.
      f_equal; auto. apply (ms_sep _ _ _ Hc); auto. nra.
  - intros a b c (la & -> & A) (lb & -> & B) (lc & -> & C'). unfold root_sum_squares. simpl.
    set (u := entry_values (map c_d cs) la lb). set (v := entry_values (map c_d cs) lb lc).
    set (w := entry_values (map c_d cs) la lc).
    assert (LU : length u = length v /\
      Forall2 (fun x y => 0 <= x <= y) w (map (fun p => fst p + snd p) (combine u v))).
    { unfold u, v, w. clear C VAL u v w. revert la lb lc A B C'.
      induction F as [|c cs Hc F IH]; intros la lb lc A B C'; simpl in *.
      - inversion A. inversion B. inversion C'. simpl. split; [reflexivity|constructor].
      - inversion A as [|? x ? la' Hx A']; subst. inversion B as [|? y ? lb' Hy B']; subst.
        inversion C' as [|? z ? lc' Hz C'']; subst. simpl.
        destruct (IH la' lb' lc' A' B' C'') as [L FF]. split; [lia|]. constructor; auto.
        split; [apply (ms_pos _ _ _ Hc); auto|apply (ms_triangle _ _ _ Hc); auto]. }
    clearbody u v w. destruct LU as [LU FW]. apply sqrt_Rsum_mono in FW.
    eapply Rle_trans; [exact FW|].
    rewrite map_map. simpl.
    pose proof (minkowski (combine u v)) as MK.
    assert (E1 : map (fun p => fst p * fst p) (combine u v) = map (fun d => d * d) u).
    { clear -LU. revert v LU. induction u as [|x u IH]; intros [|y v] L; simpl in *;
      try discriminate; auto. f_equal. apply IH. lia. }
    assert (E2 : map (fun p => snd p * snd p) (combine u v) = map (fun d => d * d) v).
    { clear -LU. revert v LU. induction u as [|x u IH]; intros [|y v] L; simpl in *;
      try discriminate; auto. f_equal. apply IH. lia. }
    rewrite E1, E2 in MK. exact MK.
Qed.

(* ---------------------------------------------------------------- *)
(** Vector space laws. *)

Lemma padd : forall Ts la lb, allT Ts la -> allT Ts lb ->
  val_add (Seq CProductTV la) (Seq CProductTV lb) =
  let* r := map2M val_add la lb in Ok (Seq CProductTV r).
Proof.
  intros Ts la lb A B. cbn [val_add items bind].
  rewrite (allT_length _ _ A), (allT_length _ _ B), Nat.eqb_refl. reflexivity.
Qed.
Lemma psub : forall Ts la lb, allT Ts la -> allT Ts lb ->
  val_sub (Seq CProductTV la) (Seq CProductTV lb) =
  let* r := map2M val_sub la lb in Ok (Seq CProductTV r).
Proof.
  intros Ts la lb A B. cbn [val_sub items bind].
  rewrite (allT_length _ _ A), (allT_length _ _ B), Nat.eqb_refl. reflexivity.
Qed.

Lemma map2M_cons : forall A B C (f : A -> B -> res C) (a : A) l (b : B) m,
  map2M f (a :: l) (b :: m) = let* c := f a b in let* t := map2M f l m in Ok (c :: t).
Proof. reflexivity. Qed.
Lemma mapM_cons : forall A B (f : A -> res B) (a : A) l,
  mapM f (a :: l) = let* c := f a in let* t := mapM f l in Ok (c :: t).
Proof. reflexivity. Qed.

(** A law of the entries is a law of the lists: existence of results. *)
Lemma map2M_total : forall (f : val AR -> val AR -> res (val AR)) Ts la lb,
  Forall (fun T : val AR -> Prop => forall a b, T a -> T b -> exists c, f a b = Ok c /\ T c) Ts ->
  allT Ts la -> allT Ts lb -> exists lc, map2M f la lb = Ok lc /\ allT Ts lc.
Proof.
  intros f Ts la lb H A. revert lb. induction A as [|T x Ts la Hx A IH]; intros lb B;
    inversion B as [|? y ? lb' Hy B']; subst.
  - exists []. split; [reflexivity|constructor].
  - inversion H as [|? ? HT H']; subst.
    destruct (HT x y Hx Hy) as (c & E & Hc). destruct (IH H' lb' B') as (lc & E' & HC).
    exists (c :: lc). rewrite map2M_cons, E. cbn [bind]. rewrite E'. split; [reflexivity|].
    constructor; auto.
Qed.
Lemma mapM_total : forall (f : val AR -> res (val AR)) Ts la,
  Forall (fun T : val AR -> Prop => forall a, T a -> exists c, f a = Ok c /\ T c) Ts ->
  allT Ts la -> exists lc, mapM f la = Ok lc /\ allT Ts lc.
Proof.
  intros f Ts la H A. induction A as [|T x Ts la Hx A IH].
  - exists []. split; [reflexivity|constructor].
  - inversion H as [|? ? HT H']; subst.
    destruct (HT x Hx) as (c & E & Hc). destruct (IH H') as (lc & E' & HC).
    exists (c :: lc). rewrite mapM_cons, E. cbn [bind]. rewrite E'. split; [reflexivity|].
    constructor; auto.
Qed.

Lemma VS_impl : forall Ts (P : (val AR -> Prop) -> Prop),
  Forall vector_space Ts -> (forall T, vector_space T -> P T) -> Forall P Ts.
Proof. intros Ts P H K. eapply Forall_impl; [|exact H]. auto. Qed.

(** Peel one entry off every list in sight. *)
Ltac peel :=
  repeat match goal with
  | A : Forall2 _ (?T :: ?Ts) ?l |- _ => inversion A; clear A; subst
  | A : Forall2 _ [] ?l |- _ => inversion A; clear A; subst
  | A : Forall _ (?T :: ?Ts) |- _ => inversion A; clear A; subst
  end.
(** Read a successful list operation as operations on head and tail. *)
Ltac unstep :=
  repeat match goal with
  | E : map2M ?f (?x :: _) (?y :: _) = Ok _ |- _ =>
      rewrite map2M_cons in E;
      let c := fresh "c" in let Ec := fresh "Ec" in
      destruct (f x y) as [c|] eqn:Ec; [|discriminate]; cbn [bind] in E;
      let t := fresh "t" in let Et := fresh "Et" in
      match type of E with context [map2M f ?l ?m] =>
        destruct (map2M f l m) as [t|] eqn:Et; [|discriminate] end;
      cbn [bind] in E; injection E as <-
  | E : mapM ?f (?x :: _) = Ok _ |- _ =>
      rewrite mapM_cons in E;
      let c := fresh "c" in let Ec := fresh "Ec" in
      destruct (f x) as [c|] eqn:Ec; [|discriminate]; cbn [bind] in E;
      let t := fresh "t" in let Et := fresh "Et" in
      match type of E with context [mapM f ?l] =>
        destruct (mapM f l) as [t|] eqn:Et; [|discriminate] end;
      cbn [bind] in E; injection E as <-
  | E : map2M _ [] [] = Ok _ |- _ => injection E as <-
  | E : mapM _ [] = Ok _ |- _ => injection E as <-
  end.

Lemma bind1 : forall (X X' : res (list (val AR))), X = X' ->
  (let* r := X in Ok (Seq CProductTV r)) = (let* r := X' in Ok (Seq CProductTV r)).
Proof. intros; subst; reflexivity. Qed.
Lemma bind1_ok : forall (X : res (list (val AR))) l, X = Ok l ->
  (let* r := X in Ok (Seq CProductTV r)) = Ok (Seq CProductTV l).
Proof. intros; subst; reflexivity. Qed.
Lemma bind2 : forall (X X' : res (val AR)) (Y Y' : res (list (val AR))),
  X = X' -> Y = Y' ->
  (let* c := X in let* t := Y in Ok (c :: t)) = (let* c := X' in let* t := Y' in Ok (c :: t)).
Proof. intros; subst; reflexivity. Qed.
Lemma bind2_ok : forall (X : res (val AR)) (Y : res (list (val AR))) x l,
  X = Ok x -> Y = Ok l -> (let* c := X in let* t := Y in Ok (c :: t)) = Ok (x :: l).
Proof. intros; subst; reflexivity. Qed.

Lemma list_comm : forall Ts la lb, Forall vector_space Ts -> allT Ts la -> allT Ts lb ->
  map2M val_add la lb = map2M val_add lb la.
Proof.
  induction Ts as [|T Ts IH]; intros la lb H A B.
  - peel. reflexivity.
  - inversion A as [|? x ? la' Hx A']; subst. inversion B as [|? y ? lb' Hy B']; subst.
    inversion H as [|? ? HT H']; subst.
    rewrite !map2M_cons, (vs_comm T HT x y Hx Hy), (IH la' lb' H' A' B'). reflexivity.
Qed.

Lemma list_assoc : forall Ts la lb lc lab lbc,
  Forall vector_space Ts -> allT Ts la -> allT Ts lb -> allT Ts lc ->
  map2M val_add la lb = Ok lab -> map2M val_add lb lc = Ok lbc ->
  map2M val_add lab lc = map2M val_add la lbc.
Proof.
  induction Ts as [|T Ts IH]; intros la lb lc lab lbc H A B C E1 E2; peel; unstep; [reflexivity|].
  rewrite !map2M_cons.
  apply bind2; [solve [eauto using vs_assoc] | solve [eauto]].
Qed.

Lemma list_cancel : forall Ts la lb lna lz,
  Forall vector_space Ts -> allT Ts la -> allT Ts lb ->
  mapM val_neg la = Ok lna -> map2M val_add la lna = Ok lz -> map2M val_add lb lz = Ok lb.
Proof.
  induction Ts as [|T Ts IH]; intros la lb lna lz H A B E1 E2; peel; unstep; [reflexivity|].
  rewrite !map2M_cons.
  apply bind2_ok; [solve [eauto using vs_cancel] | solve [eauto]].
Qed.

Lemma list_one : forall Ts la, Forall vector_space Ts -> allT Ts la ->
  mapM (val_scale (1 : Rnum)) la = Ok la.
Proof.
  induction Ts as [|T Ts IH]; intros la H A; peel; [reflexivity|].
  rewrite mapM_cons. apply bind2_ok; [solve [eauto using vs_one] | solve [eauto]].
Qed.

Lemma list_scale_scale : forall Ts (s t : R) la lta, Forall vector_space Ts -> allT Ts la ->
  mapM (val_scale (t : Rnum)) la = Ok lta ->
  mapM (val_scale (s : Rnum)) lta = mapM (val_scale ((s * t)%R : Rnum)) la.
Proof.
  induction Ts as [|T Ts IH]; intros s t la lta H A E; peel; unstep; [reflexivity|].
  rewrite !mapM_cons. apply bind2; [solve [eauto using vs_scale_scale] | solve [eauto]].
Qed.

Lemma list_scale_add : forall Ts (s : R) la lb lab lsa lsb,
  Forall vector_space Ts -> allT Ts la -> allT Ts lb ->
  map2M val_add la lb = Ok lab -> mapM (val_scale (s : Rnum)) la = Ok lsa ->
  mapM (val_scale (s : Rnum)) lb = Ok lsb ->
  mapM (val_scale (s : Rnum)) lab = map2M val_add lsa lsb.
Proof.
  induction Ts as [|T Ts IH]; intros s la lb lab lsa lsb H A B E1 E2 E3; peel; unstep; [reflexivity|].
  rewrite mapM_cons, map2M_cons.
  apply bind2; [solve [eauto using vs_scale_add] | solve [eauto]].
Qed.

Lemma list_add_scale : forall Ts (s t : R) la lsa lta,
  Forall vector_space Ts -> allT Ts la ->
  mapM (val_scale (s : Rnum)) la = Ok lsa -> mapM (val_scale (t : Rnum)) la = Ok lta ->
  mapM (val_scale ((s + t)%R : Rnum)) la = map2M val_add lsa lta.
Proof.
  induction Ts as [|T Ts IH]; intros s t la lsa lta H A E1 E2; peel; unstep; [reflexivity|].
  rewrite mapM_cons, map2M_cons.
  apply bind2; [solve [eauto using vs_add_scale] | solve [eauto]].
Qed.

Lemma list_sub : forall Ts la lb lnb, Forall vector_space Ts -> allT Ts la -> allT Ts lb ->
  mapM val_neg lb = Ok lnb -> map2M val_sub la lb = map2M val_add la lnb.
Proof.
  induction Ts as [|T Ts IH]; intros la lb lnb H A B E; peel; unstep; [reflexivity|].
  rewrite !map2M_cons. apply bind2; [solve [eauto using vs_sub] | solve [eauto]].
Qed.

Lemma list_neg_scale : forall Ts la, Forall vector_space Ts -> allT Ts la ->
  mapM val_neg la = mapM (val_scale ((-1)%R : Rnum)) la.
Proof.
  induction Ts as [|T Ts IH]; intros la H A; peel; [reflexivity|].
  rewrite !mapM_cons. apply bind2; [solve [eauto using vs_neg_scale] | solve [eauto]].
Qed.

Lemma list_div : forall Ts (s : R) la, s <> 0 -> Forall vector_space Ts -> allT Ts la ->
  mapM (fun v => val_div v (s : Rnum)) la = mapM (val_scale ((/ s)%R : Rnum)) la.
Proof.
  induction Ts as [|T Ts IH]; intros s la NZ H A; peel; [reflexivity|].
  rewrite !mapM_cons. apply bind2; [solve [eauto using vs_div] | solve [eauto]].
Qed.

Ltac unptv :=
  repeat match goal with
  | H : product_vectors _ ?v |- _ =>
      let l := fresh "l" in let A := fresh "A" in destruct H as (l & -> & A)
  end.

Lemma add_inv : forall Ts la lb c, Forall vector_space Ts -> allT Ts la -> allT Ts lb ->
  val_add (Seq CProductTV la) (Seq CProductTV lb) = Ok c ->
  exists lc, c = Seq CProductTV lc /\ map2M val_add la lb = Ok lc /\ allT Ts lc.
Proof.
  intros Ts la lb c H A B E.
  destruct (map2M_total val_add Ts la lb) as (lc & E' & C); auto.
  { eapply VS_impl; eauto. intros T V. apply (vs_add T V). }
  rewrite (padd Ts) in E by auto. rewrite E' in E. injection E as <-. eauto.
Qed.
Lemma neg_inv : forall Ts la c, Forall vector_space Ts -> allT Ts la ->
  val_neg (Seq CProductTV la) = Ok c ->
  exists lc, c = Seq CProductTV lc /\ mapM val_neg la = Ok lc /\ allT Ts lc.
Proof.
  intros Ts la c H A E.
  destruct (mapM_total val_neg Ts la) as (lc & E' & C); auto.
  { eapply VS_impl; eauto. intros T V. apply (vs_neg T V). }
  cbn [val_neg] in E. rewrite E' in E. injection E as <-. eauto.
Qed.
Lemma scale_inv : forall Ts (s : R) la c, Forall vector_space Ts -> allT Ts la ->
  val_scale (s : Rnum) (Seq CProductTV la) = Ok c ->
  exists lc, c = Seq CProductTV lc /\ mapM (val_scale (s : Rnum)) la = Ok lc /\ allT Ts lc.
Proof.
  intros Ts s la c H A E.
  destruct (mapM_total (val_scale (s : Rnum)) Ts la) as (lc & E' & C); auto.
  { eapply VS_impl; eauto. intros T V. apply (vs_scale T V). }
  cbn [val_scale] in E. rewrite E' in E. injection E as <-. eauto.
Qed.
Lemma pscale : forall (s : R) la,
  val_scale (s : Rnum) (Seq CProductTV la) =
  let* r := mapM (val_scale (s : Rnum)) la in Ok (Seq CProductTV r).
Proof. reflexivity. Qed.

Lemma product_vector_space : forall Ts : list (val AR -> Prop),
  Forall vector_space Ts -> vector_space (product_vectors Ts).
Proof.
  intros Ts H. constructor.
  - intros a b Ha Hb. unptv.
    destruct (map2M_total val_add Ts l0 l) as (lc & E & C); auto.
    { eapply VS_impl; eauto. intros T V. apply (vs_add T V). }
    exists (Seq CProductTV lc). rewrite (padd Ts) by auto. rewrite E. split; [reflexivity|].
    exists lc. auto.
  - intros a Ha. unptv.
    destruct (mapM_total val_neg Ts l) as (lc & E & C); auto.
    { eapply VS_impl; eauto. intros T V. apply (vs_neg T V). }
    exists (Seq CProductTV lc). cbn [val_neg]. rewrite E. split; [reflexivity|]. exists lc. auto.
  - intros s a Ha. unptv.
    destruct (mapM_total (val_scale (s : Rnum)) Ts l) as (lc & E & C); auto.
    { eapply VS_impl; eauto. intros T V. apply (vs_scale T V). }
    exists (Seq CProductTV lc). cbn [val_scale]. rewrite E. split; [reflexivity|]. exists lc. auto.
  - intros a b Ha Hb. unptv. rewrite !(padd Ts) by auto. rewrite (list_comm Ts) by auto. reflexivity.
  - intros a b c ab bc Ha Hb Hc E1 E2. unptv.
    apply (add_inv Ts) in E1 as (lab & -> & E1 & F1); auto.
    apply (add_inv Ts) in E2 as (lbc & -> & E2 & F2); auto.
    rewrite !(padd Ts) by auto. apply bind1; eauto using list_assoc.
  - intros a b na z Ha Hb E1 E2. unptv.
    apply (neg_inv Ts) in E1 as (lna & -> & E1 & F1); auto.
    apply (add_inv Ts) in E2 as (lz & -> & E2 & F2); auto.
    rewrite !(padd Ts) by auto. apply bind1_ok; eauto using list_cancel.
  - intros a Ha. unptv. rewrite pscale. rewrite (list_one Ts) by auto. reflexivity.
  - intros s t a ta Ha E. unptv. apply (scale_inv Ts) in E as (lt & -> & E & F1); auto.
    rewrite !pscale. apply bind1; eauto using list_scale_scale.
  - intros s a b ab sa sb Ha Hb E1 E2 E3. unptv.
    apply (add_inv Ts) in E1 as (lab & -> & E1 & F1); auto.
    apply (scale_inv Ts) in E2 as (lsa & -> & E2 & F2); auto.
    apply (scale_inv Ts) in E3 as (lsb & -> & E3 & F3); auto.
    rewrite !(padd Ts) by auto. rewrite pscale. apply bind1; eauto using list_scale_add.
  - intros s t a sa ta Ha E2 E3. unptv.
    apply (scale_inv Ts) in E2 as (lsa & -> & E2 & F2); auto.
    apply (scale_inv Ts) in E3 as (lsb & -> & E3 & F3); auto.
    rewrite !(padd Ts) by auto. rewrite pscale. apply bind1; eauto using list_add_scale.
  - intros a b nb Ha Hb E. unptv. apply (neg_inv Ts) in E as (lnb & -> & E & F1); auto.
    rewrite (psub Ts), (padd Ts) by auto. apply bind1; eauto using list_sub.
  - intros a Ha. unptv. rewrite pscale. cbn [val_neg]. rewrite (list_neg_scale Ts) by auto.
    reflexivity.
  - intros s a NZ Ha. unptv. rewrite pscale. cbn [val_div]. rewrite (list_div Ts) by auto.
    reflexivity.
Qed.
End Metric.

(** The scaling factor of random tangent vectors. *)
Lemma tangent_scale_sq : forall n, (0 < n)%nat ->
  INR n * (tangent_scale (N := Rnum) n * tangent_scale (N := Rnum) n) = 1.
Proof.
  intros n Hn. unfold tangent_scale, lit. simpl. unfold Rdiv_res.
  destruct (Req_EM_T 2 0) as [|_]; [lra|]. unfold Rpow_np. rewrite <- INR_IZR_INZ.
  assert (P : 0 < INR n) by (apply lt_0_INR; auto).
  destruct (Req_EM_T (INR n) 0) as [|_]; [lra|].
  rewrite <- Rpower_plus. replace (-1 / 2 + -1 / 2) with (- (1)) by lra.
  rewrite Rpower_Ropp, Rpower_1 by auto. field. lra.
Qed.
