(** Properties C36-C43 and C83: problems, decorated functions and helpers. *)
From Coq Require Import ZArith List Bool String Reals Lra Lia.
From Verif Require Import Num_Model Num_Instances Problem_Model Product_Model Problem_Spec
  Problem_Proofs Problem_Instances.
Import ListNotations.
Open Scope Z_scope.

Ltac use_init H :=
  let F := fresh "F" in let PM := fresh "PM" in let PC := fresh "PC" in let PW := fresh "PW" in
  let EG := fresh "EG" in let EH := fresh "EH" in let RG := fresh "RG" in let RH := fresh "RH" in
  destruct (init_shape _ _ _ _ _ _ _ _ _ _ _ H) as (F & PM & PC & PW & EG & EH & RG & RH).

(* ------------------------------------------------------------------ *)
(** ** C36 *)

(** The cost function is called with exactly the arrays of the point, in order. *)
Theorem C36_cost_receives_components :
  forall N (AR : Arrays N) (m : manifold AR) f eg rg eh rh pre p s point flat,
  problem_init m (FFunction f) eg rg eh rh pre = Ok (p, s) ->
  point_parts (mf_layout m) point flat ->
  p_cost p point = f_function f flat.
Proof.
  intros N AR m f eg rg eh rh pre p s point flat H P. use_init H.
  rewrite PW. unfold wrap_function. destruct (mf_layout m) as [n|sig]; simpl in P.
  - destruct (n =? 1); [subst; reflexivity|]. rewrite P. reflexivity.
  - apply flatten_iff in P. rewrite P. reflexivity.
Qed.
Example C36_instance :
  point_parts (mf_layout mixed) mixed_point [A 0 1; A 1 0; A 2 0; A 3 0].
Proof.
  eexists. split; [reflexivity|]. apply parts_one; [reflexivity|].
  apply (parts_many 3 _ [A 1 0; A 2 0; A 3 0] [] [] []); try reflexivity; [lia|constructor].
Qed.

(** On manifolds with compound points, a point that does not have the right structure is rejected
    before the cost function is called: the outcome is an AssertionError or TypeError,
    whatever the function. *)
Theorem C36_ill_formed_points_rejected :
  forall N (AR : Arrays N) (m : manifold AR) sig point,
  mf_layout m = Groups sig ->
  (forall flat, ~ point_parts (mf_layout m) point flat) ->
  exists e, (e = AssertionError \/ e = TypeError) /\
  forall cost eg rg eh rh pre p s,
    problem_init m cost eg rg eh rh pre = Ok (p, s) -> p_cost p point = Raise e.
Proof.
  intros N AR m sig point L NP. rewrite L in NP.
  destruct (flatten_arguments point sig) as [fs|e] eqn:E.
  - exfalso. apply (NP fs). simpl. apply flatten_iff. exact E.
  - exists e. split; [eapply flatten_raises; eauto|].
    intros cost eg rg eh rh pre p s H. use_init H. rewrite PW, L. simpl. rewrite E. reflexivity.
Qed.
Example C36_ill_formed_instance : forall flat,
  ~ point_parts (mf_layout mixed) (Seq CList [A 0 1; Seq CTuple [A 1 0; A 2 0]]) flat.
Proof.
  intros flat (en & I & P). injection I as <-.
  inversion P as [|? ? ? ? ? P1|]; subst; [|congruence].
  inversion P1 as [| |? ? ? ? ? ? K I L]; subst. injection I as <-. simpl in L. congruence.
Qed.

(** Round trip, one direction: a gradient function that returns the arrays it was given makes
    [euclidean_gradient] return the point again: entry by entry the same array, or a list (or tuple)
    with the same items. *)
Theorem C36_grouping_inverts_flattening :
  forall N (AR : Arrays N) (m : manifold AR) sig cost f c rg eh rh pre p s point entries flat,
  mf_layout m = Groups sig -> valid_layout (mf_layout m) ->
  (forall args, f_function f args = Ok (Seq c args)) ->
  problem_init m cost (FFunction f) rg eh rh pre = Ok (p, s) ->
  items point = Ok entries -> parts sig entries flat ->
  Forall (fun v => is_seq v = false) flat ->
  exists entries' c', snd (call_egrad p s point) = Ok (Seq CList entries') /\
    Forall2 (fun e e' => e = e' \/ exists l, items e = Ok l /\ e' = Seq c' l) entries entries' /\
    parts sig entries' flat.
Proof.
  intros N AR m sig cost f c rg eh rh pre p s point entries flat L V Ef H I P NS. use_init H.
  unfold call_egrad, get_egrad. rewrite EG. simpl. rewrite L. simpl.
  assert (E : flatten_arguments point sig = Ok flat) by (apply flatten_iff; eauto).
  rewrite E. simpl. rewrite Ef. simpl. rewrite L in V. simpl in V.
  destruct (group_values_ok c sig flat V (parts_total _ _ _ P)) as (qs & Eq & G).
  unfold group_values in Eq. rewrite Eq. exists qs, (slice_cls c).
  split; [reflexivity|]. split.
  - eapply parts_grouped; eauto.
  - eapply grouped_parts; eauto.
Qed.

(** Round trip, the other direction: arrays grouped by [euclidean_gradient] and passed back as a point
    reach the cost function as they were. *)
Theorem C36_flattening_inverts_grouping :
  forall N (AR : Arrays N) (m : manifold AR) sig fc f gs c rg eh rh pre p s point g,
  mf_layout m = Groups sig -> valid_layout (mf_layout m) ->
  (forall args, f_function f args = Ok (Seq c gs)) ->
  Forall (fun v => is_seq v = false) gs ->
  problem_init m (FFunction fc) (FFunction f) rg eh rh pre = Ok (p, s) ->
  snd (call_egrad p s point) = Ok g ->
  p_cost p g = f_function fc gs.
Proof.
  intros N AR m sig fc f gs c rg eh rh pre p s point g L V Ef F H E.
  eapply C36_cost_receives_components; eauto. use_init H.
  unfold call_egrad, get_egrad in E. rewrite EG in E. simpl in E. rewrite L in *. simpl in E.
  destruct (flatten_arguments point sig) as [fs|]; [|discriminate]. simpl in E.
  rewrite Ef in E. cbn [bind] in E.
  destruct (Z.eq_dec (Z.of_nat (List.length gs)) (total sig)) as [T|T].
  - destruct (group_values_ok c sig gs V T) as (qs & Eq & G). rewrite Eq in E.
    injection E as <-. exists qs. split; [reflexivity|]. eapply grouped_parts; eauto.
  - rewrite group_values_bad in E; [discriminate|]. intros c' gs' [= <- <-]. exact T.
Qed.
Example C36_round_trip_instance :
  exists p s, problem_init mixed (FFunction (np_func one_value mixed))
    (FFunction (np_func echo mixed)) FNone FNone FNone None = Ok (p, s) /\
  snd (call_egrad p s mixed_point) =
    Ok (Seq CList [A 0 1; Seq CList [A 1 0; A 2 0; A 3 0]]).
Proof. eexists; eexists; split; reflexivity. Qed.

(** The part that fails: on a manifold whose points are plain tuples of several arrays, the number of
    components is not checked. *)
Theorem C36_tuple_points_unchecked_refuted :
  exists (m : manifold C0d) p s,
    mf_layout m = Flat 3 /\
    problem_init m (FFunction (np_func one_value m)) FNone FNone FNone FNone None = Ok (p, s) /\
    p_cost p (Seq CTuple [A 1 0; A 2 0]) = Ok (Num (1%R : Rnum)).
Proof. exists triple. eexists; eexists. repeat split; reflexivity. Qed.

(* ------------------------------------------------------------------ *)
(** ** C37 *)

Lemma wrap_gradient_structured : forall N (AR : Arrays N) lay (f : ufun AR) point flat,
  valid_layout lay -> point_parts lay point flat ->
  structured lay (f flat) (wrap_gradient lay f point).
Proof.
  intros N AR lay f point flat V P. destruct lay as [n|sig]; simpl in *.
  - destruct (n =? 1); [subst; reflexivity|]. rewrite P. reflexivity.
  - apply flatten_iff in P. rewrite P. simpl. destruct (f flat) as [v|e]; simpl.
    + split; [discriminate|]. split.
      * intros c l [= ->] T. destruct (group_values_ok c sig l V T) as (qs & E & G).
        unfold group_values in E. exists (slice_cls c), qs. split; [destruct c; auto|]. auto.
      * intros v' [= <-] B. apply (group_values_bad sig v B).
    + split; [intros e' [= ->]; reflexivity|]. split; discriminate.
Qed.

Lemma wrap_hessian_structured : forall N (AR : Arrays N) (m : manifold AR) (embed : bool) (f : ufun AR) point vector v fp fv,
  valid_layout (mf_layout m) ->
  (if embed then mf_call m MEmbedding [point; vector] = Ok v else v = vector) ->
  point_parts (mf_layout m) point fp -> point_parts (mf_layout m) v fv ->
  structured (mf_layout m) (f (fp ++ fv)%list) (wrap_hessian m embed f point vector).
Proof.
  intros N AR m embed f point vector v fp fv V E P Q. unfold wrap_hessian.
  destruct embed; [rewrite E; cbn [bind]|subst v];
  (destruct (mf_layout m) as [n|sig]; simpl in *;
   [ destruct (n =? 1); [subst; reflexivity|]; rewrite P, Q; reflexivity |];
   apply flatten_iff in P; apply flatten_iff in Q; rewrite P, Q; simpl;
   destruct (f (fp ++ fv)%list) as [r|e]; simpl;
   [ split; [discriminate|]; split;
     [ intros c l [= ->] T; destruct (group_values_ok c sig l V T) as (qs & E' & G);
       unfold group_values in E'; exists (slice_cls c), qs; split; [destruct c; auto|]; auto
     | intros v' [= <-] B; apply (group_values_bad sig r B) ]
   | split; [intros e' [= ->]; reflexivity|]; split; discriminate ]).
Qed.

(** A supplied Euclidean gradient is called with the arrays of the point and its result returned in
    the structure of the point, after any previous uses of the problem. *)
Theorem C37_supplied_euclidean_gradient :
  forall N (AR : Arrays N) (m : manifold AR) cost f rg eh rh pre p s us point flat,
  problem_init m cost (FFunction f) rg eh rh pre = Ok (p, s) ->
  valid_layout (mf_layout m) -> point_parts (mf_layout m) point flat ->
  structured (mf_layout m) (f_function f flat) (snd (call_egrad p (do_uses p s us) point)).
Proof.
  intros N AR m cost f rg eh rh pre p s us point flat H V P. use_init H.
  pose proof (do_uses_inv p s us s (inv_init p s F)) as I.
  destruct (call_egrad_inv p s _ point I) as [_ E]. rewrite E. unfold spec_eg. rewrite EG. simpl.
  apply wrap_gradient_structured; auto.
Qed.

(** Likewise for a gradient operator generated by the backend of the cost. *)
Theorem C37_generated_euclidean_gradient :
  forall N (AR : Arrays N) (m : manifold AR) fc g rg eh rh pre p s us point flat,
  problem_init m (FFunction fc) FNone rg eh rh pre = Ok (p, s) ->
  b_gradient (f_backend fc) (f_original fc) (f_num_arguments fc) = Ok g ->
  valid_layout (mf_layout m) -> point_parts (mf_layout m) point flat ->
  structured (mf_layout m) (g flat) (snd (call_egrad p (do_uses p s us) point)).
Proof.
  intros N AR m fc g rg eh rh pre p s us point flat H B V P. use_init H.
  pose proof (do_uses_inv p s us s (inv_init p s F)) as I.
  destruct (call_egrad_inv p s _ point I) as [_ E]. rewrite E. unfold spec_eg, gen_g.
  rewrite EG, PC. simpl. rewrite B. simpl. rewrite PM. apply wrap_gradient_structured; auto.
Qed.

(** Supplied or generated Euclidean Hessians are called with the arrays of the point followed by those
    of the embedded tangent vector. *)
Theorem C37_supplied_euclidean_hessian :
  forall N (AR : Arrays N) (m : manifold AR) cost f eg rg rh pre p s us point vector v fp fv,
  problem_init m cost eg rg (FFunction f) rh pre = Ok (p, s) ->
  valid_layout (mf_layout m) ->
  mf_call m MEmbedding [point; vector] = Ok v ->
  point_parts (mf_layout m) point fp -> point_parts (mf_layout m) v fv ->
  structured (mf_layout m) (f_function f (fp ++ fv)%list)
    (snd (call_ehess p (do_uses p s us) point vector)).
Proof.
  intros N AR m cost f eg rg rh pre p s us point vector v fp fv H V Em P Q. use_init H.
  pose proof (do_uses_inv p s us s (inv_init p s F)) as I.
  destruct (call_ehess_inv p s _ point vector I) as [_ E]. rewrite E. unfold spec_eh.
  rewrite EH. cbn [opt_arg bind].
  apply (wrap_hessian_structured N AR m true (f_function f) point vector v fp fv); auto.
Qed.

Theorem C37_generated_euclidean_hessian :
  forall N (AR : Arrays N) (m : manifold AR) fc g eg rg rh pre p s us point vector v fp fv,
  problem_init m (FFunction fc) eg rg FNone rh pre = Ok (p, s) ->
  b_hessian (f_backend fc) (f_original fc) (f_num_arguments fc) = Ok g ->
  valid_layout (mf_layout m) ->
  mf_call m MEmbedding [point; vector] = Ok v ->
  point_parts (mf_layout m) point fp -> point_parts (mf_layout m) v fv ->
  structured (mf_layout m) (g (fp ++ fv)%list)
    (snd (call_ehess p (do_uses p s us) point vector)).
Proof.
  intros N AR m fc g eg rg rh pre p s us point vector v fp fv H B V Em P Q. use_init H.
  pose proof (do_uses_inv p s us s (inv_init p s F)) as I.
  destruct (call_ehess_inv p s _ point vector I) as [_ E]. rewrite E. unfold spec_eh, gen_h.
  rewrite EH, PC. cbn [opt_arg]. rewrite B. cbn [bind]. rewrite PM.
  apply (wrap_hessian_structured N AR m true g point vector v fp fv); auto.
Qed.

(** A supplied Riemannian Hessian gets the tangent vector as it is. *)
Theorem C37_supplied_riemannian_hessian :
  forall N (AR : Arrays N) (m : manifold AR) cost f eg rg eh pre p s us point vector fp fv,
  problem_init m cost eg rg eh (FFunction f) pre = Ok (p, s) ->
  valid_layout (mf_layout m) ->
  point_parts (mf_layout m) point fp -> point_parts (mf_layout m) vector fv ->
  structured (mf_layout m) (f_function f (fp ++ fv)%list)
    (snd (call_rhess p (do_uses p s us) point vector)).
Proof.
  intros N AR m cost f eg rg eh pre p s us point vector fp fv H V P Q. use_init H.
  pose proof (do_uses_inv p s us s (inv_init p s F)) as I.
  destruct (call_rhess_inv p s _ point vector I) as [_ E]. rewrite E. rewrite RH.
  cbn [opt_arg option_map].
  apply (wrap_hessian_structured N AR m false (f_function f) point vector vector fp fv); auto.
Qed.

(** The derived Riemannian operators are the manifold's conversions of the Euclidean ones. *)
Theorem C37_derived_riemannian_operators :
  forall N (AR : Arrays N) (m : manifold AR) cost eg eh pre p s us us' point vector,
  problem_init m cost eg FNone eh FNone pre = Ok (p, s) ->
  (forall e, snd (call_egrad p s point) = Raise e ->
     snd (call_rgrad p (do_uses p s us) point) = Raise e /\
     snd (call_rhess p (do_uses p s us) point vector) = Raise e) /\
  (forall g, snd (call_egrad p s point) = Ok g ->
     snd (call_rgrad p (do_uses p s us) point) = mf_call m MGradient [point; g] /\
     (forall h, snd (call_ehess p (do_uses p s us') point vector) = Ok h ->
        snd (call_rhess p (do_uses p s us) point vector) = mf_call m MHessian [point; g; h; vector]) /\
     (forall e, snd (call_ehess p (do_uses p s us') point vector) = Raise e ->
        snd (call_rhess p (do_uses p s us) point vector) = Raise e)).
Proof.
  intros N AR m cost eg eh pre p s us us' point vector H. use_init H.
  pose proof (do_uses_inv p s us s (inv_init p s F)) as I.
  pose proof (do_uses_inv p s us' s (inv_init p s F)) as I'.
  destruct (call_egrad_inv p s s point (inv_init p s F)) as [_ Eg]. rewrite Eg. clear Eg.
  destruct (call_rgrad_inv p s _ point I) as [_ E1]. rewrite E1. clear E1.
  destruct (call_rhess_inv p s _ point vector I) as [_ E2]. rewrite E2. clear E2.
  destruct (call_ehess_inv p s _ point vector I') as [_ E3]. rewrite E3. clear E3.
  rewrite RG, RH, PM. simpl.
  split.
  - intros e E. rewrite E. auto.
  - intros g E. rewrite E. simpl. split; [reflexivity|]. split; intros x X; rewrite X; reflexivity.
Qed.

(** On every product manifold the embedding is the identity, so the Hessian function gets the tangent vector
    unembedded ... *)
Theorem C37_product_embedding_is_identity :
  forall N (AR : Arrays N) (ms : list (manifold AR)) m point vector,
  product_init ms = Ok m -> mf_call m MEmbedding [point; vector] = Ok vector.
Proof.
  intros N AR ms m point vector. unfold product_init. destruct (existsb _ _); [discriminate|].
  destruct (manifold_init _ _) as [[d lay]|]; [|discriminate]. intros [= <-]. reflexivity.
Qed.

(** ... although its components embed tangent vectors differently. *)
Theorem C37_product_refuted :
  exists (m : manifold C0d) p s point vector x v,
    product_init [u1; u1] = Ok m /\
    problem_init m (FFunction (np_func one_value m)) FNone FNone
      (FFunction (np_func echo_vectors m)) FNone None = Ok (p, s) /\
    point = Seq CList [x; x] /\ vector = Seq CList [v; v] /\
    snd (call_ehess p s point vector) = Ok (Seq CList [v; v]) /\
    exists w, mf_call u1 MEmbedding [x; v] = Ok w /\ w <> v.
Proof.
  do 3 eexists. exists (Seq CList [A 0 1; A 0 1]), (Seq CList [A 0 1; A 0 1]), (A 0 1), (A 0 1).
  repeat split.
  eexists. split; [reflexivity|]. unfold A, cmul. simpl. intros [= E1 _]. lra.
Qed.

(* ------------------------------------------------------------------ *)
(** ** C38 *)

(** What the constructor accepts, exactly; it raises ValueError otherwise. *)
Theorem C38_constructor_exact :
  forall N (AR : Arrays N) (m : manifold AR) cost eg rg eh rh pre,
  let decorated_or_none (a : fun_arg AR) := a = FNone \/ exists f, a = FFunction f in
  let ok :=
    decorated_or_none cost /\ decorated_or_none eg /\ decorated_or_none rg /\
    decorated_or_none eh /\ decorated_or_none rh /\
    (eg = FNone \/ rg = FNone) /\ (eh = FNone \/ rh = FNone) in
  (ok -> exists p s, problem_init m cost eg rg eh rh pre = Ok (p, s)) /\
  (~ ok -> problem_init m cost eg rg eh rh pre = Raise ValueError).
Proof.
  intros N AR m cost eg rg eh rh pre decorated_or_none ok. unfold problem_init.
  assert (D : forall a, decorated_or_none a <-> validate_function a = Ok tt).
  { intros [|f|]; unfold decorated_or_none; simpl; split; eauto; try discriminate.
    intros [|[]]; discriminate. }
  assert (V : forall a, validate_function a = Ok tt \/
     (validate_function a = Raise ValueError /\ ~ decorated_or_none a)).
  { intros a. destruct a; simpl; auto. right. split; auto. rewrite D. discriminate. }
  split.
  - intros (c & a1 & a2 & a3 & a4 & X & Y). apply D in c, a1, a2, a3, a4.
    rewrite c, a1, a2, a3, a4. cbn [bind].
    replace (given eg && given rg) with false
      by (destruct X; subst; simpl; rewrite ?andb_false_r; reflexivity).
    replace (given eh && given rh) with false
      by (destruct Y; subst; simpl; rewrite ?andb_false_r; reflexivity).
    eauto.
  - intros NO.
    destruct (V cost) as [c|[c _]]; rewrite c; cbn [bind]; [|reflexivity].
    destruct (V eg) as [a1|[a1 _]]; rewrite a1; cbn [bind]; [|reflexivity].
    destruct (V eh) as [a2|[a2 _]]; rewrite a2; cbn [bind]; [|reflexivity].
    destruct (V rg) as [a3|[a3 _]]; rewrite a3; cbn [bind]; [|reflexivity].
    destruct (V rh) as [a4|[a4 _]]; rewrite a4; cbn [bind]; [|reflexivity].
    destruct (given eg && given rg) eqn:G1; [reflexivity|].
    destruct (given eh && given rh) eqn:G2; [reflexivity|].
    exfalso. apply NO. unfold ok. rewrite !D. repeat split; auto.
    + destruct eg; auto. destruct rg; auto; discriminate.
      destruct rg; auto; discriminate.
    + destruct eh; auto. destruct rh; auto; discriminate.
      destruct rh; auto; discriminate.
Qed.
Example C38_instance :
  (exists p s, problem_init u1 (FFunction (np_func one_value u1)) (FFunction (np_func echo u1))
    FNone FNone FNone None = Ok (p, s)) /\
  problem_init u1 (FFunction (np_func one_value u1)) (FFunction (np_func echo u1))
    (FFunction (np_func echo u1)) FNone FNone None = Raise ValueError.
Proof. split; [eexists; eexists; reflexivity|reflexivity]. Qed.

(** The part that fails: a missing cost ([None]) is accepted; the problem is useless. *)
Theorem C38_missing_cost_refuted :
  exists p s, problem_init u1 FNone FNone FNone FNone FNone None = Ok (p, s) /\
  (forall point, p_cost p point = Raise TypeError) /\
  (forall point, snd (call_rgrad p s point) = Raise AttributeError).
Proof. eexists; eexists. repeat split. Qed.

(* ------------------------------------------------------------------ *)
(** ** C39 *)

(** Any history of attribute assignments. *)
Fixpoint assign_all {O} (prop : string -> option exn) (d : attrs O) (l : list (string * O)) : attrs O :=
  match l with
  | [] => d
  | kv :: l' => assign_all prop (fst (set_attribute prop d (fst kv) (snd kv))) l'
  end.

(** [manifold] and [preconditioner] keep the values given to the constructor through any
    history of assignments, and assigning them raises AttributeError and changes nothing. *)
Theorem C39_set_once :
  forall O prop (m oc c eg eh rg rh pre : O) history,
  let d := assign_all prop (init_attributes prop m oc c eg eh rg rh pre) history in
  attr_get d "manifold" = Some m /\ attr_get d "preconditioner" = Some pre /\
  (forall x, set_attribute prop d "manifold" x = (d, Raise AttributeError)) /\
  (forall x, set_attribute prop d "preconditioner" x = (d, Raise AttributeError)).
Proof.
  intros O prop m oc c eg eh rg rh pre history.
  assert (G : forall h (d : attrs O), attr_get d "manifold" = Some m ->
    attr_get d "preconditioner" = Some pre ->
    attr_get (assign_all prop d h) "manifold" = Some m /\
    attr_get (assign_all prop d h) "preconditioner" = Some pre).
  { induction h as [|[k x] h IH]; intros d A B; simpl; auto.
    apply IH; apply set_keeps; auto. }
  destruct (G history (init_attributes prop m oc c eg eh rg rh pre)) as [A B];
    [reflexivity|reflexivity|].
  cbv zeta. repeat split; auto; intros x; eapply set_protected; eauto.
Qed.

(** The five read-only properties (cost and the operators) cannot be assigned either:
    the assignment raises and changes nothing. *)
Theorem C39_properties_read_only :
  forall O prop (d : attrs O) k x, In k property_names ->
  exists e, set_attribute prop d k x = (d, Raise e) /\
    (e = AttributeError \/ prop k = Some e).
Proof.
  intros O prop d k x K. unfold set_attribute.
  assert (P : is_property k = true).
  { unfold is_property. apply existsb_exists. exists k. split; auto. apply String.eqb_refl. }
  rewrite P.
  assert (Q : (String.eqb k "manifold" || String.eqb k "preconditioner")%bool = false).
  { simpl in K. repeat destruct K as [<-|K]; try reflexivity. contradiction. }
  rewrite Q. destruct (prop k) as [e|] eqn:E; simpl; eauto.
  destruct e; simpl; eauto.
Qed.

(** Every other attribute can be assigned, at any time. *)
Theorem C39_other_attributes :
  forall O prop (d : attrs O) k x,
  k <> "manifold"%string -> k <> "preconditioner"%string -> ~ In k property_names ->
  snd (set_attribute prop d k x) = Ok tt /\
  attr_get (fst (set_attribute prop d k x)) k = Some x /\
  (forall k', k' <> k -> attr_get (fst (set_attribute prop d k x)) k' = attr_get d k').
Proof.
  intros O prop d k x H1 H2 H3.
  assert (P : is_property k = false).
  { apply not_true_is_false. unfold is_property. rewrite existsb_exists.
    intros (k' & I & E). apply String.eqb_eq in E. subst. auto. }
  rewrite set_other by auto. simpl. rewrite String.eqb_refl. repeat split.
  intros k' NE. destruct (String.eqb_spec k' k); congruence.
Qed.

(** Deleting the attribute first gets around the protection. *)
Theorem C39_delete_then_assign_refuted :
  forall O prop (m m' oc c eg eh rg rh pre : O),
  let d := init_attributes prop m oc c eg eh rg rh pre in
  let d1 := fst (del_attribute d "manifold") in
  snd (del_attribute d "manifold") = Ok tt /\
  snd (set_attribute prop d1 "manifold" m') = Ok tt /\
  attr_get (fst (set_attribute prop d1 "manifold" m')) "manifold" = Some m'.
Proof. intros. repeat split. Qed.

(* ------------------------------------------------------------------ *)
(** ** C40 *)

(** Whatever was done with the problem before, a use has the outcome it has on the fresh problem. *)
Theorem C40_history_independent :
  forall N (AR : Arrays N) (m : manifold AR) cost eg rg eh rh pre p s us u,
  problem_init m cost eg rg eh rh pre = Ok (p, s) ->
  snd (do_use p (do_uses p s us) u) = snd (do_use p s u).
Proof.
  intros N AR m cost eg rg eh rh pre p s us u H. use_init H.
  pose proof (inv_init p s F) as I0.
  pose proof (do_uses_inv p s us s I0) as I.
  destruct (do_use_inv p s _ u I) as [_ E]. destruct (do_use_inv p s _ u I0) as [_ E0].
  congruence.
Qed.

(** Also for an operator object read early and called late. *)
Theorem C40_operators_read_early :
  forall N (AR : Arrays N) (m : manifold AR) cost eg rg eh rh pre p s us us' x v,
  problem_init m cost eg rg eh rh pre = Ok (p, s) ->
  let early := do_uses p s us in
  let late := do_uses p early us' in
  snd (call_gop p (snd (get_rgrad p early)) late x) = snd (call_rgrad p s x) /\
  snd (call_hop p (snd (get_rhess p early)) late x v) = snd (call_rhess p s x v).
Proof.
  intros N AR m cost eg rg eh rh pre p s us us' x v H. use_init H. cbv zeta.
  pose proof (inv_init p s F) as I0.
  pose proof (do_uses_inv p s us s I0) as I1.
  pose proof (do_uses_inv p s us' _ I1) as I2.
  destruct (get_rgrad_inv p s _ I1) as [_ E1]. rewrite E1.
  destruct (get_rhess_inv p s _ I1) as [_ E2]. rewrite E2.
  destruct (call_rgrad_inv p s _ x I0) as [_ E3]. rewrite E3.
  destruct (call_rhess_inv p s _ x v I0) as [_ E4]. rewrite E4.
  match goal with |- snd (call_gop p ?g _ x) = _ /\ _ =>
    destruct (call_gop_inv p s g _ x I2) as [_ ->] end.
  match goal with |- _ /\ snd (call_hop p ?g _ x v) = _ =>
    destruct (call_hop_inv p s g _ x v I2) as [_ ->] end.
  split; [destruct (s_rgrad s) as [[]|]|destruct (s_rhess s) as [[]|]]; reflexivity.
Qed.

(** Each operator is generated successfully at most once, and never if the user supplied it. *)
Theorem C40_generated_at_most_once :
  forall N (AR : Arrays N) (m : manifold AR) cost eg rg eh rh pre p s us,
  problem_init m cost eg rg eh rh pre = Ok (p, s) ->
  (gradient_generations (s_log (do_uses p s us)) <= 1)%nat /\
  (hessian_generations (s_log (do_uses p s us)) <= 1)%nat /\
  (eg <> FNone -> gradient_generations (s_log (do_uses p s us)) = 0%nat) /\
  (eh <> FNone -> hessian_generations (s_log (do_uses p s us)) = 0%nat).
Proof.
  intros N AR m cost eg rg eh rh pre p s us H. pose proof H as H'. use_init H.
  pose proof (do_uses_inv p s us s (inv_init p s F)) as I.
  rewrite (i_lg _ _ _ I), (i_lh _ _ _ I).
  pose proof (i_ug _ _ _ I) as UG. pose proof (i_uh _ _ _ I) as UH.
  destruct (C38_constructor_exact N AR m cost eg rg eh rh pre) as [_ C].
  repeat split.
  - destruct (s_fn_gradient _); simpl; lia.
  - destruct (s_fn_hessian _); simpl; lia.
  - intros Eg. rewrite UG; [reflexivity|]. rewrite EG. destruct eg; simpl; try discriminate.
    + congruence.
    + rewrite C in H'; [discriminate|]. intros (_ & [K|[f K]] & _); discriminate.
  - intros Eh. rewrite UH; [reflexivity|]. rewrite EH. destruct eh; simpl; try discriminate.
    + congruence.
    + rewrite C in H'; [discriminate|]. intros (_ & _ & _ & [K|[f K]] & _); discriminate.
Qed.
Definition ad_func (m : manifold C0d) : func C0d :=
  mkFunc one_value (autograd_backend ad_ones) one_value (num_values (mf_layout m)).
Example C40_instance :
  exists p s, problem_init mixed (FFunction (ad_func mixed)) FNone FNone FNone FNone None = Ok (p, s) /\
  gradient_generations (s_log (do_uses p s [UseRgrad mixed_point; ReadEgrad; UseEgrad mixed_point]))
    = 1%nat /\
  snd (do_use p s (UseEgrad mixed_point))
    = Ok (Some (Seq CList [Arr (cconj (1%R, 0%R) : C0d); Seq CList
        [Arr (cconj (1%R, 0%R) : C0d); Arr (cconj (1%R, 0%R) : C0d); Arr (cconj (1%R, 0%R) : C0d)]])).
Proof. eexists; eexists. repeat split. Qed.

(* ------------------------------------------------------------------ *)
(** ** C41 *)

(** On a product manifold the derived Riemannian gradient is a product tangent vector, so it can
    be negated, scaled and divided by a number whenever its components can ... *)
Theorem C41_derived_gradient :
  forall N (AR : Arrays N) ms (m : manifold AR) cost eg eh rh pre p s us point g,
  product_init ms = Ok m ->
  problem_init m cost eg FNone eh rh pre = Ok (p, s) ->
  snd (call_rgrad p (do_uses p s us) point) = Ok g ->
  exists l, g = Seq CProductTV l /\
    (forall l', Forall2 (fun v v' => val_neg v = Ok v') l l' -> val_neg g = Ok (Seq CProductTV l')) /\
    (forall x l', Forall2 (fun v v' => val_scale x v = Ok v') l l' ->
       val_scale x g = Ok (Seq CProductTV l')) /\
    (forall m l', List.length m = List.length l ->
       Forall2 (fun vw v' => val_add (fst vw) (snd vw) = Ok v') (combine l m) l' ->
       val_add g (Seq CProductTV m) = Ok (Seq CProductTV l')).
Proof.
  intros N AR ms m cost eg eh rh pre p s us point g HP H E. use_init H.
  pose proof (do_uses_inv p s us s (inv_init p s F)) as I.
  destruct (call_rgrad_inv p s _ point I) as [_ E1]. rewrite E in E1. rewrite RG in E1.
  simpl in E1. rewrite PM in E1.
  destruct (let* g0 := spec_eg p s in g0 point) as [eg'|]; [|discriminate]. cbn [bind] in E1.
  unfold product_init in HP. destruct (existsb _ _); [discriminate|].
  destruct (manifold_init _ _) as [[d lay]|]; [|discriminate]. injection HP as <-.
  cbn [mf_call product_call] in E1. unfold dispatch in E1.
  destruct (mapM items [point; eg']) as [cols|]; [|discriminate]. cbn [bind] in E1.
  destruct (mapM _ (zip_rows ms cols)) as [l|]; [|discriminate]. cbn [bind as_ptv] in E1.
  injection E1 as ->. exists l. split; [reflexivity|].
  assert (MM : forall (f : val AR -> res (val AR)) l l',
    Forall2 (fun v v' => f v = Ok v') l l' -> mapM f l = Ok l').
  { intros f k k' HF. induction HF as [|a b k k' Hab _ IH]; simpl; auto. rewrite Hab. simpl.
    rewrite IH. reflexivity. }
  split; [|split].
  - intros l' HF. simpl. rewrite (MM _ _ _ HF). reflexivity.
  - intros x l' HF. simpl. rewrite (MM _ _ _ HF). reflexivity.
  - intros w l' L HF. cbn [val_add items bind]. rewrite L, Nat.eqb_refl.
    assert (M2 : forall l w l' : list (val AR), List.length w = List.length l ->
      Forall2 (fun vw v' => val_add (fst vw) (snd vw) = Ok v') (combine l w) l' ->
      map2M val_add l w = Ok l').
    { clear. induction l as [|a l IH]; intros [|b w] l' L HF; simpl in *; try discriminate.
      - inversion HF. reflexivity.
      - inversion HF as [|? v ? l'' Hab HF']; subst. simpl in Hab. rewrite Hab. simpl.
        fold (@map2M (val AR) (val AR) (val AR) val_add). rewrite (IH w l''); auto. }
    rewrite (M2 l w l' L HF). reflexivity.
Qed.
Example C41_derived_instance :
  let c := Arr (cconj (1%R, 0%R) : C0d) in
  exists p s, problem_init mixed (FFunction (ad_func mixed)) FNone FNone FNone FNone None = Ok (p, s) /\
  exists l, snd (call_rgrad p s mixed_point) = Ok (Seq CProductTV [Arr l; Seq CList [c; c; c]]).
Proof. eexists; eexists. split; [reflexivity|]. eexists. reflexivity. Qed.

(** ... but one supplied by the user is a plain list: negating it, which every gradient-based
    optimizer does, always raises TypeError. *)
Theorem C41_supplied_gradient_refuted :
  forall N (AR : Arrays N) ms (m : manifold AR) cost f eh rh pre p s us point g,
  product_init ms = Ok m ->
  problem_init m cost FNone (FFunction f) eh rh pre = Ok (p, s) ->
  snd (call_rgrad p (do_uses p s us) point) = Ok g ->
  (exists l, g = Seq CList l) /\ val_neg g = Raise TypeError /\
  (forall x, val_scale x g = Raise TypeError).
Proof.
  intros N AR ms m cost f eh rh pre p s us point g HP H E. use_init H.
  pose proof (do_uses_inv p s us s (inv_init p s F)) as I.
  destruct (call_rgrad_inv p s _ point I) as [_ E1]. rewrite E in E1. rewrite RG in E1.
  simpl in E1.
  assert (exists sig, mf_layout m = Groups sig) as [sig L].
  { unfold product_init in HP. destruct (existsb _ _); [discriminate|].
    unfold manifold_init in HP. destruct (product_dim ms); [|discriminate].
    destruct (z <? 0); [discriminate|].
    unfold product_layout in HP. destruct (forallb _ ms); [|discriminate].
    destruct (forallb _ (map _ ms)); [|discriminate]. injection HP as <-. eexists. reflexivity. }
  rewrite L in E1. unfold wrap_gradient, wrap_function in E1.
  destruct (flatten_arguments point sig); [|discriminate]. cbn [bind] in E1.
  destruct (f_function f a) as [r|]; [|discriminate]. cbn [bind] in E1.
  unfold group_values in E1. destruct r as [| |c l]; try discriminate.
  destruct (_ =? _); [|discriminate].
  destruct (group_loop c l sig 0) as [gr|]; [|discriminate]. injection E1 as ->.
  split; [eauto|]. split; reflexivity.
Qed.
Example C41_supplied_instance :
  exists p s, problem_init mixed (FFunction (ad_func mixed)) FNone (FFunction (np_func echo mixed))
    FNone FNone None = Ok (p, s) /\
  snd (call_rgrad p s mixed_point) = Ok (Seq CList [A 0 1; Seq CList [A 1 0; A 2 0; A 3 0]]).
Proof. eexists; eexists; split; reflexivity. Qed.

(* ------------------------------------------------------------------ *)
(** ** C42 *)

(** Splitting the concatenation of two equally long sequences gives them back; a sequence of odd
    length is rejected; nothing else can happen. *)
Theorem C42_bisect :
  forall A (a b : list A), List.length a = List.length b -> bisect_sequence (a ++ b) = Ok (a, b).
Proof.
  intros A a b L. unfold bisect_sequence. rewrite app_length, <- L.
  set (n := List.length a). replace (Z.of_nat (n + n)) with (Z.of_nat n * 2) by lia.
  rewrite Z.mod_mul by lia. simpl. rewrite Z.div_mul by lia.
  unfold slice. rewrite Z.sub_0_r. replace (Z.of_nat n * 2 - Z.of_nat n) with (Z.of_nat n) by lia.
  rewrite Nat2Z.id. simpl. unfold n. rewrite firstn_app, firstn_all, Nat.sub_diag, app_nil_r.
  rewrite skipn_app, skipn_all, Nat.sub_diag. simpl. rewrite L, firstn_all. reflexivity.
Qed.
Theorem C42_bisect_exact :
  forall A (s a b : list A),
  (bisect_sequence s = Ok (a, b) <-> s = a ++ b /\ List.length a = List.length b) /\
  (Nat.odd (List.length s) = true -> bisect_sequence s = Raise ValueError).
Proof.
  intros A s a b. split; [split|].
  - unfold bisect_sequence. destruct (_ =? 1) eqn:M; [discriminate|]. apply Z.eqb_neq in M.
    set (n := Z.of_nat (List.length s)) in *.
    assert (LN : List.length s = Z.to_nat n) by (unfold n; lia).
    assert (0 <= n) by (unfold n; lia). clearbody n.
    pose proof (Z.mod_pos_bound n 2 ltac:(lia)). pose proof (Z.div_mod n 2 ltac:(lia)).
    unfold slice. intros E.
    assert (Ea : a = firstn (Z.to_nat (n / 2 - 0)) (skipn (Z.to_nat 0) s)) by congruence.
    assert (Eb : b = firstn (Z.to_nat (n - n / 2)) (skipn (Z.to_nat (n / 2)) s)) by congruence.
    clear E. rewrite Z.sub_0_r in Ea. simpl in Ea.
    assert (LS : List.length (skipn (Z.to_nat (n / 2)) s) = Z.to_nat (n - n / 2)).
    { rewrite skipn_length. lia. }
    rewrite <- LS, firstn_all in Eb. subst a b. split; [symmetry; apply firstn_skipn|].
    rewrite LS, firstn_length. lia.
  - intros [-> L]. apply C42_bisect. exact L.
  - intros O. unfold bisect_sequence. apply Nat.odd_spec in O as [k O]. rewrite O.
    replace (Z.of_nat (2 * k + 1)) with (1 + Z.of_nat k * 2) by lia.
    rewrite Z.mod_add by lia. reflexivity.
Qed.

(** With the Autograd backend the generated operators are the conjugated results of the differentiation
    library: partial derivatives at the arguments, Hessian at the first half of the arguments applied
    to the second half; for a one-array manifold the single array itself, otherwise a list. *)
Theorem C37_autograd_operators :
  forall N (AR : Arrays N) (ad : Autodiff AR) f n,
  exists g h,
  b_gradient (autograd_backend ad) f n = Ok g /\ b_hessian (autograd_backend ad) f n = Ok h /\
  forall args vectors l l', List.length args = List.length vectors ->
  ad_grad ad f n args = Ok (map Arr l) -> ad_hvp ad f n args vectors = Ok (map Arr l') ->
  Z.of_nat (List.length l) = n -> Z.of_nat (List.length l') = n ->
  (n <> 1 -> g args = Ok (Seq CList (map (fun a => Arr (arr_conj AR a)) l)) /\
             h (args ++ vectors)%list = Ok (Seq CList (map (fun a => Arr (arr_conj AR a)) l'))) /\
  (forall a a', l = [a] -> l' = [a'] ->
     g args = Ok (Arr (arr_conj AR a)) /\ h (args ++ vectors)%list = Ok (Arr (arr_conj AR a'))).
Proof.
  intros N AR ad f n. cbn [b_gradient b_hessian autograd_backend].
  unfold autograd_gradient, autograd_hessian. destruct (Z.eqb_spec n 1) as [->|N1].
  - eexists; eexists. split; [reflexivity|]. split; [reflexivity|].
    intros args vectors l l' LL G H L L'. split; [congruence|]. intros a a' -> ->.
    unfold unpack_singleton. rewrite C42_bisect by assumption. cbn [bind].
    unfold conjugate_result. rewrite G, H. split; reflexivity.
  - eexists; eexists. split; [reflexivity|]. split; [reflexivity|].
    intros args vectors l l' LL G H L L'. split.
    + intros _. rewrite C42_bisect by assumption. cbn [bind]. unfold conjugate_result. rewrite G, H.
      cbn [bind items]. rewrite !map_map. split; reflexivity.
    + intros a a' -> ->. cbn in L. congruence.
Qed.

(** The unpacking decorator returns the element of a one-element list or tuple and raises
    ValueError for every other result. *)
Theorem C42_unpack_singleton :
  forall N (AR : Arrays N) (f : ufun AR) args r,
  f args = Ok r ->
  (forall c x, r = Seq c [x] -> unpack_singleton f args = Ok x) /\
  ((forall c x, r <> Seq c [x]) -> unpack_singleton f args = Raise ValueError).
Proof.
  intros N AR f args r E. unfold unpack_singleton. rewrite E. cbn [bind]. split.
  - intros c x ->. reflexivity.
  - intros NE. destruct r as [| |c [|x [|y l]]]; auto. exfalso. eapply NE; eauto.
Qed.

(** [is_sequence] accepts lists and tuples and rejects strings, arrays, numbers and [None]; it accepts
    other Python sequences such as ranges too. *)
Theorem C42_is_sequence :
  is_sequence KList = true /\ is_sequence KTuple = true /\
  is_sequence KStr = false /\ is_sequence KArray = false /\ is_sequence KNumber = false /\
  is_sequence KNone = false /\
  (forall k, is_sequence k = true <-> abc_sequence k = true /\ k <> KStr).
Proof.
  repeat split; try reflexivity; destruct k; simpl; try discriminate; auto; try tauto.
Qed.

(* ------------------------------------------------------------------ *)
(** ** C43 *)

(** Decorating succeeds exactly for a manifold, a function with only positional parameters or only a
    variadic one (not both, not neither), without keyword-only or keyword-catching
    parameters, and an available backend; and it says why it failed. *)
Theorem C43_decorator_exact :
  forall N (AR : Arrays N) (b : backend AR) (m : manifold AR) sp f,
  let signature_ok :=
    ((as_args sp <> [] /\ as_varargs sp = None) \/ (as_args sp = [] /\ as_varargs sp <> None)) /\
    as_varkw sp = None /\ as_kwonlyargs sp = [] in
  (signature_ok -> b_available b = true ->
     exists g, decorate b (IsManifold m) (Some (sp, f)) = Ok g /\
       f_original g = f /\ f_function g = b_prepare b f /\
       f_num_arguments g = num_values (mf_layout m)) /\
  (signature_ok -> b_available b = false ->
     decorate b (IsManifold m) (Some (sp, f)) = Raise RuntimeError) /\
  (~ signature_ok -> decorate b (IsManifold m) (Some (sp, f)) = Raise ValueError) /\
  decorate b NotManifold (Some (sp, f)) = Raise TypeError /\
  decorate b (IsManifold m) None = Raise TypeError.
Proof.
  intros N AR b m sp f ok. unfold decorate, func_init.
  assert (E : ok <->
    ((truthy_list (as_args sp) && truthy_opt (as_varargs sp))
     || negb (truthy_list (as_args sp) || truthy_opt (as_varargs sp))
     || (truthy_opt (as_varkw sp) || truthy_list (as_kwonlyargs sp)))%bool = false).
  { unfold ok. destruct sp as [ar va vk df ko]; simpl.
    destruct ar, va, vk, ko; simpl; split; intros;
      repeat match goal with
      | H : _ /\ _ |- _ => destruct H
      | H : _ \/ _ |- _ => destruct H
      | H : ?x <> ?x |- _ => congruence
      | |- _ /\ _ => split
      end; try congruence; try (left; split; congruence); try (right; split; congruence). }
  repeat split; intros.
  - apply E in H. rewrite H, H0. simpl. eexists; repeat split.
  - apply E in H. rewrite H, H0. reflexivity.
  - destruct (_ || _ || _)%bool; auto. exfalso. apply H. apply E. reflexivity.
Qed.
Example C43_instance :
  let sp := mkArgspec ["x"%string] None None 0 [] in
  exists g, decorate (numpy_backend C0d) (IsManifold u1) (Some (sp, one_value)) = Ok g.
Proof. eexists; reflexivity. Qed.

(** The number of positional parameters is not compared with the point: a function of one parameter is
    accepted for a manifold whose points are three arrays. *)
Theorem C43_parameter_count_unchecked_refuted :
  forall N (AR : Arrays N) (b : backend AR) (m : manifold AR) x f,
  b_available b = true ->
  exists g, decorate b (IsManifold m) (Some (mkArgspec [x] None None 0 [], f)) = Ok g.
Proof. intros N AR b m x f A. unfold decorate, func_init. simpl. rewrite A. simpl. eauto. Qed.

(* ------------------------------------------------------------------ *)
(** ** C83 *)

(** On a product of a single manifold whose points are one array, a gradient or Hessian
    generated by automatic differentiation never returns: the backend unpacks the single
    derivative, which grouping then rejects.  This holds for every differentiation library that
    returns arrays. *)
Theorem C83_single_component_product_refuted :
  forall N (AR : Arrays N) (m1 m : manifold AR) (ad : Autodiff AR) sp f fc rg eh rh pre p s us point,
  mf_layout m1 = Flat 1 ->
  product_init [m1] = Ok m ->
  (forall g n args l, ad_grad ad g n args = Ok l -> Forall (fun v => is_seq v = false) l) ->
  decorate (autograd_backend ad) (IsManifold m) (Some (sp, f)) = Ok fc ->
  problem_init m (FFunction fc) FNone rg eh rh pre = Ok (p, s) ->
  exists e, snd (call_egrad p (do_uses p s us) point) = Raise e.
Proof.
  intros N AR m1 m ad sp f fc rg eh rh pre p s us point L HP AD DC H. use_init H.
  pose proof (do_uses_inv p s us s (inv_init p s F)) as I.
  destruct (call_egrad_inv p s _ point I) as [_ E]. rewrite E. unfold spec_eg, gen_g.
  rewrite EG, PC, PM.
  assert (LM : mf_layout m = Groups [1]).
  { unfold product_init in HP. destruct (existsb _ _); [discriminate|].
    unfold product_layout in HP. simpl in HP. rewrite L in HP. simpl in HP.
    destruct (_ <? 0); [discriminate|]. injection HP as <-. reflexivity. }
  assert (FB : f_backend fc = autograd_backend ad /\ f_original fc = f /\ f_num_arguments fc = 1).
  { unfold decorate, func_init in DC. destruct (_ || _ || _)%bool; [discriminate|].
    simpl in DC. injection DC as <-. simpl. rewrite LM. auto. }
  destruct FB as (FB & FO & FN). rewrite FB, FO, FN. simpl. rewrite LM. simpl.
  destruct (flatten_arguments point [1]) as [fs|e]; simpl; [|eauto].
  unfold unpack_singleton, conjugate_result.
  destruct (ad_grad ad f 1 fs) as [l|e] eqn:G; simpl; [|eauto].
  apply AD in G. destruct l as [|x [|y l]]; simpl; eauto.
  inversion G; subst. destruct x; simpl in *; eauto. discriminate.
Qed.
Example C83_instance :
  exists m fc p s, product_init [u1] = Ok m /\
  decorate (autograd_backend ad_ones) (IsManifold m)
    (Some (mkArgspec ["x"%string] None None 0 [], one_value)) = Ok fc /\
  problem_init m (FFunction fc) FNone FNone FNone FNone None = Ok (p, s) /\
  snd (call_egrad p s (Seq CList [A 1 0])) = Raise ValueError.
Proof. do 4 eexists. repeat split. Qed.
