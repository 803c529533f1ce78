(** Proofs about flattening, grouping and the operators of a problem. *)
From Coq Require Import ZArith List Bool String Lia.
From Verif Require Import Num_Model PyList_Model Problem_Model Problem_Spec.
Import ListNotations.
Open Scope Z_scope.

Section Flatten.
Context {N : NumOps} {AR : Arrays N}.
Implicit Types (v p : val AR) (l fs gs qs ps : list (val AR)) (sig : list Z).

Lemma parts_length : forall sig ps fs, parts sig ps fs -> List.length ps = List.length sig.
Proof. intros sig ps fs H. induction H; simpl; congruence. Qed.

Lemma flatten_loop_iff : forall sig ps fs,
  List.length ps = List.length sig ->
  (flatten_loop sig ps = Ok fs <-> parts sig ps fs).
Proof.
  induction sig as [|k sig IH]; intros [|v ps] fs L; simpl in L; try discriminate.
  - simpl. split; [intros [= <-]; constructor | inversion 1; reflexivity].
  - cbn [flatten_loop]. specialize (IH ps). destruct (Z.eqb_spec k 1) as [->|Hk].
    + split.
      * destruct (is_seq v) eqn:V; [discriminate|]. cbn [bind].
        destruct (flatten_loop sig ps) as [r|] eqn:R; [|discriminate].
        cbn [bind]. intros [= <-]. simpl. constructor; auto. apply IH; [lia|auto].
      * inversion 1 as [|? ? ? ? V P | ? ? ? ? ? ? K]; subst; [|congruence].
        rewrite V. apply IH in P; [|lia]. cbn [bind]. rewrite P. reflexivity.
    + split.
      * destruct (items v) as [l|] eqn:V; [|discriminate]. cbn [bind].
        destruct (Z.eqb_spec (Z.of_nat (List.length l)) k) as [K|]; [|discriminate].
        cbn [bind]. destruct (flatten_loop sig ps) as [r|] eqn:R; [|discriminate].
        cbn [bind]. intros [= <-]. econstructor; eauto. apply IH; [lia|auto].
      * inversion 1 as [|? ? ? ? V P | ? ? l ? ? fl K V LL P]; subst; [congruence|].
        rewrite V. cbn [bind]. rewrite Z.eqb_refl. cbn [bind].
        apply IH in P; [|lia]. rewrite P. reflexivity.
Qed.

Lemma flatten_iff : forall sig p fs,
  flatten_arguments p sig = Ok fs <-> exists ps, items p = Ok ps /\ parts sig ps fs.
Proof.
  intros sig p fs. unfold flatten_arguments. destruct (items p) as [ps|e] eqn:I; cbn [bind].
  - destruct (Z.eqb_spec (Z.of_nat (List.length ps)) (Z.of_nat (List.length sig))) as [L|L].
    + rewrite flatten_loop_iff by lia. split; [eauto|]. intros (ps' & E & P). congruence.
    + split; [discriminate|]. intros (ps' & E & P). apply parts_length in P.
      exfalso. apply L. congruence.
  - split; [discriminate|]. intros (ps' & E & P). discriminate.
Qed.

Lemma flatten_loop_raises : forall sig ps e,
  flatten_loop sig ps = Raise e -> e = AssertionError \/ e = TypeError.
Proof.
  induction sig as [|k sig IH]; intros [|v ps] e; cbn [flatten_loop]; try discriminate.
  destruct (k =? 1).
  - destruct (is_seq v); cbn [bind]; [intros [= <-]; auto|].
    destruct (flatten_loop sig ps) as [r|] eqn:R; cbn [bind]; [discriminate|].
    intros [= <-]. eapply IH; eauto.
  - destruct (items v) as [l|e'] eqn:V; cbn [bind].
    + destruct (Z.of_nat (List.length l) =? k); cbn [bind]; [|intros [= <-]; auto].
      destruct (flatten_loop sig ps) as [r|] eqn:R; cbn [bind]; [discriminate|].
      intros [= <-]. eapply IH; eauto.
    + intros [= <-]. destruct v as [x|a|c w]; simpl in V; try discriminate.
      * injection V as <-; auto.
      * destruct (arr_rows AR a); [discriminate|]. injection V as <-; auto.
Qed.

Lemma items_raises : forall v e, items v = Raise e -> e = TypeError.
Proof.
  intros [x|a|c w] e; simpl; try discriminate.
  - intros [= <-]; reflexivity.
  - destruct (arr_rows AR a); [discriminate|]. intros [= <-]; reflexivity.
Qed.

Lemma flatten_raises : forall sig p e,
  flatten_arguments p sig = Raise e -> e = AssertionError \/ e = TypeError.
Proof.
  intros sig p e. unfold flatten_arguments. destruct (items p) as [ps|e'] eqn:I; cbn [bind].
  - destruct (_ =? _); [apply flatten_loop_raises | intros [= <-]; auto].
  - intros [= <-]. apply items_raises in I. auto.
Qed.

(** Grouping. *)
Lemma py_get_app : forall A (h : list A) a t,
  py_get (h ++ a :: t) (Z.of_nat (List.length h)) = Ok a.
Proof.
  intros. unfold py_get, py_index.
  replace (Z.of_nat (List.length h) <? 0) with false by (symmetry; apply Z.ltb_ge; lia).
  rewrite app_length. simpl.
  replace ((0 <=? Z.of_nat (List.length h)) &&
    (Z.of_nat (List.length h) <? Z.of_nat (List.length h + S (List.length t))))%bool with true.
  - rewrite Nat2Z.id, nth_error_app2, Nat.sub_diag by lia. reflexivity.
  - symmetry. apply andb_true_intro. split; [apply Z.leb_le|apply Z.ltb_lt]; lia.
Qed.

Lemma slice_app : forall A (h l t : list A),
  slice (h ++ l ++ t) (Z.of_nat (List.length h))
    (Z.of_nat (List.length h) + Z.of_nat (List.length l)) = l.
Proof.
  intros. unfold slice.
  replace (Z.of_nat (List.length h) + Z.of_nat (List.length l) - Z.of_nat (List.length h))
    with (Z.of_nat (List.length l)) by lia.
  rewrite !Nat2Z.id, skipn_app, skipn_all, Nat.sub_diag. simpl.
  rewrite firstn_app, firstn_all, Nat.sub_diag. simpl. apply app_nil_r.
Qed.

Lemma group_loop_ok : forall c sig gs h,
  Forall (fun k => 0 < k) sig -> Z.of_nat (List.length gs) = total sig ->
  exists qs, group_loop c (h ++ gs) sig (Z.of_nat (List.length h)) = Ok qs /\
    grouped (slice_cls c) sig gs qs.
Proof.
  induction sig as [|k sig IH]; intros gs h P L.
  - destruct gs; [|simpl in L; lia]. exists []. split; [reflexivity|constructor].
  - inversion P as [|? ? Pk P']; subst. unfold total in L; simpl in L. fold (total sig) in L.
    assert (T : 0 <= total sig).
    { clear -P'. induction P' as [|? ? ? ? IH']; unfold total; simpl; [lia|]. fold (total l).
      lia. }
    cbn [group_loop]. destruct (Z.eqb_spec k 1) as [->|Hk].
    + destruct gs as [|v gs]; [cbn [List.length] in L; lia|].
      rewrite py_get_app. cbn [bind].
      destruct (IH gs (h ++ [v])) as (qs & E & G); auto.
      { cbn [List.length] in L. lia. }
      rewrite app_length in E. simpl in E. rewrite Nat2Z.inj_add in E.
      rewrite <- app_assoc in E. simpl in E. change (Z.of_nat 1) with 1 in E.
      rewrite E. cbn [bind]. eexists; split; [reflexivity|]. constructor; auto.
    + set (l := firstn (Z.to_nat k) gs). set (r := skipn (Z.to_nat k) gs).
      assert (EQ : gs = l ++ r) by (symmetry; apply firstn_skipn).
      assert (LL : Z.of_nat (List.length l) = k).
      { unfold l. rewrite firstn_length. lia. }
      assert (LR : Z.of_nat (List.length r) = total sig).
      { unfold r. rewrite skipn_length. lia. }
      clearbody l r. subst gs.
      assert (SL : slice (h ++ l ++ r) (Z.of_nat (List.length h)) (Z.of_nat (List.length h) + k) = l)
        by (rewrite <- LL; apply slice_app).
      rewrite SL. cbn [bind].
      destruct (IH r (h ++ l)) as (qs & E & G); auto.
      rewrite app_length, Nat2Z.inj_add, LL, <- app_assoc in E.
      rewrite E. cbn [bind]. eexists; split; [reflexivity|].
      constructor; auto.
Qed.

Lemma group_values_ok : forall c sig gs,
  Forall (fun k => 0 < k) sig -> Z.of_nat (List.length gs) = total sig ->
  exists qs, group_values sig (Seq c gs) = Ok (Seq CList qs) /\ grouped (slice_cls c) sig gs qs.
Proof.
  intros c sig gs P L. unfold group_values, total in *. rewrite L, Z.eqb_refl.
  destruct (group_loop_ok c sig gs [] P L) as (qs & E & G). simpl in E.
  rewrite E. cbn [bind]. eauto.
Qed.

Lemma group_values_bad : forall sig r,
  (forall c gs, r = Seq c gs -> Z.of_nat (List.length gs) <> total sig) ->
  group_values sig r = Raise ValueError.
Proof.
  intros sig [x|a|c gs] H; simpl; auto.
  destruct (Z.eqb_spec (Z.of_nat (List.length gs)) (fold_right Z.add 0 sig)); auto.
  exfalso. eapply H; eauto.
Qed.

Lemma grouped_parts : forall c sig gs qs,
  grouped c sig gs qs -> Forall (fun v => is_seq v = false) gs -> parts sig qs gs.
Proof.
  intros c sig gs qs G. induction G; intros F.
  - constructor.
  - inversion F; subst. constructor; auto.
  - apply Forall_app in F as []. econstructor; eauto.
Qed.

Lemma parts_total : forall sig ps fs, parts sig ps fs -> Z.of_nat (List.length fs) = total sig.
Proof.
  intros sig ps fs P. induction P; unfold total in *; cbn [fold_right List.length]; auto.
  - lia.
  - rewrite app_length. lia.
Qed.

(** Two groups describe the same components. *)
Lemma parts_grouped : forall c sig ps fs qs,
  parts sig ps fs -> grouped c sig fs qs ->
  Forall2 (fun p q => p = q \/ exists l, items p = Ok l /\ q = Seq c l) ps qs.
Proof.
  intros c sig ps fs qs P. revert qs. induction P as [|? ? ? ? ? ? IH | ? ? ? ? ? ? K I L ? IH];
  intros qs G.
  - inversion G; subst. constructor.
  - inversion G; subst; [constructor; auto|congruence].
  - inversion G as [|? ? ? ? G' | ? l' ? fl gr K' L' G' E1 E2 E3]; subst; [congruence|].
    assert (l' = l /\ fl = flat) as [-> ->].
    { clear -E2 L'. assert (LE : List.length l' = List.length l) by lia. clear L'.
      revert l' LE E2. induction l as [|x l IH]; intros [|y l'] LE E; simpl in *;
      try discriminate; auto. injection E as -> E. injection LE as LE.
      destruct (IH l' LE E) as [-> ->]. auto. }
    constructor; eauto.
Qed.
End Flatten.

(* ------------------------------------------------------------------ *)
Section Uses.
Context {N : NumOps} {AR : Arrays N}.
Variables (p : problem AR) (s0 : pstate AR).

(** What the cost function generates. *)
Definition gen_g : res (ufun AR) :=
  match p_original_cost p with
  | FFunction f => b_gradient (f_backend f) (f_original f) (f_num_arguments f)
  | _ => Raise AttributeError
  end.
Definition gen_h : res (ufun AR) :=
  match p_original_cost p with
  | FFunction f => b_hessian (f_backend f) (f_original f) (f_num_arguments f)
  | _ => Raise AttributeError
  end.

Definition fresh (s : pstate AR) : Prop :=
  s_fn_gradient s = None /\ s_fn_hessian s = None /\ s_log s = [].

(** The invariant: everything remembered is what would be computed from the start. *)
Record inv (s : pstate AR) : Prop := mkInv {
  i_fg : s_fn_gradient s = None \/ exists g, s_fn_gradient s = Some g /\ gen_g = Ok g;
  i_fh : s_fn_hessian s = None \/ exists g, s_fn_hessian s = Some g /\ gen_h = Ok g;
  i_eg : s_egrad s = s_egrad s0 \/
    (s_egrad s0 = None /\ exists g, gen_g = Ok g /\
     s_egrad s = Some (wrap_gradient (mf_layout (p_manifold p)) g));
  i_eh : s_ehess s = s_ehess s0 \/
    (s_ehess s0 = None /\ exists g, gen_h = Ok g /\
     s_ehess s = Some (wrap_hessian (p_manifold p) true g));
  i_rg : s_rgrad s = s_rgrad s0 \/ (s_rgrad s0 = None /\ s_rgrad s = Some GDerived);
  i_rh : s_rhess s = s_rhess s0 \/ (s_rhess s0 = None /\ s_rhess s = Some HDerived);
  i_lg : gradient_generations (s_log s) = if truthy_opt (s_fn_gradient s) then 1%nat else 0%nat;
  i_lh : hessian_generations (s_log s) = if truthy_opt (s_fn_hessian s) then 1%nat else 0%nat;
  i_ug : s_egrad s0 <> None -> s_fn_gradient s = None;
  i_uh : s_ehess s0 <> None -> s_fn_hessian s = None }.

Lemma inv_init : fresh s0 -> inv s0.
Proof.
  intros (G & H & L). constructor; auto; rewrite ?L, ?G, ?H; auto.
Qed.

Lemma gradient_generations_app : forall l m,
  gradient_generations (l ++ m) = (gradient_generations l + gradient_generations m)%nat.
Proof. intros. unfold gradient_generations. rewrite filter_app, app_length. reflexivity. Qed.
Lemma hessian_generations_app : forall l m,
  hessian_generations (l ++ m) = (hessian_generations l + hessian_generations m)%nat.
Proof. intros. unfold hessian_generations. rewrite filter_app, app_length. reflexivity. Qed.

(** The operators every state yields. *)
Definition spec_eg : res (val AR -> res (val AR)) :=
  match s_egrad s0 with
  | Some g => Ok g
  | None => let* g := gen_g in Ok (wrap_gradient (mf_layout (p_manifold p)) g)
  end.
Definition spec_eh : res (val AR -> val AR -> res (val AR)) :=
  match s_ehess s0 with
  | Some g => Ok g
  | None => let* g := gen_h in Ok (wrap_hessian (p_manifold p) true g)
  end.

Lemma get_egrad_inv : forall s, inv s ->
  inv (fst (get_egrad p s)) /\ snd (get_egrad p s) = spec_eg.
Proof.
  intros s I. pose proof I as I0. destruct I as [fg fh eg eh rg rh lg lh ug uh]. unfold get_egrad, spec_eg.
  destruct eg as [eg|(eg0 & g & Eg & eg)].
  - rewrite eg. destruct (s_egrad s0) as [g|] eqn:E0.
    + split; [exact I0|reflexivity].
    + unfold get_gradient_operator. fold gen_g.
      destruct fg as [fg|(g & fg & Eg)].
      * rewrite fg. destruct (p_original_cost p) eqn:C; simpl; unfold gen_g; rewrite ?C;
          simpl; try (split; [exact I0 | reflexivity]).
        destruct (b_gradient _ _ _) as [g|e] eqn:B; simpl.
        -- split; [|reflexivity]. constructor; simpl; auto.
           ++ right. exists g. unfold gen_g. rewrite C. auto.
           ++ right. split; auto. exists g. unfold gen_g. rewrite C. auto.
           ++ rewrite gradient_generations_app, lg, fg. reflexivity.
           ++ rewrite hessian_generations_app, lh. cbn. lia.
           ++ congruence.
        -- split; [|reflexivity]. constructor; simpl; auto.
           ++ left. congruence.
           ++ rewrite gradient_generations_app, lg, fg. reflexivity.
           ++ rewrite hessian_generations_app, lh. cbn. lia.
      * rewrite fg, Eg. unfold gen_g in Eg. destruct (p_original_cost p) eqn:C; try discriminate.
        simpl. split; [|reflexivity]. constructor; simpl; auto.
        -- right. exists g. split; auto. unfold gen_g. rewrite C. auto.
        -- right. split; auto. exists g. split; auto. unfold gen_g. rewrite C. auto.
  - rewrite eg. simpl. rewrite eg0, Eg. simpl. auto.
Qed.

Lemma get_ehess_inv : forall s, inv s ->
  inv (fst (get_ehess p s)) /\ snd (get_ehess p s) = spec_eh.
Proof.
  intros s I. pose proof I as I0. destruct I as [fg fh eg eh rg rh lg lh ug uh]. unfold get_ehess, spec_eh.
  destruct eh as [eh|(eh0 & g & Eh & eh)].
  - rewrite eh. destruct (s_ehess s0) as [g|] eqn:E0.
    + split; [exact I0|reflexivity].
    + unfold get_hessian_operator. fold gen_h.
      destruct fh as [fh|(g & fh & Eh)].
      * rewrite fh. destruct (p_original_cost p) eqn:C; simpl; unfold gen_h; rewrite ?C;
          simpl; try (split; [exact I0 | reflexivity]).
        destruct (b_hessian _ _ _) as [g|e] eqn:B; simpl.
        -- split; [|reflexivity]. constructor; simpl; auto.
           ++ right. exists g. unfold gen_h. rewrite C. auto.
           ++ right. split; auto. exists g. unfold gen_h. rewrite C. auto.
           ++ rewrite gradient_generations_app, lg. cbn. lia.
           ++ rewrite hessian_generations_app, lh, fh. reflexivity.
           ++ congruence.
        -- split; [|reflexivity]. constructor; simpl; auto.
           ++ left. congruence.
           ++ rewrite gradient_generations_app, lg. cbn. lia.
           ++ rewrite hessian_generations_app, lh, fh. reflexivity.
      * rewrite fh, Eh. unfold gen_h in Eh. destruct (p_original_cost p) eqn:C; try discriminate.
        simpl. split; [|reflexivity]. constructor; simpl; auto.
        -- right. exists g. split; auto. unfold gen_h. rewrite C. auto.
        -- right. split; auto. exists g. split; auto. unfold gen_h. rewrite C. auto.
  - rewrite eh. simpl. rewrite eh0, Eh. simpl. auto.
Qed.

Lemma get_rgrad_inv : forall s, inv s ->
  inv (fst (get_rgrad p s)) /\
  snd (get_rgrad p s) = match s_rgrad s0 with Some g => g | None => GDerived end.
Proof.
  intros s I. unfold get_rgrad. pose proof I as I'. destruct I as [fg fh eg eh rg rh lg lh ug uh].
  destruct rg as [rg|(rg0 & rg)].
  - rewrite rg. destruct (s_rgrad s0) as [g|] eqn:E0; simpl; [auto|].
    split; auto. constructor; simpl; auto.
  - rewrite rg, rg0. simpl. auto.
Qed.

Lemma get_rhess_inv : forall s, inv s ->
  inv (fst (get_rhess p s)) /\
  snd (get_rhess p s) = match s_rhess s0 with Some g => g | None => HDerived end.
Proof.
  intros s I. unfold get_rhess. pose proof I as I'. destruct I as [fg fh eg eh rg rh lg lh ug uh].
  destruct rh as [rh|(rh0 & rh)].
  - rewrite rh. destruct (s_rhess s0) as [g|] eqn:E0; simpl; [auto|].
    split; auto. constructor; simpl; auto.
  - rewrite rh, rh0. simpl. auto.
Qed.

Lemma call_egrad_inv : forall s x, inv s ->
  inv (fst (call_egrad p s x)) /\ snd (call_egrad p s x) = (let* g := spec_eg in g x).
Proof.
  intros s x I. unfold call_egrad. destruct (get_egrad_inv s I) as [I1 E].
  destruct (get_egrad p s) as [s1 r]. simpl in *. subst r. auto.
Qed.

Lemma call_ehess_inv : forall s x v, inv s ->
  inv (fst (call_ehess p s x v)) /\ snd (call_ehess p s x v) = (let* g := spec_eh in g x v).
Proof.
  intros s x v I. unfold call_ehess. destruct (get_ehess_inv s I) as [I1 E].
  destruct (get_ehess p s) as [s1 r]. simpl in *. subst r. auto.
Qed.

Lemma call_gop_inv : forall g s x, inv s ->
  inv (fst (call_gop p g s x)) /\
  snd (call_gop p g s x) =
    match g with
    | GWrapped w => w x
    | GDerived => let* e := (let* g := spec_eg in g x) in mf_call (p_manifold p) MGradient [x; e]
    end.
Proof.
  intros [w|] s x I; simpl; auto.
  destruct (call_egrad_inv s x I) as [I1 E].
  destruct (call_egrad p s x) as [s1 r]. simpl in *. subst r. auto.
Qed.

Lemma call_hop_inv : forall g s x v, inv s ->
  inv (fst (call_hop p g s x v)) /\
  snd (call_hop p g s x v) =
    match g with
    | HWrapped w => w x v
    | HDerived =>
        let* e := (let* g := spec_eg in g x) in
        let* h := (let* g := spec_eh in g x v) in
        mf_call (p_manifold p) MHessian [x; e; h; v]
    end.
Proof.
  intros [w|] s x v I; simpl; auto.
  destruct (call_egrad_inv s x I) as [I1 E].
  destruct (call_egrad p s x) as [s1 r]. simpl in *. subst r.
  destruct (let* g := spec_eg in g x) as [e|e]; simpl; auto.
  destruct (call_ehess_inv s1 x v I1) as [I2 E2].
  destruct (call_ehess p s1 x v) as [s2 r2]. simpl in *. subst r2. auto.
Qed.

Lemma call_rgrad_inv : forall s x, inv s ->
  inv (fst (call_rgrad p s x)) /\
  snd (call_rgrad p s x) =
    match s_rgrad s0 with
    | Some (GWrapped w) => w x
    | _ => let* e := (let* g := spec_eg in g x) in mf_call (p_manifold p) MGradient [x; e]
    end.
Proof.
  intros s x I. unfold call_rgrad. destruct (get_rgrad_inv s I) as [I1 E].
  destruct (get_rgrad p s) as [s1 g]. simpl in *. subst g.
  destruct (call_gop_inv (match s_rgrad s0 with Some g => g | None => GDerived end) s1 x I1)
    as [I2 E2]. split; auto. rewrite E2. destruct (s_rgrad s0) as [[w|]|]; auto.
Qed.

Lemma call_rhess_inv : forall s x v, inv s ->
  inv (fst (call_rhess p s x v)) /\
  snd (call_rhess p s x v) =
    match s_rhess s0 with
    | Some (HWrapped w) => w x v
    | _ => let* e := (let* g := spec_eg in g x) in
        let* h := (let* g := spec_eh in g x v) in
        mf_call (p_manifold p) MHessian [x; e; h; v]
    end.
Proof.
  intros s x v I. unfold call_rhess. destruct (get_rhess_inv s I) as [I1 E].
  destruct (get_rhess p s) as [s1 g]. simpl in *. subst g.
  destruct (call_hop_inv (match s_rhess s0 with Some g => g | None => HDerived end) s1 x v I1)
    as [I2 E2]. split; auto. rewrite E2. destruct (s_rhess s0) as [[w|]|]; auto.
Qed.

Definition spec_use (u : use AR) : res (option (val AR)) :=
  let some (r : res (val AR)) := let* v := r in Ok (Some v) in
  match u with
  | UseCost x => some (p_cost p x)
  | ReadEgrad => let* _ := spec_eg in Ok None
  | ReadEhess => let* _ := spec_eh in Ok None
  | ReadRgrad | ReadRhess => Ok None
  | UseEgrad x => some (let* g := spec_eg in g x)
  | UseEhess x v => some (let* g := spec_eh in g x v)
  | UseRgrad x => some (
      match s_rgrad s0 with
      | Some (GWrapped w) => w x
      | _ => let* e := (let* g := spec_eg in g x) in mf_call (p_manifold p) MGradient [x; e]
      end)
  | UseRhess x v => some (
      match s_rhess s0 with
      | Some (HWrapped w) => w x v
      | _ => let* e := (let* g := spec_eg in g x) in
          let* h := (let* g := spec_eh in g x v) in
          mf_call (p_manifold p) MHessian [x; e; h; v]
      end)
  end.

Lemma do_use_inv : forall s u, inv s ->
  inv (fst (do_use p s u)) /\ snd (do_use p s u) = spec_use u.
Proof.
  intros s u I. unfold do_use, spec_use. destruct u.
  - auto.
  - destruct (get_egrad_inv s I) as [? E]. destruct (get_egrad p s) as [s1 r].
    simpl in *; subst; auto.
  - destruct (get_rgrad_inv s I). auto.
  - destruct (get_ehess_inv s I) as [? E]. destruct (get_ehess p s) as [s1 r].
    simpl in *; subst; auto.
  - destruct (get_rhess_inv s I). auto.
  - destruct (call_egrad_inv s p0 I) as [? E]. destruct (call_egrad p s p0) as [s1 r].
    simpl in *; subst; auto.
  - destruct (call_rgrad_inv s p0 I) as [? E]. destruct (call_rgrad p s p0) as [s1 r].
    simpl in *; subst; auto.
  - destruct (call_ehess_inv s p0 v I) as [? E]. destruct (call_ehess p s p0 v) as [s1 r].
    simpl in *; subst; auto.
  - destruct (call_rhess_inv s p0 v I) as [? E]. destruct (call_rhess p s p0 v) as [s1 r].
    simpl in *; subst; auto.
Qed.

Lemma do_uses_inv : forall us s, inv s -> inv (do_uses p s us).
Proof.
  induction us as [|u us IH]; intros s I; simpl; auto.
  apply IH. apply do_use_inv. auto.
Qed.
End Uses.

Lemma init_shape : forall N (AR : Arrays N) (m : manifold AR) c eg rg eh rh pre p s,
  problem_init m c eg rg eh rh pre = Ok (p, s) ->
  fresh s /\ p_manifold p = m /\ p_original_cost p = c /\
  p_cost p = wrap_function (mf_layout m) (call_arg c) /\
  s_egrad s = opt_arg eg (wrap_gradient (mf_layout m)) /\
  s_ehess s = opt_arg eh (wrap_hessian m true) /\
  s_rgrad s = option_map GWrapped (opt_arg rg (wrap_gradient (mf_layout m))) /\
  s_rhess s = option_map HWrapped (opt_arg rh (wrap_hessian m false)).
Proof.
  intros N AR m c eg rg eh rh pre p s. unfold problem_init.
  destruct (validate_function c); [|discriminate].
  destruct (validate_function eg); [|discriminate].
  destruct (validate_function eh); [|discriminate].
  destruct (validate_function rg); [|discriminate].
  destruct (validate_function rh); [|discriminate]. cbn [bind].
  destruct (given eg && given rg); [discriminate|].
  destruct (given eh && given rh); [discriminate|].
  intros [= <- <-]. simpl. repeat split; auto.
Qed.

(* ------------------------------------------------------------------ *)
Section Attributes.
Context {O : Type} (prop : string -> option exn).

Lemma set_protected : forall (d : attrs O) k o x,
  k = "manifold"%string \/ k = "preconditioner"%string ->
  attr_get d k = Some o -> set_attribute prop d k x = (d, Raise AttributeError).
Proof. intros d k o x [-> | ->] H; unfold set_attribute; simpl; rewrite H; reflexivity. Qed.

Lemma set_keeps : forall (d : attrs O) k k' o x,
  k = "manifold"%string \/ k = "preconditioner"%string ->
  attr_get d k = Some o -> attr_get (fst (set_attribute prop d k' x)) k = Some o.
Proof.
  intros d k k' o x K H. destruct (String.eqb_spec k' k) as [->|NE].
  - rewrite (set_protected _ _ _ _ K H). exact H.
  - assert (G : attr_get (attr_set d k' x) k = Some o).
    { simpl. destruct (String.eqb_spec k k'); [congruence|auto]. }
    unfold set_attribute.
    destruct (is_property k').
    + destruct (prop k') as [[]|]; simpl; auto; try (destruct (_ || _); auto).
    + destruct (_ && _); simpl fst; auto.
Qed.

Lemma set_other : forall (d : attrs O) k x,
  k <> "manifold"%string -> k <> "preconditioner"%string -> is_property k = false ->
  set_attribute prop d k x = (attr_set d k x, Ok tt).
Proof.
  intros d k x H1 H2 H3. unfold set_attribute. rewrite H3.
  destruct (String.eqb_spec k "manifold"); [congruence|].
  destruct (String.eqb_spec k "preconditioner"); [congruence|].
  rewrite andb_false_r. reflexivity.
Qed.
End Attributes.
