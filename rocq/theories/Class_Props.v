(** Method resolution in the class hierarchy of the manifolds: C51, and what the optimizers find there: C92. *)
From Coq Require Import List Bool Arith Lia.
From Verif Require Import Class_Model.
Import ListNotations.

(** ** Specification *)
Section Spec.
Variable K : Type.
(** [order] keeps the order of [l]: [l] is what is left of it after dropping some entries. *)
Inductive keeps_order : list K -> list K -> Prop :=
  | keeps_nil : forall order, keeps_order [] order
  | keeps_take : forall k l order, keeps_order l order -> keeps_order (k :: l) (k :: order)
  | keeps_skip : forall k l order, keeps_order l order -> keeps_order l (k :: order).
(** subclass relation of a list of class statements *)
Inductive inherits (ds : list (@classdef K)) : K -> K -> Prop :=
  | inherits_self : forall d, In d ds -> inherits ds (d_name d) (d_name d)
  | inherits_base : forall d b k, In d ds -> In b (d_bases d) -> inherits ds b k -> inherits ds (d_name d) k.
End Spec.
Arguments keeps_order {K}.
Arguments inherits {K}.

Lemma name_eqb_spec a b : name_eqb a b = true <-> a = b.
Proof. destruct a, b; split; intros H; try reflexivity; discriminate H. Qed.
Lemma cls_eqb_spec a b : cls_eqb a b = true <-> a = b.
Proof. split; [|intros ->; destruct b; reflexivity]. destruct a, b; intros H; try reflexivity; discriminate H. Qed.

(** ** Resolution orders *)
Section Mro.
Variables (K : Type) (K_eqb : K -> K -> bool).
Hypothesis K_eqb_spec : forall a b, K_eqb a b = true <-> a = b.
Local Notation merge := (merge K_eqb).
Local Notation behead := (behead K_eqb).

Lemma mem_spec k (l : list K) : mem K_eqb k l = true <-> In k l.
Proof.
  unfold mem. rewrite existsb_exists. split.
  - intros (x & Hx & E). apply K_eqb_spec in E as ->. exact Hx.
  - intros H. exists k. split; [exact H|apply K_eqb_spec; reflexivity].
Qed.
Lemma heads_spec (h : K) ls : In h (heads ls) -> exists l, In (h :: l) ls.
Proof.
  unfold heads. rewrite in_flat_map. intros ([|x l] & Hl & Hh); [contradiction|].
  destruct Hh as [->|[]]. exists l. exact Hl.
Qed.
Lemma heads_nil (ls : list (list K)) : heads ls = [] -> forall l, In l ls -> l = [].
Proof.
  induction ls as [|[|x l0] ls IH]; simpl; intros H l Hl; [contradiction| |discriminate].
  destruct Hl as [<-|Hl]; auto.
Qed.
Lemma in_behead h x (l : list K) : In x (behead h l) -> In x l.
Proof. destruct l as [|y l]; simpl; [auto|]. destruct (K_eqb y h); simpl; auto. Qed.
Lemma in_behead_or h x (l : list K) : In x l -> x = h \/ In x (behead h l).
Proof.
  destruct l as [|y l]; simpl; [contradiction|]. destruct (K_eqb y h) eqn:E.
  - apply K_eqb_spec in E as ->. intros [->|H]; auto.
  - simpl. intros H. right. exact H.
Qed.

Lemma merge_spec : forall fuel (ls : list (list K)) order, merge fuel ls = Some order ->
  (forall l, In l ls -> keeps_order l order) /\
  (forall k, In k order <-> exists l, In l ls /\ In k l) /\
  NoDup order.
Proof.
  assert (Base : forall ls : list (list K), heads ls = [] ->
    (forall l, In l ls -> keeps_order l []) /\ (forall k : K, In k [] <-> exists l, In l ls /\ In k l) /\ NoDup (@nil K)).
  { intros ls E. pose proof (heads_nil ls E) as H. split; [|split].
    - intros l Hl. rewrite (H l Hl). constructor.
    - intros k. split; [contradiction|]. intros (l & Hl & Hk). rewrite (H l Hl) in Hk. exact Hk.
    - constructor. }
  induction fuel as [|fuel IH]; intros ls order E; cbn [Class_Model.merge] in E.
  { destruct (heads ls) eqn:Eh; [|discriminate]. injection E as <-. apply Base. exact Eh. }
  destruct (heads ls) eqn:Eh; [injection E as <-; apply Base; exact Eh|].
  rewrite <- Eh in E. clear Eh l k.
  destruct (find (candidate K_eqb ls) (heads ls)) as [h|] eqn:Ef; [|discriminate].
  apply find_some in Ef as [Hh Hc].
  destruct (merge fuel (map (behead h) ls)) as [r|] eqn:Er; [|discriminate]. injection E as <-.
  destruct (IH _ _ Er) as (S & I & N).
  assert (Ht : forall l, In l ls -> ~ In h (tl l)).
  { intros l Hl. unfold candidate in Hc. rewrite forallb_forall in Hc. specialize (Hc l Hl).
    rewrite negb_true_iff, <- not_true_iff_false, mem_spec in Hc. exact Hc. }
  split; [|split].
  - intros l Hl. assert (Hb := S (behead h l) (in_map _ _ _ Hl)). destruct l as [|x l]; [constructor|].
    simpl in Hb. destruct (K_eqb x h) eqn:Ex; [apply K_eqb_spec in Ex as ->; apply keeps_take; exact Hb|apply keeps_skip; exact Hb].
  - intros k. split.
    + intros [<-|Hk].
      * destruct (heads_spec _ _ Hh) as [l Hl]. exists (h :: l). split; [exact Hl|left; reflexivity].
      * apply I in Hk as (l' & Hl' & Hk). apply in_map_iff in Hl' as (l & <- & Hl). exists l. split; [exact Hl|].
        eapply in_behead; eauto.
    + intros (l & Hl & Hk). destruct (in_behead_or h k l Hk) as [->|Hk']; [left; reflexivity|].
      right. apply I. exists (behead h l). split; [apply in_map; exact Hl|exact Hk'].
  - constructor.
    + rewrite I. intros (l' & Hl' & Hk). apply in_map_iff in Hl' as (l & <- & Hl).
      specialize (Ht l Hl). destruct l as [|x l]; simpl in *; [exact Hk|].
      destruct (K_eqb x h) eqn:Ex; [exact (Ht Hk)|]. destruct Hk as [->|Hk]; [|exact (Ht Hk)].
      apply not_true_iff_false in Ex. apply Ex, K_eqb_spec. reflexivity.
    + exact N.
Qed.

Lemma keeps_refl l : keeps_order (l : list K) l.
Proof. induction l; [constructor|apply keeps_take; assumption]. Qed.
Lemma keeps_in (l order : list K) k : keeps_order l order -> In k l -> In k order.
Proof. induction 1; simpl; intuition. Qed.
Lemma keeps_trans (a b c : list K) : keeps_order a b -> keeps_order b c -> keeps_order a c.
Proof.
  intros H1 H2. revert a H1. induction H2 as [c|k b c H IH|k b c H IH]; intros a H1.
  - inversion H1; constructor.
  - inversion H1; subst; [constructor|apply keeps_take; auto|apply keeps_skip; auto].
  - apply keeps_skip. auto.
Qed.
Lemma keeps_cons k (l order : list K) : keeps_order (k :: l) order -> keeps_order l order.
Proof.
  intros H. apply (keeps_trans _ (k :: l)); [|exact H]. apply keeps_skip, keeps_refl.
Qed.
Lemma all_some_spec {A} (l : list (option A)) r : all_some l = Some r -> l = map Some r.
Proof.
  revert r. induction l as [|[a|] l IH]; simpl; intros r E; [injection E as <-; reflexivity| |discriminate].
  destruct (all_some l) as [r'|]; [|discriminate]. injection E as <-. simpl. rewrite (IH r'); reflexivity.
Qed.
Lemma find_class_spec (env : @environment K) k c : find_class K_eqb env k = Some c -> In c env /\ c_name c = k.
Proof.
  induction env as [|c' env IH]; simpl; [discriminate|]. destruct (K_eqb (c_name c') k) eqn:E.
  - intros H. injection H as <-. apply K_eqb_spec in E. auto.
  - intros H. destruct (IH H). auto.
Qed.


(** Invariant of [load]: [pre] are the statements executed, [all] is the whole file. *)
Local Notation order_of := (order_of K_eqb).
Definition good (all pre : list (@classdef K)) (env : @environment K) (d : @classdef K) : Prop :=
  (exists l, order_of env (d_name d) = d_name d :: l) /\
  NoDup (order_of env (d_name d)) /\
  (forall k, In k (order_of env (d_name d)) <-> inherits all (d_name d) k) /\
  (forall k, In k (order_of env (d_name d)) -> In k (map d_name pre)) /\
  keeps_order (d_bases d) (order_of env (d_name d)) /\
  (forall k, In k (order_of env (d_name d)) -> keeps_order (order_of env k) (order_of env (d_name d))).
Lemma inherits_iff (all : list (@classdef K)) d k : NoDup (map d_name all) -> In d all ->
  (inherits all (d_name d) k <-> k = d_name d \/ exists b, In b (d_bases d) /\ inherits all b k).
Proof.
  intros Hn Hd. split.
  - intros H. inversion H as [d' Hd' E|d' b k' Hd' Hb Hk E]; subst; [auto|].
    right. assert (d' = d) as ->; [|eauto].
    clear - Hn Hd Hd' E. induction all as [|a all IH]; simpl in *; [contradiction|]. inversion Hn as [|? ? N1 N2]; subst.
    destruct Hd as [->|Hd], Hd' as [->|Hd']; auto.
    + exfalso. apply N1. rewrite <- E. apply in_map. exact Hd'.
    + exfalso. apply N1. rewrite E. apply in_map. exact Hd.
  - intros [->|(b & Hb & Hk)]; [apply inherits_self; exact Hd|eapply inherits_base; eauto].
Qed.
Lemma find_class_in (env : @environment K) k : In k (map c_name env) <-> exists c, find_class K_eqb env k = Some c.
Proof.
  split.
  - induction env as [|c env IH]; simpl; [contradiction|]. destruct (K_eqb (c_name c) k) eqn:E; [eauto|].
    intros [<-|H]; [|auto]. exfalso. apply not_true_iff_false in E. apply E, K_eqb_spec. reflexivity.
  - intros [c H]. apply find_class_spec in H as [H <-]. apply in_map. exact H.
Qed.
Lemma order_of_skip (env : @environment K) c k : c_name c <> k -> order_of (c :: env) k = order_of env k.
Proof.
  intros H. unfold Class_Model.order_of. simpl. destruct (K_eqb (c_name c) k) eqn:E; [|reflexivity].
  apply K_eqb_spec in E. contradiction.
Qed.

Lemma load_inv (all : list (@classdef K)) : NoDup (map d_name all) -> forall ds pre env env',
  all = pre ++ ds -> load K_eqb env ds = Some env' ->
  (forall k, In k (map c_name env) <-> In k (map d_name pre)) -> (forall d, In d pre -> good all pre env d) ->
  (forall d, In d all -> good all all env' d).
Proof.
  intros Hn ds. induction ds as [|d ds IH]; intros pre env env' Ea El En Hg; simpl in El.
  { injection El as <-. rewrite app_nil_r in Ea. subst pre. exact Hg. }
  destruct (define K_eqb env d) as [c|] eqn:Ec; [|discriminate].
  apply (IH (pre ++ [d]) (c :: env) env'); [rewrite <- app_assoc; exact Ea|exact El| |].
  - unfold define in Ec. destruct (all_some _); [|discriminate]. destruct (merge _ _); [|discriminate].
    destruct (exec_body _ _ _); [|discriminate]. injection Ec as <-. intros k. rewrite map_app, in_app_iff. simpl.
    rewrite En. tauto.
  - assert (Fresh : ~ In (d_name d) (map d_name pre)).
    { rewrite Ea, map_app in Hn. simpl in Hn. apply NoDup_remove_2 in Hn. rewrite in_app_iff in Hn. tauto. }
    assert (Hd : In d all). { rewrite Ea. apply in_or_app. right. left. reflexivity. }
    assert (Hpre : forall d', In d' pre -> In d' all). { intros d' H. rewrite Ea. apply in_or_app. auto. }
    unfold define in Ec.
    destruct (all_some (map (fun b => option_map c_mro (find_class K_eqb env b)) (d_bases d))) as [mros|] eqn:Em; [|discriminate].
    destruct (merge _ _) as [l|] eqn:El'; [|discriminate]. destruct (exec_body _ _ _) as [ns|]; [|discriminate].
    injection Ec as <-.
    set (c := Class (d_name d) (d_name d :: l) ns) in *.
    apply all_some_spec in Em.
    assert (Hm : mros = map (order_of env) (d_bases d) /\ forall b, In b (d_bases d) -> In b (map c_name env)).
    { clear - Em K_eqb_spec. revert mros Em. induction (d_bases d) as [|b bs IHb]; intros [|m ms] E; simpl in E; try discriminate.
      { split; [reflexivity|contradiction]. }
      injection E as E1 E2. destruct (IHb _ E2) as [-> H2].
      destruct (find_class K_eqb env b) as [cb|] eqn:Eb; [|discriminate]. injection E1 as <-. split.
      - simpl. unfold Class_Model.order_of at 2. rewrite Eb. reflexivity.
      - intros b' [<-|Hb']; [apply find_class_in; eauto|auto]. }
    destruct Hm as [-> Hbases]. destruct (merge_spec _ _ _ El') as (Sub & Inl & Nod).
    assert (Base : forall b, In b (d_bases d) -> exists db, In db pre /\ d_name db = b).
    { intros b Hb. apply Hbases, En in Hb. apply in_map_iff in Hb as (db & E & Hdb). eauto. }
    assert (Gb : forall b, In b (d_bases d) -> (exists l', order_of env b = b :: l') /\ NoDup (order_of env b) /\
      (forall k, In k (order_of env b) <-> inherits all b k) /\ (forall k, In k (order_of env b) -> In k (map d_name pre)) /\
      (forall k, In k (order_of env b) -> keeps_order (order_of env k) (order_of env b))).
    { intros b Hb. destruct (Base b Hb) as (db & Hdb & <-). destruct (Hg db Hdb) as (g1 & g2 & g3 & g4 & g5 & g6). auto. }
    assert (Il : forall k, In k l <-> exists b, In b (d_bases d) /\ In k (order_of env b)).
    { intros k. rewrite Inl. split.
      - intros (l' & Hl' & Hk). apply in_app_or in Hl' as [Hl'|[<-|[]]].
        + apply in_map_iff in Hl' as (b & <- & Hb). eauto.
        + exists k. split; [exact Hk|]. destruct (Gb k Hk) as ((l' & ->) & _). left. reflexivity.
      - intros (b & Hb & Hk). exists (order_of env b). split; [apply in_or_app; left; apply in_map; exact Hb|exact Hk]. }
    assert (Fl : forall k, In k l -> In k (map d_name pre)).
    { intros k Hk. apply Il in Hk as (b & Hb & Hk). destruct (Gb b Hb) as (_ & _ & _ & H & _). auto. }
    assert (Oc : order_of (c :: env) (d_name d) = d_name d :: l).
    { unfold Class_Model.order_of. simpl. replace (K_eqb (d_name d) (d_name d)) with true; [reflexivity|].
      symmetry. apply K_eqb_spec. reflexivity. }
    assert (Ok : forall k, In k (map d_name pre) -> order_of (c :: env) k = order_of env k).
    { intros k Hk. apply order_of_skip. simpl. intros <-. exact (Fresh Hk). }
    intros d' Hd'. apply in_app_or in Hd' as [Hd'|[<-|[]]].
    + destruct (Hg d' Hd') as (g1 & g2 & g3 & g4 & g5 & g6). unfold good.
      rewrite (Ok (d_name d')) by (apply in_map; exact Hd'). repeat split; auto.
      * apply g3.
      * apply g3.
      * intros k Hk. rewrite map_app. apply in_or_app. auto.
      * intros k Hk. rewrite Ok; auto.
    + unfold good. rewrite Oc. split; [eauto|]. split; [|split; [|split; [|split]]].
      * constructor; [intros H; exact (Fresh (Fl _ H))|]. exact Nod.
      * intros k. rewrite (inherits_iff all d k Hn Hd). simpl. rewrite Il. split.
        -- intros [->|(b & Hb & Hk)]; [auto|]. right. exists b. split; [exact Hb|]. destruct (Gb b Hb) as (_ & _ & H & _). apply H. exact Hk.
        -- intros [->|(b & Hb & Hk)]; [auto|]. right. exists b. split; [exact Hb|]. destruct (Gb b Hb) as (_ & _ & H & _). apply H. exact Hk.
      * intros k [<-|Hk]; rewrite map_app; apply in_or_app; [right; left; reflexivity|left; auto].
      * apply keeps_skip. apply Sub. apply in_or_app. right. left. reflexivity.
      * intros k [<-|Hk]; [rewrite Oc; apply keeps_refl|]. rewrite (Ok k (Fl k Hk)). apply keeps_skip.
        apply Il in Hk as (b & Hb & Hk). apply (keeps_trans _ (order_of env b)).
        -- destruct (Gb b Hb) as (_ & _ & _ & _ & H). auto.
        -- apply Sub. apply in_or_app. left. apply in_map. exact Hb.
Qed.
End Mro.

(** In any hierarchy that can be defined at all, a class comes first in its resolution order, which lists each class it
    inherits from once, keeps the order in which the bases are written, and keeps the order of every class in it; so no
    class comes after one it inherits from. *)
Theorem C51_resolution_order : forall K (K_eqb : K -> K -> bool), (forall a b, K_eqb a b = true <-> a = b) ->
  forall (ds : list (@classdef K)) env, NoDup (map d_name ds) -> load K_eqb [] ds = Some env -> forall d, In d ds ->
  let order := order_of K_eqb env in
  (exists l, order (d_name d) = d_name d :: l) /\ NoDup (order (d_name d)) /\
  (forall k, In k (order (d_name d)) <-> inherits ds (d_name d) k) /\
  keeps_order (d_bases d) (order (d_name d)) /\
  (forall k, In k (order (d_name d)) -> keeps_order (order k) (order (d_name d))).
Proof.
  intros K K_eqb Heq ds env Hn Hl d Hd order.
  destruct (load_inv K K_eqb Heq ds Hn ds [] [] env eq_refl Hl (fun k => conj (fun H => H) (fun H => H))
    (fun d (H : In d []) => match H with end) d Hd) as (g1 & g2 & g3 & _ & g5 & g6).
  auto.
Qed.
Print Assumptions C51_resolution_order.

(** ** What a class statement binds *)
Lemma lookup_same ns m (f : @func cls) : lookup ((m, f) :: ns) m = Some f.
Proof. simpl. replace (name_eqb m m) with true; [reflexivity|]. symmetry. apply name_eqb_spec. reflexivity. Qed.
Section Alias.
Variables (K : Type).
Fixpoint binds (body : list stmt) (m : name) : bool :=
  match body with
  | [] => false
  | (Def m' _ | Alias m' _) :: body' => name_eqb m' m || binds body' m
  end.
Lemma exec_keeps (k : K) body : forall ns ns' m, exec_body k body ns = Some ns' -> binds body m = false -> lookup ns' m = lookup ns m.
Proof.
  induction body as [|[m' kd|m' t] body IH]; simpl; intros ns ns' m E B.
  - injection E as <-. reflexivity.
  - apply orb_false_iff in B as [B1 B2]. rewrite (IH _ _ _ E B2). simpl. rewrite B1. reflexivity.
  - apply orb_false_iff in B as [B1 B2]. destruct (lookup ns t) as [f|]; [|discriminate].
    rewrite (IH _ _ _ E B2). simpl. rewrite B1. reflexivity.
Qed.
Lemma exec_app (k : K) b1 : forall b2 ns ns', exec_body k (b1 ++ b2) ns = Some ns' ->
  exists ns1, exec_body k b1 ns = Some ns1 /\ exec_body k b2 ns1 = Some ns'.
Proof.
  induction b1 as [|[m kd|m t] b1 IH]; simpl; intros b2 ns ns' E; [eauto|apply IH; exact E|].
  destruct (lookup ns t); [apply IH; exact E|discriminate].
Qed.
End Alias.

(** An assignment [m = target] in a class body stores the function that [target] names in that body.  A subclass that
    redefines [target] does not change what [m] is. *)
Theorem C51_alias : forall K (K_eqb : K -> K -> bool), (forall a b, K_eqb a b = true <-> a = b) ->
  forall env (c : @class K) before calls middle m target rest,
  let body := before ++ Def target (Plain calls) :: middle ++ Alias m target :: rest in
  find_class K_eqb env (c_name c) = Some c ->
  exec_body (c_name c) body [] = Some (c_ns c) ->
  binds middle target = false -> binds rest m = false ->
  forall order order', (forall k ck, In k order -> find_class K_eqb env k = Some ck -> lookup (c_ns ck) m = None) ->
  resolve_in K_eqb env (order ++ c_name c :: order') m = Some (Func (c_name c) target (Plain calls)).
Proof.
  intros K K_eqb Heq env c before calls middle m target rest body Hf Hb Hm Hr order order' Hnone.
  assert (L : lookup (c_ns c) m = Some (Func (c_name c) target (Plain calls))).
  { unfold body in Hb. apply exec_app in Hb as (ns1 & _ & Hb). simpl in Hb. apply exec_app in Hb as (ns2 & H2 & Hb).
    simpl in Hb. rewrite (exec_keeps _ _ _ _ _ _ H2 Hm) in Hb. simpl in Hb.
    replace (name_eqb target target) with true in Hb by (symmetry; apply name_eqb_spec; reflexivity).
    rewrite (exec_keeps _ _ _ _ _ _ Hb Hr). simpl.
    replace (name_eqb m m) with true by (symmetry; apply name_eqb_spec; reflexivity). reflexivity. }
  induction order as [|k order IH]; simpl.
  - rewrite Hf, L. reflexivity.
  - destruct (find_class K_eqb env k) as [ck|] eqn:Ek.
    + rewrite (Hnone k ck (or_introl eq_refl) Ek). apply IH. intros k' ck' H. apply Hnone. right. exact H.
    + apply IH. intros k' ck' H. apply Hnone. right. exact H.
Qed.
Print Assumptions C51_alias.

(** ** Calls: the outcome of calling a method, as a relation *)
Section Calls.
Variables (K : Type) (K_eqb : K -> K -> bool) (env : @environment K) (k : K).
(** the function that [self.m] or [super().m] finds in a method defined in class [owner] *)
Definition callee (owner : K) (c : selfcall) : option (@func K) :=
  match c with CSelf m => resolve K_eqb env k m | CSuper m => resolve_super K_eqb env k owner m end.
Inductive outcome_of : option (@func K) -> outcome -> Prop :=
  | o_missing : outcome_of None AttributeErr
  | o_not_impl : forall o m, outcome_of (Some (Func o m NotImpl)) NotImplementedErr
  | o_abstract : forall o m, outcome_of (Some (Func o m Abstract)) Returns
  | o_plain : forall o m calls r, outcomes_of o calls r -> outcome_of (Some (Func o m (Plain calls))) r
with outcomes_of : K -> list selfcall -> outcome -> Prop :=
  | os_done : forall o, outcomes_of o [] Returns
  | os_next : forall o c calls r, outcome_of (callee o c) Returns -> outcomes_of o calls r -> outcomes_of o (c :: calls) r
  | os_raise : forall o c calls r, outcome_of (callee o c) r -> r <> Returns -> outcomes_of o (c :: calls) r.
Scheme outcome_mut := Induction for outcome_of Sort Prop
with outcomes_mut := Induction for outcomes_of Sort Prop.

(** At most one outcome. *)
Lemma outcome_unique f r : outcome_of f r -> forall r', outcome_of f r' -> r = r'.
Proof.
  intros H. induction H using outcome_mut with
    (P0 := fun o calls r (_ : outcomes_of o calls r) => forall r', outcomes_of o calls r' -> r = r').
  - intros r' H. inversion H. reflexivity.
  - intros r' H. inversion H. reflexivity.
  - intros r' H. inversion H. reflexivity.
  - intros r' H'. inversion H'; subst. auto.
  - intros r' H. inversion H. reflexivity.
  - intros r' H'. inversion H'; subst; [auto|]. exfalso.
    match goal with N : _ <> Returns |- _ => apply N; symmetry; auto end.
  - intros r' H'. inversion H'; subst; [|auto]. exfalso.
    match goal with N : _ <> Returns |- _ => apply N; auto end.
Qed.
(** The evaluator computes it. *)
Lemma call_sound : forall fuel f r, call K_eqb env fuel k f = Some r -> outcome_of f r.
Proof.
  induction fuel as [|fuel IH]; [discriminate|]. intros [[o m [calls| |]]|] r E; cbn [call] in E.
  - apply o_plain. revert r E. induction calls as [|[m'|m'] calls IHc]; intros r E.
    + injection E as <-. constructor.
    + destruct (call K_eqb env fuel k (resolve K_eqb env k m')) as [[]|] eqn:Ec; try discriminate.
      * injection E as <-. apply os_raise; [apply (IH _ _ Ec)|discriminate].
      * injection E as <-. apply os_raise; [apply (IH _ _ Ec)|discriminate].
      * apply os_next; [apply (IH _ _ Ec)|auto].
    + destruct (call K_eqb env fuel k (resolve_super K_eqb env k o m')) as [[]|] eqn:Ec; try discriminate.
      * injection E as <-. apply os_raise; [apply (IH _ _ Ec)|discriminate].
      * injection E as <-. apply os_raise; [apply (IH _ _ Ec)|discriminate].
      * apply os_next; [apply (IH _ _ Ec)|auto].
  - injection E as <-. constructor.
  - injection E as <-. constructor.
  - injection E as <-. constructor.
Qed.
(** [object.m(...)] for an object of class [k] *)
Definition calling (m : name) : outcome -> Prop := outcome_of (resolve K_eqb env k m).
End Calls.

(** ** The manifolds *)
(** src/pymanopt/manifolds/__init__.py, lines 1-26 *)
Definition public : list cls := [
  ComplexCircle; ComplexGrassmann; Elliptope; Euclidean; ComplexEuclidean; FixedRankEmbedded; Grassmann;
  HermitianPositiveDefinite; SpecialHermitianPositiveDefinite; Oblique; PSDFixedRank; PSDFixedRankComplex; PoincareBall;
  Positive; Product; SkewSymmetric; SpecialOrthogonalGroup; Sphere; SphereSubspaceComplementIntersection;
  SphereSubspaceIntersection; Stiefel; Symmetric; SymmetricPositiveDefinite; UnitaryGroup].
Lemma cls_dec (a b : cls) : {a = b} + {a <> b}. Proof. decide equality. Defined.
Lemma name_dec (a b : name) : {a = b} + {a <> b}. Proof. decide equality. Defined.

Lemma hierarchy_complete : NoDup (map d_name hierarchy) /\ forall c, In c (map d_name hierarchy).
Proof.
  split; [|intros c; simpl; destruct c; tauto].
  assert (E : nodup cls_dec (map d_name hierarchy) = map d_name hierarchy) by reflexivity.
  rewrite <- E. apply NoDup_nodup.
Qed.

Definition pym : @environment cls := Eval vm_compute in match load cls_eqb [] hierarchy with Some env => env | None => [] end.
Lemma load_pym : load cls_eqb [] hierarchy = Some pym. Proof. reflexivity. Qed.
Lemma env_pym env : load cls_eqb [] hierarchy = Some env -> env = pym.
Proof. rewrite load_pym. intros E. injection E as <-. reflexivity. Qed.
(** The class statements can be executed: a single environment, with every class in it. *)
Theorem C51_loads : exists! env, load cls_eqb [] hierarchy = Some env.
Proof. exists pym. split; [apply load_pym|]. intros env' E. symmetry. apply env_pym. exact E. Qed.
Print Assumptions C51_loads.

(** Which manifolds take the exponential map from the retraction, and which check the tangent space with the projection. *)
Section Env.
Variable env : @environment cls.
Hypothesis loaded : load cls_eqb [] hierarchy = Some env.
Local Notation resolve := (resolve cls_eqb env).
Local Notation calling c m := (calling cls cls_eqb env c m).
Ltac get_env := rewrite (env_pym env loaded) in *.

(** These classes override the projection and inherit a [to_tangent_space] that is the projection of a parent. *)
Definition stale : list cls := [Symmetric; SkewSymmetric; SphereSubspaceIntersection; SphereSubspaceComplementIntersection;
  SpecialHermitianPositiveDefinite].
(** These define [to_tangent_space] themselves. *)
Definition separate : list cls := [FixedRankEmbedded; Grassmann; ComplexGrassmann; SpecialOrthogonalGroup; UnitaryGroup; Product].

Theorem C51_to_tangent_space c : In c public ->
  (In c separate \/ (resolve c to_tangent_space = resolve c projection <-> ~ In c stale)) /\
  (In c separate -> exists f, resolve c to_tangent_space = Some f /\ f_def f = to_tangent_space /\ f_class f <> Manifold).
Proof.
  intros H. get_env.
  do 24 (destruct H as [<-|H]; [split;
    [first [solve [left; simpl; tauto]|right; split;
      [let E := fresh in intros E; vm_compute in E; first [discriminate E|simpl; intuition discriminate]
      |let N := fresh in intros N; first [reflexivity|exfalso; apply N; simpl; tauto]]]
    |let S := fresh in intros S; simpl in S;
      first [solve [exfalso; intuition discriminate]|eexists; split; [reflexivity|split; [reflexivity|discriminate]]]]|]).
  destruct H.
Qed.
Print Assumptions C51_to_tangent_space.

(** The claim that the two agree unless [to_tangent_space] is defined separately is violated: the method of a parent is
    called instead. *)
Theorem C51_to_tangent_space_refuted :
  (forall c, In c stale -> In c public) /\
  resolve Symmetric to_tangent_space = resolve Euclidean_ projection /\
  resolve SkewSymmetric to_tangent_space = resolve Euclidean_ projection /\
  resolve SphereSubspaceIntersection to_tangent_space = resolve SphereBase_ projection /\
  resolve SphereSubspaceComplementIntersection to_tangent_space = resolve SphereBase_ projection /\
  resolve SpecialHermitianPositiveDefinite to_tangent_space = resolve PositiveDefiniteBase_ projection /\
  (forall c, In c stale -> resolve c to_tangent_space <> resolve c projection).
Proof.
  get_env. split; [intros c; simpl; tauto|]. do 5 (split; [reflexivity|]).
  intros c H. repeat (destruct H as [<-|H]; [vm_compute; discriminate|]). destruct H.
Qed.
Print Assumptions C51_to_tangent_space_refuted.

(** Elliptope is declared to use the retraction as exponential map, but [Manifold] comes first in its bases. *)
Theorem C51_elliptope_refuted :
  inherits hierarchy Elliptope RetrAsExpMixin /\ calling Elliptope exp NotImplementedErr /\
  calling Elliptope retraction Returns /\
  (forall c, In c public -> inherits hierarchy c RetrAsExpMixin -> c = Elliptope).
Proof.
  split; [|split; [|split]].
  - destruct hierarchy_complete as [Hn _].
    apply (C51_resolution_order cls cls_eqb cls_eqb_spec hierarchy env Hn loaded
      (ClassDef Elliptope [Manifold; RetrAsExpMixin] (d_body (nth 27 hierarchy (ClassDef Manifold [] []))))); [simpl; tauto|].
    get_env. simpl. tauto.
  - get_env. apply (call_sound _ _ _ _ 8). vm_compute. reflexivity.
  - get_env. apply (call_sound _ _ _ _ 8). vm_compute. reflexivity.
  - intros c Hc Hi. destruct hierarchy_complete as [Hn Hall].
    assert (Hd : In c (map d_name hierarchy)) by apply Hall. apply in_map_iff in Hd as (d & <- & Hd).
    apply (C51_resolution_order cls cls_eqb cls_eqb_spec hierarchy env Hn loaded d Hd) in Hi.
    get_env. clear - Hi Hc. revert Hi Hc. destruct (d_name d); simpl; intuition discriminate.
Qed.
Print Assumptions C51_elliptope_refuted.

(** Objects of every public class can be created; of the base classes, not of those that leave methods abstract. *)
Theorem C51_instantiable c : instantiable cls_eqb env c <-> ~ In c [Manifold; RiemannianSubmanifold; GrassmannBase_; UnitaryBase_].
Proof.
  get_env. split.
  - intros H [<-|[<-|[<-|[<-|[]]]]].
    + exact (H norm _ eq_refl eq_refl).
    + exact (H norm _ eq_refl eq_refl).
    + exact (H inner_product _ eq_refl eq_refl).
    + exact (H random_point _ eq_refl eq_refl).
  - intros H m f E. destruct c; try (exfalso; apply H; simpl; tauto); destruct m; vm_compute in E;
      try discriminate E; injection E as <-; discriminate.
Qed.
Print Assumptions C51_instantiable.

(** Which methods of the manifold interface raise [NotImplementedError]; all others run to the end. *)
Definition missing (c : cls) : list name :=
  match c with
  | ComplexGrassmann | Grassmann | HermitianPositiveDefinite | SymmetricPositiveDefinite
  | PSDFixedRank | PSDFixedRankComplex | Positive => [pair_mean]
  | SpecialHermitianPositiveDefinite => [euclidean_to_riemannian_hessian; pair_mean]
  | FixedRankEmbedded => [dist; euclidean_to_riemannian_hessian; exp; log; pair_mean]
  | Elliptope => [dist; exp; log; pair_mean]
  | Stiefel => [dist; log; pair_mean]
  | PoincareBall => [transport]
  | _ => []
  end.
Definition all_names : list name := [typical_dist; inner_product; projection; norm; random_point; random_tangent_vector; zero_vector;
  dist; euclidean_to_riemannian_gradient; euclidean_to_riemannian_hessian; retraction; exp; log; transport; pair_mean;
  to_tangent_space; embedding].
Theorem C51_methods c m : In c public -> m <> weingarten ->
  (In m (missing c) -> calling c m NotImplementedErr) /\ (~ In m (missing c) -> calling c m Returns).
Proof.
  intros H W. get_env.
  assert (E : forallb (fun c => forallb (fun m => match call cls_eqb pym 8 c (Class_Model.resolve cls_eqb pym c m) with
      | Some NotImplementedErr => existsb (name_eqb m) (missing c)
      | Some Returns => negb (existsb (name_eqb m) (missing c))
      | _ => false end) (all_names)) public = true) by (vm_compute; reflexivity).
  rewrite forallb_forall in E. specialize (E c H). rewrite forallb_forall in E.
  assert (Hm : In m all_names) by (destruct m; try (contradiction W; reflexivity); simpl; tauto).
  specialize (E m Hm).
  assert (X : existsb (name_eqb m) (missing c) = true <-> In m (missing c)).
  { rewrite existsb_exists. split; [intros (x & Hx & Ex); apply name_eqb_spec in Ex as ->; exact Hx|].
    intros Hx. exists m. split; [exact Hx|apply name_eqb_spec; reflexivity]. }
  destruct (call cls_eqb pym 8 c (Class_Model.resolve cls_eqb pym c m)) as [[]|] eqn:Ec; try discriminate E; split; intros Hi.
  - apply (call_sound _ _ _ _ 8). exact Ec.
  - exfalso. apply Hi, X. exact E.
  - exfalso. apply X in Hi. rewrite Hi in E. discriminate E.
  - apply (call_sound _ _ _ _ 8). exact Ec.
Qed.
Print Assumptions C51_methods.

(** ** C92: an optimizer can run on a manifold when the methods it calls are there *)
Definition unsupported (o : optimizer) : list cls :=
  match o with
  | SteepestDescent => []
  | ConjugateGradient => [PoincareBall]
  | TrustRegions => [FixedRankEmbedded; SpecialHermitianPositiveDefinite]
  | NelderMead => [ComplexGrassmann; Grassmann; Elliptope; FixedRankEmbedded; HermitianPositiveDefinite;
      SymmetricPositiveDefinite; SpecialHermitianPositiveDefinite; PSDFixedRank; PSDFixedRankComplex; Positive; Stiefel]
  | ParticleSwarm => [Elliptope; FixedRankEmbedded; PoincareBall; Stiefel]
  end.
Theorem C92_supported o c : In c public ->
  ((forall m, In m (uses o) -> calling c m Returns) <-> ~ In c (unsupported o)) /\
  (In c (unsupported o) -> exists m, In m (uses o) /\ calling c m NotImplementedErr).
Proof.
  intros Hc.
  assert (D : forall m, In m (uses o) -> In m (missing c) -> calling c m NotImplementedErr).
  { intros m Hm Hi. apply (C51_methods c m); auto. intros ->. destruct o; simpl in Hm; intuition discriminate. }
  assert (M : forall (b : bool) l (P : Prop), existsb (fun m => existsb (name_eqb m) (missing c)) l = b ->
    (P <-> b = true) -> (P <-> exists m, In m l /\ In m (missing c))).
  { intros b l P <- HP. rewrite HP, existsb_exists. split; intros (m & Hm & Hi); exists m; split; try exact Hm.
    - apply existsb_exists in Hi as (x & Hx & Ex). apply name_eqb_spec in Ex as ->. exact Hx.
    - apply existsb_exists. exists m. split; [exact Hi|apply name_eqb_spec; reflexivity]. }
  assert (U : In c (unsupported o) <-> exists m, In m (uses o) /\ In m (missing c)).
  { apply (M (existsb (cls_eqb c) (unsupported o))).
    - clear. destruct o, c; reflexivity.
    - rewrite existsb_exists. split; [|intros (x & Hx & Ex); apply cls_eqb_spec in Ex as ->; exact Hx].
      intros Hx. exists c. split; [exact Hx|apply cls_eqb_spec; reflexivity]. }
  clear M.
  split.
  - split.
    + intros H Hu. apply U in Hu as (m & Hm & Hi).
      pose proof (outcome_unique _ _ _ _ _ _ (H m Hm) _ (D m Hm Hi)) as E. discriminate E.
    + intros Hu m Hm. apply (C51_methods c m); auto; [intros ->; destruct o; simpl in Hm; intuition discriminate|].
      intros Hi. apply Hu, U. eauto.
  - intros Hu. apply U in Hu as (m & Hm & Hi). eauto.
Qed.
Print Assumptions C92_supported.
(** Not every optimizer can run on every manifold: there is no transport on the Poincare ball. *)
Theorem C92_poincare_refuted : calling PoincareBall transport NotImplementedErr /\
  In transport (uses ConjugateGradient) /\ In transport (uses ParticleSwarm).
Proof.
  split; [apply C51_methods; [simpl; tauto|discriminate|simpl; tauto]|]. simpl. tauto.
Qed.
Print Assumptions C92_poincare_refuted.
(** ** C96: the check of retractions needs the exponential map, the retraction and the distance *)
(** Stiefel is the one public class with the first two and without the third. *)
Theorem C96_no_distance c : In c public ->
  (calling c exp Returns /\ calling c retraction Returns /\ calling c dist NotImplementedErr <-> c = Stiefel).
Proof.
  intros Hc. split.
  - intros (H1 & _ & H3).
    assert (D : In dist (missing c)).
    { destruct (in_dec (fun a b => Bool.reflect_dec _ _ (Bool.iff_reflect _ _ (iff_sym (name_eqb_spec a b)))) dist (missing c)) as [|N]; auto.
      pose proof (proj2 (C51_methods c dist Hc ltac:(discriminate)) N) as X.
      pose proof (outcome_unique _ _ _ _ _ _ X _ H3). discriminate. }
    assert (E : ~ In exp (missing c)).
    { intros Hi. pose proof (proj1 (C51_methods c exp Hc ltac:(discriminate)) Hi) as X.
      pose proof (outcome_unique _ _ _ _ _ _ X _ H1). discriminate. }
    clear -D E. destruct c; simpl in *; intuition discriminate.
  - intros ->. repeat split; apply C51_methods; auto; simpl; try discriminate; intuition discriminate.
Qed.
Print Assumptions C96_no_distance.
End Env.
