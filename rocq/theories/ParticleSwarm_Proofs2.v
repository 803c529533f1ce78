(** Particle swarm: positions and velocities over whole runs. *)
From Coq Require Import ZArith List Bool Lia.
From Verif Require Import Num_Model Num_Spec Num_Proofs LineSearch_Model Optimizer_Model Optimizer_Spec
  Optimizer_Proofs ParticleSwarm_Model ParticleSwarm_Spec ParticleSwarm_Proofs.
Import ListNotations.

Section PS.
Context {N : NumOps} {M : Mfd N}.
Variables (cost : pt M -> N) (o : ps_obj N) (sp : stop_params N) (clock : nat -> N) (uniform : nat -> N) (is_list : bool).
Notation velocity := (new_velocity (M:=M) (ps_nostalgia o) (ps_social o) uniform).

Lemma ps_velocities_nth w xb : forall xs ys ps vs k i x y p v,
  nth_error xs i = Some x -> nth_error ys i = Some y -> nth_error ps i = Some p -> nth_error vs i = Some v ->
  nth_error (ps_velocities (M:=M) o uniform w xb xs ys ps vs k) i = Some (velocity w x p y xb v (k + 2 * i)).
Proof.
  induction xs as [|a xs IH]; intros [|b ys] [|c ps] [|d vs] k [|i] x y p v H1 H2 H3 H4; try discriminate; cbn [ps_velocities nth_error] in *.
  - injection H1 as ->. injection H2 as ->. injection H3 as ->. injection H4 as ->.
    replace (k + 2 * 0) with k by lia. reflexivity.
  - rewrite (IH _ _ _ (S (S k)) i x y p v) by auto. f_equal. f_equal. lia.
Qed.

Lemma ps_update_nth : forall xs vs ys fys xb fb i x v y fy,
  nth_error xs i = Some x -> nth_error vs i = Some v -> nth_error ys i = Some y -> nth_error fys i = Some fy ->
  let '(xs', ys', fys', _, _) := ps_update cost xs vs ys fys xb fb in
  nth_error xs' i = Some (m_retr M x v) /\
  nth_error ys' i = Some (if nlt N (cost x) fy then x else y).
Proof.
  induction xs as [|a xs IH]; intros [|b vs] [|c ys] [|d fys] xb fb [|i] x v y fy H1 H2 H3 H4; try discriminate; cbn [ps_update nth_error] in *.
  - injection H1 as ->. injection H2 as ->. injection H3 as ->. injection H4 as ->. cbv zeta.
    destruct (nlt N (cost x) fy); destruct (ps_update _ _ _ _ _ _ _) as [[[[? ?] ?] ?] ?]; auto.
  - cbv zeta. destruct (nlt N (cost a) d);
      match goal with |- context [ps_update cost xs vs ys fys ?u ?w] => specialize (IH vs ys fys u w i x v y fy H1 H2 H3 H4);
        destruct (ps_update cost xs vs ys fys u w) as [[[[? ?] ?] ?] ?] end; auto.
Qed.

Variables (rtv : nat -> pt M -> tv M) (x0 : list (pt M)).

(** Positions before iteration [t]. *)
Definition before (tr : list (swarm M)) (t : nat) : option (list (pt M)) :=
  match t with O => Some x0 | S t' => option_map sw_x (nth_error tr t') end.

Definition step_rule (V : nat -> list (tv M)) (tr : list (swarm M)) (t : nat) (sw' : swarm M) : Prop :=
  forall sw prev, nth_error tr t = Some sw -> before tr t = Some prev ->
  exists w, inertia_weight (Z.of_nat (S t)) (max_iterations sp) w /\
  forall i x, nth_error (sw_x sw) i = Some x ->
    exists p y v v', nth_error prev i = Some p /\ nth_error (sw_y sw) i = Some y /\ nth_error (V t) i = Some v /\
      nth_error (V (S t)) i = Some v' /\
      v' = velocity w x p y (sw_xbest sw) v (2 * (t * length x0 + i)) /\
      nth_error (sw_x sw') i = Some (m_retr M x v') /\
      nth_error (sw_y sw') i = Some (if nlt N (cost x) (cost y) then x else y).

Definition motion (V : nat -> list (tv M)) (tr : list (swarm M)) : Prop :=
  forall t sw', nth_error tr (S t) = Some sw' -> step_rule V tr t sw'.

Definition init_v := map (fun p => rtv (fst p) (snd p)) (combine (seq 0 (length x0)) x0).

Record mo_inv (s : ps_state M) : Prop := {
  mo_x : length (sw_x (p_swarm s)) = length x0;
  mo_y : length (sw_y (p_swarm s)) = length x0;
  mo_fy : sw_fy (p_swarm s) = map cost (sw_y (p_swarm s));
  mo_fb : sw_fbest (p_swarm s) = cost (sw_xbest (p_swarm s));
  mo_p : length (p_xprev s) = length x0;
  mo_v : length (p_v s) = length x0;
  mo_it : p_iteration s = Z.of_nat (length (p_trace s));
  mo_draws : p_draws s = 2 * (length (p_trace s) * length x0);
  mo_prev : before (p_trace s) (length (p_trace s)) = Some (p_xprev s);
  mo_V : exists V, V 0 = init_v /\ V (length (p_trace s)) = p_v s /\ motion V (p_trace s ++ [p_swarm s]) }.

Lemma nth_some {A} (l : list A) i : i < length l -> exists a, nth_error l i = Some a.
Proof. intros H. destruct (nth_error l i) eqn:E; eauto. apply nth_error_None in E. lia. Qed.
Lemma before_app tr sw t : t <= length tr -> before (tr ++ [sw]) t = before tr t.
Proof. destruct t; intros H; simpl; auto. rewrite nth_error_app1 by lia. reflexivity. Qed.

Hypothesis L : OrderLaws N.

Lemma mo_step st s s' : mo_inv s -> ps_body cost o sp clock uniform is_list st s = Ok (Continue s') -> mo_inv s'.
Proof.
  intros [X Y FY FB P VV IT DR PV (V & V0 & V1 & MO)] E. unfold ps_body in E. cbv zeta in E.
  destruct (ps_check _ _ _ _ _ _ _) as [[r|] tick]; [discriminate|].
  apply bind_ok in E as (q & Q & E). destruct is_list; [|discriminate].
  set (sw := p_swarm s) in *. set (n := length (p_trace s)) in *.
  match type of E with context [ps_update cost _ ?v _ _ _ _] => set (v' := v) in * end.
  destruct (ps_update cost (sw_x sw) v' (sw_y sw) (sw_fy sw) (sw_xbest sw) (sw_fbest sw)) as [[[[x1 y1] f1] b1] fb1] eqn:U.
  injection E as <-.
  assert (LV : length v' = length x0) by (unfold v'; rewrite ps_velocities_length; lia).
  pose proof (ps_update_ok L cost (sw_x sw) v' (sw_y sw) (sw_xbest sw) ltac:(lia) ltac:(lia)) as UO.
  rewrite <- FY, <- FB, U in UO. destruct UO as (A1 & A2 & A3 & A4 & _).
  assert (LT : length (p_trace s ++ [sw]) = S n) by (rewrite app_length; simpl; unfold n; lia).
  constructor; cbn [p_swarm p_xprev p_v p_iteration p_draws p_trace sw_x sw_y sw_fy sw_fbest sw_xbest]; auto; try congruence; try lia.
  - rewrite LT. unfold before. rewrite nth_error_app2, Nat.sub_diag by (unfold n; lia). reflexivity.
  - exists (fun t => if Nat.eqb t (S n) then v' else V t).
    rewrite LT. split; [destruct n; simpl; auto|]. split; [rewrite Nat.eqb_refl; auto|].
    intros t sw' Ht sw1 prev H1 H2.
    destruct (Nat.lt_ge_cases (S t) (S n)) as [LTt|GE].
    + rewrite nth_error_app1 in Ht, H1 by lia. rewrite before_app in H2 by lia.
      destruct (MO t sw' Ht sw1 prev H1 H2) as (w & W & K). exists w. split; auto.
      intros i x Hi. destruct (Nat.eqb_spec t (S n)); [lia|]. destruct (Nat.eqb_spec (S t) (S n)); [lia|].
      apply K; auto.
    + assert (t = n) as ->.
      { assert (S t < length ((p_trace s ++ [sw]) ++ [mkSwarm x1 y1 f1 b1 fb1 (sw_calls sw ++ sw_x sw)])) by (apply nth_error_Some; congruence).
        rewrite app_length, LT in H. simpl in H. lia. }
      rewrite nth_error_app2, LT, Nat.sub_diag in Ht by lia. injection Ht as <-.
      rewrite nth_error_app1 in H1 by lia. rewrite nth_error_app2, Nat.sub_diag in H1 by (unfold n; lia).
      injection H1 as <-. rewrite before_app in H2 by lia. rewrite before_app in H2 by (unfold n; lia).
      fold n in PV. rewrite PV in H2. injection H2 as <-.
      rewrite IT in Q. replace (Z.of_nat n + 1)%Z with (Z.of_nat (S n)) in Q by lia.
      eexists. split; [exists q; split; [exact Q|reflexivity]|].
      intros i x Hi.
      assert (Li : i < length x0) by (rewrite <- X; apply nth_error_Some; congruence).
      destruct (nth_some (p_xprev s) i ltac:(lia)) as [p Hp].
      destruct (nth_some (sw_y sw) i ltac:(lia)) as [y Hy].
      destruct (nth_some (p_v s) i ltac:(lia)) as [vi Hv].
      exists p, y, vi.
      destruct (Nat.eqb_spec n (S n)); [lia|]. rewrite Nat.eqb_refl, V1.
      pose proof (ps_velocities_nth (nadd N (lit 4 10) (nmul N (lit 5 10) (nsub N (n_of_Z N 1) q))) (sw_xbest sw)
        (sw_x sw) (sw_y sw) (p_xprev s) (p_v s) (p_draws s) i x y p vi Hi Hy Hp Hv) as HV.
      eexists. split; [exact Hp|]. split; [exact Hy|]. split; [exact Hv|]. split; [exact HV|].
      split; [rewrite DR; f_equal; fold n; lia|].
      pose proof (ps_update_nth (sw_x sw) v' (sw_y sw) (sw_fy sw) (sw_xbest sw) (sw_fbest sw) i x _ y (cost y)
        Hi HV Hy) as UN. rewrite U in UN. apply UN. rewrite FY. apply map_nth_error. auto.
Qed.

Lemma ps_loop_motion r tr : ps_loop cost o sp clock uniform is_list rtv x0 = Ok (r, tr) ->
  exists V, V 0 = init_v /\ motion V tr.
Proof.
  unfold ps_loop. fold init_v. intros E.
  destruct (combine x0 (map cost x0)) as [|c t] eqn:EC; [discriminate|].
  destruct (argmin_from c t) as [xb fb] eqn:EA.
  apply bind_ok in E as (u & _ & E).
  refine (loop_inv _ mo_inv (fun '(_, tr) => exists V, V 0 = init_v /\ motion V tr) _ _ _ _ (r, tr) _ E).
  - intros s s' I Hb. eapply mo_step; eauto.
  - intros s [r' tr'] [X Y FY FB P VV IT DR PV (V & V0 & V1 & MO)] Hb. unfold ps_body in Hb. cbv zeta in Hb.
    destruct (ps_check _ _ _ _ _ _ _) as [[rs|] tick].
    + injection Hb as _ <-. eauto.
    + apply bind_ok in Hb as (q & _ & Hb). destruct is_list; [|discriminate].
      destruct (ps_update _ _ _ _ _ _ _) as [[[[? ?] ?] ?] ?]; discriminate.
  - assert (FBE : fb = cost xb).
    { pose proof (argmin_in c t) as I. rewrite EA, <- EC in I.
      clear -I. induction x0 as [|a l IH]; simpl in I; [contradiction|]. destruct I as [I|I]; [congruence|auto]. }
    constructor; simpl; auto.
    + unfold init_v. rewrite map_length, combine_length, seq_length. lia.
    + exists (fun _ => init_v). repeat split; auto. intros t' sw' H. destruct t'; discriminate.
Qed.
End PS.
