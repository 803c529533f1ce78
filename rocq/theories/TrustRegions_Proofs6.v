(** Termination of trust regions with random initial guesses in the inner solver. *)
From Coq Require Import ZArith List Bool Reals Lra Lia Psatz SpecFloat.
From Verif Require Import Num_Model Num_Spec Num_Instances Num_Proofs LineSearch_Model Optimizer_Model Optimizer_Spec
  Optimizer_Proofs Optimizer_Proofs2 TrustRegions_Model TrustRegions_Spec TrustRegions_Proofs TrustRegions_Proofs2
  TrustRegions_Proofs3 TrustRegions_Proofs4.
Import ListNotations.
Local Open Scope R_scope.

Lemma loop_more {S R} (body : S -> res (step_out S R)) f s r : loop body f s = Ok r ->
  forall f', (f <= f')%nat -> loop body f' s = Ok r.
Proof.
  revert s. induction f as [|f IH]; intros s E f' H; [discriminate|].
  destruct f' as [|f']; [lia|]. simpl in *.
  destruct (body s) as [[s'|r']|e]; simpl in *; auto. apply IH; auto. lia.
Qed.

(** A family of loop bodies that settles, state by state, on an outcome other than running out
    of fuel: the whole loop does. *)
Lemma loop_settles {S R} (body : nat -> S -> res (step_out S R)) (I : S -> Prop) (m : S -> nat) :
  (forall s, I s -> exists B o, o <> Raise OutOfFuel /\
     (forall k, (B <= k)%nat -> body k s = o) /\
     (forall s', o = Ok (Continue s') -> I s' /\ (m s' < m s)%nat)) ->
  forall fuel s, I s -> (m s < fuel)%nat ->
  exists B o, o <> Raise OutOfFuel /\ forall k, (B <= k)%nat -> loop (body k) fuel s = o.
Proof.
  intros H; induction fuel as [|n IH]; intros s Is Hm; [lia|].
  destruct (H s Is) as (B & o & Ho & Hk & Hc).
  destruct o as [[s'|r]|e].
  - destruct (Hc s' eq_refl) as [Is' Hm']. destruct (IH s' Is') as (B' & o' & Ho' & Hk'); [lia|].
    exists (Nat.max B B'), o'. split; auto. intros k Hkk. simpl. rewrite Hk by lia. simpl. apply Hk'. lia.
  - exists B, (Ok r). split; [discriminate|]. intros k Hkk. simpl. rewrite Hk by lia. reflexivity.
  - exists B, (Raise e). split; [congruence|]. intros k Hkk. simpl. rewrite Hk by lia. reflexivity.
Qed.

Section Rand.
Context {M : Mfd Rnum} (prob : OptProblem M) (tp : tr_params Rnum) (sp : stop_params Rnum) (clock : nat -> Rnum).
Variable (L : OrderLaws Rnum).
Hypothesis norm_scale : forall x (a : R) v, 0 <= a -> m_norm M x (t_scale M a v) = a * m_norm M x v :> R.

Lemma tr_body_settles mi ma (bar : R) draws t0 (s : tr_state M) : 0 < bar -> 0 < (s_Delta s : R) ->
  exists B o, o <> Raise OutOfFuel /\
    (forall sf, (B <= sf)%nat -> tr_body prob tp sp clock mi ma bar draws sf t0 s = o) /\
    (forall s', o = Ok (Continue s') -> 0 < (s_Delta s' : R)).
Proof.
  intros Hb HD.
  assert (S : exists B eta, forall sf, (B <= sf)%nat ->
    (if tr_use_rand tp then tr_shrink sf (s_x s) (draws (s_iteration s + 1)%Z (s_x s)) (s_Delta s)
     else Ok (m_zero M (s_x s))) = Ok eta).
  { destruct (tr_use_rand tp).
    - destruct (shrink_ends M (s_x s) (draws (s_iteration s + 1)%Z (s_x s)) (s_Delta s) HD (norm_scale (s_x s)))
        as [B HB].
      destruct (HB B (Nat.le_refl B)) as (eta & E & _). exists B, eta. intros sf H.
      eapply loop_more; eauto.
    - exists O, (m_zero M (s_x s)). auto. }
  destruct S as (B & eta & HS). exists B.
  exists (tr_body prob tp sp clock mi ma bar draws B t0 s).
  assert (K : forall sf, (B <= sf)%nat ->
    tr_body prob tp sp clock mi ma bar draws sf t0 s = tr_body prob tp sp clock mi ma bar draws B t0 s).
  { intros sf H. unfold tr_body. cbv zeta. rewrite (HS sf H), (HS B (Nat.le_refl B)). reflexivity. }
  split; [|split; [exact K|]].
  - intros E. unfold tr_body in E. cbv zeta in E. rewrite (HS B (Nat.le_refl B)) in E. cbn [bind] in E.
    match type of E with bind ?a _ = _ => destruct a as [[[[? ?] ?] ?]|] eqn:Et end; cbn [bind] in E.
    2: { injection E as ->. eapply tcg_fuel; eauto. }
    match type of E with bind ?a _ = _ => destruct a as [[[? ?] ?]|] eqn:Ec end; cbn [bind] in E.
    2: { injection E as ->. destruct (tr_use_rand tp); [|discriminate].
         unfold tr_cauchy in Ec. cbv zeta in Ec.
         match type of Ec with bind ?a _ = _ => destruct a as [?|] eqn:E1 end; cbn [bind] in Ec.
         - match type of Ec with bind ?a _ = _ => destruct a as [?|] eqn:E2 end; cbn [bind] in Ec.
           + destruct (nlt _ _ _); discriminate.
           + injection Ec as ->. eapply (ndiv_fuel L); eauto.
         - injection Ec as ->. destruct (nle _ _ _); [discriminate|].
           match type of E1 with bind ?a _ = _ => destruct a as [?|] eqn:E3 end; cbn [bind] in E1; [discriminate|].
           injection E1 as ->. eapply (ndiv_fuel L); eauto. }
    match type of E with bind (match ndiv _ ?a ?b with _ => _ end) _ = _ => destruct (ndiv _ a b) as [|e] eqn:En end; cbn [bind] in E.
    + match type of E with bind ?a _ = _ => destruct a eqn:Ed2 end; cbn [bind] in E.
      * destruct (check_stopping _ _ _ _ _ _ _ _); discriminate.
      * injection E as ->. destruct (_ || _); [eapply (ndiv_fuel L); eauto|]. destruct (_ && _); discriminate.
    + apply (div_exn Rnum L) in En as K1. subst e. cbn [bind] in E.
      match type of E with bind ?a _ = _ => destruct a eqn:Ed2 end; cbn [bind] in E.
      * destruct (check_stopping _ _ _ _ _ _ _ _); discriminate.
      * injection E as ->. destruct (_ || _); [eapply (ndiv_fuel L); eauto|]. destruct (_ && _); discriminate.
  - intros s' E. unfold tr_body in E. cbv zeta in E.
    repeat match type of E with
    | bind ?a _ = Ok _ => let H := fresh "Q" in apply bind_ok in E as (? & H & E)
    | (let '(_, _) := ?a in _) = _ => destruct a
    end.
    destruct (check_stopping _ _ _ _ _ _ _ _) in E; [discriminate|]. injection E as <-. cbn [s_Delta].
    match goal with H : (if _ || _ then _ else _) = Ok ?d |- 0 < ?d => rename H into Qd end.
    destruct (_ || _) in Qd.
    + simpl in Qd. apply Rdiv_ok in Qd as [_ ->]. simpl in *. lra.
    + destruct (_ && _) in Qd; injection Qd as <-; [|exact HD].
      unfold pymin. destruct (nlt _ _ _); [exact Hb|]. simpl. lra.
Qed.

Lemma tr_run_rand_fuel x0 mi ma (bar d0 : option R) draws :
  match bar with
  | Some d => 0 < d
  | None => match m_typical_dist M with
            | Ok d => 0 < (d : R)
            | Raise NotImplementedError => (0 < m_dim M)%Z
            | Raise e => e <> OutOfFuel
            end
  end ->
  match d0 with Some d => 0 < d | None => True end ->
  exists B o, o <> Raise OutOfFuel /\
    forall sf, (B <= sf)%nat -> tr_run prob tp sp clock x0 mi ma bar d0 draws sf = o.
Proof.
  intros Hbar Hd0.
  set (rb := match bar with
    | Some d => Ok d
    | None => match m_typical_dist M with
              | Ok d => Ok d
              | Raise NotImplementedError => Ok (nsqrt Rnum (n_of_Z Rnum (m_dim M)))
              | Raise e => Raise e
              end
    end : res Rnum).
  assert (Hrb : match rb with Ok b => 0 < (b : R) | Raise e => e <> OutOfFuel end).
  { unfold rb. destruct bar; [exact Hbar|]. destruct (m_typical_dist M) as [d|e]; [exact Hbar|].
    destruct e; try exact Hbar. simpl. apply sqrt_lt_R0, IZR_lt, Hbar. }
  set (rd := fun b : Rnum => match d0 with Some d => Ok d | None => ndiv Rnum b (n_of_Z Rnum 8) end : res Rnum).
  assert (Hrd : forall b : Rnum, 0 < (b : R) -> match rd b with Ok b => 0 < (b : R) | Raise e => e <> OutOfFuel end).
  { intros b Hb. unfold rd. destruct d0 as [d|]; [exact Hd0|].
    destruct (ndiv Rnum b (n_of_Z Rnum 8)) as [q|e] eqn:E.
    - simpl in E. apply Rdiv_ok in E as [_ ->]. simpl in *. lra.
    - intros ->. eapply (ndiv_fuel L); eauto. }
  destruct rb as [b|e] eqn:Eb.
  2: { exists O, (Raise e). split; [congruence|]. intros sf _. unfold tr_run. cbv zeta.
       change (match bar with Some _ => _ | None => _ end) with rb. rewrite Eb. reflexivity. }
  destruct (rd b) as [d|e] eqn:Ed.
  2: { specialize (Hrd b Hrb). rewrite Ed in Hrd. exists O, (Raise e). split; [congruence|].
       intros sf _. unfold tr_run. cbv zeta.
       change (match bar with Some _ => _ | None => _ end) with rb. rewrite Eb. cbn [bind].
       change (match d0 with Some _ => _ | None => _ end) with (rd b). rewrite Ed. reflexivity. }
  specialize (Hrd b Hrb). rewrite Ed in Hrd.
  destruct (loop_settles (fun sf => tr_body prob tp sp clock mi (match ma with None => m_dim M | Some m => m end)
       b draws sf (clock 0%nat))
     (fun s => 0 < (s_Delta s : R) /\ (0 <= s_iteration s)%Z) (fun s => Z.to_nat (max_iterations sp - s_iteration s)))
    with (fuel := iter_fuel sp) (s := mkTrState x0 (p_cost prob x0) (p_grad prob x0) (m_norm M x0 (p_grad prob x0)) d 0 1 [])
    as (B & o & Ho & HB).
  - intros s [Hs Hi]. destruct (tr_body_settles mi (match ma with None => m_dim M | Some m => m end) b draws (clock 0%nat) s Hrb Hs) as (B & o & Ho & HB & Hc).
    exists B, o. split; [exact Ho|]. split; [exact HB|]. intros s' E.
    assert (E' : tr_body prob tp sp clock mi (match ma with None => m_dim M | Some m => m end) b draws B (clock 0%nat) s = Ok (Continue s'))
      by (rewrite HB; auto).
    apply tr_body_iter in E'. split; [split; [auto|lia]|lia].
  - cbn. split; [exact Hrd|lia].
  - cbn. unfold iter_fuel. lia.
  - exists B. eexists (bind o _). split.
    2: { intros sf Hsf. unfold tr_run. cbv zeta.
         change (match bar with Some _ => _ | None => _ end) with rb. rewrite Eb. cbn [bind].
         change (match d0 with Some _ => _ | None => _ end) with (rd b). rewrite Ed. cbn [bind].
         rewrite HB by exact Hsf. reflexivity. }
    destruct o as [[r tr]|e]; cbn [bind]; [discriminate|]. congruence.
Qed.
End Rand.

(** With a negative initial radius and random draws the scaling loop of the first iteration
    never ends, whatever the rest of the problem is. *)
Lemma tr_run_negative_radius {M : Mfd Rnum} (prob : OptProblem M) tp sp clock x0 mi ma (bar d0 : R) draws :
  tr_use_rand tp = true -> d0 < 0 -> (forall v, 0 <= (m_norm M x0 v : R)) ->
  forall sf, tr_run prob tp sp clock x0 mi ma (Some bar) (Some d0) draws sf = Raise OutOfFuel.
Proof.
  intros Hr Hd Hn sf. unfold tr_run. cbv zeta. cbn [bind]. unfold iter_fuel.
  cbn [loop]. unfold tr_body at 1. cbv zeta. rewrite Hr. cbn [s_x s_Delta s_iteration].
  rewrite (shrink_never M x0 _ d0 Hd Hn). reflexivity.
Qed.
