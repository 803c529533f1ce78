(** Concrete problems for the trust-region theorems. *)
From Coq Require Import ZArith List Bool SpecFloat Reals Lra Lia.
From Verif Require Import Num_Model Num_Instances LineSearch_Model Optimizer_Model TrustRegions_Model
  TrustRegions_Spec TrustRegions_Proofs Euclid1.
Import ListNotations.

(** The default parameters, trust_regions.py lines 80-105. *)
Definition tr_default (N : NumOps) (rand : bool) : tr_params N :=
  {| tr_kappa := lit 1 10; tr_theta := n_of_Z N 1; tr_rho_prime := lit 1 10; tr_use_rand := rand;
     tr_rho_reg := n_of_Z N 1000 |}.

(** Quadratic costs on the plane: [1/2 <x, A x>] with [A = (a b; b c)]. *)
Definition quad2 (N : NumOps) (a b c : Z) : OptProblem (E2 N) :=
  let A (v : N * N) : N * N :=
    (nadd N (nmul N (n_of_Z N a) (fst v)) (nmul N (n_of_Z N b) (snd v)),
     nadd N (nmul N (n_of_Z N b) (fst v)) (nmul N (n_of_Z N c) (snd v))) in
  {| p_cost := fun x : pt (E2 N) => nmul N (lit 1 2) (m_inner (E2 N) x x (A x)) : N;
     p_grad := fun x : pt (E2 N) => A x : tv (E2 N);
     p_hess := fun (x : pt (E2 N)) (v : tv (E2 N)) => A v : tv (E2 N);
     p_prec := fun _ v => v |}.

(** The badly scaled cost [2^-60 (x^4 - x)] with its derivatives. *)
Definition tiny (N : NumOps) : N := lit 1 (2 ^ 60).
Definition badly_scaled (N : NumOps) : OptProblem (E1 N) :=
  let c3 (x : N) := nmul N x (nmul N x x) in
  {| p_cost := fun x : pt (E1 N) => nmul N (tiny N) (nsub N (nmul N x (c3 x)) x) : N;
     p_grad := fun x : pt (E1 N) => nmul N (tiny N) (nsub N (nmul N (n_of_Z N 4) (c3 x)) (n_of_Z N 1)) : tv (E1 N);
     p_hess := fun (x : pt (E1 N)) (v : tv (E1 N)) =>
       nmul N (tiny N) (nmul N (nmul N (n_of_Z N 12) (nmul N x x)) v) : tv (E1 N);
     p_prec := fun _ v => v |}.

(** The plane over the reals satisfies the hypotheses of the exact theorems. *)
Local Open Scope R_scope.
Lemma E2_tangent_space x : tangent_space (M := E2 Rnum) x (fun _ => True).
Proof.
  split; intros; auto; unfold ip; cbn; try lra.
  destruct u as [a1 a2]; cbn in *; nra.
Qed.
Lemma quad2_symmetric a b c x : symmetric_operator (M := E2 Rnum) x (fun _ => True) (p_hess (quad2 Rnum a b c) x).
Proof.
  split; intros; auto; unfold ip; repeat match goal with u : tv _ |- _ => destruct u end; cbn;
    first [ring | f_equal; ring].
Qed.
Lemma quad2_precond a b c x :
  preconditioner_form (M := E2 Rnum) x (fun _ => True) (p_prec (quad2 Rnum a b c) x) (ip (M := E2 Rnum) x).
Proof.
  split; intros; auto; unfold ip in *; cbn in *; try lra.
  destruct u as [a1 a2]; cbn in *; nra.
Qed.

(** With use_rand: an exact run of the inner solver that leaves the region. *)
Section Leaves.
Notation pr := (quad2 Rnum 7 3 3).
Notation tp := (tr_default Rnum true).
Let x : pt (E2 Rnum) := (0, 0).
Let g : tv (E2 Rnum) := (4, 0).

Ltac dec := repeat match goal with
  | |- context [Rleb ?a ?b] =>
      first [ replace (Rleb a b) with true by (symmetry; apply Rleb_spec; lra)
            | replace (Rleb a b) with false by (symmetry; apply Rleb_false; lra) ]
  | |- context [Req_EM_T ?a ?b] => destruct (Req_EM_T a b) as [?|_]; [exfalso; lra|]
  end.
Definition s0 : tcg_state (E2 Rnum) :=
  mkTcg (N := Rnum) (M := E2 Rnum) (-1, 0) (-7, -3) (-3, -3) 1 18 18 (-3) (3, 3) (-1/2).
Definition s1 : tcg_state (E2 Rnum) :=
  mkTcg (N := Rnum) (M := E2 Rnum) (-5/8, 3/8) (-26/8, -6/8) (3/4, -3/4) (17/32) (9/8) (153/128) (-3/64) (-9/16, 15/16) (-13/8).

Lemma Rdiv_res_eq a b q : b <> 0 -> q * b = a -> Rdiv_res a b = Ok q.
Proof. intros H <-. unfold Rdiv_res. destruct (Req_EM_T b 0); [tauto|]. f_equal. field. auto. Qed.

Lemma leaves_init : fst (tcg_init pr tp x g ((-1, 0) : tv (E2 Rnum))) = s0.
Proof.
  unfold tcg_init, tcg_precondition, model_fun, s0. cbn. rewrite !Rlit by lra.
  f_equal; first [field | apply injective_projections; cbn; field].
Qed.

Lemma leaves_step1 n0 : tcg_body pr tp x g 1 n0 1 0 s0 = Ok (Continue s1).
Proof.
  unfold tcg_body, s0, tcg_precondition, nonzero, ip_div, model_fun. cbn.
  rewrite !Rlit by lra.
  dec. cbn. rewrite (Rdiv_res_eq _ _ (1/8)) by lra. cbn. dec. cbn.
  rewrite (Rdiv_res_eq _ _ (1/16)) by lra. cbn. unfold s1.
  match goal with |- Ok (Continue ?a) = Ok (Continue ?b) => replace a with b; [reflexivity|] end.
  f_equal; first [field | apply injective_projections; cbn; field].
Qed.
Lemma leaves_step2 n0 : exists eta Heta st, tcg_body pr tp x g 1 n0 1 1 s1 = Ok (Stop (eta, Heta, st)) /\
  eta = (-1, 1) :> R * R.
Proof.
  unfold tcg_body, s1, tcg_precondition, nonzero, ip_div, model_fun. cbn.
  dec. cbn. rewrite (Rdiv_res_eq _ _ (2/3)) by lra. cbn. dec. cbn.
  replace (sqrt _) with (3/4).
  - rewrite (Rdiv_res_eq _ _ (2/3)) by lra. cbn. do 3 eexists. split; [reflexivity|].
    f_equal; field.
  - symmetry. apply sqrt_lem_1; lra.
Qed.
Lemma leaves : exists eta Heta j st,
  tcg pr tp x g ((-1, 0) : tv (E2 Rnum)) 1 1 2 = Ok (eta, Heta, j, st) /\ ip (M := E2 Rnum) x eta eta = 2.
Proof.
  unfold tcg. destruct (tcg_init pr tp x g ((-1, 0) : tv (E2 Rnum))) as [s n0] eqn:E.
  assert (s = fst (tcg_init pr tp x g ((-1, 0) : tv (E2 Rnum)))) as -> by (rewrite E; reflexivity).
  destruct (leaves_step2 n0) as (eta & Heta & st & E2 & Ee).
  exists eta, Heta, 1%Z, st. split.
  - change (Z.to_nat 2) with 2%nat. cbn [Z.leb Z.compare tcg_loop].
    rewrite leaves_init, leaves_step1. cbn [bind]. change (0 + 1)%Z with 1%Z. rewrite E2. reflexivity.
  - rewrite Ee. unfold ip; cbn. lra.
Qed.
End Leaves.

Lemma leaves_statement : exists eta Heta j st,
  tcg (quad2 Rnum 7 3 3) (tr_default Rnum true) ((0, 0) : pt (E2 Rnum)) ((4, 0) : tv (E2 Rnum))
    ((-1, 0) : tv (E2 Rnum)) 1 1 2 = Ok (eta, Heta, j, st) /\
  ip (M := E2 Rnum) (0, 0) ((-1, 0) : tv (E2 Rnum)) ((-1, 0) : tv (E2 Rnum)) = 1 * 1 /\
  ip (M := E2 Rnum) (0, 0) eta eta = 2.
Proof.
  destruct leaves as (eta & Heta & j & st & A & B). exists eta, Heta, j, st. repeat split; auto.
  unfold ip; cbn. lra.
Qed.

(** The saddle [1/2 (a^2 - b^2)] at (1, 2). *)
Lemma saddle_instance :
  let x : pt (E2 Rnum) := (1, 2) in
  tangent_space (M := E2 Rnum) x (fun _ => True) /\
  symmetric_operator (M := E2 Rnum) x (fun _ => True) (p_hess (quad2 Rnum 1 0 (-1)) x) /\
  preconditioner_form (M := E2 Rnum) x (fun _ => True) (p_prec (quad2 Rnum 1 0 (-1)) x) (ip (M := E2 Rnum) x) /\
  0 < ip (M := E2 Rnum) x (p_grad (quad2 Rnum 1 0 (-1)) x) (p_grad (quad2 Rnum 1 0 (-1)) x) /\
  exists eta Heta j stop,
  tcg (quad2 Rnum 1 0 (-1)) (tr_default Rnum false) x (p_grad (quad2 Rnum 1 0 (-1)) x) (m_zero (E2 Rnum) x) 1 1 2
    = Ok (eta, Heta, j, stop).
Proof.
  cbv zeta. split; [apply E2_tangent_space|]. split; [apply quad2_symmetric|]. split; [apply quad2_precond|].
  split; [unfold ip; cbn; lra|].
  unfold tcg. destruct (tcg_init _ _ _ _ _) as [s n0] eqn:E. change (2 <=? 0)%Z with false. cbv iota.
  change (Z.to_nat 2) with 2%nat. cbn [tcg_loop].
  assert (s = fst (tcg_init (quad2 Rnum 1 0 (-1)) (tr_default Rnum false) ((1, 2) : pt (E2 Rnum)) (p_grad (quad2 Rnum 1 0 (-1)) ((1, 2) : pt (E2 Rnum))) (m_zero (E2 Rnum) (1, 2)))) as -> by (rewrite E; reflexivity).
  clear E.
  match goal with |- context [tcg_body ?a ?b ?c ?d ?e ?f ?g ?h ?i] =>
    assert (K : exists o, tcg_body a b c d e f g h i = Ok (Stop o)) end.
  { unfold tcg_init, tcg_precondition, tcg_body, nonzero, ip_div, model_fun. cbn.
    match goal with |- context [negb ?b] => destruct (negb b) end; cbn.
    - match goal with |- context [Rdiv_res ?a ?b] => assert (b <> 0) by lra; destruct (Rdiv_res a b) as [al|] eqn:Q end.
      2:{ unfold Rdiv_res in Q. destruct (Req_EM_T _ _); [lra|discriminate]. }
      cbn. match goal with |- context [Rleb ?a 0 || _] => replace (Rleb a 0) with true by (symmetry; apply Rleb_spec; lra) end.
      cbn. match goal with |- context [Rdiv_res ?a ?b] => assert (b <> 0) by lra; destruct (Rdiv_res a b) as [al2|] eqn:Q2 end.
      2:{ unfold Rdiv_res in Q2. destruct (Req_EM_T _ _); [lra|discriminate]. }
      cbn. eexists. reflexivity.
    - match goal with |- context [Rleb ?a 0 || _] => replace (Rleb a 0) with true by (symmetry; apply Rleb_spec; lra) end.
      cbn. match goal with |- context [Rdiv_res ?a ?b] => assert (b <> 0) by lra; destruct (Rdiv_res a b) as [al2|] eqn:Q2 end.
      2:{ unfold Rdiv_res in Q2. destruct (Req_EM_T _ _); [lra|discriminate]. }
      cbn. eexists. reflexivity. }
  destruct K as [[[eta Heta] st] K]. rewrite K. cbn [bind]. eauto 10.
Qed.
