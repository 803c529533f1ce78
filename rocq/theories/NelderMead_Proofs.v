(** Nelder-Mead: sorting, one move, whole runs. *)
From Coq Require Import ZArith List Bool Sorted Permutation Lia.
From Verif Require Import Num_Model Num_Spec Num_Proofs PyList_Model LineSearch_Model Optimizer_Model Optimizer_Spec
  Optimizer_Proofs NelderMead_Model NelderMead_Spec.
Import ListNotations.

(** * Lists *)
Lemma py_index_inv {A} (l : list A) i k : py_index l i = Some k ->
  k < length l /\ Z.of_nat k = (if (i <? 0)%Z then (i + Z.of_nat (length l))%Z else i).
Proof.
  unfold py_index. set (j := if (i <? 0)%Z then _ else _). destruct ((_ <=? _) && _)%Z eqn:E; [|discriminate].
  apply andb_prop in E as [E1 E2]. intros H. assert (k = Z.to_nat j) as -> by congruence. lia.
Qed.
Lemma py_index_some {A} (l : list A) i k : py_index l i = Some k -> k < length l.
Proof. intros H. apply py_index_inv in H. tauto. Qed.
Lemma py_index_nat {A} (l : list A) (k : nat) : k < length l -> py_index l (Z.of_nat k) = Some k.
Proof.
  intros H. unfold py_index. destruct (Z.ltb_spec (Z.of_nat k) 0); [lia|].
  destruct (Z.leb_spec 0 (Z.of_nat k)); [|lia]. destruct (Z.ltb_spec (Z.of_nat k) (Z.of_nat (length l))); [|lia].
  simpl. f_equal. lia.
Qed.
Lemma py_index_len {A B} (l : list A) (l' : list B) i : length l = length l' -> py_index l i = py_index l' i.
Proof. unfold py_index. intros ->. reflexivity. Qed.
Lemma py_index_last {A} (l : list A) k : py_index l (-1) = Some k -> S k = length l.
Proof. intros H. apply py_index_inv in H as [H1 H2]. change (-1 <? 0)%Z with true in H2. cbv iota in H2. lia. Qed.
Lemma py_get_ok {A} (l : list A) i a : py_get l i = Ok a -> exists k, py_index l i = Some k /\ nth_error l k = Some a.
Proof.
  unfold py_get. destruct (py_index l i) as [k|]; [|discriminate].
  destruct (nth_error l k) eqn:E; [|discriminate]. intros H. injection H as <-. eauto.
Qed.
Lemma py_get_in {A} (l : list A) i a : py_get l i = Ok a -> In a l.
Proof. intros H. apply py_get_ok in H as (k & _ & H). eapply nth_error_In; eauto. Qed.
Lemma py_get0 {A} (l : list A) a : py_get l 0 = Ok a -> exists t, l = a :: t.
Proof.
  intros H. apply py_get_ok in H as (k & Hi & H). apply py_index_inv in Hi as [_ Hi]. simpl in Hi.
  assert (k = 0) as -> by lia. destruct l as [|b t]; [discriminate|]. simpl in H. exists t. congruence.
Qed.
Lemma py_get_m2 {A} (l : list A) a : py_get l (-2) = Ok a -> 2 <= length l.
Proof.
  intros H. apply py_get_ok in H as (k & Hi & H). apply py_index_inv in Hi as [_ Hi].
  change (-2 <? 0)%Z with true in Hi. cbv iota in Hi. lia.
Qed.
Lemma set_nth_length {A} (l : list A) k a : length (set_nth l k a) = length l.
Proof. revert k. induction l as [|h t IH]; intros [|k]; simpl; auto. Qed.
Lemma set_nth_map {A B} (f : A -> B) (l : list A) k a : map f (set_nth l k a) = set_nth (map f l) k (f a).
Proof. revert k. induction l as [|h t IH]; intros [|k]; simpl; auto. f_equal; auto. Qed.
Lemma set_nth_in {A} (l : list A) k a : k < length l -> In a (set_nth l k a).
Proof. revert k. induction l as [|h t IH]; intros [|k] H; simpl in *; try lia; auto. right. apply IH. lia. Qed.
Lemma set_nth_head {A} (h : A) t k a : k <> 0 -> exists t', set_nth (h :: t) k a = h :: t'.
Proof. destruct k; [congruence|]. simpl. eauto. Qed.
Lemma set_nth_inv {A} (l : list A) k a b : In b (set_nth l k a) -> b = a \/ In b l.
Proof. revert k. induction l as [|h t IH]; intros [|k] H; simpl in *; auto. - destruct H; auto. - destruct H as [H|H]; auto. apply IH in H. tauto. Qed.
Lemma py_set_ok {A} (l : list A) i a l' : py_set l i a = Ok l' -> exists k, py_index l i = Some k /\ l' = set_nth l k a /\ k < length l.
Proof.
  unfold py_set. destruct (py_index l i) as [k|] eqn:E; [|discriminate]. intros H. injection H as <-.
  exists k. repeat split; auto. eapply py_index_some; eauto.
Qed.

Lemma py_take_nth {A} (l : list A) order : Forall (fun i => i < length l) order ->
  exists l', py_take l order = Ok l' /\ map (nth_error l) order = map Some l'.
Proof.
  induction 1 as [|i order Hi Ho (l' & IH1 & IH2)]; simpl; [exists []; auto|].
  unfold py_get. rewrite py_index_nat by auto.
  destruct (nth_error l i) as [a|] eqn:E; [|apply nth_error_None in E; lia].
  cbn [bind]. rewrite IH1. cbn [bind]. exists (a :: l'). split; auto. simpl. congruence.
Qed.
Lemma py_take_len {A} (l : list A) order l' : py_take l order = Ok l' -> length l' = length order.
Proof.
  revert l'. induction order as [|i o IH]; simpl; intros l' H; [injection H as <-; auto|].
  apply bind_ok in H as (a & _ & H). apply bind_ok in H as (t & Ht & H). injection H as <-. simpl. f_equal. auto.
Qed.
Lemma py_take_map {A B} (f : A -> B) (l : list A) order l' : py_take l order = Ok l' -> py_take (map f l) order = Ok (map f l').
Proof.
  revert l'. induction order as [|i o IH]; simpl; intros l' H; [injection H as <-; auto|].
  apply bind_ok in H as (a & Ha & H). apply bind_ok in H as (t & Ht & H). injection H as <-.
  rewrite (IH _ Ht). apply py_get_ok in Ha as (k & Hk & Ha). unfold py_get.
  rewrite (py_index_len (map f l) l) by apply map_length. rewrite Hk. rewrite (map_nth_error f _ _ Ha). reflexivity.
Qed.
Lemma map_nth_error_seq {A} (l : list A) : map (nth_error l) (seq 0 (length l)) = map Some l.
Proof.
  induction l as [|a l IH] using rev_ind; simpl; auto.
  rewrite app_length. simpl. rewrite Nat.add_1_r, seq_S, !map_app. simpl. f_equal.
  - rewrite <- IH. apply map_ext_in. intros k Hk. apply in_seq in Hk. apply nth_error_app1. lia.
  - rewrite nth_error_app2 by lia. rewrite Nat.sub_diag. reflexivity.
Qed.
Lemma py_take_perm {A} (l : list A) order : Permutation order (seq 0 (length l)) ->
  exists l', py_take l order = Ok l' /\ map (nth_error l) order = map Some l' /\ Permutation l' l.
Proof.
  intros P. destruct (py_take_nth l order) as (l' & E1 & E2).
  { apply Forall_forall. intros i Hi. apply (Permutation_in _ P) in Hi. apply in_seq in Hi. lia. }
  exists l'. repeat split; auto.
  apply (Permutation_map (nth_error l)) in P. rewrite E2, map_nth_error_seq in P.
  apply Permutation_map_inv in P as (l3 & E3 & P3).
  assert (l' = l3) as -> by (clear -E3; revert l3 E3; induction l'; intros [|? l3] H; simpl in H; try discriminate; auto; injection H; intros; subst; f_equal; auto).
  apply Permutation_sym; auto.
Qed.

Section NM.
Context {N : NumOps} {M : Mfd N} (L : OrderLaws N).
Variables (cost : pt M -> N) (o : nm_obj N) (sp : stop_params N) (clock : nat -> N)
  (argsort : list N -> list nat) (centroid : Z -> list (pt M) -> res (pt M)).
Hypothesis Hsort : is_argsort argsort.
Notation move := (nm_move cost o centroid).

Lemma nm_sort_ok xs : exists xs', nm_sort argsort xs (map cost xs) = Ok (xs', map cost xs') /\
  Permutation xs' xs /\ sorted_nan_last (map cost xs').
Proof.
  unfold nm_sort. destruct (Hsort (map cost xs)) as [P S].
  rewrite map_length in P.
  destruct (py_take_perm xs _ P) as (xs' & E1 & E2 & E3).
  exists xs'. pose proof (py_take_map cost _ _ _ E1) as Ec. rewrite Ec. cbn [bind]. rewrite E1. cbn [bind].
  split; auto. split; auto. apply S.
  destruct (py_take_nth (map cost xs) (argsort (map cost xs))) as (c' & F1 & F2).
  { apply Forall_forall. intros i Hi. apply (Permutation_in _ P) in Hi. apply in_seq in Hi. rewrite map_length. lia. }
  rewrite F2. rewrite Ec in F1. congruence.
Qed.

Lemma nm_replace_ok xs x xs' costs' : nm_replace xs (map cost xs) x (cost x) = Ok (xs', costs') ->
  costs' = map cost xs' /\ length xs' = length xs /\ In x xs' /\
  (forall p, In p xs' -> p = x \/ In p xs) /\
  (2 <= length xs -> forall h t, xs = h :: t -> exists t', xs' = h :: t').
Proof.
  intros E. unfold nm_replace in E. apply bind_ok in E as (c & E1 & E). apply bind_ok in E as (y & E2 & E).
  injection E as <- <-. apply py_set_ok in E1 as (k & K1 & -> & _). apply py_set_ok in E2 as (k' & K2 & -> & K3).
  rewrite (py_index_len _ xs) in K1 by apply map_length. assert (k = k') as -> by congruence.
  rewrite set_nth_map, set_nth_length. split; [auto|]. split; [auto|]. split; [apply set_nth_in; auto|].
  split; [intros; eapply set_nth_inv; eauto|].
  intros HL h t ->. apply set_nth_head. apply py_index_last in K2. simpl in *. lia.
Qed.

Lemma nm_shrink_ok x0 n : forall i xs calls xs' costs' calls', (0 < i)%Z ->
  nm_shrink cost x0 n i xs (map cost xs) calls = Ok (xs', costs', calls') ->
  costs' = map cost xs' /\ length xs' = length xs /\
  (forall h t, xs = h :: t -> exists t', xs' = h :: t') /\
  (forall p, In p xs' -> In p xs \/ In p calls') /\
  exists more, calls' = calls ++ more /\ length more = n /\
    (* every vertex computed is still there *)
    (forall k p, nth_error more k = Some p -> nth_error xs' (Z.to_nat i + k) = Some p).
Proof.
  induction n as [|n IH]; intros i xs calls xs' costs' calls' Hi E; cbn [nm_shrink] in E.
  - injection E as <- <- <-. repeat split; eauto. exists []. rewrite app_nil_r. repeat split; auto.
    intros [|k] p H; discriminate.
  - apply bind_ok in E as (xi & E1 & E). cbv zeta in E.
    apply bind_ok in E as (xs1 & E2 & E). apply bind_ok in E as (c1 & E3 & E).
    apply py_set_ok in E2 as (k & K1 & -> & K2). apply py_set_ok in E3 as (k' & K1' & -> & _).
    rewrite (py_index_len _ xs) in K1' by apply map_length. assert (k' = k) as -> by congruence.
    rewrite <- set_nth_map in E.
    assert (Hk : k = Z.to_nat i).
    { apply py_index_inv in K1 as [_ K1]. destruct (Z.ltb_spec i 0); lia. }
    destruct (IH (i + 1)%Z _ _ _ _ _ ltac:(lia) E) as (A1 & A2 & A3 & A4 & more & A5 & A6 & A7).
    split; auto. split; [rewrite A2; apply set_nth_length|]. split; [|split].
    + intros h t ->. destruct (set_nth_head h t k (m_pair_mean M x0 xi)) as [t' Ht]; [lia|]. rewrite Ht in A3. eauto.
    + intros p Hp. destruct (A4 p Hp) as [H|H]; auto. apply set_nth_inv in H as [->|H]; auto.
      right. rewrite A5. apply in_or_app. left. apply in_or_app. right. left. reflexivity.
    + exists (m_pair_mean M x0 xi :: more). split; [rewrite A5, <- app_assoc; reflexivity|]. split; [simpl; auto|].
      intros [|j] p H.
      * simpl in H. injection H as <-. rewrite Nat.add_0_r. subst k.
        (* position i is not touched again *)
        clear -E K2 Hi. 
        assert (G : forall m j ys calls xs' costs' calls', (i < j)%Z ->
          nm_shrink cost x0 m j ys (map cost ys) calls = Ok (xs', costs', calls') ->
          nth_error xs' (Z.to_nat i) = nth_error ys (Z.to_nat i)).
        { induction m as [|m IHm]; intros j ys cl xs1 costs1 calls1 Hj E'; cbn [nm_shrink] in E'.
          - injection E' as <- _ _. reflexivity.
          - apply bind_ok in E' as (yi & _ & E'). cbv zeta in E'.
            apply bind_ok in E' as (ys1 & F2 & E'). apply bind_ok in E' as (d1 & F3 & E').
            apply py_set_ok in F2 as (k & K1 & -> & K3). apply py_set_ok in F3 as (k' & K1' & -> & _).
            rewrite (py_index_len _ ys) in K1' by apply map_length. assert (k' = k) as -> by congruence.
            rewrite <- set_nth_map in E'. rewrite (IHm (j + 1)%Z _ _ _ _ _ ltac:(lia) E').
            assert (Hk : k = Z.to_nat j).
            { apply py_index_inv in K1 as [_ K1]. destruct (Z.ltb_spec j 0); lia. }
            assert (Hne : k <> Z.to_nat i) by lia. clear -Hne. revert k Hne. generalize (Z.to_nat i).
            induction ys as [|y ys IH]; intros [|n] [|k] H; simpl; auto; congruence. }
        rewrite (G _ (i + 1)%Z _ _ _ _ _ ltac:(lia) E).
        clear -K2. revert K2. generalize (Z.to_nat i) as k. induction xs as [|y ys IH]; intros [|k] H; simpl in *; try lia; auto.
        apply IH. lia.
      * simpl in H. apply A7 in H. rewrite <- H. f_equal. lia.
Qed.

Definition no_nan (l : list (pt M)) := forall p, In p l -> nisnan N (cost p) = false.

Lemma sorted_head (c : N) cs : sorted_nan_last (c :: cs) -> forall d, In d cs -> nisnan N d = false -> nle N c d = true.
Proof. intros S d Hd Hn. inversion S; subst. rewrite Forall_forall in H2. destruct (H2 d Hd); auto. congruence. Qed.

(** One move on a sorted simplex. *)
Lemma nm_move_ok it xs evals xs' costs' evals' calls : (0 <= m_dim M)%Z ->
  sorted_nan_last (map cost xs) ->
  move it xs (map cost xs) evals = Ok (xs', costs', evals', calls) ->
  costs' = map cost xs' /\ length xs' = length xs /\
  (evals' = evals + Z.of_nat (length calls))%Z /\ (1 <= Z.of_nat (length calls) <= m_dim M + 2)%Z /\
  (forall p, In p xs' -> In p xs \/ In p calls) /\
  (forall h t, xs = h :: t ->
     (exists t', xs' = h :: t') \/ (exists p, In p xs' /\ nlt N (cost p) (cost h) = true)) /\
  (no_nan xs -> no_nan calls -> forall p, In p calls -> exists q, In q xs' /\ nle N (cost q) (cost p) = true).
Proof.
  intros Hdim S E. unfold nm_move in E.
  apply bind_ok in E as (xbar & _ & E). apply bind_ok in E as (worst & Ew & E). cbv zeta in E.
  set (xr := m_retr M xbar (t_scale M (nneg N (nm_reflection o)) (m_log M xbar worst))) in *.
  set (xe := m_retr M xbar (t_scale M (nneg N (nm_expansion o)) (m_log M xbar worst))) in *.
  set (xoc := m_retr M xbar (t_scale M (nneg N (nm_contraction o)) (m_log M xbar worst))) in *.
  set (xic := m_retr M xbar (t_scale M (nm_contraction o) (m_log M xbar worst))) in *.
  apply bind_ok in E as (c0 & E0 & E).
  assert (H0 : exists h t, xs = h :: t /\ c0 = cost h).
  { apply py_get0 in E0 as [t Ht]. destruct xs as [|h t']; [discriminate|]. exists h, t'. split; auto. simpl in Ht. congruence. }
  destruct H0 as (h & t & Hxs & ->).
  apply bind_ok in E as (hon & Eh & E).
  assert (Hhon : hon = true -> 2 <= length xs /\ nle N (cost h) (cost xr) = true).
  { intros ->. destruct (nle N (cost h) (cost xr)) eqn:A; [|discriminate]. split; auto.
    apply bind_ok in Eh as (c2 & G & _). apply py_get_m2 in G. rewrite map_length in G. auto. }
  assert (NN : forall c d, nisnan N c = false -> nisnan N d = false -> nlt N c d = false -> nle N d c = true).
  { intros c d A B C. rewrite (le_lt_total N L) by auto. rewrite C. reflexivity. }
  assert (RF : forall p, nisnan N (cost p) = false -> nle N (cost p) (cost p) = true) by (intros; apply (le_refl N L); auto).
  destruct hon.
  { destruct (Hhon eq_refl) as [A1 A2]. apply bind_ok in E as ([xs1 c1] & E1 & E). injection E as <- <- <- <-.
    destruct (nm_replace_ok _ _ _ _ E1) as (B1 & B2 & B3 & B4 & B5).
    simpl length. repeat split; auto; try lia.
    - intros p Hp. destruct (B4 p Hp) as [->|]; auto. right. left. auto.
    - intros h' t' Ht. left. eapply B5; eauto.
    - intros _ Hn p [<-|[]]. exists xr. split; auto. apply RF. apply Hn. left. auto. }
  destruct (nlt N (cost xr) (cost h)) eqn:L0.
  { destruct (nlt N (cost xe) (cost xr)) eqn:L1.
    - apply bind_ok in E as ([xs1 c1] & E1 & E). injection E as <- <- <- <-.
      destruct (nm_replace_ok _ _ _ _ E1) as (B1 & B2 & B3 & B4 & B5).
      simpl length. repeat split; auto; try lia.
      + intros p Hp. destruct (B4 p Hp) as [->|]; auto. right. right. left. auto.
      + intros h' t' Ht. right. exists xe. split; auto. assert (h' = h) as -> by congruence.
        apply (lt_le_trans N L _ (cost xr)); auto. apply (lt_le N L). auto.
      + intros _ Hn p [<-|[<-|[]]]; exists xe; split; auto; [apply (lt_le N L); auto|].
        apply RF. apply Hn. right. left. auto.
    - apply bind_ok in E as ([xs1 c1] & E1 & E). injection E as <- <- <- <-.
      destruct (nm_replace_ok _ _ _ _ E1) as (B1 & B2 & B3 & B4 & B5).
      simpl length. repeat split; auto; try lia.
      + intros p Hp. destruct (B4 p Hp) as [->|]; auto. right. left. auto.
      + intros h' t' Ht. right. exists xr. split; auto. congruence.
      + intros _ Hn p [<-|[<-|[]]]; exists xr; split; auto; [apply RF; apply Hn; left; auto|].
        apply NN; auto; apply Hn; simpl; auto. }
  apply bind_ok in E as (c2 & E2 & E). apply bind_ok in E as (c1 & E1 & E).
  assert (HL : 2 <= length xs) by (apply py_get_m2 in E2; rewrite map_length in E2; auto).
  apply py_get_in, in_map_iff in E2 as (p2 & <- & I2). apply py_get_in, in_map_iff in E1 as (p1 & <- & I1).
  assert (HN0 : no_nan xs -> nisnan N (cost h) = false) by (intros Hn; apply Hn; subst; left; auto).
  assert (HH : no_nan xs -> forall p, In p xs -> nle N (cost h) (cost p) = true).
  { intros Hn p Hp. subst xs. destruct Hp as [<-|Hp]; [apply RF; auto|].
    apply (sorted_head _ _ S); [apply in_map; auto|]. apply Hn. right. auto. }
  (* the remaining branches: an accepted contraction or a shrink *)
  assert (Acc : forall x evals1 calls1 xs1 c1, calls1 = [xr; x] -> evals1 = (evals + 2)%Z ->
    nm_replace xs (map cost xs) x (cost x) = Ok (xs1, c1) ->
    (no_nan xs -> no_nan calls1 -> nle N (cost h) (cost xr) = true) ->
    Ok (xs1, c1, evals1, calls1) = Ok (xs', costs', evals', calls) ->
    costs' = map cost xs' /\ length xs' = length xs /\
    (evals' = evals + Z.of_nat (length calls))%Z /\ (1 <= Z.of_nat (length calls) <= m_dim M + 2)%Z /\
    (forall p, In p xs' -> In p xs \/ In p calls) /\
    (forall h t, xs = h :: t ->
       (exists t', xs' = h :: t') \/ (exists p, In p xs' /\ nlt N (cost p) (cost h) = true)) /\
    (no_nan xs -> no_nan calls -> forall p, In p calls -> exists q, In q xs' /\ nle N (cost q) (cost p) = true)).
  { intros x ev1 cl1 xs1 cc1 -> -> Er Hr Q. injection Q as <- <- <- <-.
    destruct (nm_replace_ok _ _ _ _ Er) as (B1 & B2 & B3 & B4 & B5).
    simpl length. repeat split; auto; try lia.
    - intros p Hp. destruct (B4 p Hp) as [->|]; auto. right. right. left. auto.
    - intros h' t' Ht. left. eapply B5; eauto.
    - intros Hn1 Hn2 p [<-|[<-|[]]].
      + exists h. split; [|apply Hr; auto]. destruct (B5 HL _ _ Hxs) as [t' ->]. left; auto.
      + exists x. split; auto. apply RF. apply Hn2. right. left. auto. }
  assert (Shr : forall evals1 calls1, (evals1 = evals + Z.of_nat (length calls1))%Z ->
    (1 <= length calls1 <= 2) ->
    (no_nan xs -> no_nan calls1 -> forall p, In p calls1 -> nle N (cost h) (cost p) = true) ->
    bind (py_get xs 0) (fun x0 =>
      bind (nm_shrink cost x0 (Z.to_nat (m_dim M)) 1 xs (map cost xs) calls1) (fun '(xs2, costs2, calls2) =>
        Ok (xs2, costs2, (evals1 + m_dim M)%Z, calls2))) = Ok (xs', costs', evals', calls) ->
    costs' = map cost xs' /\ length xs' = length xs /\
    (evals' = evals + Z.of_nat (length calls))%Z /\ (1 <= Z.of_nat (length calls) <= m_dim M + 2)%Z /\
    (forall p, In p xs' -> In p xs \/ In p calls) /\
    (forall h t, xs = h :: t ->
       (exists t', xs' = h :: t') \/ (exists p, In p xs' /\ nlt N (cost p) (cost h) = true)) /\
    (no_nan xs -> no_nan calls -> forall p, In p calls -> exists q, In q xs' /\ nle N (cost q) (cost p) = true)).
  { intros ev1 cl1 -> Hlen Hr Q. apply bind_ok in Q as (x0 & _ & Q). apply bind_ok in Q as ([[xs2 cs2] cl2] & Q2 & Q).
    injection Q as <- <- <- <-.
    destruct (nm_shrink_ok _ _ 1%Z _ _ _ _ _ ltac:(lia) Q2) as (B1 & B2 & B3 & B4 & more & B5 & B6 & B7).
    rewrite B5, app_length, B6.
    repeat split; auto; try lia.
    - intros p Hp. rewrite <- B5. auto.
    - intros h' t' Ht. left. eapply B3; eauto.
    - intros Hn1 Hn2 p Hp. apply in_app_or in Hp as [Hp|Hp].
      + exists h. split; [destruct (B3 _ _ Hxs) as [t' ->]; left; auto|].
        apply Hr; auto. intros q Hq. apply Hn2. apply in_or_app. auto.
      + exists p. split; [|apply RF; apply Hn2; apply in_or_app; auto].
        apply In_nth_error in Hp as [k Hk]. apply B7 in Hk. eapply nth_error_In; eauto. }
  destruct (nle N (cost p2) (cost xr)) eqn:G2; [destruct (nlt N (cost xr) (cost p1)) eqn:G1|].
  - destruct (nle N (cost xoc) (cost xr)) eqn:G3.
    + apply bind_ok in E as ([xs1 cc1] & Er & E). eapply (Acc xoc); [| |exact Er| |exact E]; try reflexivity; try lia.
      intros Hn1 Hn2. apply (le_trans N L _ (cost p2)); auto.
    + eapply Shr; [| | |exact E]; cbn [length]; try lia.
      intros Hn1 Hn2 p [<-|[<-|[]]].
      * apply (le_trans N L _ (cost p2)); auto.
      * apply (le_trans N L _ (cost xr)); [apply (le_trans N L _ (cost p2)); auto|].
        rewrite (le_lt_total N L) in G3 by (apply Hn2; simpl; auto).
        apply (lt_le N L). destruct (nlt N (cost xr) (cost xoc)); [auto|discriminate].
  - destruct (nle N (cost xic) (cost p1)) eqn:G3.
    + apply bind_ok in E as ([xs1 cc1] & Er & E). eapply (Acc xic); [| |exact Er| |exact E]; try reflexivity; try lia.
      intros Hn1 Hn2. apply (le_trans N L _ (cost p2)); auto.
    + eapply Shr; [| | |exact E]; cbn [length]; try lia.
      intros Hn1 Hn2 p [<-|[<-|[]]].
      * apply (le_trans N L _ (cost p2)); auto.
      * apply (le_trans N L _ (cost p1)); auto.
        assert (N1 : nisnan N (cost p1) = false) by (apply Hn1; auto).
        rewrite (le_lt_total N L) in G3 by (auto; apply Hn2; simpl; auto).
        apply (lt_le N L). destruct (nlt N (cost p1) (cost xic)); [auto|discriminate].
  - eapply Shr; [| | |exact E]; cbn [length]; try lia.
    intros Hn1 Hn2 p [<-|[]]. apply NN; auto. apply Hn2. left. auto.
Qed.
End NM.
