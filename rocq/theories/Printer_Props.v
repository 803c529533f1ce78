(** Property C93: printed tables. *)
From Coq Require Import ZArith List Bool Ascii String Lia Arith.
From Verif Require Import Num_Model Printer_Model.
Import ListNotations.

(** ** What a table is *)

(** The text between two positions of a line. *)
Definition part (from width : nat) (line : list ascii) : list ascii := firstn width (skipn from line).

(** [text], followed by at least [gap] spaces, fills the [width] characters of [line] from position [from] on. *)
Definition cell_at (line : list ascii) (from width gap : nat) (text : list ascii) : Prop :=
  exists n, gap <= n /\ part from width line = text ++ repeat " "%char n /\ List.length text + n = width.

(** where column [j] starts, for columns of the given widths *)
Definition column_start (widths : list nat) (j : nat) : nat := list_sum (firstn j widths).

(** [line] consists of the texts of all columns, column [j] starting at [column_start widths j] and ending with at least
    [gap] spaces. *)
Definition table_line (widths : list nat) (gap : nat) (texts : list (list ascii)) (line : list ascii) : Prop :=
  List.length texts = List.length widths /\
  List.length line = list_sum widths /\
  forall j, j < List.length widths ->
    cell_at line (column_start widths j) (nth j widths 0) gap (nth j texts []).

Lemma table_nil gap : table_line [] gap [] [].
Proof. repeat split; simpl; intros; lia. Qed.

Lemma table_cons w widths gap text texts line n :
  List.length text + n = w -> gap <= n -> table_line widths gap texts line ->
  table_line (w :: widths) gap (text :: texts) ((text ++ repeat " "%char n) ++ line).
Proof.
  intros Hw Hg (H1 & H2 & H3). repeat split.
  - simpl; lia.
  - rewrite !app_length, repeat_length. simpl. lia.
  - intros [|j] Hj; simpl in Hj.
    + exists n. split; [assumption|]. split; [|assumption].
      unfold column_start, part; simpl.
      rewrite firstn_app, firstn_all2 by (rewrite app_length, repeat_length; lia).
      replace (w - _) with 0 by (rewrite app_length, repeat_length; lia).
      simpl. now rewrite app_nil_r.
    + destruct (H3 j ltac:(lia)) as (k & Hk & Hp & Hl). exists k.
      split; [assumption|]. split; [|assumption].
      unfold column_start, part in *. simpl.
      rewrite skipn_app, skipn_all2 by (rewrite app_length, repeat_length; lia).
      replace (w + _ - _) with (list_sum (firstn j widths)) by (rewrite app_length, repeat_length; lia).
      exact Hp.
Qed.

(** ** General facts *)
Section General.
Variables (V : Type) (format : pystr -> V -> pystr) (zero : V).

Lemma table_concat widths gap (texts : list pystr) :
  List.length texts = List.length widths ->
  (forall j, j < List.length widths -> List.length (nth j texts []) + gap <= nth j widths 0) ->
  table_line widths gap texts
    (List.concat (map (fun '(t, w) => t ++ py_times space (Z.of_nat w - py_len t)) (combine texts widths))).
Proof.
  revert texts. induction widths as [|w ws IH]; intros [|t ts] Hl H; try discriminate Hl.
  - apply table_nil.
  - simpl. unfold py_times, py_len.
    apply (table_cons _ _ _ _ _ _ (Z.to_nat (Z.of_nat w - Z.of_nat (List.length t)))).
    + specialize (H 0 ltac:(simpl; lia)). simpl in H. lia.
    + specialize (H 0 ltac:(simpl; lia)). simpl in H. lia.
    + apply IH; [simpl in Hl; lia|]. intros j Hj. apply (H (S j)). simpl; lia.
Qed.

(** the width of every column: that of the longer of its name and its placeholder, and the padding *)
Definition column_width (padding : nat) (cv : (pystr * pystr) * V) : nat :=
  Nat.max (List.length (fst (fst cv))) (List.length (format (snd (fst cv)) (snd cv))) + padding.
Definition documented_widths (columns : list (pystr * pystr)) (placeholders : list V) (padding : nat) : list nat :=
  map (column_width padding) (combine columns placeholders).

Lemma zip3_combine A B C (f : A * B -> A) (g : A * B -> B) (l : list (A * B)) (c : list C) :
  zip3 (map fst l) (map snd l) c = map (fun '(a, v) => (fst a, snd a, v)) (combine l c).
Proof.
  revert c. induction l as [|[a b] l IH]; intros [|x c]; simpl; try reflexivity.
  now rewrite IH.
Qed.
End General.
Arguments documented_widths {V}.

Section Statements.
Variables (V : Type) (format : pystr -> V -> pystr) (zero : V).
Implicit Types columns : list (pystr * pystr).

(** The printer for a non-empty list of columns and one placeholder for each of them (0 by default). *)
Definition printer_for columns (placeholders : option (list V)) (padding : nat) (p : column_printer) : Prop :=
  columns <> [] /\
  (forall l, placeholders = Some l -> List.length l = List.length columns) /\
  new_printer V format zero columns placeholders (Z.of_nat padding) = Ok p.

Definition placeholder_list columns (placeholders : option (list V)) : list V :=
  match placeholders with Some l => l | None => repeat zero (List.length columns) end.

Lemma printer_forE columns placeholders padding p :
  printer_for columns placeholders padding p ->
  column_names p = map fst columns /\ column_formatters p = map snd columns /\
  column_padding p = Z.of_nat padding /\
  column_widths p = map Z.of_nat (documented_widths format columns (placeholder_list columns placeholders) padding) /\
  List.length (placeholder_list columns placeholders) = List.length columns.
Proof.
  intros (Hne & Hl & H). unfold new_printer in H. destruct columns as [|c columns]; [congruence|].
  remember (c :: columns) as cs.
  assert (E : (match placeholders with Some v => v | None => repeat zero (List.length (map fst cs)) end)
              = placeholder_list cs placeholders).
  { unfold placeholder_list. destruct placeholders; [reflexivity|]. now rewrite map_length. }
  rewrite E in H. injection H as <-. simpl. repeat split.
  - unfold documented_widths.
    rewrite (zip3_combine pystr pystr V fst snd), !map_map. apply map_ext. intros [[a b] v]. simpl.
    unfold py_len, column_width; simpl. lia.
  - unfold placeholder_list. destruct placeholders as [l|]; [now apply Hl|apply repeat_length].
Qed.

Lemma nth_widths columns ph padding j d :
  j < List.length columns -> List.length ph = List.length columns ->
  nth j (documented_widths format columns ph padding) 0 =
    Nat.max (List.length (fst (nth j columns d)))
            (List.length (format (snd (nth j columns d)) (nth j ph zero))) + padding.
Proof.
  intros H1 H2. unfold documented_widths.
  rewrite (nth_indep _ 0 (column_width V format padding (d, zero)))
    by (rewrite map_length, combine_length; lia).
  rewrite map_nth, combine_nth by lia. reflexivity.
Qed.

Lemma length_widths columns ph padding :
  List.length ph = List.length columns ->
  List.length (documented_widths format columns ph padding) = List.length columns.
Proof. intros H. unfold documented_widths. rewrite map_length, combine_length. lia. Qed.

Lemma combine_map_r A B C (f : B -> C) (l : list A) (m : list B) :
  combine l (map f m) = map (fun '(a, b) => (a, f b)) (combine l m).
Proof. revert m; induction l; intros [|? m]; simpl; congruence. Qed.

Lemma zip3_map_combine columns (ws : list nat) (values : list V) :
  List.length ws = List.length columns -> List.length values = List.length columns ->
  map (fun '(formatter, width, value) =>
         format formatter value ++ py_times space (width - py_len (format formatter value)))
      (zip3 (map snd columns) (map Z.of_nat ws) values)
  = map (fun '(t, w) => t ++ py_times space (Z.of_nat w - py_len t))
      (combine (map (fun '(c, v) => format (snd c) v) (combine columns values)) ws).
Proof.
  revert ws values. induction columns as [|c cs IH]; intros [|w ws] [|v vs] H1 H2; try discriminate; simpl; [reflexivity|].
  f_equal. apply IH; simpl in *; lia.
Qed.

(** *** C93: the lines of a table are aligned *)

(** The header consists of the column names and of dashes under them; each column is as wide as the longer of its
    name and its formatted placeholder plus the padding; columns are separated by at least the padding. *)
Theorem C93_header columns placeholders padding p :
  printer_for columns placeholders padding p ->
  let widths := documented_widths format columns (placeholder_list columns placeholders) padding in
  exists names underline, print_header p = Ok [names; underline] /\
    table_line widths padding (map fst columns) names /\
    table_line widths padding (map (fun w => repeat "-"%char (w - padding)) widths) underline.
Proof.
  intros H widths.
  destruct (printer_forE _ _ _ _ H) as (E1 & E2 & E3 & E4 & E5).
  unfold print_header. rewrite E1, E3, E4. fold widths.
  assert (Lw : List.length widths = List.length columns) by (apply length_widths; assumption).
  set (segments := map _ _).
  assert (Hseg : segments <> []).
  { unfold segments. destruct H as (Hne & _ & _). destruct columns as [|c cs]; [congruence|].
    destruct widths as [|w ws]; [discriminate Lw|]. discriminate. }
  assert (F1 : map fst segments = map (fun '(t, w) => t ++ py_times space (Z.of_nat w - py_len t))
                                      (combine (map fst columns) widths)).
  { unfold segments. rewrite combine_map_r, !map_map. apply map_ext. intros [a b]. reflexivity. }
  assert (F2 : map snd segments = map (fun '(t, w) => t ++ py_times space (Z.of_nat w - py_len t))
                                      (combine (map (fun w => repeat "-"%char (w - padding)) widths) widths)).
  { unfold segments. rewrite combine_map_r, !map_map.
    assert (Hw : forall w, In w widths -> padding <= w).
    { intros w Hi. unfold widths, documented_widths in Hi. apply in_map_iff in Hi.
      destruct Hi as ((c & v) & <- & _). unfold column_width. lia. }
    clear -Lw Hw. revert Lw Hw. generalize widths. clear widths.
    induction columns as [|c cs IH]; intros [|w ws] L Hw; try discriminate; simpl; [reflexivity|].
    f_equal.
    - unfold py_times, py_len, dash, space. rewrite repeat_length.
      specialize (Hw w (or_introl eq_refl)).
      f_equal; f_equal; lia.
    - apply IH; [simpl in L; lia|]. intros; apply Hw; now right. }
  assert (G : forall A B (l : list A) (k : B) (f : list A -> B), l <> [] ->
              match l with [] => k | _ => f l end = f l) by (intros A B [|? ?] k f ?; congruence).
  eexists; eexists. split.
  { exact (G _ _ segments (Raise ValueError) (fun s => Ok [List.concat (map fst s); List.concat (map snd s)]) Hseg). }
  split.
  - rewrite F1. apply table_concat; [rewrite map_length; lia|].
    intros j Hj. rewrite Lw in Hj.
    rewrite (nth_indep _ [] (fst (@nil ascii, @nil ascii))) by (rewrite map_length; lia).
    rewrite map_nth. unfold widths. rewrite (nth_widths _ _ _ _ (@nil ascii, @nil ascii)) by lia.
    apply Nat.add_le_mono_r, Nat.le_max_l.
  - rewrite F2. apply table_concat; [rewrite map_length; lia|].
    intros j Hj.
    rewrite (nth_indep _ [] (repeat "-"%char (0 - padding))) by (rewrite map_length; lia).
    rewrite (map_nth (fun w => repeat "-"%char (w - padding))), repeat_length.
    rewrite Lw in Hj. unfold widths. rewrite (nth_widths _ _ _ _ (@nil ascii, @nil ascii)) by lia. lia.
Qed.

(** A row of as many values as there are columns is aligned with the header if no formatted value exceeds the width
    of its column; at least [gap] spaces follow each value that is [gap] characters shorter than its column. *)
Theorem C93_row columns placeholders padding p values gap :
  printer_for columns placeholders padding p ->
  let widths := documented_widths format columns (placeholder_list columns placeholders) padding in
  let texts := map (fun '(c, v) => format (snd c) v) (combine columns values) in
  List.length values = List.length columns ->
  (forall j, j < List.length columns -> List.length (nth j texts []) + gap <= nth j widths 0) ->
  exists line, print_row V format p values = [line] /\ table_line widths gap texts line.
Proof.
  intros H widths texts Lv Hfit.
  destruct (printer_forE _ _ _ _ H) as (E1 & E2 & E3 & E4 & E5).
  assert (Lw : List.length widths = List.length columns) by (apply length_widths; assumption).
  unfold print_row. rewrite E2, E4. fold widths.
  rewrite zip3_map_combine by lia. fold texts.
  eexists; split; [reflexivity|].
  apply table_concat.
  - unfold texts. rewrite map_length, combine_length. lia.
  - intros j Hj. apply Hfit. lia.
Qed.

(** An empty list of columns is refused. *)
Theorem C93_no_columns placeholders padding : new_printer V format zero [] placeholders padding = Raise ValueError.
Proof. reflexivity. Qed.
End Statements.

(** A value longer than its column moves all columns after it to the right, and no space separates it from them. *)
Theorem C93_long_values_refuted :
  exists (columns : list (pystr * pystr)) p (values : list (cell unit)) line,
    let fmt := format_cell unit (fun _ _ => DNan) in
    printer_for (cell unit) fmt (CInt 0) columns None 4 p /\
    List.length values = List.length columns /\
    print_row (cell unit) fmt p values = [line] /\
    line = str "-10000" ++ str "7" ++ repeat " "%char 4 /\
    ~ exists gap, table_line (documented_widths fmt columns (placeholder_list (cell unit) (CInt 0) columns None) 4)
                    gap (map (fun '(c, v) => fmt (snd c) v) (combine columns values)) line.
Proof.
  exists [(str "n", str "1d"); (str "m", str "1d")].
  eexists. exists [CInt (-10000); CInt 7]. eexists. cbv zeta.
  split.
  { split; [discriminate|]. split; [discriminate|]. unfold new_printer. reflexivity. }
  split; [reflexivity|]. split; [reflexivity|]. split; [reflexivity|].
  intros (gap & _ & H & _). vm_compute in H. discriminate H.
Qed.

(** ** The tables of the optimizers *)
Lemma digits_fuel_length fuel n k :
  n < fuel -> n < 10 ^ S k -> 1 <= List.length (digits_fuel fuel n) <= S k.
Proof.
  revert n k. induction fuel as [|fuel IH]; intros n k Hf Hn; [lia|].
  cbn [digits_fuel]. destruct (Nat.ltb_spec n 10); [cbn [List.length]; lia|].
  rewrite app_length. cbn [List.length].
  destruct k as [|k]; [simpl in Hn; lia|].
  assert (n / 10 < 10 ^ S k).
  { apply Nat.div_lt_upper_bound; [lia|]. change (10 ^ S (S k)) with (10 * 10 ^ S k) in Hn. lia. }
  assert (n / 10 < fuel) by (pose proof (Nat.div_lt n 10); lia).
  specialize (IH _ _ H1 H0). lia.
Qed.

Lemma digits_fuel_mono fuel fuel' n m :
  n < fuel -> m < fuel' -> n <= m -> List.length (digits_fuel fuel n) <= List.length (digits_fuel fuel' m).
Proof.
  revert fuel' n m. induction fuel as [|fuel IH]; intros fuel' n m Hn Hm H; [lia|].
  destruct fuel' as [|fuel']; [lia|]. cbn [digits_fuel].
  destruct (Nat.ltb_spec n 10), (Nat.ltb_spec m 10); rewrite ?app_length; cbn [List.length]; try lia.
  - assert (n / 10 <= m / 10) by (apply Nat.div_le_mono; lia).
    pose proof (Nat.div_lt n 10). pose proof (Nat.div_lt m 10).
    specialize (IH fuel' (n / 10) (m / 10) ltac:(lia) ltac:(lia) H2). lia.
Qed.

Lemma digits_length n k : n < 10 ^ S k -> List.length (digits n) <= S k.
Proof. intros H. unfold digits. pose proof (digits_fuel_length (S n) n k ltac:(lia) H). lia. Qed.
Lemma digits_mono n m : n <= m -> List.length (digits n) <= List.length (digits m).
Proof. intros; apply digits_fuel_mono; lia. Qed.
Lemma digits_pos n : 1 <= List.length (digits n).
Proof.
  assert (n < 10 ^ S n) by (pose proof (Nat.pow_gt_lin_r 10 (S n)); lia).
  pose proof (digits_fuel_length (S n) n n ltac:(lia) H). unfold digits. lia.
Qed.

(** reading the digits of a number back *)
Definition read (l : pystr) : nat := fold_left (fun n c => 10 * n + (nat_of_ascii c - 48)) l 0.
Lemma read_digits n : read (digits n) = n.
Proof.
  unfold digits. assert (H : n < S n) by lia. revert H. generalize (S n) as fuel.
  intros fuel. revert n. induction fuel as [|fuel IH]; intros n H; [lia|].
  cbn [digits_fuel]. unfold read in *.
  assert (D : forall d, d < 10 -> nat_of_ascii (digit d) - 48 = d).
  { intros d Hd. unfold digit. rewrite nat_ascii_embedding; [lia|].
    apply Nat.lt_trans with 100; [lia|apply Nat.ltb_lt; reflexivity]. }
  destruct (Nat.ltb_spec n 10).
  - cbn [fold_left]. rewrite D by lia. lia.
  - rewrite fold_left_app. rewrite IH by (pose proof (Nat.div_lt n 10); lia).
    cbn [fold_left].
    rewrite D by (apply Nat.mod_upper_bound; lia).
    pose proof (Nat.div_mod n 10). lia.
Qed.

Definition decimal_digit (c : ascii) : Prop := exists d, d < 10 /\ c = ascii_of_nat (48 + d).
Lemma digits_decimal n : List.Forall decimal_digit (digits n).
Proof.
  unfold digits. generalize (S n) as fuel. intros fuel. revert n. induction fuel as [|fuel IH]; intros n; [constructor|].
  cbn [digits_fuel]. destruct (Nat.ltb_spec n 10).
  - repeat constructor. exists n. split; [assumption|reflexivity].
  - apply Forall_app. split; [apply IH|]. repeat constructor. exists (n mod 10).
    split; [apply Nat.mod_upper_bound; lia|reflexivity].
Qed.
Lemma digits_head n : n <> 0 -> hd "0"%char (digits n) <> "0"%char.
Proof.
  unfold digits. assert (H : n < S n) by lia. revert H. generalize (S n) as fuel.
  intros fuel. revert n. induction fuel as [|fuel IH]; intros n H N; [lia|].
  cbn [digits_fuel]. destruct (Nat.ltb_spec n 10) as [L|L].
  - do 10 (destruct n as [|n]; [congruence || (intros E; vm_compute in E; discriminate E)|]). lia.
  - assert (Hn : n / 10 < fuel) by (pose proof (Nat.div_lt n 10); lia).
    assert (Nn : n / 10 <> 0) by (apply Nat.neq_0_lt_0, Nat.div_str_pos; lia).
    specialize (IH _ Hn Nn).
    destruct (digits_fuel fuel (n / 10)) as [|c l]; [simpl in IH; congruence|exact IH].
Qed.
Lemma digits_size n : 1 <= n -> 10 ^ (List.length (digits n) - 1) <= n < 10 ^ List.length (digits n).
Proof.
  unfold digits. assert (H : n < S n) by lia. revert H. generalize (S n) as fuel.
  intros fuel. revert n. induction fuel as [|fuel IH]; intros n H N; [lia|].
  cbn [digits_fuel]. destruct (Nat.ltb_spec n 10) as [L|L]; [simpl; lia|].
  rewrite app_length. cbn [List.length].
  assert (Hn : n / 10 < fuel) by (pose proof (Nat.div_lt n 10); lia).
  assert (Nn : 1 <= n / 10) by (apply Nat.div_str_pos; lia).
  specialize (IH _ Hn Nn). destruct (digits_fuel fuel (n / 10)) as [|c l] eqn:E.
  { exfalso. destruct fuel as [|fuel']; [lia|]. cbn [digits_fuel] in E.
    destruct (Nat.ltb_spec (n / 10) 10); [discriminate|]. destruct (digits_fuel fuel' (n / 10 / 10)); discriminate. }
  cbn [List.length] in *. replace (S (List.length l) + 1 - 1) with (S (List.length l)) by lia.
  replace (S (List.length l) - 1) with (List.length l) in IH by lia.
  replace (S (List.length l) + 1) with (S (S (List.length l))) by lia.
  rewrite (Nat.pow_succ_r' 10 (S (List.length l))). rewrite (Nat.pow_succ_r' 10 (List.length l)) at 1.
  pose proof (Nat.div_mod n 10 ltac:(lia)) as D. pose proof (Nat.mod_upper_bound n 10 ltac:(lia)).
  set (q := n / 10) in *. set (a := 10 ^ List.length l) in *. set (b := 10 ^ S (List.length l)) in *. lia.
Qed.

Lemma format_int_length w z k :
  (0 <= z)%Z -> Z.to_nat z < 10 ^ S k -> List.length (format_int w z) <= Nat.max w (S k) /\ w <= List.length (format_int w z).
Proof.
  intros Hz Hk. unfold format_int. rewrite (proj2 (Z.ltb_ge z 0)) by lia.
  rewrite Z.abs_eq by lia. simpl. pose proof (digits_length _ _ Hk).
  unfold py_times, py_len. rewrite app_length, repeat_length. lia.
Qed.
Lemma format_int_lengthZ w z k :
  (0 <= z < 10 ^ Z.of_nat (S k))%Z -> List.length (format_int w z) <= Nat.max w (S k).
Proof.
  intros H. apply (format_int_length w z k); [lia|].
  apply Nat2Z.inj_lt. rewrite Nat2Z.inj_pow, Z2Nat.id by lia. exact (proj2 H).
Qed.
Lemma format_int_small w z m :
  (0 <= z)%Z -> Z.to_nat z <= m -> List.length (format_int w z) <= Nat.max w (List.length (digits m)).
Proof.
  intros Hz Hk. unfold format_int. rewrite (proj2 (Z.ltb_ge z 0)) by lia.
  rewrite Z.abs_eq by lia. simpl. pose proof (digits_mono _ _ Hk).
  unfold py_times, py_len. rewrite app_length, repeat_length. lia.
Qed.

Section Optimizers.
Variables (Float : Type) (scientific : nat -> Float -> decimal).
(** binary64 numbers have decimal exponents of at most three digits; [p] digits after the point were asked for *)
Hypothesis scientific_ok : forall p x,
  match scientific p x with
  | DFinite _ _ fraction e => List.length fraction = p /\ (Z.abs e < 1000)%Z
  | _ => True
  end.
Let fmt := format_cell Float scientific.

Lemma sci_length plus p x : List.length (format_sci plus (scientific p x)) <= p + 8.
Proof.
  generalize (scientific_ok p x). destruct (scientific p x) as [|neg|neg d fr e]; intros H.
  - destruct plus; simpl; lia.
  - destruct plus, neg; simpl; lia.
  - destruct H as (Hf & He). unfold format_sci. rewrite !app_length, map_length, Hf. simpl.
    assert (L : List.length (digits (Z.to_nat (Z.abs e))) <= 3) by (apply digits_length; simpl; lia).
    pose proof (digits_pos (Z.to_nat (Z.abs e))).
    destruct (Nat.ltb_spec (List.length (digits (Z.to_nat (Z.abs e)))) 2);
      destruct neg, plus; simpl in *; lia.
Qed.

Lemma fmt_iteration m v : fmt (digits (iteration_format_length m) ++ str "d") (CInt v) = format_int (iteration_format_length m) v.
Proof.
  unfold fmt, format_cell. set (k := iteration_format_length m).
  assert (R : rev (digits k ++ str "d") = "d"%char :: rev (digits k)) by (rewrite rev_app_distr; reflexivity).
  assert (NE : forall s c l, rev (str s) = c :: l -> c <> "d"%char -> digits k ++ str "d" <> str s).
  { intros s c l Hs Hc E. rewrite <- E, R in Hs. congruence. }
  destruct (list_eq_dec _ _ (str "+.16e")) as [E|_]; [exfalso; revert E; eapply NE; [reflexivity|discriminate]|].
  destruct (list_eq_dec _ _ (str "+.8e")) as [E|_]; [exfalso; revert E; eapply NE; [reflexivity|discriminate]|].
  destruct (list_eq_dec _ _ (str ".8e")) as [E|_]; [exfalso; revert E; eapply NE; [reflexivity|discriminate]|].
  rewrite R. rewrite rev_involutive. fold (read (digits k)). now rewrite read_digits.
Qed.

(** The number of an iteration is printed in decimal, right-aligned in as many characters as the largest number needs: units are
    under units in all rows. *)
Theorem C93_iteration_numbers max_iterations (iteration : Z) : (0 <= iteration <= Z.of_nat max_iterations)%Z ->
  (forall columns, In columns [descent_columns max_iterations; swarm_columns max_iterations] ->
     fst (nth 0 columns ([], [])) = str "Iteration" /\
     exists blanks number, fmt (snd (nth 0 columns ([], []))) (CInt iteration) = repeat " "%char blanks ++ number /\
       number <> [] /\ List.Forall decimal_digit number /\ (iteration <> 0%Z -> hd "0"%char number <> "0"%char) /\
       Z.of_nat (read number) = iteration /\
       (1 <= max_iterations -> 10 ^ (blanks + List.length number - 1) <= max_iterations < 10 ^ (blanks + List.length number))).
Proof.
  intros H. assert (G : exists blanks number, fmt (digits (iteration_format_length max_iterations) ++ str "d") (CInt iteration)
      = repeat " "%char blanks ++ number /\ number <> [] /\ List.Forall decimal_digit number /\
      (iteration <> 0%Z -> hd "0"%char number <> "0"%char) /\ Z.of_nat (read number) = iteration /\
      (1 <= max_iterations -> 10 ^ (blanks + List.length number - 1) <= max_iterations < 10 ^ (blanks + List.length number))).
  { rewrite fmt_iteration. unfold format_int. rewrite (proj2 (Z.ltb_ge iteration 0)), Z.abs_eq by lia. simpl app.
    set (n := Z.to_nat iteration). assert (En : Z.of_nat n = iteration) by (unfold n; lia).
    assert (Ln : n <= max_iterations) by lia.
    exists (iteration_format_length max_iterations - List.length (digits n)), (digits n).
    pose proof (digits_mono _ _ Ln) as M. pose proof (digits_pos n).
    split. { unfold py_times, py_len, space. do 2 f_equal. lia. }
    split. { intros E. rewrite E in *. simpl in *. lia. }
    split; [apply digits_decimal|]. split; [intros N; apply digits_head; lia|]. split; [now rewrite read_digits|].
    intros Hm. unfold iteration_format_length.
    replace (List.length (digits max_iterations) - List.length (digits n) + List.length (digits n))
      with (List.length (digits max_iterations)) by lia.
    now apply digits_size. }
  intros columns [<-|[<-|[]]]; (split; [reflexivity|exact G]).
Qed.

(** A row of iteration, cost and gradient norm, for all iterations up to [max_iterations] and all floats, NaN and
    infinities included: the table is aligned, with at least two spaces between the columns. *)
Theorem C93_descent_table max_iterations p (iteration : Z) (cost gradient_norm : Float) :
  printer_for (cell Float) fmt (CInt 0) (descent_columns max_iterations) None 4 p ->
  (0 <= iteration <= Z.of_nat max_iterations)%Z ->
  let widths := documented_widths fmt (descent_columns max_iterations)
                  (placeholder_list _ (CInt 0) (descent_columns max_iterations) None) 4 in
  exists line, print_row (cell Float) fmt p [CInt iteration; CFloat cost; CFloat gradient_norm] = [line] /\
    table_line widths 2
      [format_int (iteration_format_length max_iterations) iteration;
       format_sci true (scientific 16 cost); format_sci false (scientific 8 gradient_norm)] line.
Proof.
  intros Hp Hi widths.
  assert (T : map (fun '(c, v) => fmt (snd c) v)
                (combine (descent_columns max_iterations) [CInt iteration; CFloat cost; CFloat gradient_norm])
              = [format_int (iteration_format_length max_iterations) iteration;
                 format_sci true (scientific 16 cost); format_sci false (scientific 8 gradient_norm)]).
  { simpl. f_equal. apply fmt_iteration. }
  rewrite <- T. apply C93_row; [exact Hp|reflexivity|].
  rewrite T. intros j Hj.
  change widths with (documented_widths fmt (descent_columns max_iterations)
                        (placeholder_list _ (CInt 0) (descent_columns max_iterations) None) 4).
  rewrite (nth_widths _ fmt (CInt 0) _ _ _ _ ([], [])) by (exact Hj || reflexivity).
  simpl in Hj. destruct j as [|[|[|j]]]; [| | |lia]; cbn [nth fst snd descent_columns].
  - cbn [placeholder_list descent_columns List.length repeat nth]. rewrite fmt_iteration.
    pose proof (format_int_small (iteration_format_length max_iterations) iteration max_iterations ltac:(lia) ltac:(lia)).
    destruct (format_int_length (iteration_format_length max_iterations) 0 0 ltac:(lia) ltac:(simpl; lia)) as (_ & H0).
    unfold iteration_format_length in *. lia.
  - pose proof (sci_length true 16 cost). cbn. lia.
  - pose proof (sci_length false 8 gradient_norm). cbn. lia.
Qed.

(** The same for particle swarm, for fewer than [10 ^ 16] cost evaluations. *)
Theorem C93_swarm_table max_iterations p (iteration evaluations : Z) (best : Float) :
  printer_for (cell Float) fmt (CInt 0) (swarm_columns max_iterations) None 4 p ->
  (0 <= iteration <= Z.of_nat max_iterations)%Z -> (0 <= evaluations < 10 ^ 16)%Z ->
  let widths := documented_widths fmt (swarm_columns max_iterations)
                  (placeholder_list _ (CInt 0) (swarm_columns max_iterations) None) 4 in
  exists line, print_row (cell Float) fmt p [CInt iteration; CInt evaluations; CFloat best] = [line] /\
    table_line widths 3
      [format_int (iteration_format_length max_iterations) iteration;
       format_int 7 evaluations; format_sci true (scientific 8 best)] line.
Proof.
  intros Hp Hi He widths.
  assert (T : map (fun '(c, v) => fmt (snd c) v)
                (combine (swarm_columns max_iterations) [CInt iteration; CInt evaluations; CFloat best])
              = [format_int (iteration_format_length max_iterations) iteration;
                 format_int 7 evaluations; format_sci true (scientific 8 best)]).
  { simpl. f_equal. apply fmt_iteration. }
  rewrite <- T. apply C93_row; [exact Hp|reflexivity|].
  rewrite T. intros j Hj.
  change widths with (documented_widths fmt (swarm_columns max_iterations)
                        (placeholder_list _ (CInt 0) (swarm_columns max_iterations) None) 4).
  rewrite (nth_widths _ fmt (CInt 0) _ _ _ _ ([], [])) by (exact Hj || reflexivity).
  simpl in Hj. destruct j as [|[|[|j]]]; [| | |lia]; cbn [nth fst snd swarm_columns].
  - cbn [placeholder_list swarm_columns List.length repeat nth]. rewrite fmt_iteration.
    pose proof (format_int_small (iteration_format_length max_iterations) iteration max_iterations ltac:(lia) ltac:(lia)).
    destruct (format_int_length (iteration_format_length max_iterations) 0 0 ltac:(lia) ltac:(simpl; lia)) as (_ & H0).
    unfold iteration_format_length in *. lia.
  - pose proof (format_int_lengthZ 7 evaluations 15 He) as H1.
    change (List.length (str "Cost evaluations")) with 16. lia.
  - pose proof (sci_length true 8 best). cbn. lia.
Qed.
End Optimizers.

(** An optimizer that is told to print its table but not to iterate fails, instead of returning the initial point as it does
    without the table. *)
Theorem C93_no_iterations_refuted columns verbosity max_iterations :
  ((2 <= verbosity)%Z -> max_iterations = 0%Z -> optimizer_table columns verbosity max_iterations = Raise OverflowError) /\
  ((2 <= verbosity)%Z -> (max_iterations < 0)%Z -> optimizer_table columns verbosity max_iterations = Raise ValueError) /\
  ((2 <= verbosity)%Z -> (0 < max_iterations)%Z ->
     optimizer_table columns verbosity max_iterations = Ok (Some (columns (Z.to_nat max_iterations)))) /\
  ((verbosity < 2)%Z -> optimizer_table columns verbosity max_iterations = Ok None).
Proof.
  unfold optimizer_table, iteration_format.
  destruct (Z.leb_spec 2 verbosity); (split; [|split; [|split]]); intros; try lia; subst; try reflexivity;
    destruct (Z.ltb_spec max_iterations 0); try lia; try reflexivity;
    destruct (Z.eqb_spec max_iterations 0); try lia; reflexivity.
Qed.

(** A concrete table: 1000 iterations, at iteration 42 with cost -1.5e-300 and a NaN gradient norm. *)
Definition sample (p : nat) (x : bool) : decimal :=
  if x then DNan else DFinite true 1 (5 :: repeat 0 (p - 1)) (-300).
Example sample_ok : forall p x, match sample (S p) x with
  | DFinite _ _ fraction e => List.length fraction = S p /\ (Z.abs e < 1000)%Z | _ => True end.
Proof. intros p []; simpl; [exact I|]. rewrite repeat_length. lia. Qed.
Example sample_table : exists p,
  printer_for (cell bool) (format_cell bool sample) (CInt 0) (descent_columns 1000) None 4 p /\
  print_header p =
    Ok [str "Iteration    Cost                       Gradient norm     ";
        str "---------    -----------------------    --------------    "] /\
  print_row (cell bool) (format_cell bool sample) p [CInt 42; CFloat false; CFloat true] =
    [str "  42         -1.5000000000000000e-300   nan               "].
Proof.
  eexists. split; [split; [discriminate|split; [discriminate|unfold new_printer; reflexivity]]|].
  split; vm_compute; reflexivity.
Qed.

Print Assumptions C93_header.
Print Assumptions C93_row.
Print Assumptions C93_no_columns.
Print Assumptions C93_long_values_refuted.
Print Assumptions C93_descent_table.
Print Assumptions C93_swarm_table.
