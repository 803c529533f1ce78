(** Inner product spaces that are finite products of copies of one inner product space. *)
From mathcomp Require Import all_ssreflect all_algebra.
From Coq Require Import Ring Field.
From Verif Require Import MCRing Mat_Base Geometry_Spec Calculus.
Set Implicit Arguments.
Unset Strict Implicit.
Unset Printing Implicit Defensive.
Import GRing.Theory Num.Theory Order.TTheory.
Local Open Scope ring_scope.

(** ** Sums of squares *)
Section Squares.
Variables (R : rcfType) (n : nat).
Implicit Types f g : 'I_n -> R.
Definition l2 f : R := Num.sqrt (\sum_j f j ^+ 2).
Lemma sum_sqr_ge0 f : 0 <= \sum_j f j ^+ 2. Proof. by apply: sumr_ge0 => j _; apply: sqr_ge0. Qed.
Lemma l2_ge0 f : 0 <= l2 f. Proof. exact: sqrtr_ge0. Qed.
Lemma l2_sqr f : l2 f ^+ 2 = \sum_j f j ^+ 2. Proof. by rewrite sqr_sqrtr // sum_sqr_ge0. Qed.
Lemma l2_norm f : l2 f = norm_of (@inner R (real_star R) 1 n) (\row_j f j).
Proof. by congr Num.sqrt; rewrite /inner big_ord1; apply: eq_bigr => j _; rewrite !mxE expr2. Qed.
Lemma l2_eq0 f : l2 f = 0 <-> forall j, f j = 0.
Proof.
split=> [H j|H]; last by rewrite /l2 big1 ?sqrtr0 // => j _; rewrite H expr0n.
have : \sum_j f j ^+ 2 = 0 by rewrite -l2_sqr H expr0n.
move/eqP; rewrite psumr_eq0; last by move=> i _; apply: sqr_ge0.
by move/allP/(_ j (mem_index_enum _)); rewrite /= sqrf_eq0 => /eqP.
Qed.
Lemma l2_le f g : (forall j, 0 <= f j) -> (forall j, f j <= g j) -> l2 f <= l2 g.
Proof.
move=> f0 fg; apply: ler_wsqrtr; apply: ler_sum => j _.
by rewrite ler_sqr ?nnegrE ?(le_trans (f0 j)).
Qed.
Lemma l2D f g : l2 (fun j => f j + g j) <= l2 f + l2 g.
Proof.
rewrite !l2_norm; have -> : \row_j (f j + g j) = \row_j f j + \row_j g j by apply/rowP => j; rewrite !mxE.
exact: (normD (@inner_ips R (real_star R) 1 n)).
Qed.
Lemma l2Z a f : 0 <= a -> l2 (fun j => a * f j) = a * l2 f.
Proof.
move=> a0; rewrite /l2 -{2}(ger0_norm a0) -sqrtr_sqr -sqrtrM ?sqr_ge0 // mulr_sumr.
by congr Num.sqrt; apply: eq_bigr => j _; rewrite exprMn.
Qed.
Lemma l2_entry f j : 0 <= f j -> f j <= l2 f.
Proof.
move=> f0; rewrite -(@ler_sqr _ _ (l2 f)) ?nnegrE ?l2_ge0 // l2_sqr (bigD1 j) //= ler_addl.
by apply: sumr_ge0 => i _; apply: sqr_ge0.
Qed.
End Squares.

Section Components.
Variables (R : rcfType) (n : nat).
Variables (V : zmodType) (scale : R -> V -> V) (dot : V -> V -> R).
Hypothesis I : inner_product_on scale everywhere dot.
Variables (W : zmodType) (scaleW : R -> W -> W) (dotW : W -> W -> R).
Hypothesis J : inner_product_on scaleW everywhere dotW.
Variable comp : 'I_n -> W -> V.
Hypothesis compB : forall j u v, comp j (u - v) = comp j u - comp j v.
Hypothesis compZ : forall j a u, comp j (scaleW a u) = scale a (comp j u).
Hypothesis compdot : forall u v, dotW u v = \sum_j dot (comp j u) (comp j v).
Local Notation norm := (norm_of dot).
Local Notation normW := (norm_of dotW).
Add Ring R_ring : (mc_ring R).
Implicit Types u v w : W.

Lemma comp0 j : comp j 0 = 0. Proof. by rewrite -(subrr 0) compB subrr. Qed.
Lemma compN j u : comp j (- u) = - comp j u. Proof. by rewrite -sub0r compB comp0 sub0r. Qed.
Lemma compD j u v : comp j (u + v) = comp j u + comp j v. Proof. by rewrite -{1}[v]opprK compB compN opprK. Qed.
Lemma comp_inj u v : (forall j, comp j u = comp j v) -> u = v.
Proof.
move=> H; apply: (dot_inj J) => w; rewrite !compdot; apply: eq_bigr => j _; by rewrite H.
Qed.
Lemma normW_l2 u : normW u = l2 (fun j => norm (comp j u)).
Proof. by rewrite /norm_of compdot; congr Num.sqrt; apply: eq_bigr => j _; rewrite (norm_sqr I). Qed.
Lemma norm_comp_le j u : norm (comp j u) <= normW u.
Proof. by rewrite normW_l2; apply: (l2_entry (f := fun j => norm (comp j u))); apply: (norm_ge0 dot). Qed.

Lemma projects_to_comp (T : 'I_n -> V -> Prop) v w :
  (forall j, projects_to dot (T j) (comp j v) (comp j w)) -> projects_to dotW (fun u => forall j, T j (comp j u)) v w.
Proof.
move=> H; split; first by move=> j; case: (H j).
split; first by move=> Hv; apply: comp_inj => j; case: (H j) => _ [E _]; apply: E.
by move=> t Ht; rewrite compdot big1 // => j _; rewrite compB; case: (H j) => _ [_ O]; apply: O.
Qed.
Lemma subspace_comp (T : 'I_n -> V -> Prop) : (forall j, real_subspace scale (T j)) ->
  real_subspace scaleW (fun u => forall j, T j (comp j u)).
Proof.
move=> H; split; first by move=> j; rewrite comp0; case: (H j).
split; first by move=> u v hu hv j; rewrite compD; case: (H j) => _ [D _]; apply: D.
by move=> a v hv j; rewrite compZ; case: (H j) => _ [_ Z]; apply: Z.
Qed.
(** componentwise retractions with a quadratic error *)
Lemma first_order_comp (T : W -> Prop) x (rx : W -> W) (C r : R) : T 0 -> 0 <= C -> 0 < r ->
  (forall j v, T v -> norm (comp j v) <= r -> norm (comp j (rx v) - (comp j x + comp j v)) <= C * norm (comp j v) ^+ 2) ->
  first_order dotW T x rx.
Proof.
move=> T0 C0 r0 H; apply: (first_order_quadratic J (C := C) (r := r)) => // v Tv vr.
rewrite normW_l2; apply: le_trans (_ : l2 (fun j => C * normW v * norm (comp j v)) <= _).
  apply: l2_le => j; first exact: (norm_ge0 dot).
  rewrite compB compD; apply: le_trans (H j v Tv (le_trans (norm_comp_le j v) vr)) _.
  by rewrite expr2 mulrA ler_wpmul2r ?(norm_ge0 dot) // ler_wpmul2l // norm_comp_le.
by rewrite l2Z ?mulr_ge0 ?(norm_ge0 dotW) // -normW_l2 expr2 mulrA.
Qed.
Lemma derives_comp c d : (forall j, derives scale dot (fun t => comp j (c t)) (comp j d)) -> derives scaleW dotW c d.
Proof.
move=> H e e0.
pose N : R := n%:R + 1.
have N0 : 0 < N by rewrite ltr_paddl ?ler0n ?ltr01.
have eN : 0 < e / N by rewrite divr_gt0.
have [r r0 Hr] : exists2 r, 0 < r & forall j t, `|t| <= r -> norm (comp j (c t) - comp j (c 0) - scale t (comp j d)) <= e / N * `|t|.
  have : forall s : seq 'I_n, exists2 r, 0 < r & forall j, j \in s -> forall t, `|t| <= r -> norm (comp j (c t) - comp j (c 0) - scale t (comp j d)) <= e / N * `|t|.
    elim=> [|i s [r r0 IH]]; first by exists 1; first exact: ltr01.
    have [r' r0' H'] := H i _ eN; exists (Num.min r r'); first by rewrite lt_minr r0 r0'.
    move=> j; rewrite inE => /orP[/eqP ->|js] t; rewrite le_minr => /andP[t1 t2]; [exact: H'|exact: IH].
  by move=> /(_ (enum 'I_n)) [r r0 K]; exists r => // j t; apply: K; rewrite mem_enum.
exists r => // t tr; rewrite normW_l2.
have E0 : 0 <= e / N * `|t| by rewrite mulr_ge0 ?normr_ge0 // ltW.
apply: le_trans (_ : l2 (fun j : 'I_n => e / N * `|t|) <= _).
  apply: l2_le => j; first exact: (norm_ge0 dot).
  by rewrite !compB compZ; apply: Hr.
rewrite -(@ler_sqr _ _ (e * _)) ?nnegrE ?mulr_ge0 ?normr_ge0 ?(ltW e0) ?l2_ge0 // l2_sqr sumr_const card_ord -mulr_natr.
have -> : (e / N * `|t|) ^+ 2 * n%:R = (e * `|t|) ^+ 2 * (n%:R * N^-1 ^+ 2).
  by rewrite !exprMn; move: (N^-1) (n%:R) => ? ?; mcring R.
rewrite ler_pimulr ?sqr_ge0 // exprVn ler_pdivr_mulr ?exprn_gt0 // mul1r.
have N1 : n%:R <= N by rewrite ler_addl ler01.
have N2 : 1 <= N by rewrite ler_addr ler0n.
by rewrite expr2; apply: le_trans N1 _; rewrite ler_pemulr // ltW.
Qed.
Lemma comp_derives c d j : derives scaleW dotW c d -> derives scale dot (fun t => comp j (c t)) (comp j d).
Proof.
move=> H e e0; have [r r0 K] := H e e0; exists r => // t /K; apply: le_trans.
by rewrite -compZ -!compB norm_comp_le.
Qed.
(** the product metric *)
Lemma metric_comp (D : V -> Prop) (d : V -> V -> R) : metric_on D d ->
  metric_on (fun u => forall j, D (comp j u)) (fun u v => l2 (fun j => d (comp j u) (comp j v))).
Proof.
move=> [M0 [M1 [M2 M3]]]; split; first by move=> *; apply: l2_ge0.
split.
  move=> u v hu hv; rewrite l2_eq0; split; last by move=> -> j; apply/M1.
  by move=> H; apply: comp_inj => j; apply/M1.
split; first by move=> u v hu hv; congr Num.sqrt; apply: eq_bigr => j _; rewrite M2.
move=> u v w hu hv hw; apply: le_trans (l2D _ _).
by apply: l2_le => j; [apply: M0|apply: M3].
Qed.
End Components.
