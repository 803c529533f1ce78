(** The dimension of a real vector space of arrays, independently of any manifold, and how to compute it. *)
From mathcomp Require Import all_ssreflect all_algebra.
From Verif Require Import Mat_Base Geometry_Spec.
Set Implicit Arguments.
Unset Strict Implicit.
Unset Printing Implicit Defensive.
Import GRing.Theory Num.Theory Order.TTheory.
Local Open Scope ring_scope.

(** ** Specification *)
Section Spec.
Variables (R : rcfType) (V : zmodType) (scale : R -> V -> V).
(** the laws of multiplication by real numbers *)
Definition scaling :=
  (forall a u v, scale a (u + v) = scale a u + scale a v) /\
  (forall a b v, scale (a + b) v = scale a v + scale b v) /\
  (forall a b v, scale a (scale b v) = scale (a * b) v) /\
  (forall v, scale 1 v = v).
(** [b] is a basis of [T]: [T] consists of the combinations of [b] with real coefficients, and the coefficients
    of a combination are determined by it *)
Definition basis_of (T : V -> Prop) (I : finType) (b : I -> V) :=
  (forall v, T v <-> exists c : I -> R, v = \sum_i scale (c i) (b i)) /\
  (forall c d : I -> R, \sum_i scale (c i) (b i) = \sum_i scale (d i) (b i) -> forall i, c i = d i).
Definition has_dimension (T : V -> Prop) (d : nat) := exists b : 'I_d -> V, basis_of T b.
End Spec.

(** ** Computation rules *)
Section Rules.
Variables (R : rcfType) (V : zmodType) (scale : R -> V -> V).
Hypothesis S : scaling scale.
Implicit Types (T : V -> Prop) (u v : V).
Lemma scDr a u v : scale a (u + v) = scale a u + scale a v. Proof. by case: S. Qed.
Lemma scDl a b v : scale (a + b) v = scale a v + scale b v. Proof. by case: S => _ []. Qed.
Lemma scM a b v : scale a (scale b v) = scale (a * b) v. Proof. by case: S => _ [] _ []. Qed.
Lemma sc1 v : scale 1 v = v. Proof. by case: S => _ [] _ []. Qed.
Lemma sc0l v : scale 0 v = 0. Proof. by apply: (addrI (scale 0 v)); rewrite -scDl !addr0. Qed.
Lemma sc0r a : scale a 0 = 0. Proof. by apply: (addrI (scale a 0)); rewrite -scDr !addr0. Qed.
Lemma scNr a v : scale a (- v) = - scale a v.
Proof. by apply: (addrI (scale a v)); rewrite -scDr !subrr sc0r. Qed.
Lemma scNl a v : scale (- a) v = - scale a v.
Proof. by apply: (addrI (scale a v)); rewrite -scDl !subrr sc0l. Qed.
Lemma sc_suml (J : Type) (r : seq J) (P : pred J) (a : J -> R) v :
  scale (\sum_(j <- r | P j) a j) v = \sum_(j <- r | P j) scale (a j) v.
Proof. by elim/big_rec2: _ => [|j x y _ <-]; rewrite ?sc0l ?scDl. Qed.
Lemma sc_sumr (J : Type) (r : seq J) (P : pred J) a (u : J -> V) :
  scale a (\sum_(j <- r | P j) u j) = \sum_(j <- r | P j) scale a (u j).
Proof. by elim/big_rec2: _ => [|j x y _ <-]; rewrite ?sc0r ?scDr. Qed.

Definition comb (I : finType) (b : I -> V) (c : I -> R) := \sum_i scale (c i) (b i).

(** A basis indexed by any finite type will do. *)
Lemma basis_dimension T (I : finType) (b : I -> V) : basis_of scale T b -> has_dimension scale T #|I|.
Proof.
move=> [E U]; exists (fun i => b (enum_val i)).
have K (c : 'I_#|I| -> R) : \sum_i scale (c i) (b (enum_val i)) = \sum_i scale (c (enum_rank i)) (b i).
  rewrite (reindex (@enum_val I I)); last by exists (@enum_rank I) => i _; rewrite ?enum_rankK ?enum_valK.
  by apply: eq_bigr => i _; rewrite enum_valK.
split=> [v|c d].
  rewrite E; split=> [[c ->]|[c ->]].
    exists (fun i => c (enum_val i)); rewrite K; apply: eq_bigr => i _; by rewrite enum_rankK.
  by exists (fun i => c (enum_rank i)); rewrite K.
by rewrite !K => /U H i; have := H (enum_val i); rewrite enum_valK.
Qed.

Lemma dimension_ext T T' d : (forall v, T v <-> T' v) -> has_dimension scale T d -> has_dimension scale T' d.
Proof. by move=> E [b [B U]]; exists b; split=> // v; rewrite -E. Qed.

Lemma dimension_subspace T d : has_dimension scale T d -> real_subspace scale T.
Proof.
move=> [b [B _]]; split; first by apply/B; exists (fun=> 0); rewrite big1 // => i _; rewrite sc0l.
split=> [u v /B [c ->] /B [e ->]|a v /B [c ->]]; apply/B.
  by exists (fun i => c i + e i); rewrite -big_split; apply: eq_bigr => i _; rewrite scDl.
by exists (fun i => a * c i); rewrite sc_sumr; apply: eq_bigr => i _; rewrite scM.
Qed.

(** The zero space. *)
Lemma dimension_zero : has_dimension scale (fun v => v = 0) 0.
Proof.
exists (fun=> 0); split=> [v|c d _ []//].
by split=> [->|[c ->]]; [exists (fun=> 0)|]; rewrite big_ord0.
Qed.
End Rules.

(** *** Linear maps *)
Section Maps.
Variables (R : rcfType) (V W : zmodType) (sv : R -> V -> V) (sw : R -> W -> W).
Hypotheses (SV : scaling sv) (SW : scaling sw).
Definition real_linear (f : V -> W) :=
  (forall u v, f (u + v) = f u + f v) /\ (forall a v, f (sv a v) = sw a (f v)).
Variable f : V -> W.
Hypothesis L : real_linear f.
Lemma lin0 : f 0 = 0.
Proof. by case: L => D _; apply: (addrI (f 0)); rewrite -D !addr0. Qed.
Lemma linN v : f (- v) = - f v.
Proof. by case: L => D _; apply: (addrI (f v)); rewrite -D !subrr lin0. Qed.
Lemma lin_comb (I : finType) (b : I -> V) (c : I -> R) : f (\sum_i sv (c i) (b i)) = \sum_i sw (c i) (f (b i)).
Proof.
case: L => D Z.
have -> : f (\sum_i sv (c i) (b i)) = \sum_i f (sv (c i) (b i)).
  by elim/big_rec2: _ => [|i x y _ <-]; [exact: lin0|rewrite D].
by apply: eq_bigr => i _; rewrite Z.
Qed.

(** Isomorphic spaces have the same dimension. *)
Lemma dimension_iso (T : V -> Prop) (T' : W -> Prop) d :
  (forall v, T v -> T' (f v)) -> (forall w, T' w -> exists2 v, T v & f v = w) ->
  (forall v, T v -> f v = 0 -> v = 0) ->
  has_dimension sv T d -> has_dimension sw T' d.
Proof.
move=> h1 h2 h3 D; have [T0 [TD TZ]] := dimension_subspace SV D.
case: D => b [B U]; exists (fun i => f (b i)); split=> [w|c e].
  split=> [/h2 [v /B [c ->] <-]|[c ->]]; first by exists c; rewrite lin_comb.
  by rewrite -lin_comb; apply: h1; apply/B; exists c.
rewrite -!lin_comb => E; apply: U; apply/eqP; rewrite -subr_eq0; apply/eqP; apply: h3.
  apply: TD; first by apply/B; exists c.
  by rewrite -(sc1 SV (\sum_i _)) -(scNl SV); apply: TZ; apply/B; exists e.
by case: L => D _; rewrite D linN E subrr.
Qed.
End Maps.

(** *** Rank and nullity *)
Section Nullity.
Variables (R : rcfType) (V W : zmodType) (sv : R -> V -> V) (sw : R -> W -> W).
Hypotheses (SV : scaling sv) (SW : scaling sw).

Lemma comb_mx (U : zmodType) (su : R -> U -> U) d (b : 'I_d -> U) (c : 'I_d -> R) :
  \sum_i su (c i) (b i) = \sum_i su ((\row_i c i) 0 i) (b i).
Proof. by apply: eq_bigr => i _; rewrite mxE. Qed.

(** The solutions of a linear equation with values in a space that is reached completely. *)
Lemma dimension_kernel (f : V -> W) (T : V -> Prop) (T' : W -> Prop) d e : real_linear sv sw f ->
  (forall v, T v -> T' (f v)) -> (forall w, T' w -> exists2 v, T v & f v = w) ->
  has_dimension sv T d -> has_dimension sw T' e ->
  (e <= d)%N /\ has_dimension sv (fun v => T v /\ f v = 0) (d - e).
Proof.
move=> L h1 h2 [b [B U]] [b' [B' U']].
have C i : exists c : 'rV[R]_e, f (b i) = \sum_j sw (c 0 j) (b' j).
  have : T' (f (b i)).
    apply: h1; apply/B; exists (fun j => (j == i)%:R).
    rewrite (bigD1 i) //= eqxx (sc1 SV) big1 ?addr0 // => j /negbTE ->; exact: (sc0l SV).
  by case/B' => c E; exists (\row_j c j); rewrite -comb_mx.
have [r hr] := fin_all_exists C.
pose A : 'M[R]_(d, e) := \matrix_i r i.
have fE (c : 'rV[R]_d) : f (\sum_i sv (c 0 i) (b i)) = \sum_j sw ((c *m A) 0 j) (b' j).
  rewrite (lin_comb L).
  transitivity (\sum_i \sum_j sw (c 0 i * r i 0 j) (b' j)).
    apply: eq_bigr => i _; rewrite hr (sc_sumr SW); apply: eq_bigr => j _; exact: (scM SW).
  rewrite exchange_big; apply: eq_bigr => j _; rewrite /= -(sc_suml SW).
  by congr sw; rewrite mxE; apply: eq_bigr => i _; rewrite mxE.
have inT (c : 'rV[R]_d) : T (\sum_i sv (c 0 i) (b i)) by apply/B; exists (fun i => c 0 i).
have rA : \rank A = e.
  apply/eqP; rewrite eqn_leq rank_leq_col /=.
  suff : (1%:M <= A)%MS by move/mxrankS; rewrite mxrank1.
  apply/row_subP => j; have : T' (b' j).
    apply/B'; exists (fun k => (k == j)%:R).
    rewrite (bigD1 j) //= eqxx (sc1 SW) big1 ?addr0 // => k /negbTE ->; exact: (sc0l SW).
  case/h2 => v /B [c ->]; rewrite comb_mx fE => E.
  apply/submxP; exists (\row_i c i); apply/rowP => k; rewrite [LHS]mxE [LHS]mxE.
  have : \sum_j0 sw ((\row_i c i *m A) 0 j0) (b' j0) = \sum_j0 sw ((j0 == j)%:R) (b' j0).
    rewrite E (bigD1 j) //= eqxx (sc1 SW) big1 ?addr0 // => k' /negbTE ->; exact: (sc0l SW).
  by move/U' => ->; rewrite eq_sym.
have ed : (e <= d)%N by rewrite -rA rank_leq_row.
split=> //; pose K := row_base (kermx A).
have rk : \rank (kermx A) = (d - e)%N by rewrite mxrank_ker rA.
rewrite -rk; exists (fun k => \sum_i sv (K k i) (b i)).
have KE (c : 'I_(\rank (kermx A)) -> R) :
    \sum_k sv (c k) (\sum_i sv (K k i) (b i)) = \sum_i sv (((\row_k c k) *m K) 0 i) (b i).
  transitivity (\sum_k \sum_i sv (c k * K k i) (b i)).
    by apply: eq_bigr => k _; rewrite (sc_sumr SV); apply: eq_bigr => i _; apply: (scM SV).
  rewrite exchange_big; apply: eq_bigr => i _; rewrite /= -(sc_suml SV); congr sv.
  by rewrite [RHS]mxE; apply: eq_bigr => k _; rewrite [X in _ = X * _]mxE.
split=> [v|c c'].
  split=> [[/B [c ->]]|[c ->]].
    rewrite comb_mx fE => E.
    have Z : (\row_i c i) *m A = 0.
      apply/rowP => j; have : \sum_j0 sw ((\row_i c i *m A) 0 j0) (b' j0) = \sum_j0 sw 0 (b' j0).
        by rewrite E big1 // => k _; apply: (sc0l SW).
      by move/U' => H; rewrite H mxE.
    have : (\row_i c i <= K)%MS by rewrite eq_row_base; apply/sub_kermxP.
    case/submxP => x E'; exists (fun k => x 0 k); rewrite KE; apply: eq_bigr => i _; congr sv.
    by rewrite E'; congr (fun y : 'rV_d => y 0 i); congr (_ *m K); apply/rowP => k; rewrite mxE.
  rewrite KE; split; first exact: inT.
  rewrite fE.
  have -> : (\row_k c k) *m K *m A = 0.
    have KA : K *m A = 0 by apply/sub_kermxP; rewrite eq_row_base.
    by rewrite -mulmxA KA mulmx0.
  by rewrite big1 // => j _; rewrite mxE (sc0l SW).
rewrite !KE => /U E k.
have : (\row_k c k) *m K = (\row_k c' k) *m K by apply/rowP => i; apply: E.
move/(row_free_inj (row_base_free _)) => H.
by have := congr1 (fun y : 'rV_ _ => y 0 k) H; rewrite !mxE.
Qed.

End Nullity.

Lemma dimension_le (R : rcfType) (V : zmodType) (scale : R -> V -> V) (T : V -> Prop) d e : scaling scale ->
  has_dimension scale T d -> has_dimension scale T e -> (e <= d)%N.
Proof.
move=> S hd he; have L : real_linear scale scale id by [].
have h1 v : T v -> T (id v) by [].
have h2 w : T w -> exists2 v, T v & id v = w by exists w.
by have [] := dimension_kernel S S L h1 h2 hd he.
Qed.
(** The dimension is determined by the space. *)
Lemma dimension_unique (R : rcfType) (V : zmodType) (scale : R -> V -> V) (T : V -> Prop) d e : scaling scale ->
  has_dimension scale T d -> has_dimension scale T e -> d = e.
Proof. by move=> S hd he; apply/eqP; rewrite eqn_leq (dimension_le S he hd) (dimension_le S hd he). Qed.

(** *** Cartesian products *)
Section Product.
Variables (R : rcfType) (V : zmodType) (scale : R -> V -> V) (K : finType).
Hypothesis S : scaling scale.
Definition fscale (a : R) (v : {ffun K -> V}) : {ffun K -> V} := [ffun i => scale a (v i)].
Lemma fscaling : scaling fscale.
Proof.
split; first by move=> a u v; apply/ffunP => i; rewrite !ffunE (scDr S).
split; first by move=> a b v; apply/ffunP => i; rewrite !ffunE (scDl S).
split; first by move=> a b v; apply/ffunP => i; rewrite !ffunE (scM S).
by move=> v; apply/ffunP => i; rewrite !ffunE (sc1 S).
Qed.
Lemma dimension_product (T : K -> V -> Prop) (d : K -> nat) :
  (forall i, has_dimension scale (T i) (d i)) ->
  has_dimension fscale (fun v => forall i, T i (v i)) (\sum_i d i).
Proof.
move=> H; have [b hb] := fin_all_exists H.
have -> : (\sum_i d i)%N = #|{: {i : K & 'I_(d i)}}|.
  rewrite card_tagged sumnE big_map big_enum /=; by apply: eq_bigr => i _; rewrite card_ord.
apply: (basis_dimension (b := fun p => [ffun j => if j == tag p then b (tag p) (tagged p) else 0])).
have E (c : {i : K & 'I_(d i)} -> R) j :
    (\sum_p fscale (c p) [ffun j => if j == tag p then b (tag p) (tagged p) else 0]) j =
    \sum_e scale (c (Tagged (fun i => 'I_(d i)) e)) (b j e).
  rewrite sum_ffunE.
  transitivity (\sum_(i : K) \sum_(e : 'I_(d i))
      (if j == i then scale (c (Tagged (fun i => 'I_(d i)) e)) (b i e) else 0)).
    rewrite sig_big_dep /=; apply: eq_big => [p|p _] //.
    by rewrite !ffunE; case: p => i e /=; case: eqP => // _; rewrite (sc0r S).
  rewrite (bigD1 j) //= eqxx [X in _ + X]big1 ?addr0 // => i /negbTE ne.
  by rewrite big1 // => e _; rewrite eq_sym ne.
split=> [v|c c' Ecc].
  split=> [hv|[c ->] i]; last by rewrite E; apply/(proj1 (hb i)); exists (fun e => c (Tagged (fun i => 'I_(d i)) e)).
  have C i : exists c : 'I_(d i) -> R, v i = \sum_e scale (c e) (b i e) by apply/(proj1 (hb i)).
  have [c hc] := fin_all_exists C.
  exists (fun p => c (tag p) (tagged p)); apply/ffunP => j; rewrite E; exact: hc.
case=> i e; have := congr1 (fun v : {ffun K -> V} => v i) Ecc; rewrite /= !E => /(proj2 (hb i)); exact.
Qed.
Corollary dimension_power (T : K -> V -> Prop) d : (forall i, has_dimension scale (T i) d) ->
  has_dimension fscale (fun v => forall i, T i (v i)) (#|K| * d).
Proof. by move=> H; have := dimension_product H; rewrite sum_nat_const. Qed.
End Product.

Section Pair.
Variables (R : rcfType) (V W : zmodType) (sv : R -> V -> V) (sw : R -> W -> W).
Hypotheses (SV : scaling sv) (SW : scaling sw).
Definition pscale (a : R) (p : V * W) : V * W := (sv a p.1, sw a p.2).
Lemma pscaling : scaling pscale.
Proof.
split; first by move=> a u v; rewrite /pscale (scDr SV) (scDr SW).
split; first by move=> a b v; rewrite /pscale (scDl SV) (scDl SW).
split; first by move=> a b v; rewrite /pscale /= (scM SV) (scM SW).
by case=> u v; rewrite /pscale /= (sc1 SV) (sc1 SW).
Qed.
Lemma fst_sum (I : finType) (f : I -> V * W) : (\sum_i f i).1 = \sum_i (f i).1.
Proof. by elim/big_rec2: _ => [|i x y _ <-]. Qed.
Lemma snd_sum (I : finType) (f : I -> V * W) : (\sum_i f i).2 = \sum_i (f i).2.
Proof. by elim/big_rec2: _ => [|i x y _ <-]. Qed.
Lemma dimension_pair (T : V -> Prop) (T' : W -> Prop) d e : has_dimension sv T d -> has_dimension sw T' e ->
  has_dimension pscale (fun p => T p.1 /\ T' p.2) (d + e).
Proof.
move=> [b [B U]] [b' [B' U']].
exists (fun i => match split i with inl j => (b j, 0) | inr j => (0, b' j) end).
have E (c : 'I_(d + e) -> R) :
    \sum_i pscale (c i) (match split i with inl j => (b j, 0) | inr j => (0, b' j) end) =
    (\sum_i sv (c (lshift e i)) (b i), \sum_i sw (c (rshift d i)) (b' i)).
  apply: injective_projections; rewrite /= ?fst_sum ?snd_sum big_split_ord /=.
    rewrite [X in _ + X]big1 ?addr0 => [|i _]; last by rewrite (unsplitK (inr i)) /= (sc0r SV).
    by apply: eq_bigr => i _; rewrite (unsplitK (inl i)).
  rewrite [X in X + _]big1 ?add0r => [|i _]; last by rewrite (unsplitK (inl i)) /= (sc0r SW).
  by apply: eq_bigr => i _; rewrite (unsplitK (inr i)).
split=> [[v w]|c c'].
  split=> [[/B [c /= ->] /B' [c' /= ->]]|[c]].
    exists (fun i => match split i with inl j => c j | inr j => c' j end); rewrite E.
    by congr pair; apply: eq_bigr => i _; rewrite ?(unsplitK (inl i)) ?(unsplitK (inr i)).
  rewrite E => -[-> ->]; split; first by apply/B; exists (fun i => c (lshift e i)).
  by apply/B'; exists (fun i => c (rshift d i)).
rewrite !E => -[/U E1 /U' E2] i; rewrite -(splitK i); case: (split i) => j /=; [exact: E1|exact: E2].
Qed.
End Pair.
