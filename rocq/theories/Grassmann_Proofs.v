(** Facts about one matrix for the Grassmann manifolds *)
From Coq Require Import Reals Lra.
From mathcomp Require Import all_ssreflect all_algebra.
From Verif Require Import Rstruct MCRing Mat_Base Geometry_Spec Linalg_Spec Calculus Components Multi_Model Multi_Proofs Stiefel_Proofs Sphere_Model Sphere_Proofs Expm.
Set Implicit Arguments.
Unset Strict Implicit.
Unset Printing Implicit Defensive.
Import GRing.Theory Num.Theory Order.TTheory.
Local Open Scope ring_scope.
Delimit Scope R_scope with Re.

(** ** Horizontal vectors *)
Section Horizontal.
Variables (R : rcfType) (F : starField R) (n p : nat).
Local Notation scale := (@rscale R F n p).
Local Notation dot := (@inner R F n p).
Local Notation I := (@inner_ips R F n p).
Implicit Types X V W g h : 'M[F]_(n, p).
Definition horizontal X V : Prop := X^H *m V = 0.
Definition gr_proj X V := V - X *m (X^H *m V).
Lemma horizontalC X V : horizontal X V -> V^H *m X = 0.
Proof. by move=> H; rewrite -[LHS]adjmxK adjmxM adjmxK H adjmx0. Qed.
Lemma horizontal_tangent X V : horizontal X V -> st_tangent X V.
Proof. by move=> H; rewrite /st_tangent H (horizontalC H) addr0. Qed.
Lemma horizontal_subspace X : real_subspace scale (horizontal X).
Proof.
split; first by rewrite /horizontal mulmx0.
split; first by move=> u v hu hv; rewrite /horizontal mulmxDr hu hv addr0.
by move=> a v hv; rewrite /horizontal -scalemxAr hv scaler0.
Qed.
Lemma horizontalN X V : horizontal X V -> horizontal X (- V).
Proof. by move=> H; rewrite /horizontal mulmxN H oppr0. Qed.
Lemma horizontalM X V (A : 'M[F]_p) : horizontal X V -> horizontal X (V *m A).
Proof. by move=> H; rewrite /horizontal mulmxA H mul0mx. Qed.
Lemma gr_proj_horizontal X V : orthonormal X -> horizontal X (gr_proj X V).
Proof. by move=> O; rewrite /horizontal /gr_proj mulmxBr mulmxA O mul1mx subrr. Qed.
Lemma gr_proj_id X V : horizontal X V -> gr_proj X V = V.
Proof. by move=> H; rewrite /gr_proj H mulmx0 subr0. Qed.
Lemma gr_proj_normal X (A : 'M[F]_p) : orthonormal X -> gr_proj X (X *m A) = 0.
Proof. by move=> O; rewrite /gr_proj (mulmxA X^H) O mul1mx subrr. Qed.
Lemma gr_projB X V W : gr_proj X (V - W) = gr_proj X V - gr_proj X W.
Proof. by rewrite /gr_proj !mulmxBr !opprD !opprK addrACA. Qed.
Lemma gr_inner X V W : horizontal X W -> dot (X *m (X^H *m V)) W = 0.
Proof. by move=> H; rewrite inner_mull H inner0r. Qed.
Lemma gr_projects X V : orthonormal X -> projects_to dot (horizontal X) V (gr_proj X V).
Proof.
move=> O; split; first exact: gr_proj_horizontal.
split; first exact: gr_proj_id.
by move=> t H; rewrite /gr_proj opprB addrCA subrr addr0 gr_inner.
Qed.
(** ** The Hessian conversion *)
Definition gr_hess X g h V := gr_proj X h - V *m (X^H *m g).
Lemma gr_hess_horizontal X g h V : orthonormal X -> horizontal X V -> horizontal X (gr_hess X g h V).
Proof.
move=> O H; rewrite /horizontal /gr_hess mulmxBr gr_proj_horizontal // mulmxA H mul0mx subrr //.
Qed.
Lemma gr_hess_inner X g h V W : horizontal X W -> dot (gr_hess X g h V) W = dot h W - dot (V *m (X^H *m g)) W.
Proof. by move=> H; rewrite !innerBl gr_inner // subr0. Qed.
Lemma gr_hess_derives X g h V (c e : R -> 'M[F]_(n, p)) : orthonormal X -> horizontal X V ->
  c 0 = X -> derives scale dot c V -> e 0 = g -> derives scale dot e h ->
  exists2 w, derives scale dot (fun t => gr_proj (c t) (e t)) w & gr_hess X g h V = gr_proj X w.
Proof.
move=> O H c0 Dc e0 De.
have D := derives_sub I De (derives_mul Dc (derives_mul (derives_adj Dc) De)).
exists (h - (V *m ((c 0)^H *m e 0) + c 0 *m (V^H *m e 0 + (c 0)^H *m h))); first exact: D.
rewrite c0 e0 /gr_hess opprD addrA gr_projB gr_proj_normal // subr0 gr_projB; congr (_ - _).
by rewrite gr_proj_id //; apply: horizontalM.
Qed.
End Horizontal.

(** ** Functions of the singular values *)
Section Singular.
Variables (R : rcfType) (F : starField R).
Definition svdfun m p (f : R -> R) (usv : 'M[F]_(m, p) * 'rV[R]_p * 'M[F]_p) : 'M[F]_(m, p) :=
  usv.1.1 *m real_diag F (map_mx f usv.1.2) *m usv.2.
Definition righteig m p (usv : 'M[F]_(m, p) * 'rV[R]_p * 'M[F]_p) : 'rV[R]_p * 'M[F]_p := (usv.1.2, usv.2^H).
Lemma diagM p (s : 'rV[R]_p) f g : real_diag F (map_mx f s) *m real_diag F (map_mx g s) = real_diag F (map_mx (fun x => f x * g x) s).
Proof.
apply/matrixP => i j; rewrite mul_diag_mx !mxE rmorphM /=.
by case: eqP => [->|]; rewrite ?mulr0 // !mulr1n.
Qed.
Lemma diag_ext p (s : 'rV[R]_p) f g : (forall i, f (s ord0 i) = g (s ord0 i)) ->
  real_diag F (map_mx f s) = real_diag F (map_mx g s).
Proof. by move=> H; congr real_diag; apply/rowP => i; rewrite !mxE. Qed.
Variables (m p : nat).
Implicit Types (A : 'M[F]_(m, p)) (usv : 'M[F]_(m, p) * 'rV[R]_p * 'M[F]_p).
Lemma svdP A usv : valid_svd A usv ->
  [/\ orthonormal usv.1.1, usv.2 *m usv.2^H = 1%:M, (forall i, 0 <= usv.1.2 ord0 i) & A = svdfun id usv].
Proof. by case: usv => [[u s] vt] [O [W [P E]]]; rewrite /svdfun /= map_mx_id. Qed.
Lemma svd_basis A usv : valid_svd A usv -> orthonormal (righteig usv).2.
Proof. by case/svdP => _ W _ _; rewrite /orthonormal /= adjmxK. Qed.
Lemma svd_basisC A usv : valid_svd A usv -> usv.2^H *m usv.2 = 1%:M.
Proof. by case/svdP => _ W _ _; apply: mulmx1C. Qed.
Lemma svdfun_ext f g usv : (forall i, f (usv.1.2 ord0 i) = g (usv.1.2 ord0 i)) -> svdfun f usv = svdfun g usv.
Proof. by move=> H; rewrite /svdfun (diag_ext (g := g)). Qed.
Lemma svdfunM f g usv : usv.2 *m usv.2^H = 1%:M ->
  svdfun f usv *m eigfun g (righteig usv) = svdfun (fun x => f x * g x) usv.
Proof. by move=> W; rewrite /svdfun /eigfun /righteig /= adjmxK !mulmxA -(mulmxA _ usv.2) W mulmx1 -(mulmxA usv.1.1) diagM. Qed.
Lemma svdfun_gram f g usv : orthonormal usv.1.1 -> (svdfun f usv)^H *m svdfun g usv = eigfun (fun x => f x * g x) (righteig usv).
Proof.
move=> O; rewrite /svdfun /eigfun /righteig /= adjmxK !adjmxM real_diag_adj !mulmxA -(mulmxA _ usv.1.1^H) O mulmx1.
by rewrite -(mulmxA usv.2^H) diagM.
Qed.
Lemma svd_gram A usv : valid_svd A usv -> valid_eigh (A^H *m A) (map_mx (fun x => x ^+ 2) usv.1.2, usv.2^H).
Proof.
move=> V; have [O W P E] := svdP V; have B := svd_basis V; split; first exact: B.
by rewrite {1 2}E svdfun_gram // /eigfun /= (diag_ext (g := fun x => x ^+ 2)).
Qed.
(** a function of the singular values only depends on the matrix *)
Lemma righteig_sqr A usv f : valid_svd A usv ->
  eigfun f (righteig usv) = eigfun (fun x => f (Num.sqrt x)) (map_mx (fun x => x ^+ 2) usv.1.2, usv.2^H).
Proof.
move=> V; have [O W P E] := svdP V; rewrite /eigfun /righteig /= -map_mx_comp.
rewrite (diag_ext (g := fun x => f (Num.sqrt (x ^+ 2)))) // => i.
by rewrite sqrtr_sqr ger0_norm.
Qed.
Lemma righteig_unique A usv usv' f : valid_svd A usv -> valid_svd A usv' ->
  eigfun f (righteig usv) = eigfun f (righteig usv').
Proof.
move=> V V'; rewrite (righteig_sqr f V) (righteig_sqr f V').
exact: eigfun_unique (svd_gram V) (svd_gram V').
Qed.
Lemma svdfun_unique A usv usv' f g : (forall x, 0 <= x -> f x = x * g x) -> valid_svd A usv -> valid_svd A usv' ->
  svdfun f usv = svdfun f usv'.
Proof.
move=> H V V'; have K w : valid_svd A w -> svdfun f w = A *m eigfun g (righteig w).
  by move=> U; have [O W P E] := svdP U; rewrite E svdfunM //; apply: svdfun_ext => i; rewrite H.
by rewrite (K _ V) (K _ V') (righteig_unique g V V').
Qed.
Lemma svd_sum A usv usv' (f : R -> R) : valid_svd A usv -> valid_svd A usv' ->
  \sum_i f (usv.1.2 ord0 i) ^+ 2 = \sum_i f (usv'.1.2 ord0 i) ^+ 2.
Proof.
move=> V V'; rewrite -(inner_eigfun f (svd_basis V)) -(inner_eigfun f (svd_basis V')).
by rewrite (righteig_unique f V V').
Qed.
Lemma svdfun_norm A usv (f : R -> R) : valid_svd A usv -> inner (svdfun f usv) (svdfun f usv) = \sum_i f (usv.1.2 ord0 i) ^+ 2.
Proof.
move=> V; have [O W P E] := svdP V; rewrite -(inner_eigfun f (svd_basis V)).
by rewrite /svdfun /eigfun /righteig /= adjmxK -!mulmxA (inner_orthonormal _ _ O) (inner_orthonormal _ _ (svd_basis V)).
Qed.
(** singular value decompositions of related matrices *)
Lemma svd_map A usv f : valid_svd A usv -> (forall x, 0 <= x -> 0 <= f x) ->
  valid_svd (svdfun f usv) (usv.1.1, map_mx f usv.1.2, usv.2).
Proof.
by move=> V H; have [O W P E] := svdP V; split=> //; split=> //; split=> // i; rewrite mxE H.
Qed.
Lemma svd_right A usv (Q : 'M[F]_p) : valid_svd A usv -> Q *m Q^H = 1%:M ->
  valid_svd (A *m Q) (usv.1.1, usv.1.2, usv.2 *m Q).
Proof.
move=> V QQ; have [O W P E] := svdP V; split=> //; split; last first.
  by split=> //; rewrite /= E /svdfun map_mx_id // !mulmxA.
by rewrite adjmxM mulmxA -(mulmxA _ Q) QQ mulmx1.
Qed.
Lemma svd_left q A usv (Q : 'M[F]_(q, m)) : valid_svd A usv -> orthonormal Q ->
  valid_svd (Q *m A) (Q *m usv.1.1, usv.1.2, usv.2).
Proof.
move=> V QQ; have [O W P E] := svdP V; split; last first.
  by split=> //; split=> //; rewrite E /svdfun map_mx_id // !mulmxA.
by rewrite /orthonormal adjmxM mulmxA -(mulmxA _ Q^H) QQ mulmx1.
Qed.
End Singular.

(** ** Curves in terms of the singular values *)
Section Pairs.
Variables (R : rcfType) (F : starField R) (n p : nat).
Local Notation dot := (@inner R F n p).
Lemma eigfunD q f g (wv : 'rV[R]_q * 'M[F]_q) : eigfun f wv + eigfun g wv = eigfun (fun x => f x + g x) wv.
Proof.
rewrite /eigfun -mulmxDl -mulmxDr; congr (_ *m _ *m _); apply/matrixP => i j; rewrite !mxE.
by rewrite rmorphD mulrnDl.
Qed.
Variables (X V : 'M[F]_(n, p)) (usv : 'M[F]_(n, p) * 'rV[R]_p * 'M[F]_p).
Hypothesis (O : orthonormal X) (H : horizontal X V) (S : valid_svd V usv).
Lemma svdfun_right f : f 0 = 0 -> svdfun f usv = V *m eigfun (fun x => f x / x) (righteig usv).
Proof.
move=> f0; have [_ W _ E] := svdP S; rewrite E svdfunM //; apply: svdfun_ext => i.
by have [->|x0] := eqVneq (usv.1.2 ord0 i) 0; rewrite ?f0 ?mul0r // mulrC divfK.
Qed.
Lemma svdfun_horizontal f : f 0 = 0 -> horizontal X (svdfun f usv).
Proof. by move=> f0; rewrite svdfun_right //; apply: horizontalM. Qed.
Definition pair f g : 'M[F]_(n, p) := X *m eigfun f (righteig usv) + svdfun g usv.
Lemma pair_gram a b c d : b 0 = 0 -> d 0 = 0 -> (pair a b)^H *m pair c d = eigfun (fun x => a x * c x + b x * d x) (righteig usv).
Proof.
move=> b0 d0; have [OU _ _ _] := svdP S; have B := svd_basis S.
rewrite /pair adjmxD mulmxDl !mulmxDr adjmxM [(eigfun _ _)^H]eigfun_hermitian mulmxA -(mulmxA _ X^H) O mulmx1 eigfunM //.
rewrite -(mulmxA (eigfun _ _) X^H) (svdfun_horizontal d0) mulmx0 addr0.
rewrite (mulmxA _ X) (horizontalC (svdfun_horizontal b0)) mul0mx add0r svdfun_gram // eigfunD.
by [].
Qed.
Lemma pair_left f g : g 0 = 0 -> X^H *m pair f g = eigfun f (righteig usv).
Proof. by move=> g0; rewrite /pair mulmxDr mulmxA O mul1mx (svdfun_horizontal g0) addr0. Qed.
Lemma pair_right f g h : pair f g *m eigfun h (righteig usv) = pair (fun x => f x * h x) (fun x => g x * h x).
Proof.
have [_ W _ _] := svdP S; have B := svd_basis S.
by rewrite /pair mulmxDl -mulmxA eigfunM // svdfunM.
Qed.
Lemma svd_square : V^H *m V = eigfun (fun x => x ^+ 2) (righteig usv).
Proof.
have [OU _ _ E] := svdP S; rewrite {1 2}E svdfun_gram //; exact: eigfun_ext.
Qed.
Lemma pair_orthonormal f g : g 0 = 0 -> (forall x, f x ^+ 2 + g x ^+ 2 = 1) -> orthonormal (pair f g).
Proof.
move=> g0 fg; rewrite /orthonormal pair_gram // (@eigfun_ext _ _ _ _ (fun=> 1)) ?eigfun_const //.
  exact: svd_basis S.
by move=> i; rewrite -!expr2.
Qed.
Lemma inner_gram_eq m (A : 'M[F]_(m, p)) (B : 'M[F]_(n, p)) : A^H *m A = B^H *m B -> inner A A = dot B B.
Proof. by move=> E; rewrite !innerE E. Qed.
End Pairs.
Lemma pair_unique (R : rcfType) (F : starField R) n p (X V : 'M[F]_(n, p)) usv usv' f g : g 0 = 0 ->
  valid_svd V usv -> valid_svd V usv' -> pair X usv f g = pair X usv' f g.
Proof.
by move=> g0 S S'; rewrite /pair !(svdfun_right (V := V)) // !(righteig_unique _ S S').
Qed.
Lemma pair_map (R : rcfType) (F : starField R) n p (X : 'M[F]_(n, p)) usv f g h :
  pair X (usv.1.1, map_mx h usv.1.2, usv.2) f g = pair X usv (fun x => f (h x)) (fun x => g (h x)).
Proof. by rewrite /pair /svdfun /eigfun /righteig /= -!map_mx_comp. Qed.

(** ** Geodesics *)
Section Geodesic.
Variables (F : starField RR) (n p : nat).
Local Notation scale := (@rscale RR F n p).
Local Notation dot := (@inner RR F n p).
Local Notation I := (@inner_ips RR F n p).
Implicit Types X Y V W : 'M[F]_(n, p).
Definition grexp X usv : 'M[F]_(n, p) := pair X usv cos sin.
Definition grcurve X usv (t : RR) : 'M[F]_(n, p) := pair X usv (fun x => cos (t * x)%R) (fun x => sin (t * x)%R).
Definition grvel X usv (t : RR) : 'M[F]_(n, p) := pair X usv (fun x => - (x * sin (t * x)%R)) (fun x => x * cos (t * x)%R).
Lemma sin00 : (sin 0 : RR) = 0. Proof. exact: sin_0. Qed.
Lemma sin0t (t : RR) : sin (t * 0)%R = 0 :> RR. Proof. by rewrite mulr0 sin00. Qed.
Lemma grexp_curve X V usv w t : valid_svd V usv -> valid_svd (scale t V) w -> grexp X w = grcurve X usv t.
Proof.
move=> S S'; have [O W P E] := svdP S.
have [t0|t0] := lerP 0 t.
  have S1 : valid_svd (scale t V) (usv.1.1, map_mx (fun x => t * x) usv.1.2, usv.2).
    split=> //; split=> //; split; first by move=> i; rewrite mxE mulr_ge0.
    rewrite E /svdfun /rscale map_mx_id // scalemxAl scalemxAr; congr (_ *m _ *m _).
    by apply/matrixP => i j; rewrite !mxE rmorphM /= mulrnAr.
  by rewrite /grexp (pair_unique X cos sin00 S' S1) pair_map.
have S1 : valid_svd (scale t V) (- usv.1.1, map_mx (fun x => - t * x) usv.1.2, usv.2).
  split; first by rewrite /orthonormal adjmxN mulNmx mulmxN opprK.
  split=> //; split; first by move=> i; rewrite mxE mulr_ge0 // oppr_ge0 ltW.
  rewrite E /svdfun /rscale map_mx_id // scalemxAl scalemxAr mulNmx -mulmxN; congr (_ *m _ *m _).
  by apply/matrixP => i j; rewrite !mxE -mulNrn -rmorphN /= mulNr opprK rmorphM /= mulrnAr.
rewrite /grexp (pair_unique X cos sin00 S' S1) -[- usv.1.1]/((- usv.1.1, usv.1.2, usv.2).1.1).
rewrite (pair_map X (- usv.1.1, usv.1.2, usv.2)) /grcurve /pair; congr (_ + _).
  congr (_ *m _); apply: eigfun_ext => i /=; rewrite mulNr; exact: cos_neg.
rewrite /svdfun /= mulNmx -mulmxN; congr (_ *m _ *m _); apply/matrixP => i j; rewrite !mxE -mulNrn -rmorphN /=.
congr (sf_real _ *+ _); rewrite mulNr; have := sin_neg (t * usv.1.2 ord0 i)%R => ->; exact: opprK.
Qed.
Section Curve.
Variables (X V : 'M[F]_(n, p)) (usv : 'M[F]_(n, p) * 'rV[RR]_p * 'M[F]_p).
Hypothesis (O : orthonormal X) (H : horizontal X V) (S : valid_svd V usv).
Lemma grcurve_orthonormal t : orthonormal (grcurve X usv t).
Proof. by apply: (pair_orthonormal O H S (sin0t t)) => x; apply: cos2sin2. Qed.
Lemma grcurve0 : grcurve X usv 0 = X.
Proof.
rewrite /grcurve /pair (@eigfun_ext _ _ _ _ (fun=> 1)) => [|i]; last by rewrite mul0r; apply: cos_0.
rewrite eigfun_const ?mulmx1; last exact: svd_basis S.
rewrite (@svdfun_ext _ _ _ _ _ (fun=> 0)) => [|i]; last by rewrite mul0r sin00.
rewrite /svdfun (_ : real_diag F _ = 0) ?mulmx0 ?mul0mx ?addr0 //.
by apply/matrixP => i j; rewrite !mxE rmorph0 mul0rn.
Qed.
Lemma grvel0 : grvel X usv 0 = V.
Proof.
have [_ _ _ E] := svdP S.
rewrite /grvel /pair (@eigfun_ext _ _ _ _ (fun=> 0)) => [|i]; last by rewrite mul0r sin00 mulr0 oppr0.
rewrite (@svdfun_ext _ _ _ _ _ id) => [|i]; last by rewrite mul0r [cos 0]cos_0; apply: mulr1.
rewrite -E /eigfun (_ : real_diag F _ = 0) ?mulmx0 ?mul0mx ?add0r ?mulmx0 ?add0r //.
by apply/matrixP => i j; rewrite !mxE rmorph0 mul0rn.
Qed.
Lemma grvel_horizontal t : horizontal (grcurve X usv t) (grvel X usv t).
Proof.
rewrite /horizontal (pair_gram O H S) ?mul0r ?sin0t // (@eigfun_ext _ _ _ _ (fun=> 0)) => [|i].
  rewrite /eigfun (_ : real_diag F _ = 0) ?mulmx0 ?mul0mx //.
  by apply/matrixP => i j; rewrite !mxE rmorph0 mul0rn.
rewrite mulrN addrC; apply/eqP; rewrite subr_eq0; apply/eqP; rewrite mulrCA [RHS]mulrCA; congr (_ * _); exact: mulrC.
Qed.
Lemma grvel_norm t : dot (grvel X usv t) (grvel X usv t) = dot V V.
Proof.
apply: inner_gram_eq; rewrite (svd_square S) (pair_gram O H S) ?mul0r //; apply: eigfun_ext => i.
set x := usv.1.2 ord0 i; rewrite mulrNN -!expr2 !exprMn -mulrDr addrC -[RHS]mulr1; congr (_ * _).
exact: cos2sin2.
Qed.
(** *** derivatives *)
Lemma derives_sum m q (J : Type) (r : seq J) (c : J -> RR -> 'M[F]_(m, q)) d :
  (forall j, derives (@rscale RR F m q) (@inner RR F m q) (c j) (d j)) ->
  derives (@rscale RR F m q) (@inner RR F m q) (fun t => \sum_(j <- r) c j t) (\sum_(j <- r) d j).
Proof.
move=> D; elim: r => [|j r IH].
  by rewrite big_nil; apply: derives_ext (derives_const (@inner_ips RR F m q) 0) => t; rewrite big_nil.
rewrite big_cons; apply: derives_ext (derives_add (@inner_ips RR F m q) (D j) IH) => t; by rewrite big_cons.
Qed.
Lemma diag_derives q (s : 'rV[RR]_q) (f : R -> R -> R) (f' : R -> R) t :
  (forall x, derivable_pt_lim (fun u => f u x) t (f' x)) ->
  derives (@rscale RR F q q) (@inner RR F q q) (fun h => real_diag F (map_mx (f (t + h)) s)) (real_diag F (map_mx f' s)).
Proof.
move=> D.
have E (g : RR -> RR) : real_diag F (map_mx g s) = \sum_i rscale (g (s ord0 i)) (delta_mx i i).
  apply/matrixP => i j; rewrite summxE (bigD1 i) //= big1 ?addr0 => [|l li]; last first.
    by rewrite !mxE (eq_sym i l) (negbTE li) /= mulr0.
  by rewrite !mxE eqxx eq_sym mulr_natr.
rewrite E; apply: (@derives_ext _ _ _ _ (fun h => \sum_i rscale (f (t + h) (s ord0 i)) (delta_mx i i))) => [h|].
  by rewrite E.
apply: derives_sum => i.
have := derives_scale (@inner_ips RR F q q) (derives_real (D (s ord0 i))) (derives_const (@inner_ips RR F q q) (delta_mx i i)).
by rewrite (ipsZ0r (@inner_ips RR F q q)) addr0.
Qed.
Lemma derives_sides m q a b (A : 'M[F]_(m, q)) (B : 'M[F]_(a, b)) (c : RR -> 'M[F]_(q, a)) d :
  derives (@rscale RR F q a) (@inner RR F q a) c d ->
  derives (@rscale RR F m b) (@inner RR F m b) (fun t => A *m c t *m B) (A *m d *m B).
Proof.
move=> D; have := derives_mul (derives_mul (derives_const (@inner_ips RR F m q) A) D) (derives_const (@inner_ips RR F a b) B).
by rewrite mul0mx add0r mulmx0 addr0.
Qed.
Lemma pair_derives (f g : R -> R -> R) (f' g' : R -> R) t :
  (forall x, derivable_pt_lim (fun u => f u x) t (f' x)) -> (forall x, derivable_pt_lim (fun u => g u x) t (g' x)) ->
  derives scale dot (fun h => pair X usv (f (t + h)) (g (t + h))) (pair X usv f' g').
Proof.
move=> Df Dg; rewrite /pair /svdfun /eigfun /righteig /=; apply: (derives_add I).
  apply: (@derives_ext _ _ _ _ (fun h => X *m usv.2^H *m real_diag F (map_mx (f (t + h)) usv.1.2) *m usv.2^H^H)) => [h|].
    by rewrite !mulmxA.
  by rewrite !mulmxA; apply: derives_sides; apply: diag_derives.
by apply: derives_sides; apply: diag_derives.
Qed.
Lemma grcurve_velocity t : derives scale dot (fun h => grcurve X usv (t + h)) (grvel X usv t).
Proof. by apply: (pair_derives (f := fun u x => cos (u * x)%R) (g := fun u x => sin (u * x)%R)) => x; [apply: cos_lin|apply: sin_lin]. Qed.
Lemma grcurve_acceleration t : derives scale dot (fun h => grvel X usv (t + h)) (- (grcurve X usv t *m (V^H *m V))).
Proof.
have -> : - (grcurve X usv t *m (V^H *m V)) = pair X usv (fun x => - (x * (x * cos (t * x)%R))) (fun x => x * (- (x * sin (t * x)%R))).
  rewrite (svd_square S) /grcurve (pair_right _ S) /pair opprD -mulmxN eigfun_opp; congr (_ *m _ + _).
    by apply: eigfun_ext => i; congr (- _); rewrite mulrC expr2 -mulrA.
  rewrite /svdfun -mulNmx -mulmxN; congr (_ *m _ *m _); apply/matrixP => i j; rewrite !mxE -mulNrn -rmorphN /=.
  by congr (sf_real _ *+ _); rewrite mulrN mulrC expr2 mulrA.
apply: (pair_derives (f := fun u x => - (x * sin (u * x)%R)) (g := fun u x => x * cos (u * x)%R)) => x.
  by apply: derivable_pt_lim_opp; apply: scal_lim; apply: sin_lin.
by apply: scal_lim; apply: cos_lin.
Qed.
End Curve.
End Geodesic.
