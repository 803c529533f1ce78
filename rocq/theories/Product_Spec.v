(** Vocabulary for the properties of product manifolds. *)
From Coq Require Import ZArith List Bool Reals.
From Verif Require Import Num_Model Num_Instances Problem_Model Product_Model.
Import ListNotations.

(** [row cols i a]: [a] lists the i-th item of every column. *)
Definition row {A} (cols : list (list A)) (i : nat) (a : list A) : Prop :=
  Forall2 (fun col x => nth_error col i = Some x) cols a.

(** [entrywise ms cols outs f]: there is one output per manifold, and the i-th is the value of
    [f] on the i-th manifold and the i-th entries of the arguments. *)
Definition entrywise {N} {AR : Arrays N} (ms : list (manifold AR)) (cols : list (list (val AR)))
    (f : manifold AR -> list (val AR) -> res (val AR)) (outs : list (val AR)) : Prop :=
  length outs = length ms /\
  forall i m a, nth_error ms i = Some m -> row cols i a ->
    exists o, nth_error outs i = Some o /\ f m a = Ok o.

(** The operations that act entry by entry, the number of their arguments, and the class of the result. *)
Definition entrywise_operations : list (meth * (nat * pycls)) :=
  [(MProjection, (2, CProductTV)); (MToTangent, (2, CProductTV)); (MGradient, (2, CProductTV));
   (MHessian, (4, CProductTV)); (MExp, (2, CList)); (MRetraction, (2, CList));
   (MLog, (2, CProductTV)); (MRandomPoint, (0, CList)); (MTransport, (3, CProductTV));
   (MPairMean, (2, CList)); (MZero, (1, CProductTV))]%nat.

Definition Rsum (l : list R) : R := fold_right Rplus 0%R l.

(** A real inner product on the tangent vectors in [T] at the point [x]. *)
Record inner_space {AR : Arrays Rnum} (m : manifold AR) (x : val AR) (T : val AR -> Prop)
    (ip : val AR -> val AR -> R) : Prop := {
  is_value : forall a b, T a -> T b -> mf_call m MInner [x; a; b] = Ok (Num (ip a b : Rnum));
  is_sym : forall a b, T a -> T b -> ip a b = ip b a;
  is_pos : forall a, T a -> (0 <= ip a a)%R;
  is_def : forall a, T a -> ip a a = 0%R -> mf_call m MZero [x] = Ok a;
  is_add : forall a b c d, T a -> T b -> T c -> T d -> val_add a b = Ok c ->
    ip c d = (ip a d + ip b d)%R;
  is_scale : forall (s : R) a b d, T a -> T b -> T d -> val_scale (s : Rnum) a = Ok b ->
    ip b d = (s * ip a d)%R }.

(** A metric on the points in [X]. *)
Record metric_space {AR : Arrays Rnum} (m : manifold AR) (X : val AR -> Prop)
    (d : val AR -> val AR -> R) : Prop := {
  ms_value : forall a b, X a -> X b -> mf_call m MDist [a; b] = Ok (Num (d a b : Rnum));
  ms_refl : forall a, X a -> d a a = 0%R;
  ms_sym : forall a b, X a -> X b -> d a b = d b a;
  ms_pos : forall a b, X a -> X b -> (0 <= d a b)%R;
  ms_sep : forall a b, X a -> X b -> d a b = 0%R -> a = b;
  ms_triangle : forall a b c, X a -> X b -> X c -> (d a c <= d a b + d b c)%R }.

(** The vectors in [T] form a real vector space under the Python operators. *)
Record vector_space {AR : Arrays Rnum} (T : val AR -> Prop) : Prop := {
  vs_add : forall a b, T a -> T b -> exists c, val_add a b = Ok c /\ T c;
  vs_neg : forall a, T a -> exists c, val_neg a = Ok c /\ T c;
  vs_scale : forall (s : R) a, T a -> exists c, val_scale (s : Rnum) a = Ok c /\ T c;
  vs_comm : forall a b, T a -> T b -> val_add a b = val_add b a;
  vs_assoc : forall a b c ab bc, T a -> T b -> T c ->
    val_add a b = Ok ab -> val_add b c = Ok bc -> val_add ab c = val_add a bc;
  vs_cancel : forall a b na z, T a -> T b ->
    val_neg a = Ok na -> val_add a na = Ok z -> val_add b z = Ok b;
  vs_one : forall a, T a -> val_scale (1%R : Rnum) a = Ok a;
  vs_scale_scale : forall (s t : R) a ta, T a ->
    val_scale (t : Rnum) a = Ok ta -> val_scale (s : Rnum) ta = val_scale ((s * t)%R : Rnum) a;
  vs_scale_add : forall (s : R) a b ab sa sb, T a -> T b ->
    val_add a b = Ok ab -> val_scale (s : Rnum) a = Ok sa -> val_scale (s : Rnum) b = Ok sb ->
    val_scale (s : Rnum) ab = val_add sa sb;
  vs_add_scale : forall (s t : R) a sa ta, T a ->
    val_scale (s : Rnum) a = Ok sa -> val_scale (t : Rnum) a = Ok ta ->
    val_scale ((s + t)%R : Rnum) a = val_add sa ta;
  vs_sub : forall a b nb, T a -> T b -> val_neg b = Ok nb -> val_sub a b = val_add a nb;
  vs_neg_scale : forall a, T a -> val_neg a = val_scale ((-1)%R : Rnum) a;
  vs_div : forall (s : R) a, s <> 0%R -> T a ->
    val_div a (s : Rnum) = val_scale ((/ s)%R : Rnum) a }.

(** Product tangent vectors with one entry per space. *)
Definition product_vectors {N} {AR : Arrays N} (Ts : list (val AR -> Prop)) (v : val AR) : Prop :=
  exists l, v = Seq CProductTV l /\ Forall2 (fun (T : val AR -> Prop) a => T a) Ts l.

(** Points of a product: any sequence object with one entry per component; equality of points is
    equality of entries. *)
Definition product_points {N} {AR : Arrays N} (c : pycls) (Xs : list (val AR -> Prop)) (v : val AR)
    : Prop :=
  exists l, v = Seq c l /\ Forall2 (fun (X : val AR -> Prop) a => X a) Xs l.

(** A component of a product together with a point on it, its tangent vectors and inner product there,
    its set of points and its distance. *)
Record component (AR : Arrays Rnum) := mkComponent {
  c_m : manifold AR;
  c_x : val AR;
  c_T : val AR -> Prop;
  c_ip : val AR -> val AR -> R;
  c_X : val AR -> Prop;
  c_d : val AR -> val AR -> R }.
Arguments c_m {AR} _.
Arguments c_x {AR} _.
Arguments c_T {AR} _ _.
Arguments c_ip {AR} _ _ _.
Arguments c_X {AR} _ _.
Arguments c_d {AR} _ _ _.

(** The values of two-argument functions on the entries of two sequences. *)
Fixpoint entry_values {AR : Arrays Rnum} (fs : list (val AR -> val AR -> R)) (a b : list (val AR))
    : list R :=
  match fs, a, b with
  | f :: fs', x :: a', y :: b' => f x y :: entry_values fs' a' b'
  | _, _, _ => []
  end.

Definition entries {N} {AR : Arrays N} (v : val AR) : list (val AR) :=
  match v with Seq _ l => l | _ => [] end.

(** Sum of the inner products of the entries; root of the sum of squared distances of the entries. *)
Definition sum_inner {AR : Arrays Rnum} (ips : list (val AR -> val AR -> R)) (a b : val AR) : R :=
  Rsum (entry_values ips (entries a) (entries b)).
Definition root_sum_squares {AR : Arrays Rnum} (ds : list (val AR -> val AR -> R)) (a b : val AR) : R :=
  sqrt (Rsum (map (fun d => d * d)%R (entry_values ds (entries a) (entries b)))).
