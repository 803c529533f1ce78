(** Product manifolds and their tangent vectors: src/pymanopt/manifolds/product.py. *)
From Coq Require Import ZArith List Bool.
From Verif Require Import Num_Model PyList_Model Problem_Model.
Import ListNotations.
Open Scope Z_scope.

(* ------------------------------------------------------------------ *)
(** ** Arithmetic of tangent vector objects *)

(** [f a (nth b)] for two lists of the same length; stops at the end of the shorter one. *)
Definition map2M {A B C} (f : A -> B -> res C) : list A -> list B -> res (list C) :=
  fix go l m := match l, m with
  | a :: l', b :: m' => let* c := f a b in let* t := go l' m' in Ok (c :: t)
  | _, _ => Ok []
  end.

(** Calling a class with the list of results: [return_as_class_instance], tools/__init__.py
    lines 18-33.  Named tuples take exactly three components. *)
Definition as_instance {N} {AR : Arrays N} (c : pycls) (l : list (val AR)) : res (val AR) :=
  match c with
  | CFixedRankPoint | CFixedRankTV =>
      if Nat.eqb (length l) 3 then Ok (Seq c l) else Raise TypeError
  | _ => Ok (Seq c l)
  end.

(** [-v].  Product tangent vectors: product.py lines 157-159; fixed-rank points and tangent
    vectors: fixed_rank.py lines 217-219; plain lists and tuples have no negation. *)
Fixpoint val_neg {N} {AR : Arrays N} (v : val AR) : res (val AR) :=
  match v with
  | Num x => Ok (Num (- x)%num)
  | Arr a => Ok (Arr (arr_neg AR a))
  | Seq (CProductTV as c) l | Seq (CFixedRankPoint as c) l | Seq (CFixedRankTV as c) l =>
      let* l' := mapM val_neg l in as_instance c l'
  | Seq _ _ => Raise TypeError
  end.

(** [v + w].  product.py lines 135-139, fixed_rank.py lines 237-239.  A plain list plus any list
    is their concatenation, and likewise for tuples.  Mixed operands (an array or a
    number with a sequence) are not modelled: they raise here. *)
Fixpoint val_add {N} {AR : Arrays N} (v w : val AR) : res (val AR) :=
  match v with
  | Num x => match w with Num y => Ok (Num (x + y)%num) | _ => Raise TypeError end
  | Arr a => match w with Arr b => let* c := arr_add AR a b in Ok (Arr c) | _ => Raise TypeError end
  | Seq CProductTV l =>
      let* m := items w in
      if Nat.eqb (length l) (length m) then
        let* r := map2M val_add l m in as_instance CProductTV r
      else Raise ValueError
  | Seq CFixedRankTV l =>
      let* m := items w in
      let* r := map2M val_add l m in as_instance CFixedRankTV r
  | Seq CList l =>
      match w with
      | Seq (CList | CProductTV) m => Ok (Seq CList (l ++ m))
      | _ => Raise TypeError
      end
  | Seq _ l =>
      match w with
      | Seq (CTuple | CFixedRankPoint | CFixedRankTV) m => Ok (Seq CTuple (l ++ m))
      | _ => Raise TypeError
      end
  end.

(** [v - w].  product.py lines 141-145, fixed_rank.py lines 241-243. *)
Fixpoint val_sub {N} {AR : Arrays N} (v w : val AR) : res (val AR) :=
  match v with
  | Num x => match w with Num y => Ok (Num (x - y)%num) | _ => Raise TypeError end
  | Arr a => match w with Arr b => let* c := arr_sub AR a b in Ok (Arr c) | _ => Raise TypeError end
  | Seq CProductTV l =>
      let* m := items w in
      if Nat.eqb (length l) (length m) then
        let* r := map2M val_sub l m in as_instance CProductTV r
      else Raise ValueError
  | Seq CFixedRankTV l =>
      let* m := items w in
      let* r := map2M val_sub l m in as_instance CFixedRankTV r
  | Seq _ _ => Raise TypeError
  end.

(** [s * v] and [v * s] for a float [s].  product.py lines 147-151, fixed_rank.py lines
    207-211.  (A float times a plain list or tuple is a TypeError.) *)
Fixpoint val_scale {N} {AR : Arrays N} (s : N) (v : val AR) : res (val AR) :=
  match v with
  | Num x => Ok (Num (s * x)%num)
  | Arr a => Ok (Arr (arr_scale AR s a))
  | Seq (CProductTV as c) l | Seq (CFixedRankPoint as c) l | Seq (CFixedRankTV as c) l =>
      let* l' := mapM (val_scale s) l in as_instance c l'
  | Seq _ _ => Raise TypeError
  end.

(** [v / s].  product.py lines 153-155, fixed_rank.py lines 213-215. *)
Fixpoint val_div {N} {AR : Arrays N} (v : val AR) (s : N) : res (val AR) :=
  match v with
  | Num x => let* q := ndiv N x s in Ok (Num q)
  | Arr a => Ok (Arr (arr_div AR a s))
  | Seq (CProductTV as c) l | Seq (CFixedRankPoint as c) l | Seq (CFixedRankTV as c) l =>
      let* l' := mapM (fun v => val_div v s) l in as_instance c l'
  | Seq _ _ => Raise TypeError
  end.

(* ------------------------------------------------------------------ *)
(** ** The manifold *)

(** One row of [zip]: the first item of every column, and the rest of the columns. *)
Fixpoint heads {A} (cols : list (list A)) : option (list A * list (list A)) :=
  match cols with
  | [] => Some ([], [])
  | [] :: _ => None
  | (a :: c) :: cols' =>
      match heads cols' with Some (hs, ts) => Some (a :: hs, c :: ts) | None => None end
  end.

(** [zip(self.manifolds, *args)]: stops at the end of the shortest. *)
Fixpoint zip_rows {M A} (ms : list M) (cols : list (list A)) : list (M * list A) :=
  match ms with
  | [] => []
  | m :: ms' =>
      match heads cols with
      | None => []
      | Some (hs, ts) => (m, hs) :: zip_rows ms' ts
      end
  end.

(** [_dispatch], lines 40-57. *)
Definition dispatch {N} {AR : Arrays N} (ms : list (manifold AR)) (method : meth)
    (transform : val AR -> res (val AR)) (reduction : list (val AR) -> res (val AR))
    : ufun AR :=
  fun args =>
    let* cols := mapM items args in
    let* return_values :=
      mapM (fun ma : manifold AR * list (val AR) =>
              let* v := mf_call (fst ma) method (snd ma) in transform v)
        (zip_rows ms cols) in
    reduction return_values.

(** The default [transform] and [reduction], and wrapping in a product tangent vector. *)
Definition keep {N} {AR : Arrays N} (v : val AR) : res (val AR) := Ok v.
Definition as_list {N} {AR : Arrays N} (l : list (val AR)) : res (val AR) := Ok (Seq CList l).
Definition as_ptv {N} {AR : Arrays N} (l : list (val AR)) : res (val AR) := Ok (Seq CProductTV l).

(** [np.sum] of a list of numbers, added from the left starting with 0 (NumPy adds
    long lists pairwise: a difference in rounding only).  Other entries are not modelled. *)
Definition num_of {N} {AR : Arrays N} (v : val AR) : res N :=
  match v with Num x => Ok x | _ => Raise TypeError end.
Definition nsum {N : NumOps} (l : list N) : N := fold_left (nadd N) l (n_of_Z N 0).
Definition np_sum {N} {AR : Arrays N} (l : list (val AR)) : res (val AR) :=
  let* xs := mapM num_of l in Ok (Num (nsum xs)).

(** [value**2], [np.sqrt(value)] *)
Definition square {N} {AR : Arrays N} (v : val AR) : res (val AR) :=
  let* x := num_of v in Ok (Num (x * x)%num).
Definition np_sqrt {N} {AR : Arrays N} (v : val AR) : res (val AR) :=
  let* x := num_of v in Ok (Num (nsqrt N x)).

(** [inner_product], lines 64-67. *)
Definition product_inner {N} {AR : Arrays N} (ms : list (manifold AR)) : ufun AR :=
  dispatch ms MInner keep np_sum.

(** The factor [len(self.manifolds) ** (-1 / 2)], line 113. *)
Definition tangent_scale {N : NumOps} (n : nat) : N :=
  npow N (n_of_Z N (Z.of_nat n)) (lit (-1) 2).

(** The methods, lines 59-131.  Calling a method with a wrong number of arguments is a
    TypeError.  [embedding] is not overridden: manifold.py lines 362-387 returns the
    tangent vector. *)
Definition product_call {N} {AR : Arrays N} (ms : list (manifold AR)) (method : meth) : ufun AR :=
  fun args =>
    match method, args with
    | MNorm, [p; v] => let* i := product_inner ms [p; v; v] in np_sqrt i
    | MInner, [_; _; _] => product_inner ms args
    | MDist, [_; _] => dispatch ms MDist square (fun l => let* s := np_sum l in np_sqrt s) args
    | MProjection, [_; _] => dispatch ms MProjection keep as_ptv args
    | MToTangent, [_; _] => dispatch ms MToTangent keep as_ptv args
    | MGradient, [_; _] => dispatch ms MGradient keep as_ptv args
    | MHessian, [_; _; _; _] => dispatch ms MHessian keep as_ptv args
    | MExp, [_; _] => dispatch ms MExp keep as_list args
    | MRetraction, [_; _] => dispatch ms MRetraction keep as_list args
    | MLog, [_; _] => dispatch ms MLog keep as_ptv args
    | MRandomPoint, [] => dispatch ms MRandomPoint keep as_list args
    | MRandomTangent, [_] =>
        dispatch ms MRandomTangent (val_scale (tangent_scale (length ms))) as_ptv args
    | MTransport, [_; _; _] => dispatch ms MTransport keep as_ptv args
    | MPairMean, [_; _] => dispatch ms MPairMean keep as_list args
    | MZero, [_] => dispatch ms MZero keep as_ptv args
    | MEmbedding, [_; v] => Ok v
    | _, _ => Raise TypeError
    end.

(** [typical_dist], lines 34-38. *)
Definition product_typical_dist {N} {AR : Arrays N} (ms : list (manifold AR)) : res N :=
  let* ds := mapM mf_typical_dist ms in
  Ok (nsqrt N (nsum (map (fun d : N => (d * d)%num) ds))).

(** [np.sum] of the dimensions, line 30: an integer, but the float [0.0] for no manifolds. *)
Definition product_dim {N} {AR : Arrays N} (ms : list (manifold AR)) : dim_arg :=
  match ms with [] => DFloat | _ => DInt (fold_right Z.add 0 (map mf_dim ms)) end.

(** The tuple of point layouts, line 31; an entry that is itself a sequence cannot be
    compared with 0 in [Manifold.__init__]. *)
Definition product_layout {N} {AR : Arrays N} (ms : list (manifold AR)) : layout_arg :=
  if forallb (fun m => match mf_layout m with Flat _ => true | _ => false end) ms
  then LSeq (map (fun m => match mf_layout m with Flat n => n | Groups _ => 0 end) ms)
  else LSeqBad.

(** [Product.__init__], lines 22-32. *)
Definition product_init {N} {AR : Arrays N} (ms : list (manifold AR)) : res (manifold AR) :=
  if existsb mf_product ms then Raise ValueError
  else
    let* (d, lay) := manifold_init (product_dim ms) (product_layout ms) in
    Ok (mkManifold true d lay (product_typical_dist ms) (product_call ms)).
