(** Vocabulary for the properties of [Problem]: how the entries of a point correspond to the
    flat list of arrays a cost function takes. *)
From Coq Require Import ZArith List Bool.
From Verif Require Import Num_Model Problem_Model.
Import ListNotations.

(** [parts sig entries flat]: a point with these entries, one per number in [sig], consists of the
    arrays [flat], in order.  An entry for 1 is the array itself (not a list or
    tuple); an entry for [k] is an object with [k] items. *)
Inductive parts {N} {AR : Arrays N} : list Z -> list (val AR) -> list (val AR) -> Prop :=
  | parts_nil : parts [] [] []
  | parts_one : forall v sig entries flat,
      is_seq v = false -> parts sig entries flat ->
      parts (1%Z :: sig) (v :: entries) (v :: flat)
  | parts_many : forall k v l sig entries flat,
      k <> 1%Z -> items v = Ok l -> Z.of_nat (length l) = k -> parts sig entries flat ->
      parts (k :: sig) (v :: entries) (l ++ flat).

(** [grouped c sig flat groups]: the returned values [flat], cut into consecutive groups of the sizes
    in [sig]; groups of size 1 are the bare value, others a sequence of class [c]. *)
Inductive grouped {N} {AR : Arrays N} (c : pycls)
    : list Z -> list (val AR) -> list (val AR) -> Prop :=
  | grouped_nil : grouped c [] [] []
  | grouped_one : forall v sig flat groups,
      grouped c sig flat groups -> grouped c (1%Z :: sig) (v :: flat) (v :: groups)
  | grouped_many : forall k l sig flat groups,
      k <> 1%Z -> Z.of_nat (length l) = k -> grouped c sig flat groups ->
      grouped c (k :: sig) (l ++ flat) (Seq c l :: groups).

(** The point [p] consists of the arrays [flat]. *)
Definition point_parts {N} {AR : Arrays N} (lay : layout) (p : val AR) (flat : list (val AR))
    : Prop :=
  match lay with
  | Groups sig => exists entries, items p = Ok entries /\ parts sig entries flat
  | Flat n => if Z.eqb n 1 then flat = [p] else items p = Ok flat
  end.

Definition total (sig : list Z) : Z := fold_right Z.add 0%Z sig.

(** Number of successful generations of the gradient (Hessian) operator. *)
Definition gradient_generations (log : list gen_event) : nat :=
  length (filter (fun e => match e with GenGradient true => true | _ => false end) log).
Definition hessian_generations (log : list gen_event) : nat :=
  length (filter (fun e => match e with GenHessian true => true | _ => false end) log).

(** All sizes of the layout are positive, as every constructed manifold guarantees. *)
Definition valid_layout (lay : layout) : Prop :=
  match lay with Flat n => (0 < n)%Z | Groups sig => Forall (fun k => (0 < k)%Z) sig end.

(** [structured lay r out]: [out] is the outcome [r] of a user function in the structure of a point.  For a
    manifold whose points are single arrays or plain tuples, the outcome is passed on.
    Otherwise the result must be a list or tuple with one entry per array, which is cut into
    groups (lists or tuples); any other result is a ValueError. *)
Definition structured {N} {AR : Arrays N} (lay : layout) (r out : res (val AR)) : Prop :=
  match lay with
  | Flat _ => out = r
  | Groups sig =>
      (forall e, r = Raise e -> out = Raise e) /\
      (forall c l, r = Ok (Seq c l) -> Z.of_nat (length l) = total sig ->
         exists c' groups, (c' = CList \/ c' = CTuple) /\
           grouped c' sig l groups /\ out = Ok (Seq CList groups)) /\
      (forall v, r = Ok v -> (forall c l, v = Seq c l -> Z.of_nat (length l) <> total sig) ->
         out = Raise ValueError)
  end.
