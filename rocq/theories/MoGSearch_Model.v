(** Model of the line search of examples/notebooks/mixture_of_gaussians.py, lines 208-307.

    The objective is partial: [None] stands for the exception [np.linalg.LinAlgError].  The search overwrites the array of its
    argument [x] in place (line 305), so the model returns the caller's point as it is afterwards.  [replace newx x] is [x] with the
    matrices replaced whose counterparts in [newx] are singular (lines 298-305); the random point is part of the function. *)
From Coq Require Import ZArith List Bool.
From Verif Require Import Num_Model LineSearch_Model.
Import ListNotations.
Local Open Scope num_scope.

Section MoG.
Context {N : NumOps} (M : Mfd N).
Variables (f : pt M -> option N) (replace : pt M -> pt M -> pt M).

(** [_newxnewf], lines 293-307: the tried point, its cost and whether it was reset ([None]: the exception leaves the function), and the
    caller's point *)
Definition newxnewf (x : pt M) (d : tv M) : option (pt M * N * bool) * pt M :=
  let newx := m_retr M x d in                                          (* 294 *)
  match f newx with                                                    (* 296 *)
  | Some newf => (Some (newx, newf, false), x)                         (* 307 *)
  | None =>
      let x' := replace newx x in                                      (* 298-305 *)
      (match f x' with Some newf => Some (x', newf, true) | None => None end, x')  (* 306 *)
  end.

Record mog_vars := mkMog {
  g_alpha : N; g_newx : pt M; g_newf : N; g_reset : bool; g_count : Z; g_x : pt M }.

(** lines 262 and 276-278: one call of [_newxnewf]; [inr] is the exception *)
Definition attempt (alpha : N) (d : tv M) (count : Z) (x : pt M) : mog_vars + pt M :=
  match newxnewf x (t_scale M alpha d) with
  | (Some (newx, newf, reset), x') => inl (mkMog alpha newx newf reset count x')
  | (None, x') => inr x'
  end.

(** the [while] loop, lines 266-280 *)
Definition mog_while (contraction suff : N) (maxit : Z) (d : tv M) (f0 df0 : N) (s : mog_vars + pt M) :
  res (step_out (mog_vars + pt M) (mog_vars + pt M)) :=
  match s with
  | inr x => Ok (Stop (inr x))
  | inl v =>
      if (g_newf v >? f0 + suff * g_alpha v * df0) && (g_count v <=? maxit)%Z && negb (g_reset v)  (* 267-269 *)
      then Ok (Continue (attempt (contraction * g_alpha v) d (g_count v + 1)%Z (g_x v)))         (* 273-280 *)
      else Ok (Stop s)
  end.

(** [search], lines 229-291: the new [_oldf0], the step size and the new point ([None]: LinAlgError), and the caller's point *)
Definition mog_search (p : bt_params) (oldf0 : option N) (x : pt M) (d : tv M) (f0 df0 : N) :
  res (option (option N * (N * pt M)) * pt M) :=
  let norm_d := m_norm M x d in                                        (* 250 *)
  let* alpha :=
    match oldf0 with                                                   (* 252 *)
    | Some old =>
        let* a := ndiv N (#2 * (f0 - old)) df0 in                      (* 254 *)
        Ok (a * bt_optimism p)                                         (* 256 *)
    | None => ndiv N (bt_init p) norm_d                                (* 258 *)
    end in
  let* s := loop (mog_while (bt_contraction p) (bt_suff p) (bt_maxit p) d f0 df0)
              (S (ls_fuel (bt_maxit p))) (attempt alpha d 1 x) in      (* 262-280 *)
  match s with
  | inr x' => Ok (None, x')
  | inl v =>
      let '(alpha', newx') :=
        if (g_newf v >? f0) && negb (g_reset v) then (#0, g_x v) else (g_alpha v, g_newx v) in  (* 283-285 *)
      Ok (Some (Some f0, (alpha' * norm_d, newx')), g_x v)             (* 287-291 *)
  end.
End MoG.
Arguments mkMog {N M} _ _ _ _ _ _.
