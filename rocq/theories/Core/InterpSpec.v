(** Specification vocabulary for time look-up and interpolation (independent of the model). *)
From Coq Require Import List ZArith QArith Sorted Lia.
From Verif Require Import Core.InterpModel.
Import ListNotations.
Open Scope Q_scope.

(** Equality of samples, component by component as rational numbers. *)
Definition same_vec (a b : list Q) : Prop := Forall2 Qeq a b.

(** Strictly increasing time stamps. *)
Definition increasing (ts : list Q) : Prop := StronglySorted Qlt ts.

(** [i] is the last node not later than [t]; node 0 if [t] precedes the first node. *)
Definition is_last_node_before (ts : list Q) (t : Q) (i : nat) : Prop :=
  (i < length ts)%nat /\
  (forall j tj, nth_error ts j = Some tj -> (i < j)%nat -> t < tj) /\
  (forall j tj, nth_error ts j = Some tj -> (j <= i)%nat ->
      tj <= t \/ (i = 0%nat /\ t < tj)).

(** The value of the piecewise constant / piecewise linear function through the points
    [pts] (pairs time, sample) at time [t]. *)
Inductive curve_value (ty : interp_type) (pts : list (Q * list Q)) (t : Q) (r : list Q) : Prop :=
| cv_before t0 d0 rest :
    pts = (t0, d0) :: rest -> t < t0 -> same_vec r d0 -> curve_value ty pts t r
| cv_after tl dl init :
    pts = init ++ [(tl, dl)] -> tl <= t -> same_vec r dl -> curve_value ty pts t r
| cv_hold l1 ti di tj dj l2 :
    ty = ZOH -> pts = l1 ++ (ti, di) :: (tj, dj) :: l2 -> ti <= t -> t < tj ->
    same_vec r di -> curve_value ty pts t r
| cv_linear l1 ti di tj dj l2 :
    ty = LIN -> pts = l1 ++ (ti, di) :: (tj, dj) :: l2 -> ti <= t -> t < tj ->
    length r = length di ->
    (forall k xi xj x, nth_error di k = Some xi -> nth_error dj k = Some xj ->
        nth_error r k = Some x ->
        x == xi + (t - ti) / (tj - ti) * (xj - xi)) ->
    curve_value ty pts t r.

(** All samples have the same dimension (Eigen fixes it at compile time). *)
Definition same_dim (n : nat) (ds : list (list Q)) : Prop := Forall (fun d => length d = n) ds.

(** ** A trajectory as a user thinks of it
    A list of samples, each with the (global) time at which it was recorded, and how far the
    local clock has been shifted since. *)
Record recording := mk_rec { rec_pts : list (Q * list Q); rec_shift : Q }.

Definition last_time (pts : list (Q * list Q)) : option Q :=
  match rev pts with [] => None | (t, _) :: _ => Some t end.

(** Effect of a call on the recording; [None]: the call is outside its precondition. *)
Definition rec_step (s : recording) (o : traj_op) : option recording :=
  match o with
  | OpPush d t true => Some (mk_rec (rec_pts s ++ [(t + rec_shift s, d)]) (rec_shift s))
  | OpPush d t false =>
      match last_time (rec_pts s) with
      | Some g => Some (mk_rec (rec_pts s ++ [(g + t, d)]) (rec_shift s))
      | None => None
      end
  | OpPop => match rec_pts s with
             | [] => None
             | _ => Some (mk_rec (removelast (rec_pts s)) (rec_shift s))
             end
  | OpEraseFront n dt =>
      if (n <=? length (rec_pts s))%nat
      then Some (mk_rec (skipn n (rec_pts s)) (rec_shift s + dt)) else None
  | OpShift dt => Some (mk_rec (rec_pts s) (rec_shift s + dt))
  | OpClear => Some (mk_rec [] (rec_shift s))
  | OpSetType _ | OpEval _ | OpIndex _ => Some s
  end.

Fixpoint rec_run (s : recording) (ops : list traj_op) : option recording :=
  match ops with
  | [] => Some s
  | o :: r => match rec_step s o with Some s' => rec_run s' r | None => None end
  end.

(** No look-up is ever issued while the trajectory is empty. *)
Fixpoint no_index_when_empty (s : recording) (ops : list traj_op) : Prop :=
  match ops with
  | [] => True
  | o :: r =>
      (match o with OpIndex _ => rec_pts s <> [] | _ => True end) /\
      match rec_step s o with Some s' => no_index_when_empty s' r | None => True end
  end.

(** Every pushed sample is later than the sample recorded last. *)
Fixpoint pushes_in_order (s : recording) (ops : list traj_op) : Prop :=
  match ops with
  | [] => True
  | o :: r =>
      (match o with
       | OpPush _ t true =>
           match last_time (rec_pts s) with Some g => g < t + rec_shift s | None => True end
       | OpPush _ t false => 0 < t
       | _ => True
       end) /\
      match rec_step s o with Some s' => pushes_in_order s' r | None => True end
  end.

(** Every pushed sample has dimension [n]. *)
Definition op_dim (n : nat) (o : traj_op) : Prop :=
  match o with OpPush d _ _ => length d = n | _ => True end.
