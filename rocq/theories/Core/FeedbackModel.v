(** Model of ct::core::StateFeedbackController.
    Times and entries are exact rationals.  A feedback matrix (m rows, n columns) is stored as a
    flat vector, row after row. *)
From Coq Require Import QArith List ZArith Bool Arith.
From Verif Require Import Base.Outcome Core.InterpModel.
Import ListNotations.
Local Open Scope Q_scope.

Notation vec := (list Q).

(** state - x_ref. *)
Fixpoint vsub (a b : vec) : vec :=
  match a, b with
  | x :: a', y :: b' => (x - y) :: vsub a' b'
  | _, _ => []
  end.

Fixpoint vdot (a b : vec) : Q :=
  match a, b with
  | x :: a', y :: b' => x * y + vdot a' b'
  | _, _ => 0
  end.

(** K * v for the flat matrix K with m rows of length n. *)
Fixpoint mat_vec (m n : nat) (K : vec) (v : vec) : vec :=
  match m with
  | O => []
  | S k => vdot (firstn n K) v :: mat_vec k n (skipn n K) v
  end.

(** control/StateFeedbackController.h, members x_ref_, uff_, K_. *)
Record controller := mkC { c_x : traj; c_u : traj; c_K : traj }.

(** types/trajectories/DiscreteTrajectoryBase.h, setData and setTime (110, 120). *)
Definition set_points (ts : list Q) (ds : list vec) (s : traj) : traj :=
  mk_traj ts ds (tr_type s) (tr_hint s).

(** A default constructed controller; the interpolation types are those the user sets. *)
Definition new_controller (tx tu tk : interp_type) : controller :=
  mkC (traj_new tx) (traj_new tu) (traj_new tk).

(** control/StateFeedbackController-impl.h, update (45-64).  pop_back on an empty time array
    is undefined behaviour. *)
Definition update (xs us Ks : list vec) (ts : list Q) (c : controller) : outcome controller :=
  do tshort <- vec_pop ts ;;
  if negb (length Ks =? length tshort)%nat then Throw
  else if negb (length us =? length tshort)%nat then Throw
  else if negb (length xs =? length ts)%nat then Throw
  else Ok (mkC (set_points ts xs (c_x c)) (set_points tshort us (c_u c))
               (set_points tshort Ks (c_K c))).

(** control/StateFeedbackController-impl.h, computeControl at time t (29-34).  The three
    trajectories are distinct objects, so the order of the three evaluations does not matter
    for their values. *)
Definition compute_control (m n : nat) (x : vec) (t : Q) (c : controller) :
  controller * outcome vec :=
  let '(cu, u) := traj_eval t (c_u c) in
  let '(cK, K) := traj_eval t (c_K c) in
  let '(cx, xr) := traj_eval t (c_x c) in
  (mkC cx cu cK,
   do u <- u ;; do K <- K ;; do xr <- xr ;; Ok (vadd u (mat_vec m n K (vsub x xr)))).

(** control/StateFeedbackController-impl.h, computeControl at step k (37-42): operator[] on the
    trajectories, undefined outside the data. *)
Definition compute_control_step (m n : nat) (x : vec) (k : nat) (c : controller) : outcome vec :=
  do u <- vec_get (tr_data (c_u c)) k ;;
  do K <- vec_get (tr_data (c_K c)) k ;;
  do xr <- vec_get (tr_data (c_x c)) k ;;
  Ok (vadd u (mat_vec m n K (vsub x xr))).

(** Calls on a controller: update (caught if it throws) and evaluation. *)
Inductive fb_op :=
| FbUpdate (xs us Ks : list vec) (ts : list Q)
| FbEval (x : vec) (t : Q).

Definition fb_step (m n : nat) (c : controller) (o : fb_op) : outcome controller :=
  match o with
  | FbUpdate xs us Ks ts =>
      match update xs us Ks ts c with Ok c' => Ok c' | Throw => Ok c | UB => UB end
  | FbEval x t => Ok (fst (compute_control m n x t c))
  end.

Fixpoint fb_run (m n : nat) (c : controller) (ops : list fb_op) : outcome controller :=
  match ops with
  | [] => Ok c
  | o :: r => do c' <- fb_step m n c o ;; fb_run m n c' r
  end.

(** control/StateFeedbackController-impl.h, extractControlTrajectory (145-155), for an x_traj
    with time stamps txs and data xs (size() throws if their lengths differ); returns the points
    of u_traj.
    [x_traj.size() - 1] is unsigned: for an empty x_traj the loop runs out of all arrays. *)
Fixpoint extract_loop (m n : nat) (c : controller) (txs : list Q) (xs : list vec)
  (i k : nat) : outcome (list (Q * vec)) :=
  match k with
  | O => Ok []
  | S k' =>
      do x <- vec_get xs i ;;
      do u <- compute_control_step m n x i c ;;
      do t <- vec_get txs i ;;
      do r <- extract_loop m n c txs xs (S i) k' ;;
      Ok ((t, u) :: r)
  end.

Definition extract_control (m n : nat) (c : controller) (txs : list Q) (xs : list vec) :
  outcome (list (Q * vec)) :=
  if (length xs =? length txs)%nat then
    match xs with [] => UB | _ => extract_loop m n c txs xs 0 (length xs - 1) end
  else Throw.
