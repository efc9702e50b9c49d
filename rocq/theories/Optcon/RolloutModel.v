(** Model of the shot rollout and the defect computation,
    /repo/ct_optcon/include/ct/optcon/nloc/NLOCBackendBase-impl.hpp lines 436-569, NLOCBackendST-impl.hpp lines
    54-67 and NLOCBackendMP-impl.hpp lines 312-405.
    The dynamics, the feedback and NaN tests are parameters.  The dynamics are taken as a function of state, stage
    and control, so the system clones of the threads are interchangeable.  Sub-steps of the integrator, the
    external termination flag and the checks that the arrays have K entries are left out. *)
From Coq Require Import List Arith Bool.
From Verif.Optcon Require Import MpModel.
Import ListNotations.
Set Implicit Arguments.

Section Rollout.
Variables V U : Type.
Variable v0 : V.                        (* value read outside an array, never used inside the ranges *)
Variable u0 : U.
Variable dyn : nat -> V -> U -> V.      (* propagateControlledDynamics, line 480 *)
Variable closed : bool.                 (* settings_.closedLoopShooting() *)
Variable fb : nat -> V -> U -> U.       (* u + L_[i] * (x - x_ref_lqr[i]), line 471 *)
Variable sub : V -> V -> V.
Variable zero : V.
Variable nanV : V -> bool.              (* lines 488-498: some entry is NaN *)
Variable nanU : U -> bool.              (* lines 499-509 *)
Variable K : nat.                       (* number of stages K_ *)
Variable single : bool.                 (* settings_.isSingleShooting() *)
Variable Kshot : nat.                   (* settings_.K_shot *)

(** The shared trajectories x_, u_ff_, xShot_, d_. *)
Record traj := MkTraj { r_x : list V; r_u : list U; r_xs : list V; r_d : list V }.

(** getNumStepsPerShot, lines 1659-1665. *)
Definition perShot : nat := if single then K else Kshot.

Definition gx (r : traj) i := nth i (r_x r) v0.
Definition gu (r : traj) i := nth i (r_u r) u0.
Definition gs (r : traj) i := nth i (r_xs r) v0.
Definition gd (r : traj) i := nth i (r_d r) v0.
Definition sx i v (r : traj) := MkTraj (upd (r_x r) i v) (r_u r) (r_xs r) (r_d r).
Definition su i v (r : traj) := MkTraj (r_x r) (upd (r_u r) i v) (r_xs r) (r_d r).
Definition ss i v (r : traj) := MkTraj (r_x r) (r_u r) (upd (r_xs r) i v) (r_d r).
Definition sd i v (r : traj) := MkTraj (r_x r) (r_u r) (r_xs r) (upd (r_d r) i v).

(** The single writes of one pass through the loop body, lines 464-486, in order: stage [i] of the shot that
    starts at [k]. *)
Definition w_copy (k i : nat) (r : traj) : traj := if k <? i then ss i (gs r (i - 1)) r else r.   (* 464-467 *)
Definition w_feedback (i : nat) (r : traj) : traj := if closed then su i (fb i (gs r i) (gu r i)) r else r.  (* 469-470 *)
Definition w_state (k i : nat) (r : traj) : traj := if k <? i then sx i (gs r (i - 1)) r else r.  (* 473-476 *)
Definition w_prop (i : nat) (r : traj) : traj := ss i (dyn i (gs r i) (gu r i)) r.                (* 478-480 *)
Definition w_term (i : nat) (r : traj) : traj := if i =? K - 1 then sx K (gs r (K - 1)) r else r. (* 482-483 *)
Definition t_nan (i : nat) (r : traj) : bool := nanV (gx r i) || nanU (gu r i).                   (* 487-509 *)

Definition body (k i : nat) (r : traj) : traj :=
  w_term i (w_prop i (w_state k i (w_feedback i (w_copy k i r)))).

(** The loop of rolloutSingleShot over the stages [is]; [false] is the early return. *)
Fixpoint shot_loop (k : nat) (is : list nat) (r : traj) : traj * bool :=
  match is with
  | [] => (r, true)
  | i :: is => let r := body k i r in if t_nan i r then (r, false) else shot_loop k is r
  end.

(** Stages of the shot starting at [k], lines 456-462. *)
Definition k_stop (k : nat) : nat := Nat.min (k + perShot) K.
Definition shot_stages (k : nat) : list nat := seq k (k_stop k - k).

(** rolloutSingleShot, lines 436-521. *)
Definition rolloutSingleShot (k : nat) (r : traj) : traj * bool :=
  shot_loop k (shot_stages k) (ss k (gx r k) r).

(** computeSingleDefect, lines 556-569; uses K_shot itself, not getNumStepsPerShot. *)
Definition k_next (k : nat) : nat := Nat.min K (k + Kshot).
Definition computeSingleDefect (k : nat) (r : traj) : traj :=
  if k_next k <? K then sd (k_next k - 1) (sub (gs r (k_next k - 1)) (gx r (k_next k))) r else r.

(** Shot starts visited by a loop  for (k = first; k <= last; k += perShot). *)
Fixpoint starts (fuel k last : nat) : list nat :=
  match fuel with
  | 0 => []
  | S fuel => if k <=? last then k :: starts fuel (k + perShot) last else []
  end.

(** NLOCBackendST::rolloutShots, lines 54-67: the result of the rollout is ignored.  The fuel last + 1 suffices
    when perShot > 0; with perShot = 0 the C++ loop does not end. *)
Definition rolloutShots (first last : nat) (r : traj) : traj :=
  fold_left (fun r k => computeSingleDefect k (fst (rolloutSingleShot k r))) (starts (S last) first last) r.

(** rolloutShotsSingleThreaded, lines 524-553. *)
Fixpoint shots_checked (ks : list nat) (r : traj) : traj * bool :=
  match ks with
  | [] => (r, true)
  | k :: ks => let (r, good) := rolloutSingleShot k r in
               if good then shots_checked ks (computeSingleDefect k r) else (r, false)
  end.
Definition rolloutShotsSingleThreaded (first last : nat) (r : traj) : traj * bool :=
  shots_checked (starts (S last) first last) (MkTraj (r_x r) (r_u r) (r_xs r) (map (fun _ => zero) (r_d r))).

(** *** The same work as done by a worker thread: one write at a time, other threads in between.  The shared
    state carries in addition, for each shot start, whether that call of rolloutSingleShot is still looping (its
    local control state). *)
Definition mstate : Type := traj * list bool.
Definition running (k : nat) (m : mstate) : bool := nth k (snd m) false.
Definition guarded (k : nat) (f : traj -> traj) (m : mstate) : mstate := if running k m then (f (fst m), snd m) else m.
Definition m_init1 (k : nat) (m : mstate) : mstate := (fst m, upd (snd m) k true).
Definition m_init2 (k : nat) (m : mstate) : mstate := (ss k (gx (fst m) k) (fst m), snd m).
Definition m_check (k i : nat) (m : mstate) : mstate :=
  if running k m && t_nan i (fst m) then (fst m, upd (snd m) k false) else m.
Definition stage_micro (k i : nat) : list (mstate -> mstate) :=
  [guarded k (w_copy k i); guarded k (w_feedback i); guarded k (w_state k i); guarded k (w_prop i); guarded k (w_term i); m_check k i].
Definition m_defect (k : nat) (m : mstate) : mstate := (computeSingleDefect k (fst m), snd m).
Definition shot_micro (k : nat) : list (mstate -> mstate) :=
  m_init1 k :: m_init2 k :: concat (map (stage_micro k) (shot_stages k)) ++ [m_defect k].

(** rolloutShotWorker, lines 387-401: only indices that begin a shot. *)
Definition rollout_micro (kd : kind) (k : nat) : list (mstate -> mstate) :=
  match kd with
  | Shots => if k mod perShot =? 0 then shot_micro k else []
  | Lq => []
  end.
(** A call with a single index, lines 319-331. *)
Definition rollout_direct (kd : kind) (k : nat) : list (mstate -> mstate) :=
  match kd with Shots => shot_micro k | Lq => [] end.
End Rollout.
