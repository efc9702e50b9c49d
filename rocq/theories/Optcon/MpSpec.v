(** Vocabulary for statements about the worker pool. *)
From Coq Require Import List Arith Bool Permutation.
From Verif.Optcon Require Import MpModel.
Import ListNotations.

(** The part of an event log that concerns one stage. *)
Definition stage_events (log : list (kind * nat * nat)) (idx : nat) : list (kind * nat * nat) :=
  filter (fun e => snd (fst e) =? idx) log.

(** The log shows the work of task kind [kd] on stage [idx] done from beginning to end, exactly once and with
    nothing else done to that stage. *)
Definition done_once (kd : kind) (steps : nat) (log : list (kind * nat * nat)) (idx : nat) : Prop :=
  stage_events log idx = map (fun j => (kd, idx, j)) (seq 0 steps).

(** No worker is in the middle of an earlier task: none of them still holds, or is about to take, an index of
    it, nor has one read the earlier task without having acted on it. *)
Definition at_rest (w : worker) : Prop :=
  match w_pc w with
  | WTop | WLock | WCheck | WBlock | WSleep | WReload | WNotify _ _ | WSignal _ _ | WEnd _ _ => True
  | WLoaded None _ | WDispatch None _ => True
  | _ => False
  end.

(** Any two elementary updates of different stages of the range give the same result in either order. *)
Definition stages_commute {D} (micro : kind -> nat -> list (D -> D)) (kd : kind) (lo hi : nat) : Prop :=
  forall i j f g d, lo <= i <= hi -> lo <= j <= hi -> i <> j -> In f (micro kd i) -> In g (micro kd j) -> f (g d) = g (f d).

(** Nothing moves without a spurious wake-up. *)
Definition stuck {D} (micro direct : kind -> nat -> list (D -> D)) (s : st D) : Prop :=
  main_next direct s = None /\ forall i, worker_next micro i s = None.

(** The caller is inside the call [t], with the calls [ts] still to come. *)
Definition in_call (t : task) (ts : list task) (m : mpc) : Prop :=
  match m with
  | MIdle l => l = t :: ts
  | MSetTaken t' l | MSetCompleted t' l | MSetMax t' l | MSetMin t' l | MSetTask t' l => t' = t /\ l = ts
  | MNotify l | MCheck l | MBlock l | MSleep l | MReset l => l = ts
  end.

(** The worker has not finished a call with the process id of [t]. *)
Definition fresh_for (t : task) (w : worker) : Prop :=
  w_uid w <> Some (tk_pid t, tk_kind t) /\
  match w_pc w with WNotify k p | WSignal k p | WEnd k p => (p, k) <> (tk_pid t, tk_kind t) | _ => True end.

(** Some state reached by the process since its worker threads were launched. *)
Definition reachable {D} (micro direct : kind -> nat -> list (D -> D)) (n : nat) (s : st D) : Prop :=
  exists taken completed kmax kmin pid d ts sch,
    run micro direct sch (launch n taken completed kmax kmin pid d ts) = Some s.
