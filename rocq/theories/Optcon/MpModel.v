(** Model of the multi-threaded worker pool,
    /repo/ct_optcon/include/ct/optcon/nloc/NLOCBackendMP-impl.hpp, as an interleaving transition system: one
    program counter per worker thread and one for the main thread, one step per access to shared state.
    Counters are unbounded naturals (no size_t wrap-around) and KMin <= KMax, so that the unsigned
    subtraction KMax - KMin is the natural one. *)
From Coq Require Import List Arith Bool.
Import ListNotations.
Set Implicit Arguments.

(** The two indexed tasks, WORKER_STATE in NLOCBackendMP.hpp line 58; IDLE is [None]. *)
Inductive kind := Lq | Shots.

Definition kind_eqb (a b : kind) : bool :=
  match a, b with Lq, Lq => true | Shots, Shots => true | _, _ => false end.

(** A call computeLQApproximation(first, last) or rolloutShots(first, last); [tk_pid] stands for the values of
    iteration_ and lqpCounter_ at the time of the call (one number, different calls may share it). *)
Record task := MkTask { tk_kind : kind; tk_min : nat; tk_max : nat; tk_pid : nat }.

(** Local state of a worker thread: its position in threadWork, lines 69-190, or in computeLQProblemWorker /
    rolloutShotWorker, lines 275-308 and 374-405. *)
Inductive wpc :=
| WTop                                   (* lines 83-87: load task and process id *)
| WLoaded (t : option kind) (p : nat)    (* lines 101-102: decide whether to sleep *)
| WLock                                  (* line 109 and return from wait: acquire workerWakeUpMutex_ *)
| WCheck                                 (* lines 110-111, holding the mutex *)
| WBlock                                 (* line 113, about to block, still holding the mutex *)
| WSleep                                 (* line 113, blocked *)
| WReload                                (* lines 117-119 *)
| WDispatch (t : option kind) (p : nat)  (* lines 135-184 *)
| WTake (kd : kind) (p : nat)            (* line 279 / 378 *)
| WHave (kd : kind) (p k : nat)          (* line 281 / 380 *)
| WWork (kd : kind) (p idx j : nat)      (* lines 301-304 / 387-401: step j of the work on stage idx *)
| WCount (kd : kind) (p : nat)           (* line 306 / 403 *)
| WNotify (kd : kind) (p : nat)          (* line 290 / 382 *)
| WSignal (kd : kind) (p : nat)          (* line 291 / 383 *)
| WEnd (kd : kind) (p : nat).            (* line 152 / 161: remember the process id *)

(** A worker: position and uniqueProcessID (line 78; [None] is the initial 0).  The id computed by
    generateUniqueProcessID, lines 588-594, is taken as injective in its arguments. *)
Record worker := MkWorker { w_pc : wpc; w_uid : option (nat * kind) }.

(** Main thread: position in computeLQApproximation, lines 212-271, or rolloutShots, lines 312-370;
    [MIdle ts] is between calls, with the calls still to be made. *)
Inductive mpc :=
| MIdle (ts : list task)
| MSetTaken (t : task) (ts : list task)
| MSetCompleted (t : task) (ts : list task)
| MSetMax (t : task) (ts : list task)
| MSetMin (t : task) (ts : list task)
| MSetTask (t : task) (ts : list task)
| MNotify (ts : list task)               (* notify_all, line 252 / 352: without the mutex *)
| MCheck (ts : list task)                (* predicate of the wait, line 259 / 359 *)
| MBlock (ts : list task)                (* predicate was false, about to block *)
| MSleep (ts : list task)
| MReset (ts : list task).               (* line 261 / 361 *)

Section Mp.
Variable D : Type.
(** Work on one stage as a list of elementary updates of the shared data, done by a worker ([micro]) or, for a
    call with a single index, by the main thread ([direct], lines 223-233 / 319-331). *)
Variable micro direct : kind -> nat -> list (D -> D).

Record st := MkSt {
  s_taken : nat; s_completed : nat; s_max : nat; s_min : nat;
  s_task : option kind; s_pid : nat; s_lock : option nat;
  s_main : mpc; s_workers : list worker;
  s_data : D;
  s_log : list (kind * nat * nat)        (* ghost: which elementary update was done, in order *)
}.

Definition set_taken v s := MkSt v (s_completed s) (s_max s) (s_min s) (s_task s) (s_pid s) (s_lock s) (s_main s) (s_workers s) (s_data s) (s_log s).
Definition set_completed v s := MkSt (s_taken s) v (s_max s) (s_min s) (s_task s) (s_pid s) (s_lock s) (s_main s) (s_workers s) (s_data s) (s_log s).
Definition set_max v s := MkSt (s_taken s) (s_completed s) v (s_min s) (s_task s) (s_pid s) (s_lock s) (s_main s) (s_workers s) (s_data s) (s_log s).
Definition set_min v s := MkSt (s_taken s) (s_completed s) (s_max s) v (s_task s) (s_pid s) (s_lock s) (s_main s) (s_workers s) (s_data s) (s_log s).
Definition set_task v s := MkSt (s_taken s) (s_completed s) (s_max s) (s_min s) v (s_pid s) (s_lock s) (s_main s) (s_workers s) (s_data s) (s_log s).
Definition set_pid v s := MkSt (s_taken s) (s_completed s) (s_max s) (s_min s) (s_task s) v (s_lock s) (s_main s) (s_workers s) (s_data s) (s_log s).
Definition set_lock v s := MkSt (s_taken s) (s_completed s) (s_max s) (s_min s) (s_task s) (s_pid s) v (s_main s) (s_workers s) (s_data s) (s_log s).
Definition set_main v s := MkSt (s_taken s) (s_completed s) (s_max s) (s_min s) (s_task s) (s_pid s) (s_lock s) v (s_workers s) (s_data s) (s_log s).
Definition set_workers v s := MkSt (s_taken s) (s_completed s) (s_max s) (s_min s) (s_task s) (s_pid s) (s_lock s) (s_main s) v (s_data s) (s_log s).
Definition set_data v l s := MkSt (s_taken s) (s_completed s) (s_max s) (s_min s) (s_task s) (s_pid s) (s_lock s) (s_main s) (s_workers s) v l.

Fixpoint upd {A} (l : list A) (i : nat) (v : A) : list A :=
  match l, i with [], _ => [] | _ :: l, 0 => v :: l | a :: l, S i => a :: upd l i v end.

(** Same process id? (lines 101-102, 110-111) *)
Definition same_id (uid : option (nat * kind)) (p : nat) (t : kind) : bool :=
  match uid with Some (p', t') => (p' =? p) && kind_eqb t' t | None => false end.
Definition must_sleep (uid : option (nat * kind)) (p : nat) (t : option kind) : bool :=
  match t with None => true | Some t => same_id uid p t end.

(** More than KMax - KMin stages completed (lines 259, 290). *)
Definition all_completed (s : st) : bool := s_max s - s_min s <? s_completed s.

(** Apply a run of elementary updates. *)
Fixpoint apply_all (fs : list (D -> D)) (d : D) : D := match fs with [] => d | f :: fs => apply_all fs (f d) end.

(** One step of worker [i]; [None] if it is blocked. *)
Definition worker_next (i : nat) (s : st) : option st :=
  match nth_error (s_workers s) i with
  | None => None
  | Some w =>
    let go pc := set_workers (upd (s_workers s) i (MkWorker pc (w_uid w))) s in
    match w_pc w with
    | WTop => Some (go (WLoaded (s_task s) (s_pid s)))
    | WLoaded t p => Some (go (if must_sleep (w_uid w) p t then WLock else WDispatch t p))
    | WLock => match s_lock s with None => Some (set_lock (Some i) (go WCheck)) | Some _ => None end
    | WCheck => if must_sleep (w_uid w) (s_pid s) (s_task s) then Some (go WBlock) else Some (set_lock None (go WReload))
    | WBlock => Some (set_lock None (go WSleep))
    | WSleep => None
    | WReload => Some (go (WDispatch (s_task s) (s_pid s)))
    | WDispatch None _ => Some (go WTop)
    | WDispatch (Some kd) p => Some (go (WTake kd p))
    | WTake kd p => Some (set_taken (S (s_taken s)) (go (WHave kd p (s_taken s))))
    | WHave kd p k => Some (go (if s_max s - s_min s <? k then WNotify kd p else WWork kd p (s_max s - k) 0))
    | WWork kd p idx j =>
        match nth_error (micro kd idx) j with
        | Some f => Some (set_data (f (s_data s)) (s_log s ++ [(kd, idx, j)]) (go (WWork kd p idx (S j))))
        | None => Some (go (WCount kd p))
        end
    | WCount kd p => Some (set_completed (S (s_completed s)) (go (WTake kd p)))
    | WNotify kd p => Some (go (if all_completed s then WSignal kd p else WEnd kd p))
    | WSignal kd p =>
        let s' := go (WEnd kd p) in
        Some (match s_main s with MSleep ts => set_main (MCheck ts) s' | _ => s' end)
    | WEnd kd p => Some (set_workers (upd (s_workers s) i (MkWorker WTop (Some (p, kd)))) s)
    end
  end.

(** workerWakeUpCondition_.notify_all. *)
Definition wake (w : worker) : worker := match w_pc w with WSleep => MkWorker WLock (w_uid w) | _ => w end.

(** One step of the main thread. *)
Definition main_next (s : st) : option st :=
  match s_main s with
  | MIdle [] => None
  | MIdle (t :: ts) =>
      if tk_min t =? tk_max t then
        let fs := direct (tk_kind t) (tk_min t) in
        Some (set_main (MIdle ts) (set_pid (tk_pid t)
          (set_data (apply_all fs (s_data s)) (s_log s ++ map (fun j => (tk_kind t, tk_min t, j)) (seq 0 (length fs))) s)))
      else Some (set_main (MSetTaken t ts) (set_pid (tk_pid t) s))
  | MSetTaken t ts => Some (set_main (MSetCompleted t ts) (set_taken 0 s))
  | MSetCompleted t ts => Some (set_main (MSetMax t ts) (set_completed 0 s))
  | MSetMax t ts => Some (set_main (MSetMin t ts) (set_max (tk_max t) s))
  | MSetMin t ts => Some (set_main (MSetTask t ts) (set_min (tk_min t) s))
  | MSetTask t ts => Some (set_main (MNotify ts) (set_task (Some (tk_kind t)) s))
  | MNotify ts => Some (set_main (MCheck ts) (set_workers (map wake (s_workers s)) s))
  | MCheck ts => Some (set_main (if all_completed s then MReset ts else MBlock ts) s)
  | MBlock ts => Some (set_main (MSleep ts) s)
  | MSleep ts => None
  | MReset ts => Some (set_main (MIdle ts) (set_task None s))
  end.

(** A schedule is a sequence of events; condition variables may also wake up spuriously. *)
Inductive ev := Main | Wk (i : nat) | SpurMain | SpurWk (i : nat).

Definition step (e : ev) (s : st) : option st :=
  match e with
  | Main => main_next s
  | Wk i => worker_next i s
  | SpurMain => match s_main s with MSleep ts => Some (set_main (MCheck ts) s) | _ => None end
  | SpurWk i =>
      match nth_error (s_workers s) i with
      | Some w => match w_pc w with
                  | WSleep => Some (set_workers (upd (s_workers s) i (MkWorker WLock (w_uid w))) s)
                  | _ => None
                  end
      | None => None
      end
  end.

Fixpoint run (sch : list ev) (s : st) : option st :=
  match sch with
  | [] => Some s
  | e :: sch => match step e s with Some s' => run sch s' | None => None end
  end.

(** launchWorkerThreads, lines 194-208, followed by the given calls; counters are uninitialised. *)
Definition launch (n : nat) (taken completed kmax kmin pid : nat) (d : D) (ts : list task) : st :=
  MkSt taken completed kmax kmin None pid None (MIdle ts) (repeat (MkWorker WTop None) n) d [].
End Mp.
