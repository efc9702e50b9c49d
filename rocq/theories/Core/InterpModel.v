(** Model of ct_core: common/Interpolation.h and types/trajectories/DiscreteTrajectoryBase.h.

    Simplifications: [SCALAR] is [Q] (exact); a data sample ([Data_T], an Eigen column vector or
    a scalar) is a list of rationals; [size_t]/[int] are unbounded integers. *)
From Coq Require Import List ZArith QArith Lia.
From Verif Require Import Base.Outcome.
Import ListNotations.
Open Scope Q_scope.

Notation vec := (list Q).

(** Eigen: coefficient-wise sum of two vectors of equal size.  Eigen fixes both sizes at compile
    time; a list of another length cannot occur in the code. *)
Fixpoint vadd (a b : vec) : vec :=
  match a, b with
  | x :: a', y :: b' => (x + y) :: vadd a' b'
  | _, _ => []
  end.

(** Eigen: scalar times vector. *)
Definition vscale (s : Q) (a : vec) : vec := map (Qmult s) a.

(** Interpolation.h 14-18 *)
Inductive interp_type := ZOH | LIN.

Definition Qltb (a b : Q) : bool := negb (Qle_bool b a).

(** Interpolation.h 127-132: the backward scan
    [for (i = index_; i >= 0; i--) { index = i; if (timeArray.at(i) <= t) break; }].
    Returns the value of [index] after the loop.  Called with [i] in range. *)
Fixpoint scan_backward (ts : list Q) (t : Q) (i : nat) : outcome Z :=
  do ti <- vec_at ts (Z.of_nat i) ;;
  if Qle_bool ti t then Ok (Z.of_nat i)
  else match i with
       | O => Ok 0%Z
       | S j => scan_backward ts t j
       end.

(** Interpolation.h 136-144: the forward scan from [i], [fuel] is the number of remaining
    iterations [size - i]; [index] is the current value of the local variable. *)
Fixpoint scan_forward (ts : list Q) (t : Q) (fuel : nat) (i : Z) (index : Z) : outcome Z :=
  match fuel with
  | O => Ok index
  | S f =>
      do ti <- vec_at ts i ;;
      if Qltb t ti then Ok (i - 1)%Z
      else scan_forward ts t f (i + 1)%Z i
  end.

(** Interpolation.h 123: [index_ = std::min(index_, (int)timeArray.size() - 1)]. *)
Definition clamp_hint (ts : list Q) (hint : Z) : Z :=
  Z.min hint (Z.of_nat (length ts) - 1).

(** Interpolation.h 119-156 [findIndex].  [hint] is the member [index_] before the call.
    The first component is the value of [index_] after the call (also when it throws),
    the second the returned index. *)
Definition findIndex (ts : list Q) (t : Q) (hint : Z) : Z * outcome Z :=
  let h := clamp_hint ts hint in
  match vec_at ts h with
  | Ok th =>
      let r := if Qltb t th then scan_backward ts t (Z.to_nat h)
               else scan_forward ts t (length ts - Z.to_nat h) h (-1)%Z in
      match r with
      | Ok index => if (index <? 0)%Z then (h, Throw) else (index, Ok index)
      | Throw => (h, Throw)
      | UB => (h, UB)
      end
  | Throw => (h, Throw)
  | UB => (h, UB)
  end.

(** Interpolation.h 54-109 [interpolate]; [gl] is the parameter greatestLessTimeStampIndex
    (default -1).  First component: [index_] after the call. *)
Definition interpolate (ty : interp_type) (ts : list Q) (ds : list vec) (t : Q)
    (gl : Z) (hint : Z) : Z * outcome vec :=
  if (length ts =? 0)%nat then (hint, Throw)                       (* l.60 *)
  else if (length ds =? 0)%nat then (hint, Throw)                  (* l.63 *)
  else if negb (length ts =? length ds)%nat then (hint, Throw)     (* l.66 *)
  else if (length ds =? 1)%nat then (hint, vec_front ds)           (* l.73 *)
  else
    let '(h, oi) := if (gl =? -1)%Z then findIndex ts t hint       (* l.80-86 *)
                    else (gl, Ok gl) in
    (h,
     do ind <- oi ;;
     do t0 <- vec_front ts ;;
     if Qltb t t0 then vec_front ds                                (* l.88 *)
     else if (ind =? Z.of_nat (length ts) - 1)%Z then vec_back ds  (* l.94 *)
     else
       do tn <- vec_at ts (ind + 1)%Z ;;
       do ti <- vec_at ts ind ;;
       let alpha := (t - tn) / (ti - tn) in                        (* l.100 *)
       match ty with
       | LIN => do di <- vec_at ds ind ;;                          (* l.104 *)
                do dn <- vec_at ds (ind + 1)%Z ;;
                Ok (vadd (vscale alpha di) (vscale (1 - alpha) dn))
       | ZOH => vec_at ds ind                                      (* l.106 *)
       end).

(** A history of lookups on one Interpolation object: member [index_] after it.
    Each entry is (timeArray, enquiryTime); Interpolation.h 43: [index_] starts at 0. *)
Fixpoint hint_after (hint : Z) (hist : list (list Q * Q)) : Z :=
  match hist with
  | [] => hint
  | (ts, t) :: r => hint_after (fst (findIndex ts t hint)) r
  end.

(** * DiscreteTrajectoryBase.h *)

(** Members l.273-277. *)
Record traj := mk_traj {
  tr_time : list Q;
  tr_data : list vec;
  tr_type : interp_type;
  tr_hint : Z              (* interp_.index_ *)
}.

(** l.37 default constructor. *)
Definition traj_new (ty : interp_type) : traj := mk_traj [] [] ty 0%Z.

(** l.127 [shiftTime(dt)]: [time_.addOffset(-dt)]; DiscreteArray.h 168-171. *)
Definition traj_shift (dt : Q) (s : traj) : traj :=
  mk_traj (map (fun v => v + - dt) (tr_time s)) (tr_data s) (tr_type s) (tr_hint s).

(** l.181-189 [push_back]; with a relative time on an empty trajectory [time_.back()] is UB. *)
Definition traj_push (d : vec) (t : Q) (absolute : bool) (s : traj) : outcome traj :=
  do nt <- (if absolute then Ok t
            else do b <- vec_back (tr_time s) ;; Ok (t + b)) ;;
  Ok (mk_traj (tr_time s ++ [nt]) (tr_data s ++ [d]) (tr_type s) (tr_hint s)).

(** l.192-196 [pop_back]; std::vector::pop_back on an empty vector is UB. *)
Definition vec_pop {A} (l : list A) : outcome (list A) :=
  match l with [] => UB | _ => Ok (removelast l) end.
Definition traj_pop (s : traj) : outcome traj :=
  do ts <- vec_pop (tr_time s) ;;
  do ds <- vec_pop (tr_data s) ;;
  Ok (mk_traj ts ds (tr_type s) (tr_hint s)).

(** l.203-208 [eraseFront(N, dt)]; DiscreteArray.h 164: erase(begin, begin+N), UB if N > size. *)
Definition vec_erase_front {A} (n : nat) (l : list A) : outcome (list A) :=
  if (n <=? length l)%nat then Ok (skipn n l) else UB.
Definition traj_erase_front (n : nat) (dt : Q) (s : traj) : outcome traj :=
  do ts <- vec_erase_front n (tr_time s) ;;
  do ds <- vec_erase_front n (tr_data s) ;;
  Ok (traj_shift dt (mk_traj ts ds (tr_type s) (tr_hint s))).

(** l.211-215 [clear]. *)
Definition traj_clear (s : traj) : traj := mk_traj [] [] (tr_type s) (tr_hint s).

(** l.115 [setInterpolationType]. *)
Definition traj_set_type (ty : interp_type) (s : traj) : traj :=
  mk_traj (tr_time s) (tr_data s) ty (tr_hint s).

(** l.135-140 [eval]. *)
Definition traj_eval (t : Q) (s : traj) : traj * outcome vec :=
  let '(h, r) := interpolate (tr_type s) (tr_time s) (tr_data s) t (-1)%Z (tr_hint s) in
  (mk_traj (tr_time s) (tr_data s) (tr_type s) h, r).

(** l.250 [getIndexFromTime]. *)
Definition traj_index (t : Q) (s : traj) : traj * outcome Z :=
  let '(h, r) := findIndex (tr_time s) t (tr_hint s) in
  (mk_traj (tr_time s) (tr_data s) (tr_type s) h, r).

(** l.146-152 [size]. *)
Definition traj_size (s : traj) : outcome nat :=
  if (length (tr_data s) =? length (tr_time s))%nat then Ok (length (tr_data s)) else Throw.

(** The public calls a user can issue on a trajectory object; evaluating members may throw
    ([eval], [getIndexFromTime]) and then leave the object usable. *)
Inductive traj_op :=
| OpPush (d : vec) (t : Q) (absolute : bool)
| OpPop
| OpEraseFront (n : nat) (dt : Q)
| OpShift (dt : Q)
| OpClear
| OpSetType (ty : interp_type)
| OpEval (t : Q)
| OpIndex (t : Q).

Definition traj_step (s : traj) (o : traj_op) : outcome traj :=
  match o with
  | OpPush d t a => traj_push d t a s
  | OpPop => traj_pop s
  | OpEraseFront n dt => traj_erase_front n dt s
  | OpShift dt => Ok (traj_shift dt s)
  | OpClear => Ok (traj_clear s)
  | OpSetType ty => Ok (traj_set_type ty s)
  | OpEval t => Ok (fst (traj_eval t s))
  | OpIndex t => Ok (fst (traj_index t s))
  end.

Fixpoint traj_run (s : traj) (ops : list traj_op) : outcome traj :=
  match ops with
  | [] => Ok s
  | o :: r => do s' <- traj_step s o ;; traj_run s' r
  end.
