(** * Model of the process models of the filters

    Models  ct_optcon/include/ct/optcon/filter/CTSystemModel-impl.h, DisturbedSystem-impl.h,
    DisturbedSystemController-impl.h, InputDisturbedSystem-impl.h,
    ct_core/include/ct/core/control/continuous_time/ConstantController-impl.h and the parts of
    ct_core/include/ct/core/systems/continuous_time/ControlledSystem.h they use.

    States and inputs are vectors of real numbers (normed modules), matrices the linear maps
    they stand for. *)
From Coq Require Import Reals List ZArith.
From Coquelicot Require Import Coquelicot.
From Verif Require Import Base.Outcome Core.IntModel.
Import ListNotations.

Section Proc.
Context {V U : NormedModule R_AbsRing}.

(** ** Controllers and systems

    Controllers are shared objects: ConstantController (42-61) holds its control, any other
    controller is a law of state and time. *)
Inductive ctl := Const (u : U) | Law (law : V -> R -> U).

(** [f s] is computeControlledDynamics of system [s]; [dfx s] the derivative with respect to
    the state its linearisation returns. *)
Variable f : nat -> V -> U -> R -> V.
Variable dfx : nat -> V -> U -> R -> V -> V.

(** The integrators, of which the native ones are modelled (default EULERCT). *)
Inductive scheme := Euler | RK4.

(** CTSystemModel.h 64-79 *)
Record model := mkModel { m_sys : nat; m_ctl : nat; m_scheme : scheme }.

(** All controllers, the controller pointer of each system, all process models. *)
Record world := mkWorld { ctls : list ctl; syss : list (option nat); models : list model }.

Fixpoint setnth {A} (i : nat) (v : A) (l : list A) : list A :=
  match l, i with
  | [], _ => []
  | _ :: r, O => v :: r
  | x :: r, S j => x :: setnth j v r
  end.

(** ControlledSystem::computeDynamics, 125-135 *)
Definition control (w : world) (s : nat) (x : V) (t : R) : U :=
  match nth s (syss w) None with
  | None => zero
  | Some c => match nth c (ctls w) (Const zero) with Const u => u | Law l => l x t end
  end.
Definition dynamics (w : world) (s : nat) (x : V) (t : R) : V := f s x (control w s x t) t.

(** One step of the integrator, SteppersCT.h 88-126 (Core/IntModel.v). *)
Definition one_step (i : scheme) (rhs : V -> R -> V) (x : V) (t dt : R) : V :=
  match i with
  | Euler => euler_step plus scal rhs x t dt
  | RK4 => rk4_step Rplus Rmult (/ 2)%R 2%R (/ 6)%R plus scal rhs x t dt
  end.

(** CTSystemModel::CTSystemModel, 12-28: a new ConstantController (zero control) becomes the
    controller of the system. *)
Definition new_model (w : world) (s : option nat) (i : scheme) : outcome world :=
  match s with
  | None => Throw
  | Some s =>
      let c := length (ctls w) in
      Ok (mkWorld (ctls w ++ [Const zero]) (setnth s (Some c) (syss w))
            (models w ++ [mkModel s c i]))
  end.

(** ControlledSystem::setController, 93-96, with a controller of the user's. *)
Definition set_controller (w : world) (s : nat) (law : V -> R -> U) : world :=
  let c := length (ctls w) in
  mkWorld (ctls w ++ [Law law]) (setnth s (Some c) (syss w)) (models w).

(** CTSystemModel::computeDynamics, 31-40 *)
Definition computeDynamics (w : world) (m : model) (x : V) (u : U) (dt t : R) : world * V :=
  let w' := mkWorld (setnth (m_ctl m) (Const u) (ctls w)) (syss w) (models w) in
  (w', one_step (m_scheme m) (dynamics w' (m_sys m)) x t dt).

(** The conversion int(t / dt) of 54: truncation towards zero, undefined outside the range
    of int. *)
Definition trunc (r : R) : Z :=
  if Rle_dec 0 r then Int_part r else (- Int_part (- r))%Z.
Definition to_int (r : R) : outcome Z :=
  if ((- 2147483648 <=? trunc r)%Z && (trunc r <=? 2147483647)%Z)%bool
  then Ok (trunc r) else UB.

(** CTSystemModel::computeDerivativeState, 43-56, with the forward Euler approximation of
    SensitivityApproximation.h 179-195; [dt] is handed to the approximation first (52). *)
Definition forwardEuler (s : nat) (dt : R) (x : V) (u : U) (n : Z) : V -> V :=
  fun h => plus h (scal dt (dfx s x u (IZR n * dt)%R h)).
Definition computeDerivativeState (m : model) (x : V) (u : U) (dt t : R) : outcome (V -> V) :=
  do n <- to_int (t / dt)%R ;; Ok (forwardEuler (m_sys m) dt x u n).

(** Calls to the process models, and what users may do with the systems in between. *)
Inductive call :=
| New (s : nat) (i : scheme)
| SetController (s : nat) (law : V -> R -> U)
| Predict (m : nat) (x : V) (u : U) (dt t : R).

Definition exec (w : world) (c : call) : world :=
  match c with
  | New s i => match new_model w (Some s) i with Ok w' => w' | _ => w end
  | SetController s law => set_controller w s law
  | Predict m x u dt t =>
      match nth_error (models w) m with
      | Some md => fst (computeDynamics w md x u dt t)
      | None => w
      end
  end.
Definition exec_all (w : world) (cs : list call) : world := fold_left exec cs w.

(** ** Input disturbances

    InputDisturbedSystem::computeControlledDynamics, 33-52.  The augmented state is the pair
    of its head (STATE_DIM) and its tail (CONTROL_DIM). *)
Definition disturbed (g : V -> U -> R -> V) (z : V * U) (u : U) (t : R) : V * U :=
  (g (fst z) (plus u (snd z)) t, zero).

(** The integrators on augmented states. *)
Definition one_step_aug (i : scheme) (rhs : V * U -> R -> V * U) (z : V * U) (t dt : R) : V * U :=
  match i with
  | Euler => euler_step plus scal rhs z t dt
  | RK4 => rk4_step Rplus Rmult (/ 2)%R 2%R (/ 6)%R plus scal rhs z t dt
  end.

(** ** The controller of a disturbed system and copies *)

(** DisturbedSystemController holds a pointer to the nominal controller; other controllers
    of augmented systems (CTSystemModel installs one) are [Foreign]. *)
Inductive actl := Disturbed (inner : option (V -> R -> U)) | Foreign (law : V * U -> R -> U).

(** The controller pointer of a DisturbedSystem: constructors, DisturbedSystem-impl.h 12-26. *)
Definition dsys := option actl.
Definition new_default : dsys := None.
Definition new_disturbed (c : option (V -> R -> U)) : dsys := Some (Disturbed c).

(** DisturbedSystem::setController, 29-34: the result of the cast is not checked. *)
Definition dsys_setController (d : dsys) (law : V -> R -> U) : outcome dsys :=
  match d with
  | Some (Disturbed _) => Ok (Some (Disturbed (Some law)))
  | _ => UB
  end.

(** DisturbedSystemController::computeControl, 33-44 *)
Definition computeControl (c : actl) (z : V * U) (t : R) : outcome U :=
  match c with
  | Disturbed None => Throw
  | Disturbed (Some law) => Ok (law (fst z) t)
  | Foreign law => Ok (law z t)
  end.

(** Copies: DisturbedSystemController-impl.h 19-23 (the pointer is not checked),
    ControlledSystem.h 78-82 (it is checked), InputDisturbedSystem-impl.h 20-30.  The base
    class is copied from [*this], the object under construction, whose members have no values
    yet. *)
Definition clone_actl (c : actl) : outcome actl :=
  match c with
  | Disturbed None => UB
  | Disturbed (Some l) => Ok (Disturbed (Some l))
  | Foreign l => Ok (Foreign l)
  end.
Inductive object := Uninitialised | Object (d : dsys).
Definition copy_base (o : object) : outcome dsys :=
  match o with
  | Uninitialised => UB
  | Object None => Ok None
  | Object (Some c) => do c' <- clone_actl c ;; Ok (Some c')
  end.
Record input_disturbed := mkInput { i_base : dsys; i_system : nat }.
Definition clone (other : input_disturbed) : outcome input_disturbed :=
  let this := Uninitialised in
  do b <- copy_base this ;; Ok (mkInput b (i_system other)).
End Proc.
Arguments world V U : clear implicits.
Arguments call V U : clear implicits.
Arguments ctl V U : clear implicits.
Arguments actl V U : clear implicits.
