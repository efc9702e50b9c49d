(** Model of ct_core: control/continuous_time/siso/PIDController-impl.h (and the parameter and
    set-point structs of PIDController.h), over an arbitrary scalar type. *)
From Coq Require Import List.
From Verif Require Import Base.Scalar.
Import ListNotations.

Section PID.
Context {S : Type} (ops : scalar_ops S).
Local Notation "a +! b" := (s_add ops a b) (at level 50).
Local Notation "a -! b" := (s_sub ops a b) (at level 50).
Local Notation "a *! b" := (s_mul ops a b) (at level 40).
Local Notation "a /! b" := (s_div ops a b) (at level 40).

(** PIDController.h, struct parameters_t: the members the code below reads. *)
Record pid_params := mk_pid_params {
  k_p : S; k_i : S; k_d : S; Imax : S; dt : S; uMin : S; uMax : S }.

(** PIDController.h, struct setpoint_t. *)
Record pid_setpoint := mk_setpoint { stateDesired : S; stateDerivativeDesired : S }.

(** Members: statePrevious_, I_, parameters_, setpoint_. *)
Record pid := mk_pid { statePrevious : S; I_ : S; params : pid_params; setpoint : pid_setpoint }.

(** l.11-15 constructor *)
Definition pid_new (p : pid_params) (sp : pid_setpoint) : pid :=
  mk_pid (s_zero ops) (s_zero ops) p sp.

(** l.136-150 computeI: new value of I_ *)
Definition computeI (c : pid) (error : S) : S :=
  let p := params c in
  let i := I_ c +! (k_i p *! error *! dt p) in
  let i := if s_ltb ops (Imax p) i then Imax p else i in
  let i := if s_ltb ops i (s_opp ops (Imax p)) then s_opp ops (Imax p) else i in
  i.

(** l.108-115 saturateControl *)
Definition saturateControl (p : pid_params) (u : S) : S :=
  let u := if s_ltb ops (uMax p) u then uMax p else u in
  let u := if s_ltb ops u (uMin p) then uMin p else u in
  u.

(** l.53-78 computeControl(state, t); the time argument is not used. *)
Definition computeControl (c : pid) (state : S) : pid * S :=
  let p := params c in let sp := setpoint c in
  let error := stateDesired sp -! state in
  let P := k_p p *! error in
  let i := computeI c error in
  let D := k_d p *! (stateDerivativeDesired sp -! ((state -! statePrevious c) /! dt p)) in
  let u := saturateControl p (P +! i +! D) in
  (mk_pid state i p sp, u).

(** l.80-106 computeControl(state, stateDerivative, t) *)
Definition computeControl_d (c : pid) (state stateDerivative : S) : pid * S :=
  let p := params c in let sp := setpoint c in
  let error := stateDesired sp -! state in
  let P := k_p p *! error in
  let i := computeI c error in
  let D := k_d p *! (stateDerivativeDesired sp -! stateDerivative) in
  let u := saturateControl p (P +! i +! D) in
  (mk_pid state i p sp, u).

(** The public calls. *)
Inductive pid_op :=
| PCompute (state : S)
| PComputeD (state stateDerivative : S)
| PSetInitial (state : S)                    (* l.34-38 *)
| PSetDesired (state : S)                    (* l.40-44 *)
| PSetDesired2 (state stateDerivative : S)   (* l.46-51 *)
| PChangeParameters (p : pid_params)         (* l.117-121 *)
| PReset.                                    (* l.129-134 *)

Definition pid_step (c : pid) (o : pid_op) : pid * option S :=
  match o with
  | PCompute x => let '(c', u) := computeControl c x in (c', Some u)
  | PComputeD x d => let '(c', u) := computeControl_d c x d in (c', Some u)
  | PSetInitial x => (mk_pid x (I_ c) (params c) (setpoint c), None)
  | PSetDesired x =>
      (mk_pid (statePrevious c) (I_ c) (params c)
         (mk_setpoint x (stateDerivativeDesired (setpoint c))), None)
  | PSetDesired2 x d => (mk_pid (statePrevious c) (I_ c) (params c) (mk_setpoint x d), None)
  | PChangeParameters p => (mk_pid (statePrevious c) (I_ c) p (setpoint c), None)
  | PReset => (mk_pid (s_zero ops) (s_zero ops) (params c) (setpoint c), None)
  end.

(** All returned controls of a history, each with the controller state after the call. *)
Fixpoint pid_run (c : pid) (hist : list pid_op) : list (pid * S) :=
  match hist with
  | [] => []
  | o :: r =>
      let '(c', out) := pid_step c o in
      match out with
      | Some u => (c', u) :: pid_run c' r
      | None => pid_run c' r
      end
  end.

Fixpoint pid_exec (c : pid) (hist : list pid_op) : pid :=
  match hist with
  | [] => c
  | o :: r => pid_exec (fst (pid_step c o)) r
  end.
End PID.
Arguments mk_pid_params {S}. Arguments mk_setpoint {S}. Arguments mk_pid {S}.
Arguments k_p {S}. Arguments k_i {S}. Arguments k_d {S}. Arguments Imax {S}. Arguments dt {S}.
Arguments uMin {S}. Arguments uMax {S}. Arguments stateDesired {S}.
Arguments stateDerivativeDesired {S}. Arguments statePrevious {S}. Arguments I_ {S}.
Arguments params {S}. Arguments setpoint {S}.
