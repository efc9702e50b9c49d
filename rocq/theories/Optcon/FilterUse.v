(** Which uses of the extended Kalman filter its properties are about. *)
From mathcomp Require Import all_ssreflect all_algebra.
From Verif Require Import Base.Mx Optcon.FilterSpec Optcon.FilterModel.
Set Implicit Arguments. Unset Strict Implicit. Unset Printing Implicit Defensive.
Import GRing.Theory Num.Theory Order.TTheory.
Local Open Scope ring_scope.

Section Use.
Variable F : realFieldType.
Variables n m o : nat.
Notation ekf := (ekf F n m o).

(** The calls with a nonnegative time step and an invertible noise Jacobian at the point of the update. *)
Fixpoint calls_ok (e : ekf) (cs : seq (ekf_call F n m o)) : Prop :=
  match cs with
  | [::] => True
  | c :: cs' =>
      match c with
      | Predict _ dt _ => 0 <= dt
      | Update _ _ t => measDerivativeNoise (e_h e) (e_x e) t \in unitmx
      | _ => True
      end /\ calls_ok (ekf_step e c) cs'
  end.
(** Valid covariances: estimate, process noise, measurement noise. *)
Definition ekf_valid (e : ekf) : Prop :=
  [/\ covariance (e_P e), covariance (e_Q e), symmetric (e_R e) & posdef (e_R e)].

End Use.
