(** * Specification of the quadrotor: a rigid body with thrust along its axis

    Written without the model: a body with Euler angles in the order x, y, z. *)
From Coq Require Import Reals List.
From Coquelicot Require Import Coquelicot.
Local Open Scope R_scope.

Definition sumn (n : nat) (f : nat -> R) : R := sum_n f (n - 1).

(** Rotations about the axes and their product, the orientation of the body. *)
Record m3 := M3 { e00 : R; e01 : R; e02 : R; e10 : R; e11 : R; e12 : R; e20 : R; e21 : R; e22 : R }.
Record v3 := V3 { vx : R; vy : R; vz : R }.

Definition mul (a b : m3) : m3 :=
  M3 (e00 a * e00 b + e01 a * e10 b + e02 a * e20 b)
     (e00 a * e01 b + e01 a * e11 b + e02 a * e21 b)
     (e00 a * e02 b + e01 a * e12 b + e02 a * e22 b)
     (e10 a * e00 b + e11 a * e10 b + e12 a * e20 b)
     (e10 a * e01 b + e11 a * e11 b + e12 a * e21 b)
     (e10 a * e02 b + e11 a * e12 b + e12 a * e22 b)
     (e20 a * e00 b + e21 a * e10 b + e22 a * e20 b)
     (e20 a * e01 b + e21 a * e11 b + e22 a * e21 b)
     (e20 a * e02 b + e21 a * e12 b + e22 a * e22 b).

Definition app (a : m3) (v : v3) : v3 :=
  V3 (e00 a * vx v + e01 a * vy v + e02 a * vz v)
     (e10 a * vx v + e11 a * vy v + e12 a * vz v)
     (e20 a * vx v + e21 a * vy v + e22 a * vz v).

Definition cross (a b : v3) : v3 :=
  V3 (vy a * vz b - vz a * vy b) (vz a * vx b - vx a * vz b) (vx a * vy b - vy a * vx b).

Definition skew (w : v3) : m3 :=
  M3 0 (- vz w) (vy w) (vz w) 0 (- vx w) (- vy w) (vx w) 0.

Definition rotX (a : R) : m3 := M3 1 0 0  0 (cos a) (- sin a)  0 (sin a) (cos a).
Definition rotY (a : R) : m3 := M3 (cos a) 0 (sin a)  0 1 0  (- sin a) 0 (cos a).
Definition rotZ (a : R) : m3 := M3 (cos a) (- sin a) 0  (sin a) (cos a) 0  0 0 1.

(** Body to world. *)
Definition orientation (ph th ps : R) : m3 := mul (rotX ph) (mul (rotY th) (rotZ ps)).

Definition derive3 (f : R -> v3) (t : R) (d : v3) : Prop :=
  is_derive (fun s => vx (f s)) t (vx d) /\ is_derive (fun s => vy (f s)) t (vy d)
  /\ is_derive (fun s => vz (f s)) t (vz d).

Definition derive9 (f : R -> m3) (t : R) (d : m3) : Prop :=
  is_derive (fun s => e00 (f s)) t (e00 d) /\ is_derive (fun s => e01 (f s)) t (e01 d)
  /\ is_derive (fun s => e02 (f s)) t (e02 d) /\ is_derive (fun s => e10 (f s)) t (e10 d)
  /\ is_derive (fun s => e11 (f s)) t (e11 d) /\ is_derive (fun s => e12 (f s)) t (e12 d)
  /\ is_derive (fun s => e20 (f s)) t (e20 d) /\ is_derive (fun s => e21 (f s)) t (e21 d)
  /\ is_derive (fun s => e22 (f s)) t (e22 d).

(** Newton: mass [m], gravity along -z, thrust [F] along the body's z axis. *)
Definition newton (m g F : R) (Rot : m3) (acc : v3) : Prop :=
  let f := app Rot (V3 0 0 F) in
  m * vx acc = vx f /\ m * vy acc = vy f /\ m * vz acc = vz f - m * g.

(** Euler: moments of inertia [Ixy], [Ixy], [Iz] and moments [M] in the body frame. *)
Definition euler (Ixy Iz : R) (M w dw : v3) : Prop :=
  let c := cross w (V3 (Ixy * vx w) (Ixy * vy w) (Iz * vz w)) in
  Ixy * vx dw + vx c = vx M /\ Ixy * vy dw + vy c = vy M /\ Iz * vz dw + vz c = vz M.
