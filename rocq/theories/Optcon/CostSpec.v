(** Specification vocabulary for cost derivatives: only real vectors and Coquelicot's derivative
    of a real function. *)
From Coq Require Import Reals Arith.
From Coquelicot Require Import Coquelicot.
From Verif Require Import Base.RVec.
Local Open Scope R_scope.

(** g (n entries) is the gradient of f at x: it gives the derivative in every direction d. *)
Definition gradient (n : nat) (f : rvec -> R) (x g : rvec) : Prop :=
  forall d : rvec,
    is_derive (fun s : R => f (fun i => x i + s * d i)) 0 (rsum n (fun i => g i * d i)).

(** Row i of J is the gradient of component i of F, for i < rows. *)
Definition jacobian (rows n : nat) (F : rvec -> rvec) (x : rvec) (J : rmat) : Prop :=
  forall i, (i < rows)%nat -> gradient n (fun x => F x i) x (J i).

(** gx, Hxx, gu, Huu, Hux are the first and second derivatives of the cost f at (x, u), for n
    states and m controls: f has gradients everywhere, those at (x, u) are gx and gu, and the
    second derivatives are the Jacobians of the gradients. *)
Definition derivatives (n m : nat) (f : rvec -> rvec -> R) (x u : rvec)
  (gx : rvec) (Hxx : rmat) (gu : rvec) (Huu Hux : rmat) : Prop :=
  exists Gx Gu : rvec -> rvec -> rvec,
    (forall x u, gradient n (fun x => f x u) x (Gx x u)) /\
    (forall x u, gradient m (fun u => f x u) u (Gu x u)) /\
    Gx x u = gx /\ Gu x u = gu /\
    jacobian n n (fun x => Gx x u) x Hxx /\
    jacobian m m (fun u => Gu x u) u Huu /\
    jacobian m n (fun x => Gu x u) x Hux.
