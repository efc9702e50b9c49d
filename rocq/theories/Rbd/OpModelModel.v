(** Model of the operational space model: ct_rbd/include/ct/rbd/operationalSpace/rigid_body/OperationalModel{Base,,RBD}.h.
    Scalars are elements of a field; m is NUM_OUTPUTS, n is 6 + NUM_JOINTS, j is NUM_JOINTS and c is NUM_CONTACTPOINTS.
    The Jacobian object is the one of OpJacModel.v.  It is reached through a shared pointer, as is the full body model, so several
    operational models can use the same; of the full body model only the state it was last updated with and its parameters as
    functions of the state matter.  Eigen's LDLT solve of the identity is a parameter.  Coordinates other than velocities and
    accelerations (getPositions) and the specialisation for no outputs (OperationalModel.h 115-127) are not modelled. *)
From mathcomp Require Import all_ssreflect all_algebra.
From Verif Require Import Base.Outcome Rbd.OpJacModel.
Set Implicit Arguments. Unset Strict Implicit. Unset Printing Implicit Defensive.
Import GRing.Theory.
Local Open Scope ring_scope.

Section OpModel.
Variables (F : fieldType) (m n j c : nat) (state : Type).
(** OperationalModelBase.h 109-114, of the full body model. *)
Record params := mkPar { pM : 'M[F]_n; pMInverse : 'M[F]_n; pC : 'cV[F]_n; pG : 'cV[F]_n; pS : 'M[F]_(j, n); pJc : 'I_c -> 'M[F]_(3, n) }.
Variable full : state -> params.
(** RBDState::toCoordinateVelocity *)
Variable toCoordinateVelocity : state -> 'cV[F]_n.
Variables (getJacobianOrigin getJacobianOriginDerivative : state -> 'M[F]_(m, n)).
Variable ldltSolveIdentity : forall k, 'M[F]_k -> 'M[F]_k.

(** What the shared pointers point to. *)
Record shared := mkShared { jac : opjac F m n state; fullState : state }.
(** OperationalModelBase.h 107-114 *)
Record opmodel := mkModel { m_state : state; m_M : 'M[F]_m; m_MInverse : 'M[F]_m; m_C : 'cV[F]_m; m_G : 'cV[F]_m; m_S : 'M[F]_(j, m); m_Jc : 'I_c -> 'M[F]_(3, m) }.

(** OperationalModel.h 51-73 *)
Definition update (s : state) (w : shared) : shared * opmodel :=
  let f := full s in
  let (Jdager, o1) := JdagerLDLT getJacobianOrigin (@ldltSolveIdentity m) (updateState (jac w) s (pMInverse f)) in
  let (dj, o2) := dJdt getJacobianOriginDerivative o1 in
  let M := Jdager^T *m pM f *m Jdager in
  (mkShared o2 s,
   mkModel s M (ldltSolveIdentity M) (Jdager^T *m pC f - M *m dj *m toCoordinateVelocity s) (Jdager^T *m pG f) (pS f *m Jdager)
     (fun i => pJc f i *m Jdager)).
(** OperationalModelBase.h 79-85 *)
Definition getVelocities (o : opmodel) (w : shared) : 'cV[F]_m * shared :=
  let (v, o1) := J getJacobianOrigin (jac w) in (v *m toCoordinateVelocity (m_state o), mkShared o1 (fullState w)).
(** OperationalModelBase.h 88-94 *)
Definition getAccelerations (qdd : 'cV[F]_n) (o : opmodel) (w : shared) : 'cV[F]_m * shared :=
  let (v, o1) := J getJacobianOrigin (jac w) in let (d, o2) := dJdt getJacobianOriginDerivative o1 in
  (v *m qdd + d *m toCoordinateVelocity (m_state o), mkShared o2 (fullState w)).
(** OperationalModel.h 80-106: the mass matrix computed first is overwritten by the identity and not modelled. *)
Definition STransposeDager k (orthogonalSystemS : 'M[F]_(j, k)) (o : opmodel) : 'M[F]_(j, m) :=
  let W0 : 'M[F]_j := 1%:M in
  let W := if (k == 0)%N then W0
           else W0 - W0 *m orthogonalSystemS *m ldltSolveIdentity (orthogonalSystemS^T *m W0 *m orthogonalSystemS) *m orthogonalSystemS^T *m W0 in
  W *m m_S o *m ldltSolveIdentity ((m_S o)^T *m W *m m_S o).

(** A program using models that share the Jacobian and the full body model; the model at each index may have been updated or not.
    [Foreign] is a use of the pointer returned by getJacobianPtr (79). *)
Inductive event := Update (i : nat) (s : state) | Velocities (i : nat) | Accelerations (i : nat) (qdd : 'cV[F]_n) | Foreign (s : state) (W : 'M[F]_n).
Definition world := (shared * (nat -> option opmodel))%type.
Definition step (w : world) (e : event) : world :=
  match e with
  | Update i s => let (h, o) := update s w.1 in (h, fun k => if (k == i)%N then Some o else w.2 k)
  | Velocities i => if w.2 i is Some o then ((getVelocities o w.1).2, w.2) else w
  | Accelerations i qdd => if w.2 i is Some o then ((getAccelerations qdd o w.1).2, w.2) else w
  | Foreign s W => (mkShared (updateState (jac w.1) s W) (fullState w.1), w.2)
  end.
Definition exec (w : world) (l : seq event) : world := foldl step w l.
End OpModel.

(** OperationalModelRBD.h 75: a comma initialisation with matrices of 12 rows; entries as a function of row and column.  With another
    number of joints the sizes do not agree: Eigen asserts, or reads and writes beyond the end. *)
Definition selection (F : fieldType) (NUM_JOINTS : nat) : outcome (nat -> nat -> F) :=
  if (NUM_JOINTS == 12)%N then Ok (fun r k => if (k < 6)%N then 0 else if (k - 6 == r)%N then 1 else 0) else UB.
