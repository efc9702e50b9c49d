(** Model of /repo/ct_rbd/include/ct/rbd/robot/jacobian/OperationalJacobianBase.h.  Scalars are elements of a field, m is
    NUM_OUTPUTS and n is 6 + NUM_JOINTS.  The derived class (the Jacobian and its derivative as functions of the state) and
    Eigen's LDLT solve and singular value decomposition are parameters. *)
From mathcomp Require Import all_ssreflect all_algebra.
Set Implicit Arguments. Unset Strict Implicit. Unset Printing Implicit Defensive.
Import GRing.Theory.
Local Open Scope ring_scope.

Section OpJac.
Variables (F : fieldType) (m n : nat) (state : Type).
Variables (getJacobianOrigin getJacobianOriginDerivative : state -> 'M[F]_(m, n)).
(** x.ldlt().solve(Identity) *)
Variable ldltSolveIdentity : 'M[F]_m -> 'M[F]_m.
(** V * diag(1 / s_i or 0) * U^T for the singular value decomposition U diag(s) V^T. *)
Variable svdInverse : 'M[F]_(m, n) -> 'M[F]_(n, m).

(** 150-182 *)
Record opjac := mkOp {
  JUpdated : bool; dJdtUpdated : bool; JdagerUpdated : bool; dJdagerdtUpdated : bool; PUpdated : bool; dPdtUpdated : bool;
  state_ : state; W_ : 'M[F]_n;
  J_ : 'M[F]_(m, n); dJdt_ : 'M[F]_(m, n); Jdager_ : 'M[F]_(n, m); dJdagerdt_ : 'M[F]_(n, m); P_ : 'M[F]_n; dPdt_ : 'M[F]_n }.

(** 41-46, with resetUpdatedFlags (154-163); resetUserUpdatedFlags does nothing by default (132). *)
Definition updateState (o : opjac) (s : state) (weighting : 'M[F]_n) : opjac :=
  mkOp false false false false false false s weighting (J_ o) (dJdt_ o) (Jdager_ o) (dJdagerdt_ o) (P_ o) (dPdt_ o).
(** 49-57 *)
Definition J (o : opjac) : 'M[F]_(m, n) * opjac :=
  if JUpdated o then (J_ o, o)
  else let v := getJacobianOrigin (state_ o) in
       (v, mkOp true (dJdtUpdated o) (JdagerUpdated o) (dJdagerdtUpdated o) (PUpdated o) (dPdtUpdated o)
             (state_ o) (W_ o) v (dJdt_ o) (Jdager_ o) (dJdagerdt_ o) (P_ o) (dPdt_ o)).
(** 60-68 *)
Definition dJdt (o : opjac) : 'M[F]_(m, n) * opjac :=
  if dJdtUpdated o then (dJdt_ o, o)
  else let v := getJacobianOriginDerivative (state_ o) in
       (v, mkOp (JUpdated o) true (JdagerUpdated o) (dJdagerdtUpdated o) (PUpdated o) (dPdtUpdated o)
             (state_ o) (W_ o) (J_ o) v (Jdager_ o) (dJdagerdt_ o) (P_ o) (dPdt_ o)).
Definition setJdager (o : opjac) (v : 'M[F]_(n, m)) : opjac :=
  mkOp (JUpdated o) (dJdtUpdated o) true (dJdagerdtUpdated o) (PUpdated o) (dPdtUpdated o)
    (state_ o) (W_ o) (J_ o) (dJdt_ o) v (dJdagerdt_ o) (P_ o) (dPdt_ o).
(** 71-80; repeated calls of J() return the same reference. *)
Definition JdagerLDLT (o : opjac) : 'M[F]_(n, m) * opjac :=
  if JdagerUpdated o then (Jdager_ o, o)
  else let (j, o1) := J o in
       let v := W_ o1 *m j^T *m ldltSolveIdentity (j *m W_ o1 *m j^T) in (v, setJdager o1 v).
(** 82-94 *)
Definition JdagerSVD (o : opjac) : 'M[F]_(n, m) * opjac :=
  if JdagerUpdated o then (Jdager_ o, o)
  else let (j, o1) := J o in let v := svdInverse j in (v, setJdager o1 v).
(** 97-104 *)
Definition dJdagerdt (o : opjac) : 'M[F]_(n, m) * opjac :=
  let (jd, o1) := JdagerLDLT o in
  let (dj, o2) := dJdt o1 in
  let v := (- jd) *m dj *m jd in
  (v, mkOp (JUpdated o2) (dJdtUpdated o2) (JdagerUpdated o2) true (PUpdated o2) (dPdtUpdated o2)
        (state_ o2) (W_ o2) (J_ o2) (dJdt_ o2) (Jdager_ o2) v (P_ o2) (dPdt_ o2)).
(** 107-115 *)
Definition P (o : opjac) : 'M[F]_n * opjac :=
  if PUpdated o then (P_ o, o)
  else let (jd, o1) := JdagerLDLT o in
       let (j, o2) := J o1 in
       let v := 1%:M - jd *m j in
       (v, mkOp (JUpdated o2) (dJdtUpdated o2) (JdagerUpdated o2) (dJdagerdtUpdated o2) true (dPdtUpdated o2)
             (state_ o2) (W_ o2) (J_ o2) (dJdt_ o2) (Jdager_ o2) (dJdagerdt_ o2) v (dPdt_ o2)).
(** 118-126 *)
Definition dPdt (o : opjac) : 'M[F]_n * opjac :=
  if dPdtUpdated o then (dPdt_ o, o)
  else let (jd, o1) := JdagerLDLT o in
       let (dj, o2) := dJdt o1 in
       let (p, o3) := P o2 in
       let v := (- jd) *m dj *m p in
       (v, mkOp (JUpdated o3) (dJdtUpdated o3) (JdagerUpdated o3) (dJdagerdtUpdated o3) (PUpdated o3) true
             (state_ o3) (W_ o3) (J_ o3) (dJdt_ o3) (Jdager_ o3) (dJdagerdt_ o3) (P_ o3) v).
End OpJac.
