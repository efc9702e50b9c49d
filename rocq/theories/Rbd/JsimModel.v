(** Model of the generated joint space inertia matrix (JSIM) of fixed base serial arms with revolute joints:
    ct_models/include/ct/models/{InvertedPendulum,DoubleInvertedPendulum,HyA}/generated/jsim.impl.h (and jsim.h).
    The files repeat one block of statements per link and per pair of links; the model is that block applied to a list of links.
    Line numbers are those of HyA.  Scalars are real. *)
From Coq Require Import Reals List Bool Arith.
From Verif Require Import Base.RVec Rbd.SpatialModel.
Import ListNotations.
Local Open Scope R_scope.

(** The members of the composite inertias (all links but the last, which is a reference), Ic_spare, and the matrix itself;
    jsim.h 73-87, constructor 5-12. *)
Record jsim := mkJs { jsMem : list mat; jsSpare : mat; jsH : mat }.
Definition newJsim (Gs : list mat) (G : mat) : jsim := mkJs (map newInertia0 Gs) (newInertia0 G) (fun _ _ => 0).

(** The entries of link [k0] with its predecessors, 43-57: [F] is carried from link to link towards the base. *)
Fixpoint rowUp (k0 k : nat) (F : rvec) (Xs : list mat) (H : mat) : mat :=
  match Xs with
  | [] => H
  | X :: Xs' =>
      let F' := rmv 6 X F in
      let H1 := put H k0 (k - 1) (F' AZ) in
      let H2 := put H1 (k - 1) k0 (H1 k0 (k - 1)%nat) in
      rowUp k0 (k - 1) F' Xs' H2
  end.
(** Link [k] with inertia [I], the links [rest] after it (force transform to the link before, inertia) and the force transforms
    [Xs] of link [k] and its predecessors, nearest first; 27-32, 36-57, 59-77, ....  The last link's composite inertia is its
    inertia; the others are assigned their inertia and then added what follows, expressed in their coordinates. *)
Fixpoint sweep (k : nat) (Xs : list mat) (I : mat) (rest : list (mat * mat)) (mem : list mat) (spare H : mat)
  : mat * mat * list mat * mat :=
  let finish (Ic : mat) (H : mat) := rowUp k k (fun i => Ic i AZ) Xs (put H k k (Ic AZ AZ)) in
  match rest with
  | [] => (I, spare, [], finish I H)
  | (X', I') :: rest' =>
      let '(Ic', spare', mem', H') := sweep (S k) (X' :: Xs) I' rest' (tl mem) spare H in
      let spare1 := transformInertia Ic' X' spare' in
      let Ic := addTo spare1 (assign I (hd (fun _ _ => 0) mem)) in
      (Ic, spare1, Ic :: mem', finish Ic H')
  end.
(** update, 17-128. *)
Definition update (I : mat) (rest : list (mat * mat)) (s : jsim) : jsim :=
  let '(_, spare, mem, H) := sweep 0 [] I rest (jsMem s) (jsSpare s) (jsH s) in mkJs mem spare H.

(** computeL, 134-200: row [k] of L and what it takes off the rows before.  The writes of one block read only row [k] and the
    written entry, so they are modelled at once. *)
Definition blockL (k : nat) (L : mat) : mat :=
  let d := sqrt (L k k) in
  fun i j =>
    if ((i =? k) && (j =? k))%nat then d
    else if ((i =? k) && (j <? k))%nat then L i j / d
    else if ((i <? k) && (j <=? i))%nat then L i j - L k i / d * (L k j / d)
    else L i j.
Fixpoint blocks (n : nat) (L : mat) : mat := match n with O => L | S k => blocks k (blockL k L) end.
(** The lower triangular view sets the rest to zero. *)
Definition computeL (n : nat) (H : mat) : mat := blocks n (fun i j => if (j <=? i)%nat then H i j else 0).
(** computeLInverse, 249-272: row [i] from the diagonal leftwards. *)
Fixpoint rowLinv (L : mat) (i d : nat) : rvec :=
  match d with
  | O => rset (fun _ => 0) i (1 / L i i)
  | S d' =>
      let r := rowLinv L i d' in
      let j := (i - d)%nat in
      rset r j (- (1 / L j j) * (rsum (i - j) (fun m => r (j + 1 + m)%nat * L (j + 1 + m)%nat j) + 0))
  end.
Definition computeLInverse (L : mat) : mat := fun i j => rowLinv L i i j.
(** computeInverse, 202-246. *)
Definition computeInverse (L : mat) : mat :=
  let Linv := computeLInverse L in
  fun i j => rsum (S (Nat.min i j)) (fun k => Linv (Nat.max i j) k * Linv (Nat.min i j) k).
