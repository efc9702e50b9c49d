(** Model of the generated kinematics of the HyA arm: homogeneous transforms from link or end effector to base, force transforms
    from base to link, and the Jacobian of the end effector, in
    ct_models/include/ct/models/HyA/generated/{transforms,jacobians}.impl.h (transcribed statement by statement), and of the
    functions that select them by number in ct_rbd/include/ct/rbd/robot/robcogen/robcogenHelpers.h with the numbers of
    ct_models/include/ct/models/HyA/HyA.h, called by ct_rbd/include/ct/rbd/robot/RobCoGenContainer.h.
    Scalars are real; decimal literals are exact. *)
From Coq Require Import Reals List Bool Arith.
From Verif Require Import Base.Outcome Base.RVec Rbd.SpatialModel Rbd.PendulumModel.
Import ListNotations.
Local Open Scope R_scope.

(** ** transforms.impl.h, jacobians.impl.h *)
(** HomogeneousTransforms fr_HyABase_X_fr_Shoulder_AA; constructor 5885-5899, update 5901-5913. *)
Definition newHb0 (G : mat) : mat :=
  puts G [ w 0 2 0; w 0 3 0; w 1 2 0; w 1 3 0; w 2 0 0; w 2 1 0; w 2 2 1; w 2 3 0; w 3 0 0; w 3 1 0; w 3 2 0; w 3 3 1 ].
Definition updHb0 (q : nat -> R) (M : mat) : mat :=
  let c0 := cos (q 0%nat) in let s0 := sin (q 0%nat) in 
  puts M [ w 0 0 c0; w 0 1 (- s0); w 1 0 s0; w 1 1 c0 ].
(** HomogeneousTransforms fr_HyABase_X_fr_Shoulder_FE; constructor 5915-5925, update 5927-5947. *)
Definition newHb1 (G : mat) : mat :=
  puts G [ w 0 3 0; w 1 3 0; w 2 2 0; w 2 3 (178 / 1000); w 3 0 0; w 3 1 0; w 3 2 0; w 3 3 1 ].
Definition updHb1 (q : nat -> R) (M : mat) : mat :=
  let c0 := cos (q 0%nat) in let s0 := sin (q 0%nat) in let c1 := cos (q 1%nat) in let s1 := sin (q 1%nat) in 
  puts M [ w 0 0 (c0 * c1); w 0 1 (- c0 * s1); w 0 2 s0; w 1 0 (s0 * c1); w 1 1 (- s0 * s1); w 1 2 (- c0); w 2 0 s1; w 2 1 c1 ].
(** HomogeneousTransforms fr_HyABase_X_fr_Humerus_R; constructor 5949-5955, update 5957-5985. *)
Definition newHb2 (G : mat) : mat :=
  puts G [ w 3 0 0; w 3 1 0; w 3 2 0; w 3 3 1 ].
Definition updHb2 (q : nat -> R) (M : mat) : mat :=
  let c0 := cos (q 0%nat) in let s0 := sin (q 0%nat) in let c1 := cos (q 1%nat) in let s1 := sin (q 1%nat) in let c2 := cos (q 2%nat) in let s2 := sin (q 2%nat) in 
  puts M [ w 0 0 (((- s2 * c0) * s1) - (c2 * s0)); w 0 1 ((s2 * s0) - ((c2 * c0) * s1)); w 0 2 (c0 * c1); w 0 3 (((112 / 1000) * c0) * c1);
           w 1 0 ((c2 * c0) - ((s2 * s0) * s1)); w 1 1 (((- c2 * s0) * s1) - (s2 * c0)); w 1 2 (s0 * c1); w 1 3 (((112 / 1000) * s0) * c1);
           w 2 0 (s2 * c1); w 2 1 (c2 * c1); w 2 2 s1; w 2 3 (((112 / 1000) * s1) + (178 / 1000)) ].
(** HomogeneousTransforms fr_HyABase_X_fr_Elbow_FE; constructor 5987-5993, update 5995-6027. *)
Definition newHb3 (G : mat) : mat :=
  puts G [ w 3 0 0; w 3 1 0; w 3 2 0; w 3 3 1 ].
Definition updHb3 (q : nat -> R) (M : mat) : mat :=
  let c0 := cos (q 0%nat) in let s0 := sin (q 0%nat) in let c1 := cos (q 1%nat) in let s1 := sin (q 1%nat) in let c2 := cos (q 2%nat) in let s2 := sin (q 2%nat) in let c3 := cos (q 3%nat) in let s3 := sin (q 3%nat) in 
  puts M [ w 0 0 (((((- s3 * c2) * c0) * s1) + ((c3 * c0) * c1)) + ((s3 * s2) * s0));
           w 0 1 (((((- c3 * c2) * c0) * s1) - ((s3 * c0) * c1)) + ((c3 * s2) * s0)); w 0 2 (((s2 * c0) * s1) + (c2 * s0));
           w 0 3 (((416 / 1000) * c0) * c1); w 1 0 (((((- s3 * c2) * s0) * s1) + ((c3 * s0) * c1)) - ((s3 * s2) * c0));
           w 1 1 (((((- c3 * c2) * s0) * s1) - ((s3 * s0) * c1)) - ((c3 * s2) * c0)); w 1 2 (((s2 * s0) * s1) - (c2 * c0));
           w 1 3 (((416 / 1000) * s0) * c1); w 2 0 ((c3 * s1) + ((s3 * c2) * c1)); w 2 1 (((c3 * c2) * c1) - (s3 * s1)); w 2 2 (- s2 * c1);
           w 2 3 (((416 / 1000) * s1) + (178 / 1000)) ].
(** HomogeneousTransforms fr_HyABase_X_fr_Wrist_R; constructor 6029-6035, update 6037-6073. *)
Definition newHb4 (G : mat) : mat :=
  puts G [ w 3 0 0; w 3 1 0; w 3 2 0; w 3 3 1 ].
Definition updHb4 (q : nat -> R) (M : mat) : mat :=
  let c0 := cos (q 0%nat) in let s0 := sin (q 0%nat) in let c1 := cos (q 1%nat) in let s1 := sin (q 1%nat) in let c2 := cos (q 2%nat) in let s2 := sin (q 2%nat) in let c3 := cos (q 3%nat) in let s3 := sin (q 3%nat) in let c4 := cos (q 4%nat) in let s4 := sin (q 4%nat) in 
  puts M [ w 0 0 (((((((- c3 * c2) * c0) * s1) - ((s3 * c0) * c1)) + ((c3 * s2) * s0)) * s4) + ((((- s2 * c0) * s1) - (c2 * s0)) * c4));
           w 0 1 (((((s2 * c0) * s1) + (c2 * s0)) * s4) + ((((((- c3 * c2) * c0) * s1) - ((s3 * c0) * c1)) + ((c3 * s2) * s0)) * c4));
           w 0 2 (((((- s3 * c2) * c0) * s1) + ((c3 * c0) * c1)) + ((s3 * s2) * s0));
           w 0 3 ((((((- (112 / 1000) * s3) * c2) * c0) * s1) + (((((112 / 1000) * c3) + (416 / 1000)) * c0) * c1)) + ((((112 / 1000) * s3) * s2) * s0));
           w 1 0 (((((((- c3 * c2) * s0) * s1) - ((s3 * s0) * c1)) - ((c3 * s2) * c0)) * s4) + (((c2 * c0) - ((s2 * s0) * s1)) * c4));
           w 1 1 (((((s2 * s0) * s1) - (c2 * c0)) * s4) + ((((((- c3 * c2) * s0) * s1) - ((s3 * s0) * c1)) - ((c3 * s2) * c0)) * c4));
           w 1 2 (((((- s3 * c2) * s0) * s1) + ((c3 * s0) * c1)) - ((s3 * s2) * c0));
           w 1 3 ((((((- (112 / 1000) * s3) * c2) * s0) * s1) + (((((112 / 1000) * c3) + (416 / 1000)) * s0) * c1)) - ((((112 / 1000) * s3) * s2) * c0));
           w 2 0 (((((c3 * c2) * c1) - (s3 * s1)) * s4) + ((s2 * c1) * c4)); w 2 1 (((((c3 * c2) * c1) - (s3 * s1)) * c4) - ((s2 * c1) * s4));
           w 2 2 ((c3 * s1) + ((s3 * c2) * c1));
           w 2 3 ((((((112 / 1000) * c3) + (416 / 1000)) * s1) + ((((112 / 1000) * s3) * c2) * c1)) + (178 / 1000)) ].
(** HomogeneousTransforms fr_HyABase_X_fr_Wrist_FE; constructor 6075-6081, update 6083-6123. *)
Definition newHb5 (G : mat) : mat :=
  puts G [ w 3 0 0; w 3 1 0; w 3 2 0; w 3 3 1 ].
Definition updHb5 (q : nat -> R) (M : mat) : mat :=
  let c0 := cos (q 0%nat) in let s0 := sin (q 0%nat) in let c1 := cos (q 1%nat) in let s1 := sin (q 1%nat) in let c2 := cos (q 2%nat) in let s2 := sin (q 2%nat) in let c3 := cos (q 3%nat) in let s3 := sin (q 3%nat) in let c4 := cos (q 4%nat) in let s4 := sin (q 4%nat) in let c5 := cos (q 5%nat) in let s5 := sin (q 5%nat) in 
  puts M [ w 0 0 (((((((((- c3 * c2) * c0) * s1) - ((s3 * c0) * c1)) + ((c3 * s2) * s0)) * s5) * s4) + (((((- s2 * c0) * s1) - (c2 * s0)) * s5) * c4)) + ((((((- s3 * c2) * c0) * s1) + ((c3 * c0) * c1)) + ((s3 * s2) * s0)) * c5));
           w 0 1 (((((((((- c3 * c2) * c0) * s1) - ((s3 * c0) * c1)) + ((c3 * s2) * s0)) * c5) * s4) + (((((- s2 * c0) * s1) - (c2 * s0)) * c5) * c4)) + ((((((s3 * c2) * c0) * s1) - ((c3 * c0) * c1)) - ((s3 * s2) * s0)) * s5));
           w 0 2 ((((((1 * s2) * c0) * s1) + (c2 * s0)) * s4) + ((((((- c3 * c2) * c0) * s1) - ((s3 * c0) * c1)) + ((c3 * s2) * s0)) * c4));
           w 0 3 (((((((((((- (2075 / 100000) * c3) * c2) * c0) * s1) - ((((2075 / 100000) * s3) * c0) * c1)) + ((((2075 / 100000) * c3) * s2) * s0)) * s4) + (((((- (2075 / 100000) * s2) * c0) * s1) - (((2075 / 100000) * c2) * s0)) * c4)) - (((((296 / 1000) * s3) * c2) * c0) * s1)) + (((((296 / 1000) * c3) + (416 / 1000)) * c0) * c1)) + ((((296 / 1000) * s3) * s2) * s0));
           w 1 0 (((((((((- c3 * c2) * s0) * s1) - ((s3 * s0) * c1)) - ((c3 * s2) * c0)) * s5) * s4) + ((((c2 * c0) - ((s2 * s0) * s1)) * s5) * c4)) + ((((((- s3 * c2) * s0) * s1) + ((c3 * s0) * c1)) - ((s3 * s2) * c0)) * c5));
           w 1 1 (((((((((- c3 * c2) * s0) * s1) - ((s3 * s0) * c1)) - ((c3 * s2) * c0)) * c5) * s4) + ((((c2 * c0) - ((s2 * s0) * s1)) * c5) * c4)) + ((((((s3 * c2) * s0) * s1) - ((c3 * s0) * c1)) + ((s3 * s2) * c0)) * s5));
           w 1 2 ((((((1 * s2) * s0) * s1) - (c2 * c0)) * s4) + ((((((- c3 * c2) * s0) * s1) - ((s3 * s0) * c1)) - ((c3 * s2) * c0)) * c4));
           w 1 3 (((((((((((- (2075 / 100000) * c3) * c2) * s0) * s1) - ((((2075 / 100000) * s3) * s0) * c1)) - ((((2075 / 100000) * c3) * s2) * c0)) * s4) + (((((2075 / 100000) * c2) * c0) - ((((2075 / 100000) * s2) * s0) * s1)) * c4)) - (((((296 / 1000) * s3) * c2) * s0) * s1)) + (((((296 / 1000) * c3) + (416 / 1000)) * s0) * c1)) - ((((296 / 1000) * s3) * s2) * c0));
           w 2 0 (((((((c3 * c2) * c1) - (s3 * s1)) * s5) * s4) + (((s2 * c1) * s5) * c4)) + (((c3 * s1) + ((s3 * c2) * c1)) * c5));
           w 2 1 (((((((c3 * c2) * c1) - (s3 * s1)) * c5) * s4) + (((s2 * c1) * c5) * c4)) + (((- c3 * s1) - ((s3 * c2) * c1)) * s5));
           w 2 2 ((((((1 * c3) * c2) * c1) - (s3 * s1)) * c4) - ((s2 * c1) * s4));
           w 2 3 ((((((((((2075 / 100000) * c3) * c2) * c1) - (((2075 / 100000) * s3) * s1)) * s4) + ((((2075 / 100000) * s2) * c1) * c4)) + ((((296 / 1000) * c3) + (416 / 1000)) * s1)) + ((((296 / 1000) * s3) * c2) * c1)) + (178 / 1000)) ].
(** HomogeneousTransforms fr_HyABase_X_fr_ee; constructor 6125-6131, update 6133-6173. *)
Definition newHee (G : mat) : mat :=
  puts G [ w 3 0 0; w 3 1 0; w 3 2 0; w 3 3 1 ].
Definition updHee (q : nat -> R) (M : mat) : mat :=
  let c0 := cos (q 0%nat) in let s0 := sin (q 0%nat) in let c1 := cos (q 1%nat) in let s1 := sin (q 1%nat) in let c2 := cos (q 2%nat) in let s2 := sin (q 2%nat) in let c3 := cos (q 3%nat) in let s3 := sin (q 3%nat) in let c4 := cos (q 4%nat) in let s4 := sin (q 4%nat) in let c5 := cos (q 5%nat) in let s5 := sin (q 5%nat) in 
  puts M [ w 0 0 (((((((((- c3 * c2) * c0) * s1) - ((s3 * c0) * c1)) + ((c3 * s2) * s0)) * s5) * s4) + (((((- s2 * c0) * s1) - (c2 * s0)) * s5) * c4)) + ((((((- s3 * c2) * c0) * s1) + ((c3 * c0) * c1)) + ((s3 * s2) * s0)) * c5));
           w 0 1 (((((((((- c3 * c2) * c0) * s1) - ((s3 * c0) * c1)) + ((c3 * s2) * s0)) * c5) * s4) + (((((- s2 * c0) * s1) - (c2 * s0)) * c5) * c4)) + ((((((s3 * c2) * c0) * s1) - ((c3 * c0) * c1)) - ((s3 * s2) * s0)) * s5));
           w 0 2 ((((((1 * s2) * c0) * s1) + (c2 * s0)) * s4) + ((((((- c3 * c2) * c0) * s1) - ((s3 * c0) * c1)) + ((c3 * s2) * s0)) * c4));
           w 0 3 ((((((((((((((((- (3 / 100) * c3) * c2) * c0) * s1) - ((((3 / 100) * s3) * c0) * c1)) + ((((3 / 100) * c3) * s2) * s0)) * s5) - (((((2075 / 100000) * c3) * c2) * c0) * s1)) - ((((2075 / 100000) * s3) * c0) * c1)) + ((((2075 / 100000) * c3) * s2) * s0)) * s4) + ((((((((- (3 / 100) * s2) * c0) * s1) - (((3 / 100) * c2) * s0)) * s5) - ((((2075 / 100000) * s2) * c0) * s1)) - (((2075 / 100000) * c2) * s0)) * c4)) + (((((((- (3 / 100) * s3) * c2) * c0) * s1) + ((((3 / 100) * c3) * c0) * c1)) + ((((3 / 100) * s3) * s2) * s0)) * c5)) - (((((296 / 1000) * s3) * c2) * c0) * s1)) + (((((296 / 1000) * c3) + (416 / 1000)) * c0) * c1)) + ((((296 / 1000) * s3) * s2) * s0));
           w 1 0 (((((((((- c3 * c2) * s0) * s1) - ((s3 * s0) * c1)) - ((c3 * s2) * c0)) * s5) * s4) + ((((c2 * c0) - ((s2 * s0) * s1)) * s5) * c4)) + ((((((- s3 * c2) * s0) * s1) + ((c3 * s0) * c1)) - ((s3 * s2) * c0)) * c5));
           w 1 1 (((((((((- c3 * c2) * s0) * s1) - ((s3 * s0) * c1)) - ((c3 * s2) * c0)) * c5) * s4) + ((((c2 * c0) - ((s2 * s0) * s1)) * c5) * c4)) + ((((((s3 * c2) * s0) * s1) - ((c3 * s0) * c1)) + ((s3 * s2) * c0)) * s5));
           w 1 2 ((((((1 * s2) * s0) * s1) - (c2 * c0)) * s4) + ((((((- c3 * c2) * s0) * s1) - ((s3 * s0) * c1)) - ((c3 * s2) * c0)) * c4));
           w 1 3 ((((((((((((((((- (3 / 100) * c3) * c2) * s0) * s1) - ((((3 / 100) * s3) * s0) * c1)) - ((((3 / 100) * c3) * s2) * c0)) * s5) - (((((2075 / 100000) * c3) * c2) * s0) * s1)) - ((((2075 / 100000) * s3) * s0) * c1)) - ((((2075 / 100000) * c3) * s2) * c0)) * s4) + ((((((((3 / 100) * c2) * c0) - ((((3 / 100) * s2) * s0) * s1)) * s5) - ((((2075 / 100000) * s2) * s0) * s1)) + (((2075 / 100000) * c2) * c0)) * c4)) + (((((((- (3 / 100) * s3) * c2) * s0) * s1) + ((((3 / 100) * c3) * s0) * c1)) - ((((3 / 100) * s3) * s2) * c0)) * c5)) - (((((296 / 1000) * s3) * c2) * s0) * s1)) + (((((296 / 1000) * c3) + (416 / 1000)) * s0) * c1)) - ((((296 / 1000) * s3) * s2) * c0));
           w 2 0 (((((((c3 * c2) * c1) - (s3 * s1)) * s5) * s4) + (((s2 * c1) * s5) * c4)) + (((c3 * s1) + ((s3 * c2) * c1)) * c5));
           w 2 1 (((((((c3 * c2) * c1) - (s3 * s1)) * c5) * s4) + (((s2 * c1) * c5) * c4)) + (((- c3 * s1) - ((s3 * c2) * c1)) * s5));
           w 2 2 ((((((1 * c3) * c2) * c1) - (s3 * s1)) * c4) - ((s2 * c1) * s4));
           w 2 3 ((((((((((((((3 / 100) * c3) * c2) * c1) - (((3 / 100) * s3) * s1)) * s5) - (((2075 / 100000) * s3) * s1)) + ((((2075 / 100000) * c3) * c2) * c1)) * s4) + ((((((3 / 100) * s2) * c1) * s5) + (((2075 / 100000) * s2) * c1)) * c4)) + (((((3 / 100) * c3) * s1) + ((((3 / 100) * s3) * c2) * c1)) * c5)) + ((((296 / 1000) * c3) + (416 / 1000)) * s1)) + ((((296 / 1000) * s3) * c2) * c1)) + (178 / 1000)) ].
(** ForceTransforms fr_Shoulder_AA_X_fr_HyABase; constructor 4670-4700, update 4702-4718. *)
Definition newFb0 (G : mat) : mat :=
  puts G [ w 0 2 0; w 0 3 0; w 0 4 0; w 0 5 0; w 1 2 0; w 1 3 0; w 1 4 0; w 1 5 0; w 2 0 0; w 2 1 0; w 2 2 1; w 2 3 0; w 2 4 0; w 2 5 0;
           w 3 0 0; w 3 1 0; w 3 2 0; w 3 5 0; w 4 0 0; w 4 1 0; w 4 2 0; w 4 5 0; w 5 0 0; w 5 1 0; w 5 2 0; w 5 3 0; w 5 4 0; w 5 5 1 ].
Definition updFb0 (q : nat -> R) (M : mat) : mat :=
  let c0 := cos (q 0%nat) in let s0 := sin (q 0%nat) in 
  puts M [ w 0 0 c0; w 0 1 s0; w 1 0 (- s0); w 1 1 c0; w 3 3 c0; w 3 4 s0; w 4 3 (- s0); w 4 4 c0 ].
(** ForceTransforms fr_Shoulder_FE_X_fr_HyABase; constructor 4720-4736, update 4738-4772. *)
Definition newFb1 (G : mat) : mat :=
  puts G [ w 0 5 0; w 1 5 0; w 2 2 0; w 2 5 0; w 3 0 0; w 3 1 0; w 3 2 0; w 4 0 0; w 4 1 0; w 4 2 0; w 5 0 0; w 5 1 0; w 5 2 0; w 5 5 0 ].
Definition updFb1 (q : nat -> R) (M : mat) : mat :=
  let c0 := cos (q 0%nat) in let s0 := sin (q 0%nat) in let c1 := cos (q 1%nat) in let s1 := sin (q 1%nat) in 
  puts M [ w 0 0 (c0 * c1); w 0 1 (s0 * c1); w 0 2 s1; w 0 3 ((- (178 / 1000) * s0) * c1); w 0 4 (((178 / 1000) * c0) * c1);
           w 1 0 (- c0 * s1); w 1 1 (- s0 * s1); w 1 2 c1; w 1 3 (((178 / 1000) * s0) * s1); w 1 4 ((- (178 / 1000) * c0) * s1); w 2 0 s0;
           w 2 1 (- c0); w 2 3 ((178 / 1000) * c0); w 2 4 ((178 / 1000) * s0); w 3 3 (c0 * c1); w 3 4 (s0 * c1); w 3 5 s1; w 4 3 (- c0 * s1);
           w 4 4 (- s0 * s1); w 4 5 c1; w 5 3 s0; w 5 4 (- c0) ].
(** ForceTransforms fr_Humerus_R_X_fr_HyABase; constructor 4774-4786, update 4788-4830. *)
Definition newFb2 (G : mat) : mat :=
  puts G [ w 2 5 0; w 3 0 0; w 3 1 0; w 3 2 0; w 4 0 0; w 4 1 0; w 4 2 0; w 5 0 0; w 5 1 0; w 5 2 0 ].
Definition updFb2 (q : nat -> R) (M : mat) : mat :=
  let c0 := cos (q 0%nat) in let s0 := sin (q 0%nat) in let c1 := cos (q 1%nat) in let s1 := sin (q 1%nat) in let c2 := cos (q 2%nat) in let s2 := sin (q 2%nat) in 
  puts M [ w 0 0 (((- s2 * c0) * s1) - (c2 * s0)); w 0 1 ((c2 * c0) - ((s2 * s0) * s1)); w 0 2 (s2 * c1);
           w 0 3 (((((((178 / 1000) * s2) * s0) - (((112 / 1000) * c2) * c0)) * s1) + (((112 / 1000) * s2) * s0)) - (((178 / 1000) * c2) * c0));
           w 0 4 ((((((- (112 / 1000) * c2) * s0) - (((178 / 1000) * s2) * c0)) * s1) - (((178 / 1000) * c2) * s0)) - (((112 / 1000) * s2) * c0));
           w 0 5 (((112 / 1000) * c2) * c1); w 1 0 ((s2 * s0) - ((c2 * c0) * s1)); w 1 1 (((- c2 * s0) * s1) - (s2 * c0)); w 1 2 (c2 * c1);
           w 1 3 (((((((178 / 1000) * c2) * s0) + (((112 / 1000) * s2) * c0)) * s1) + (((112 / 1000) * c2) * s0)) + (((178 / 1000) * s2) * c0));
           w 1 4 (((((((112 / 1000) * s2) * s0) - (((178 / 1000) * c2) * c0)) * s1) + (((178 / 1000) * s2) * s0)) - (((112 / 1000) * c2) * c0));
           w 1 5 ((- (112 / 1000) * s2) * c1); w 2 0 (c0 * c1); w 2 1 (s0 * c1); w 2 2 s1; w 2 3 ((- (178 / 1000) * s0) * c1);
           w 2 4 (((178 / 1000) * c0) * c1); w 3 3 (((- s2 * c0) * s1) - (c2 * s0)); w 3 4 ((c2 * c0) - ((s2 * s0) * s1)); w 3 5 (s2 * c1);
           w 4 3 ((s2 * s0) - ((c2 * c0) * s1)); w 4 4 (((- c2 * s0) * s1) - (s2 * c0)); w 4 5 (c2 * c1); w 5 3 (c0 * c1); w 5 4 (s0 * c1);
           w 5 5 s1 ].
(** ForceTransforms fr_Elbow_FE_X_fr_HyABase; constructor 4832-4843, update 4845-4892. *)
Definition newFb3 (G : mat) : mat :=
  puts G [ w 3 0 0; w 3 1 0; w 3 2 0; w 4 0 0; w 4 1 0; w 4 2 0; w 5 0 0; w 5 1 0; w 5 2 0 ].
Definition updFb3 (q : nat -> R) (M : mat) : mat :=
  let c0 := cos (q 0%nat) in let s0 := sin (q 0%nat) in let c1 := cos (q 1%nat) in let s1 := sin (q 1%nat) in let c2 := cos (q 2%nat) in let s2 := sin (q 2%nat) in let c3 := cos (q 3%nat) in let s3 := sin (q 3%nat) in 
  puts M [ w 0 0 (((((- s3 * c2) * c0) * s1) + ((c3 * c0) * c1)) + ((s3 * s2) * s0));
           w 0 1 (((((- s3 * c2) * s0) * s1) + ((c3 * s0) * c1)) - ((s3 * s2) * c0)); w 0 2 ((c3 * s1) + ((s3 * c2) * c1));
           w 0 3 (((((((((178 / 1000) * s3) * c2) * s0) + ((((416 / 1000) * s3) * s2) * c0)) * s1) - ((((178 / 1000) * c3) * s0) * c1)) + ((((416 / 1000) * s3) * c2) * s0)) + ((((178 / 1000) * s3) * s2) * c0));
           w 0 4 (((((((((416 / 1000) * s3) * s2) * s0) - ((((178 / 1000) * s3) * c2) * c0)) * s1) + ((((178 / 1000) * c3) * c0) * c1)) + ((((178 / 1000) * s3) * s2) * s0)) - ((((416 / 1000) * s3) * c2) * c0));
           w 0 5 (((- (416 / 1000) * s3) * s2) * c1); w 1 0 (((((- c3 * c2) * c0) * s1) - ((s3 * c0) * c1)) + ((c3 * s2) * s0));
           w 1 1 (((((- c3 * c2) * s0) * s1) - ((s3 * s0) * c1)) - ((c3 * s2) * c0)); w 1 2 (((c3 * c2) * c1) - (s3 * s1));
           w 1 3 (((((((((178 / 1000) * c3) * c2) * s0) + ((((416 / 1000) * c3) * s2) * c0)) * s1) + ((((178 / 1000) * s3) * s0) * c1)) + ((((416 / 1000) * c3) * c2) * s0)) + ((((178 / 1000) * c3) * s2) * c0));
           w 1 4 (((((((((416 / 1000) * c3) * s2) * s0) - ((((178 / 1000) * c3) * c2) * c0)) * s1) - ((((178 / 1000) * s3) * c0) * c1)) + ((((178 / 1000) * c3) * s2) * s0)) - ((((416 / 1000) * c3) * c2) * c0));
           w 1 5 (((- (416 / 1000) * c3) * s2) * c1); w 2 0 (((s2 * c0) * s1) + (c2 * s0)); w 2 1 (((s2 * s0) * s1) - (c2 * c0));
           w 2 2 (- s2 * c1);
           w 2 3 (((((((416 / 1000) * c2) * c0) - (((178 / 1000) * s2) * s0)) * s1) - (((416 / 1000) * s2) * s0)) + (((178 / 1000) * c2) * c0));
           w 2 4 (((((((416 / 1000) * c2) * s0) + (((178 / 1000) * s2) * c0)) * s1) + (((178 / 1000) * c2) * s0)) + (((416 / 1000) * s2) * c0));
           w 2 5 ((- (416 / 1000) * c2) * c1); w 3 3 (((((- s3 * c2) * c0) * s1) + ((c3 * c0) * c1)) + ((s3 * s2) * s0));
           w 3 4 (((((- s3 * c2) * s0) * s1) + ((c3 * s0) * c1)) - ((s3 * s2) * c0)); w 3 5 ((c3 * s1) + ((s3 * c2) * c1));
           w 4 3 (((((- c3 * c2) * c0) * s1) - ((s3 * c0) * c1)) + ((c3 * s2) * s0));
           w 4 4 (((((- c3 * c2) * s0) * s1) - ((s3 * s0) * c1)) - ((c3 * s2) * c0)); w 4 5 (((c3 * c2) * c1) - (s3 * s1));
           w 5 3 (((s2 * c0) * s1) + (c2 * s0)); w 5 4 (((s2 * s0) * s1) - (c2 * c0)); w 5 5 (- s2 * c1) ].
(** ForceTransforms fr_Wrist_R_X_fr_HyABase; constructor 4894-4905, update 4907-4958. *)
Definition newFb4 (G : mat) : mat :=
  puts G [ w 3 0 0; w 3 1 0; w 3 2 0; w 4 0 0; w 4 1 0; w 4 2 0; w 5 0 0; w 5 1 0; w 5 2 0 ].
Definition updFb4 (q : nat -> R) (M : mat) : mat :=
  let c0 := cos (q 0%nat) in let s0 := sin (q 0%nat) in let c1 := cos (q 1%nat) in let s1 := sin (q 1%nat) in let c2 := cos (q 2%nat) in let s2 := sin (q 2%nat) in let c3 := cos (q 3%nat) in let s3 := sin (q 3%nat) in let c4 := cos (q 4%nat) in let s4 := sin (q 4%nat) in 
  puts M [ w 0 0 (((((((- c3 * c2) * c0) * s1) - ((s3 * c0) * c1)) + ((c3 * s2) * s0)) * s4) + ((((- s2 * c0) * s1) - (c2 * s0)) * c4));
           w 0 1 (((((((- c3 * c2) * s0) * s1) - ((s3 * s0) * c1)) - ((c3 * s2) * c0)) * s4) + (((c2 * c0) - ((s2 * s0) * s1)) * c4));
           w 0 2 ((((((1 * c3) * c2) * c1) - (s3 * s1)) * s4) + ((s2 * c1) * c4));
           w 0 3 (((((((((((178 / 1000) * c3) * c2) * s0) + (((((416 / 1000) * c3) + (112 / 1000)) * s2) * c0)) * s1) + ((((178 / 1000) * s3) * s0) * c1)) + (((((416 / 1000) * c3) + (112 / 1000)) * c2) * s0)) + ((((178 / 1000) * c3) * s2) * c0)) * s4) + (((((((((178 / 1000) * s2) * s0) + ((((- (112 / 1000) * c3) - (416 / 1000)) * c2) * c0)) * s1) - ((((112 / 1000) * s3) * c0) * c1)) + (((((112 / 1000) * c3) + (416 / 1000)) * s2) * s0)) - (((178 / 1000) * c2) * c0)) * c4));
           w 0 4 ((((((((((((416 / 1000) * c3) + (112 / 1000)) * s2) * s0) - ((((178 / 1000) * c3) * c2) * c0)) * s1) - ((((178 / 1000) * s3) * c0) * c1)) + ((((178 / 1000) * c3) * s2) * s0)) + ((((- (416 / 1000) * c3) - (112 / 1000)) * c2) * c0)) * s4) + ((((((((((- (112 / 1000) * c3) - (416 / 1000)) * c2) * s0) - (((178 / 1000) * s2) * c0)) * s1) - ((((112 / 1000) * s3) * s0) * c1)) - (((178 / 1000) * c2) * s0)) + ((((- (112 / 1000) * c3) - (416 / 1000)) * s2) * c0)) * c4));
           w 0 5 ((((((- (416 / 1000) * c3) - (112 / 1000)) * s2) * c1) * s4) + (((((((112 / 1000) * c3) + (416 / 1000)) * c2) * c1) - (((112 / 1000) * s3) * s1)) * c4));
           w 1 0 (((((s2 * c0) * s1) + (c2 * s0)) * s4) + ((((((- c3 * c2) * c0) * s1) - ((s3 * c0) * c1)) + ((c3 * s2) * s0)) * c4));
           w 1 1 (((((s2 * s0) * s1) - (c2 * c0)) * s4) + ((((((- c3 * c2) * s0) * s1) - ((s3 * s0) * c1)) - ((c3 * s2) * c0)) * c4));
           w 1 2 ((((((1 * c3) * c2) * c1) - (s3 * s1)) * c4) - ((s2 * c1) * s4));
           w 1 3 ((((((((((((112 / 1000) * c3) + (416 / 1000)) * c2) * c0) - (((178 / 1000) * s2) * s0)) * s1) + ((((112 / 1000) * s3) * c0) * c1)) + ((((- (112 / 1000) * c3) - (416 / 1000)) * s2) * s0)) + (((178 / 1000) * c2) * c0)) * s4) + ((((((((((178 / 1000) * c3) * c2) * s0) + (((((416 / 1000) * c3) + (112 / 1000)) * s2) * c0)) * s1) + ((((178 / 1000) * s3) * s0) * c1)) + (((((416 / 1000) * c3) + (112 / 1000)) * c2) * s0)) + ((((178 / 1000) * c3) * s2) * c0)) * c4));
           w 1 4 ((((((((((((112 / 1000) * c3) + (416 / 1000)) * c2) * s0) + (((178 / 1000) * s2) * c0)) * s1) + ((((112 / 1000) * s3) * s0) * c1)) + (((178 / 1000) * c2) * s0)) + (((((112 / 1000) * c3) + (416 / 1000)) * s2) * c0)) * s4) + (((((((((((416 / 1000) * c3) + (112 / 1000)) * s2) * s0) - ((((178 / 1000) * c3) * c2) * c0)) * s1) - ((((178 / 1000) * s3) * c0) * c1)) + ((((178 / 1000) * c3) * s2) * s0)) + ((((- (416 / 1000) * c3) - (112 / 1000)) * c2) * c0)) * c4));
           w 1 5 ((((((112 / 1000) * s3) * s1) + ((((- (112 / 1000) * c3) - (416 / 1000)) * c2) * c1)) * s4) + (((((- (416 / 1000) * c3) - (112 / 1000)) * s2) * c1) * c4));
           w 2 0 (((((- s3 * c2) * c0) * s1) + ((c3 * c0) * c1)) + ((s3 * s2) * s0));
           w 2 1 (((((- s3 * c2) * s0) * s1) + ((c3 * s0) * c1)) - ((s3 * s2) * c0)); w 2 2 ((c3 * s1) + ((s3 * c2) * c1));
           w 2 3 (((((((((178 / 1000) * s3) * c2) * s0) + ((((416 / 1000) * s3) * s2) * c0)) * s1) - ((((178 / 1000) * c3) * s0) * c1)) + ((((416 / 1000) * s3) * c2) * s0)) + ((((178 / 1000) * s3) * s2) * c0));
           w 2 4 (((((((((416 / 1000) * s3) * s2) * s0) - ((((178 / 1000) * s3) * c2) * c0)) * s1) + ((((178 / 1000) * c3) * c0) * c1)) + ((((178 / 1000) * s3) * s2) * s0)) - ((((416 / 1000) * s3) * c2) * c0));
           w 2 5 (((- (416 / 1000) * s3) * s2) * c1);
           w 3 3 (((((((- c3 * c2) * c0) * s1) - ((s3 * c0) * c1)) + ((c3 * s2) * s0)) * s4) + ((((- s2 * c0) * s1) - (c2 * s0)) * c4));
           w 3 4 (((((((- c3 * c2) * s0) * s1) - ((s3 * s0) * c1)) - ((c3 * s2) * c0)) * s4) + (((c2 * c0) - ((s2 * s0) * s1)) * c4));
           w 3 5 ((((((1 * c3) * c2) * c1) - (s3 * s1)) * s4) + ((s2 * c1) * c4));
           w 4 3 (((((s2 * c0) * s1) + (c2 * s0)) * s4) + ((((((- c3 * c2) * c0) * s1) - ((s3 * c0) * c1)) + ((c3 * s2) * s0)) * c4));
           w 4 4 (((((s2 * s0) * s1) - (c2 * c0)) * s4) + ((((((- c3 * c2) * s0) * s1) - ((s3 * s0) * c1)) - ((c3 * s2) * c0)) * c4));
           w 4 5 ((((((1 * c3) * c2) * c1) - (s3 * s1)) * c4) - ((s2 * c1) * s4));
           w 5 3 (((((- s3 * c2) * c0) * s1) + ((c3 * c0) * c1)) + ((s3 * s2) * s0));
           w 5 4 (((((- s3 * c2) * s0) * s1) + ((c3 * s0) * c1)) - ((s3 * s2) * c0)); w 5 5 ((c3 * s1) + ((s3 * c2) * c1)) ].
(** ForceTransforms fr_Wrist_FE_X_fr_HyABase; constructor 4960-4971, update 4973-5028. *)
Definition newFb5 (G : mat) : mat :=
  puts G [ w 3 0 0; w 3 1 0; w 3 2 0; w 4 0 0; w 4 1 0; w 4 2 0; w 5 0 0; w 5 1 0; w 5 2 0 ].
Definition updFb5 (q : nat -> R) (M : mat) : mat :=
  let c0 := cos (q 0%nat) in let s0 := sin (q 0%nat) in let c1 := cos (q 1%nat) in let s1 := sin (q 1%nat) in let c2 := cos (q 2%nat) in let s2 := sin (q 2%nat) in let c3 := cos (q 3%nat) in let s3 := sin (q 3%nat) in let c4 := cos (q 4%nat) in let s4 := sin (q 4%nat) in let c5 := cos (q 5%nat) in let s5 := sin (q 5%nat) in 
  puts M [ w 0 0 (((((((((- c3 * c2) * c0) * s1) - ((s3 * c0) * c1)) + ((c3 * s2) * s0)) * s5) * s4) + (((((- s2 * c0) * s1) - (c2 * s0)) * s5) * c4)) + ((((((- s3 * c2) * c0) * s1) + ((c3 * c0) * c1)) + ((s3 * s2) * s0)) * c5));
           w 0 1 (((((((((- c3 * c2) * s0) * s1) - ((s3 * s0) * c1)) - ((c3 * s2) * c0)) * s5) * s4) + ((((c2 * c0) - ((s2 * s0) * s1)) * s5) * c4)) + ((((((- s3 * c2) * s0) * s1) + ((c3 * s0) * c1)) - ((s3 * s2) * c0)) * c5));
           w 0 2 ((((((((1 * c3) * c2) * c1) - (s3 * s1)) * s5) * s4) + (((s2 * c1) * s5) * c4)) + ((((1 * c3) * s1) + ((s3 * c2) * c1)) * c5));
           w 0 3 ((((((((((((((178 / 1000) * c3) * c2) * s0) + (((((416 / 1000) * c3) + (296 / 1000)) * s2) * c0)) * s1) + ((((178 / 1000) * s3) * s0) * c1)) + (((((416 / 1000) * c3) + (296 / 1000)) * c2) * s0)) + ((((178 / 1000) * c3) * s2) * c0)) * s5) + (((((- (2075 / 100000) * s2) * c0) * s1) - (((2075 / 100000) * c2) * s0)) * c5)) * s4) + (((((((((((178 / 1000) * s2) * s0) + ((((- (296 / 1000) * c3) - (416 / 1000)) * c2) * c0)) * s1) - ((((296 / 1000) * s3) * c0) * c1)) + (((((296 / 1000) * c3) + (416 / 1000)) * s2) * s0)) - (((178 / 1000) * c2) * c0)) * s5) + ((((((((2075 / 100000) * c3) * c2) * c0) * s1) + ((((2075 / 100000) * s3) * c0) * c1)) - ((((2075 / 100000) * c3) * s2) * s0)) * c5)) * c4)) + ((((((((((178 / 1000) * s3) * c2) * s0) + ((((416 / 1000) * s3) * s2) * c0)) * s1) - ((((178 / 1000) * c3) * s0) * c1)) + ((((416 / 1000) * s3) * c2) * s0)) + ((((178 / 1000) * s3) * s2) * c0)) * c5));
           w 0 4 (((((((((((((((416 / 1000) * c3) + (296 / 1000)) * s2) * s0) - ((((178 / 1000) * c3) * c2) * c0)) * s1) - ((((178 / 1000) * s3) * c0) * c1)) + ((((178 / 1000) * c3) * s2) * s0)) + ((((- (416 / 1000) * c3) - (296 / 1000)) * c2) * c0)) * s5) + (((((2075 / 100000) * c2) * c0) - ((((2075 / 100000) * s2) * s0) * s1)) * c5)) * s4) + ((((((((((((- (296 / 1000) * c3) - (416 / 1000)) * c2) * s0) - (((178 / 1000) * s2) * c0)) * s1) - ((((296 / 1000) * s3) * s0) * c1)) - (((178 / 1000) * c2) * s0)) + ((((- (296 / 1000) * c3) - (416 / 1000)) * s2) * c0)) * s5) + ((((((((2075 / 100000) * c3) * c2) * s0) * s1) + ((((2075 / 100000) * s3) * s0) * c1)) + ((((2075 / 100000) * c3) * s2) * c0)) * c5)) * c4)) + ((((((((((416 / 1000) * s3) * s2) * s0) - ((((178 / 1000) * s3) * c2) * c0)) * s1) + ((((178 / 1000) * c3) * c0) * c1)) + ((((178 / 1000) * s3) * s2) * s0)) - ((((416 / 1000) * s3) * c2) * c0)) * c5));
           w 0 5 (((((((((- (416 / 1000) * c3) - (296 / 1000)) * s2) * c1) * s5) + ((((2075 / 100000) * s2) * c1) * c5)) * s4) + (((((((((296 / 1000) * c3) + (416 / 1000)) * c2) * c1) - (((296 / 1000) * s3) * s1)) * s5) + (((((2075 / 100000) * s3) * s1) - ((((2075 / 100000) * c3) * c2) * c1)) * c5)) * c4)) - (((((416 / 1000) * s3) * s2) * c1) * c5));
           w 1 0 (((((((((- c3 * c2) * c0) * s1) - ((s3 * c0) * c1)) + ((c3 * s2) * s0)) * c5) * s4) + (((((- s2 * c0) * s1) - (c2 * s0)) * c5) * c4)) + ((((((s3 * c2) * c0) * s1) - ((c3 * c0) * c1)) - ((s3 * s2) * s0)) * s5));
           w 1 1 (((((((((- c3 * c2) * s0) * s1) - ((s3 * s0) * c1)) - ((c3 * s2) * c0)) * c5) * s4) + ((((c2 * c0) - ((s2 * s0) * s1)) * c5) * c4)) + ((((((s3 * c2) * s0) * s1) - ((c3 * s0) * c1)) + ((s3 * s2) * c0)) * s5));
           w 1 2 ((((((((1 * c3) * c2) * c1) - (s3 * s1)) * c5) * s4) + (((s2 * c1) * c5) * c4)) + (((- c3 * s1) - ((s3 * c2) * c1)) * s5));
           w 1 3 ((((((((((2075 / 100000) * s2) * c0) * s1) + (((2075 / 100000) * c2) * s0)) * s5) + ((((((((((178 / 1000) * c3) * c2) * s0) + (((((416 / 1000) * c3) + (296 / 1000)) * s2) * c0)) * s1) + ((((178 / 1000) * s3) * s0) * c1)) + (((((416 / 1000) * c3) + (296 / 1000)) * c2) * s0)) + ((((178 / 1000) * c3) * s2) * c0)) * c5)) * s4) + (((((((((- (2075 / 100000) * c3) * c2) * c0) * s1) - ((((2075 / 100000) * s3) * c0) * c1)) + ((((2075 / 100000) * c3) * s2) * s0)) * s5) + (((((((((178 / 1000) * s2) * s0) + ((((- (296 / 1000) * c3) - (416 / 1000)) * c2) * c0)) * s1) - ((((296 / 1000) * s3) * c0) * c1)) + (((((296 / 1000) * c3) + (416 / 1000)) * s2) * s0)) - (((178 / 1000) * c2) * c0)) * c5)) * c4)) + (((((((((- (178 / 1000) * s3) * c2) * s0) - ((((416 / 1000) * s3) * s2) * c0)) * s1) + ((((178 / 1000) * c3) * s0) * c1)) - ((((416 / 1000) * s3) * c2) * s0)) - ((((178 / 1000) * s3) * s2) * c0)) * s5));
           w 1 4 ((((((((((2075 / 100000) * s2) * s0) * s1) - (((2075 / 100000) * c2) * c0)) * s5) + (((((((((((416 / 1000) * c3) + (296 / 1000)) * s2) * s0) - ((((178 / 1000) * c3) * c2) * c0)) * s1) - ((((178 / 1000) * s3) * c0) * c1)) + ((((178 / 1000) * c3) * s2) * s0)) + ((((- (416 / 1000) * c3) - (296 / 1000)) * c2) * c0)) * c5)) * s4) + (((((((((- (2075 / 100000) * c3) * c2) * s0) * s1) - ((((2075 / 100000) * s3) * s0) * c1)) - ((((2075 / 100000) * c3) * s2) * c0)) * s5) + ((((((((((- (296 / 1000) * c3) - (416 / 1000)) * c2) * s0) - (((178 / 1000) * s2) * c0)) * s1) - ((((296 / 1000) * s3) * s0) * c1)) - (((178 / 1000) * c2) * s0)) + ((((- (296 / 1000) * c3) - (416 / 1000)) * s2) * c0)) * c5)) * c4)) + ((((((((((178 / 1000) * s3) * c2) * c0) - ((((416 / 1000) * s3) * s2) * s0)) * s1) - ((((178 / 1000) * c3) * c0) * c1)) - ((((178 / 1000) * s3) * s2) * s0)) + ((((416 / 1000) * s3) * c2) * c0)) * s5));
           w 1 5 (((((((((- (416 / 1000) * c3) - (296 / 1000)) * s2) * c1) * c5) - ((((2075 / 100000) * s2) * c1) * s5)) * s4) + ((((((((2075 / 100000) * c3) * c2) * c1) - (((2075 / 100000) * s3) * s1)) * s5) + (((((((296 / 1000) * c3) + (416 / 1000)) * c2) * c1) - (((296 / 1000) * s3) * s1)) * c5)) * c4)) + (((((416 / 1000) * s3) * s2) * c1) * s5));
           w 2 0 (((((s2 * c0) * s1) + (c2 * s0)) * s4) + ((((((- c3 * c2) * c0) * s1) - ((s3 * c0) * c1)) + ((c3 * s2) * s0)) * c4));
           w 2 1 (((((s2 * s0) * s1) - (c2 * c0)) * s4) + ((((((- c3 * c2) * s0) * s1) - ((s3 * s0) * c1)) - ((c3 * s2) * c0)) * c4));
           w 2 2 ((((((1 * c3) * c2) * c1) - (s3 * s1)) * c4) - ((s2 * c1) * s4));
           w 2 3 (((((((((((((((296 / 1000) * c3) + (416 / 1000)) * c2) * c0) - (((178 / 1000) * s2) * s0)) * s1) + ((((296 / 1000) * s3) * c0) * c1)) + ((((- (296 / 1000) * c3) - (416 / 1000)) * s2) * s0)) + (((178 / 1000) * c2) * c0)) * s4) + ((((((((((178 / 1000) * c3) * c2) * s0) + (((((416 / 1000) * c3) + (296 / 1000)) * s2) * c0)) * s1) + ((((178 / 1000) * s3) * s0) * c1)) + (((((416 / 1000) * c3) + (296 / 1000)) * c2) * s0)) + ((((178 / 1000) * c3) * s2) * c0)) * c4)) - (((((2075 / 100000) * s3) * c2) * c0) * s1)) + ((((2075 / 100000) * c3) * c0) * c1)) + ((((2075 / 100000) * s3) * s2) * s0));
           w 2 4 (((((((((((((((296 / 1000) * c3) + (416 / 1000)) * c2) * s0) + (((178 / 1000) * s2) * c0)) * s1) + ((((296 / 1000) * s3) * s0) * c1)) + (((178 / 1000) * c2) * s0)) + (((((296 / 1000) * c3) + (416 / 1000)) * s2) * c0)) * s4) + (((((((((((416 / 1000) * c3) + (296 / 1000)) * s2) * s0) - ((((178 / 1000) * c3) * c2) * c0)) * s1) - ((((178 / 1000) * s3) * c0) * c1)) + ((((178 / 1000) * c3) * s2) * s0)) + ((((- (416 / 1000) * c3) - (296 / 1000)) * c2) * c0)) * c4)) - (((((2075 / 100000) * s3) * c2) * s0) * s1)) + ((((2075 / 100000) * c3) * s0) * c1)) - ((((2075 / 100000) * s3) * s2) * c0));
           w 2 5 ((((((((296 / 1000) * s3) * s1) + ((((- (296 / 1000) * c3) - (416 / 1000)) * c2) * c1)) * s4) + (((((- (416 / 1000) * c3) - (296 / 1000)) * s2) * c1) * c4)) + (((2075 / 100000) * c3) * s1)) + ((((2075 / 100000) * s3) * c2) * c1));
           w 3 3 (((((((((- c3 * c2) * c0) * s1) - ((s3 * c0) * c1)) + ((c3 * s2) * s0)) * s5) * s4) + (((((- s2 * c0) * s1) - (c2 * s0)) * s5) * c4)) + ((((((- s3 * c2) * c0) * s1) + ((c3 * c0) * c1)) + ((s3 * s2) * s0)) * c5));
           w 3 4 (((((((((- c3 * c2) * s0) * s1) - ((s3 * s0) * c1)) - ((c3 * s2) * c0)) * s5) * s4) + ((((c2 * c0) - ((s2 * s0) * s1)) * s5) * c4)) + ((((((- s3 * c2) * s0) * s1) + ((c3 * s0) * c1)) - ((s3 * s2) * c0)) * c5));
           w 3 5 ((((((((1 * c3) * c2) * c1) - (s3 * s1)) * s5) * s4) + (((s2 * c1) * s5) * c4)) + ((((1 * c3) * s1) + ((s3 * c2) * c1)) * c5));
           w 4 3 (((((((((- c3 * c2) * c0) * s1) - ((s3 * c0) * c1)) + ((c3 * s2) * s0)) * c5) * s4) + (((((- s2 * c0) * s1) - (c2 * s0)) * c5) * c4)) + ((((((s3 * c2) * c0) * s1) - ((c3 * c0) * c1)) - ((s3 * s2) * s0)) * s5));
           w 4 4 (((((((((- c3 * c2) * s0) * s1) - ((s3 * s0) * c1)) - ((c3 * s2) * c0)) * c5) * s4) + ((((c2 * c0) - ((s2 * s0) * s1)) * c5) * c4)) + ((((((s3 * c2) * s0) * s1) - ((c3 * s0) * c1)) + ((s3 * s2) * c0)) * s5));
           w 4 5 ((((((((1 * c3) * c2) * c1) - (s3 * s1)) * c5) * s4) + (((s2 * c1) * c5) * c4)) + (((- c3 * s1) - ((s3 * c2) * c1)) * s5));
           w 5 3 (((((s2 * c0) * s1) + (c2 * s0)) * s4) + ((((((- c3 * c2) * c0) * s1) - ((s3 * c0) * c1)) + ((c3 * s2) * s0)) * c4));
           w 5 4 (((((s2 * s0) * s1) - (c2 * c0)) * s4) + ((((((- c3 * c2) * s0) * s1) - ((s3 * s0) * c1)) - ((c3 * s2) * c0)) * c4));
           w 5 5 ((((((1 * c3) * c2) * c1) - (s3 * s1)) * c4) - ((s2 * c1) * s4)) ].
(** Jacobians fr_HyABase_J_fr_ee; constructor 30-37, update 40-99. *)
Definition newJee (G : mat) : mat :=
  puts G [ w 0 0 0; w 1 0 0; w 2 0 1; w 2 1 0; w 5 0 0 ].
Definition updJee (q : nat -> R) (M : mat) : mat :=
  let c0 := cos (q 0%nat) in let s0 := sin (q 0%nat) in let c1 := cos (q 1%nat) in let s1 := sin (q 1%nat) in let c2 := cos (q 2%nat) in let s2 := sin (q 2%nat) in let c3 := cos (q 3%nat) in let s3 := sin (q 3%nat) in let c4 := cos (q 4%nat) in let s4 := sin (q 4%nat) in let c5 := cos (q 5%nat) in let s5 := sin (q 5%nat) in 
  puts M [ w 0 1 s0; w 0 2 (c0 * c1); w 0 3 (((s2 * c0) * s1) + (c2 * s0));
           w 0 4 (((((- s3 * c2) * c0) * s1) + ((c3 * c0) * c1)) + ((s3 * s2) * s0));
           w 0 5 (((((s2 * c0) * s1) + (c2 * s0)) * s4) + ((((((- c3 * c2) * c0) * s1) - ((s3 * c0) * c1)) + ((c3 * s2) * s0)) * c4));
           w 1 1 (- c0); w 1 2 (s0 * c1); w 1 3 (((s2 * s0) * s1) - (c2 * c0));
           w 1 4 (((((- s3 * c2) * s0) * s1) + ((c3 * s0) * c1)) - ((s3 * s2) * c0));
           w 1 5 (((((s2 * s0) * s1) - (c2 * c0)) * s4) + ((((((- c3 * c2) * s0) * s1) - ((s3 * s0) * c1)) - ((c3 * s2) * c0)) * c4));
           w 2 2 s1; w 2 3 (- s2 * c1); w 2 4 ((c3 * s1) + ((s3 * c2) * c1));
           w 2 5 (((((c3 * c2) * c1) - (s3 * s1)) * c4) - ((s2 * c1) * s4));
           w 3 0 (((((((((((((((((3 / 100) * c3) * c2) * s0) * s1) + ((((3 / 100) * s3) * s0) * c1)) + ((((3 / 100) * c3) * s2) * c0)) * s5) + (((((2075 / 100000) * c3) * c2) * s0) * s1)) + ((((2075 / 100000) * s3) * s0) * c1)) + ((((2075 / 100000) * c3) * s2) * c0)) * s4) + (((((((((3 / 100) * s2) * s0) * s1) - (((3 / 100) * c2) * c0)) * s5) + ((((2075 / 100000) * s2) * s0) * s1)) - (((2075 / 100000) * c2) * c0)) * c4)) + ((((((((3 / 100) * s3) * c2) * s0) * s1) - ((((3 / 100) * c3) * s0) * c1)) + ((((3 / 100) * s3) * s2) * c0)) * c5)) + (((((296 / 1000) * s3) * c2) * s0) * s1)) + ((((- (296 / 1000) * c3) - (416 / 1000)) * s0) * c1)) + ((((296 / 1000) * s3) * s2) * c0));
           w 3 1 (((((((((((((3 / 100) * s3) * c0) * s1) - (((((3 / 100) * c3) * c2) * c0) * c1)) * s5) + ((((2075 / 100000) * s3) * c0) * s1)) - (((((2075 / 100000) * c3) * c2) * c0) * c1)) * s4) + ((((((- (3 / 100) * s2) * c0) * c1) * s5) - ((((2075 / 100000) * s2) * c0) * c1)) * c4)) + (((((- (3 / 100) * c3) * c0) * s1) - (((((3 / 100) * s3) * c2) * c0) * c1)) * c5)) + ((((- (296 / 1000) * c3) - (416 / 1000)) * c0) * s1)) - (((((296 / 1000) * s3) * c2) * c0) * c1));
           w 3 2 ((((((((((((((3 / 100) * c3) * s2) * c0) * s1) + ((((3 / 100) * c3) * c2) * s0)) * s5) + (((((2075 / 100000) * c3) * s2) * c0) * s1)) + ((((2075 / 100000) * c3) * c2) * s0)) * s4) + ((((((((3 / 100) * s2) * s0) - ((((3 / 100) * c2) * c0) * s1)) * s5) - ((((2075 / 100000) * c2) * c0) * s1)) + (((2075 / 100000) * s2) * s0)) * c4)) + (((((((3 / 100) * s3) * s2) * c0) * s1) + ((((3 / 100) * s3) * c2) * s0)) * c5)) + (((((296 / 1000) * s3) * s2) * c0) * s1)) + ((((296 / 1000) * s3) * c2) * s0));
           w 3 3 ((((((((((((((((3 / 100) * s3) * c2) * c0) * s1) - ((((3 / 100) * c3) * c0) * c1)) - ((((3 / 100) * s3) * s2) * s0)) * s5) + (((((2075 / 100000) * s3) * c2) * c0) * s1)) - ((((2075 / 100000) * c3) * c0) * c1)) - ((((2075 / 100000) * s3) * s2) * s0)) * s4) + (((((((- (3 / 100) * c3) * c2) * c0) * s1) - ((((3 / 100) * s3) * c0) * c1)) + ((((3 / 100) * c3) * s2) * s0)) * c5)) - (((((296 / 1000) * c3) * c2) * c0) * s1)) - ((((296 / 1000) * s3) * c0) * c1)) + ((((296 / 1000) * c3) * s2) * s0));
           w 3 4 ((((((((((3 / 100) * s2) * c0) * s1) + (((3 / 100) * c2) * s0)) * s5) + ((((2075 / 100000) * s2) * c0) * s1)) + (((2075 / 100000) * c2) * s0)) * s4) + (((((((((((- (3 / 100) * c3) * c2) * c0) * s1) - ((((3 / 100) * s3) * c0) * c1)) + ((((3 / 100) * c3) * s2) * s0)) * s5) - (((((2075 / 100000) * c3) * c2) * c0) * s1)) - ((((2075 / 100000) * s3) * c0) * c1)) + ((((2075 / 100000) * c3) * s2) * s0)) * c4));
           w 3 5 ((((((((((- (3 / 100) * c3) * c2) * c0) * s1) - ((((3 / 100) * s3) * c0) * c1)) + ((((3 / 100) * c3) * s2) * s0)) * c5) * s4) + ((((((- (3 / 100) * s2) * c0) * s1) - (((3 / 100) * c2) * s0)) * c5) * c4)) + ((((((((3 / 100) * s3) * c2) * c0) * s1) - ((((3 / 100) * c3) * c0) * c1)) - ((((3 / 100) * s3) * s2) * s0)) * s5));
           w 4 0 ((((((((((((((((- (3 / 100) * c3) * c2) * c0) * s1) - ((((3 / 100) * s3) * c0) * c1)) + ((((3 / 100) * c3) * s2) * s0)) * s5) - (((((2075 / 100000) * c3) * c2) * c0) * s1)) - ((((2075 / 100000) * s3) * c0) * c1)) + ((((2075 / 100000) * c3) * s2) * s0)) * s4) + ((((((((- (3 / 100) * s2) * c0) * s1) - (((3 / 100) * c2) * s0)) * s5) - ((((2075 / 100000) * s2) * c0) * s1)) - (((2075 / 100000) * c2) * s0)) * c4)) + (((((((- (3 / 100) * s3) * c2) * c0) * s1) + ((((3 / 100) * c3) * c0) * c1)) + ((((3 / 100) * s3) * s2) * s0)) * c5)) - (((((296 / 1000) * s3) * c2) * c0) * s1)) + (((((296 / 1000) * c3) + (416 / 1000)) * c0) * c1)) + ((((296 / 1000) * s3) * s2) * s0));
           w 4 1 (((((((((((((3 / 100) * s3) * s0) * s1) - (((((3 / 100) * c3) * c2) * s0) * c1)) * s5) + ((((2075 / 100000) * s3) * s0) * s1)) - (((((2075 / 100000) * c3) * c2) * s0) * c1)) * s4) + ((((((- (3 / 100) * s2) * s0) * c1) * s5) - ((((2075 / 100000) * s2) * s0) * c1)) * c4)) + (((((- (3 / 100) * c3) * s0) * s1) - (((((3 / 100) * s3) * c2) * s0) * c1)) * c5)) + ((((- (296 / 1000) * c3) - (416 / 1000)) * s0) * s1)) - (((((296 / 1000) * s3) * c2) * s0) * c1));
           w 4 2 ((((((((((((((3 / 100) * c3) * s2) * s0) * s1) - ((((3 / 100) * c3) * c2) * c0)) * s5) + (((((2075 / 100000) * c3) * s2) * s0) * s1)) - ((((2075 / 100000) * c3) * c2) * c0)) * s4) + ((((((((- (3 / 100) * c2) * s0) * s1) - (((3 / 100) * s2) * c0)) * s5) - ((((2075 / 100000) * c2) * s0) * s1)) - (((2075 / 100000) * s2) * c0)) * c4)) + (((((((3 / 100) * s3) * s2) * s0) * s1) - ((((3 / 100) * s3) * c2) * c0)) * c5)) + (((((296 / 1000) * s3) * s2) * s0) * s1)) - ((((296 / 1000) * s3) * c2) * c0));
           w 4 3 ((((((((((((((((3 / 100) * s3) * c2) * s0) * s1) - ((((3 / 100) * c3) * s0) * c1)) + ((((3 / 100) * s3) * s2) * c0)) * s5) + (((((2075 / 100000) * s3) * c2) * s0) * s1)) - ((((2075 / 100000) * c3) * s0) * c1)) + ((((2075 / 100000) * s3) * s2) * c0)) * s4) + (((((((- (3 / 100) * c3) * c2) * s0) * s1) - ((((3 / 100) * s3) * s0) * c1)) - ((((3 / 100) * c3) * s2) * c0)) * c5)) - (((((296 / 1000) * c3) * c2) * s0) * s1)) - ((((296 / 1000) * s3) * s0) * c1)) - ((((296 / 1000) * c3) * s2) * c0));
           w 4 4 ((((((((((3 / 100) * s2) * s0) * s1) - (((3 / 100) * c2) * c0)) * s5) + ((((2075 / 100000) * s2) * s0) * s1)) - (((2075 / 100000) * c2) * c0)) * s4) + (((((((((((- (3 / 100) * c3) * c2) * s0) * s1) - ((((3 / 100) * s3) * s0) * c1)) - ((((3 / 100) * c3) * s2) * c0)) * s5) - (((((2075 / 100000) * c3) * c2) * s0) * s1)) - ((((2075 / 100000) * s3) * s0) * c1)) - ((((2075 / 100000) * c3) * s2) * c0)) * c4));
           w 4 5 ((((((((((- (3 / 100) * c3) * c2) * s0) * s1) - ((((3 / 100) * s3) * s0) * c1)) - ((((3 / 100) * c3) * s2) * c0)) * c5) * s4) + ((((((3 / 100) * c2) * c0) - ((((3 / 100) * s2) * s0) * s1)) * c5) * c4)) + ((((((((3 / 100) * s3) * c2) * s0) * s1) - ((((3 / 100) * c3) * s0) * c1)) + ((((3 / 100) * s3) * s2) * c0)) * s5));
           w 5 1 ((((((((((((- (3 / 100) * c3) * c2) * s1) - (((3 / 100) * s3) * c1)) * s5) - ((((2075 / 100000) * c3) * c2) * s1)) - (((2075 / 100000) * s3) * c1)) * s4) + (((((- (3 / 100) * s2) * s1) * s5) - (((2075 / 100000) * s2) * s1)) * c4)) + (((((3 / 100) * c3) * c1) - ((((3 / 100) * s3) * c2) * s1)) * c5)) - ((((296 / 1000) * s3) * c2) * s1)) + ((((296 / 1000) * c3) + (416 / 1000)) * c1));
           w 5 2 (((((((((- (3 / 100) * c3) * s2) * c1) * s5) - ((((2075 / 100000) * c3) * s2) * c1)) * s4) + ((((((3 / 100) * c2) * c1) * s5) + (((2075 / 100000) * c2) * c1)) * c4)) - (((((3 / 100) * s3) * s2) * c1) * c5)) - ((((296 / 1000) * s3) * s2) * c1));
           w 5 3 ((((((((((- (3 / 100) * c3) * s1) - ((((3 / 100) * s3) * c2) * c1)) * s5) - (((2075 / 100000) * c3) * s1)) - ((((2075 / 100000) * s3) * c2) * c1)) * s4) + ((((((3 / 100) * c3) * c2) * c1) - (((3 / 100) * s3) * s1)) * c5)) - (((296 / 1000) * s3) * s1)) + ((((296 / 1000) * c3) * c2) * c1));
           w 5 4 ((((((- (3 / 100) * s2) * c1) * s5) - (((2075 / 100000) * s2) * c1)) * s4) + (((((((((3 / 100) * c3) * c2) * c1) - (((3 / 100) * s3) * s1)) * s5) - (((2075 / 100000) * s3) * s1)) + ((((2075 / 100000) * c3) * c2) * c1)) * c4));
           w 5 5 (((((((((3 / 100) * c3) * c2) * c1) - (((3 / 100) * s3) * s1)) * c5) * s4) + (((((3 / 100) * s2) * c1) * c5) * c4)) + ((((- (3 / 100) * c3) * s1) - ((((3 / 100) * s3) * c2) * c1)) * s5)) ].

(** The objects by number, from the base to the tip. *)
Definition newHb (k : nat) : mat -> mat := nth k [newHb0; newHb1; newHb2; newHb3; newHb4; newHb5] (fun G => G).
Definition updHb (k : nat) : (nat -> R) -> mat -> mat := nth k [updHb0; updHb1; updHb2; updHb3; updHb4; updHb5] (fun _ M => M).
Definition newFb (k : nat) : mat -> mat := nth k [newFb0; newFb1; newFb2; newFb3; newFb4; newFb5] (fun G => G).
Definition updFb (k : nat) : (nat -> R) -> mat -> mat := nth k [updFb0; updFb1; updFb2; updFb3; updFb4; updFb5] (fun _ M => M).

(** ** RobCoGenContainer.h 185-195: the members the functions below use. *)
Record container := mkC { cH : list mat; cHee : mat; cF : list mat; cJ : mat }.
(** RobCoGenContainer.h 47-48: the members in memory with any contents. *)
Definition newContainer (gH gF : nat -> mat) (gE gJ : mat) : container :=
  mkC (map (fun k => newHb k (gH k)) (seq 0 6)) (newHee gE) (map (fun k => newFb k (gF k)) (seq 0 6)) (newJee gJ).
Definition setNth {A} (k : nat) (x : A) (l : list A) : list A := firstn k l ++ x :: skipn (S k) l.

(** robcogenHelpers.h 72-80, 227-234: setZero, then the identity in the 3x3 block at the top right corner, of an n x n matrix. *)
Definition cornerIdentity (n : nat) : mat := fun i j => if ((i <? 3) && (j =? n - 3 + i))%nat then 1 else 0.
(** RobCoGenContainer.h 100-104 with robcogenHelpers.h 64-217, links CT_L0 .. CT_L5 of HyA.h 27-33. *)
Definition getHomogeneousTransformBaseLinkById (linkId : nat) (q : nat -> R) (s : container) : outcome mat * container :=
  match linkId with
  | 0%nat => (Ok (cornerIdentity 4), s)
  | S k => if (k <? 6)%nat then let M := updHb k q (nth k (cH s) (fun _ _ => 0)) in
                                 (Ok M, mkC (setNth k M (cH s)) (cHee s) (cF s) (cJ s))
           else (Throw, s)
  end.
(** RobCoGenContainer.h 117-121 with robcogenHelpers.h 220-353. *)
Definition getForceTransformLinkBaseById (linkId : nat) (q : nat -> R) (s : container) : outcome mat * container :=
  match linkId with
  | 0%nat => (Ok (cornerIdentity 6), s)
  | S k => if (k <? 6)%nat then let M := updFb k q (nth k (cF s) (fun _ _ => 0)) in
                                 (Ok M, mkC (cH s) (cHee s) (setNth k M (cF s)) (cJ s))
           else (Throw, s)
  end.
(** RobCoGenContainer.h 134-138 with robcogenHelpers.h 356-471, CT_EE0 of HyA.h 37. *)
Definition getHomogeneousTransformBaseEEById (eeId : nat) (q : nat -> R) (s : container) : outcome mat * container :=
  match eeId with
  | 0%nat => let M := updHee q (cHee s) in (Ok M, mkC (cH s) M (cF s) (cJ s))
  | S _ => (Throw, s)
  end.
(** robcogenHelpers.h 473-598 with HyA.h 38. *)
Definition eeIdToLinkId (eeId : nat) : outcome nat := match eeId with 0%nat => Ok 6%nat | S _ => Throw end.
(** RobCoGenContainer.h 146-149 with robcogenHelpers.h 601-770, joints 0 .. 5 of HyA.h 39-40: the block is the whole matrix. *)
Definition getJacobianBaseEEbyId (eeId : nat) (q : nat -> R) (s : container) : outcome mat * container :=
  match eeId with
  | 0%nat => let M := updJee q (cJ s) in (Ok (fun i j => if ((i <? 6) && (j <? 6))%nat then M i j else 0), mkC (cH s) (cHee s) (cF s) M)
  | S _ => (Throw, s)
  end.
(** RobCoGenContainer.h 171-174, 197-200. *)
Definition getEEPositionInBase (eeId : nat) (q : nat -> R) (s : container) : outcome rvec * container :=
  let (o, s') := getHomogeneousTransformBaseEEById eeId q s in (omap (fun M i => M i 3%nat) o, s').
Definition getEERotInBase (eeId : nat) (q : nat -> R) (s : container) : outcome mat * container := getHomogeneousTransformBaseEEById eeId q s.

