(** Model of the generated transforms and inertia properties of the HyA arm:
    ct_models/include/ct/models/HyA/generated/{transforms,inertia_properties}.impl.h (transcribed statement by statement).
    Only the transforms between neighbouring links that the dynamics use.  Scalars are real; decimal literals are exact. *)
From Coq Require Import Reals List Bool Arith.
From Verif Require Import Base.RVec Rbd.SpatialModel Rbd.ChainModel Rbd.PendulumModel.
Import ListNotations.
Local Open Scope R_scope.

(** ** transforms.impl.h *)
(** MotionTransforms fr_Shoulder_AA_X_fr_HyABase; constructor 1821-1851, update 1853-1869. *)
Definition newXh0 (G : mat) : mat :=
  puts G [ w 0 2 0; w 0 3 0; w 0 4 0; w 0 5 0; w 1 2 0; w 1 3 0; w 1 4 0; w 1 5 0; w 2 0 0; w 2 1 0; w 2 2 1; w 2 3 0; w 2 4 0; 
           w 2 5 0; w 3 0 0; w 3 1 0; w 3 2 0; w 3 5 0; w 4 0 0; w 4 1 0; w 4 2 0; w 4 5 0; w 5 0 0; w 5 1 0; w 5 2 0; w 5 3 0; 
           w 5 4 0; w 5 5 1 ].
Definition updXh0 (q : R) (M : mat) : mat :=
  let s := sin q in let c := cos q in
  puts M [ w 0 0 c; w 0 1 s; w 1 0 (- s); w 1 1 c; w 3 3 c; w 3 4 s; w 4 3 (- s); w 4 4 c ].
(** MotionTransforms fr_Shoulder_FE_X_fr_Shoulder_AA; constructor 2585-2613, update 2615-2633. *)
Definition newXh1 (G : mat) : mat :=
  puts G [ w 0 1 0; w 0 3 0; w 0 4 0; w 0 5 0; w 1 1 0; w 1 3 0; w 1 4 0; w 1 5 0; w 2 0 0; w 2 1 (- (1)); w 2 2 0; w 2 3 0; 
           w 2 4 0; w 2 5 0; w 3 0 0; w 3 2 0; w 3 4 0; w 4 0 0; w 4 2 0; w 4 4 0; w 5 0 (178 / 1000); w 5 1 0; w 5 2 0; w 5 3 0; 
           w 5 4 (- (1)); w 5 5 0 ].
Definition updXh1 (q : R) (M : mat) : mat :=
  let s := sin q in let c := cos q in
  puts M [ w 0 0 c; w 0 2 s; w 1 0 (- s); w 1 2 c; w 3 1 ((178 / 1000) * c); w 3 3 c; w 3 5 s; w 4 1 (- (178 / 1000) * s); 
           w 4 3 (- s); w 4 5 c ].
(** MotionTransforms fr_Humerus_R_X_fr_Shoulder_FE; constructor 2685-2711, update 2713-2733. *)
Definition newXh2 (G : mat) : mat :=
  puts G [ w 0 0 0; w 0 3 0; w 0 4 0; w 0 5 0; w 1 0 0; w 1 3 0; w 1 4 0; w 1 5 0; w 2 0 1; w 2 1 0; w 2 2 0; w 2 3 0; w 2 4 0; 
           w 2 5 0; w 3 0 0; w 3 3 0; w 4 0 0; w 4 3 0; w 5 0 0; w 5 1 0; w 5 2 0; w 5 3 1; w 5 4 0; w 5 5 0 ].
Definition updXh2 (q : R) (M : mat) : mat :=
  let s := sin q in let c := cos q in
  puts M [ w 0 1 s; w 0 2 (- c); w 1 1 c; w 1 2 s; w 3 1 ((112 / 1000) * c); w 3 2 ((112 / 1000) * s); w 3 4 s; w 3 5 (- c); 
           w 4 1 (- (112 / 1000) * s); w 4 2 ((112 / 1000) * c); w 4 4 c; w 4 5 s ].
(** MotionTransforms fr_Elbow_FE_X_fr_Humerus_R; constructor 2785-2813, update 2815-2833. *)
Definition newXh3 (G : mat) : mat :=
  puts G [ w 0 0 0; w 0 3 0; w 0 4 0; w 0 5 0; w 1 0 0; w 1 3 0; w 1 4 0; w 1 5 0; w 2 0 (- (1)); w 2 1 0; w 2 2 0; w 2 3 0; 
           w 2 4 0; w 2 5 0; w 3 1 0; w 3 2 0; w 3 3 0; w 4 1 0; w 4 2 0; w 4 3 0; w 5 0 0; w 5 1 (- (304 / 1000)); w 5 2 0; 
           w 5 3 (- (1)); w 5 4 0; w 5 5 0 ].
Definition updXh3 (q : R) (M : mat) : mat :=
  let s := sin q in let c := cos q in
  puts M [ w 0 1 s; w 0 2 c; w 1 1 c; w 1 2 (- s); w 3 0 (- (304 / 1000) * s); w 3 4 s; w 3 5 c; w 4 0 (- (304 / 1000) * c); 
           w 4 4 c; w 4 5 (- s) ].
(** MotionTransforms fr_Wrist_R_X_fr_Elbow_FE; constructor 2885-2911, update 2913-2933. *)
Definition newXh4 (G : mat) : mat :=
  puts G [ w 0 0 0; w 0 3 0; w 0 4 0; w 0 5 0; w 1 0 0; w 1 3 0; w 1 4 0; w 1 5 0; w 2 0 1; w 2 1 0; w 2 2 0; w 2 3 0; w 2 4 0; 
           w 2 5 0; w 3 0 0; w 3 3 0; w 4 0 0; w 4 3 0; w 5 0 0; w 5 1 0; w 5 2 0; w 5 3 1; w 5 4 0; w 5 5 0 ].
Definition updXh4 (q : R) (M : mat) : mat :=
  let s := sin q in let c := cos q in
  puts M [ w 0 1 s; w 0 2 (- c); w 1 1 c; w 1 2 s; w 3 1 ((112 / 1000) * c); w 3 2 ((112 / 1000) * s); w 3 4 s; w 3 5 (- c); 
           w 4 1 (- (112 / 1000) * s); w 4 2 ((112 / 1000) * c); w 4 4 c; w 4 5 s ].
(** MotionTransforms fr_Wrist_FE_X_fr_Wrist_R; constructor 2985-3013, update 3015-3033. *)
Definition newXh5 (G : mat) : mat :=
  puts G [ w 0 1 0; w 0 3 0; w 0 4 0; w 0 5 0; w 1 1 0; w 1 3 0; w 1 4 0; w 1 5 0; w 2 0 0; w 2 1 1; w 2 2 0; w 2 3 0; w 2 4 0; 
           w 2 5 0; w 3 0 0; w 3 2 0; w 3 4 0; w 4 0 0; w 4 2 0; w 4 4 0; w 5 0 (- (184 / 1000)); w 5 1 0; w 5 2 (2075 / 100000); 
           w 5 3 0; w 5 4 1; w 5 5 0 ].
Definition updXh5 (q : R) (M : mat) : mat :=
  let s := sin q in let c := cos q in
  puts M [ w 0 0 s; w 0 2 c; w 1 0 c; w 1 2 (- s); w 3 1 (((184 / 1000) * s) - ((2075 / 100000) * c)); w 3 3 s; w 3 5 c; 
           w 4 1 (((2075 / 100000) * s) + ((184 / 1000) * c)); w 4 3 c; w 4 5 (- s) ].
(** ForceTransforms fr_Shoulder_AA_X_fr_Shoulder_FE; constructor 5484-5512, update 5514-5532. *)
Definition newFh1 (G : mat) : mat :=
  puts G [ w 0 2 0; w 0 3 0; w 0 4 0; w 0 5 (178 / 1000); w 1 0 0; w 1 1 0; w 1 2 (- (1)); w 1 5 0; w 2 2 0; w 2 3 0; w 2 4 0; 
           w 2 5 0; w 3 0 0; w 3 1 0; w 3 2 0; w 3 5 0; w 4 0 0; w 4 1 0; w 4 2 0; w 4 3 0; w 4 4 0; w 4 5 (- (1)); w 5 0 0; 
           w 5 1 0; w 5 2 0; w 5 5 0 ].
Definition updFh1 (q : R) (M : mat) : mat :=
  let s := sin q in let c := cos q in
  puts M [ w 0 0 c; w 0 1 (- s); w 1 3 ((178 / 1000) * c); w 1 4 (- (178 / 1000) * s); w 2 0 s; w 2 1 c; w 3 3 c; w 3 4 (- s); 
           w 5 3 s; w 5 4 c ].
(** ForceTransforms fr_Shoulder_FE_X_fr_Humerus_R; constructor 5584-5610, update 5612-5632. *)
Definition newFh2 (G : mat) : mat :=
  puts G [ w 0 0 0; w 0 1 0; w 0 2 1; w 0 3 0; w 0 4 0; w 0 5 0; w 1 2 0; w 1 5 0; w 2 2 0; w 2 5 0; w 3 0 0; w 3 1 0; w 3 2 0; 
           w 3 3 0; w 3 4 0; w 3 5 1; w 4 0 0; w 4 1 0; w 4 2 0; w 4 5 0; w 5 0 0; w 5 1 0; w 5 2 0; w 5 5 0 ].
Definition updFh2 (q : R) (M : mat) : mat :=
  let s := sin q in let c := cos q in
  puts M [ w 1 0 s; w 1 1 c; w 1 3 ((112 / 1000) * c); w 1 4 (- (112 / 1000) * s); w 2 0 (- c); w 2 1 s; w 2 3 ((112 / 1000) * s); 
           w 2 4 ((112 / 1000) * c); w 4 3 s; w 4 4 c; w 5 3 (- c); w 5 4 s ].
(** ForceTransforms fr_Humerus_R_X_fr_Elbow_FE; constructor 5684-5712, update 5714-5732. *)
Definition newFh3 (G : mat) : mat :=
  puts G [ w 0 0 0; w 0 1 0; w 0 2 (- (1)); w 0 5 0; w 1 2 0; w 1 3 0; w 1 4 0; w 1 5 (- (304 / 1000)); w 2 2 0; w 2 3 0; w 2 4 0; 
           w 2 5 0; w 3 0 0; w 3 1 0; w 3 2 0; w 3 3 0; w 3 4 0; w 3 5 (- (1)); w 4 0 0; w 4 1 0; w 4 2 0; w 4 5 0; w 5 0 0; 
           w 5 1 0; w 5 2 0; w 5 5 0 ].
Definition updFh3 (q : R) (M : mat) : mat :=
  let s := sin q in let c := cos q in
  puts M [ w 0 3 (- (304 / 1000) * s); w 0 4 (- (304 / 1000) * c); w 1 0 s; w 1 1 c; w 2 0 c; w 2 1 (- s); w 4 3 s; w 4 4 c; 
           w 5 3 c; w 5 4 (- s) ].
(** ForceTransforms fr_Elbow_FE_X_fr_Wrist_R; constructor 5784-5810, update 5812-5832. *)
Definition newFh4 (G : mat) : mat :=
  puts G [ w 0 0 0; w 0 1 0; w 0 2 1; w 0 3 0; w 0 4 0; w 0 5 0; w 1 2 0; w 1 5 0; w 2 2 0; w 2 5 0; w 3 0 0; w 3 1 0; w 3 2 0; 
           w 3 3 0; w 3 4 0; w 3 5 1; w 4 0 0; w 4 1 0; w 4 2 0; w 4 5 0; w 5 0 0; w 5 1 0; w 5 2 0; w 5 5 0 ].
Definition updFh4 (q : R) (M : mat) : mat :=
  let s := sin q in let c := cos q in
  puts M [ w 1 0 s; w 1 1 c; w 1 3 ((112 / 1000) * c); w 1 4 (- (112 / 1000) * s); w 2 0 (- c); w 2 1 s; w 2 3 ((112 / 1000) * s); 
           w 2 4 ((112 / 1000) * c); w 4 3 s; w 4 4 c; w 5 3 (- c); w 5 4 s ].
(** ForceTransforms fr_Wrist_R_X_fr_Wrist_FE; constructor 4290-4318, update 4320-4338. *)
Definition newFh5 (G : mat) : mat :=
  puts G [ w 0 2 0; w 0 3 0; w 0 4 0; w 0 5 (- (184 / 1000)); w 1 0 0; w 1 1 0; w 1 2 1; w 1 5 0; w 2 2 0; w 2 3 0; w 2 4 0; 
           w 2 5 (2075 / 100000); w 3 0 0; w 3 1 0; w 3 2 0; w 3 5 0; w 4 0 0; w 4 1 0; w 4 2 0; w 4 3 0; w 4 4 0; w 4 5 1; w 5 0 0; 
           w 5 1 0; w 5 2 0; w 5 5 0 ].
Definition updFh5 (q : R) (M : mat) : mat :=
  let s := sin q in let c := cos q in
  puts M [ w 0 0 s; w 0 1 c; w 1 3 (((184 / 1000) * s) - ((2075 / 100000) * c)); w 1 4 (((2075 / 100000) * s) + ((184 / 1000) * c)); 
           w 2 0 c; w 2 1 (- s); w 3 3 s; w 3 4 c; w 5 3 c; w 5 4 (- s) ].

(** ** inertia_properties.impl.h 2-75; the matrices are default constructed before. *)
(** Shoulder_AA, 4-14. *)
Definition tensorH0 (G : mat) : mat :=
  fill (2688 / 1000) (vec3 (- (196 / 1000000)) (- (3091 / 1000000)) (17763901 / 100000000))
    (buildInertiaTensor (8980614 / 100000000) (8953714 / 100000000) (7629 / 1000000) (613 / 1000000) (491221 / 1000000000) (- (5849322 / 10000000000))) (newInertia0 G).
(** Shoulder_FE, 16-26. *)
Definition tensorH1 (G : mat) : mat :=
  fill (25924191 / 10000000) (vec3 (113166206 / 1000000000) (- (23382 / 1000000)) (3832 / 1000000))
    (buildInertiaTensor (39002996 / 1000000000) (8585553 / 100000000) (51393528 / 1000000000) (- (55279857 / 10000000000)) (22851627 / 1000000000) (2752 / 1000000)) (newInertia0 G).
(** Humerus_R, 28-38. *)
Definition tensorH2 (G : mat) : mat :=
  fill (2327 / 1000) (vec3 (- (23899989 / 10000000000)) (618 / 100000) (278456 / 1000000))
    (buildInertiaTensor (20236395 / 100000000) (20986895 / 100000000) (10329999 / 1000000000) (- (5399998 / 100000000000)) (11715295 / 1000000000) (37997814 / 10000000000)) (newInertia0 G).
(** Elbow_FE, 40-50. *)
Definition tensorH3 (G : mat) : mat :=
  fill (17423722 / 10000000) (vec3 (9200001 / 100000000) (- (5 / 1000)) (87422736 / 100000000000000000))
    (buildInertiaTensor (81661 / 1000000) (1828449 / 100000000) (9570849 / 100000000) (- (36857284 / 10000000000)) (21200017 / 100000000000) (22920002 / 10000000000)) (newInertia0 G).
(** Wrist_R, 52-62. *)
Definition tensorH4 (G : mat) : mat :=
  fill (21032 / 10000) (vec3 0 0 (275 / 10000))
    (buildInertiaTensor (19432 / 1000000) (29115 / 1000000) (11046 / 1000000) (1387 / 1000000) (12652 / 1000000) (1243 / 1000000)) (newInertia0 G).
(** Wrist_FE, 64-74. *)
Definition tensorH5 (G : mat) : mat :=
  fill (1547475 / 1000000) (vec3 (25 / 1000) 0 0)
    (buildInertiaTensor (10737 / 1000000) (3227 / 1000000) (9277 / 1000000) (- (198 / 1000000)) (- (15 / 1000000)) (829 / 1000000)) (newInertia0 G).

(** The arm from the base to the tip: link [k] for [k] = 0..5. *)
Definition newXh (k : nat) : mat -> mat := nth k [newXh0; newXh1; newXh2; newXh3; newXh4; newXh5] (fun G => G).
Definition updXh (k : nat) : R -> mat -> mat := nth k [updXh0; updXh1; updXh2; updXh3; updXh4; updXh5] (fun _ M => M).
(** Force transform from link [S k] to link [k]. *)
Definition newFh (k : nat) : mat -> mat := nth k [newFh1; newFh2; newFh3; newFh4; newFh5] (fun G => G).
Definition updFh (k : nat) : R -> mat -> mat := nth k [updFh1; updFh2; updFh3; updFh4; updFh5] (fun _ M => M).
Definition tensorH (k : nat) : mat -> mat := nth k [tensorH0; tensorH1; tensorH2; tensorH3; tensorH4; tensorH5] (fun G => G).

(** ** QuadrotorWithLoad/generated/inertia_properties.impl.h 2-41 *)
(** body, 4-14. *)
Definition tensorQ0 (G : mat) : mat :=
  fill (5 / 10) (vec3 0 0 0) (buildInertiaTensor (3 / 100) (5 / 100) (3 / 100) 0 0 0) (newInertia0 G).
(** link1, 16-26. *)
Definition tensorQ1 (G : mat) : mat :=
  fill (25 / 1000) (vec3 0 0 (- (5 / 100))) (buildInertiaTensor (2075 / 100000000) (1 / 1000000) (2075 / 100000000) 0 0 0) (newInertia0 G).
(** link2, 28-38. *)
Definition tensorQ2 (G : mat) : mat :=
  fill (1 / 10) (vec3 (35 / 100) 0 0) (buildInertiaTensor (4084 / 1000000) (4084 / 1000000) (25 / 10000000) 0 0 0) (newInertia0 G).
