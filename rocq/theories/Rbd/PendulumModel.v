(** Model of the generated transforms and inertia properties of the pendulums:
    ct_models/include/ct/models/{InvertedPendulum,DoubleInvertedPendulum}/generated/{transforms,inertia_properties}.impl.h.
    Line numbers are those of DoubleInvertedPendulum unless IP is written.  Scalars are real; decimal literals are exact. *)
From Coq Require Import Reals List Bool Arith.
From Verif Require Import Base.RVec Rbd.SpatialModel Rbd.ChainModel.
Import ListNotations.
Local Open Scope R_scope.

(** ** transforms.impl.h *)
Definition w (i j : nat) (x : R) : nat * nat * R := (i, j, x).
(** Motion transform from the base to Link1; constructor 279-308, update 310-326; IP 152-199 is the same. *)
Definition newX1 (G : mat) : mat :=
  puts G [ w 0 0 0; w 0 3 0; w 0 4 0; w 0 5 0; w 1 0 0; w 1 3 0; w 1 4 0; w 1 5 0; w 2 0 1; w 2 1 0; w 2 2 0; w 2 3 0; w 2 4 0; w 2 5 0;
           w 3 0 0; w 3 1 0; w 3 2 0; w 3 3 0; w 4 0 0; w 4 1 0; w 4 2 0; w 4 3 0; w 5 0 0; w 5 1 0; w 5 2 0; w 5 3 1; w 5 4 0; w 5 5 0 ].
Definition updX1 (q1 : R) (M : mat) : mat :=
  let s := sin q1 in let c := cos q1 in
  puts M [ w 0 1 (- s); w 0 2 c; w 1 1 (- c); w 1 2 (- s);
           w 3 4 (- s); w 3 5 c; w 4 4 (- c); w 4 5 (- s) ].
(** Motion transform from Link1 to Link2; constructor 477-506, update 508-526. *)
Definition newX2 (G : mat) : mat :=
  puts G ([ w 0 2 0; w 0 3 0; w 0 4 0; w 0 5 0; w 1 2 0; w 1 3 0; w 1 4 0; w 1 5 0; w 2 0 0; w 2 1 0; w 2 2 1; w 2 3 0; w 2 4 0; w 2 5 0;
           w 3 0 0; w 3 1 0; w 3 5 0; w 4 0 0; w 4 1 0; w 4 5 0; w 5 0 0; w 5 1 (- (1)); w 5 2 0; w 5 3 0; w 5 4 0; w 5 5 1 ]).
Definition updX2 (q2 : R) (M : mat) : mat :=
  let s := sin q2 in let c := cos q2 in
  puts M [ w 0 0 c; w 0 1 s; w 1 0 (- s); w 1 1 c; w 3 2 s; w 3 3 c; w 3 4 s;
           w 4 2 c; w 4 3 (- s); w 4 4 c ].
(** Force transform from Link2 to Link1; constructor 1039-1067, update 1069-1087. *)
Definition newXF2 (G : mat) : mat :=
  puts G ([ w 0 2 0; w 0 3 0; w 0 4 0; w 0 5 0; w 1 2 0; w 1 3 0; w 1 4 0; w 1 5 (- (1)); w 2 0 0; w 2 1 0; w 2 2 1; w 2 5 0;
           w 3 0 0; w 3 1 0; w 3 2 0; w 3 5 0; w 4 0 0; w 4 1 0; w 4 2 0; w 4 5 0; w 5 0 0; w 5 1 0; w 5 2 0; w 5 3 0; w 5 4 0; w 5 5 1 ]).
Definition updXF2 (q2 : R) (M : mat) : mat :=
  let s := sin q2 in let c := cos q2 in
  puts M [ w 0 0 c; w 0 1 (- s); w 1 0 s; w 1 1 c; w 2 3 s; w 2 4 c;
           w 3 3 c; w 3 4 (- s); w 4 3 s; w 4 4 c ].

(** ** inertia_properties.impl.h 2-27; the matrices are default constructed before. *)
Definition vec3 (x y z : R) : rvec := fun i => match i with 0%nat => x | 1%nat => y | _ => z end.
Definition tensorLink1 (G : mat) : mat :=
  fill 1 (vec3 (1/2) 0 0) (buildInertiaTensor (5/10000) (251/1000) (2505/10000) 0 0 (- (21855406 / 1000000000000000000))) (newInertia0 G).
Definition tensorLink2 (G : mat) : mat :=
  fill 1 (vec3 (1/2) 0 0) (buildInertiaTensor (5/10000) (2505/10000) (251/1000) 0 0 0) (newInertia0 G).
(** IP inertia_properties.impl.h 2-15. *)
Definition tensorIP (G : mat) : mat :=
  fill (1811/1000) (vec3 (293/1000) 0 0) (buildInertiaTensor (47/100000) (15594256/100000000) (16452757/100000000) 0 0 0) (newInertia0 G).
