(** Model of the spatial algebra the generated rigid body dynamics call: ct_rbd/include/ct/iit/rbd/InertiaMatrix.h,
    robcogen_commons.h, internals.h and utils.h.
    A 6x6 matrix is the function of its two indices (AX=0, AY, AZ, LX, LY, LZ=5, rbd.h 173-175), a write replaces one entry.
    Scalars are real.  Output matrices are given with the contents they have before the call. *)
From Coq Require Import Reals List Bool Arith.
From Verif Require Import Base.RVec.
Import ListNotations.
Local Open Scope R_scope.

Definition mat := nat -> nat -> R.
Definition put (M : mat) (i j : nat) (v : R) : mat := fun a b => if ((a =? i) && (b =? j))%nat then v else M a b.
Definition puts (M : mat) (l : list (nat * nat * R)) : mat := fold_left (fun M p => put M (fst (fst p)) (snd (fst p)) (snd p)) l M.
Notation AX := 0%nat (only parsing). Notation AY := 1%nat (only parsing). Notation AZ := 2%nat (only parsing).
Notation LX := 3%nat (only parsing). Notation LY := 4%nat (only parsing). Notation LZ := 5%nat (only parsing).

(** internals.h 27-55, 62-96: the nine, or six, coefficients of a 3x3 matrix. *)
Record m33 := mkM { XX : R; XY : R; XZ : R; YX : R; YY : R; YZ : R; ZX : R; ZY : R; ZZ : R }.
Record s33 := mkS { sXX : R; sXY : R; sXZ : R; sYY : R; sYZ : R; sZZ : R }.

(** rot_symmetric_EAET, internals.h 105-137. *)
Definition rot_symmetric_EAET (E : m33) (A : s33) : s33 :=
  let LXX := sXX A - sZZ A in
  let LXY := sXY A in
  let LYY := sYY A - sZZ A in
  let LZX := 2 * sXZ A in
  let LZY := 2 * sYZ A in
  let yXX := YX E * LXX + YY E * LXY + YZ E * LZX in
  let yXY := YX E * LXY + YY E * LYY + YZ E * LZY in
  let yYX := ZX E * LXX + ZY E * LXY + ZZ E * LZX in
  let yYY := ZX E * LXY + ZY E * LYY + ZZ E * LZY in
  let v1 := - sYZ A in
  let v2 := sXZ A in
  let EvX := XX E * v1 + XY E * v2 in
  let EvY := YX E * v1 + YY E * v2 in
  let EvZ := ZX E * v1 + ZY E * v2 in
  let zYY := yXX * YX E + yXY * YY E in
  let zZZ := yYX * ZX E + yYY * ZY E in
  mkS (LXX + LYY - zYY - zZZ + sZZ A)
      (yXX * XX E + yXY * XY E + EvZ)
      (yYX * XX E + yYY * XY E - EvY)
      (zYY + sZZ A)
      (yYX * YX E + yYY * YY E + EvX)
      (zZZ + sZZ A).

(** rot_EAET, internals.h 144-180. *)
Definition rot_EAET (E A : m33) : m33 :=
  let LXX := XX A - ZZ A in
  let LXY := XY A in
  let LYX := YX A in
  let LYY := YY A - ZZ A in
  let LZX := ZX A + XZ A in
  let LZY := ZY A + YZ A in
  let v1 := - YZ A in
  let v2 := XZ A in
  let EvX := XX E * v1 + XY E * v2 in
  let EvY := YX E * v1 + YY E * v2 in
  let EvZ := ZX E * v1 + ZY E * v2 in
  let yXX := XX E * LXX + XY E * LYX + XZ E * LZX in
  let yXY := XX E * LXY + XY E * LYY + XZ E * LZY in
  let yYX := YX E * LXX + YY E * LYX + YZ E * LZX in
  let yYY := YX E * LXY + YY E * LYY + YZ E * LZY in
  let yZX := ZX E * LXX + ZY E * LYX + ZZ E * LZX in
  let yZY := ZX E * LXY + ZY E * LYY + ZZ E * LZY in
  mkM (yXX * XX E + yXY * XY E + ZZ A) (yXX * YX E + yXY * YY E - EvZ) (yXX * ZX E + yXY * ZY E + EvY)
      (yYX * XX E + yYY * XY E + EvZ) (yYX * YX E + yYY * YY E + ZZ A) (yYX * ZX E + yYY * ZY E - EvX)
      (yZX * XX E + yZY * XY E - EvY) (yZX * YX E + yZY * YY E + EvX) (yZX * ZX E + yZY * ZY E + ZZ A).

(** ** InertiaMatrix.h *)
(** setTheFixedZeros, 291-297. *)
Definition fixedZeros (M : mat) : mat :=
  puts M ([ (LX,LX,0); (LX,LY,0); (LX,LZ,0); (LY,LX,0); (LY,LY,0); (LY,LZ,0); (LZ,LX,0); (LZ,LY,0); (LZ,LZ,0) ] ++
          [ (AX,LX,0); (AY,LY,0); (AZ,LZ,0); (LX,AX,0); (LY,AY,0); (LZ,AZ,0) ]).
(** block33(AX,AX) = tensor. *)
Definition putTensor (I : mat) (M : mat) : mat :=
  puts M [ (AX,AX,I 0%nat 0%nat); (AX,AY,I 0%nat 1%nat); (AX,AZ,I 0%nat 2%nat);
           (AY,AX,I 1%nat 0%nat); (AY,AY,I 1%nat 1%nat); (AY,AZ,I 1%nat 2%nat);
           (AZ,AX,I 2%nat 0%nat); (AZ,AY,I 2%nat 1%nat); (AZ,AZ,I 2%nat 2%nat) ].
(** The assignments of 249-251, 271-273 and robcogen_commons.h 195-197, with (px,py,pz) the mass times the centre of mass. *)
Definition putCom (px py pz : R) (M : mat) : mat :=
  puts M [ (LX,AY,pz); (AY,LX,pz); (LY,AX,- pz); (AX,LY,- pz);
           (LZ,AX,py); (AX,LZ,py); (LX,AZ,- py); (AZ,LX,- py);
           (LY,AZ,px); (AZ,LY,px); (LZ,AY,- px); (AY,LZ,- px) ].
Definition putMass (m : R) (M : mat) : mat := puts M [ (LZ,LZ,m); (LY,LY,m); (LX,LX,m) ].
(** set, 241-257 = fill, 177-182. *)
Definition fill (mass : R) (com : rvec) (tensor : mat) (M : mat) : mat :=
  putMass mass (putCom (mass * com 0%nat) (mass * com 1%nat) (mass * com 2%nat) (putTensor tensor M)).
(** Constructors 159-175; [garbage] are the uninitialised contents. *)
Definition newInertia0 (garbage : mat) : mat := fixedZeros garbage.
Definition newInertia (mass : R) (com : rvec) (tensor : mat) (garbage : mat) : mat := fill mass com tensor (fixedZeros garbage).
(** 184-203. *)
Definition getMass (M : mat) : R := M LX LX.
Definition getCOM (M : mat) : rvec :=
  fun i => match i with 0%nat => M AZ LY / M LX LX | 1%nat => M AX LZ / M LX LX | _ => M AY LX / M LX LX end.
Definition get3x3Tensor (M : mat) : mat := fun i j => M i j.
(** block33(LX,AX) = block33(AX,LX).transpose(). *)
Definition mirror (M : mat) : mat :=
  puts M [ (LX,AX,M AX LX); (LX,AY,M AY LX); (LX,AZ,M AZ LX); (LY,AX,M AX LY); (LY,AY,M AY LY); (LY,AZ,M AZ LY);
           (LZ,AX,M AX LZ); (LZ,AY,M AY LZ); (LZ,AZ,M AZ LZ) ].
(** changeMass, 205-212. *)
Definition changeMass (newMass : R) (M : mat) : mat :=
  let M1 := fun i j => if (i <? 3)%nat then M i j * (newMass / getMass M) else M i j in
  putMass newMass (mirror M1).
(** setSkewSymmetricBlock on block33(AX,LX), 299-307. *)
Definition putSkew (v : rvec) (M : mat) : mat :=
  puts M [ (AY,LX,v 2%nat); (AX,LY,- v 2%nat); (AX,LZ,v 1%nat); (AZ,LX,- v 1%nat); (AZ,LY,v 0%nat); (AY,LZ,- v 0%nat) ].
(** changeCOM, 214-233. *)
Definition changeCOM (newcom : rvec) (M : mat) : mat :=
  let M1 := putSkew (fun i => getMass M * newcom i) M in
  let AL := fun i j => M1 i (3 + j)%nat in
  let LA := fun i j => M1 (3 + i)%nat j in
  let T := fun i j => M1 i j + (rsum 3 (fun k => AL i k * AL j k) - rsum 3 (fun k => LA k i * LA k j)) / getMass M1 in
  mirror (putTensor T M1).
(** 235-239. *)
Definition changeRotationalInertia (tensor : mat) (M : mat) : mat := putTensor tensor M.
(** operator=, 259-276. *)
Definition assign (other M : mat) : mat :=
  putMass (other LX LX) (putCom (other LY AZ) (other LZ AX) (other LX AY) (putTensor other M)).
(** operator+=, 278-289. *)
Definition addTo (other M : mat) : mat :=
  putMass (M LZ LZ + other LX LX)
    (putCom (M LY AZ + other LY AZ) (M LZ AX + other LZ AX) (M LX AY + other LX AY) (putTensor (fun i j => M i j + other i j) M)).

(** ** robcogen_commons.h *)
(** vxIv, 57-114. *)
Definition vxIv (v : rvec) (I : mat) : rvec :=
  let wx2 := v AX * v AX in let wy2 := v AY * v AY in let wz2 := v AZ * v AZ in
  let v_AXAY := v AX * v AY in let v_AXAZ := v AX * v AZ in let v_AXLY := v AX * v LY in let v_AXLZ := v AX * v LZ in
  let v_AYAZ := v AY * v AZ in let v_AYLX := v AY * v LX in let v_AYLZ := v AY * v LZ in
  let v_AZLX := v AZ * v LX in let v_AZLY := v AZ * v LY in
  let m := I LX LX in
  let a := mkS (I AX AX) (I AX AY) (I AX AZ) (I AY AY) (I AY AZ) (I AZ AZ) in
  let cmX := I AZ LY in let cmY := I AX LZ in let cmZ := I AY LX in
  fun i => match i with
  | 0%nat => cmZ * (v_AXLZ - v_AZLX) + cmY * (v_AXLY - v_AYLX) + v_AYAZ * (sZZ a - sYY a)
         - v_AXAZ * sXY a - (wz2 - wy2) * sYZ a + v_AXAY * sXZ a
  | 1%nat => cmZ * (v_AYLZ - v_AZLY) - cmX * (v_AXLY - v_AYLX) - v_AXAZ * (sZZ a - sXX a)
         + v_AYAZ * sXY a - v_AXAY * sYZ a + (wz2 - wx2) * sXZ a
  | 2%nat => cmX * (v_AZLX - v_AXLZ) - cmY * (v_AYLZ - v_AZLY) + v_AXAY * (sYY a - sXX a)
         + v_AXAZ * sYZ a - sXZ a * v_AYAZ - (wy2 - wx2) * sXY a
  | 3%nat => m * (v_AYLZ - v_AZLY) - cmX * (wz2 + wy2) + v_AXAZ * cmZ + v_AXAY * cmY
  | 4%nat => - m * (v_AXLZ - v_AZLX) - cmY * (wz2 + wx2) + v_AXAY * cmX + v_AYAZ * cmZ
  | _ => m * (v_AXLY - v_AYLX) - cmZ * (wy2 + wx2) + v_AXAZ * cmX + v_AYAZ * cmY
  end.
(** vxIv for a rotation about z, 125-137. *)
Definition vxIv_z (omegaz : R) (I : mat) : rvec :=
  let wz2 := omegaz * omegaz in
  fun i => match i with
  | 0%nat => - I AY AZ * wz2
  | 1%nat => I AX AY * wz2
  | 2%nat => 0
  | 3%nat => I AY LZ * wz2
  | 4%nat => I AZ LX * wz2
  | _ => 0
  end.
(** motionCrossProductMx, 152-162. *)
Definition motionCross (v : rvec) (vx : mat) : mat :=
  puts vx ([ (LZ,LY,v AX); (AZ,AY,v AX); (LY,LZ,- v AX); (AY,AZ,- v AX);
             (LX,LZ,v AY); (AX,AZ,v AY); (LZ,LX,- v AY); (AZ,AX,- v AY);
             (LY,LX,v AZ); (AY,AX,v AZ); (LX,LY,- v AZ); (AX,AY,- v AZ) ] ++
           [ (LZ,AY,v LX); (LY,AZ,- v LX); (LX,AZ,v LY); (LZ,AX,- v LY); (LY,AX,v LZ); (LX,AY,- v LZ) ]).
(** forceCrossProductMx, 171-181. *)
Definition forceCross (v : rvec) (vx : mat) : mat :=
  puts vx ([ (LZ,LY,v AX); (AZ,AY,v AX); (LY,LZ,- v AX); (AY,AZ,- v AX);
             (LX,LZ,v AY); (AX,AZ,v AY); (LZ,LX,- v AY); (AZ,AX,- v AY);
             (LY,LX,v AZ); (AY,AX,v AZ); (LX,LY,- v AZ); (AX,AY,- v AZ) ] ++
           [ (AZ,LY,v LX); (AY,LZ,- v LX); (AX,LZ,v LY); (AZ,LX,- v LY); (AY,LX,v LZ); (AX,LY,- v LZ) ]).
(** fillInertia, 184-200. *)
Definition fillInertia (mass : R) (com : rvec) (I : s33) (M : mat) : mat :=
  putMass mass (putCom (mass * com 0%nat) (mass * com 1%nat) (mass * com 2%nat)
    (puts M [ (AX,AX,sXX I); (AY,AY,sYY I); (AZ,AZ,sZZ I); (AX,AY,sXY I); (AY,AX,sXY I);
              (AX,AZ,sXZ I); (AZ,AX,sXZ I); (AY,AZ,sYZ I); (AZ,AY,sYZ I) ])).
(** transformInertia, 217-286. *)
Definition transformInertia (I_A XF I_B : mat) : mat :=
  let E := mkM (XF AX AX) (XF AX AY) (XF AX AZ) (XF AY AX) (XF AY AY) (XF AY AZ) (XF AZ AX) (XF AZ AY) (XF AZ AZ) in
  let mass := getMass I_A in
  let rx := XY E * XF AX LZ + YY E * XF AY LZ + ZY E * XF AZ LZ in
  let ry := XZ E * XF AX LX + YZ E * XF AY LX + ZZ E * XF AZ LX in
  let rz := XX E * XF AX LY + YX E * XF AY LY + ZX E * XF AZ LY in
  let comAx := I_A AZ LY / mass in
  let comAy := I_A AX LZ / mass in
  let comAz := I_A AY LX / mass in
  let px := comAx - rx in let py := comAy - ry in let pz := comAz - rz in
  let cx2 := comAx * comAx in let cy2 := comAy * comAy in let cz2 := comAz * comAz in
  let px2 := px * px in let py2 := py * py in let pz2 := pz * pz in
  let t := mkS (I_A AX AX + mass * (py2 + pz2 - cy2 - cz2))
               (I_A AX AY + mass * (comAx * comAy - px * py))
               (I_A AX AZ + mass * (comAx * comAz - px * pz))
               (I_A AY AY + mass * (px2 + pz2 - cx2 - cz2))
               (I_A AY AZ + mass * (comAy * comAz - py * pz))
               (I_A AZ AZ + mass * (px2 + py2 - cx2 - cy2)) in
  let p_B := fun i => match i with
             | 0%nat => XX E * px + XY E * py + XZ E * pz
             | 1%nat => YX E * px + YY E * py + YZ E * pz
             | _ => ZX E * px + ZY E * py + ZZ E * pz end in
  fillInertia mass p_B (rot_symmetric_EAET E t) I_B.

(** The writes of ctransform_Ia_revolute 391-433 and ctransform_Ia_prismatic 520-564. *)
Definition writeIa (aa : s33) (al : m33) (ll : s33) (M : mat) : mat :=
  puts M
   ([ (AX,AX,sXX aa); (AY,AY,sYY aa); (AZ,AZ,sZZ aa); (AX,AY,sXY aa); (AY,AX,sXY aa); (AX,AZ,sXZ aa); (AZ,AX,sXZ aa);
      (AY,AZ,sYZ aa); (AZ,AY,sYZ aa) ] ++
    [ (AX,LX,XX al); (LX,AX,XX al); (AX,LY,XY al); (LY,AX,XY al); (AX,LZ,XZ al); (LZ,AX,XZ al);
      (AY,LX,YX al); (LX,AY,YX al); (AY,LY,YY al); (LY,AY,YY al); (AY,LZ,YZ al); (LZ,AY,YZ al);
      (AZ,LX,ZX al); (LX,AZ,ZX al); (AZ,LY,ZY al); (LY,AZ,ZY al); (AZ,LZ,ZZ al); (LZ,AZ,ZZ al) ] ++
    [ (LX,LX,sXX ll); (LY,LY,sYY ll); (LZ,LZ,sZZ ll); (LX,LY,sXY ll); (LY,LX,sXY ll); (LX,LZ,sXZ ll); (LZ,LX,sXZ ll);
      (LY,LZ,sYZ ll); (LZ,LY,sYZ ll) ]).
(** ctransform_Ia_revolute, 314-434. *)
Definition ctransform_Ia_revolute (Ia_A XM Ia_B : mat) : mat :=
  let E := mkM (XM AX AX) (XM AY AX) (XM AZ AX) (XM AX AY) (XM AY AY) (XM AZ AY) (XM AX AZ) (XM AY AZ) (XM AZ AZ) in
  let rx := XY E * XM LZ AX + YY E * XM LZ AY + ZY E * XM LZ AZ in
  let ry := XZ E * XM LX AX + YZ E * XM LX AY + ZZ E * XM LX AZ in
  let rz := XX E * XM LY AX + YX E * XM LY AY + ZX E * XM LY AZ in
  let C := mkM (Ia_A AX LX) (Ia_A AX LY) (Ia_A AX LZ) (Ia_A AY LX) (Ia_A AY LY) (Ia_A AY LZ) 0 0 0 in
  let a1 := mkS (Ia_A AX AX + 2 * XY C * rz - 2 * XZ C * ry)
                (Ia_A AX AY + YY C * rz - XX C * rz - YZ C * ry + XZ C * rx)
                (XX C * ry - XY C * rx)
                (Ia_A AY AY + 2 * YZ C * rx - 2 * YX C * rz)
                (YX C * ry - YY C * rx)
                0 in
  let M := mkS (Ia_A LX LX) (Ia_A LX LY) (Ia_A LX LZ) (Ia_A LY LY) (Ia_A LY LZ) (Ia_A LZ LZ) in
  let rxM := mkM (rz * sXY M - ry * sXZ M) (rz * sYY M - ry * sYZ M) (rz * sYZ M - ry * sZZ M)
                 (rx * sXZ M - rz * sXX M) (rx * sYZ M - rz * sXY M) (rx * sZZ M - rz * sXZ M)
                 (ry * sXX M - rx * sXY M) (ry * sXY M - rx * sYY M) (ry * sXZ M - rx * sYZ M) in
  let aux1 := mkS (sXX a1 + (XY rxM * rz - XZ rxM * ry))
                  (sXY a1 + (XZ rxM * rx - XX rxM * rz))
                  (sXZ a1 + (XX rxM * ry - XY rxM * rx))
                  (sYY a1 + (YZ rxM * rx - YX rxM * rz))
                  (sYZ a1 + (YX rxM * ry - YY rxM * rx))
                  (sZZ a1 + (ZX rxM * ry - ZY rxM * rx)) in
  let CM := mkM (XX rxM + XX C) (XY rxM + XY C) (XZ rxM + XZ C) (YX rxM + YX C) (YY rxM + YY C) (YZ rxM + YZ C)
                (ZX rxM) (ZY rxM) (ZZ rxM) in
  writeIa (rot_symmetric_EAET E aux1) (rot_EAET E CM) (rot_symmetric_EAET E M) Ia_B.
(** ctransform_Ia_prismatic, 437-565. *)
Definition ctransform_Ia_prismatic (Ia_A XM Ia_B : mat) : mat :=
  let E := mkM (XM AX AX) (XM AY AX) (XM AZ AX) (XM AX AY) (XM AY AY) (XM AZ AY) (XM AX AZ) (XM AY AZ) (XM AZ AZ) in
  let rx := XY E * XM LZ AX + YY E * XM LZ AY + ZY E * XM LZ AZ in
  let ry := XZ E * XM LX AX + YZ E * XM LX AY + ZZ E * XM LX AZ in
  let rz := XX E * XM LY AX + YX E * XM LY AY + ZX E * XM LY AZ in
  let C := mkM (Ia_A AX LX) (Ia_A AX LY) 0 (Ia_A AY LX) (Ia_A AY LY) 0 (Ia_A AZ LX) (Ia_A AZ LY) 0 in
  let a1 := mkS (Ia_A AX AX + 2 * XY C * rz)
                (Ia_A AX AY + (YY C - XX C) * rz)
                (Ia_A AX AZ + ZY C * rz + XX C * ry - XY C * rx)
                (Ia_A AY AY - 2 * YX C * rz)
                (Ia_A AY AZ - ZX C * rz + YX C * ry - YY C * rx)
                (Ia_A AZ AZ + 2 * ZX C * ry - 2 * ZY C * rx) in
  let M := mkS (Ia_A LX LX) (Ia_A LX LY) 0 (Ia_A LY LY) 0 0 in
  let rxM := mkM (rz * sXY M) (rz * sYY M) 0 (- rz * sXX M) (- rz * sXY M) 0
                 (ry * sXX M - rx * sXY M) (ry * sXY M - rx * sYY M) 0 in
  let aux1 := mkS (sXX a1 + XY rxM * rz)
                  (sXY a1 + - XX rxM * rz)
                  (sXZ a1 + (XX rxM * ry - XY rxM * rx))
                  (sYY a1 + - YX rxM * rz)
                  (sYZ a1 + (YX rxM * ry - YY rxM * rx))
                  (sZZ a1 + (ZX rxM * ry - ZY rxM * rx)) in
  let CM := mkM (XX rxM + XX C) (XY rxM + XY C) (XZ rxM) (YX rxM + YX C) (YY rxM + YY C) (YZ rxM)
                (ZX rxM + ZX C) (ZY rxM + ZY C) (ZZ rxM) in
  writeIa (rot_symmetric_EAET E aux1) (rot_EAET E CM) (rot_symmetric_EAET E M) Ia_B.
(** compute_Ia_revolute, 594-635. *)
Definition compute_Ia_revolute (IA : mat) (U : rvec) (D : R) (Ia : mat) : mat :=
  let e i j := IA i j - U i * (U j / D) in
  puts Ia [ (AX,AX,e AX AX); (AY,AX,e AX AY); (AX,AY,e AX AY); (LX,AX,e AX LX); (AX,LX,e AX LX); (LY,AX,e AX LY); (AX,LY,e AX LY);
            (LZ,AX,e AX LZ); (AX,LZ,e AX LZ); (AY,AY,e AY AY); (LX,AY,e AY LX); (AY,LX,e AY LX); (LY,AY,e AY LY); (AY,LY,e AY LY);
            (LZ,AY,e AY LZ); (AY,LZ,e AY LZ); (LX,LX,e LX LX); (LY,LX,e LX LY); (LX,LY,e LX LY); (LZ,LX,e LX LZ); (LX,LZ,e LX LZ);
            (LY,LY,e LY LY); (LZ,LY,e LY LZ); (LY,LZ,e LY LZ); (LZ,LZ,e LZ LZ) ].
(** compute_Ia_prismatic, 638-682. *)
Definition compute_Ia_prismatic (IA : mat) (U : rvec) (D : R) (Ia : mat) : mat :=
  let e i j := IA i j - U i * (U j / D) in
  puts Ia [ (AX,AX,e AX AX); (AY,AX,e AX AY); (AX,AY,e AX AY); (AZ,AX,e AX AZ); (AX,AZ,e AX AZ); (LX,AX,e AX LX); (AX,LX,e AX LX);
            (LY,AX,e AX LY); (AX,LY,e AX LY); (AY,AY,e AY AY); (AZ,AY,e AY AZ); (AY,AZ,e AY AZ); (LX,AY,e AY LX); (AY,LX,e AY LX);
            (LY,AY,e AY LY); (AY,LY,e AY LY); (AZ,AZ,e AZ AZ); (LX,AZ,e AZ LX); (AZ,LX,e AZ LX); (LY,AZ,e AZ LY); (AZ,LY,e AZ LY);
            (LX,LX,e LX LX); (LY,LX,e LX LY); (LX,LY,e LX LY); (LY,LY,e LY LY) ].

(** ** utils.h *)
(** fillAsRotationMatrix 69-92 = buildRotationMatrix 98-110. *)
Definition buildRotationMatrix (rx ry rz : R) : mat :=
  let cx := cos rx in let sx := sin rx in let cy := cos ry in let sy := sin ry in let cz := cos rz in let sz := sin rz in
  fun i j => match i, j with
  | 0%nat, 0%nat => cy * cz | 0%nat, 1%nat => cx * sz + sx * sy * cz | 0%nat, _ => sx * sz - cx * sy * cz
  | 1%nat, 0%nat => - cy * sz | 1%nat, 1%nat => cx * cz - sx * sy * sz | 1%nat, _ => cx * sy * sz + sx * cz
  | _, 0%nat => sy | _, 1%nat => - sx * cy | _, _ => cx * cy
  end.
(** fillAsCrossProductMatrix 130-140 = buildCrossProductMatrix 55-61. *)
Definition crossMx (v : rvec) : mat :=
  fun i j => match i, j with
  | 0%nat, 1%nat => - v 2%nat | 0%nat, 2%nat => v 1%nat | 1%nat, 0%nat => v 2%nat | 1%nat, 2%nat => - v 0%nat | 2%nat, 0%nat => - v 1%nat | 2%nat, 1%nat => v 0%nat | _, _ => 0
  end.
(** fillAsMotionCrossProductMx 115-121, fillAsForceCrossProductMx 122-128: all 36 entries are written. *)
Definition fillMotionCross (v : rvec) : mat :=
  let w := crossMx v in let l := crossMx (fun i => v (3 + i)%nat) in
  fun i j => if (i <? 3)%nat then if (j <? 3)%nat then w i j else 0
             else if (j <? 3)%nat then l (i - 3)%nat j else w (i - 3)%nat (j - 3)%nat.
Definition fillForceCross (v : rvec) : mat :=
  let w := crossMx v in let l := crossMx (fun i => v (3 + i)%nat) in
  fun i j => if (i <? 3)%nat then if (j <? 3)%nat then w i j else l i (j - 3)%nat
             else if (j <? 3)%nat then 0 else w (i - 3)%nat (j - 3)%nat.
(** buildInertiaTensor, 43-53. *)
Definition buildInertiaTensor (Ixx Iyy Izz Ixy Ixz Iyz : R) : mat :=
  fun i j => match i, j with
  | 0%nat, 0%nat => Ixx | 0%nat, 1%nat => - Ixy | 0%nat, _ => - Ixz
  | 1%nat, 0%nat => - Ixy | 1%nat, 1%nat => Iyy | 1%nat, _ => - Iyz
  | _, 0%nat => - Ixz | _, 1%nat => - Iyz | _, _ => Izz
  end.
(** transform, 173-181: a 4x4 homogeneous transform applied to a point. *)
Definition transform (homT : mat) (p : rvec) : rvec := fun i => rsum 3 (fun k => homT i k * p k) + homT i 3%nat.
