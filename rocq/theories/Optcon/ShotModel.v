(** Model of the integration cache of a shot (C44) and of the initial state constraint of a
    shooting problem (C52):
    ct_optcon/include/ct/optcon/dms/dms_core/{ShotContainer.h, SensitivityIntegratorCT.h,
    DmsProblem.h}, nlp/Nlp.h, nlp/OptVector.h, nlp/solver/implementation/IpoptSolver-impl.h,
    dms/constraints/{InitStateConstraint.h, implementation/ConstraintsContainerDms-impl.h}. *)
From Coq Require Import List Bool Arith Reals.
From Verif Require Import Base.Outcome Optcon.DmsModel.
Import ListNotations.

(** ** The shot cache *)
Section Shot.
(** What is integrated is abstract: [integ w sp] is the state and control trajectory of the shot
    started from the decision vector w under the control spline computed from the decision vector
    sp; the other quantities are functions of what the code reads for them.  The loops over the
    integration steps read and write the cached arrays block-wise, from index 0; a block is the
    data of one pass over the shot.  Number of steps >= 1. *)
Variables V Traj Cost Lin Sens CSens : Type.
Variable integ : V -> V -> Traj.
Variable costOf : Traj -> Cost.
Variable linOf : Traj -> Lin.
Variable sensOf : Lin -> Traj -> Sens.
Variable csensOf : Traj -> Sens -> CSens.

(** The decision vector with its update count (OptVector.h 325), and the control spline
    (DmsProblem.h 275; computeSpline copies the controls). *)
Record prob := mkProb { p_w : V; p_count : nat; p_spline : V }.

(** ShotContainer.h members: the four counts; stateSubsteps_; cost_; discreteA_, discreteB_,
    discreteBNext_; discreteQ_, discreteR_, discreteRNext_.  Integrator: statesCached_,
    arrayA_/arrayB_, arraydX0_/arraydU0_/arraydUf_.  [s_work] is ghost state: the passes executed,
    latest first. *)
Inductive pass := PState | PCost | PSens | PCostSens.
Record shot := mkShot {
  s_nState : nat; s_nCost : nat; s_nSens : nat; s_nCSens : nat;
  s_sub : option Traj; s_cost : option Cost; s_sens : option Sens; s_csens : option CSens;
  s_cached : option Traj; s_lin : list Lin; s_dx : list Sens;
  s_work : list pass }.

(** ShotContainer.h 82-89: all counts 0; cost_ and the cost sensitivities start with given (zero)
    values, the other quantities are uninitialised. *)
Definition newShot (cost0 : Cost) (csens0 : CSens) : shot :=
  mkShot 0 0 0 0 None (Some cost0) None (Some csens0) None [] [] [].

(** ShotContainer.h 140-149 with SensitivityIntegratorCT.h 225-248: the states and the
    linearization are cleared, then the states are cached anew. *)
Definition integrateShot (p : prob) (s : shot) : shot :=
  if p_count p =? s_nState s then s
  else
    let tr := integ (p_w p) (p_spline p) in
    mkShot (p_count p) (s_nCost s) (s_nSens s) (s_nCSens s) (Some tr) (s_cost s) (s_sens s)
           (s_csens s) (Some tr) [] (s_dx s) (PState :: s_work s).

(** ShotContainer.h 151-160, SensitivityIntegratorCT.h 351-363 (throws on an empty cache). *)
Definition integrateCost (p : prob) (s : shot) : outcome shot :=
  if p_count p =? s_nCost s then Ok s
  else
    let s1 := integrateShot p
      (mkShot (s_nState s) (p_count p) (s_nSens s) (s_nCSens s) (s_sub s) (s_cost s) (s_sens s)
              (s_csens s) (s_cached s) (s_lin s) (s_dx s) (s_work s)) in
    match s_cached s1 with
    | None => Throw
    | Some tr =>
        Ok (mkShot (s_nState s1) (s_nCost s1) (s_nSens s1) (s_nCSens s1) (s_sub s1)
                   (Some (costOf tr)) (s_sens s1) (s_csens s1) (s_cached s1) (s_lin s1) (s_dx s1)
                   (PCost :: s_work s1))
    end.

(** SensitivityIntegratorCT.h 439-447: appends one block per cached trajectory. *)
Definition linearize (s : shot) : list Lin :=
  match s_cached s with
  | None => s_lin s
  | Some tr => s_lin s ++ [linOf tr]
  end.

(** ShotContainer.h 165-183, SensitivityIntegratorCT.h 112-141, 282-340: reads the first block of
    the linearization and the cached states, appends to the sensitivity arrays. *)
Definition integrateSensitivities (p : prob) (s : shot) : outcome shot :=
  if p_count p =? s_nSens s then Ok s
  else
    let s1 := integrateShot p
      (mkShot (s_nState s) (s_nCost s) (p_count p) (s_nCSens s) (s_sub s) (s_cost s) (s_sens s)
              (s_csens s) (s_cached s) (s_lin s) (s_dx s) (s_work s)) in
    let L := linearize s1 in
    match L, s_cached s1 with
    | l :: _, Some tr =>
        let d := sensOf l tr in
        Ok (mkShot (s_nState s1) (s_nCost s1) (s_nSens s1) (s_nCSens s1) (s_sub s1) (s_cost s1)
                   (Some d) (s_csens s1) (s_cached s1) L (s_dx s1 ++ [d])
                   (PSens :: s_work s1))
    | _, _ => UB
    end.

(** ShotContainer.h 185-202, SensitivityIntegratorCT.h 185-210: reads the cached states and the
    first block of the sensitivities. *)
Definition integrateCostSensitivities (p : prob) (s : shot) : outcome shot :=
  if p_count p =? s_nCSens s then Ok s
  else
    do s1 <- integrateSensitivities p
      (mkShot (s_nState s) (s_nCost s) (s_nSens s) (p_count p) (s_sub s) (s_cost s) (s_sens s)
              (s_csens s) (s_cached s) (s_lin s) (s_dx s) (s_work s)) ;;
    match s_dx s1, s_cached s1 with
    | d :: _, Some tr =>
        Ok (mkShot (s_nState s1) (s_nCost s1) (s_nSens s1) (s_nCSens s1) (s_sub s1) (s_cost s1)
                   (s_sens s1) (Some (csensOf tr d)) (s_cached s1) (s_lin s1) (s_dx s1)
                   (PCostSens :: s_work s1))
    | _, _ => UB
    end.

(** ShotContainer.h 204-209. *)
Definition shotReset (s : shot) : shot :=
  mkShot (s_nState s) (s_nCost s) (s_nSens s) (s_nCSens s) (s_sub s) (s_cost s) (s_sens s)
         (s_csens s) None [] [] (s_work s).

(** Nlp.h 360-370 with OptVector.h 290-294 and DmsProblem.h 177-182. *)
Definition extract (v : V) (isNew : bool) (ps : prob * shot) : prob * shot :=
  if isNew then (mkProb v (S (p_count (fst ps))) v, shotReset (snd ps)) else ps.

(** OptVectorDms-impl.h 78-83 (via DmsProblem.h 257-261): writes the decision vector only. *)
Definition changeInitial (v : V) (ps : prob * shot) : prob * shot :=
  (mkProb v (p_count (fst ps)) (p_spline (fst ps)), snd ps).
(** OptVector.h 72 *)
Definition vecReset (ps : prob * shot) : prob * shot :=
  (mkProb (p_w (fst ps)) 0 (p_spline (fst ps)), snd ps).

(** The four evaluations of the NLP solver (IpoptSolver-impl.h 222-316): constraints
    (ConstraintsContainerDms-impl.h 38-45, then ShotContainer.h 216: stateSubsteps_.back()),
    cost, Jacobian and gradient. *)
Inductive request := EvalConstraints | EvalCost | EvalJacobian | EvalGradient.
Inductive answer := AState (tr : Traj) | ACost (c : Cost) | ASens (d : Sens) | ACSens (c : CSens).
Definition served {A} (f : A -> answer) (o : option A) : outcome answer :=
  match o with Some a => Ok (f a) | None => UB end.
Definition evaluate (r : request) (ps : prob * shot) : outcome (answer * (prob * shot)) :=
  let (p, s) := ps in
  match r with
  | EvalConstraints =>
      let s' := integrateShot p s in do a <- served AState (s_sub s') ;; Ok (a, (p, s'))
  | EvalCost =>
      do s' <- integrateCost p s ;; do a <- served ACost (s_cost s') ;; Ok (a, (p, s'))
  | EvalJacobian =>
      do s' <- integrateSensitivities p s ;; do a <- served ASens (s_sens s') ;; Ok (a, (p, s'))
  | EvalGradient =>
      do s' <- integrateCostSensitivities p s ;;
      do a <- served ACSens (s_csens s') ;; Ok (a, (p, s'))
  end.
(** One callback of the NLP solver: eval_f, eval_grad_f, eval_g, eval_jac_g. *)
Definition callback (v : V) (isNew : bool) (r : request) (ps : prob * shot)
  : outcome (answer * (prob * shot)) := evaluate r (extract v isNew ps).
End Shot.
Arguments mkProb {V}. Arguments p_w {V}. Arguments p_count {V}. Arguments p_spline {V}.
Arguments newShot {Traj Cost Lin Sens CSens}.
Arguments s_work {Traj Cost Lin Sens CSens}.
Arguments AState {Traj Cost Sens CSens}. Arguments ACost {Traj Cost Sens CSens}.
Arguments ASens {Traj Cost Sens CSens}. Arguments ACSens {Traj Cost Sens CSens}.

(** ** The initial state constraint *)
Section InitState.
Variable n : nat.
(** The problem: the decision vector and x_0_ of the initial state constraint
    (InitStateConstraint.h 70; ConstraintsContainerDms-impl.h 16-19). *)
Record shooting := mkShooting { sh_w : optvec; sh_x0 : list R }.
(** DmsProblem.h 257-261 *)
Definition problemChangeInitialState (x0 : list R) (p : shooting) : outcome shooting :=
  do w <- ovChangeInitialState x0 (sh_w p) ;; Ok (mkShooting w (sh_x0 p)).
(** ConstraintsContainerDms-impl.h 58-61, InitStateConstraint.h 55; no caller in the library. *)
Definition changeInitialConstraint (x0 : list R) (p : shooting) : shooting :=
  mkShooting (sh_w p) x0.
(** Nlp.h 360-370, new decision vector. *)
Definition problemSetVars (w : list R) (p : shooting) : shooting :=
  mkShooting (setOptimizationVars w (sh_w p)) (sh_x0 p).
(** InitStateConstraint.h 56; the bounds are zero (46-47). *)
Definition initConstraint (p : shooting) : outcome (list R) :=
  do x <- getOptimizedState n (sh_w p) 0 ;;
  Ok (map (fun q => (fst q - snd q)%R) (combine x (sh_x0 p))).
End InitState.
