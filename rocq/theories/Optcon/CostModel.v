(** Model of the cost terms and cost functions of ct_optcon (exact real arithmetic).
    All files below are in ct_optcon/include/ct/optcon/costfunction.
    n is STATE_DIM, m is CONTROL_DIM; vectors and matrices are functions of their indices. *)
From Coq Require Import Reals String List Bool Arith.
From Verif Require Import Base.Outcome Base.RVec Core.ActivationModel.
Import ListNotations.
Local Open Scope R_scope.
Local Open Scope list_scope.

(** Row vector times matrix: (x' A)_j. *)
Definition rvm (n : nat) (x : rvec) (A : rmat) : rvec := fun j => rsum n (fun i => x i * A i j).

Definition mzero : rmat := fun _ _ => 0.

(** A diagonal matrix. *)
Definition diag (v : rvec) : rmat := fun i j => if Nat.eqb i j then v i else 0.

(** The term classes with their members.
    [Tracking]: the reference trajectories enter as functions of time (their evaluation is the
    subject of C01 and C02).
    [Barrier]: [barriers_] is empty until initialize() is called. *)
Inductive kind :=
| Quadratic (Q R : rmat) (x_ref u_ref : rvec)
| QuadMult (Q R : rmat) (x_ref u_ref : rvec)
| Mixed (P : rmat) (x_ref u_ref : rvec)
| Linear (a b : rvec) (c : R)
| SmoothAbs (a x_ref b u_ref : rvec) (alphaSquared : R)
| Tracking (Q W : rmat) (x_traj u_traj : R -> rvec) (trackControl : bool)
| StateBarrier (ub lb alpha : rvec) (barriers : list barrier).

(** ct_core common/activations: isActive and computeActivation of a time activation. *)
Record activation := mkAct { isActive : R -> bool; computeActivation : R -> R }.

(** ActivationBase.hpp 35-37: always active, value 1. *)
Definition defaultActivation : activation := mkAct (fun _ => true) (fun _ => 1).

(** term/TermBase.hpp: name_ and c_i_, and the members of the derived class. *)
Record term := mkTerm { t_name : string; t_act : activation; t_kind : kind }.

Section Terms.
Variables n m : nat.

(** ** Constructors *)

(** term/TermBase-impl.hpp 13-18 (the default name, TermBase.hpp 50, is "Unnamed"). *)
Definition newTerm (k : kind) : term := mkTerm "Unnamed" defaultActivation k.

(** term/TermSmoothAbs-impl.hpp 12-20. *)
Definition newSmoothAbs (a x_ref b u_ref : rvec) (alpha : R) : term :=
  newTerm (SmoothAbs a x_ref b u_ref (alpha * alpha)).

(** term/TermStateBarrier-impl.hpp 12-17: initialize() is not called. *)
Definition newStateBarrier (ub lb alpha : rvec) : term := newTerm (StateBarrier ub lb alpha []).

(** term/TermStateBarrier-impl.hpp 45-52, initialize. *)
Definition initBarriers (ub lb alpha : rvec) : list barrier :=
  map (fun i => barrier_new (ub i) (lb i) (alpha i)) (seq 0 n).

(** ** Evaluation *)

(** The loop of term/TermStateBarrier-impl.hpp 55-64: unchecked access to barriers_. *)
Fixpoint barrierLoop (bs : list barrier) (x : rvec) (i k : nat) (c : R) : outcome R :=
  match k with
  | O => Ok c
  | S k' => do b <- vec_get bs i ;; barrierLoop bs x (S i) k' (c + barrier_compute b (x i))
  end.

(** evalLocal: term/TermQuadratic.hpp 117-128, TermQuadMult.hpp 101-112, TermMixed.hpp 99-109,
    TermLinear.hpp 88-97, TermSmoothAbs.hpp 95-110, TermQuadTracking.hpp 95-112;
    TermStateBarrier-impl.hpp 55-64. *)
Definition evaluate (k : kind) (x u : rvec) (t : R) : outcome R :=
  match k with
  | Quadratic Q R xr ur =>
      let xDiff := rsubv x xr in let uDiff := rsubv u ur in
      Ok (rquad n Q xDiff xDiff + rquad m R uDiff uDiff)
  | QuadMult Q R xr ur =>
      let xDiff := rsubv x xr in let uDiff := rsubv u ur in
      Ok (rquad n Q xDiff xDiff * rquad m R uDiff uDiff)
  | Mixed P xr ur =>
      let xDiff := rsubv x xr in let uDiff := rsubv u ur in
      Ok (rdot m uDiff (rmv n P xDiff))
  | Linear a b c => Ok (rdot n a x + rdot m b u + c)
  | SmoothAbs a xr b ur al =>
      Ok (rdot n a (fun i => sqrt ((x i - xr i) * (x i - xr i) + al)) +
          rdot m b (fun i => sqrt ((u i - ur i) * (u i - ur i) + al)))
  | Tracking Q R xt ut track =>
      let xDiff := rsubv x (xt t) in
      let uDiff := if track then rsubv u (ut t) else u in
      Ok (rquad n Q xDiff xDiff + rquad m R uDiff uDiff)
  | StateBarrier _ _ _ bs => barrierLoop bs x 0 n 0
  end.

(** stateDerivative: TermQuadratic-impl.hpp 142-150, TermQuadMult-impl.hpp 100-111,
    TermMixed-impl.hpp 88-96, TermLinear-impl.hpp 63-69, TermSmoothAbs-impl.hpp 67-77,
    TermQuadTracking-impl.hpp 87-96; TermBase-impl.hpp 64-72 (throws) for the barrier. *)
Definition stateDerivative (k : kind) (x u : rvec) (t : R) : outcome rvec :=
  match k with
  | Quadratic Q R xr ur =>
      let xDiff := rsubv x xr in Ok (radd (rvm n xDiff (rtr Q)) (rvm n xDiff Q))
  | QuadMult Q R xr ur =>
      let xDiff := rsubv x xr in let uDiff := rsubv u ur in
      let r := rquad m R uDiff uDiff in
      Ok (fun i => radd (rvm n xDiff (rtr Q)) (rvm n xDiff Q) i * r)
  | Mixed P xr ur => let uDiff := rsubv u ur in Ok (rmv m (rtr P) uDiff)
  | Linear a b c => Ok a
  | SmoothAbs a xr b ur al =>
      Ok (fun i => a i * (x i - xr i) * / sqrt ((x i - xr i) * (x i - xr i) + al))
  | Tracking Q R xt ut track =>
      let xDiff := rsubv x (xt t) in Ok (radd (rvm n xDiff (rtr Q)) (rvm n xDiff Q))
  | StateBarrier _ _ _ _ => Throw
  end.

(** stateSecondDerivative: TermQuadratic-impl.hpp 154-160, TermQuadMult-impl.hpp 115-125,
    TermMixed-impl.hpp 100-106, TermLinear-impl.hpp 73-79, TermSmoothAbs-impl.hpp 81-92,
    TermQuadTracking-impl.hpp 100-106; TermBase-impl.hpp (throws) for the barrier. *)
Definition stateSecondDerivative (k : kind) (x u : rvec) (t : R) : outcome rmat :=
  match k with
  | Quadratic Q R xr ur => Ok (raddm Q (rtr Q))
  | QuadMult Q R xr ur =>
      let uDiff := rsubv u ur in let r := rquad m R uDiff uDiff in
      Ok (fun i j => raddm Q (rtr Q) i j * r)
  | Mixed P xr ur => Ok mzero
  | Linear a b c => Ok mzero
  | SmoothAbs a xr b ur al =>
      Ok (diag (fun i => a i * al * Rpower (al + (x i - xr i) * (x i - xr i)) (- 3 / 2)))
  | Tracking Q R xt ut track => Ok (raddm Q (rtr Q))
  | StateBarrier _ _ _ _ => Throw
  end.

(** controlDerivative: TermQuadratic-impl.hpp 164-172, TermQuadMult-impl.hpp 129-140,
    TermMixed-impl.hpp 109-117, TermLinear-impl.hpp 83-89, TermSmoothAbs-impl.hpp 96-106,
    TermQuadTracking-impl.hpp 110-123; TermBase-impl.hpp (throws) for the barrier. *)
Definition controlDerivative (k : kind) (x u : rvec) (t : R) : outcome rvec :=
  match k with
  | Quadratic Q R xr ur =>
      let uDiff := rsubv u ur in Ok (radd (rvm m uDiff (rtr R)) (rvm m uDiff R))
  | QuadMult Q R xr ur =>
      let xDiff := rsubv x xr in let uDiff := rsubv u ur in
      let q := rquad n Q xDiff xDiff in
      Ok (fun i => radd (rvm m uDiff (rtr R)) (rvm m uDiff R) i * q)
  | Mixed P xr ur => let xDiff := rsubv x xr in Ok (rmv n P xDiff)
  | Linear a b c => Ok b
  | SmoothAbs a xr b ur al =>
      Ok (fun i => b i * (u i - ur i) * / sqrt ((u i - ur i) * (u i - ur i) + al))
  | Tracking Q R xt ut track =>
      let uDiff := if track then rsubv u (ut t) else u in
      Ok (radd (rvm m uDiff (rtr R)) (rvm m uDiff R))
  | StateBarrier _ _ _ _ => Throw
  end.

(** controlSecondDerivative: TermQuadratic-impl.hpp 176-182, TermQuadMult-impl.hpp 144-154,
    TermMixed-impl.hpp 121-127, TermLinear-impl.hpp 93-99, TermSmoothAbs-impl.hpp 110-121,
    TermQuadTracking-impl.hpp 127-133; TermBase-impl.hpp (throws) for the barrier. *)
Definition controlSecondDerivative (k : kind) (x u : rvec) (t : R) : outcome rmat :=
  match k with
  | Quadratic Q R xr ur => Ok (raddm R (rtr R))
  | QuadMult Q R xr ur =>
      let xDiff := rsubv x xr in let q := rquad n Q xDiff xDiff in
      Ok (fun i j => raddm R (rtr R) i j * q)
  | Mixed P xr ur => Ok mzero
  | Linear a b c => Ok mzero
  | SmoothAbs a xr b ur al =>
      Ok (diag (fun i => b i * al * Rpower (al + (u i - ur i) * (u i - ur i)) (- 3 / 2)))
  | Tracking Q R xt ut track => Ok (raddm R (rtr R))
  | StateBarrier _ _ _ _ => Throw
  end.

(** stateControlDerivative (m rows, n columns): TermQuadratic-impl.hpp 186-192,
    TermQuadMult-impl.hpp 158-168, TermMixed-impl.hpp 131-137, TermLinear-impl.hpp 103-109,
    TermSmoothAbs-impl.hpp 125-131, TermQuadTracking-impl.hpp 137-143; TermBase-impl.hpp
    (throws) for the barrier. *)
Definition stateControlDerivative (k : kind) (x u : rvec) (t : R) : outcome rmat :=
  match k with
  | Quadratic Q R xr ur => Ok mzero
  | QuadMult Q R xr ur =>
      let xDiff := rsubv x xr in let uDiff := rsubv u ur in
      Ok (fun i j => radd (rvm m uDiff (rtr R)) (rvm m uDiff R) i *
                     radd (rvm n xDiff (rtr Q)) (rvm n xDiff Q) j)
  | Mixed P xr ur => Ok P
  | Linear a b c => Ok mzero
  | SmoothAbs a xr b ur al => Ok mzero
  | Tracking Q R xt ut track => Ok mzero
  | StateBarrier _ _ _ _ => Throw
  end.

(** term/TermBase-impl.hpp 32-38, eval. *)
Definition eval (tm : term) (x u : rvec) (t : R) : outcome R :=
  do v <- evaluate (t_kind tm) x u t ;; Ok (computeActivation (t_act tm) t * v).

(** ** Modifiers and copies of terms *)

(** updateReferenceState: TermQuadratic-impl.hpp 223-227, TermMixed-impl.hpp 165-169;
    TermBase-impl.hpp 195-198 (nothing) for all others. *)
Definition updateReferenceState (xr : rvec) (k : kind) : kind :=
  match k with
  | Quadratic Q R _ ur => Quadratic Q R xr ur
  | Mixed P _ ur => Mixed P xr ur
  | _ => k
  end.

(** updateReferenceControl: TermQuadratic-impl.hpp 230-234; TermBase-impl.hpp 201-204. *)
Definition updateReferenceControl (ur : rvec) (k : kind) : kind :=
  match k with
  | Quadratic Q R xr _ => Quadratic Q R xr ur
  | _ => k
  end.

(** clone: the copy constructors TermQuadratic-impl.hpp 47-55, TermQuadMult-impl.hpp 40-47,
    TermMixed-impl.hpp 35-39, TermLinear-impl.hpp 20-23, TermSmoothAbs-impl.hpp 23-31,
    TermQuadTracking-impl.hpp 35-44 copy the base (TermBase-impl.hpp 21) and all members;
    TermStateBarrier-impl.hpp 26-30 default-constructs the base and calls initialize(). *)
Definition cloneTerm (tm : term) : term :=
  match t_kind tm with
  | StateBarrier ub lb alpha _ => newTerm (StateBarrier ub lb alpha (initBarriers ub lb alpha))
  | Quadratic Q R xr ur => mkTerm (t_name tm) (t_act tm) (Quadratic Q R xr ur)
  | QuadMult Q R xr ur => mkTerm (t_name tm) (t_act tm) (QuadMult Q R xr ur)
  | Mixed P xr ur => mkTerm (t_name tm) (t_act tm) (Mixed P xr ur)
  | Linear a b c => mkTerm (t_name tm) (t_act tm) (Linear a b c)
  | SmoothAbs a xr b ur al => mkTerm (t_name tm) (t_act tm) (SmoothAbs a xr b ur al)
  | Tracking Q R xt ut track => mkTerm (t_name tm) (t_act tm) (Tracking Q R xt ut track)
  end.

(** ** Cost functions made of terms *)

(** The term objects: a cost function holds shared pointers, modelled as positions in a list of
    all term objects. *)
Definition heap := list term.

(** CostFunction.hpp members x_, u_, t_, t_shift_; CostFunctionQuadratic.hpp members
    intermediateCostAnalytical_ and finalCostAnalytical_. *)
Record costfun := mkCf {
  cf_x : rvec; cf_u : rvec; cf_t : R; cf_shift : R; cf_inter : list nat; cf_final : list nat }.

(** CostFunction-impl.hpp 12-16, CostFunctionAnalytical-impl.hpp 12-14. *)
Definition newCost : costfun := mkCf rzero rzero 0 0 [] [].

(** CostFunction-impl.hpp 30-37. *)
Definition setCurrent (x u : rvec) (t : R) (c : costfun) : costfun :=
  mkCf x u (t + cf_shift c) (cf_shift c) (cf_inter c) (cf_final c).

(** CostFunction-impl.hpp 50-53. *)
Definition shiftTime (s : R) (c : costfun) : costfun :=
  mkCf (cf_x c) (cf_u c) (cf_t c) s (cf_inter c) (cf_final c).

(** CostFunctionQuadratic-impl.hpp 279-291, 294-306. *)
Definition addIntermediateTerm (p : nat) (c : costfun) : costfun :=
  mkCf (cf_x c) (cf_u c) (cf_t c) (cf_shift c) (cf_inter c ++ [p]) (cf_final c).
Definition addFinalTerm (p : nat) (c : costfun) : costfun :=
  mkCf (cf_x c) (cf_u c) (cf_t c) (cf_shift c) (cf_inter c) (cf_final c ++ [p]).

(** The loops over the terms.  [w] is the contribution of one term; a dangling position cannot
    occur for shared pointers and is given as undefined. *)
Fixpoint sumTerms {A} (add : A -> A -> A) (h : heap) (w : term -> outcome A) (use : term -> bool)
  (y : A) (l : list nat) : outcome A :=
  match l with
  | [] => Ok y
  | p :: r =>
      do tm <- vec_get h p ;;
      if use tm then do v <- w tm ;; sumTerms add h w use (add y v) r
      else sumTerms add h w use y r
  end.

Definition scaleV (c : R) (v : rvec) : rvec := fun i => c * v i.
Definition scaleM (c : R) (A : rmat) : rmat := fun i j => c * A i j.
Definition active (c : costfun) (tm : term) : bool := isActive (t_act tm) (cf_t c).
Definition weight (c : costfun) (tm : term) : R := computeActivation (t_act tm) (cf_t c).

(** CostFunctionQuadratic-impl.hpp 310-324, evaluateIntermediateBase
    (CostFunctionAnalytical-impl.hpp 95-98 forwards to it, as all functions below). *)
Definition evaluateIntermediate (h : heap) (c : costfun) : outcome R :=
  sumTerms Rplus h
    (fun tm => do v <- eval tm (cf_x c) (cf_u c) (cf_t c) ;; Ok (weight c tm * v))
    (active c) 0 (cf_inter c).

(** CostFunctionQuadratic-impl.hpp 328-336, evaluateTerminalBase. *)
Definition evaluateTerminal (h : heap) (c : costfun) : outcome R :=
  sumTerms Rplus h (fun tm => evaluate (t_kind tm) (cf_x c) (cf_u c) (cf_t c))
    (fun _ => true) 0 (cf_final c).

Definition sumIntermediateV (D : kind -> rvec -> rvec -> R -> outcome rvec) (h : heap)
  (c : costfun) : outcome rvec :=
  sumTerms radd h
    (fun tm => do v <- D (t_kind tm) (cf_x c) (cf_u c) (cf_t c) ;; Ok (scaleV (weight c tm) v))
    (active c) rzero (cf_inter c).
Definition sumIntermediateM (D : kind -> rvec -> rvec -> R -> outcome rmat) (h : heap)
  (c : costfun) : outcome rmat :=
  sumTerms raddm h
    (fun tm => do v <- D (t_kind tm) (cf_x c) (cf_u c) (cf_t c) ;; Ok (scaleM (weight c tm) v))
    (active c) mzero (cf_inter c).
Definition sumTerminalV (D : kind -> rvec -> rvec -> R -> outcome rvec) (h : heap)
  (c : costfun) : outcome rvec :=
  sumTerms radd h (fun tm => D (t_kind tm) (cf_x c) (cf_u c) (cf_t c))
    (fun _ => true) rzero (cf_final c).
Definition sumTerminalM (D : kind -> rvec -> rvec -> R -> outcome rmat) (h : heap)
  (c : costfun) : outcome rmat :=
  sumTerms raddm h (fun tm => D (t_kind tm) (cf_x c) (cf_u c) (cf_t c))
    (fun _ => true) mzero (cf_final c).

(** CostFunctionQuadratic-impl.hpp 341-356, 374-389, 407-422, 440-455, 473-488. *)
Definition stateDerivativeIntermediate := sumIntermediateV stateDerivative.
Definition stateSecondDerivativeIntermediate := sumIntermediateM stateSecondDerivative.
Definition controlDerivativeIntermediate := sumIntermediateV controlDerivative.
Definition controlSecondDerivativeIntermediate := sumIntermediateM controlSecondDerivative.
Definition stateControlDerivativeIntermediate := sumIntermediateM stateControlDerivative.
(** CostFunctionQuadratic-impl.hpp 361-370, 393-402, 426-435, 459-468, 492-501. *)
Definition stateDerivativeTerminal := sumTerminalV stateDerivative.
Definition stateSecondDerivativeTerminal := sumTerminalM stateSecondDerivative.
Definition controlDerivativeTerminal := sumTerminalV controlDerivative.
Definition controlSecondDerivativeTerminal := sumTerminalM controlSecondDerivative.
Definition stateControlDerivativeTerminal := sumTerminalM stateControlDerivative.

(** Apply a modification to one term object. *)
Fixpoint updHeap (f : term -> term) (p : nat) (h : heap) : heap :=
  match h, p with
  | [], _ => []
  | tm :: r, O => f tm :: r
  | tm :: r, S q => tm :: updHeap f q r
  end.

Definition onKind (f : kind -> kind) (tm : term) : term :=
  mkTerm (t_name tm) (t_act tm) (f (t_kind tm)).

(** CostFunctionQuadratic-impl.hpp 91-95, 98-102, 105-109. *)
Definition cfUpdateReferenceState (xr : rvec) (c : costfun) (h : heap) : heap :=
  fold_left (fun h p => updHeap (onKind (updateReferenceState xr)) p h) (cf_inter c) h.
Definition cfUpdateFinalState (xf : rvec) (c : costfun) (h : heap) : heap :=
  fold_left (fun h p => updHeap (onKind (updateReferenceState xf)) p h) (cf_final c) h.
Definition cfUpdateReferenceControl (ur : rvec) (c : costfun) (h : heap) : heap :=
  fold_left (fun h p => updHeap (onKind (updateReferenceControl ur)) p h) (cf_inter c) h.

(** The loop CostFunctionQuadratic-impl.hpp 26-30 (and 32-36): new term objects are appended to
    the heap. *)
Fixpoint cloneTerms (l : list nat) (h : heap) : outcome (list nat * heap) :=
  match l with
  | [] => Ok ([], h)
  | p :: r =>
      do tm <- vec_get h p ;;
      do q <- cloneTerms r (h ++ [cloneTerm tm]) ;;
      Ok (length h :: fst q, snd q)
  end.

(** CostFunctionAnalytical-impl.hpp 17-20, 30-34 and CostFunctionQuadratic-impl.hpp 18-37,
    CostFunction-impl.hpp 24-27: clone. *)
Definition cloneCost (c : costfun) (h : heap) : outcome (costfun * heap) :=
  do q <- cloneTerms (cf_inter c) h ;;
  do q' <- cloneTerms (cf_final c) (snd q) ;;
  Ok (mkCf (cf_x c) (cf_u c) (cf_t c) (cf_shift c) (fst q) (fst q'), snd q').

(** ** CostFunctionAD *)

(** CostFunctionAD.hpp: the AD terms, and the compiled functions, which are a snapshot of the
    terms at the last initialize() (None: not compiled, evaluation throws). *)
Record adcost := mkAd {
  ad_base : costfun; ad_inter : list term; ad_final : list term;
  ad_compiled : option (list term * list term) }.

(** CostFunctionAD-impl.hpp 97-107. *)
Definition addIntermediateADTerm (tm : term) (c : adcost) : adcost :=
  mkAd (ad_base c) (ad_inter c ++ [tm]) (ad_final c) (ad_compiled c).

(** CostFunctionAD-impl.hpp 73-94. *)
Definition adInitialize (c : adcost) : adcost :=
  mkAd (ad_base c) (ad_inter c) (ad_final c) (Some (ad_inter c, ad_final c)).

(** CostFunctionAD-impl.hpp 124-133: no time shift. *)
Definition adSetCurrent (x u : rvec) (t : R) (c : adcost) : adcost :=
  let b := ad_base c in
  mkAd (mkCf x u t (cf_shift b) (cf_inter b) (cf_final b)) (ad_inter c) (ad_final c)
       (ad_compiled c).

Fixpoint sumAd (l : list term) (x u : rvec) (t : R) (y : R) : outcome R :=
  match l with
  | [] => Ok y
  | tm :: r => do v <- evaluate (t_kind tm) x u t ;; sumAd r x u t (y + v)
  end.

(** CostFunctionAD-impl.hpp 185-197, 216-219: evaluateIntermediate. *)
Definition adEvaluateIntermediate (h : heap) (c : adcost) : outcome R :=
  let b := ad_base c in
  do y <- evaluateIntermediate h b ;;
  match ad_compiled c with
  | None => Throw
  | Some (ti, _) => do z <- sumAd ti (cf_x b) (cf_u b) (cf_t b) 0 ;; Ok (y + z)
  end.
End Terms.

(** ** CostFunctionQuadraticSimple *)

(** CostFunctionQuadraticSimple.hpp members, and x_, u_, t_ of the base. *)
Record simple := mkSimple {
  s_x : rvec; s_u : rvec; s_t : R;
  s_xdev : rvec; s_xnom : rvec; s_Q : rmat; s_udev : rvec; s_unom : rvec; s_R : rmat;
  s_xfin : rvec; s_Qfin : rmat }.

Section Simple.
Variables n m : nat.

(** CostFunctionQuadraticSimple-impl.hpp 25-35. *)
Definition newSimple (Q R : rmat) (xnom unom xfin : rvec) (Qfin : rmat) : simple :=
  mkSimple rzero rzero 0 rzero xnom Q rzero unom R xfin Qfin.

(** l.65-75, setCurrentStateAndControl. *)
Definition simpleSet (x u : rvec) (t : R) (s : simple) : simple :=
  mkSimple x u t (rsubv x (s_xnom s)) (s_xnom s) (s_Q s) (rsubv u (s_unom s)) (s_unom s) (s_R s)
           (s_xfin s) (s_Qfin s).

(** l.143-146, l.149-152. *)
Definition simpleUpdateReferenceState (xr : rvec) (s : simple) : simple :=
  mkSimple (s_x s) (s_u s) (s_t s) (s_xdev s) xr (s_Q s) (s_udev s) (s_unom s) (s_R s)
           (s_xfin s) (s_Qfin s).
Definition simpleUpdateFinalState (xf : rvec) (s : simple) : simple :=
  mkSimple (s_x s) (s_u s) (s_t s) (s_xdev s) (s_xnom s) (s_Q s) (s_udev s) (s_unom s) (s_R s)
           xf (s_Qfin s).

(** l.43-54, 58-62: clone; the base is default constructed. *)
Definition simpleClone (s : simple) : simple :=
  mkSimple rzero rzero 0 (s_xdev s) (s_xnom s) (s_Q s) (s_udev s) (s_unom s) (s_R s)
           (s_xfin s) (s_Qfin s).

(** l.78-83, evaluateIntermediate. *)
Definition simpleIntermediate (s : simple) : R :=
  / 2 * rquad n (s_Q s) (s_xdev s) (s_xdev s) + / 2 * rquad m (s_R s) (s_udev s) (s_udev s).
(** l.86-90, 93-97, 100-104, 107-111, 114-118. *)
Definition simpleStateDerivative (s : simple) : rvec := rmv n (s_Q s) (s_xdev s).
Definition simpleStateSecond (s : simple) : rmat := s_Q s.
Definition simpleControlDerivative (s : simple) : rvec := rmv m (s_R s) (s_udev s).
Definition simpleControlSecond (s : simple) : rmat := s_R s.
Definition simpleStateControl (s : simple) : rmat := mzero.
(** l.121-125, 128-133, 136-140. *)
Definition simpleTerminal (s : simple) : R :=
  let d := rsubv (s_x s) (s_xfin s) in / 2 * rquad n (s_Qfin s) d d.
Definition simpleStateDerivativeTerminal (s : simple) : rvec :=
  let d := rsubv (s_x s) (s_xfin s) in rmv n (s_Qfin s) d.
Definition simpleStateSecondTerminal (s : simple) : rmat := s_Qfin s.
End Simple.
