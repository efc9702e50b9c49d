(** Model of the constraint part of the LQ sub-problem: LQOCProblem (problem/LQOCProblem.hpp and
    -impl.hpp) and the functions of NLOCBackendBase (nloc/NLOCBackendBase-impl.hpp) that fill it
    from the constraint containers.
    Real numbers; vectors of fixed length dim as lists of that length.  Indices, stage numbers and
    numbers of constraints that the code passes as int are nat (a negative number of constraints
    always throws, a negative stage index is not considered); the entries of a sparsity vector
    are Z. *)
From Coq Require Import Reals List Bool Arith ZArith.
From Verif Require Import Base.Outcome Base.RVec Optcon.DmsModel Optcon.ConstraintModel.
Import ListNotations.
Local Open Scope R_scope.

(** ** The box constraint storage of one kind (states or inputs) *)

(** nbx_/nbu_, x_I_/u_I_, x_lb_/u_lb_, x_ub_/u_ub_, LQOCProblem.hpp 180-215. *)
Record boxes := mkBoxes {
  bx_n : list nat; bx_I : list (list Z); bx_lb : list (list R); bx_ub : list (list R) }.

(** std::vector::resize / DiscreteArray::resize with default-constructed new elements. *)
Definition resize {A} (d : A) (N : nat) (l : list A) : list A :=
  firstn N l ++ repeat d (N - length l).
(** changeNumStages, LQOCProblem-impl.hpp 73-81.  A default-constructed fixed-size vector has
    unspecified entries: zero here, they are never read before they are written. *)
Definition resizeBoxes (dim N : nat) (b : boxes) : boxes :=
  mkBoxes (resize 0%nat N (bx_n b)) (resize (repeat 0%Z dim) N (bx_I b))
          (resize (repeat 0 dim) N (bx_lb b)) (resize (repeat 0 dim) N (bx_ub b)).
Definition noBoxes : boxes := mkBoxes [] [] [] [].
(** setZero, 104-106. *)
Definition clearBoxes (b : boxes) : boxes :=
  mkBoxes (repeat 0%nat (length (bx_n b))) (bx_I b) (bx_lb b) (bx_ub b).

(** Reading entry j (an int) of a vector of length dim. *)
Definition readAt (dim : nat) (v : rvec) (j : Z) : outcome R :=
  if ((0 <=? j) && (j <? Z.of_nat dim))%Z then Ok (v (Z.to_nat j)) else UB.

(** The loop 152-157 (196-201, 238-243) over i = i0, i0+1, ... ([k] iterations). *)
Fixpoint assignBounds (dim : nat) (lb ub : list R) (sp : list Z) (nom : rvec)
  (k i : nat) (Iv : list Z) (L U : list R) : outcome (list Z * list R * list R) :=
  match k with
  | O => Ok (Iv, L, U)
  | S k' =>
      do s <- vec_get sp i ;;
      do I' <- vec_set Iv i s ;;
      do l <- vec_get lb i ;;
      do xs <- readAt dim nom s ;;
      do L' <- vec_set L i (l - xs) ;;
      do u <- vec_get ub i ;;
      do U' <- vec_set U i (u - xs) ;;
      assignBounds dim lb ub sp nom k' (S i) I' L' U'
  end.

(** The test 136-137 (180-181, 225-226): true means "error in constraint config".  The last entry
    of an empty sparsity vector is read out of bounds. *)
Definition badConfig (dim nConstr : nat) (lb ub : list R) (sp : list Z) : outcome bool :=
  if negb (length lb =? length ub)%nat || negb (length lb =? nConstr)%nat
     || negb (length sp =? nConstr)%nat then Ok true
  else do s <- vec_back sp ;; Ok (Z.of_nat dim - 1 <? s)%Z.

(** Writing the constraints of stage [index]: 149-157. *)
Definition storeBox (dim nConstr : nat) (lb ub : list R) (sp : list Z) (nom : rvec) (index : nat)
  (b : boxes) : outcome boxes :=
  do n' <- vec_set (bx_n b) index nConstr ;;
  do Iv <- vec_get (bx_I b) index ;;
  do L <- vec_get (bx_lb b) index ;;
  do U <- vec_get (bx_ub b) index ;;
  do r <- assignBounds dim lb ub sp nom nConstr 0 Iv L U ;;
  let '(I', L', U') := r in
  do Is <- vec_set (bx_I b) index I' ;;
  do Ls <- vec_set (bx_lb b) index L' ;;
  do Us <- vec_set (bx_ub b) index U' ;;
  Ok (mkBoxes n' Is Ls Us).

(** setInputBoxConstraint 128-158 and setIntermediateStateBoxConstraint 172-202 ([K] stages). *)
Definition setBox (dim K : nat) (index nConstr : nat) (lb ub : list R) (sp : list Z) (nom : rvec)
  (b : boxes) : outcome boxes :=
  do bad <- badConfig dim nConstr lb ub sp ;;
  if bad then Throw
  else if (K <=? index)%nat then Throw
  else storeBox dim nConstr lb ub sp nom index b.
(** setInputBoxConstraints 160-169, setIntermediateStateBoxConstraints 204-213: the loop
    i = i0 ... K-1. *)
Fixpoint setBoxesFrom (dim K : nat) (k i : nat) (nConstr : nat) (lb ub : list R) (sp : list Z)
  (noms : list rvec) (b : boxes) : outcome boxes :=
  match k with
  | O => Ok b
  | S k' =>
      do nom <- vec_get noms i ;;
      do b' <- setBox dim K i nConstr lb ub sp nom b ;;
      setBoxesFrom dim K k' (S i) nConstr lb ub sp noms b'
  end.
Definition setBoxes (dim K nConstr : nat) (lb ub : list R) (sp : list Z) (noms : list rvec)
  (b : boxes) : outcome boxes := setBoxesFrom dim K K 0 nConstr lb ub sp noms b.
(** setTerminalBoxConstraints 216-245. *)
Definition setTerminalBox (dim K nConstr : nat) (lb ub : list R) (sp : list Z) (nom : rvec)
  (b : boxes) : outcome boxes :=
  if (0 <? nConstr)%nat then
    do bad <- badConfig dim nConstr lb ub sp ;;
    if bad then Throw else storeBox dim nConstr lb ub sp nom K b
  else Ok b.

(** ** The problem *)

Section Problem.
Variables n m : nat.   (* STATE_DIM, CONTROL_DIM *)

(** ng_, C_, D_, d_lb_, d_ub_ of one stage. *)
Record genStage := mkGen {
  g_n : nat; g_C : list rvec; g_D : list rvec; g_dlb : list R; g_dub : list R }.
Definition emptyGen : genStage := mkGen 0 [] [] [] [].
Record problem := mkProblem {
  p_K : nat; p_u : boxes; p_x : boxes; p_g : list genStage }.

(** changeNumStages 56-88 (the dynamics and cost members are not part of this model). *)
Definition changeNumStages (N : nat) (p : problem) : problem :=
  mkProblem N (resizeBoxes m N (p_u p)) (resizeBoxes n (S N) (p_x p))
            (resize emptyGen (S N) (p_g p)).
(** Constructor 12-16. *)
Definition newProblem (N : nat) : problem := changeNumStages N (mkProblem 0 noBoxes noBoxes []).
(** setZero 91-125. *)
Definition setZero (nGen : nat) (p : problem) : problem :=
  mkProblem (p_K p) (clearBoxes (p_u p)) (clearBoxes (p_x p))
    (repeat (mkGen nGen (repeat rzero nGen) (repeat rzero nGen) (repeat 0 nGen) (repeat 0 nGen))
       (length (p_g p))).

Definition setInputBoxConstraint (index nConstr : nat) lb ub sp nom (p : problem) : outcome problem :=
  do b <- setBox m (p_K p) index nConstr lb ub sp nom (p_u p) ;;
  Ok (mkProblem (p_K p) b (p_x p) (p_g p)).
Definition setInputBoxConstraints (nConstr : nat) lb ub sp noms (p : problem) : outcome problem :=
  do b <- setBoxes m (p_K p) nConstr lb ub sp noms (p_u p) ;;
  Ok (mkProblem (p_K p) b (p_x p) (p_g p)).
Definition setIntermediateStateBoxConstraint (index nConstr : nat) lb ub sp nom (p : problem)
  : outcome problem :=
  do b <- setBox n (p_K p) index nConstr lb ub sp nom (p_x p) ;;
  Ok (mkProblem (p_K p) (p_u p) b (p_g p)).
Definition setIntermediateStateBoxConstraints (nConstr : nat) lb ub sp noms (p : problem)
  : outcome problem :=
  do b <- setBoxes n (p_K p) nConstr lb ub sp noms (p_x p) ;;
  Ok (mkProblem (p_K p) (p_u p) b (p_g p)).
Definition setTerminalBoxConstraints (nConstr : nat) lb ub sp nom (p : problem) : outcome problem :=
  do b <- setTerminalBox n (p_K p) nConstr lb ub sp nom (p_x p) ;;
  Ok (mkProblem (p_K p) (p_u p) b (p_g p)).
(** setGeneralConstraints 247-267. *)
Definition setGeneralConstraints (dlb dub : list R) (C D : list rvec) (p : problem) : outcome problem :=
  if negb (length dlb =? length dub)%nat || negb (length C =? length D)%nat
     || negb (length dlb =? length C)%nat then Throw
  else Ok (mkProblem (p_K p) (p_u p) (p_x p)
             (repeat (mkGen (length dlb) C D dlb dub) (length (p_g p)))).

(** ** Filling it from the constraint containers, NLOCBackendBase-impl.hpp *)

(** setInputBoxConstraintsForLQOCProblem 726-749; the container of thread nThreads. *)
Definition setInputBoxes (con : option container) (u_ff : list rvec) (p : problem) : outcome problem :=
  match con with
  | None => Ok p
  | Some c =>
      let nb := total (nnzInput m) (c_inter c) in
      if (0 <? nb)%nat then
        do pat <- stagePatternInput n m (c_inter c) ;;
        setInputBoxConstraints nb (s_lb (c_inter c)) (s_ub (c_inter c)) (map Z.of_nat (snd pat)) u_ff p
      else Ok p
  end.
(** setStateBoxConstraintsForLQOCProblem 751-787. *)
Definition setStateBoxes (con : option container) (x : list rvec) (p : problem) : outcome problem :=
  match con with
  | None => Ok p
  | Some c =>
      let nb := total (nnzState n) (c_inter c) in
      do p1 <- (if (0 <? nb)%nat then
                  do pat <- stagePatternState n (c_inter c) ;;
                  setIntermediateStateBoxConstraints nb (s_lb (c_inter c)) (s_ub (c_inter c))
                    (map Z.of_nat (snd pat)) x p
                else Ok p) ;;
      let nt := total (nnzState n) (c_term c) in
      if (0 <? nt)%nat then
        do pat <- stagePatternState n (c_term c) ;;
        do xN <- vec_back x ;;
        setTerminalBoxConstraints nt (s_lb (c_term c)) (s_ub (c_term c))
          (map Z.of_nat (snd pat)) xN p1
      else Ok p1
  end.

(** Eigen vector subtraction: the sizes must agree. *)
Definition subtract (a b : list R) : outcome (list R) := zipR Rminus a b.

(** computeLinearizedConstraints 789-816 for stage k. *)
Definition linearizeStage (dt : R) (x u_ff : list rvec) (k : nat) (s : container * problem)
  : outcome (container * problem) :=
  let (c, p) := s in
  do xk <- vec_get x k ;;
  do uk <- vec_get u_ff k ;;
  let c := setCurrent xk uk (dt * INR k) c in
  let ng := total (size n) (c_inter c) in
  do old <- vec_get (p_g p) k ;;
  do g <- (if (0 <? ng)%nat then
             do C <- jacobianStateIntermediate n c ;;
             do D <- jacobianInputIntermediate n c ;;
             do e <- evaluateIntermediate n m c ;;
             do l <- subtract (s_lb (c_inter c)) e ;;
             do u <- subtract (s_ub (c_inter c)) e ;;
             Ok (mkGen ng C D l u)
           else Ok (mkGen ng (g_C old) (g_D old) (g_dlb old) (g_dub old))) ;;
  do gs <- vec_set (p_g p) k g ;;
  Ok (c, mkProblem (p_K p) (p_u p) (p_x p) gs).

(** initializeCostToGo 831-846: the terminal constraints, evaluated at whatever point the
    container was last set to. *)
Definition linearizeTerminal (s : container * problem) : outcome (container * problem) :=
  let (c, p) := s in
  let ng := total (size n) (c_term c) in
  do old <- vec_get (p_g p) (p_K p) ;;
  do g <- (if (0 <? ng)%nat then
             do C <- jacobianStateTerminal n c ;;
             do D <- jacobianInputTerminal n c ;;
             do e <- evaluateTerminal n m c ;;
             do l <- subtract (s_lb (c_term c)) e ;;
             do u <- subtract (s_ub (c_term c)) e ;;
             Ok (mkGen ng C D l u)
           else Ok (mkGen ng (g_C old) (g_D old) (g_dlb old) (g_dub old))) ;;
  do gs <- vec_set (p_g p) (p_K p) g ;;
  Ok (c, mkProblem (p_K p) (p_u p) (p_x p) gs).

(** The stage loop of NLOCBackendST::computeLQApproximation, NLOCBackendST-impl.hpp 38-52
    ([cnt] stages from [k]); the constraint part only.  The multi-threaded backend does the same
    stages, each with the container copy of one thread. *)
Fixpoint linearizeFrom (dt : R) (x u_ff : list rvec) (cnt k : nat) (s : container * problem)
  : outcome (container * problem) :=
  match cnt with
  | O => Ok s
  | S cnt' => do s' <- linearizeStage dt x u_ff k s ;; linearizeFrom dt x u_ff cnt' (S k) s'
  end.
Definition computeLQApproximation (dt : R) (x u_ff : list rvec) (first last : nat)
  (s : container * problem) : outcome (container * problem) :=
  do s' <- (if (last =? p_K (snd s) - 1)%nat then linearizeTerminal s else Ok s) ;;
  linearizeFrom dt x u_ff (S last - first) first s'.

(** changeGeneralConstraints 321-361 (iteration 0 or no line search: no error evaluation); the
    container is a fresh copy of the user's. *)
Fixpoint prepareFrom (dt : R) (x u_ff : list rvec) (cnt k : nat) (s : container * problem)
  : outcome (container * problem) :=
  match cnt with
  | O => Ok s
  | S cnt' =>
      let (c, p) := s in
      do xk <- vec_get x k ;;
      do uk <- vec_get u_ff k ;;
      let c := setCurrent xk uk (INR k * dt) c in
      let ng := total (size n) (c_inter c) in
      do gs <- vec_set (p_g p) k
        (mkGen ng (repeat rzero ng) (repeat rzero ng) (repeat 0 ng) (repeat 0 ng)) ;;
      prepareFrom dt x u_ff cnt' (S k) (c, mkProblem (p_K p) (p_u p) (p_x p) gs)
  end.
Definition changeGeneralConstraints (dt : R) (x u_ff : list rvec) (con : container) (p : problem)
  : outcome (container * problem) :=
  do s <- prepareFrom dt x u_ff (p_K p) 0 (con, p) ;;
  let (c, p') := s in
  let ng := total (size n) (c_term c) in
  do gs <- vec_set (p_g p') (p_K p')
    (mkGen ng (repeat rzero ng) (repeat rzero ng) (repeat 0 ng) (repeat 0 ng)) ;;
  Ok (c, mkProblem (p_K p') (p_u p') (p_x p') gs).

(** ** Constraint error of a trajectory, 595-682 *)

Definition l1norm (v : list R) : R := fold_right (fun a s => Rabs a + s) 0 v.
(** One container at stage k: 607-616 (617-626, 657-666). *)
Definition stageError (dt : R) (x u : list rvec) (k : nat) (c : container) : outcome (container * R) :=
  if (0 <? total (size n) (c_inter c))%nat then
    do xk <- vec_get x k ;;
    do uk <- vec_get u k ;;
    let c := setCurrent xk uk (dt * INR k) c in
    do v <- totalViolationIntermediate n m c ;; Ok (c, l1norm v)
  else Ok (c, 0).
Definition stageErrorOpt (dt : R) (x u : list rvec) (k : nat) (c : option container)
  : outcome (option container * R) :=
  match c with
  | None => Ok (None, 0)
  | Some c => do r <- stageError dt x u k c ;; Ok (Some (fst r), snd r)
  end.
(** The terminal part, 633-642 and 672-681. *)
Definition terminalError (dt : R) (K : nat) (x : list rvec) (c : option container)
  : outcome (option container * R) :=
  match c with
  | None => Ok (None, 0)
  | Some c =>
      if (0 <? total (size n) (c_term c))%nat then
        do xK <- vec_get x K ;;
        let c := setCurrent xK rzero (dt * INR K) c in
        do v <- totalViolationTerminal n m c ;; Ok (Some c, l1norm v)
      else Ok (Some c, 0)
  end.
(** computeGeneralConstraintErrorOfTrajectory 645-682. *)
Fixpoint generalErrorFrom (dt : R) (x u : list rvec) (cnt k : nat) (s : option container * R)
  : outcome (option container * R) :=
  match cnt with
  | O => Ok s
  | S cnt' =>
      do r <- stageErrorOpt dt x u k (fst s) ;;
      generalErrorFrom dt x u cnt' (S k) (fst r, snd s + snd r)
  end.
Definition generalError (dt : R) (K : nat) (x u : list rvec) (c : option container)
  : outcome (option container * R) :=
  do s <- generalErrorFrom dt x u K 0 (c, 0) ;;
  do r <- terminalError dt K x (fst s) ;;
  Ok (fst r, snd s * dt + snd r).
(** computeBoxConstraintErrorOfTrajectory 595-643: input container, then state container; only the
    state container has a terminal part. *)
Fixpoint boxErrorFrom (dt : R) (x u : list rvec) (cnt k : nat)
  (s : option container * option container * R) : outcome (option container * option container * R) :=
  match cnt with
  | O => Ok s
  | S cnt' =>
      let '(ci, cs, e) := s in
      do r1 <- stageErrorOpt dt x u k ci ;;
      do r2 <- stageErrorOpt dt x u k cs ;;
      boxErrorFrom dt x u cnt' (S k) (fst r1, fst r2, e + snd r1 + snd r2)
  end.
Definition boxError (dt : R) (K : nat) (x u : list rvec) (ci cs : option container)
  : outcome (option container * option container * R) :=
  do s <- boxErrorFrom dt x u K 0 (ci, cs, 0) ;;
  let '(ci, cs, e) := s in
  do r <- terminalError dt K x cs ;;
  Ok (ci, fst r, e * dt + snd r).
End Problem.
