(** Model of the discrete constraints of the shooting NLP: nlp/DiscreteConstraintBase.h,
    nlp/DiscreteConstraintContainerBase.h, dms/constraints/{InitStateConstraint.h,
    ContinuityConstraint.h, ConstraintDiscretizer.h,
    implementation/ConstraintsContainerDms-impl.h} (in ct_optcon/include/ct/optcon).
    Real arithmetic; row and column indices (int, size_t) are unbounded naturals.  The assertions
    on the final offsets are not modelled (they are compiled out in release builds); Eigen's own
    range and size requirements are: a violated one is undefined behaviour. *)
From Coq Require Import Reals List Bool Arith ZArith.
From Verif Require Import Base.Outcome Base.RVec Optcon.DmsModel Optcon.DmsSplineModel
  Optcon.ConstraintModel.
Import ListNotations.
Local Open Scope R_scope.

(** ** The interface DiscreteConstraintBase, lines 40-121.  [d_pattern] takes the two index vectors
    it has to fill. *)
Record discrete := mkDiscrete {
  d_size : nat; d_nnz : nat;
  d_eval : outcome (list R); d_jac : outcome (list R);
  d_pattern : list nat -> list nat -> outcome (list nat * list nat);
  d_lb : outcome (list R); d_ub : outcome (list R) }.

(** x.segment(i, k) = v: the sizes must agree. *)
Definition assignSegment {A} (i k : nat) (v buf : list A) : outcome (list A) :=
  if (length v =? k)%nat then setSegment i v buf else UB.

(** genDiagonalIndices, DiscreteConstraintBase.h 172-198. *)
Definition genDiagonal (col_start k : nat) (iRow jCol : list nat) (index : nat)
  : outcome (nat * list nat * list nat) :=
  do r <- assignSegment index k (seq 0 k) iRow ;;
  do c <- assignSegment index k (map (fun i => col_start + i)%nat (seq 0 k)) jCol ;;
  Ok (k, r, c).
(** genBlockIndices, 201-233. *)
Definition genBlock (col_start rows cols : nat) (iRow jCol : list nat) (index : nat)
  : outcome (nat * list nat * list nat) :=
  do r <- assignSegment index (rows * cols)
            (concat (map (fun row => map (fun _ => row) (seq col_start cols)) (seq 0 rows))) iRow ;;
  do c <- assignSegment index (rows * cols)
            (concat (map (fun _ => seq col_start cols) (seq 0 rows))) jCol ;;
  Ok (rows * cols, r, c)%nat.

(** ** DiscreteConstraintContainerBase.h *)

(** getConstraintsCount 153-159, getNonZerosJacobianCount 166-172. *)
Definition constraintsCount (l : list discrete) : nat := list_sum (map d_size l).
Definition nonZerosCount (l : list discrete) : nat := list_sum (map d_nnz l).

(** The loops of evalConstraints 67-72, evalSparseJacobian 104-109, getBounds 278-284. *)
Fixpoint writeAll {A} (k : discrete -> nat) (v : discrete -> outcome (list A))
  (l : list discrete) (ind : nat) (buf : list A) : outcome (list A) :=
  match l with
  | [] => Ok buf
  | c :: r =>
      do x <- v c ;;
      do b <- assignSegment ind (k c) x buf ;; writeAll k v r (ind + k c)%nat b
  end.
Definition evalConstraints (l : list discrete) (c_nlp : list R) := writeAll d_size d_eval l 0 c_nlp.
Definition evalSparseJacobian (l : list discrete) (jac : list R) := writeAll d_nnz d_jac l 0 jac.
Definition getBounds (l : list discrete) (lo up : list R) : outcome (list R * list R) :=
  do a <- writeAll d_size d_lb l 0 lo ;;
  do b <- writeAll d_size d_ub l 0 up ;; Ok (a, b).

(** getSparsityPattern 124-146. *)
Fixpoint patternAll (l : list discrete) (ind count : nat) (iRow jCol : list nat)
  : outcome (list nat * list nat) :=
  match l with
  | [] => Ok (iRow, jCol)
  | c :: r =>
      do p <- d_pattern c (repeat 0%nat (d_nnz c)) (repeat 0%nat (d_nnz c)) ;;
      do a <- assignSegment ind (d_nnz c) (map (fun i => i + count)%nat (fst p)) iRow ;;
      do b <- assignSegment ind (d_nnz c) (snd p) jCol ;;
      patternAll r (ind + d_nnz c) (count + d_size c) a b
  end.
Definition getSparsityPattern (l : list discrete) (iRow jCol : list nat) := patternAll l 0 0 iRow jCol.

Section Dms.
Variables n m : nat.   (* STATE_DIM, CONTROL_DIM *)

Definition vsub (a b : list R) : list R := map (fun p => fst p - snd p) (combine a b).

(** ** InitStateConstraint.h 43-67 *)
Definition initState (x0 : list R) (w : optvec) : discrete :=
  mkDiscrete n n
    (do x <- getOptimizedState n w 0 ;; Ok (vsub x x0))
    (Ok (repeat 1 n))
    (fun iRow jCol =>
       do c <- getStateIndex w 0 ;;
       do p <- genDiagonal c n iRow jCol 0 ;; let '(_, r, cc) := p in Ok (r, cc))
    (Ok (repeat 0 n)) (Ok (repeat 0 n)).

(** ** ContinuityConstraint.h *)

(** What the shot provides: getStateIntegrated, getdXdSiIntegrated, getdXdQiIntegrated,
    getdXdQip1Integrated (ShotContainer.h 216-250). *)
Record shotData := mkShotData { sd_x : list R; sd_S : rmat; sd_Q : rmat; sd_Q1 : rmat }.

(** Eigen::Map of the data of a column-major rows x cols matrix. *)
Definition dataOf (rows cols : nat) (M : rmat) : list R :=
  concat (map (fun j => map (fun i => M i j) (seq 0 rows)) (seq 0 cols)).
Definition ropp (M : rmat) : rmat := fun i j => - M i j.

(** jacLocal_ has nr entries (69-91) = getNumNonZerosJacobian 128-156. *)
Definition contNnz (sp : splineType) : nat :=
  match sp with
  | ZERO_ORDER_HOLD => n * n + n * m + n
  | PIECEWISE_LINEAR => n * n + n * m + n + n * m
  end.
(** computeXblock 294-305, computeUblock 308-318, computeIblock 333-339, computeUblock_2 321-331:
    the transposed negative matrix is mapped; count_local_ advances. *)
Definition contJac (sp : splineType) (d : shotData) (jac : list R) : outcome (list R) :=
  do j1 <- assignSegment 0 (n * n) (dataOf n n (rtr (ropp (sd_S d)))) jac ;;
  do j2 <- assignSegment (n * n) (n * m) (dataOf m n (rtr (ropp (sd_Q d)))) j1 ;;
  do j3 <- assignSegment (n * n + n * m) n (repeat 1 n) j2 ;;
  match sp with
  | ZERO_ORDER_HOLD => Ok j3
  | PIECEWISE_LINEAR =>
      assignSegment (n * n + n * m + n) (n * m) (dataOf m n (rtr (ropp (sd_Q1 d)))) j3
  end.
(** genSparsityPattern 159-211. *)
Definition contPattern (sp : splineType) (w : optvec) (i : nat) (iRow jCol : list nat)
  : outcome (list nat * list nat) :=
  do s <- getStateIndex w i ;;
  do p <- genBlock s n n iRow jCol 0 ;;
  let '(k1, r1, c1) := p in
  do q <- getControlIndex w i ;;
  do p <- genBlock q n m r1 c1 (0 + k1) ;;
  let '(k2, r2, c2) := p in
  do s1 <- getStateIndex w (i + 1) ;;
  do p <- genDiagonal s1 n r2 c2 (0 + k1 + k2) ;;
  let '(k3, r3, c3) := p in
  match sp with
  | ZERO_ORDER_HOLD => Ok (r3, c3)
  | PIECEWISE_LINEAR =>
      do q1 <- getControlIndex w (i + 1) ;;
      do p <- genBlock q1 n m r3 c3 (0 + k1 + k2 + k3) ;;
      let '(_, r4, c4) := p in Ok (r4, c4)
  end.
(** [junk]: content of jacLocal_ before the first evaluation. *)
Definition continuity (sp : splineType) (w : optvec) (i : nat) (d : shotData) (junk : list R)
  : discrete :=
  mkDiscrete n (contNnz sp)
    (do x <- getOptimizedState n w (i + 1) ;; Ok (vsub x (sd_x d)))
    (contJac sp d junk)
    (contPattern sp w i)
    (Ok (repeat 0 n)) (Ok (repeat 0 n)).

(** ** ConstraintDiscretizer.h *)

(** The members; N_, the containers, the counts, and the allocated vectors. *)
Record discretizer := mkDisc {
  z_N : nat; z_con : list container;
  z_interCount : nat; z_termCount : nat; z_nnzInter : nat; z_nnzTerm : nat;
  z_buf : list R;      (* discreteConstraints_, of constraintsCount_ entries *)
  z_lo : list R; z_up : list R;
  z_jac : list R; z_iRow : list nat; z_jCol : list nat }.
(** 61-76 *)
Definition newDiscretizer (N : nat) : discretizer := mkDisc N [] 0 0 0 0 [] [] [] [] [] [].
Definition addContainer (c : container) (nnzI nnzT : nat) (z : discretizer) : discretizer :=
  let ic := (z_interCount z + (z_N z + 1) * total (size n) (c_inter c))%nat in
  let tc := (z_termCount z + total (size n) (c_term c))%nat in
  let ni := (z_nnzInter z + nnzI)%nat in
  let nt := (z_nnzTerm z + nnzT)%nat in
  mkDisc (z_N z) (z_con z ++ [c]) ic tc ni nt
    (repeat 0 (ic + tc)) (repeat 0 (ic + tc)) (repeat 0 (ic + tc))
    (repeat 0 (ni + nt)) (repeat 0%nat (ni + nt)) (repeat 0%nat (ni + nt)).
(** 79-99 *)
Definition setBoxConstraints (c : container) (z : discretizer) : discretizer :=
  addContainer c ((z_N z + 1) * (total (nnzState n) (c_inter c) + total (nnzInput m) (c_inter c)))
    (total (nnzState n) (c_term c) + total (nnzInput m) (c_term c)) z.
(** 101-120: the input non-zeros are not counted. *)
Definition setGeneralConstraints (c : container) (z : discretizer) : discretizer :=
  addContainer c ((z_N z + 1) * total (nnzState n) (c_inter c))
    (total (nnzState n) (c_term c)) z.

(** segment(ind, k) = v, ind += k, if k > 0. *)
Definition putIf {A} (k : nat) (v : outcome (list A)) (s : nat * list A) : outcome (nat * list A) :=
  let (ind, buf) := s in
  if (0 <? k)%nat then do x <- v ;; do b <- assignSegment ind k x buf ;; Ok ((ind + k)%nat, b)
  else Ok (ind, buf).

(** A loop over nodes i, ..., i+k-1 and containers that carries the containers (their current
    point changes) and an accumulator. *)
Fixpoint overContainers {A} (f : container -> A -> outcome (container * A)) (l : list container) (a : A)
  : outcome (list container * A) :=
  match l with
  | [] => Ok ([], a)
  | c :: r =>
      do x <- f c a ;;
      do y <- overContainers f r (snd x) ;; Ok (fst x :: fst y, snd y)
  end.
Fixpoint overNodes {A} (f : nat -> container -> A -> outcome (container * A)) (i k : nat)
  (l : list container) (a : A) : outcome (list container * A) :=
  match k with
  | O => Ok (l, a)
  | S k' => do x <- overContainers (f i) l a ;; overNodes f (S i) k' (fst x) (snd x)
  end.

Section Point.
Variables (sp : splineType) (w : optvec) (nodes : list rvec) (g : grid R).
(** getOptimizedState as the state vector the containers take. *)
Definition ofList (l : list R) : rvec := fun j => nth j l 0.
(** setCurrentStateAndControl(w.getOptimizedState(n), spline(tShot, n), tShot): 129-133, 163-168. *)
Definition moveTo (i : nat) (c : container) : outcome container :=
  do t <- getShotStartTime g i ;;
  do x <- getOptimizedState n w i ;;
  do u <- evalSpline sp nodes g t i ;;
  Ok (setCurrent (ofList x) u t c).

Definition withEval (v : list R) (cs : list container) (z : discretizer) : discretizer :=
  mkDisc (z_N z) cs (z_interCount z) (z_termCount z) (z_nnzInter z) (z_nnzTerm z) v (z_lo z) (z_up z)
    (z_jac z) (z_iRow z) (z_jCol z).
Definition withJac (v : list R) (cs : list container) (z : discretizer) : discretizer :=
  mkDisc (z_N z) cs (z_interCount z) (z_termCount z) (z_nnzInter z) (z_nnzTerm z) (z_buf z) (z_lo z)
    (z_up z) v (z_iRow z) (z_jCol z).

(** eval 122-154; the result is discreteConstraints_. *)
Definition discEval (z : discretizer) : outcome discretizer :=
  do a <- overNodes (fun i c s =>
            do c' <- moveTo i c ;;
            do s' <- putIf (total (size n) (c_inter c')) (evaluateIntermediate n m c') s ;;
            Ok (c', s')) 0 (z_N z + 1) (z_con z) (0%nat, z_buf z) ;;
  do b <- overContainers (fun c s =>
            do s' <- putIf (total (size n) (c_term c)) (evaluateTerminal n m c) s ;;
            Ok (c, s')) (fst a) (snd a) ;;
  Ok (withEval (snd (snd b)) (fst b) z).

(** evalSparseJacobian 156-202; the result is discreteJac_. *)
Definition discJac (z : discretizer) : outcome discretizer :=
  do a <- overNodes (fun i c s =>
            do c' <- moveTo i c ;;
            do s1 <- putIf (total (nnzState n) (c_inter c')) (jacobianStateSparseIntermediate n c') s ;;
            do s2 <- putIf (total (nnzInput m) (c_inter c')) (jacobianInputSparseIntermediate n m c') s1 ;;
            Ok (c', s2)) 0 (z_N z + 1) (z_con z) (0%nat, z_jac z) ;;
  do b <- overContainers (fun c s =>
            do s1 <- putIf (total (nnzState n) (c_term c)) (jacobianStateSparseTerminal n c) s ;;
            do s2 <- putIf (total (nnzInput m) (c_term c)) (jacobianInputSparseTerminal n m c) s1 ;;
            Ok (c, s2)) (fst a) (snd a) ;;
  Ok (withJac (snd (snd b)) (fst b) z).
End Point.

(** genSparsityPattern 205-269: discreteInd, rowOffset, discreteIRow_, discreteJCol_. *)
Definition pstate := (nat * nat * list nat * list nat)%type.
Definition putPattern (k : nat) (pat : outcome (list nat * list nat)) (col : outcome nat) (s : pstate)
  : outcome pstate :=
  let '(ind, off, ir, jc) := s in
  if (0 <? k)%nat then
    do p <- pat ;;
    do ir' <- assignSegment ind k (map (fun i => i + off)%nat (fst p)) ir ;;
    do co <- col ;;
    do jc' <- assignSegment ind k (map (fun i => i + co)%nat (snd p)) jc ;;
    Ok ((ind + k)%nat, off, ir', jc')
  else Ok s.
Definition advance (k : nat) (s : pstate) : pstate :=
  let '(ind, off, ir, jc) := s in (ind, (off + k)%nat, ir, jc).
Definition discPattern (w : optvec) (z : discretizer) : outcome discretizer :=
  do a <- overNodes (fun i c s =>
            do s1 <- putPattern (total (nnzState n) (c_inter c)) (stagePatternState n (c_inter c))
                       (getStateIndex w i) s ;;
            do s2 <- putPattern (total (nnzInput m) (c_inter c)) (stagePatternInput n m (c_inter c))
                       (getControlIndex w i) s1 ;;
            Ok (c, advance (total (size n) (c_inter c)) s2)) 0 (z_N z + 1) (z_con z)
            (0%nat, 0%nat, z_iRow z, z_jCol z) ;;
  do b <- overContainers (fun c s =>
            do s1 <- putPattern (total (nnzState n) (c_term c)) (stagePatternState n (c_term c))
                       (getStateIndex w (z_N z)) s ;;
            do s2 <- putPattern (total (nnzInput m) (c_term c)) (stagePatternInput n m (c_term c))
                       (getControlIndex w (z_N z)) s1 ;;
            Ok (c, advance (total (size n) (c_term c)) s2)) (fst a) (snd a) ;;
  let '(_, _, ir, jc) := snd b in
  Ok (mkDisc (z_N z) (z_con z) (z_interCount z) (z_termCount z) (z_nnzInter z) (z_nnzTerm z)
        (z_buf z) (z_lo z) (z_up z) (z_jac z) ir jc).

(** getLowerBound 271-300, getUpperBound 302-331. *)
Definition discBounds (bound : stage -> list R) (buf : list R) (z : discretizer) : outcome (list R) :=
  do a <- overNodes (fun i c s =>
            do s' <- putIf (total (size n) (c_inter c)) (Ok (bound (c_inter c))) s ;; Ok (c, s'))
            0 (z_N z + 1) (z_con z) (0%nat, buf) ;;
  do b <- overContainers (fun c s =>
            do s' <- putIf (total (size n) (c_term c)) (Ok (bound (c_term c))) s ;; Ok (c, s'))
            (fst a) (snd a) ;;
  Ok (snd (snd b)).
Definition discLower (z : discretizer) : outcome discretizer :=
  do v <- discBounds s_lb (z_lo z) z ;;
  Ok (mkDisc (z_N z) (z_con z) (z_interCount z) (z_termCount z) (z_nnzInter z) (z_nnzTerm z)
        (z_buf z) v (z_up z) (z_jac z) (z_iRow z) (z_jCol z)).
Definition discUpper (z : discretizer) : outcome discretizer :=
  do v <- discBounds s_ub (z_up z) z ;;
  Ok (mkDisc (z_N z) (z_con z) (z_interCount z) (z_termCount z) (z_nnzInter z) (z_nnzTerm z)
        (z_buf z) (z_lo z) v (z_jac z) (z_iRow z) (z_jCol z)).

(** The discretizer as a discrete constraint: 204, 333; genSparsityPattern overwrites the vectors
    it is given. *)
Definition discretized (sp : splineType) (w : optvec) (nodes : list rvec) (g : grid R) (z : discretizer)
  : discrete :=
  mkDiscrete (z_interCount z + z_termCount z) (z_nnzInter z + z_nnzTerm z)
    (omap z_buf (discEval sp w nodes g z))
    (omap z_jac (discJac sp w nodes g z))
    (fun _ _ => omap (fun z' => (z_iRow z', z_jCol z')) (discPattern w z))
    (omap z_lo (discLower z)) (omap z_up (discUpper z)).

(** ** ConstraintsContainerDms-impl.h 16-34: initial state, one continuity constraint per shot, the
    discretised path constraints if there are any. *)
Definition dmsConstraints (sp : splineType) (w : optvec) (nodes : list rvec) (g : grid R)
  (x0 : list R) (shots : list shotData) (junk : list R) (z : option discretizer) : list discrete :=
  initState x0 w ::
  map (fun p => continuity sp w (fst p) (snd p) junk) (combine (seq 0 (length shots)) shots) ++
  match z with Some z => [discretized sp w nodes g z] | None => [] end.
End Dms.
