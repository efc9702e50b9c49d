(** * Model of the interface to the interior-point solver HPIPM

    Models  ct_optcon/include/ct/optcon/solver/lqp/HPIPMInterface-impl.hpp
    (createConstraintsMasks, setProblemImpl, changeProblemSize, the three
    configure*Constraints functions, setupCostAndDynamics, initializeAndAllocate,
    computeFeedbackMatrices) and the storage of
    ct_optcon/include/ct/optcon/problem/LQOCProblem.hpp /-impl.hpp.

    What is handed to HPIPM are raw pointers into the arrays of the problem, so the
    model has a heap: every array of an LQOCProblem is a block, that is a sequence of
    cells, one per stage; a cell holds the numbers of one Eigen object in storage
    order.  A freed block is [None]; reading through a null pointer, through a pointer
    into a freed block or outside a block is undefined behaviour. *)
From Coq Require Import List QArith ZArith Bool Lia Arith.
From Verif Require Import Base.Outcome.
Import ListNotations.

(** ** Memory *)

(** Cell contents.  The arrays [u_I_] and [x_I_] hold integers in the code; they are
    only copied, and are kept as rationals here. *)
Definition cell := list Q.
Definition block := list cell.
Definition heap := list (option block).

(** The eighteen arrays of an LQOCProblem (LQOCProblem.hpp 205-250) which HPIPMInterface
    takes the address of; HPIPMInterface.hpp holds one vector of pointers for each:
    hA_, hB_, hb_, hS_ (for P_), hq_ (for qv_), hQ_, hr_ (for rv_), hR_, hlbx_, hubx_,
    hidxbx_, hlbu_, hubu_, hidxbu_, hlg_ (for d_lb_), hug_ (for d_ub_), hC_, hD_. *)
Inductive arr :=
| aA | aB | ab | aP | aqv | aQ | arv | aR
| axlb | axub | axI | aulb | auub | auI
| adlb | adub | aC | aD.

Definition arr_eqb (a b : arr) : bool :=
  match a, b with
  | aA, aA | aB, aB | ab, ab | aP, aP | aqv, aqv | aQ, aQ | arv, arv | aR, aR
  | axlb, axlb | axub, axub | axI, axI | aulb, aulb | auub, auub | auI, auI
  | adlb, adlb | adub, adub | aC, aC | aD, aD => true
  | _, _ => false
  end.

(** LQOCProblem.hpp 190-250: number of stages, the arrays (block identifiers) and the
    numbers of box and general constraints per stage. *)
Record problem := mkProblem
  { K : nat; blk : arr -> nat; p_nbu : list nat; p_nbx : list nat; p_ng : list nat }.

(** Assignment to an element of a std::vector whose size is known to suffice. *)
Fixpoint setnth {A} (i : nat) (v : A) (l : list A) : list A :=
  match l, i with
  | [], _ => []
  | _ :: r, O => v :: r
  | x :: r, S j => x :: setnth j v r
  end.

(** std::vector::resize(n, v) *)
Definition resize {A} (n : nat) (v : A) (l : list A) : list A :=
  firstn n l ++ repeat v (n - length l).

Definition live (h : heap) (b : nat) : option block :=
  match nth_error h b with Some (Some c) => Some c | _ => None end.

(** element [i] of an array of the problem *)
Definition get (h : heap) (p : problem) (a : arr) (i : nat) : outcome cell :=
  match live h (blk p a) with
  | Some c => match nth_error c i with Some v => Ok v | None => UB end
  | None => UB
  end.

Definition put (h : heap) (p : problem) (a : arr) (i : nat) (v : cell) : heap :=
  match live h (blk p a) with
  | Some c => setnth (blk p a) (Some (setnth i v c)) h
  | None => h
  end.

(** ** LQOCProblem::changeNumStages (LQOCProblem-impl.hpp 57-88)

    The number of elements an array has for [N] stages. *)
Definition asize (a : arr) (N : nat) : nat :=
  match a with
  | aA | aB | aP | arv | aR | aulb | auub | auI => N
  | _ => S N
  end.

(** std::vector::resize of one array: beyond its capacity the elements are moved to a
    new block and the old one is freed, otherwise the block is kept.  Simplification:
    the capacity is the number of cells of the block, and new cells start as [fill]. *)
Definition resize_arr (fill : cell) (h : heap) (b : nat) (n : nat) : heap * nat :=
  match live h b with
  | Some c =>
      if (n <=? length c)%nat then (h, b)
      else (setnth b None h ++ [Some (c ++ repeat fill (n - length c))], length h)
  | None => (h, b)
  end.

Definition all_arr : list arr :=
  [aA; aB; ab; aP; aqv; aQ; arv; aR; axlb; axub; axI; aulb; auub; auI; adlb; adub; aC; aD].

Definition set_blk (f : arr -> nat) (a : arr) (b : nat) : arr -> nat :=
  fun a' => if arr_eqb a a' then b else f a'.

Definition change_num_stages (fill : arr -> cell) (h : heap) (p : problem) (N : nat)
  : heap * problem :=
  let '(h', f) :=
    fold_left (fun '(h, f) a =>
                 let '(h', b) := resize_arr (fill a) h (f a) (asize a N) in
                 (h', set_blk f a b))
              all_arr (h, blk p) in
  (h', mkProblem N f (resize N O (p_nbu p)) (resize (S N) O (p_nbx p))
                 (resize (S N) O (p_ng p))).

(** ** createConstraintsMasks (28-58)

    Returns the new bounds and the two masks ([true] = the constraint is included).
    The loop runs over the first [n] entries; reading past the end of a bound vector
    is undefined. *)
Definition mask_limit : Q := inject_Z 1000000000.
Definition Qltb (a b : Q) : bool := negb (Qle_bool b a).

Fixpoint masks (n : nat) (lb ub : cell) : outcome (cell * cell * list bool * list bool) :=
  match n with
  | O => Ok (lb, ub, [], [])
  | S m =>
      match lb, ub with
      | l :: lr, u :: ur =>
          do r <- masks m lr ur ;;
          let '(lr', ur', ml, mu) := r in
          let '(l', kl) := if Qltb l (- mask_limit) then (0%Q, false) else (l, true) in
          let '(u', ku) := if Qltb mask_limit u then (0%Q, false) else (u, true) in
          Ok (l' :: lr', u' :: ur', kl :: ml, ku :: mu)
      | _, _ => UB
      end
  end.

(** ** State of the interface (HPIPMInterface.hpp 165-262)

    Pointers are null, point to an element of a block, or to the interface's own
    vectors [hb0_], [hr0_], [hd_lg_0_Eigen_], [hd_ug_0_Eigen_].  Simplification: the
    pointers to the masks are represented by the masks themselves, which the interface
    owns (hlbu_mask_Eigen_ and so on). *)
Inductive ptr := Null | At (b i : nat) | Own.

Record dim := mkDim { d_nx : nat; d_nu : nat; d_nbx : nat; d_nbu : nat; d_ng : nat }.

Record solver := mkSolver
  { sN : Z;
    ptrs : arr -> list ptr;
    own : arr -> cell;
    nbu : list nat; nbx : list nat; ng : list nat; nu : list nat; nx : list nat;
    mlbu : list (list bool); mubu : list (list bool);
    mlbx : list (list bool); mubx : list (list bool);
    mlg : list (list bool); mug : list (list bool);
    dims : list dim }.

(** Constructor, 62-75. *)
Definition fresh : solver :=
  mkSolver (-1) (fun _ => []) (fun _ => []) [] [] [] [] [] [] [] [] [] [] [] [].

Definition set_ptrs (f : arr -> list ptr) (a : arr) (v : list ptr) : arr -> list ptr :=
  fun a' => if arr_eqb a a' then v else f a'.
Definition set_own (f : arr -> cell) (a : arr) (v : cell) : arr -> cell :=
  fun a' => if arr_eqb a a' then v else f a'.

(** [h..[i] = array[i].data()] *)
Definition point (p : problem) (a : arr) (i : nat) (f : arr -> list ptr) : arr -> list ptr :=
  set_ptrs f a (setnth i (At (blk p a) i) (f a)).

Definition resize_ptrs (n : nat) (as_ : list arr) (f : arr -> list ptr) : arr -> list ptr :=
  fold_left (fun f a => set_ptrs f a (resize n Null (f a))) as_ f.

(** A loop over the stages [i, i + n). *)
Fixpoint loop {X} (n i : nat) (body : nat -> X -> outcome X) (x : X) : outcome X :=
  match n with
  | O => Ok x
  | S m => do y <- body i x ;; loop m (S i) body y
  end.

(** ** configureInputBoxConstraints (430-477)

    The state of the three configure functions is the solver, the heap and the flag
    [configChanged]. *)
Definition conf := (solver * heap * bool)%type.

Definition input_box_resize (N : nat) (s : solver) : solver * bool :=
  if (length (nbu s) =? S N)%nat then (s, false)
  else (mkSolver (sN s) (resize_ptrs (S N) [auI; aulb; auub] (ptrs s)) (own s)
          (resize (S N) O (nbu s)) (nbx s) (ng s) (nu s) (nx s)
          (resize (S N) [] (mlbu s)) (resize (S N) [] (mubu s))
          (mlbx s) (mubx s) (mlg s) (mug s) (dims s), true).

Definition input_box_stage (p : problem) (i : nat) (c : conf) : outcome conf :=
  let '(s, h, ch) := c in
  if (nth i (nbu s) O =? nth i (p_nbu p) O)%nat then Ok c
  else
    let n := nth i (p_nbu p) O in
    do lb <- get h p aulb i ;;
    do ub <- get h p auub i ;;
    do m <- masks n lb ub ;;
    let '(lb', ub', ml, mu) := m in
    Ok (mkSolver (sN s)
          (point p auI i (point p auub i (point p aulb i (ptrs s)))) (own s)
          (setnth i n (nbu s)) (nbx s) (ng s) (nu s) (nx s)
          (setnth i ml (mlbu s)) (setnth i mu (mubu s))
          (mlbx s) (mubx s) (mlg s) (mug s) (dims s),
        put (put h p aulb i lb') p auub i ub', true).

Definition configure_input_box (p : problem) (s : solver) (h : heap) : outcome conf :=
  let '(s', ch) := input_box_resize (K p) s in
  loop (K p) 0 (input_box_stage p) (s', h, ch).

(** ** configureStateBoxConstraints (481-535) *)
Definition state_box_resize (N : nat) (s : solver) : solver * bool :=
  if (length (nbx s) =? S N)%nat then (s, false)
  else (mkSolver (sN s) (resize_ptrs (S N) [axI; axlb; axub] (ptrs s)) (own s)
          (nbu s) (resize (S N) O (nbx s)) (ng s) (nu s) (nx s)
          (mlbu s) (mubu s)
          (resize (S N) [] (mlbx s)) (resize (S N) [] (mubx s)) (mlg s) (mug s) (dims s),
        true).

Definition state_box_stage (p : problem) (i : nat) (c : conf) : outcome conf :=
  let '(s, h, ch) := c in
  if (i =? 0)%nat then
    Ok (mkSolver (sN s) (ptrs s) (own s) (nbu s) (setnth 0 O (nbx s)) (ng s) (nu s) (nx s)
          (mlbu s) (mubu s) (mlbx s) (mubx s) (mlg s) (mug s) (dims s), h, ch)
  else if (nth i (nbx s) O =? nth i (p_nbx p) O)%nat then Ok c
  else
    let n := nth i (p_nbx p) O in
    do lb <- get h p axlb i ;;
    do ub <- get h p axub i ;;
    do m <- masks n lb ub ;;
    let '(lb', ub', ml, mu) := m in
    Ok (mkSolver (sN s)
          (point p axI i (point p axub i (point p axlb i (ptrs s)))) (own s)
          (nbu s) (setnth i n (nbx s)) (ng s) (nu s) (nx s)
          (mlbu s) (mubu s)
          (setnth i ml (mlbx s)) (setnth i mu (mubx s)) (mlg s) (mug s) (dims s),
        put (put h p axlb i lb') p axub i ub', true).

Definition configure_state_box (p : problem) (s : solver) (h : heap) : outcome conf :=
  let '(s', ch) := state_box_resize (K p) s in
  loop (S (K p)) 0 (state_box_stage p) (s', h, ch).

(** ** configureGeneralConstraints (539-607)

    [C_[i].resize(ng, n)] and so on (573-576) keep the contents when the size is
    unchanged and leave indeterminate numbers otherwise; the sizes of this model are
    those of the cells, and a cell of another size makes the stage undefined.
    Stage 0 works on the copies hd_lg_0_Eigen_, hd_ug_0_Eigen_ (560-562, 583-588). *)
Definition general_resize (N : nat) (s : solver) : solver * bool :=
  if (length (ng s) =? S N)%nat then (s, false)
  else (mkSolver (sN s) (resize_ptrs (S N) [adlb; adub; aC; aD] (ptrs s)) (own s)
          (nbu s) (nbx s) (resize (S N) O (ng s)) (nu s) (nx s)
          (mlbu s) (mubu s) (mlbx s) (mubx s)
          (resize (S N) [] (mlg s)) (resize (S N) [] (mug s)) (dims s),
        true).

Definition general_stage (n m : nat) (p : problem) (i : nat) (c : conf) : outcome conf :=
  let '(s, h, ch) := c in
  let g := nth i (p_ng p) O in
  let ch' := (ch || negb (nth i (ng s) O =? g)%nat)%bool in
  do vC <- get h p aC i ;;
  do vD <- get h p aD i ;;
  do vl <- get h p adlb i ;;
  do vu <- get h p adub i ;;
  if ((length vC =? g * n) && (length vD =? g * m)
      && (length vl =? g) && (length vu =? g))%nat%bool then
    if (i =? 0)%nat then
      do r <- masks g (own s adlb) (own s adub) ;;
      let '(lb', ub', ml, mu) := r in
      let f := set_ptrs (ptrs s) adlb (setnth 0 Own (ptrs s adlb)) in
      let f := set_ptrs f adub (setnth 0 Own (f adub)) in
      Ok (mkSolver (sN s) (point p aD 0 (point p aC 0 f))
            (set_own (set_own (own s) adlb lb') adub ub')
            (nbu s) (nbx s) (setnth 0 g (ng s)) (nu s) (nx s)
            (mlbu s) (mubu s) (mlbx s) (mubx s)
            (setnth 0 ml (mlg s)) (setnth 0 mu (mug s)) (dims s),
          h, ch')
    else
      do r <- masks g vl vu ;;
      let '(lb', ub', ml, mu) := r in
      Ok (mkSolver (sN s)
            (point p aD i (point p aC i (point p adub i (point p adlb i (ptrs s)))))
            (own s)
            (nbu s) (nbx s) (setnth i g (ng s)) (nu s) (nx s)
            (mlbu s) (mubu s) (mlbx s) (mubx s)
            (setnth i ml (mlg s)) (setnth i mu (mug s)) (dims s),
          put (put h p adlb i lb') p adub i ub', ch')
  else UB.

Definition configure_general (n m : nat) (p : problem) (s : solver) (h : heap)
  : outcome conf :=
  let '(s', ch) := general_resize (K p) s in
  do l0 <- get h p adlb 0 ;;
  do u0 <- get h p adub 0 ;;
  let s'' := mkSolver (sN s') (ptrs s') (set_own (set_own (own s') adlb l0) adub u0)
               (nbu s') (nbx s') (ng s') (nu s') (nx s')
               (mlbu s') (mubu s') (mlbx s') (mubx s') (mlg s') (mug s') (dims s') in
  loop (S (K p)) 0 (general_stage n m p) (s'', h, ch).

(** ** changeProblemSize (657-740)

    Slack-variable arrays (716-729) stay empty and are left out, and so are the sizes
    of the solution arrays.  With no stages [hb_[0]] (732) is outside its vector. *)
Definition set_nu (N m : nat) (v : list nat) : list nat :=
  let v := match v with [] => [] | _ => setnth (length v - 1) m v end in
  setnth N O (resize (S N) m v).

Definition change_size (n m : nat) (p : problem) (s : solver) (h : heap)
  : outcome conf :=
  let N := K p in
  let horizonChanged := negb (sN s =? Z.of_nat N)%Z in
  let s := mkSolver (Z.of_nat N) (ptrs s) (own s) (nbu s) (nbx s) (ng s) (nu s) (nx s)
             (mlbu s) (mubu s) (mlbx s) (mubx s) (mlg s) (mug s) (dims s) in
  do c1 <- configure_input_box p s h ;;
  let '(s, h, ch1) := c1 in
  do c2 <- configure_state_box p s h ;;
  let '(s, h, ch2) := c2 in
  do c3 <- configure_general n m p s h ;;
  let '(s, h, ch3) := c3 in
  if negb (horizonChanged || (ch1 || ch2 || ch3))%bool then Ok (s, h, false)
  else
    let f := resize_ptrs N [aA; aB; ab] (ptrs s) in
    let f := resize_ptrs (S N) [aQ; aP; aR; aqv; arv] f in
    match N with
    | O => UB
    | S _ =>
      let f := set_ptrs f ab (setnth 0 Own (f ab)) in
      let f := set_ptrs f arv (setnth 0 Own (f arv)) in
      let f := set_ptrs f aP (setnth N Null (f aP)) in
      let f := set_ptrs f aR (setnth N Null (f aR)) in
      let f := set_ptrs f arv (setnth N Null (f arv)) in
      Ok (mkSolver (sN s) f (own s) (nbu s) (nbx s) (ng s)
            (set_nu N m (nu s)) (setnth 0 O (resize (S N) n (nx s)))
            (mlbu s) (mubu s) (mlbx s) (mubx s) (mlg s) (mug s) (dims s), h, true)
    end.

(** ** setupCostAndDynamics (611-653)

    The horizon [N_] is that of the problem at this point, so the exception of 620 is
    never thrown from setProblemImpl. *)
Definition setup_stage (p : problem) (i : nat) (f : arr -> list ptr) : arr -> list ptr :=
  let f := point p aB i (point p aA i f) in
  let f := if (i =? 0)%nat then f else point p ab i f in
  let f := point p aqv i (point p aR i (point p aP i (point p aQ i f))) in
  if (i =? 0)%nat then f else point p arv i f.

Definition setup (p : problem) (s : solver) (h : heap) : outcome solver :=
  if (sN s =? -1)%Z then Throw
  else
    do b0 <- get h p ab 0 ;;
    do r0 <- get h p arv 0 ;;
    let N := Z.to_nat (sN s) in
    do f <- loop N 0 (fun i f => Ok (setup_stage p i f)) (ptrs s) ;;
    let f := point p aqv N (point p aQ N f) in
    Ok (mkSolver (sN s) f (set_own (set_own (own s) ab b0) arv r0)
          (nbu s) (nbx s) (ng s) (nu s) (nx s)
          (mlbu s) (mubu s) (mlbx s) (mubx s) (mlg s) (mug s) (dims s)).

(** ** d_ocp_qp_dim_set_all (102) *)
Definition alloc_dims (s : solver) : list dim :=
  map (fun i => mkDim (nth i (nx s) O) (nth i (nu s) O) (nth i (nbx s) O)
                      (nth i (nbu s) O) (nth i (ng s) O))
      (seq 0 (S (Z.to_nat (sN s)))).

(** ** What HPIPM reads: d_ocp_qp_set_all and the mask setters (109-130, 402-423)

    For every stage HPIPM copies as many numbers as the allocated dimensions say; a
    masked bound is absent. *)
Definition bound := option Q.

Record stage := mkStage
  { q_nx : nat; q_nu : nat;
    q_A : cell; q_B : cell; q_b : cell;
    q_Q : cell; q_S : cell; q_R : cell; q_q : cell; q_r : cell;
    q_box_x : list (Q * bound * bound);
    q_box_u : list (Q * bound * bound);
    q_C : cell; q_D : cell; q_gen : list (bound * bound) }.

Definition read (s : solver) (h : heap) (a : arr) (i n : nat) : outcome cell :=
  match n with
  | O => Ok []
  | _ =>
    let from (v : cell) := if (n <=? length v)%nat then Ok (firstn n v) else UB in
    match nth i (ptrs s a) Null with
    | Null => UB
    | Own => from (own s a)
    | At b j =>
        match live h b with
        | Some c => match nth_error c j with Some v => from v | None => UB end
        | None => UB
        end
    end
  end.

Definition masked (v : cell) (m : list bool) : list bound :=
  map (fun '(x, k) => if (k : bool) then Some x else None) (combine v m).

(** A mask vector shorter than the number of constraints is read out of bounds. *)
Definition read_mask (ms : list (list bool)) (i n : nat) : outcome (list bool) :=
  let m := nth i ms [] in
  if (n <=? length m)%nat then Ok (firstn n m) else UB.

Definition box3 (ix : cell) (l u : list bound) : list (Q * bound * bound) :=
  combine (combine ix l) u.

Definition hand_stage (s : solver) (h : heap) (i : nat) : outcome stage :=
  let N := Z.to_nat (sN s) in
  let d := nth i (dims s) (mkDim 0 0 0 0 0) in
  let nx1 := d_nx (nth (S i) (dims s) (mkDim 0 0 0 0 0)) in
  let last := (i =? N)%nat in
  do vA <- (if last then Ok [] else read s h aA i (nx1 * d_nx d)) ;;
  do vB <- (if last then Ok [] else read s h aB i (nx1 * d_nu d)) ;;
  do vb <- (if last then Ok [] else read s h ab i nx1) ;;
  do vQ <- read s h aQ i (d_nx d * d_nx d) ;;
  do vS <- read s h aP i (d_nu d * d_nx d) ;;
  do vR <- read s h aR i (d_nu d * d_nu d) ;;
  do vq <- read s h aqv i (d_nx d) ;;
  do vr <- read s h arv i (d_nu d) ;;
  do xi <- read s h axI i (d_nbx d) ;;
  do xl <- read s h axlb i (d_nbx d) ;;
  do xu <- read s h axub i (d_nbx d) ;;
  do mxl <- read_mask (mlbx s) i (d_nbx d) ;;
  do mxu <- read_mask (mubx s) i (d_nbx d) ;;
  do ui <- read s h auI i (d_nbu d) ;;
  do ul <- read s h aulb i (d_nbu d) ;;
  do uu <- read s h auub i (d_nbu d) ;;
  do mul <- (if last then Ok (repeat true (d_nbu d)) else read_mask (mlbu s) i (d_nbu d)) ;;
  do muu <- (if last then Ok (repeat true (d_nbu d)) else read_mask (mubu s) i (d_nbu d)) ;;
  do vC <- read s h aC i (d_ng d * d_nx d) ;;
  do vD <- read s h aD i (d_ng d * d_nu d) ;;
  do gl <- read s h adlb i (d_ng d) ;;
  do gu <- read s h adub i (d_ng d) ;;
  do mgl <- read_mask (mlg s) i (d_ng d) ;;
  do mgu <- read_mask (mug s) i (d_ng d) ;;
  Ok (mkStage (d_nx d) (d_nu d) vA vB vb vQ vS vR vq vr
        (box3 xi (masked xl mxl) (masked xu mxu))
        (box3 ui (masked ul mul) (masked uu muu))
        vC vD (combine (masked gl mgl) (masked gu mgu))).

Fixpoint hand (s : solver) (h : heap) (is_ : list nat) : outcome (list stage) :=
  match is_ with
  | [] => Ok []
  | i :: r => do st <- hand_stage s h i ;; do rs <- hand s h r ;; Ok (st :: rs)
  end.

(** ** setProblemImpl (381-426)

    [n] = STATE_DIM, [m] = CONTROL_DIM.  Returns the interface, the heap and the QP
    handed over. *)
Definition set_problem (n m : nat) (s : solver) (h : heap) (p : problem)
  : outcome (solver * heap * list stage) :=
  do c <- change_size n m p s h ;;
  let '(s, h, dimsChanged) := c in
  do s <- setup p s h ;;
  let s :=
    if (dimsChanged : bool) then
      mkSolver (sN s) (ptrs s) (own s) (nbu s) (nbx s) (ng s) (nu s) (nx s)
        (mlbu s) (mubu s) (mlbx s) (mubx s) (mlg s) (mug s) (alloc_dims s)
    else s in
  do q <- hand s h (seq 0 (S (Z.to_nat (sN s)))) ;;
  Ok (s, h, q).
