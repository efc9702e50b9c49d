(** * Specification of the interface to HPIPM

    The linear-quadratic problem that the arrays of an LQOCProblem describe, written
    without reference to the interface; and sequences of calls of setProblem. *)
From Coq Require Import List QArith ZArith Bool Lia Arith.
From Verif Require Import Base.Outcome Optcon.HpipmModel.
Import ListNotations.
Local Open Scope nat_scope.

(** A bound beyond 1e9 is no bound. *)
Definition lower (x : Q) : bound := if Qlt_le_dec x (- inject_Z 1000000000) then None else Some x.
Definition upper (x : Q) : bound := if Qlt_le_dec (inject_Z 1000000000) x then None else Some x.

(** Contents of an array of the problem at a stage. *)
Definition content (h : heap) (p : problem) (a : arr) (i : nat) : cell :=
  match nth_error h (blk p a) with
  | Some (Some c) => nth i c []
  | _ => []
  end.

(** [c] constraints with indices [ix] and bounds [lb], [ub] *)
Definition box_of (c : nat) (ix lb ub : cell) : list (Q * bound * bound) :=
  combine (combine (firstn c ix) (map lower (firstn c lb))) (map upper (firstn c ub)).

(** Stage [i] of the linear-quadratic problem stored in [p], with the state increment of
    the first stage fixed to zero. *)
Definition lq_stage (n m : nat) (h : heap) (p : problem) (i : nat) : stage :=
  let N := K p in
  let nxi := if i =? 0 then 0 else n in
  let nui := if i =? N then 0 else m in
  let v a := content h p a i in
  mkStage nxi nui
    (if i =? N then [] else if i =? 0 then [] else v aA)
    (if i =? N then [] else v aB)
    (if i =? N then [] else v ab)
    (if i =? 0 then [] else v aQ)
    (if (i =? 0) || (i =? N) then [] else v aP)
    (if i =? N then [] else v aR)
    (if i =? 0 then [] else v aqv)
    (if i =? N then [] else v arv)
    (if i =? 0 then [] else box_of (nth i (p_nbx p) 0) (v axI) (v axlb) (v axub))
    (if i =? N then [] else box_of (nth i (p_nbu p) 0) (v auI) (v aulb) (v auub))
    (if i =? 0 then [] else v aC)
    (if i =? N then [] else v aD)
    (combine (map lower (v adlb)) (map upper (v adub))).

(** The size of the Eigen object of an array at a stage. *)
Definition width (n m : nat) (p : problem) (a : arr) (i : nat) : nat :=
  match a with
  | aA | aQ => n * n
  | aB => n * m
  | ab | aqv | axlb | axub | axI => n
  | aP => m * n
  | arv | aulb | auub | auI => m
  | aR => m * m
  | adlb | adub => nth i (p_ng p) 0
  | aC => nth i (p_ng p) 0 * n
  | aD => nth i (p_ng p) 0 * m
  end.

(** A problem as LQOCProblem keeps it: at least one stage, distinct arrays, one object of
    the right size per stage, not more box constraints than variables. *)
Record wf (n m : nat) (h : heap) (p : problem) : Prop :=
  { wf_K : 1 <= K p;
    wf_n : 1 <= n;
    wf_inj : forall a b, blk p a = blk p b -> a = b;
    wf_cells : forall a i, i < asize a (K p) ->
       exists c v, nth_error h (blk p a) = Some (Some c) /\ nth_error c i = Some v
                   /\ length v = width n m p a i;
    wf_nbu : forall i, i < K p -> nth i (p_nbu p) 0 <= m;
    wf_nbx : forall i, i <= K p -> nth i (p_nbx p) 0 <= n }.

(** The whole problem *)
Definition lq_qp (n m : nat) (h : heap) (p : problem) : list stage :=
  map (lq_stage n m h p) (seq 0 (S (K p))).

(** A stage without its box constraints *)
Definition no_box (st : stage) : stage :=
  mkStage (q_nx st) (q_nu st) (q_A st) (q_B st) (q_b st) (q_Q st) (q_S st) (q_R st)
    (q_q st) (q_r st) [] [] (q_C st) (q_D st) (q_gen st).

(** A sequence of calls of setProblem, each with the memory as the caller left it. *)
Fixpoint run (n m : nat) (s : solver) (last : list stage) (calls : list (heap * problem))
  : outcome (solver * list stage) :=
  match calls with
  | [] => Ok (s, last)
  | (h, p) :: r =>
      do x <- set_problem n m s h p ;;
      let '(s', _, q) := x in run n m s' q r
  end.

(** The same entries are unbounded in both states of the memory. *)
Definition same_unbounded (h1 h2 : heap) (p : problem) (al au : arr) (c j : nat) : Prop :=
  forall k, k < c ->
    (lower (nth k (content h1 p al j) 0%Q) = None <-> lower (nth k (content h2 p al j) 0%Q) = None)
    /\ (upper (nth k (content h1 p au j) 0%Q) = None <-> upper (nth k (content h2 p au j) 0%Q) = None).

(** Two calls in a row with the same problem object, whose arrays have not moved, with
    the same number of stages; where the number of box constraints is the same, the same
    entries are unbounded. *)
Definition steady (c1 c2 : heap * problem) : Prop :=
  let (h1, p1) := c1 in let (h2, p2) := c2 in
  K p1 = K p2 /\ (forall a, blk p1 a = blk p2 a)
  /\ (forall j, j < K p2 -> nth j (p_nbu p1) 0 = nth j (p_nbu p2) 0 ->
        same_unbounded h1 h2 p2 aulb auub (nth j (p_nbu p2) 0) j)
  /\ (forall j, 1 <= j <= K p2 -> nth j (p_nbx p1) 0 = nth j (p_nbx p2) 0 ->
        same_unbounded h1 h2 p2 axlb axub (nth j (p_nbx p2) 0) j).

Fixpoint steadily (c : heap * problem) (calls : list (heap * problem)) : Prop :=
  match calls with
  | [] => True
  | d :: r => steady c d /\ steadily d r
  end.
