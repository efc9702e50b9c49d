(** Specification vocabulary for C43 and C62. *)
From Coq Require Import Reals List Arith ZArith Bool.
From Verif Require Import Base.RVec Optcon.LqocModel.
Import ListNotations.
Local Open Scope R_scope.

(** Absolute box constraints of one stage: the i-th one bounds component [bs_sp i] of the variable
    by [bs_lb i] and [bs_ub i]; [bs_nom] is the nominal value the deviation is measured from. *)
Record boxspec := mkSpec { bs_sp : list Z; bs_lb : list R; bs_ub : list R; bs_nom : rvec }.

(** nominal + deviation satisfies the bounds in the constrained components (and nothing else is
    asked); [None]: there are no constraints. *)
Definition absolute (o : option boxspec) (d : rvec) : Prop :=
  match o with
  | None => True
  | Some s => forall i, (i < length (bs_sp s))%nat ->
      let j := Z.to_nat (nth i (bs_sp s) 0%Z) in
      nth i (bs_lb s) 0 <= bs_nom s j + d j <= nth i (bs_ub s) 0
  end.

(** Which box constraints a caller has set: the last accepted call for a stage counts. *)
Inductive pcall :=
| InputBox (index nConstr : nat) (lb ub : list R) (sp : list Z) (nom : rvec)
| InputBoxes (nConstr : nat) (lb ub : list R) (sp : list Z) (noms : list rvec)
| StateBox (index nConstr : nat) (lb ub : list R) (sp : list Z) (nom : rvec)
| StateBoxes (nConstr : nat) (lb ub : list R) (sp : list Z) (noms : list rvec)
| TerminalBox (nConstr : nat) (lb ub : list R) (sp : list Z) (nom : rvec)
| General (dlb dub : list R) (C D : list rvec)
| Zero (nGen : nat)
| Resize (N : nat).

Record pspec := mkPspec { ps_K : nat; ps_u : nat -> option boxspec; ps_x : nat -> option boxspec }.

(** Sizes agree and the last component exists: otherwise the call is refused. *)
Definition accepted (dim nConstr : nat) (lb ub : list R) (sp : list Z) : bool :=
  (length lb =? length ub)%nat && (length lb =? nConstr)%nat && (length sp =? nConstr)%nat
  && (last sp 0 <=? Z.of_nat dim - 1)%Z.

Definition only (f : nat -> option boxspec) (k : nat) (v : option boxspec) : nat -> option boxspec :=
  fun j => if (j =? k)%nat then v else f j.

Definition sstep (n m : nat) (c : pcall) (s : pspec) : pspec :=
  match c with
  | InputBox k nC lb ub sp nom =>
      if accepted m nC lb ub sp && (k <? ps_K s)%nat
      then mkPspec (ps_K s) (only (ps_u s) k (Some (mkSpec sp lb ub nom))) (ps_x s) else s
  | InputBoxes nC lb ub sp noms =>
      if accepted m nC lb ub sp
      then mkPspec (ps_K s) (fun k => if (k <? ps_K s)%nat
                                      then Some (mkSpec sp lb ub (nth k noms rzero)) else ps_u s k) (ps_x s)
      else s
  | StateBox k nC lb ub sp nom =>
      if accepted n nC lb ub sp && (k <? ps_K s)%nat
      then mkPspec (ps_K s) (ps_u s) (only (ps_x s) k (Some (mkSpec sp lb ub nom))) else s
  | StateBoxes nC lb ub sp noms =>
      if accepted n nC lb ub sp
      then mkPspec (ps_K s) (ps_u s) (fun k => if (k <? ps_K s)%nat
                                      then Some (mkSpec sp lb ub (nth k noms rzero)) else ps_x s k)
      else s
  | TerminalBox nC lb ub sp nom =>
      if (0 <? nC)%nat && accepted n nC lb ub sp
      then mkPspec (ps_K s) (ps_u s) (only (ps_x s) (ps_K s) (Some (mkSpec sp lb ub nom))) else s
  | General _ _ _ _ => s
  | Zero _ => mkPspec (ps_K s) (fun _ => None) (fun _ => None)
  | Resize N => mkPspec N (fun k => if (k <? Nat.min N (ps_K s))%nat then ps_u s k else None)
                          (fun k => if (k <? S (Nat.min N (ps_K s)))%nat then ps_x s k else None)
  end.
Fixpoint srun (n m : nat) (l : list pcall) (s : pspec) : pspec :=
  match l with [] => s | c :: r => srun n m r (sstep n m c s) end.
Definition spec0 (N : nat) : pspec := mkPspec N (fun _ => None) (fun _ => None).

(** What the LQ solver reads: the stored deviation bounds of stage k. *)
Definition feasible (b : boxes) (k : nat) (d : rvec) : Prop :=
  forall i, (i < nth k (bx_n b) 0)%nat ->
    nth i (nth k (bx_lb b) []) 0 <= d (Z.to_nat (nth i (nth k (bx_I b) []) 0%Z)) <=
    nth i (nth k (bx_ub b) []) 0.

(** The linearised general constraints of one stage, as the LQ solver reads them. *)
Definition feasibleGeneral (n m : nat) (g : genStage) (dx du : rvec) : Prop :=
  forall i, (i < g_n g)%nat ->
    nth i (g_dlb g) 0 <= rdot n (nth i (g_C g) rzero) dx + rdot m (nth i (g_D g) rzero) du <=
    nth i (g_dub g) 0.

(** Every value lies between its bounds. *)
Definition within (lo v hi : list R) : Prop :=
  forall r, (r < length v)%nat -> nth r lo 0 <= nth r v 0 <= nth r hi 0.

(** How far v is outside [lo, hi], and the sum over all rows. *)
Definition gap (lo v hi : R) : R := Rmax 0 (Rmax (lo - v) (v - hi)).
Definition gaps (lo v hi : list R) : R := rsum (length v) (fun r => gap (nth r lo 0) (nth r v 0) (nth r hi 0)).
