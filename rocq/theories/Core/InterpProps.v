(** Properties C01, C02, C03: time look-up, interpolation, trajectory editing. *)
From Coq Require Import List ZArith QArith Sorted Lia Lqa.
From Verif Require Import Base.Outcome Core.InterpModel Core.InterpSpec Core.InterpProofs Core.TrajProofs.
Import ListNotations.
Open Scope Q_scope.

(** C01. Whatever look-ups (on this or other non-empty arrays) came before, the look-up returns the
    last node not later than the query time, and that node is unique. *)
Theorem C01_lookup_independent_of_history :
  forall (hist : list (list Q * Q)) (ts : list Q) (t : Q),
    Forall (fun q => fst q <> []) hist ->
    increasing ts -> ts <> [] ->
    exists i,
      snd (findIndex ts t (hint_after 0 hist)) = Ok (Z.of_nat i) /\
      is_last_node_before ts t i /\
      (forall j, is_last_node_before ts t j -> j = i).
Proof. exact lookup_independent_of_history. Qed.
Print Assumptions C01_lookup_independent_of_history.

Example C01_example :
  let hist := [([0; 1; 2; 3], 5#2); ([0; 10], 20)] in
  Forall (fun q => fst q <> []) hist /\ increasing [0; 1#2; 1; 3] /\
  snd (findIndex [0; 1#2; 1; 3] (3#4) (hint_after 0 hist)) = Ok 1%Z.
Proof.
  cbn zeta. split; [|split].
  - repeat constructor; discriminate.
  - repeat constructor; lra.
  - vm_compute. reflexivity.
Qed.

(** C01, histories that include a look-up on an empty time array: the failed look-up leaves the
    cached index at -1 and every later look-up on every well formed array throws. *)
Theorem C01_lookup_after_empty_lookup_refuted :
  exists hist, forall ts t, ts <> [] ->
    snd (findIndex ts t (hint_after 0 hist)) = Throw.
Proof. exact lookup_after_empty_lookup. Qed.
Print Assumptions C01_lookup_after_empty_lookup_refuted.

(** C02. Evaluation returns a point of the piecewise constant / linear curve through the samples,
    independent of the cached index. *)
Theorem C02_interpolate_on_curve :
  forall ty ts ds t hint n,
    increasing ts -> ts <> [] -> length ts = length ds -> same_dim n ds -> (0 <= hint)%Z ->
    exists h r, interpolate ty ts ds t (-1) hint = (h, Ok r) /\ (0 <= h)%Z /\ length r = n /\
      curve_value ty (combine ts ds) t r.
Proof. exact interpolate_correct. Qed.
Print Assumptions C02_interpolate_on_curve.

(** C02, stored times: exactly the stored sample. *)
Theorem C02_interpolate_exact_at_nodes :
  forall ty ts ds hint n i t ti di,
    increasing ts -> length ts = length ds -> same_dim n ds -> (0 <= hint)%Z ->
    nth_error ts i = Some ti -> nth_error ds i = Some di -> ti == t ->
    exists r, snd (interpolate ty ts ds t (-1) hint) = Ok r /\ same_vec r di.
Proof. exact interpolate_exact_at_nodes. Qed.
Print Assumptions C02_interpolate_exact_at_nodes.

(** C02, error cases. *)
Theorem C02_interpolate_throws :
  forall ty ts ds t gl hint,
    ts = [] \/ ds = [] \/ length ts <> length ds ->
    snd (interpolate ty ts ds t gl hint) = Throw.
Proof. exact interpolate_throws'. Qed.
Print Assumptions C02_interpolate_throws.

Example C02_example :
  increasing [0; 1; 3] /\ same_dim 2 [[0; 1]; [2; 3]; [4; 5]] /\
  snd (interpolate LIN [0; 1; 3] [[0; 1]; [2; 3]; [4; 5]] 2 (-1) 2) =
    Ok [((2 - 3) / (1 - 3)) * 2 + (1 - (2 - 3) / (1 - 3)) * 4;
        ((2 - 3) / (1 - 3)) * 3 + (1 - (2 - 3) / (1 - 3)) * 5].
Proof. repeat split; repeat constructor; lra. Qed.

(** C03. Any sequence of calls keeps every surviving sample attached to the time at which it was
    recorded (up to the accumulated shift), keeps as many times as samples, and has undefined
    behaviour exactly when a call's precondition is violated. *)
Theorem C03_trajectory_refines_recording :
  forall ty ops,
    match rec_run (mk_rec [] 0) ops with
    | None => traj_run (traj_new ty) ops = UB
    | Some r => exists s, traj_run (traj_new ty) ops = Ok s /\
        tr_data s = map snd (rec_pts r) /\
        Forall2 (fun t p => t == fst p - rec_shift r) (tr_time s) (rec_pts r) /\
        traj_size s = Ok (length (rec_pts r))
    end.
Proof. exact traj_history. Qed.
Print Assumptions C03_trajectory_refines_recording.

(** C03. If samples are pushed in increasing time order (and no index look-up is made while the
    trajectory is empty, see C01), time stamps are strictly increasing and evaluation at local time
    [t] is the recorded curve at [t] plus the accumulated shift. *)
Theorem C03_trajectory_eval_is_recorded_curve :
  forall n ty ops r,
    rec_run (mk_rec [] 0) ops = Some r -> rec_pts r <> [] ->
    pushes_in_order (mk_rec [] 0) ops -> no_index_when_empty (mk_rec [] 0) ops ->
    Forall (op_dim n) ops ->
    exists s, traj_run (traj_new ty) ops = Ok s /\
      increasing (tr_time s) /\
      forall t, exists v, snd (traj_eval t s) = Ok v /\ length v = n /\
        curve_value (tr_type s) (rec_pts r) (t + rec_shift r) v.
Proof. exact traj_eval_history. Qed.
Print Assumptions C03_trajectory_eval_is_recorded_curve.

Example C03_example :
  let ops := [OpPush [1; 2] 0 true; OpPush [3; 4] 1 false; OpEval (1#2); OpPush [5; 6] (1#2) false;
              OpIndex 1; OpEraseFront 1 1; OpShift (1#4); OpPush [7; 8] 3 true; OpPop] in
  exists r, rec_run (mk_rec [] 0) ops = Some r /\ rec_pts r <> [] /\
    pushes_in_order (mk_rec [] 0) ops /\ no_index_when_empty (mk_rec [] 0) ops /\
    Forall (op_dim 2) ops.
Proof.
  eexists. split; [reflexivity|]. split; [discriminate|]. split; [|split].
  - cbn. repeat split; lra.
  - cbn. repeat split; discriminate.
  - repeat constructor.
Qed.
