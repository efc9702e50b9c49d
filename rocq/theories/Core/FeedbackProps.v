(** C11: the state feedback controller. *)
From Coq Require Import QArith List ZArith Bool Arith Lia Setoid.
From Verif Require Import Base.Outcome Core.InterpModel Core.InterpSpec Core.InterpProofs Core.TrajProofs
  Core.FeedbackModel.
Import ListNotations.
Local Open Scope Q_scope.

(** ** Specification *)

(** Sum over j < n. *)
Fixpoint qsum (n : nat) (f : nat -> Q) : Q :=
  match n with O => 0 | S k => qsum k f + f k end.

(** r = uff + K (x - xref), entry by entry; K is stored row after row. *)
Definition feedback_law (m n : nat) (u K xr x r : list Q) : Prop :=
  length r = m /\
  forall i, (i < m)%nat ->
    nth i r 0 == nth i u 0 + qsum n (fun j => nth (i * n + j) K 0 * (nth j x 0 - nth j xr 0)).

(** The plan in force after a history of calls: that of the last update whose array lengths fit
    (N+1 times and states, N controls and gains). *)
Definition plan := (list (list Q) * list (list Q) * list (list Q) * list Q)%type.
Fixpoint in_force (p : option plan) (ops : list fb_op) : option plan :=
  match ops with
  | [] => p
  | FbUpdate xs us Ks ts :: r =>
      if (length xs =? length ts)%nat && (length us =? length ts - 1)%nat
         && (length Ks =? length ts - 1)%nat
      then in_force (Some (xs, us, Ks, ts)) r else in_force p r
  | FbEval _ _ :: r => in_force p r
  end.

Definition has_times (o : fb_op) : Prop :=
  match o with FbUpdate _ _ _ ts => ts <> [] | _ => True end.

(** ** Lemmas *)

Lemma qsum_ext n f g : (forall i, (i < n)%nat -> f i == g i) -> qsum n f == qsum n g.
Proof. induction n as [|n IH]; intros H; simpl; [reflexivity|]. rewrite IH, H; auto. reflexivity. Qed.

Lemma qsum_shift n f : qsum (S n) f == f 0%nat + qsum n (fun i => f (S i)).
Proof. induction n as [|n IH]; [simpl; ring|]. cbn [qsum] in *. rewrite IH. ring. Qed.

Lemma vdot_sum : forall n a b, length a = n -> length b = n ->
  vdot a b == qsum n (fun j => nth j a 0 * nth j b 0).
Proof.
  induction n as [|n IH]; intros [|x a] [|y b] Ha Hb; try discriminate; [reflexivity|].
  rewrite qsum_shift. cbn [vdot nth]. rewrite IH by (simpl in *; lia). reflexivity.
Qed.

Lemma nth_firstn_lt {A} (d : A) : forall k l j, (j < k)%nat -> nth j (firstn k l) d = nth j l d.
Proof. induction k as [|k IH]; intros [|x l] [|j] H; try lia; simpl; auto. apply IH. lia. Qed.

Lemma nth_skipn_add {A} (d : A) : forall k l j, nth j (skipn k l) d = nth (k + j) l d.
Proof. induction k as [|k IH]; intros [|x l] j; simpl; auto. destruct j; reflexivity. Qed.

Lemma mat_vec_nth n v : length v = n -> forall m K, length K = (m * n)%nat ->
  length (mat_vec m n K v) = m /\
  forall i, (i < m)%nat -> nth i (mat_vec m n K v) 0 == qsum n (fun j => nth (i * n + j) K 0 * nth j v 0).
Proof.
  intros Hv. induction m as [|m IH]; intros K HK; simpl; [split; [reflexivity|intros; lia]|].
  destruct (IH (skipn n K)) as [Hl Hn].
  { rewrite skipn_length, HK. simpl. lia. }
  split; [now rewrite Hl|]. intros [|i] Hi.
  - rewrite (vdot_sum n); auto.
    + apply qsum_ext; intros j Hj. rewrite nth_firstn_lt by auto. reflexivity.
    + rewrite firstn_length, HK. simpl. lia.
  - rewrite Hn by lia. apply qsum_ext; intros j Hj. rewrite nth_skipn_add.
    replace (S i * n + j)%nat with (n + (i * n + j))%nat by lia. reflexivity.
Qed.

Lemma vsub_nth : forall a b, length a = length b ->
  length (vsub a b) = length a /\ forall j, nth j (vsub a b) 0 == nth j a 0 - nth j b 0.
Proof.
  induction a as [|x a IH]; intros [|y b] H; try discriminate; simpl.
  - split; [reflexivity|]. intros [|j]; ring.
  - destruct (IH b) as [Hl Hn]; [simpl in H; lia|]. split; [lia|].
    intros [|j]; [reflexivity|apply Hn].
Qed.

Lemma vadd_nth : forall a b, length a = length b ->
  length (vadd a b) = length a /\ forall j, nth j (vadd a b) 0 == nth j a 0 + nth j b 0.
Proof.
  induction a as [|x a IH]; intros [|y b] H; try discriminate; simpl.
  - split; [reflexivity|]. intros [|j]; ring.
  - destruct (IH b) as [Hl Hn]; [simpl in H; lia|]. split; [lia|].
    intros [|j]; [reflexivity|apply Hn].
Qed.

Lemma law_holds m n u K xr x : length u = m -> length K = (m * n)%nat -> length xr = n -> length x = n ->
  feedback_law m n u K xr x (vadd u (mat_vec m n K (vsub x xr))).
Proof.
  intros Hu HK Hxr Hx.
  destruct (vsub_nth x xr ltac:(lia)) as [Hs Hsn].
  destruct (mat_vec_nth n (vsub x xr) ltac:(lia) m K HK) as [Hm Hmn].
  destruct (vadd_nth u (mat_vec m n K (vsub x xr)) ltac:(lia)) as [Ha Han].
  split; [lia|]. intros i Hi. rewrite Han, Hmn by auto.
  apply Qplus_inj_l. apply qsum_ext; intros j _. rewrite Hsn. reflexivity.
Qed.

(** The state of the controller after a history. *)
Definition follows (tx tu tk : interp_type) (p : option plan) (c : controller) : Prop :=
  tr_type (c_x c) = tx /\ tr_type (c_u c) = tu /\ tr_type (c_K c) = tk /\
  (0 <= tr_hint (c_x c))%Z /\ (0 <= tr_hint (c_u c))%Z /\ (0 <= tr_hint (c_K c))%Z /\
  match p with
  | None => True
  | Some (xs, us, Ks, ts) =>
      tr_time (c_x c) = ts /\ tr_data (c_x c) = xs /\
      tr_time (c_u c) = removelast ts /\ tr_data (c_u c) = us /\
      tr_time (c_K c) = removelast ts /\ tr_data (c_K c) = Ks
  end.

Lemma removelast_length {A} (l : list A) : length (removelast l) = (length l - 1)%nat.
Proof.
  induction l as [|a l IH]; [reflexivity|]. destruct l as [|b l]; [reflexivity|].
  change (removelast (a :: b :: l)) with (a :: removelast (b :: l)).
  change (length (a :: removelast (b :: l))) with (S (length (removelast (b :: l)))). rewrite IH.
  simpl. lia.
Qed.

Lemma eval_keeps t s : (0 <= tr_hint s)%Z ->
  let s' := fst (traj_eval t s) in
  tr_time s' = tr_time s /\ tr_data s' = tr_data s /\ tr_type s' = tr_type s /\ (0 <= tr_hint s')%Z.
Proof.
  intros Hh. unfold traj_eval.
  pose proof (interpolate_hint (tr_type s) (tr_time s) (tr_data s) t (tr_hint s) Hh) as H.
  destruct (interpolate _ _ _ _ _ _). simpl in *. auto.
Qed.

Lemma step_follows m n tx tu tk p c o : follows tx tu tk p c -> has_times o ->
  exists c', fb_step m n c o = Ok c' /\ follows tx tu tk (in_force p [o]) c'.
Proof.
  intros (Hx & Hu & Hk & Hx0 & Hu0 & Hk0 & Hp) Ho. destruct o as [xs us Ks ts|x t]; cbn [fb_step in_force].
  - unfold update. destruct ts as [|t0 ts]; [now elim Ho|]. cbn [vec_pop obind].
    rewrite !removelast_length.
    set (N := (length (t0 :: ts) - 1)%nat).
    destruct (Nat.eqb_spec (length Ks) N) as [EK|EK]; cbn [negb andb].
    + destruct (Nat.eqb_spec (length us) N) as [EU|EU]; cbn [negb andb].
      * destruct (Nat.eqb_spec (length xs) (length (t0 :: ts))) as [EX|EX]; cbn [negb andb].
        -- eexists. split; [reflexivity|]. unfold follows. cbn [c_x c_u c_K set_points tr_type tr_hint tr_time tr_data].
           repeat split; auto.
        -- eexists. split; [reflexivity|]. repeat split; auto.
      * eexists. split; [reflexivity|]. rewrite Bool.andb_false_r. repeat split; auto.
    + eexists. split; [reflexivity|]. rewrite !Bool.andb_false_r. repeat split; auto.
  - destruct (eval_keeps t (c_x c) Hx0) as (X1 & X2 & X3 & X4).
    destruct (eval_keeps t (c_u c) Hu0) as (U1 & U2 & U3 & U4).
    destruct (eval_keeps t (c_K c) Hk0) as (K1 & K2 & K3 & K4).
    eexists. split; [reflexivity|]. unfold compute_control.
    destruct (traj_eval t (c_x c)) as [sx rx], (traj_eval t (c_u c)) as [su ru],
      (traj_eval t (c_K c)) as [sk rk]. cbn [fst] in *.
    unfold follows. cbn [c_x c_u c_K].
    rewrite X1, X2, X3, U1, U2, U3, K1, K2, K3. repeat split; auto.
Qed.

Lemma run_follows m n tx tu tk : forall ops p c, follows tx tu tk p c -> Forall has_times ops ->
  exists c', fb_run m n c ops = Ok c' /\ follows tx tu tk (in_force p ops) c'.
Proof.
  induction ops as [|o ops IH]; intros p c Hc Ho.
  - exists c. split; [reflexivity|exact Hc].
  - inversion Ho as [|? ? H1 H2]; subst.
    destruct (step_follows m n tx tu tk p c o Hc H1) as (c1 & E & Hc1).
    cbn [fb_run]. rewrite E. cbn [obind].
    destruct (IH _ c1 Hc1 H2) as (c2 & E2 & Hc2). exists c2. split; [exact E2|].
    destruct o as [xs us Ks ts|x t]; cbn [in_force] in *; [|exact Hc2].
    destruct (_ && _); exact Hc2.
Qed.

Lemma increasing_removelast ts : increasing ts -> increasing (removelast ts).
Proof.
  intros H. induction H as [|a l Hl IH Ha]; [constructor|].
  destruct l as [|b l]; [constructor|].
  change (removelast (a :: b :: l)) with (a :: removelast (b :: l)).
  constructor; [exact IH|].
  rewrite Forall_forall in *. intros y Hy. apply Ha.
  clear - Hy. revert Hy. generalize (b :: l). clear. intros l. induction l as [|c l IH]; [intros []|].
  destruct l as [|d l]; [intros []|].
  change (removelast (c :: d :: l)) with (c :: removelast (d :: l)).
  intros [<-|H]; [now left|right; auto].
Qed.

(** ** Theorems *)

(** After any history of updates and evaluations that leaves a plan in force, the control
    computed at any time and state is uff + K (x - xref), with each of the three on the curve
    through its samples: the controls and gains live on all but the last time. *)
Theorem C11_control_law m n tx tu tk ops xs us Ks ts x t :
  Forall has_times ops ->
  in_force None ops = Some (xs, us, Ks, ts) ->
  increasing ts -> (2 <= length ts)%nat ->
  same_dim n xs -> same_dim m us -> same_dim (m * n) Ks -> length x = n ->
  exists c r u K xr,
    fb_run m n (new_controller tx tu tk) ops = Ok c /\
    snd (compute_control m n x t c) = Ok r /\
    curve_value tu (combine (removelast ts) us) t u /\
    curve_value tk (combine (removelast ts) Ks) t K /\
    curve_value tx (combine ts xs) t xr /\
    feedback_law m n u K xr x r.
Proof.
  intros Ho Hf Hinc Hlen Hx Hu HK Hxl.
  destruct (run_follows m n tx tu tk ops None (new_controller tx tu tk)) as (c & Ec & Hc); auto.
  { unfold follows, new_controller. simpl. repeat split; lia. }
  rewrite Hf in Hc. destruct Hc as (T1 & T2 & T3 & H1 & H2 & H3 & P1 & P2 & P3 & P4 & P5 & P6).
  assert (L : (length us = length (removelast ts) /\ length Ks = length (removelast ts) /\
               length xs = length ts)%nat).
  { rewrite removelast_length. clear - Hf. revert Hf.
    assert (G : forall ops p, (match p with None => True | Some (xs, us, Ks, ts) =>
               length us = (length ts - 1)%nat /\ length Ks = (length ts - 1)%nat /\ length xs = length ts end) ->
             in_force p ops = Some (xs, us, Ks, ts) ->
             length us = (length ts - 1)%nat /\ length Ks = (length ts - 1)%nat /\ length xs = length ts).
    { induction ops0 as [|o ops0 IH]; intros p Hp E.
      - simpl in E. subst p. exact Hp.
      - destruct o as [xs' us' Ks' ts'|x' t']; cbn [in_force] in E.
        + destruct (Nat.eqb_spec (length xs') (length ts')), (Nat.eqb_spec (length us') (length ts' - 1)),
            (Nat.eqb_spec (length Ks') (length ts' - 1)); cbn [andb] in E; refine (IH _ _ E); auto.
        + eapply IH; [exact Hp|exact E]. }
    apply G. exact I. }
  destruct L as (LU & LK & LX).
  assert (Hne : removelast ts <> []).
  { intros E. assert (Z := removelast_length ts). rewrite E in Z. simpl in Z. lia. }
  destruct (interpolate_correct tu (removelast ts) us t (tr_hint (c_u c)) m) as (hu & u & Eu & _ & Lu & Cu); auto.
  { now apply increasing_removelast. }
  destruct (interpolate_correct tk (removelast ts) Ks t (tr_hint (c_K c)) (m * n)) as (hk & K & Ek & _ & Lk & Ck); auto.
  { now apply increasing_removelast. }
  destruct (interpolate_correct tx ts xs t (tr_hint (c_x c)) n) as (hx & xr & Ex & _ & Lx & Cx); auto.
  { intros ->. simpl in Hlen. lia. }
  exists c, (vadd u (mat_vec m n K (vsub x xr))), u, K, xr.
  split; [exact Ec|]. split.
  { unfold compute_control, traj_eval. rewrite T1, T2, T3, P1, P2, P3, P4, P5, P6, Eu, Ek, Ex. reflexivity. }
  repeat (split; [assumption|]). apply law_holds; auto.
Qed.

(** On the reference the feed-forward is returned: in particular for a state equal to the
    interpolated reference. *)
Theorem C11_on_reference m n u K xr x r :
  feedback_law m n u K xr x r -> length u = m -> same_vec x xr -> same_vec r u.
Proof.
  intros [Hl Hr] Hu Hx.
  assert (Hxn : forall j, nth j x 0 == nth j xr 0).
  { clear - Hx. induction Hx as [|a b la lb E _ IH]; intros [|j]; try reflexivity; [exact E|apply IH]. }
  assert (Hn : forall i, (i < m)%nat -> nth i r 0 == nth i u 0).
  { intros i Hi. rewrite Hr by auto.
    assert (Z : qsum n (fun j => nth (i * n + j) K 0 * (nth j x 0 - nth j xr 0)) == 0).
    { clear - Hxn. induction n as [|k IH]; [reflexivity|]. cbn [qsum].
      assert (G : forall N, qsum N (fun j => nth (i * S k + j) K 0 * (nth j x 0 - nth j xr 0)) == 0).
      { induction N as [|N IHN]; [reflexivity|]. cbn [qsum]. rewrite IHN, (Hxn N). ring. }
      rewrite G, (Hxn k). ring. }
    rewrite Z. ring. }
  clear Hr. revert u r Hl Hu Hn. clear. unfold same_vec.
  induction m as [|m IH]; intros [|a u] [|b r] Hl Hu Hn; try discriminate; constructor.
  - apply (Hn 0%nat). lia.
  - apply IH; try (simpl in *; lia). intros i Hi. apply (Hn (S i)). lia.
Qed.

(** An update whose array lengths do not fit is refused and changes nothing; one without times
    is undefined behaviour. *)
Theorem C11_update_refused xs us Ks ts c : ts <> [] ->
  update xs us Ks ts c = Throw <->
  (length Ks <> length ts - 1 \/ length us <> length ts - 1 \/ length xs <> length ts)%nat.
Proof.
  intros Hne. unfold update. destruct ts as [|t0 ts]; [now elim Hne|]. cbn [vec_pop obind].
  rewrite !removelast_length.
  destruct (Nat.eqb_spec (length Ks) (length (t0 :: ts) - 1)); cbn [negb];
    [|split; auto].
  destruct (Nat.eqb_spec (length us) (length (t0 :: ts) - 1)); cbn [negb]; [|split; auto].
  destruct (Nat.eqb_spec (length xs) (length (t0 :: ts))); cbn [negb]; [|split; auto].
  split; [discriminate|]. intros [H|[H|H]]; contradiction.
Qed.

Theorem C11_update_empty_refuted xs us Ks c : update xs us Ks [] c = UB.
Proof. reflexivity. Qed.

(** The discrete-time law: the samples of step k are used, without interpolation. *)
Theorem C11_discrete_law m n x k c u K xr :
  nth_error (tr_data (c_u c)) k = Some u -> nth_error (tr_data (c_K c)) k = Some K ->
  nth_error (tr_data (c_x c)) k = Some xr ->
  length u = m -> length K = (m * n)%nat -> length xr = n -> length x = n ->
  exists r, compute_control_step m n x k c = Ok r /\ feedback_law m n u K xr x r.
Proof.
  intros Eu EK Ex Lu LK Lx L. exists (vadd u (mat_vec m n K (vsub x xr))).
  unfold compute_control_step, vec_get. rewrite Eu, EK, Ex. split; [reflexivity|].
  now apply law_holds.
Qed.

(** Extracting a control trajectory: one control per state but the last, with the time stamp of
    the state and the law of the same index. *)
Theorem C11_extract m n c txs xs :
  xs <> [] -> length xs = length txs ->
  same_dim n xs -> same_dim n (tr_data (c_x c)) -> same_dim m (tr_data (c_u c)) ->
  same_dim (m * n) (tr_data (c_K c)) ->
  (length xs - 1 <= length (tr_data (c_u c)))%nat ->
  (length xs - 1 <= length (tr_data (c_K c)))%nat ->
  (length xs - 1 <= length (tr_data (c_x c)))%nat ->
  exists pts, extract_control m n c txs xs = Ok pts /\ length pts = (length xs - 1)%nat /\
    forall i, (i < length xs - 1)%nat ->
      fst (nth i pts (0, [])) = nth i txs 0 /\
      feedback_law m n (nth i (tr_data (c_u c)) []) (nth i (tr_data (c_K c)) [])
        (nth i (tr_data (c_x c)) []) (nth i xs []) (snd (nth i pts (0, []))).
Proof.
  intros Hne Hlen Dx Dr Du DK Lu LK Lx.
  unfold extract_control. rewrite Hlen, Nat.eqb_refl, <- Hlen.
  assert (G : forall k i, (i + k = length xs - 1)%nat ->
     exists pts, extract_loop m n c txs xs i k = Ok pts /\ length pts = k /\
       forall j, (j < k)%nat ->
         fst (nth j pts (0, [])) = nth (i + j) txs 0 /\
         feedback_law m n (nth (i + j) (tr_data (c_u c)) []) (nth (i + j) (tr_data (c_K c)) [])
           (nth (i + j) (tr_data (c_x c)) []) (nth (i + j) xs []) (snd (nth j pts (0, [])))).
  { induction k as [|k IH]; intros i Hi.
    - exists []. repeat split; intros; lia.
    - destruct (IH (S i)) as (pts & E & Hl & Hp); [lia|].
      assert (Nx : nth_error xs i = Some (nth i xs [])) by (apply nth_error_nth'; lia).
      assert (Nt : nth_error txs i = Some (nth i txs 0)) by (apply nth_error_nth'; lia).
      assert (Nu : nth_error (tr_data (c_u c)) i = Some (nth i (tr_data (c_u c)) []))
        by (apply nth_error_nth'; lia).
      assert (NK : nth_error (tr_data (c_K c)) i = Some (nth i (tr_data (c_K c)) []))
        by (apply nth_error_nth'; lia).
      assert (Nr : nth_error (tr_data (c_x c)) i = Some (nth i (tr_data (c_x c)) []))
        by (apply nth_error_nth'; lia).
      unfold same_dim in *. rewrite Forall_forall in Dx, Dr, Du, DK.
      destruct (C11_discrete_law m n (nth i xs []) i c _ _ _ Nu NK Nr) as (r & Er & Hr).
      { apply Du. eapply nth_error_In; eauto. } { apply DK. eapply nth_error_In; eauto. }
      { apply Dr. eapply nth_error_In; eauto. } { apply Dx. eapply nth_error_In; eauto. }
      exists ((nth i txs 0, r) :: pts). cbn [extract_loop]. unfold vec_get at 1 2.
      rewrite Nx. cbn [obind]. rewrite Er. cbn [obind]. rewrite Nt. cbn [obind]. rewrite E.
      cbn [obind]. split; [reflexivity|]. split; [simpl; lia|].
      intros [|j] Hj.
      + rewrite Nat.add_0_r. split; [reflexivity|exact Hr].
      + replace (i + S j)%nat with (S i + j)%nat by lia. apply Hp. lia. }
  destruct xs as [|x0 xs]; [now elim Hne|].
  destruct (G (length (x0 :: xs) - 1)%nat 0%nat ltac:(lia)) as (pts & E & Hl & Hp).
  exists pts. split; [exact E|]. split; [exact Hl|]. exact Hp.
Qed.

(** An empty state trajectory makes the loop bound wrap around. *)
Theorem C11_extract_empty_refuted m n c : extract_control m n c [] [] = UB.
Proof. reflexivity. Qed.

(** A concrete controller: two states, one input, three times, linear interpolation of the
    reference; evaluated after another evaluation and after a refused update. *)
Example C11_example :
  let ops := [FbEval [0; 0] 5;
              FbUpdate [[0; 0]; [2; 0]; [4; 0]] [[1]; [2]] [[1; 0]; [3; 1]] [0; 1; 2];
              FbUpdate [] [] [] [7];
              FbEval [0; 0] (3 # 2)] in
  Forall has_times ops /\
  in_force None ops = Some ([[0; 0]; [2; 0]; [4; 0]], [[1]; [2]], [[1; 0]; [3; 1]], [0; 1; 2]) /\
  match fb_run 1 2 (new_controller LIN ZOH ZOH) ops with
  | Ok c => match snd (compute_control 1 2 [2; 5] (1 # 2) c) with
            | Ok [r] => r == 1 + 1 * (2 - 1)
            | _ => False end
  | _ => False
  end.
Proof.
  split; [repeat constructor; discriminate|]. split; [reflexivity|]. vm_compute. reflexivity.
Qed.

Print Assumptions C11_control_law.
Print Assumptions C11_on_reference.
Print Assumptions C11_update_refused.
Print Assumptions C11_update_empty_refuted.
Print Assumptions C11_discrete_law.
Print Assumptions C11_extract.
Print Assumptions C11_extract_empty_refuted.
