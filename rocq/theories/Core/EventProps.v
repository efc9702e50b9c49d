(** C99: events during integration. *)
From Coq Require Import List Bool Arith Lia Reals Lra.
From Verif Require Import Core.EventModel.
Import ListNotations.

Section EventProps.
Variables V T : Type.
Variable stepf : V -> T -> T -> V.
Variable evals : V -> T -> T -> list V.
Variable tadd : T -> T -> T.
Variable ext : nat -> nat -> option bool.

(** ** Specification *)
(** State and time after [k] steps without any events. *)
Fixpoint point (x : V) (t dt : T) (k : nat) : V * T :=
  match k with O => (x, t) | S k' => let p := point x t dt k' in (stepf (fst p) (snd p) dt, tadd (snd p) dt) end.
(** All evaluations of the dynamics in the first [k] steps. *)
Definition evaluations (x : V) (t dt : T) (k : nat) : list V :=
  concat (map (fun j => evals (fst (point x t dt j)) (snd (point x t dt j)) dt) (seq 0 k)).
(** The kill flag of handler [i] when the k-th step is observed: the last write since the integration began. *)
Fixpoint flagAt (i k : nat) : bool := match k with O => false | S k' => match ext k i with Some b => b | None => flagAt i k' end end.
(** Some handler demands a stop at the k-th step: more steps than allowed, or a raised flag. *)
Definition stopsAt (hs : list handler) (k : nat) : Prop :=
  exists i h, nth_error hs i = Some h /\ match h with MaxSteps m _ => (m < k)%nat | Kill _ => flagAt i k = true | Recorder _ _ _ => False end.
Definition connected (h : handler) : Prop := match h with Recorder a s _ => a = true -> s = true | _ => True end.

(** ** Exact state of handlers and arrays *)
Fixpoint expect (b i c w : nat) (hs : list handler) : list handler :=
  match hs with
  | [] => []
  | MaxSteps m _ :: r => MaxSteps m c :: expect b (S i) c w r
  | Kill _ :: r => Kill (flagAt i w) :: expect b (S i) c w r
  | Recorder a s _ :: r => Recorder a s b :: expect (S b) (S i) c w r
  end.
Fixpoint arrays (E : list V) (hs : list handler) : list (list V) :=
  match hs with [] => [] | Recorder a _ _ :: r => (if a then E else []) :: arrays E r | _ :: r => arrays E r end.
Fixpoint stopb (i k : nat) (hs : list handler) : bool :=
  match hs with
  | [] => false
  | MaxSteps m _ :: r => (m <? k)%nat || stopb (S i) k r
  | Kill _ :: r => flagAt i k || stopb (S i) k r
  | Recorder _ _ _ :: r => stopb (S i) k r
  end.
Lemma stopb_spec k : forall hs i, stopb i k hs = true <-> exists j h, nth_error hs j = Some h /\ match h with MaxSteps m _ => (m < k)%nat | Kill _ => flagAt (i + j) k = true | Recorder _ _ _ => False end.
Proof.
  induction hs as [|h hs IH]; intros i.
  - cbn. split; [discriminate|]. intros (j & h & E & _). destruct j; discriminate.
  - assert (A : (exists j h', nth_error (h :: hs) j = Some h' /\ match h' with MaxSteps m _ => (m < k)%nat | Kill _ => flagAt (i + j) k = true | Recorder _ _ _ => False end) <->
      match h with MaxSteps m _ => (m < k)%nat | Kill _ => flagAt i k = true | Recorder _ _ _ => False end \/ stopb (S i) k hs = true).
    { rewrite IH. split.
      - intros ([|j] & h' & E & P); cbn in E; [injection E as <-; left; rewrite Nat.add_0_r in P; exact P|]. right. exists j, h'. split; [exact E|]. replace (S i + j)%nat with (i + S j)%nat by lia. exact P.
      - intros [P|(j & h' & E & P)]; [exists 0%nat, h; rewrite Nat.add_0_r; split; [reflexivity|exact P]|]. exists (S j), h'. split; [exact E|]. replace (i + S j)%nat with (S i + j)%nat by lia. exact P. }
    rewrite A. destruct h; cbn [stopb]; rewrite ?orb_true_iff, ?Nat.ltb_lt; tauto.
Qed.
Lemma stopb_at hs k : stopb 0 k hs = true <-> stopsAt hs k.
Proof. rewrite stopb_spec. reflexivity. Qed.

Lemma reset_expect : forall hs hp i, resetHandlers V hs hp = (expect (length hp) i 0 0 hs, hp ++ arrays [] hs).
Proof.
  induction hs as [|h hs IH]; intros hp i; [cbn; rewrite app_nil_r; reflexivity|]. destruct h as [m c|b|a s r]; cbn [resetHandlers resetHandler expect arrays flagAt].
  - rewrite (IH hp (S i)). reflexivity.
  - rewrite (IH hp (S i)). reflexivity.
  - rewrite (IH (hp ++ [[]]) (S i)), app_length. cbn [length]. rewrite Nat.add_1_r, <- app_assoc. destruct a; reflexivity.
Qed.
Lemma push_at : forall (p : list (list V)) E q x, push V (p ++ E :: q) (length p) x = p ++ (E ++ [x]) :: q.
Proof. induction p as [|l p IH]; intros; cbn; [reflexivity|]. rewrite IH. reflexivity. Qed.
Lemma notify_substep x c w E : forall hs i hp, List.Forall connected hs ->
  notify V true (expect (length hp) i c w hs) x (hp ++ arrays E hs) = (expect (length hp) i c w hs, hp ++ arrays (E ++ [x]) hs, Fine).
Proof.
  induction hs as [|h hs IH]; intros i hp C; [reflexivity|]. pose proof (Forall_inv C) as Ch. pose proof (Forall_inv_tail C) as Cs.
  destruct h as [m c'|b|a s r]; cbn [expect arrays notify callOnSubsteps Bool.eqb].
  - rewrite IH by assumption. reflexivity.
  - rewrite IH by assumption. reflexivity.
  - cbn [fire]. destruct a.
    + cbn in Ch. rewrite (Ch eq_refl), push_at. pose proof (IH (S i) (hp ++ [E ++ [x]]) Cs) as Q. rewrite app_length in Q. cbn [length] in Q. rewrite Nat.add_1_r, <- !app_assoc in Q. cbn [app] in Q.
      change ((E ++ [x]) :: arrays E hs) with ([E ++ [x]] ++ arrays E hs) in *. rewrite Q. reflexivity.
    + pose proof (IH (S i) (hp ++ [[]]) Cs) as Q. rewrite app_length in Q. cbn [length] in Q. rewrite Nat.add_1_r, <- !app_assoc in Q. cbn [app] in Q. rewrite Q. reflexivity.
Qed.
Lemma notify_substeps c w hs hp : List.Forall connected hs -> forall xs E,
  notifyAll V xs (expect (length hp) 0 c w hs) (hp ++ arrays E hs) = (expect (length hp) 0 c w hs, hp ++ arrays (E ++ xs) hs, Fine).
Proof.
  intros C. induction xs as [|x xs IH]; intros E; cbn [notifyAll]; [rewrite app_nil_r; reflexivity|]. rewrite notify_substep by assumption. rewrite IH, <- app_assoc. reflexivity.
Qed.
Lemma write_expect k c : forall hs b i, writeFrom i (ext (S k)) (expect b i c k hs) = expect b i c (S k) hs.
Proof. induction hs as [|h hs IH]; intros b i; [reflexivity|]. destruct h; cbn [expect writeFrom]; rewrite IH; try reflexivity. cbn [flagAt]. destruct (ext (S k) i); reflexivity. Qed.
Lemma notify_step x k : forall hs b i hp, exists hs' st, notify V false (expect b i k (S k) hs) x hp = (hs', hp, st) /\
  (if stopb i (S k) hs then st = Threw else st = Fine /\ hs' = expect b i (S k) (S k) hs).
Proof.
  induction hs as [|h hs IH]; intros b i hp; [eexists _, _; split; [reflexivity|]; cbn; auto|]. destruct h as [m c|f|a s r]; cbn [expect notify callOnSubsteps Bool.eqb fire stopb].
  - rewrite Nat.add_1_r. destruct (m <? S k)%nat; cbn [orb]; [eexists _, _; split; reflexivity|]. destruct (IH b (S i) hp) as (hs' & st & E & P). rewrite E. eexists _, _. split; [reflexivity|].
    destruct (stopb (S i) (S k) hs); [exact P|]. destruct P as [-> ->]. auto.
  - destruct (flagAt i (S k)) eqn:Fl; cbn [orb]; [eexists _, _; split; reflexivity|]. destruct (IH b (S i) hp) as (hs' & st & E & P). rewrite E. eexists _, _. split; [reflexivity|].
    destruct (stopb (S i) (S k) hs); [exact P|]. destruct P as [-> ->]. auto.
  - destruct (IH (S b) (S i) hp) as (hs' & st & E & P). rewrite E. eexists _, _. split; [reflexivity|]. destruct (stopb (S i) (S k) hs); [exact P|]. destruct P as [-> ->]. auto.
Qed.
Lemma notify_keeps x : forall hs hp hs' hp' st j a s r, notify V false hs x hp = (hs', hp', st) -> nth_error hs j = Some (Recorder a s r) -> nth_error hs' j = Some (Recorder a s r).
Proof.
  induction hs as [|h hs IH]; intros hp hs' hp' st j a s r N Ej; [destruct j; discriminate|]. cbn [notify] in N. destruct (Bool.eqb (callOnSubsteps h) false) eqn:Q.
  - destruct j as [|j]; [cbn in Ej; injection Ej as ->; discriminate|]. destruct (fire V h x hp) as [[h1 hp1] st1]. destruct st1.
    + destruct (notify V false hs x hp1) as [[r1 hp2] st2] eqn:N2. injection N as <- <- <-. cbn in *. exact (IH _ _ _ _ _ _ _ _ N2 Ej).
    + injection N as <- <- <-. exact Ej.
    + injection N as <- <- <-. exact Ej.
  - destruct (notify V false hs x hp) as [[r1 hp2] st2] eqn:N2. injection N as <- <- <-. destruct j as [|j]; [exact Ej|]. cbn in *. exact (IH _ _ _ _ _ _ _ _ N2 Ej).
Qed.
Lemma expect_recorder E c w a s r0 : forall hs b i j, nth_error hs j = Some (Recorder a s r0) ->
  exists r, nth_error (expect b i c w hs) j = Some (Recorder a s r) /\ (b <= r)%nat /\ nth_error (arrays E hs) (r - b) = Some (if a then E else []).
Proof.
  induction hs as [|h hs IH]; intros b i j Ej; [destruct j; discriminate|]. destruct j as [|j].
  - injection Ej as ->. exists b. cbn. rewrite Nat.sub_diag. auto.
  - cbn in Ej. destruct h as [m c'|f|a' s' r']; cbn [expect arrays nth_error].
    + apply IH; exact Ej. + apply IH; exact Ej.
    + destruct (IH (S b) (S i) j Ej) as (r & E1 & E2 & E3). exists r. split; [exact E1|]. split; [lia|]. destruct (r - b)%nat as [|d] eqn:D; [lia|]. cbn. replace d with (r - S b)%nat by lia. exact E3.
Qed.
Lemma evaluations_S x t dt k : evaluations x t dt (S k) = evaluations x t dt k ++ evals (fst (point x t dt k)) (snd (point x t dt k)) dt.
Proof. unfold evaluations. rewrite seq_S, map_app, concat_app. cbn. rewrite app_nil_r. reflexivity. Qed.

Definition reached (hs : list handler) (old : list (list V)) (x : V) (t dt : T) (k : nat) : world V T :=
  mkWorld V T (expect (length old) 0 k k hs) (map (point x t dt) (seq 1 k)) (old ++ arrays (evaluations x t dt k) hs).
Lemma steps_spec hs old x t dt : List.Forall connected hs -> forall n k,
  let run := steps V T stepf evals tadd ext (S k) n (fst (point x t dt k)) (snd (point x t dt k)) dt (reached hs old x t dt k) in
  ((forall j, (k < j <= k + n)%nat -> stopb 0 j hs = false) -> run = (reached hs old x t dt (k + n), fst (point x t dt (k + n)), Fine)) /\
  (forall j, (k < j <= k + n)%nat -> stopb 0 j hs = true -> (forall l, (k < l < j)%nat -> stopb 0 l hs = false) ->
     exists hs', run = (mkWorld V T hs' (map (point x t dt) (seq 1 j)) (old ++ arrays (evaluations x t dt j) hs), fst (point x t dt j), Threw) /\
       forall i a s r, nth_error (expect (length old) 0 0 0 hs) i = Some (Recorder a s r) -> nth_error hs' i = Some (Recorder a s r)).
Proof.
  intros C. induction n as [|n IH]; intros k run.
  - split; [intros _; unfold run; cbn [steps]; rewrite Nat.add_0_r; reflexivity|]. intros j Hj. lia.
  - assert (U : run = match notify V false (expect (length old) 0 k (S k) hs) (fst (point x t dt (S k))) (old ++ arrays (evaluations x t dt (S k)) hs) with
      | (hs', hp', Fine) => steps V T stepf evals tadd ext (S (S k)) n (fst (point x t dt (S k))) (snd (point x t dt (S k))) dt (mkWorld V T hs' (map (point x t dt) (seq 1 (S k))) hp')
      | (hs', hp', st) => (mkWorld V T hs' (map (point x t dt) (seq 1 (S k))) hp', fst (point x t dt (S k)), st) end).
    { unfold run. cbn [steps reached handlers heap logged]. rewrite notify_substeps by exact C. rewrite <- evaluations_S. rewrite write_expect.
      assert (L : map (point x t dt) (seq 1 (S k)) = map (point x t dt) (seq 1 k) ++ [(fst (point x t dt (S k)), snd (point x t dt (S k)))]).
      { rewrite seq_S, map_app. cbn [map Nat.add]. rewrite <- surjective_pairing. reflexivity. }
      rewrite L. rewrite (Nat.add_1_r (S k)). reflexivity. }
    destruct (notify_step (fst (point x t dt (S k))) k hs (length old) 0 (old ++ arrays (evaluations x t dt (S k)) hs)) as (hs' & st & E & P). rewrite E in U.
    specialize (IH (S k)). cbv zeta in IH. destruct IH as [IH1 IH2].
    assert (K : forall i a s r, nth_error (expect (length old) 0 0 0 hs) i = Some (Recorder a s r) -> nth_error hs' i = Some (Recorder a s r)).
    { intros i a s r H. apply (notify_keeps _ _ _ _ _ _ i a s r E). assert (G : forall hs b i' j, nth_error (expect b i' 0 0 hs) j = Some (Recorder a s r) -> nth_error (expect b i' k (S k) hs) j = Some (Recorder a s r)).
      { clear. induction hs as [|h hs IH]; intros b i' j H; [destruct j; discriminate|]. destruct h; destruct j; cbn in *; try discriminate; try exact H; apply IH; exact H. } apply G. exact H. }
    split.
    + intros Q. rewrite (Q (S k)) in P by lia. destruct P as [-> ->]. rewrite U. replace (k + S n)%nat with (S k + n)%nat by lia. exact (IH1 (fun j Hj => Q j ltac:(lia))).
    + intros j Hj Sj Lj. destruct (Nat.eq_dec j (S k)) as [->|N].
      * rewrite Sj in P. subst st. rewrite U. exists hs'. split; [reflexivity|exact K].
      * rewrite (Lj (S k)) in P by lia. destruct P as [-> ->]. destruct (IH2 j ltac:(lia) Sj (fun l Hl => Lj l ltac:(lia))) as (hs2 & E2 & K2). exists hs2. split; [rewrite U; exact E2|exact K2].
Qed.

(** What the recorders hold after [k] steps: the recorder's present array holds all evaluations, if it is switched on. *)
Definition recorded (w w' : world V T) (x : V) (t dt : T) (k : nat) : Prop :=
  forall i a s r0, nth_error (handlers V T w) i = Some (Recorder a s r0) ->
  exists r, nth_error (handlers V T w') i = Some (Recorder a s r) /\ nth_error (heap V T w') r = Some (if a then evaluations x t dt k else []).

(** Whatever earlier integrations left behind: without a reason to stop, all steps are made and returned. *)
Theorem C99_completes (w : world V T) (n : nat) (x : V) (t dt : T) (traj : list (V * T)) : List.Forall connected (handlers V T w) ->
  (forall k, (1 <= k <= n)%nat -> ~ stopsAt (handlers V T w) k) ->
  exists w', integrate V T stepf evals tadd ext n x t dt traj w = (w', fst (point x t dt n), map (point x t dt) (seq 1 n), Fine) /\ recorded w w' x t dt n.
Proof.
  intros C N. unfold integrate, resetObserver. rewrite (reset_expect _ _ 0). destruct (steps_spec (handlers V T w) (heap V T w) x t dt C n 0) as [A _]. unfold reached in A. cbn [point fst snd seq map evaluations concat] in A.
  change (evaluations x t dt 0) with (@nil V) in A. rewrite A; [|intros j Hj; destruct (stopb 0 j (handlers V T w)) eqn:Q; [exfalso; apply (N j ltac:(lia)); apply stopb_at; exact Q|reflexivity]].
  cbn [Nat.add handlers logged heap]. eexists. split; [reflexivity|]. intros i a s r0 H. destruct (expect_recorder (evaluations x t dt n) n n a s r0 _ (length (heap V T w)) 0 i H) as (r & E1 & E2 & E3).
  exists r. cbn [handlers heap]. split; [exact E1|]. rewrite nth_error_app2 by exact E2. exact E3.
Qed.
(** Otherwise an exception leaves at the first step that gives a reason to stop: the state is the one after that step, and the
    caller's trajectory is untouched. *)
Theorem C99_stops (w : world V T) (n : nat) (x : V) (t dt : T) (traj : list (V * T)) (k : nat) : List.Forall connected (handlers V T w) ->
  (1 <= k <= n)%nat -> stopsAt (handlers V T w) k -> (forall j, (1 <= j < k)%nat -> ~ stopsAt (handlers V T w) j) ->
  exists w', integrate V T stepf evals tadd ext n x t dt traj w = (w', fst (point x t dt k), traj, Threw) /\ recorded w w' x t dt k.
Proof.
  intros C Hk Sk Lk. unfold integrate, resetObserver. rewrite (reset_expect _ _ 0). destruct (steps_spec (handlers V T w) (heap V T w) x t dt C n 0) as [_ B]. unfold reached in B. cbn [point fst snd seq map] in B.
  change (evaluations x t dt 0) with (@nil V) in B. destruct (B k) as (hs' & E & K); [lia|apply stopb_at; exact Sk|intros l Hl; destruct (stopb 0 l (handlers V T w)) eqn:Q; [exfalso; apply (Lk l ltac:(lia)); apply stopb_at; exact Q|reflexivity]|].
  rewrite E. eexists. split; [reflexivity|]. intros i a s r0 H. destruct (expect_recorder (evaluations x t dt k) 0 0 a s r0 _ (length (heap V T w)) 0 i H) as (r & E1 & E2 & E3).
  exists r. cbn [handlers heap]. split; [exact (K i a s r E1)|]. rewrite nth_error_app2 by exact E2. exact E3.
Qed.
(** With a limit on the number of steps only: exactly as many steps as allowed. *)
Theorem C99_max_steps (m c n : nat) (x : V) (t dt : T) (traj : list (V * T)) log (old : list (list V)) :
  let r := integrate V T stepf evals tadd ext n x t dt traj (mkWorld V T [MaxSteps m c] log old) in
  ((n <= m)%nat -> snd r = Fine /\ snd (fst (fst r)) = fst (point x t dt n)) /\ ((m < n)%nat -> snd r = Threw /\ snd (fst (fst r)) = fst (point x t dt (m + 1))).
Proof.
  assert (Q : forall k, stopsAt [MaxSteps m c] k <-> (m < k)%nat).
  { intros k. split; [intros ([|[|i]] & h & E & P); try discriminate; injection E as <-; exact P|]. intros H. exists 0%nat, (MaxSteps m c). auto. }
  assert (C : List.Forall connected [MaxSteps m c]) by (constructor; [exact I|constructor]).
  split; intros H.
  - destruct (C99_completes (mkWorld V T [MaxSteps m c] log old) n x t dt traj C) as (w' & E & _); [intros k Hk; rewrite Q; lia|]. rewrite E. auto.
  - destruct (C99_stops (mkWorld V T [MaxSteps m c] log old) n x t dt traj (m + 1) C) as (w' & E & _); [lia|apply Q; lia|intros j Hj; rewrite Q; lia|]. rewrite E. auto.
Qed.
(** Refuted: a kill requested before the integration starts has no effect on it: the flag is cleared first. *)
Theorem C99_kill_before_refuted (n : nat) (x : V) (t dt : T) (traj : list (V * T)) (b : bool) log (old : list (list V)) : (forall k j, ext k j = None) ->
  let w := setEvent V T 0 (mkWorld V T [Kill b] log old) in
  handlers V T w = [Kill true] /\ snd (integrate V T stepf evals tadd ext n x t dt traj w) = Fine /\ snd (fst (fst (integrate V T stepf evals tadd ext n x t dt traj w))) = fst (point x t dt n).
Proof.
  intros X w. split; [reflexivity|]. assert (C : List.Forall connected (handlers V T w)) by (constructor; [exact I|constructor]).
  destruct (C99_completes w n x t dt traj C) as (w' & E & _); [|rewrite E; auto]. intros k _ ([|[|j]] & h & E & P); try discriminate. injection E as <-.
  assert (F : forall k, flagAt 0 k = false) by (induction k0 as [|k0 IH]; cbn; [reflexivity|rewrite X; exact IH]). rewrite F in P. discriminate.
Qed.
(** Refuted: the array handed to a recorder by its user is never written, however the integration ends. *)
Theorem C99_recorder_array_refuted (w : world V T) (n : nat) (x : V) (t dt : T) (traj : list (V * T)) : List.Forall connected (handlers V T w) ->
  exists fresh, heap V T (fst (fst (fst (integrate V T stepf evals tadd ext n x t dt traj w)))) = heap V T w ++ fresh.
Proof.
  intros C. unfold integrate, resetObserver. rewrite (reset_expect _ _ 0). destruct (steps_spec (handlers V T w) (heap V T w) x t dt C n 0) as [A B]. unfold reached in A, B. cbn [point fst snd seq map] in A, B.
  change (evaluations x t dt 0) with (@nil V) in A, B.
  assert (D : forall n, (forall j, (0 < j <= 0 + n)%nat -> stopb 0 j (handlers V T w) = false) \/ exists j, (0 < j <= 0 + n)%nat /\ stopb 0 j (handlers V T w) = true /\ forall l, (0 < l < j)%nat -> stopb 0 l (handlers V T w) = false).
  { clear. induction n as [|n IH]; [left; intros; lia|]. destruct IH as [IH|(j & H1 & H2 & H3)]; [|right; exists j; repeat split; auto; lia]. destruct (stopb 0 (S n) (handlers V T w)) eqn:Q.
    - right. exists (S n). repeat split; auto; try lia. intros l Hl. apply IH. lia.
    - left. intros j Hj. destruct (Nat.eq_dec j (S n)) as [->|N]; [exact Q|]. apply IH. lia. }
  destruct (D n) as [D1|(j & D1 & D2 & D3)].
  - rewrite (A D1). cbn. eexists. reflexivity.
  - destruct (B j D1 D2 D3) as (hs' & E & _). rewrite E. cbn. eexists. reflexivity.
Qed.
End EventProps.
Print Assumptions C99_completes.
Print Assumptions C99_stops.
Print Assumptions C99_max_steps.
Print Assumptions C99_kill_before_refuted.
Print Assumptions C99_recorder_array_refuted.

(** Refuted: error tolerances set by the user never reach an adaptive stepper. *)
Theorem C99_tolerances_refuted (l : list config) : let s := fold_left configure l newStepper in usedAbs s = (1 / 10 ^ 8)%R /\ usedRel s = (1 / 10 ^ 8)%R.
Proof.
  cbv zeta. assert (A : forall l s, usedAbs s = (1 / 10 ^ 8)%R /\ usedRel s = (1 / 10 ^ 8)%R -> usedAbs (fold_left configure l s) = (1 / 10 ^ 8)%R /\ usedRel (fold_left configure l s) = (1 / 10 ^ 8)%R).
  { induction l0 as [|c l0 IH]; intros s H; [exact H|]. cbn [fold_left]. apply IH. destruct c; [split; reflexivity|exact H]. } apply A. split; reflexivity.
Qed.
Print Assumptions C99_tolerances_refuted.

(** The hypotheses are met: limit of five steps, kill raised at the third of four. *)
Example event_case : let w := mkWorld nat nat [MaxSteps 5 17; Kill true; Recorder true true 0] [(1, 1)] [[9]] in let ext k (i : nat) := if (k =? 3)%nat then Some true else None in
  List.Forall connected (handlers nat nat w) /\ stopsAt ext (handlers nat nat w) 3 /\ (forall j, (1 <= j < 3)%nat -> ~ stopsAt ext (handlers nat nat w) j) /\
  integrate nat nat (fun x _ d => x + d)%nat (fun x _ _ => [x]) Nat.add ext 4 10 0 2 [] w = (mkWorld nat nat [MaxSteps 5 3; Kill true; Recorder true true 1] [(12, 2); (14, 4); (16, 6)] [[9]; [10; 12; 14]], 16, [], Threw)%nat.
Proof.
  cbv zeta. split; [repeat constructor|]. split; [exists 1%nat, (Kill true); split; reflexivity|]. split; [|reflexivity].
  intros j Hj ([|[|[|[|i]]]] & h & E & P); try discriminate; injection E as <-; cbn in P; try lia; try contradiction. assert (j = 1 \/ j = 2)%nat as [-> | ->] by lia; discriminate.
Qed.
