(** C43: the bounds stored in the LQ sub-problem are the original bounds shifted to the deviation
    variables.  C62: the constraint error of a trajectory. *)
From Coq Require Import Reals Lra Lia List Bool Arith ZArith.
From Verif Require Import Base.Outcome Base.RVec Optcon.DmsModel Optcon.DmsProofs
  Optcon.ConstraintModel Optcon.ConstraintSpec Optcon.ConstraintProofs Optcon.ConstraintProps
  Optcon.LqocModel Optcon.LqocSpec Optcon.LqocProofs.
Import ListNotations.
Local Open Scope R_scope.
Local Notation Forall := List.Forall.

Section Lqoc.
Variables n m : nat.
Notation evaluate := (evaluate n m).
Notation size := (size n).
Notation lower := (lower n).
Notation upper := (upper n).
Notation jacobianState := (jacobianState n).
Notation jacobianInput := (jacobianInput n).
Notation nnzState := (nnzState n).
Notation nnzInput := (nnzInput m).
Notation built := (built n m).
Notation crun := (crun n m).
Notation newProblem := (newProblem n m).

(** ** Histories of calls *)

Definition pstep (c : pcall) (p : problem) : outcome problem :=
  match c with
  | InputBox k nC lb ub sp nom => setInputBoxConstraint m k nC lb ub sp nom p
  | InputBoxes nC lb ub sp noms => setInputBoxConstraints m nC lb ub sp noms p
  | StateBox k nC lb ub sp nom => setIntermediateStateBoxConstraint n k nC lb ub sp nom p
  | StateBoxes nC lb ub sp noms => setIntermediateStateBoxConstraints n nC lb ub sp noms p
  | TerminalBox nC lb ub sp nom => setTerminalBoxConstraints n nC lb ub sp nom p
  | General dlb dub C D => setGeneralConstraints dlb dub C D p
  | Zero g => Ok (setZero g p)
  | Resize N => Ok (changeNumStages n m N p)
  end.
(** A call that throws has not written anything (its checks come first, and in the functions that
    set all stages they fail for the first stage already): the caller goes on with the same problem. *)
Fixpoint prun (l : list pcall) (p : problem) : outcome problem :=
  match l with
  | [] => Ok p
  | c :: r => match pstep c p with Ok p' => prun r p' | Throw => prun r p | UB => UB end
  end.

Definition matches (p : problem) (s : pspec) : Prop :=
  p_K p = ps_K s /\ represents m (p_K p) (p_u p) (ps_u s) /\ represents n (S (p_K p)) (p_x p) (ps_x s) /\
  length (p_g p) = S (p_K p).

Lemma new_matches N : matches (newProblem N) (spec0 N).
Proof.
  unfold newProblem, changeNumStages, spec0, matches. cbn [p_K p_u p_x p_g ps_K ps_u ps_x].
  split; [auto|]. split; [|split].
  - eapply represents_ext; [|apply resize_spec, empty_spec with (f := fun _ => None)].
    intros k Hk. cbn beta. now destruct (_ <? _)%nat.
  - eapply represents_ext; [|apply resize_spec, empty_spec with (f := fun _ => None)].
    intros k Hk. cbn beta. now destruct (_ <? _)%nat.
  - apply resize_length.
Qed.

Lemma step_matches c p s : matches p s ->
  match pstep c p with
  | Ok p' => matches p' (sstep n m c s)
  | Throw => sstep n m c s = s
  | UB => True
  end.
Proof.
  intros (HK & Hu & Hx & Hg). destruct c; cbn [pstep sstep].
  - unfold setInputBoxConstraint.
    pose proof (setBox_spec m (p_K p) _ index nConstr lb ub sp nom _ _ Hu) as H.
    destruct (setBox m (p_K p) index nConstr lb ub sp nom (p_u p)) as [b| |]; cbn [obind]; auto.
    + destruct H as (-> & Hk & Hr). cbn [andb]. rewrite <- HK.
      destruct (Nat.ltb_spec index (p_K p)); [|lia]. split; auto.
    + rewrite <- HK, H. reflexivity.
  - unfold setInputBoxConstraints, setBoxes.
    pose proof (setBoxesFrom_spec m (p_K p) _ nConstr lb ub sp noms (p_K p) 0 _ _ Hu ltac:(lia)) as H.
    destruct (setBoxesFrom m (p_K p) (p_K p) 0 nConstr lb ub sp noms (p_u p)) as [b| |]; cbn [obind]; auto.
    + destruct H as [Ha Hr]. rewrite <- HK. destruct (accepted m nConstr lb ub sp) eqn:E.
      * split; [auto|]. cbn [p_K p_u p_x p_g ps_u ps_x]. split; [|auto].
        eapply represents_ext; [|exact Hr]. intros k Hk. reflexivity.
      * destruct Ha as [Hz|]; [|discriminate]. split; [auto|].
        cbn [p_K p_u p_x p_g ps_u ps_x]. split; [|auto]. eapply represents_ext; [|exact Hr].
        intros k Hk. lia.
    + now rewrite H.
  - unfold setIntermediateStateBoxConstraint.
    pose proof (setBox_spec n (p_K p) _ index nConstr lb ub sp nom _ _ Hx) as H.
    destruct (setBox n (p_K p) index nConstr lb ub sp nom (p_x p)) as [b| |]; cbn [obind]; auto.
    + destruct H as (-> & Hk & Hr). cbn [andb]. rewrite <- HK.
      destruct (Nat.ltb_spec index (p_K p)); [|lia]. split; auto.
    + rewrite <- HK, H. reflexivity.
  - unfold setIntermediateStateBoxConstraints, setBoxes.
    pose proof (setBoxesFrom_spec n (p_K p) _ nConstr lb ub sp noms (p_K p) 0 _ _ Hx ltac:(lia)) as H.
    destruct (setBoxesFrom n (p_K p) (p_K p) 0 nConstr lb ub sp noms (p_x p)) as [b| |]; cbn [obind]; auto.
    + destruct H as [Ha Hr]. rewrite <- HK. destruct (accepted n nConstr lb ub sp) eqn:E.
      * split; [auto|]. cbn [p_K p_u p_x p_g ps_u ps_x]. split; [auto|]. split; [|auto].
        eapply represents_ext; [|exact Hr]. intros k Hk. reflexivity.
      * destruct Ha as [Hz|]; [|discriminate]. split; [auto|].
        cbn [p_K p_u p_x p_g ps_u ps_x]. split; [auto|]. split; [|auto].
        eapply represents_ext; [|exact Hr]. intros k Hk. cbn beta.
        destruct (Nat.ltb_spec k (0 + p_K p)); [lia|]. now rewrite andb_false_r.
    + now rewrite H.
  - unfold setTerminalBoxConstraints, setTerminalBox. destruct (0 <? nConstr)%nat; cbn [andb obind].
    2:{ split; auto. }
    destruct (badConfig n nConstr lb ub sp) as [bad| |] eqn:E; cbn [obind]; auto;
      [|destruct (badConfig_not_throw _ _ _ _ _ E)].
    apply badConfig_spec in E as [E1 E2]. destruct bad.
    + cbn [obind]. destruct (accepted n nConstr lb ub sp); [discriminate|reflexivity].
    + destruct (accepted n nConstr lb ub sp); [|discriminate].
      destruct (storeBox n nConstr lb ub sp nom (p_K p) (p_x p)) as [b| |] eqn:Es; cbn [obind]; auto.
      * destruct (store_spec _ _ _ _ _ _ _ _ _ _ _ Hx (proj1 (E2 eq_refl)) Es) as [_ Hr].
        rewrite <- HK. split; auto.
      * destruct (store_not_throw _ _ _ _ _ _ _ _ Es).
  - unfold setGeneralConstraints. destruct (_ || _ || _); [auto|].
    split; [auto|]. split; [auto|]. split; [auto|]. cbn [p_K p_g]. now rewrite repeat_length.
  - unfold setZero. split; [auto|]. cbn [p_K p_u p_x p_g ps_u ps_x].
    split; [eapply clear_spec; eauto|]. split; [eapply clear_spec; eauto|]. now rewrite repeat_length.
  - unfold changeNumStages. split; [auto|]. cbn [p_K p_u p_x p_g ps_u ps_x]. rewrite <- HK.
    split; [apply resize_spec; auto|]. split; [|apply resize_length].
    exact (resize_spec _ _ (S N) _ _ Hx).
Qed.

Lemma run_matches l : forall p s p', matches p s -> prun l p = Ok p' -> matches p' (srun n m l s).
Proof.
  induction l as [|c l IH]; intros p s p' H E; cbn [prun srun] in *.
  - apply Ok_inj in E. now subst p'.
  - pose proof (step_matches c p s H) as Hs. destruct (pstep c p) as [q| |]; [eauto| |discriminate].
    rewrite Hs. eauto.
Qed.

(** For every history of calls: a deviation satisfies the stored bounds of a stage if and only if
    nominal + deviation satisfies the bounds the caller set last for this stage, and no component
    is constrained when there are none. *)
Theorem C43_history calls N p : prun calls (newProblem N) = Ok p ->
  let s := srun n m calls (spec0 N) in
  p_K p = ps_K s /\
  (forall k du, (k < p_K p)%nat -> (feasible (p_u p) k du <-> absolute (ps_u s k) du)) /\
  (forall k dx, (k <= p_K p)%nat -> (feasible (p_x p) k dx <-> absolute (ps_x s k) dx)).
Proof.
  intros E s. destruct (run_matches _ _ _ _ (new_matches N) E) as (HK & [_ Hu] & [_ Hx] & _).
  split; [exact HK|]. split; intros k d Hk; apply stores_feasible; [apply Hu|apply Hx]; lia.
Qed.

(** No call reads or writes out of bounds if, whenever the sizes given agree, there is at least
    one constraint, not more than components, all components exist, and a nominal value is given
    for every stage. *)
Definition goodBox (dim nC : nat) (lb ub : list R) (sp : list Z) : Prop :=
  length lb = nC -> length ub = nC -> length sp = nC ->
  (0 < nC <= dim)%nat /\ forall j, In j sp -> (0 <= j < Z.of_nat dim)%Z.
Fixpoint goodCalls (K : nat) (l : list pcall) : Prop :=
  match l with
  | [] => True
  | c :: r =>
      match c with
      | InputBox _ nC lb ub sp _ => goodBox m nC lb ub sp
      | InputBoxes nC lb ub sp noms => goodBox m nC lb ub sp /\ (K <= length noms)%nat
      | StateBox _ nC lb ub sp _ => goodBox n nC lb ub sp
      | StateBoxes nC lb ub sp noms => goodBox n nC lb ub sp /\ (K <= length noms)%nat
      | TerminalBox nC lb ub sp _ => nC = 0%nat \/ goodBox n nC lb ub sp
      | _ => True
      end /\ goodCalls (match c with Resize N => N | _ => K end) r
  end.

Lemma badConfig_defined dim nC lb ub sp : goodBox dim nC lb ub sp ->
  badConfig dim nC lb ub sp = Ok true \/
  badConfig dim nC lb ub sp = Ok false /\ length sp = nC /\ length lb = nC /\ length ub = nC /\
    (nC <= dim)%nat /\ (forall j, In j sp -> (0 <= j < Z.of_nat dim)%Z).
Proof.
  intros G. unfold badConfig.
  destruct (Nat.eqb_spec (length lb) (length ub)); cbn [negb orb]; [|auto].
  destruct (Nat.eqb_spec (length lb) nC); cbn [negb orb]; [|auto].
  destruct (Nat.eqb_spec (length sp) nC); cbn [negb orb]; [|auto].
  destruct G as [G1 G2]; [lia..|]. right. split; [|repeat (split; [lia|]); auto].
  rewrite <- (badConfig_good dim nC lb ub sp); try lia; auto. unfold badConfig.
  replace (length lb =? length ub)%nat with true by (symmetry; apply Nat.eqb_eq; lia).
  replace (length lb =? nC)%nat with true by (symmetry; apply Nat.eqb_eq; lia).
  replace (length sp =? nC)%nat with true by (symmetry; apply Nat.eqb_eq; lia). reflexivity.
Qed.

Lemma setBox_defined dim K cnt k nC lb ub sp nom b f : represents dim cnt b f -> (K <= cnt)%nat ->
  goodBox dim nC lb ub sp -> setBox dim K k nC lb ub sp nom b <> UB.
Proof.
  intros Hr Hc G. unfold setBox. destruct (badConfig_defined _ _ _ _ _ G) as [->|(-> & L1 & L2 & L3 & L4 & Hs)];
    cbn [obind]; [discriminate|]. destruct (Nat.leb_spec K k); [discriminate|].
  edestruct store_total as (b' & ->); eauto; [lia|discriminate].
Qed.
Lemma setBoxesFrom_defined dim K cnt nC lb ub sp noms k : forall i b f, represents dim cnt b f ->
  (K <= cnt)%nat -> (i + k <= K)%nat -> (K <= length noms)%nat ->
  goodBox dim nC lb ub sp -> setBoxesFrom dim K k i nC lb ub sp noms b <> UB.
Proof.
  induction k as [|k IH]; intros i b f Hr Hc Hi Hn G; cbn [setBoxesFrom]; [discriminate|].
  rewrite (vec_get_nth _ _ rzero) by lia. cbn [obind].
  pose proof (setBox_spec dim K cnt i nC lb ub sp (nth i noms rzero) b f Hr) as H.
  pose proof (setBox_defined dim K cnt i nC lb ub sp (nth i noms rzero) b f Hr Hc G) as Hd.
  destruct (setBox dim K i nC lb ub sp (nth i noms rzero) b) as [b'| |]; cbn [obind];
    [|discriminate|congruence].
  destruct H as (_ & _ & Hr'). eapply IH; eauto. lia.
Qed.

Lemma run_defined calls : forall p s, matches p s -> goodCalls (p_K p) calls ->
  exists p', prun calls p = Ok p'.
Proof.
  induction calls as [|c calls IH]; intros p s Hm G; cbn [prun]; [eauto|].
  cbn [goodCalls] in G. destruct G as [G1 G2].
  pose proof (step_matches c p s Hm) as Hs.
  assert (Hd : pstep c p <> UB).
  { destruct Hm as (HK & Hu & Hx & Hg). destruct c; cbn [pstep]; try discriminate.
    - unfold setInputBoxConstraint. pose proof (setBox_defined m (p_K p) _ index nConstr lb ub sp nom _ _ Hu
        ltac:(lia) G1) as H. destruct (setBox _ _ _ _ _ _ _ _ _); cbn [obind]; congruence.
    - unfold setInputBoxConstraints, setBoxes. destruct G1 as [G1 G1'].
      pose proof (setBoxesFrom_defined m (p_K p) _ nConstr lb ub sp noms (p_K p) 0 _ _ Hu
        ltac:(lia) ltac:(lia) G1' G1) as H. destruct (setBoxesFrom _ _ _ _ _ _ _ _ _ _); cbn [obind]; congruence.
    - unfold setIntermediateStateBoxConstraint.
      pose proof (setBox_defined n (p_K p) _ index nConstr lb ub sp nom _ _ Hx
        ltac:(lia) G1) as H. destruct (setBox _ _ _ _ _ _ _ _ _); cbn [obind]; congruence.
    - unfold setIntermediateStateBoxConstraints, setBoxes. destruct G1 as [G1 G1'].
      pose proof (setBoxesFrom_defined n (p_K p) _ nConstr lb ub sp noms (p_K p) 0 _ _ Hx
        ltac:(lia) ltac:(lia) G1' G1) as H. destruct (setBoxesFrom _ _ _ _ _ _ _ _ _ _); cbn [obind]; congruence.
    - unfold setTerminalBoxConstraints, setTerminalBox. destruct (Nat.ltb_spec 0 nConstr); [|discriminate].
      destruct G1 as [->|G1]; [lia|].
      destruct (badConfig_defined _ _ _ _ _ G1) as [->|(-> & L1 & L2 & L3 & L4 & Hsp)];
        cbn [obind]; [discriminate|].
      edestruct (store_total n) as (b' & ->); eauto; discriminate.
    - unfold setGeneralConstraints. destruct (_ || _ || _); discriminate. }
  assert (HKs : forall q, matches q (sstep n m c s) ->
     p_K q = match c with Resize N => N | _ => p_K p end).
  { intros q [Hq _]. destruct Hm as (HK & _). rewrite Hq, HK. destruct c; cbn [sstep]; try reflexivity;
      match goal with |- context [if ?b then _ else _] => destruct b end; reflexivity. }
  destruct (pstep c p) as [q| |] eqn:E; [| |congruence].
  - eapply IH; eauto. now rewrite HKs.
  - apply (IH p s Hm). destruct c; auto. discriminate E.
Qed.
Theorem C43_no_undefined calls N : goodCalls N calls -> exists p, prun calls (newProblem N) = Ok p.
Proof. intros G. exact (run_defined calls (newProblem N) (spec0 N) (new_matches N) G). Qed.

(** ** Box constraints from a constraint container *)

Definition inputBox (c : constraint) : Prop := match c with CInput _ => True | _ => False end.
Definition stateBox (c : constraint) : Prop := match c with CState _ => True | _ => False end.

(** The components a box term selects. *)
Definition comps (c : constraint) : list nat :=
  match c with CState b | CInput b => selected (b_sp b) 0 | _ => [] end.

Lemma rdot_unit k i v : (i < k)%nat -> rdot k (runit i) v = v i.
Proof.
  intros Hi. assert (H := mulVec_units k [i] v 0). simpl in H. apply H; [|lia]. intros j [<-|[]]; auto.
Qed.
Lemma units_map k idx v : (forall j, In j idx -> (j < k)%nat) -> mulVec k (map runit idx) v = map v idx.
Proof.
  intros H. unfold mulVec. rewrite map_map. apply map_ext_in. intros i Hi. apply rdot_unit. auto.
Qed.

Lemma input_box_facts c : built c -> inputBox c ->
  length (comps c) = size c /\ nnzInput c = size c /\ patternInput n m c = (seq 0 (size c), comps c) /\
  (forall j, In j (comps c) -> (j < m)%nat) /\
  forall x u t, evaluate c x u t = map u (comps c).
Proof.
  intros H Hb. pose proof (built_box n m c H) as B. destruct c; try contradiction. simpl in *.
  destruct B as (idx & E1 & E2 & E3 & E4 & E5 & E6 & E7 & _).
  rewrite E3. split; [auto|]. split; [auto|]. split; [unfold boxPattern; now rewrite E3|]. split; [auto|].
  intros x u t. rewrite E1. now apply units_map.
Qed.
Lemma state_box_facts c : built c -> stateBox c ->
  length (comps c) = size c /\ nnzState c = size c /\ patternState n c = (seq 0 (size c), comps c) /\
  (forall j, In j (comps c) -> (j < n)%nat) /\
  forall x u t, evaluate c x u t = map x (comps c).
Proof.
  intros H Hb. pose proof (built_box n m c H) as B. destruct c; try contradiction. simpl in *.
  destruct B as (idx & E1 & E2 & E3 & E4 & E5 & E6 & E7 & _).
  rewrite E3. split; [auto|]. split; [auto|]. split; [unfold boxPattern; now rewrite E3|]. split; [auto|].
  intros x u t. rewrite E1. now apply units_map.
Qed.

Lemma box_pattern (k : constraint -> nat) pat l :
  (forall c, In c l -> k c = size c /\ pat c = (seq 0 (size c), comps c) /\ length (comps c) = size c) ->
  forall cnt rows cols, exists rows',
    patternLoop n k pat l cnt rows cols = Ok (rows', cols ++ concat (map comps l)).
Proof.
  induction l as [|c l IH]; intros H cnt rows cols; cbn [patternLoop].
  - exists rows. simpl. now rewrite app_nil_r.
  - destruct (H c (or_introl eq_refl)) as (E1 & E2 & E3).
    destruct (Nat.eqb_spec (k c) 0) as [Ez|Ez].
    + destruct (IH ltac:(intros; apply H; right; auto) (cnt + size c)%nat rows cols) as (r' & ->).
      exists r'. simpl. destruct (comps c); [auto|simpl in E3; lia].
    + rewrite E2, E1, seq_length, E3, Nat.eqb_refl. cbn [negb orb].
      edestruct IH as (r' & ->); [intros; apply H; right; auto|].
      exists r'. simpl. now rewrite app_assoc.
Qed.

Lemma concat_map_map (f : constraint -> list R) (g : nat -> R) l :
  (forall c, In c l -> f c = map g (comps c)) -> concat (map f l) = map g (concat (map comps l)).
Proof.
  induction l as [|c l IH]; intros H; simpl; auto.
  rewrite (H c (or_introl eq_refl)), map_app. f_equal. apply IH. intros; apply H; right; auto.
Qed.

Lemma within_absolute (idx : list nat) (lo hi : list R) (nom d : rvec) :
  absolute (Some (mkSpec (map Z.of_nat idx) lo hi nom)) d <-> within lo (map (radd nom d) idx) hi.
Proof.
  unfold absolute, within. cbn [bs_sp bs_lb bs_ub bs_nom]. rewrite !map_length.
  assert (E : forall i, (i < length idx)%nat -> Z.to_nat (nth i (map Z.of_nat idx) 0%Z) = nth i idx 0%nat).
  { intros i Hi. change 0%Z with (Z.of_nat 0). rewrite map_nth. apply Nat2Z.id. }
  assert (E' : forall i, (i < length idx)%nat -> nth i (map (radd nom d) idx) 0 =
     nom (nth i idx 0%nat) + d (nth i idx 0%nat)).
  { intros i Hi. rewrite (nth_indep _ 0 (radd nom d 0%nat)) by (rewrite map_length; auto).
    now rewrite map_nth. }
  split; intros H i Hi; specialize (H i Hi); cbn zeta in *; rewrite E' in * by auto; rewrite E in * by auto; auto.
Qed.

(** The whole of setBoxes when every stage gets the same well-formed constraints. *)
Lemma setBoxes_total dim K cnt idx lb ub noms b f : represents dim cnt b f -> (K <= cnt)%nat ->
  (0 < length idx <= dim)%nat -> length lb = length idx -> length ub = length idx ->
  (forall j, In j idx -> (j < dim)%nat) -> (K <= length noms)%nat ->
  exists b', setBoxes dim K (length idx) lb ub (map Z.of_nat idx) noms b = Ok b' /\
    represents dim cnt b' (fun k => if (k <? K)%nat
      then Some (mkSpec (map Z.of_nat idx) lb ub (nth k noms rzero)) else f k).
Proof.
  intros Hr Hc Hi L1 L2 Hs Hn.
  assert (G : goodBox dim (length idx) lb ub (map Z.of_nat idx)).
  { intros _ _ _. split; [lia|]. intros j Hj. apply in_map_iff in Hj as (i & <- & Hj). apply Hs in Hj. lia. }
  unfold setBoxes.
  pose proof (setBoxesFrom_spec dim K cnt (length idx) lb ub (map Z.of_nat idx) noms K 0 b f Hr ltac:(lia)) as H.
  pose proof (setBoxesFrom_defined dim K cnt (length idx) lb ub (map Z.of_nat idx) noms K 0 b f Hr Hc
     ltac:(lia) Hn G) as Hd.
  destruct (setBoxesFrom dim K K 0 (length idx) lb ub (map Z.of_nat idx) noms b) as [b'| |]; [| |congruence].
  - exists b'. split; auto. destruct H as [_ H]. exact H.
  - exfalso. unfold accepted in H. rewrite L1, L2, map_length, Nat.eqb_refl in H. cbn [andb] in H.
    apply Z.leb_gt in H. rewrite last_nth, map_length in H.
    destruct (in_map_iff Z.of_nat idx (nth (length idx - 1) (map Z.of_nat idx) 0%Z)) as [Hin _].
    destruct Hin as (i & Ei & Hi'); [apply nth_In; rewrite map_length; lia|].
    apply Hs in Hi'. lia.
Qed.

Lemma comps_length l : (forall c, In c l -> length (comps c) = size c) ->
  length (concat (map comps l)) = list_sum (map size l).
Proof. apply concat_length_sum. Qed.

(** The input box constraints of a container with at least one and at most [m] rows: after the
    update a deviation is feasible at stage k exactly when the container's values at the nominal
    input plus the deviation lie within the bounds.  The other constraints are unchanged. *)
Theorem C43_input_boxes cs pts xl ul tl calls N p u_ff :
  allOf built cs -> Forall inputBox (intermediateOf cs) ->
  (0 < list_sum (map size (intermediateOf cs)) <= m)%nat ->
  prun calls (newProblem N) = Ok p -> (p_K p <= length u_ff)%nat ->
  exists c p', crun (history cs pts xl ul tl) newContainer = Ok c /\
    setInputBoxes n m (Some c) u_ff p = Ok p' /\
    p_K p' = p_K p /\ p_x p' = p_x p /\ p_g p' = p_g p /\
    forall k du x t, (k < p_K p)%nat ->
      (feasible (p_u p') k du <->
       within (concat (map lower (intermediateOf cs)))
         (concat (map (fun c => evaluate c x (radd (nth k u_ff rzero) du) t) (intermediateOf cs)))
         (concat (map upper (intermediateOf cs)))).
Proof.
  intros Ha Hb Hn Hp Hl.
  destruct (history_run n m cs pts xl ul tl Ha) as (c & Ec & [I1 I2] & _ & _ & _ & F1 & F2 & T1 & T2).
  set (l := intermediateOf cs) in *.
  assert (Hf : forall c, In c l -> built c /\ inputBox c).
  { intros d Hd. split; [exact (proj1 (Forall_forall _ _) (proj1 Ha) d Hd)|].
    exact (proj1 (Forall_forall _ _) Hb d Hd). }
  destruct I1 as (J1 & J2 & J3). destruct (J3 F1) as (_ & _ & _ & _ & _ & El & Eu).
  rewrite T1 in El, Eu.
  assert (Lc : length (concat (map comps l)) = list_sum (map size l)).
  { apply comps_length. intros d Hd. destruct (Hf d Hd). apply input_box_facts; auto. }
  assert (Ll : length (concat (map lower l)) = list_sum (map size l)).
  { apply concat_length_sum. intros d Hd. apply (built_lengths n m d rzero rzero 0). apply Hf; auto. }
  assert (Lu : length (concat (map upper l)) = list_sum (map size l)).
  { apply concat_length_sum. intros d Hd. apply (built_lengths n m d rzero rzero 0). apply Hf; auto. }
  assert (Ht : total nnzInput (c_inter c) = length (concat (map comps l))).
  { unfold total. rewrite T1, Lc. f_equal. apply map_ext_in. intros d Hd. destruct (Hf d Hd).
    apply input_box_facts; auto. }
  destruct (run_matches _ _ _ _ (new_matches N) Hp) as (HK & Hu & Hx & Hg).
  edestruct (setBoxes_total m (p_K p) (p_K p) (concat (map comps l)) (concat (map lower l))
    (concat (map upper l)) u_ff (p_u p)) as (b' & Eb & Hr'); eauto; try lia.
  { intros j Hj. apply in_concat in Hj as (cl & Hcl & Hj). apply in_map_iff in Hcl as (d & <- & Hd).
    destruct (Hf d Hd) as [B1 B2]. destruct (input_box_facts d B1 B2) as (_ & _ & _ & R & _). auto. }
  exists c, (mkProblem (p_K p) b' (p_x p) (p_g p)). split; [exact Ec|]. split.
  - unfold setInputBoxes. rewrite Ht. destruct (Nat.ltb_spec 0 (length (concat (map comps l)))); [|lia].
    unfold stagePatternInput. rewrite F1. cbn [negb]. rewrite T1.
    edestruct (box_pattern nnzInput (patternInput n m) l) as (rows & ->).
    { intros d Hd. destruct (Hf d Hd) as [B1 B2]. destruct (input_box_facts d B1 B2) as (? & ? & ? & _). auto. }
    cbn [obind snd app]. unfold setInputBoxConstraints. rewrite El, Eu, Eb. reflexivity.
  - cbn [p_K p_x p_g p_u]. do 3 (split; [reflexivity|]). intros k du x t Hk.
    destruct Hr' as [_ Hr']. specialize (Hr' k Hk). cbn beta in Hr'.
    destruct (Nat.ltb_spec k (p_K p)); [|lia].
    rewrite (stores_feasible _ _ _ Hr' du), within_absolute.
    rewrite (concat_map_map (fun c => evaluate c x (radd (nth k u_ff rzero) du) t)
       (radd (nth k u_ff rzero) du) l); [reflexivity|].
    intros d Hd. destruct (Hf d Hd) as [B1 B2]. destruct (input_box_facts d B1 B2) as (_ & _ & _ & _ & R). auto.
Qed.

(** The same for state box constraints, at the intermediate stages and at the end of the horizon.
    A container without constraints of one kind leaves the stored ones of this kind. *)
Theorem C43_state_boxes cs pts xl ul tl calls N p x :
  allOf built cs -> allOf stateBox cs ->
  (list_sum (map size (intermediateOf cs)) <= n)%nat -> (list_sum (map size (terminalOf cs)) <= n)%nat ->
  prun calls (newProblem N) = Ok p -> length x = S (p_K p) ->
  exists c p', crun (history cs pts xl ul tl) newContainer = Ok c /\
    setStateBoxes n (Some c) x p = Ok p' /\
    p_K p' = p_K p /\ p_u p' = p_u p /\ p_g p' = p_g p /\
    (forall k dx u t, (k < p_K p)%nat ->
      (feasible (p_x p') k dx <->
       if (list_sum (map size (intermediateOf cs)) =? 0)%nat then feasible (p_x p) k dx else
       within (concat (map lower (intermediateOf cs)))
         (concat (map (fun c => evaluate c (radd (nth k x rzero) dx) u t) (intermediateOf cs)))
         (concat (map upper (intermediateOf cs))))) /\
    (forall dx u t,
      (feasible (p_x p') (p_K p) dx <->
       if (list_sum (map size (terminalOf cs)) =? 0)%nat then feasible (p_x p) (p_K p) dx else
       within (concat (map lower (terminalOf cs)))
         (concat (map (fun c => evaluate c (radd (nth (p_K p) x rzero) dx) u t) (terminalOf cs)))
         (concat (map upper (terminalOf cs))))).
Proof.
  intros Ha [Hb1 Hb2] Hn1 Hn2 Hp Hl.
  destruct (history_run n m cs pts xl ul tl Ha) as (c & Ec & [I1 I2] & _ & _ & _ & F1 & F2 & T1 & T2).
  destruct Ha as [Ha1 Ha2].
  set (l := intermediateOf cs) in *. set (lt := terminalOf cs) in *.
  assert (Hall : forall q s, Forall built q -> Forall stateBox q -> stage_inv n m s -> s_init s = true ->
     s_terms s = q ->
     (forall c, In c q -> built c /\ stateBox c) /\
     s_lb s = concat (map lower q) /\ s_ub s = concat (map upper q) /\
     length (concat (map comps q)) = list_sum (map size q) /\
     length (concat (map lower q)) = list_sum (map size q) /\
     length (concat (map upper q)) = list_sum (map size q) /\
     total nnzState s = length (concat (map comps q)) /\
     (forall j, In j (concat (map comps q)) -> (j < n)%nat) /\
     exists rows, stagePatternState n s = Ok (rows, concat (map comps q))).
  { intros q s B1 B2 (J1 & J2 & J3) F T. destruct (J3 F) as (_ & _ & _ & _ & _ & El & Eu).
    rewrite T in El, Eu.
    assert (Hf : forall c, In c q -> built c /\ stateBox c).
    { intros d Hd. split; [exact (proj1 (Forall_forall _ _) B1 d Hd)|].
      exact (proj1 (Forall_forall _ _) B2 d Hd). }
    assert (Lc : length (concat (map comps q)) = list_sum (map size q)).
    { apply comps_length. intros d Hd. destruct (Hf d Hd). apply state_box_facts; auto. }
    split; [exact Hf|]. split; [auto|]. split; [auto|]. split; [auto|].
    split. { apply concat_length_sum. intros d Hd. apply (built_lengths n m d rzero rzero 0). apply Hf; auto. }
    split. { apply concat_length_sum. intros d Hd. apply (built_lengths n m d rzero rzero 0). apply Hf; auto. }
    split. { unfold total. rewrite T, Lc. f_equal. apply map_ext_in. intros d Hd. destruct (Hf d Hd).
             apply state_box_facts; auto. }
    split. { intros j Hj. apply in_concat in Hj as (cl & Hcl & Hj). apply in_map_iff in Hcl as (d & <- & Hd).
             destruct (Hf d Hd) as [C1 C2]. destruct (state_box_facts d C1 C2) as (_ & _ & _ & R & _). auto. }
    unfold stagePatternState. rewrite F. cbn [negb]. rewrite T.
    edestruct (box_pattern nnzState (patternState n) q) as (rows & E).
    { intros d Hd. destruct (Hf d Hd) as [C1 C2]. destruct (state_box_facts d C1 C2) as (? & ? & ? & _). auto. }
    exists rows. rewrite E. reflexivity. }
  destruct (Hall l (c_inter c) Ha1 Hb1 I1 F1 T1) as (Hf1 & El1 & Eu1 & Lc1 & Ll1 & Lu1 & Ht1 & Hr1 & rows1 & P1).
  destruct (Hall lt (c_term c) Ha2 Hb2 I2 F2 T2) as (Hf2 & El2 & Eu2 & Lc2 & Ll2 & Lu2 & Ht2 & Hr2 & rows2 & P2).
  clear Hall.
  destruct (run_matches _ _ _ _ (new_matches N) Hp) as (HK & Hu & Hx & Hg).
  set (f0 := ps_x (srun n m calls (spec0 N))) in *.
  set (f1 := fun k => if ((0 <? length (concat (map comps l))) && (k <? p_K p))%nat
      then Some (mkSpec (map Z.of_nat (concat (map comps l))) (concat (map lower l)) (concat (map upper l))
                  (nth k x rzero)) else f0 k).
  assert (S1 : exists b1, represents n (S (p_K p)) b1 f1 /\
     (if (0 <? length (concat (map comps l)))%nat then
        setBoxes n (p_K p) (length (concat (map comps l))) (concat (map lower l)) (concat (map upper l))
          (map Z.of_nat (concat (map comps l))) x (p_x p) = Ok b1 else b1 = p_x p)).
  { destruct (Nat.ltb_spec 0 (length (concat (map comps l)))).
    - edestruct (setBoxes_total n (p_K p) (S (p_K p)) (concat (map comps l)) (concat (map lower l))
        (concat (map upper l)) x (p_x p) f0) as (b' & Eb & Hr'); try lia; [exact Hx|exact Hr1|].
      exists b'. split; [|exact Eb]. eapply represents_ext; [|exact Hr'].
      intros k Hk. unfold f1. destruct (Nat.ltb_spec 0 (length (concat (map comps l)))); [reflexivity|lia].
    - exists (p_x p). split; [|reflexivity]. eapply represents_ext; [|exact Hx]. intros k Hk. unfold f1.
      destruct (Nat.ltb_spec 0 (length (concat (map comps l)))); [lia|reflexivity]. }
  destruct S1 as (b1 & R1 & S1).
  set (f2 := if (0 <? length (concat (map comps lt)))%nat then only f1 (p_K p)
      (Some (mkSpec (map Z.of_nat (concat (map comps lt))) (concat (map lower lt)) (concat (map upper lt))
                  (nth (p_K p) x rzero))) else f1).
  assert (S2 : exists b2, represents n (S (p_K p)) b2 f2 /\
     (if (0 <? length (concat (map comps lt)))%nat then
        storeBox n (length (concat (map comps lt))) (concat (map lower lt)) (concat (map upper lt))
          (map Z.of_nat (concat (map comps lt))) (nth (p_K p) x rzero) (p_K p) b1 = Ok b2 else b2 = b1)).
  { unfold f2. destruct (Nat.ltb_spec 0 (length (concat (map comps lt)))).
    - edestruct (store_total n (S (p_K p)) (length (concat (map comps lt))) (concat (map lower lt))
        (concat (map upper lt)) (map Z.of_nat (concat (map comps lt))) (nth (p_K p) x rzero) (p_K p) b1)
        as (b2 & Eb); eauto; try (rewrite ?map_length; lia).
      { intros j Hj. apply in_map_iff in Hj as (i & <- & Hj). apply Hr2 in Hj. lia. }
      exists b2. split; [|exact Eb].
      eapply store_spec; [exact R1| |exact Eb]. now rewrite map_length.
    - eauto. }
  destruct S2 as (b2 & R2 & S2).
  exists c, (mkProblem (p_K p) (p_u p) b2 (p_g p)). split; [exact Ec|]. split.
  - unfold setStateBoxes. rewrite Ht1, Ht2.
    assert (E1 : (if (0 <? length (concat (map comps l)))%nat then
        do pat <- stagePatternState n (c_inter c) ;;
        setIntermediateStateBoxConstraints n (length (concat (map comps l))) (s_lb (c_inter c)) (s_ub (c_inter c))
          (map Z.of_nat (snd pat)) x p else Ok p) = Ok (mkProblem (p_K p) (p_u p) b1 (p_g p))).
    { destruct (0 <? length (concat (map comps l)))%nat.
      - rewrite P1. cbn [obind snd]. unfold setIntermediateStateBoxConstraints. rewrite El1, Eu1, S1. reflexivity.
      - rewrite S1. destruct p. reflexivity. }
    rewrite E1. cbn [obind]. destruct (Nat.ltb_spec 0 (length (concat (map comps lt)))) as [Hpos|Hpos].
    + rewrite P2. cbn [obind snd]. unfold vec_back. destruct x as [|x0 xr]; [discriminate|].
      rewrite (vec_get_nth _ _ rzero) by (simpl; lia). cbn [obind].
      replace (length (x0 :: xr) - 1)%nat with (p_K p) by lia.
      unfold setTerminalBoxConstraints, setTerminalBox. cbn [p_K p_x p_u p_g].
      destruct (Nat.ltb_spec 0 (length (concat (map comps lt)))); [|lia].
      rewrite El2, Eu2, badConfig_good; try (rewrite ?map_length; lia).
      * cbn [obind]. rewrite S2. reflexivity.
      * intros j Hj. apply in_map_iff in Hj as (i & <- & Hj). apply Hr2 in Hj. lia.
    + rewrite S2. reflexivity.
  - cbn [p_K p_x p_g p_u]. do 3 (split; [reflexivity|]). split.
    + intros k dx u t Hk. destruct R2 as [_ R2]. specialize (R2 k ltac:(lia)).
      rewrite (stores_feasible _ _ _ R2 dx).
      assert (Ef : f2 k = f1 k).
      { unfold f2. destruct (0 <? length (concat (map comps lt)))%nat; [|reflexivity]. unfold only.
        destruct (Nat.eqb_spec k (p_K p)); [lia|reflexivity]. }
      rewrite Ef. unfold f1. rewrite <- Lc1.
      destruct (Nat.eqb_spec (length (concat (map comps l))) 0) as [Ez|Ez].
      * rewrite Ez. cbn [Nat.ltb Nat.leb andb]. destruct Hx as [_ Hx]. specialize (Hx k ltac:(lia)).
        now rewrite (stores_feasible _ _ _ Hx dx).
      * destruct (Nat.ltb_spec 0 (length (concat (map comps l)))); [|lia].
        destruct (Nat.ltb_spec k (p_K p)); [|lia]. cbn [andb]. rewrite within_absolute.
        rewrite (concat_map_map (fun c => evaluate c (radd (nth k x rzero) dx) u t)
           (radd (nth k x rzero) dx) l); [reflexivity|].
        intros d Hd. destruct (Hf1 d Hd) as [B1 B2]. destruct (state_box_facts d B1 B2) as (_ & _ & _ & _ & R). auto.
    + intros dx u t. destruct R2 as [_ R2]. specialize (R2 (p_K p) ltac:(lia)).
      rewrite (stores_feasible _ _ _ R2 dx). unfold f2. rewrite <- Lc2.
      destruct (Nat.eqb_spec (length (concat (map comps lt))) 0) as [Ez|Ez].
      * rewrite Ez. cbn [Nat.ltb Nat.leb]. unfold f1.
        destruct (Nat.ltb_spec (p_K p) (p_K p)); [lia|]. rewrite andb_false_r.
        destruct Hx as [_ Hx]. specialize (Hx (p_K p) ltac:(lia)).
        now rewrite (stores_feasible _ _ _ Hx dx).
      * destruct (Nat.ltb_spec 0 (length (concat (map comps lt)))); [|lia].
        unfold only. rewrite Nat.eqb_refl, within_absolute.
        rewrite (concat_map_map (fun c => evaluate c (radd (nth (p_K p) x rzero) dx) u t)
           (radd (nth (p_K p) x rzero) dx) lt); [reflexivity|].
        intros d Hd. destruct (Hf2 d Hd) as [B1 B2]. destruct (state_box_facts d B1 B2) as (_ & _ & _ & _ & R). auto.
Qed.

(** ** General constraints *)

(** The linearisation of the stacked constraints [l] around (x,u,t), within the bounds. *)
Definition linearisedWithin (l : list constraint) (x u : rvec) (t : R) (dx du : rvec) : Prop :=
  forall r, (r < list_sum (map size l))%nat ->
    nth r (concat (map lower l)) 0 <=
      nth r (concat (map (fun c => evaluate c x u t) l)) 0
      + rdot n (nth r (concat (map (fun c => jacobianState c x u t) l)) rzero) dx
      + rdot m (nth r (concat (map (fun c => jacobianInput c x u t) l)) rzero) du
    <= nth r (concat (map upper l)) 0.

(** A container ready to be evaluated, with given constraints. *)
Definition ready (c : container) (li lt : list constraint) : Prop :=
  cinv n m c /\ s_init (c_inter c) = true /\ s_init (c_term c) = true /\
  s_terms (c_inter c) = li /\ s_terms (c_term c) = lt.
Lemma ready_set c li lt x u t : ready c li lt -> ready (setCurrent x u t c) li lt.
Proof. intros H. exact H. Qed.

Lemma stage_lengths s x u t : stage_inv n m s ->
  length (concat (map (fun c => evaluate c x u t) (s_terms s))) = total size s /\
  length (concat (map lower (s_terms s))) = total size s /\
  length (concat (map upper (s_terms s))) = total size s.
Proof.
  intros (H & _). pose proof (proj1 (Forall_forall _ _) H) as Hb.
  split; [|split]; apply concat_length_sum; intros d Hd; apply (built_lengths n m d); auto; exact 0 || exact rzero.
Qed.

Lemma zip_minus a b : length a = length b -> exists z, zipR Rminus a b = Ok z /\ length z = length a /\
  forall r, (r < length a)%nat -> nth r z 0 = nth r a 0 - nth r b 0.
Proof.
  intros L. destruct (zipR_spec Rminus a b L) as (z & E & Lz & H). exists z. split; [auto|]. split; [auto|].
  exact H.
Qed.

(** The general constraints written for one stage. *)
Definition writtenGen (s : stage) (x u : rvec) (t : R) (old : genStage) : outcome genStage :=
  if (0 <? total size s)%nat then
    do C <- stageDenseState n x u t true s ;;
    do D <- stageDenseInput n x u t s ;;
    do e <- stageEval n m x u t s ;;
    do l <- subtract (s_lb s) e ;;
    do u <- subtract (s_ub s) e ;;
    Ok (mkGen (total size s) C D l u)
  else Ok (mkGen (total size s) (g_C old) (g_D old) (g_dlb old) (g_dub old)).

Lemma writtenGen_spec s x u t old : stage_inv n m s -> s_init s = true ->
  exists g, writtenGen s x u t old = Ok g /\
    forall dx du, feasibleGeneral n m g dx du <-> linearisedWithin (s_terms s) x u t dx du.
Proof.
  intros Hi Hf. unfold writtenGen. destruct (Nat.ltb_spec 0 (total size s)).
  - rewrite (stage_denseS n m), (stage_denseI n m), (stage_eval n m) by auto. cbn [obind]. unfold subtract.
    destruct (stage_lengths s x u t Hi) as (Lv & Ll & Lu).
    pose proof Hi as (_ & _ & H3). destruct (H3 Hf) as (_ & _ & _ & _ & _ & El & Eu). rewrite El, Eu.
    destruct (zip_minus (concat (map lower (s_terms s))) (concat (map (fun c => evaluate c x u t) (s_terms s))))
      as (zl & -> & Lzl & Hzl); [lia|]. cbn [obind].
    destruct (zip_minus (concat (map upper (s_terms s))) (concat (map (fun c => evaluate c x u t) (s_terms s))))
      as (zu & -> & Lzu & Hzu); [lia|]. cbn [obind].
    eexists. split; [reflexivity|]. intros dx du. unfold feasibleGeneral, linearisedWithin.
    cbn [g_n g_C g_D g_dlb g_dub]. unfold total in *.
    split; intros F r Hr; specialize (F r Hr).
    + rewrite Hzl, Hzu in F by lia. lra.
    + rewrite Hzl, Hzu by lia. lra.
  - eexists. split; [reflexivity|]. intros dx du. unfold feasibleGeneral, linearisedWithin.
    cbn [g_n]. unfold total in *. split; intros F r Hr; lia.
Qed.

Lemma linearizeStage_spec dt x u k c p li lt : ready c li lt ->
  (k < length x)%nat -> (k < length u)%nat -> (k < length (p_g p))%nat ->
  exists c' p', linearizeStage n m dt x u k (c, p) = Ok (c', p') /\
    c' = setCurrent (nth k x rzero) (nth k u rzero) (dt * INR k) c /\
    p_K p' = p_K p /\ p_u p' = p_u p /\ p_x p' = p_x p /\ length (p_g p') = length (p_g p) /\
    (forall j, j <> k -> nth j (p_g p') emptyGen = nth j (p_g p) emptyGen) /\
    (forall dx du, feasibleGeneral n m (nth k (p_g p') emptyGen) dx du <->
       linearisedWithin li (nth k x rzero) (nth k u rzero) (dt * INR k) dx du).
Proof.
  intros ([I1 I2] & F1 & F2 & T1 & T2) Hx Hu Hg. unfold linearizeStage.
  rewrite (vec_get_nth x k rzero), (vec_get_nth u k rzero), (vec_get_nth (p_g p) k emptyGen) by auto.
  cbn [obind].
  destruct (writtenGen_spec (c_inter c) (nth k x rzero) (nth k u rzero) (dt * INR k)
    (nth k (p_g p) emptyGen) I1 F1) as (g & Eg & Hfe).
  unfold writtenGen in Eg. unfold jacobianStateIntermediate, jacobianInputIntermediate, evaluateIntermediate.
  cbn [setCurrent c_inter c_x c_u c_t]. rewrite F1, Eg. cbn [obind].
  destruct (vec_set_some (p_g p) k g Hg) as (gs & Es). rewrite Es. cbn [obind].
  apply vec_set_inv in Es as (_ & Ls & Hs).
  eexists _, _. split; [reflexivity|]. split; [reflexivity|]. cbn [p_K p_u p_x p_g].
  do 3 (split; [reflexivity|]). split; [exact Ls|]. split.
  - intros j Hj. rewrite Hs. destruct (Nat.eqb_spec j k); [contradiction|reflexivity].
  - intros dx du. rewrite Hs, Nat.eqb_refl. rewrite Hfe, T1. reflexivity.
Qed.

Lemma linearizeTerminal_spec c p li lt : ready c li lt -> (p_K p < length (p_g p))%nat ->
  exists p', linearizeTerminal n m (c, p) = Ok (c, p') /\
    p_K p' = p_K p /\ p_u p' = p_u p /\ p_x p' = p_x p /\ length (p_g p') = length (p_g p) /\
    (forall j, j <> p_K p -> nth j (p_g p') emptyGen = nth j (p_g p) emptyGen) /\
    (forall dx du, feasibleGeneral n m (nth (p_K p) (p_g p') emptyGen) dx du <->
       linearisedWithin lt (c_x c) (c_u c) (c_t c) dx du).
Proof.
  intros ([I1 I2] & F1 & F2 & T1 & T2) Hg. unfold linearizeTerminal.
  rewrite (vec_get_nth (p_g p) (p_K p) emptyGen) by auto. cbn [obind].
  destruct (writtenGen_spec (c_term c) (c_x c) (c_u c) (c_t c)
    (nth (p_K p) (p_g p) emptyGen) I2 F2) as (g & Eg & Hfe).
  unfold writtenGen in Eg. unfold jacobianStateTerminal, jacobianInputTerminal, evaluateTerminal.
  rewrite F1, Eg. cbn [obind].
  destruct (vec_set_some (p_g p) (p_K p) g Hg) as (gs & Es). rewrite Es. cbn [obind].
  apply vec_set_inv in Es as (_ & Ls & Hs).
  eexists. split; [reflexivity|]. cbn [p_K p_u p_x p_g].
  do 3 (split; [reflexivity|]). split; [exact Ls|]. split.
  - intros j Hj. rewrite Hs. destruct (Nat.eqb_spec j (p_K p)); [contradiction|reflexivity].
  - intros dx du. rewrite Hs, Nat.eqb_refl. rewrite Hfe, T2. reflexivity.
Qed.

Lemma linearizeFrom_spec dt x u li lt cnt : forall k c p, ready c li lt ->
  (k + cnt <= length x)%nat -> (k + cnt <= length u)%nat -> (k + cnt <= length (p_g p))%nat ->
  exists c' p', linearizeFrom n m dt x u cnt k (c, p) = Ok (c', p') /\ ready c' li lt /\
    p_K p' = p_K p /\ p_u p' = p_u p /\ p_x p' = p_x p /\ length (p_g p') = length (p_g p) /\
    (forall j, (j < k \/ k + cnt <= j)%nat -> nth j (p_g p') emptyGen = nth j (p_g p) emptyGen) /\
    (forall j dx du, (k <= j < k + cnt)%nat ->
       (feasibleGeneral n m (nth j (p_g p') emptyGen) dx du <->
        linearisedWithin li (nth j x rzero) (nth j u rzero) (dt * INR j) dx du)).
Proof.
  induction cnt as [|cnt IH]; intros k c p Hr Hx Hu Hg; cbn [linearizeFrom].
  - exists c, p. split; [reflexivity|]. split; [exact Hr|]. do 4 (split; [reflexivity|]). 
    split; [reflexivity|]. intros; lia.
  - destruct (linearizeStage_spec dt x u k c p li lt Hr) as (c1 & p1 & -> & Ec & EK & Eu & Ex & Eg & Hs & Hf);
      try lia. cbn [obind].
    destruct (IH (S k) c1 p1) as (c2 & p2 & E & Hr2 & EK2 & Eu2 & Ex2 & Eg2 & Hs2 & Hf2); try lia.
    { subst c1. exact Hr. }
    exists c2, p2. split; [exact E|]. split; [exact Hr2|]. split; [congruence|]. split; [congruence|].
    split; [congruence|]. split; [lia|]. split.
    + intros j Hj. rewrite Hs2 by lia. apply Hs. lia.
    + intros j dx du Hj. destruct (Nat.eq_dec j k) as [->|Hn].
      * rewrite Hs2 by lia. apply Hf.
      * apply Hf2. lia.
Qed.

(** After linearising the stages first..last, the constraints stored for such a stage say that the
    linearisation of the container's constraints around the nominal point of the stage is within
    the bounds; the last stage's terminal constraints are linearised around the point at which the
    container was evaluated last; all other stages keep theirs. *)
Theorem C43_general cs pts xl ul tl calls N p dt x u first last :
  allOf built cs -> prun calls (newProblem N) = Ok p -> (first <= last < p_K p)%nat ->
  length x = S (p_K p) -> length u = p_K p ->
  exists c c' p', crun (history cs pts xl ul tl) newContainer = Ok c /\
    computeLQApproximation n m dt x u first last (c, p) = Ok (c', p') /\
    p_K p' = p_K p /\ p_u p' = p_u p /\ p_x p' = p_x p /\
    (forall k dx du, (first <= k <= last)%nat ->
       (feasibleGeneral n m (nth k (p_g p') emptyGen) dx du <->
        linearisedWithin (intermediateOf cs) (nth k x rzero) (nth k u rzero) (dt * INR k) dx du)) /\
    (forall dx du, last = (p_K p - 1)%nat ->
       (feasibleGeneral n m (nth (p_K p) (p_g p') emptyGen) dx du <->
        linearisedWithin (terminalOf cs) xl ul tl dx du)) /\
    (forall k, (k < first \/ last < k)%nat -> (last <> p_K p - 1 \/ k <> p_K p)%nat ->
       nth k (p_g p') emptyGen = nth k (p_g p) emptyGen).
Proof.
  intros Ha Hp Hk Lx Lu.
  destruct (history_run n m cs pts xl ul tl Ha) as (c & Ec & I & Ex & Eu & Et & F1 & F2 & T1 & T2).
  assert (Hr : ready c (intermediateOf cs) (terminalOf cs)) by (repeat (split; auto)).
  destruct (run_matches _ _ _ _ (new_matches N) Hp) as (HK & _ & _ & Hg).
  unfold computeLQApproximation. cbn [snd].
  assert (S1 : exists p1, (if (last =? p_K p - 1)%nat then linearizeTerminal n m (c, p) else Ok (c, p)) = Ok (c, p1) /\
    p_K p1 = p_K p /\ p_u p1 = p_u p /\ p_x p1 = p_x p /\ length (p_g p1) = length (p_g p) /\
    (forall j, (last <> p_K p - 1 \/ j <> p_K p)%nat -> nth j (p_g p1) emptyGen = nth j (p_g p) emptyGen) /\
    (forall dx du, last = (p_K p - 1)%nat -> (feasibleGeneral n m (nth (p_K p) (p_g p1) emptyGen) dx du <->
       linearisedWithin (terminalOf cs) xl ul tl dx du))).
  { destruct (Nat.eqb_spec last (p_K p - 1)) as [El|El].
    - destruct (linearizeTerminal_spec c p _ _ Hr ltac:(lia)) as (p1 & E & A1 & A2 & A3 & A4 & A5 & A6).
      exists p1. split; [exact E|]. do 4 (split; [auto|]). split; [intros j Hj; apply A5; lia|].
      intros dx du _. rewrite A6, Ex, Eu, Et. reflexivity.
    - exists p. do 5 (split; [reflexivity|]). split; [auto|]. intros; lia. }
  destruct S1 as (p1 & E0 & A1 & A2 & A3 & A4 & A5 & A6).
  destruct (linearizeFrom_spec dt x u _ _ (S last - first) first c p1 Hr)
    as (c2 & p2 & E & Hr2 & EK2 & Eu2 & Ex2 & Eg2 & Hs2 & Hf2); try lia.
  exists c, c2, p2. split; [exact Ec|].
  split; [rewrite E0; cbn [obind]; exact E|]. split; [congruence|]. split; [congruence|].
  split; [congruence|]. split; [|split].
  - intros k dx du Hk'. apply Hf2. lia.
  - intros dx du El. rewrite Hs2 by lia. auto.
  - intros k H1 H2. rewrite Hs2 by lia. auto.
Qed.

(** For affine constraints the linearisation is exact: the stored constraints hold for a deviation
    exactly when the original constraints hold at nominal plus deviation. *)
Definition affine (c : constraint) : Prop :=
  match c with CState _ | CInput _ | CTerminal _ => True | _ => False end.

Definition exactAt (c : constraint) (x u : rvec) (t : R) (dx du : rvec) : Prop :=
  forall r, (r < size c)%nat ->
    nth r (evaluate c (radd x dx) (radd u du) t) 0 =
    nth r (evaluate c x u t) 0 + rdot n (nth r (jacobianState c x u t) rzero) dx
      + rdot m (nth r (jacobianInput c x u t) rzero) du.

Lemma rdot_zero_l k v : rdot k rzero v = 0.
Proof. unfold rdot, rzero. induction k; simpl; [auto|]. rewrite IHk. ring. Qed.

Lemma affine_exact c x u t dx du : built c -> affine c -> exactAt c x u t dx du.
Proof.
  intros H A r Hr. pose proof (built_box n m c H) as B.
  destruct c as [b|b|xF| |]; try contradiction; simpl in *.
  - destruct B as (idx & E1 & E2 & E3 & E4 & E5 & _). rewrite E1.
    rewrite !mulVec_units by (auto; lia). rewrite E2, nth_repeat_lt by lia.
    rewrite rdot_zero_l. rewrite (nth_indep _ rzero (runit 0%nat)) by (rewrite map_length; lia).
    rewrite map_nth, rdot_unit by (apply E5, nth_In; lia). unfold radd. ring.
  - destruct B as (idx & E1 & E2 & E3 & E4 & E5 & _). rewrite E1.
    rewrite !mulVec_units by (auto; lia). rewrite E2, nth_repeat_lt by lia.
    rewrite rdot_zero_l. rewrite (nth_indep _ rzero (runit 0%nat)) by (rewrite map_length; lia).
    rewrite map_nth, rdot_unit by (apply E5, nth_In; lia). unfold radd. ring.
  - unfold toList. rewrite !nth_map_seq by auto. rewrite nth_repeat_lt by auto. rewrite rdot_zero_l.
    rewrite rdot_unit by auto. unfold radd, rsubv. ring.
Qed.

Lemma concat_exact l x u t dx du : Forall built l -> Forall affine l ->
  forall r, (r < list_sum (map size l))%nat ->
    nth r (concat (map (fun c => evaluate c (radd x dx) (radd u du) t) l)) 0 =
    nth r (concat (map (fun c => evaluate c x u t) l)) 0
      + rdot n (nth r (concat (map (fun c => jacobianState c x u t) l)) rzero) dx
      + rdot m (nth r (concat (map (fun c => jacobianInput c x u t) l)) rzero) du.
Proof.
  induction l as [|c l IH]; intros Hb Ha r Hr; cbn [map list_sum fold_right] in Hr; [simpl in Hr; lia|].
  inversion Hb as [|? ? B1 B2]; subst. inversion Ha as [|? ? A1 A2]; subst.
  cbn [map concat].
  destruct (built_lengths n m c x u t B1) as (L1 & _ & _ & L2 & L3).
  destruct (built_lengths n m c (radd x dx) (radd u du) t B1) as (L1' & _).
  destruct (Nat.lt_ge_cases r (size c)).
  - rewrite !app_nth1 by lia. apply affine_exact; auto.
  - rewrite !app_nth2 by lia. rewrite L1, L2, L3, L1'. apply IH; auto. unfold list_sum in *. lia.
Qed.

Theorem C43_general_affine l x u t dx du : Forall built l -> Forall affine l ->
  (linearisedWithin l x u t dx du <->
   within (concat (map lower l))
     (concat (map (fun c => evaluate c (radd x dx) (radd u du) t) l)) (concat (map upper l))).
Proof.
  intros Hb Ha. unfold linearisedWithin, within.
  rewrite (concat_length_sum (fun c => evaluate c (radd x dx) (radd u du) t) size).
  2:{ intros c Hc. apply (built_lengths n m c). exact (proj1 (Forall_forall _ _) Hb c Hc). }
  split; intros F r Hr; specialize (F r Hr); rewrite (concat_exact l x u t dx du Hb Ha r Hr) in *; exact F.
Qed.

(** ** C62: the constraint error of a trajectory *)

Definition orderedBounds (l : list constraint) : Prop :=
  forall r, (r < list_sum (map size l))%nat ->
    nth r (concat (map lower l)) 0 <= nth r (concat (map upper l)) 0.

(** The distance of the constraints [l] from their bounds at one point. *)
Definition distance (l : list constraint) (x u : rvec) (t : R) : R :=
  gaps (concat (map lower l)) (concat (map (fun c => evaluate c x u t) l)) (concat (map upper l)).

Lemma l1norm_sum v : l1norm v = rsum (length v) (fun r => Rabs (nth r v 0)).
Proof.
  assert (H : forall k w, rsum (S k) w = w 0%nat + rsum k (fun i => w (S i))).
  { induction k; intros w; [simpl; ring|]. change (rsum (S (S k)) w) with (rsum (S k) w + w (S k)).
    rewrite IHk. simpl. ring. }
  induction v as [|a v IH]; [reflexivity|]. simpl length. rewrite H. simpl. now rewrite <- IH.
Qed.

Lemma rsum_ext k f g : (forall i, (i < k)%nat -> f i = g i) -> rsum k f = rsum k g.
Proof. induction k; intros H; simpl; auto. rewrite IHk, H by (auto; lia). auto. Qed.

Lemma gap_violation lo v hi : lo <= hi -> Rabs (Rmin (v - lo) 0 + Rmax (v - hi) 0) = gap lo v hi.
Proof.
  intros H. unfold gap, Rmin, Rmax, Rabs. repeat destruct (Rle_dec _ _); try destruct (Rcase_abs _); lra.
Qed.

Lemma stage_distance s x u t : stage_inv n m s -> s_init s = true -> orderedBounds (s_terms s) ->
  exists e, totalViolation n m x u t s = Ok e /\ l1norm e = distance (s_terms s) x u t.
Proof.
  intros Hi Hf Ho. destruct (stage_violation n m x u t s Hi Hf) as (e & up & low & E & _ & _ & Le & _ & _ & H).
  exists e. split; [exact E|]. rewrite l1norm_sum. unfold distance, gaps.
  destruct (stage_lengths s x u t Hi) as (Lv & _). rewrite Lv, Le. apply rsum_ext.
  intros r Hr. destruct (H r Hr) as (_ & _ & ->). apply gap_violation. apply Ho. exact Hr.
Qed.

Lemma distance_empty l x u t : Forall built l -> list_sum (map size l) = 0%nat -> distance l x u t = 0.
Proof.
  intros Hb Hz. unfold distance, gaps.
  rewrite (concat_length_sum (fun c => evaluate c x u t) size).
  - rewrite Hz. reflexivity.
  - intros c Hc. apply (built_lengths n m c). exact (proj1 (Forall_forall _ _) Hb c Hc).
Qed.

Lemma stageError_spec dt x u k c li lt : ready c li lt -> orderedBounds li ->
  (k < length x)%nat -> (k < length u)%nat ->
  exists c', stageError n m dt x u k c =
    Ok (c', distance li (nth k x rzero) (nth k u rzero) (dt * INR k)) /\ ready c' li lt.
Proof.
  intros ([I1 I2] & F1 & F2 & T1 & T2) Ho Hx Hu. unfold stageError.
  destruct (Nat.ltb_spec 0 (total size (c_inter c))).
  - rewrite (vec_get_nth x k rzero), (vec_get_nth u k rzero) by auto. cbn [obind].
    unfold totalViolationIntermediate. cbn [setCurrent c_x c_u c_t c_inter].
    destruct (stage_distance (c_inter c) (nth k x rzero) (nth k u rzero) (dt * INR k) I1 F1) as (e & -> & El).
    { rewrite T1. exact Ho. }
    cbn [obind]. eexists. split; [rewrite El, T1; reflexivity|]. repeat (split; auto).
  - exists c. rewrite distance_empty; [split; [reflexivity|repeat (split; auto)]| |].
    + rewrite <- T1. apply I1.
    + unfold total in *. rewrite T1 in *. lia.
Qed.

Lemma terminalError_spec dt K x c li lt : ready c li lt -> orderedBounds lt -> (K < length x)%nat ->
  exists c', terminalError n m dt K x (Some c) =
    Ok (Some c', distance lt (nth K x rzero) rzero (dt * INR K)) /\ ready c' li lt /\
    (list_sum (map size lt) <> 0%nat -> c_x c' = nth K x rzero /\ c_u c' = rzero /\ c_t c' = dt * INR K).
Proof.
  intros ([I1 I2] & F1 & F2 & T1 & T2) Ho Hx. unfold terminalError.
  destruct (Nat.ltb_spec 0 (total size (c_term c))).
  - rewrite (vec_get_nth x K rzero) by auto. cbn [obind].
    unfold totalViolationTerminal. cbn [setCurrent c_x c_u c_t c_term].
    destruct (stage_distance (c_term c) (nth K x rzero) rzero (dt * INR K) I2 F2) as (e & -> & El).
    { rewrite T2. exact Ho. }
    cbn [obind]. eexists. split; [rewrite El, T2; reflexivity|]. split; [repeat (split; auto)|]. auto.
  - exists c. rewrite distance_empty; [split; [reflexivity|split; [repeat (split; auto)|]]| |].
    + unfold total in *. rewrite T2 in *. lia.
    + rewrite <- T2. apply I2.
    + unfold total in *. rewrite T2 in *. lia.
Qed.

Lemma generalErrorFrom_spec dt x u li lt cnt : forall k c e, ready c li lt -> orderedBounds li ->
  (k + cnt <= length x)%nat -> (k + cnt <= length u)%nat ->
  exists c', generalErrorFrom n m dt x u cnt k (Some c, e) =
    Ok (Some c', e + rsum cnt (fun i => distance li (nth (k + i) x rzero) (nth (k + i) u rzero)
                                  (dt * INR (k + i)))) /\ ready c' li lt.
Proof.
  induction cnt as [|cnt IH]; intros k c e Hr Ho Hx Hu; cbn [generalErrorFrom].
  - exists c. simpl. rewrite Rplus_0_r. auto.
  - cbn [fst snd]. unfold stageErrorOpt.
    destruct (stageError_spec dt x u k c li lt Hr Ho) as (c1 & -> & Hr1); try lia. cbn [obind fst snd].
    destruct (IH (S k) c1 (e + distance li (nth k x rzero) (nth k u rzero) (dt * INR k)) Hr1 Ho) as (c2 & -> & Hr2); try lia.
    exists c2. split; [|exact Hr2]. do 2 f_equal.
    assert (H : forall q w, rsum (S q) w = w 0%nat + rsum q (fun i => w (S i))).
    { induction q; intros w; [simpl; ring|]. change (rsum (S (S q)) w) with (rsum (S q) w + w (S q)).
      rewrite IHq. simpl. ring. }
    rewrite H. rewrite Nat.add_0_r. rewrite Rplus_assoc. do 2 f_equal. 
    apply rsum_ext. intros i Hi. now rewrite <- Nat.add_succ_comm.
Qed.

(** The value: dt times the sum over the stages of the distances of all constraints from their
    bounds, plus the distance of the terminal constraints at the end. *)
Theorem C62_general cs pts xl ul tl dt K x u :
  allOf built cs ->
  orderedBounds (intermediateOf cs) -> orderedBounds (terminalOf cs) ->
  length x = S K -> length u = K ->
  exists c c', crun (history cs pts xl ul tl) newContainer = Ok c /\
    generalError n m dt K x u (Some c) = Ok (Some c',
      rsum K (fun k => distance (intermediateOf cs) (nth k x rzero) (nth k u rzero) (dt * INR k)) * dt
      + distance (terminalOf cs) (nth K x rzero) rzero (dt * INR K)).
Proof.
  intros Ha O1 O2 Lx Lu.
  destruct (history_run n m cs pts xl ul tl Ha) as (c & Ec & I & Ex & Eu & Et & F1 & F2 & T1 & T2).
  assert (Hr : ready c (intermediateOf cs) (terminalOf cs)) by (repeat (split; auto)).
  unfold generalError.
  destruct (generalErrorFrom_spec dt x u _ _ K 0 c 0 Hr O1) as (c1 & E1 & Hr1); try lia.
  destruct (terminalError_spec dt K x c1 _ _ Hr1 O2) as (c2 & E2 & Hr2 & _); [lia|].
  exists c, c2. split; [exact Ec|]. rewrite E1. cbn [obind fst snd]. rewrite E2. cbn [obind fst snd].
  rewrite Rplus_0_l. reflexivity.
Qed.

Lemma boxErrorFrom_spec dt x u li lti ls lts cnt : forall k ci cst e, ready ci li lti -> ready cst ls lts ->
  orderedBounds li -> orderedBounds ls -> (k + cnt <= length x)%nat -> (k + cnt <= length u)%nat ->
  exists ci' cs', boxErrorFrom n m dt x u cnt k (Some ci, Some cst, e) =
    Ok (Some ci', Some cs', e + rsum cnt (fun i =>
        distance li (nth (k + i) x rzero) (nth (k + i) u rzero) (dt * INR (k + i)) +
        distance ls (nth (k + i) x rzero) (nth (k + i) u rzero) (dt * INR (k + i)))) /\
    ready ci' li lti /\ ready cs' ls lts.
Proof.
  induction cnt as [|cnt IH]; intros k ci cst e Hi Hs Oi Os Hx Hu; cbn [boxErrorFrom].
  - exists ci, cst. simpl. rewrite Rplus_0_r. auto.
  - unfold stageErrorOpt.
    destruct (stageError_spec dt x u k ci li lti Hi Oi) as (c1 & -> & Hr1); try lia. cbn [obind fst snd].
    destruct (stageError_spec dt x u k cst ls lts Hs Os) as (c2 & -> & Hr2); try lia. cbn [obind fst snd].
    edestruct (IH (S k) c1 c2) as (c3 & c4 & -> & Hr3 & Hr4); eauto; try lia.
    exists c3, c4. split; [|auto]. do 2 f_equal.
    assert (H : forall q w, rsum (S q) w = w 0%nat + rsum q (fun i => w (S i))).
    { induction q; intros w; [simpl; ring|]. change (rsum (S (S q)) w) with (rsum (S q) w + w (S q)).
      rewrite IHq. simpl. ring. }
    rewrite H. rewrite Nat.add_0_r. rewrite !Rplus_assoc. do 3 f_equal.
    apply rsum_ext. intros i Hi'. now rewrite <- Nat.add_succ_comm.
Qed.

(** Box constraints: the input container's terminal constraints are not part of the value. *)
Theorem C62_box csi ptsi xi ui ti css ptss xs us ts dt K x u :
  allOf built csi -> allOf built css ->
  orderedBounds (intermediateOf csi) -> orderedBounds (intermediateOf css) -> orderedBounds (terminalOf css) ->
  length x = S K -> length u = K ->
  exists ci cst ci' cst',
    crun (history csi ptsi xi ui ti) newContainer = Ok ci /\
    crun (history css ptss xs us ts) newContainer = Ok cst /\
    boxError n m dt K x u (Some ci) (Some cst) = Ok (Some ci', Some cst',
      rsum K (fun k => distance (intermediateOf csi) (nth k x rzero) (nth k u rzero) (dt * INR k) +
                       distance (intermediateOf css) (nth k x rzero) (nth k u rzero) (dt * INR k)) * dt
      + distance (terminalOf css) (nth K x rzero) rzero (dt * INR K)).
Proof.
  intros Hai Has O1 O2 O3 Lx Lu.
  destruct (history_run n m csi ptsi xi ui ti Hai) as (ci & Eci & I & _ & _ & _ & F1 & F2 & T1 & T2).
  destruct (history_run n m css ptss xs us ts Has) as (cst & Ecs & I' & _ & _ & _ & F1' & F2' & T1' & T2').
  assert (Hr : ready ci (intermediateOf csi) (terminalOf csi)) by (repeat (split; auto)).
  assert (Hr' : ready cst (intermediateOf css) (terminalOf css)) by (repeat (split; auto)).
  unfold boxError.
  destruct (boxErrorFrom_spec dt x u _ _ _ _ K 0 ci cst 0 Hr Hr' O1 O2) as (c1 & c2 & E1 & Hr1 & Hr2); try lia.
  destruct (terminalError_spec dt K x c2 _ _ Hr2 O3) as (c3 & E2 & Hr3 & _); [lia|].
  exists ci, cst, c1, c3. split; [exact Eci|]. split; [exact Ecs|].
  rewrite E1. cbn [obind fst snd]. rewrite E2. cbn [obind fst snd]. rewrite Rplus_0_l. reflexivity.
Qed.

(** Containers that were never given count as no constraint at all: the value is that of the others. *)
Lemma generalErrorFrom_none dt x u cnt : forall k e, generalErrorFrom n m dt x u cnt k (None, e) = Ok (None, e).
Proof.
  induction cnt as [|cnt IH]; intros k e; [reflexivity|]. cbn [generalErrorFrom stageErrorOpt fst snd obind].
  rewrite IH. now rewrite Rplus_0_r.
Qed.
Lemma boxErrorFrom_none dt x u cnt : forall k ci e, boxErrorFrom n m dt x u cnt k (ci, None, e) =
  do s <- generalErrorFrom n m dt x u cnt k (ci, e) ;; Ok (fst s, None, snd s).
Proof.
  induction cnt as [|cnt IH]; intros k ci e; [reflexivity|]. cbn [boxErrorFrom generalErrorFrom].
  cbn [fst snd]. destruct (stageErrorOpt n m dt x u k ci) as [[c r]| |]; [|reflexivity|reflexivity].
  cbn [stageErrorOpt obind fst snd]. rewrite IH. now rewrite Rplus_0_r.
Qed.
Lemma boxErrorFrom_none_l dt x u cnt : forall k cs e, boxErrorFrom n m dt x u cnt k (None, cs, e) =
  do s <- generalErrorFrom n m dt x u cnt k (cs, e) ;; Ok (None, fst s, snd s).
Proof.
  induction cnt as [|cnt IH]; intros k cs e; [reflexivity|]. cbn [boxErrorFrom generalErrorFrom].
  cbn [fst snd stageErrorOpt obind]. destruct (stageErrorOpt n m dt x u k cs) as [[c r]| |]; [|reflexivity|reflexivity].
  cbn [obind fst snd]. rewrite IH. now rewrite Rplus_0_r.
Qed.
Theorem C62_absent dt K x u :
  generalError n m dt K x u None = Ok (None, 0) /\
  boxError n m dt K x u None None = Ok (None, None, 0) /\
  (forall cs, boxError n m dt K x u None cs = do s <- generalError n m dt K x u cs ;; Ok (None, fst s, snd s)) /\
  (forall csi ptsi xi ui ti, allOf built csi -> orderedBounds (intermediateOf csi) -> length x = S K -> length u = K ->
     exists ci ci', crun (history csi ptsi xi ui ti) newContainer = Ok ci /\
       boxError n m dt K x u (Some ci) None = Ok (Some ci', None,
         rsum K (fun k => distance (intermediateOf csi) (nth k x rzero) (nth k u rzero) (dt * INR k)) * dt)).
Proof.
  split; [unfold generalError; rewrite generalErrorFrom_none; cbn; do 2 f_equal; ring|].
  split; [unfold boxError; rewrite boxErrorFrom_none, generalErrorFrom_none; cbn; do 2 f_equal; ring|].
  split.
  - intros cs. unfold boxError, generalError. rewrite boxErrorFrom_none_l.
    destruct (generalErrorFrom n m dt x u K 0 (cs, 0)) as [[c e]| |]; [|reflexivity|reflexivity]. cbn [obind fst snd].
    now destruct (terminalError n m dt K x c) as [[c' e']| |].
  - intros csi ptsi xi ui ti Hai O1 Lx Lu.
    destruct (history_run n m csi ptsi xi ui ti Hai) as (ci & Eci & I & _ & _ & _ & F1 & F2 & T1 & T2).
    assert (Hr : ready ci (intermediateOf csi) (terminalOf csi)) by (repeat (split; auto)).
    destruct (generalErrorFrom_spec dt x u _ _ K 0 ci 0 Hr O1) as (c1 & E1 & Hr1); try lia.
    exists ci, c1. split; [exact Eci|]. unfold boxError. rewrite boxErrorFrom_none, E1. cbn [obind fst snd terminalError].
    do 2 f_equal. rewrite Rplus_0_l, Rplus_0_r. reflexivity.
Qed.

(** A distance is never negative and zero exactly when all values are within the bounds. *)
Lemma gap_zero lo v hi : 0 <= gap lo v hi /\ (gap lo v hi = 0 <-> lo <= v <= hi).
Proof. unfold gap, Rmax. repeat destruct (Rle_dec _ _); split; try lra; split; lra. Qed.
Lemma rsum_zero k f : (forall i, (i < k)%nat -> 0 <= f i) ->
  0 <= rsum k f /\ (rsum k f = 0 <-> forall i, (i < k)%nat -> f i = 0).
Proof.
  induction k; intros H; simpl; [split; [lra|]; split; [intros; lia|auto]|].
  destruct IHk as [P Q]; [intros; apply H; lia|]. assert (Hk := H k ltac:(lia)).
  split; [lra|]. split.
  - intros E i Hi. assert (rsum k f = 0 /\ f k = 0) as [E1 E2] by lra.
    destruct (Nat.eq_dec i k) as [->|]; auto. apply Q; auto; lia.
  - intros E. rewrite (proj2 Q), E by (auto; lia). lra.
Qed.
Lemma distance_zero l x u t : 0 <= distance l x u t /\
  (distance l x u t = 0 <-> within (concat (map lower l)) (concat (map (fun c => evaluate c x u t) l))
                               (concat (map upper l))).
Proof.
  unfold distance, gaps, within.
  destruct (rsum_zero (length (concat (map (fun c => evaluate c x u t) l)))
    (fun r => gap (nth r (concat (map lower l)) 0) (nth r (concat (map (fun c => evaluate c x u t) l)) 0)
               (nth r (concat (map upper l)) 0))) as [P Q].
  { intros i _. apply gap_zero. }
  split; [exact P|]. rewrite Q. split; intros H r Hr; apply gap_zero; auto.
Qed.

(** So the error of a trajectory is never negative, and zero exactly when every constraint holds
    at every stage. *)
Theorem C62_zero li lt dt K x u : 0 < dt ->
  let e := rsum K (fun k => distance li (nth k x rzero) (nth k u rzero) (dt * INR k)) * dt
           + distance lt (nth K x rzero) rzero (dt * INR K) in
  0 <= e /\
  (e = 0 <->
   (forall k, (k < K)%nat ->
      within (concat (map lower li))
        (concat (map (fun c => evaluate c (nth k x rzero) (nth k u rzero) (dt * INR k)) li))
        (concat (map upper li))) /\
   within (concat (map lower lt))
     (concat (map (fun c => evaluate c (nth K x rzero) rzero (dt * INR K)) lt)) (concat (map upper lt))).
Proof.
  intros Hdt e.
  destruct (rsum_zero K (fun k => distance li (nth k x rzero) (nth k u rzero) (dt * INR k))) as [P Q].
  { intros; apply distance_zero. }
  destruct (distance_zero lt (nth K x rzero) rzero (dt * INR K)) as [P' Q'].
  set (s := rsum K (fun k => distance li (nth k x rzero) (nth k u rzero) (dt * INR k))) in *.
  assert (Hp : 0 <= s * dt) by (apply Rmult_le_pos; lra).
  split; [unfold e; lra|]. rewrite <- Q'.
  assert (E : e = 0 <-> s = 0 /\ distance lt (nth K x rzero) rzero (dt * INR K) = 0).
  { unfold e. split.
    - intros E. assert (E1 : s * dt = 0) by lra. apply Rmult_integral in E1. lra.
    - intros [-> ->]. ring. }
  rewrite E, Q. split; intros [A B]; split; auto; intros k Hk; apply distance_zero; auto.
Qed.

(** Once the error of the nominal trajectory has been computed, a container with terminal
    constraints is at the end of the horizon, and the next linearisation of the terminal
    constraints is around the nominal end state. *)
Theorem C43_terminal_partial cs pts xl ul tl calls N p dt x u first :
  allOf built cs -> orderedBounds (intermediateOf cs) -> orderedBounds (terminalOf cs) ->
  prun calls (newProblem N) = Ok p -> (first < p_K p)%nat ->
  length x = S (p_K p) -> length u = p_K p ->
  exists c c1 e c' p', crun (history cs pts xl ul tl) newContainer = Ok c /\
    generalError n m dt (p_K p) x u (Some c) = Ok (Some c1, e) /\
    computeLQApproximation n m dt x u first (p_K p - 1) (c1, p) = Ok (c', p') /\
    forall dx du, feasibleGeneral n m (nth (p_K p) (p_g p') emptyGen) dx du <->
      linearisedWithin (terminalOf cs) (nth (p_K p) x rzero) rzero (dt * INR (p_K p)) dx du.
Proof.
  intros Ha O1 O2 Hp Hf Lx Lu.
  destruct (history_run n m cs pts xl ul tl Ha) as (c & Ec & I & Ex & Eu & Et & F1 & F2 & T1 & T2).
  assert (Hr : ready c (intermediateOf cs) (terminalOf cs)) by (repeat (split; auto)).
  destruct (run_matches _ _ _ _ (new_matches N) Hp) as (HK & _ & _ & Hg).
  destruct (generalErrorFrom_spec dt x u _ _ (p_K p) 0 c 0 Hr O1) as (c1 & E1 & Hr1); try lia.
  destruct (terminalError_spec dt (p_K p) x c1 _ _ Hr1 O2) as (c2 & E2 & Hr2 & Hat); [lia|].
  destruct (linearizeTerminal_spec c2 p _ _ Hr2 ltac:(lia)) as (p1 & E & A1 & A2 & A3 & A4 & A5 & A6).
  destruct (linearizeFrom_spec dt x u _ _ (S (p_K p - 1) - first) first c2 p1 Hr2)
    as (c3 & p3 & E3 & Hr3 & EK3 & Eu3 & Ex3 & Eg3 & Hs3 & Hf3); try lia.
  eexists c, c2, _, c3, p3. split; [exact Ec|]. split.
  { unfold generalError. rewrite E1. cbn [obind fst snd]. rewrite E2. cbn [obind fst snd]. reflexivity. }
  split. { unfold computeLQApproximation. cbn [snd]. rewrite Nat.eqb_refl, E. cbn [obind]. exact E3. }
  intros dx du. rewrite Hs3 by lia. rewrite A6.
  destruct (Nat.eq_dec (list_sum (map size (terminalOf cs))) 0) as [Hz|Hz].
  - unfold linearisedWithin. rewrite Hz. split; intros _ r Hr'; lia.
  - destruct (Hat Hz) as (-> & -> & ->). reflexivity.
Qed.
End Lqoc.

(** ** Where the code does not do what C43 asks *)

Lemma run_new_dense d lb ub : length lb = d -> length ub = d -> leAll lb ub = true ->
  newDenseBox d lb ub = Ok (mkBox (repeat 1%Z d) (map runit (seq 0 d)) d lb ub).
Proof. intros H1 H2 H3. unfold newDenseBox, sanityCheck. now rewrite H1, H2, !Nat.eqb_refl, H3. Qed.
Lemma leAll_unit : leAll [-1] [1] = true.
Proof. simpl. destruct (Rlt_dec 1 (-1)); [lra|auto]. Qed.

Definition unitBox : box := mkBox [1%Z] [runit 0] 1 [-1] [1].
Lemma unitBox_new : newDenseBox 1 [-1] [1] = Ok unitBox.
Proof. rewrite run_new_dense; auto using leAll_unit. Qed.

(** After setZero there are no box constraints and the general constraints are met by everything. *)
Theorem C43_zero n m g p k x u :
  let p' := setZero g p in
  p_K p' = p_K p /\ length (p_g p') = length (p_g p) /\
  (forall s, nth_error (p_g p') k = Some s ->
     g_n s = g /\ length (g_C s) = g /\ length (g_D s) = g /\ length (g_dlb s) = g /\ length (g_dub s) = g /\
     forall i, (i < g)%nat ->
       nth i (g_dlb s) 0 <= rdot n (nth i (g_C s) rzero) x + rdot m (nth i (g_D s) rzero) u <= nth i (g_dub s) 0).
Proof.
  cbn [setZero p_K p_g]. split; [reflexivity|]. split; [apply repeat_length|].
  intros s E. apply nth_error_In, repeat_spec in E. subst s. cbn [g_n g_C g_D g_dlb g_dub].
  rewrite !repeat_length. repeat split; auto; rewrite !nth_repeat; unfold rdot, rzero;
    rewrite (rsum_ext n _ (fun _ => 0)), (rsum_ext m _ (fun _ => 0)) by (intros; ring); rewrite !RVec.rsum_zero; lra.
Qed.

(** Two input box constraints on the same single input (a container accepts any number of terms):
    the second one is written behind the end of the bound vectors. *)
Theorem C43_too_many_refuted :
  exists cs c, allOf (built 1 1) cs /\ Forall inputBox (intermediateOf cs) /\
    crun 1 1 (history cs [] rzero rzero 0) newContainer = Ok c /\
    setInputBoxes 1 1 (Some c) [rzero] (newProblem 1 1 1) = UB.
Proof.
  exists [AddIntermediate (CInput unitBox); AddIntermediate (CInput unitBox)].
  eexists. split; [|split; [|split]].
  - split; [|constructor]. repeat constructor; eapply built_input_all, unitBox_new.
  - repeat constructor.
  - reflexivity.
  - reflexivity.
Qed.

(** A sparsity vector is only checked at its last entry: another entry outside the vector is an
    out-of-bounds read instead of an exception. *)
Theorem C43_unchecked_refuted :
  exists sp, length sp = 2%nat /\ In 5%Z sp /\ accepted 2 2 [0; 0] [1; 1] sp = true /\
    setInputBoxConstraint 2 0 2 [0; 0] [1; 1] sp rzero (newProblem 2 2 1) = UB.
Proof. exists [5%Z; 1%Z]. split; [auto|]. split; [simpl; auto|]. split; reflexivity. Qed.

(** Replacing the box constraints by a container without any does not remove the old ones. *)
Theorem C43_stale_refuted :
  exists calls p c, prun 1 1 calls (newProblem 1 1 1) = Ok p /\
    crun 1 1 (history [] [] rzero rzero 0) newContainer = Ok c /\
    s_terms (c_inter c) = [] /\
    setInputBoxes 1 1 (Some c) [rzero] p = Ok p /\
    ~ feasible (p_u p) 0 (fun _ => 5).
Proof.
  exists [InputBoxes 1 [-1] [1] [0%Z] [rzero]]. eexists _, _.
  split; [reflexivity|]. split; [reflexivity|]. split; [reflexivity|]. split; [reflexivity|].
  intros H. specialize (H 0%nat). simpl in H. unfold rzero in H. lra || (specialize (H ltac:(lia)); lra).
Qed.

(** In the first iteration after the constraints are set, the terminal constraints are linearised
    around the state of the last stage before the end instead of the end state. *)
Theorem C43_terminal_refuted :
  exists cs c c1 p1 c2 p2, allOf (built 1 1) cs /\ terminalOf cs = [CTerminal rzero] /\
    crun 1 1 (history cs [] rzero rzero 0) newContainer = Ok c /\
    let x := [rzero; fun _ => 1] in
    changeGeneralConstraints 1 1 x [rzero] c (newProblem 1 1 1) = Ok (c1, p1) /\
    computeLQApproximation 1 1 1 x [rzero] 0 0 (c1, p1) = Ok (c2, p2) /\
    (forall dx du, feasibleGeneral 1 1 (nth 1 (p_g p2) emptyGen) dx du <-> dx 0%nat = 0) /\
    (forall dx du t, within (concat (map (lower 1) (terminalOf cs)))
       (concat (map (fun k => evaluate 1 1 k (radd (nth 1 x rzero) dx) du t) (terminalOf cs)))
       (concat (map (upper 1) (terminalOf cs))) <-> dx 0%nat = -1).
Proof.
  exists [AddTerminal (CTerminal rzero)]. eexists _, _, _, _, _.
  split; [|split; [|split; [|split; [|split; [|split]]]]].
  - split; [constructor|]. repeat constructor.
  - reflexivity.
  - reflexivity.
  - reflexivity.
  - reflexivity.
  - intros dx du. unfold feasibleGeneral. simpl. unfold rdot, runit, rzero, rsubv. simpl. split.
    + intros H. specialize (H 0%nat Nat.lt_0_1). simpl in H. lra.
    + intros H [|i] Hi; [|exfalso; revert Hi; cbn; lia]. simpl. lra.
  - intros dx du t. unfold within. simpl. unfold radd, rsubv, rzero. split.
    + intros H. specialize (H 0%nat Nat.lt_0_1). simpl in H. lra.
    + intros H [|i] Hi; [|exfalso; revert Hi; cbn; lia]. simpl. lra.
Qed.

(** A terminal (target state) constraint placed among the box constraints is stored as if the
    target were zero. *)
Theorem C43_target_refuted :
  exists cs c p', allOf (built 1 1) cs /\ terminalOf cs = [CTerminal (fun _ => 1)] /\
    crun 1 1 (history cs [] rzero rzero 0) newContainer = Ok c /\
    setStateBoxes 1 (Some c) [rzero; rzero] (newProblem 1 1 1) = Ok p' /\
    (forall dx, feasible (p_x p') 1 dx <-> dx 0%nat = 0) /\
    (forall dx u t, within (concat (map (lower 1) (terminalOf cs)))
       (concat (map (fun k => evaluate 1 1 k (radd rzero dx) u t) (terminalOf cs)))
       (concat (map (upper 1) (terminalOf cs))) <-> dx 0%nat = 1).
Proof.
  exists [AddTerminal (CTerminal (fun _ => 1))]. eexists _, _.
  split; [|split; [|split; [|split; [|split]]]].
  - split; [constructor|]. repeat constructor.
  - reflexivity.
  - reflexivity.
  - reflexivity.
  - intros dx. unfold feasible. simpl. unfold rzero. split.
    + intros H. specialize (H 0%nat Nat.lt_0_1). simpl in H. lra.
    + intros H [|i] Hi; [|exfalso; revert Hi; cbn; lia]. simpl. lra.
  - intros dx u t. unfold within. simpl. unfold radd, rsubv, rzero. split.
    + intros H. specialize (H 0%nat Nat.lt_0_1). simpl in H. lra.
    + intros H [|i] Hi; [|exfalso; revert Hi; cbn; lia]. simpl. lra.
Qed.

(** ** The hypotheses can be met *)

(** Two states, one input, two stages: an input box, a box on the second state, a target state as
    general constraint, refused calls in between. *)
Example C43_example_calls :
  let calls := [InputBoxes 1 [-1] [1] [0%Z] [rzero; fun _ => 2]; StateBox 7 1 [-1] [1] [1%Z] rzero;
                StateBox 1 1 [-1] [1] [1%Z] (fun _ => 3); TerminalBox 1 [0] [0] [0%Z] rzero; Resize 3;
                InputBox 2 2 [-1] [1] [0%Z] rzero] in
  goodCalls 2 1 2 calls /\
  exists p, prun 2 1 calls (newProblem 2 1 2) = Ok p /\ p_K p = 3%nat /\
    (forall du, feasible (p_u p) 1 du <-> -1 <= 2 + du 0%nat <= 1) /\
    (forall du, feasible (p_u p) 2 du) /\
    (forall dx, feasible (p_x p) 1 dx <-> -1 <= 3 + dx 1%nat <= 1).
Proof.
  intros calls. split.
  { unfold calls, goodCalls, goodBox. cbn [length In].
    repeat split; try (right; split); intros; lia. }
  eexists. split; [reflexivity|].
  pose proof (C43_history 2 1 calls 2 _ eq_refl) as (_ & Hu & Hx).
  split; [reflexivity|]. split; [|split].
  - intros du. rewrite Hu by (simpl; lia). simpl. split; [intros H; exact (H 0%nat ltac:(lia))|].
    intros H [|i] Hi; [exact H|lia].
  - intros du. rewrite Hu by (simpl; lia). simpl. auto.
  - intros dx. rewrite Hx by (simpl; lia). simpl. split; [intros H; exact (H 0%nat ltac:(lia))|].
    intros H [|i] Hi; [exact H|lia].
Qed.

Example C43_example_containers :
  let cs := [AddIntermediate (CInput unitBox)] in
  let ct := [AddIntermediate (CState unitBox); Initialize; AddTerminal (CState unitBox)] in
  let cg := [AddTerminal (CTerminal (fun _ => 1)); AddIntermediate (CInput unitBox)] in
  allOf (built 1 1) cs /\ Forall inputBox (intermediateOf cs) /\
  (0 < list_sum (map (size 1) (intermediateOf cs)) <= 1)%nat /\
  allOf (built 1 1) ct /\ allOf stateBox ct /\
  (list_sum (map (size 1) (intermediateOf ct)) <= 1)%nat /\
  (list_sum (map (size 1) (terminalOf ct)) <= 1)%nat /\
  allOf (built 1 1) cg /\ allOf affine cg /\
  orderedBounds 1 (intermediateOf cg) /\ orderedBounds 1 (terminalOf cg) /\
  distance 1 1 (intermediateOf cg) rzero (fun _ => 3) 0 = 2.
Proof.
  cbn zeta.
  assert (B1 : built 1 1 (CInput unitBox)) by (eapply built_input_all, unitBox_new).
  assert (B2 : built 1 1 (CState unitBox)) by (eapply built_state_all, unitBox_new).
  split. { split; [|constructor]. repeat constructor; auto. }
  split. { repeat constructor. }
  split. { simpl. lia. }
  split. { split; repeat constructor; auto. }
  split. { split; repeat constructor. }
  split. { simpl. lia. }
  split. { simpl. lia. }
  split. { split; repeat constructor; auto. }
  split. { split; repeat constructor. }
  split. { intros [|r] Hr; simpl in *; [lra|lia]. }
  split. { intros [|r] Hr; simpl in *; [lra|lia]. }
  unfold distance, gaps, gap. simpl. unfold rdot, runit. simpl. unfold Rmax.
  repeat destruct (Rle_dec _ _); lra.
Qed.

Print Assumptions C43_history.
Print Assumptions C43_no_undefined.
Print Assumptions C43_input_boxes.
Print Assumptions C43_state_boxes.
Print Assumptions C43_general.
Print Assumptions C43_general_affine.
Print Assumptions C43_terminal_partial.
Print Assumptions C43_too_many_refuted.
Print Assumptions C43_unchecked_refuted.
Print Assumptions C43_stale_refuted.
Print Assumptions C43_terminal_refuted.
Print Assumptions C43_target_refuted.
Print Assumptions C62_general.
Print Assumptions C62_box.
Print Assumptions C62_absent.
Print Assumptions C62_zero.
Print Assumptions C43_zero.

(** C43. General constraints given directly: refused unless the numbers of rows and bounds agree, otherwise those of every
    stage, and nothing else changes. *)
Theorem C43_general_set dlb dub C D p :
  (length dlb = length dub /\ length C = length D /\ length dlb = length C ->
   exists p', setGeneralConstraints dlb dub C D p = Ok p' /\ p_K p' = p_K p /\ p_u p' = p_u p /\ p_x p' = p_x p /\
     length (p_g p') = length (p_g p) /\
     forall k, (k < length (p_g p))%nat -> nth_error (p_g p') k = Some (mkGen (length C) C D dlb dub)) /\
  (~ (length dlb = length dub /\ length C = length D /\ length dlb = length C) -> setGeneralConstraints dlb dub C D p = Throw).
Proof.
  unfold setGeneralConstraints. split.
  - intros (E1 & E2 & E3). rewrite <- E1, <- E2, <- E3, !Nat.eqb_refl. cbn [negb orb]. eexists. split; [reflexivity|]. cbn [p_K p_u p_x p_g].
    rewrite repeat_length. repeat (split; [reflexivity|]). intros k Hk. apply nth_error_repeat. exact Hk.
  - intros N. destruct (Nat.eqb_spec (length dlb) (length dub)); destruct (Nat.eqb_spec (length C) (length D)); destruct (Nat.eqb_spec (length dlb) (length C)); try reflexivity.
    exfalso. apply N. auto.
Qed.
Print Assumptions C43_general_set.
