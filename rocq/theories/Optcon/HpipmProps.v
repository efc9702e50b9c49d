(** * C83: the QP handed to the interior-point solver is the problem that was set *)
From Coq Require Import List QArith ZArith Bool Lia Arith.
From Verif Require Import Base.Outcome Optcon.HpipmModel Optcon.HpipmSpec Optcon.HpipmProofs.
Import ListNotations.
Local Open Scope nat_scope.

(** ** Reachable interfaces *)
Lemma step_inv n m s h p s' h' q :
  wf n m h p -> inv n m s -> set_problem n m s h p = Ok (s', h', q) ->
  post n m p h s s' h' /\ hand s' h' (seq 0 (S (K p))) = Ok q /\ used n m (K p) s'.
Proof.
  intros W I E. destruct (set_problem_form n m s h p W I) as (s2 & h2 & P & E2).
  rewrite E2 in E. destruct (hand s2 h2 (seq 0 (S (K p)))) as [q2| |] eqn:EH; try discriminate.
  cbn in E. injection E as <- <- <-. split; auto. split; auto. apply P.
Qed.

Lemma run_inv n m calls s last s' q :
  List.Forall (fun c => wf n m (fst c) (snd c)) calls -> inv n m s ->
  run n m s last calls = Ok (s', q) -> inv n m s'.
Proof.
  revert s last. induction calls as [|[h p] r IH]; cbn; intros s last F I E.
  - injection E as <- <-. auto.
  - inversion F as [|? ? W F']; subst.
    destruct (set_problem n m s h p) as [[[s1 h1] q1]| |] eqn:E1; try discriminate.
    cbn in E. destruct (step_inv _ _ _ _ _ _ _ _ W I E1) as (_ & _ & U).
    apply (IH s1 q1); auto. right; eauto.
Qed.

Lemma box3_length c xi xl m1 xu m2 :
  length xi = c -> length xl = c -> length xu = c -> length m1 = c -> length m2 = c ->
  length (box3 xi (masked xl m1) (masked xu m2)) = c.
Proof.
  intros. unfold box3, masked. rewrite !combine_length, !map_length, !combine_length. lia.
Qed.

Lemma read_length s h a i c v : read s h a i c = Ok v -> length v = c.
Proof.
  unfold read. destruct c; [intros [= <-]; reflexivity|].
  destruct (nth i (ptrs s a) Null); try discriminate.
  - destruct (live h b); try discriminate. destruct (nth_error b0 i0); try discriminate.
    destruct (Nat.leb_spec (S c) (length c0)); try discriminate. intros H1.
    apply Ok_inj in H1. subst v. rewrite firstn_length. lia.
  - destruct (Nat.leb_spec (S c) (length (own s a))); try discriminate. intros H1.
    apply Ok_inj in H1. subst v. rewrite firstn_length. lia.
Qed.

Lemma read_mask_length ms i c v : read_mask ms i c = Ok v -> length v = c.
Proof.
  unfold read_mask. destruct (Nat.leb_spec c (length (nth i ms []))); try discriminate.
  intros [= <-]. rewrite firstn_length. lia.
Qed.

Lemma read_box_length s h aI al au ml mu i c b :
  (forall v, ml = Ok v -> length v = c) -> (forall v, mu = Ok v -> length v = c) ->
  read_box s h aI al au ml mu i c = Ok b -> length b = c.
Proof.
  intros Hl Hu. unfold read_box.
  destruct (read s h aI i c) eqn:E1; try discriminate. cbn [obind].
  destruct (read s h al i c) eqn:E2; try discriminate. cbn [obind].
  destruct (read s h au i c) eqn:E3; try discriminate. cbn [obind].
  destruct ml as [w1| |] eqn:E4; try discriminate. cbn [obind].
  destruct mu as [w2| |] eqn:E5; try discriminate. cbn [obind].
  intros [= <-]. apply box3_length; eauto using read_length.
Qed.

Lemma box_of_length c ix lb ub :
  c <= length ix -> c <= length lb -> c <= length ub -> length (box_of c ix lb ub) = c.
Proof.
  intros. unfold box_of. rewrite !combine_length, !map_length, !firstn_length. lia.
Qed.

(** ** Cost, dynamics and general constraints

    Whatever problems were set before, once setProblem returns the interior-point solver
    has the dimensions, the dynamics, the cost and the general constraints of the problem
    just set, at every stage, and as many box constraints as that problem has at every
    stage before the last.  The arrays other than those of the bounds are not written. *)
Theorem C83_cost_and_general :
  forall n m calls s last h p s' h' q,
  List.Forall (fun c => wf n m (fst c) (snd c)) calls -> wf n m h p ->
  run n m fresh [] calls = Ok (s, last) ->
  set_problem n m s h p = Ok (s', h', q) ->
  length q = S (K p)
  /\ (forall i st, nth_error q i = Some st ->
        no_box st = no_box (lq_stage n m h p i)
        /\ length (q_box_x st) = length (q_box_x (lq_stage n m h p i))
        /\ (i < K p -> length (q_box_u st) = length (q_box_u (lq_stage n m h p i))))
  /\ (forall a i, i < asize a (K p) -> ~ In a [aulb; auub; axlb; axub; adlb; adub] ->
        content h' p a i = content h p a i).
Proof.
  intros n m calls s last h p s' h' q F W R E.
  pose proof (run_inv _ _ _ _ _ _ _ F (fresh_inv n m) R) as I.
  destruct (step_inv _ _ _ _ _ _ _ _ W I E) as (P & H & U).
  destruct (hand_inv _ _ _ _ H) as (L & Q). rewrite seq_length in L.
  split; auto. split.
  - intros i st Hi.
    assert (Hlt : i < S (K p)) by (rewrite <- L; apply nth_error_Some; congruence).
    destruct (Q i i) as (st' & E1 & E2).
    { rewrite (nth_error_nth' _ 0) by (rewrite seq_length; lia). rewrite seq_nth by lia. reflexivity. }
    assert (st' = st) by congruence. subst st'.
    rewrite (hand_stage_form n m p h s s' h' i W P) in E2 by lia.
    destruct (read_box s' h' axI axlb axub _ _ i (xcount p i)) as [bx| |] eqn:EX; try discriminate.
    cbn [obind] in E2.
    destruct (read_box s' h' auI aulb auub _ _ i (ucount p s' i)) as [bu| |] eqn:EB; try discriminate.
    cbn [obind] in E2. apply Ok_inj in E2. subst st.
    split; [reflexivity|]. split.
    + cbn [with_box q_box_x].
      rewrite (read_box_length _ _ _ _ _ _ _ _ _ _ (read_mask_length _ _ _) (read_mask_length _ _ _) EX).
      cbn [lq_stage q_box_x]. unfold xcount. destruct (Nat.eqb_spec i 0); auto.
      pose proof (wf_nbx _ _ _ _ W i ltac:(lia)) as NB.
      destruct (wf_get _ _ _ _ axI i W) as (_ & L1); [cbn; lia|].
      destruct (wf_get _ _ _ _ axlb i W) as (_ & L2); [cbn; lia|].
      destruct (wf_get _ _ _ _ axub i W) as (_ & L3); [cbn; lia|].
      cbn [width] in L1, L2, L3. rewrite box_of_length; auto; lia.
    + intros Hk. cbn [with_box q_box_u].
      assert (D : (i =? K p) = false) by (apply Nat.eqb_neq; lia).
      unfold ucount in EB. rewrite D in EB.
      rewrite (read_box_length _ _ _ _ _ _ _ _ _ _ (read_mask_length _ _ _) (read_mask_length _ _ _) EB).
      cbn [lq_stage q_box_u]. rewrite D.
      pose proof (wf_nbu _ _ _ _ W i Hk) as NB.
      destruct (wf_get _ _ _ _ auI i W) as (_ & L1); [cbn; lia|].
      destruct (wf_get _ _ _ _ aulb i W) as (_ & L2); [cbn; lia|].
      destruct (wf_get _ _ _ _ auub i W) as (_ & L3); [cbn; lia|].
      cbn [width] in L1, L2, L3. rewrite box_of_length; auto; lia.
  - intros a i Ha Ia. apply (content_eq n m); auto. apply (po_heap _ _ _ _ _ _ _ P).
    unfold six. exact Ia.
Qed.

(** ** Box constraints after a change of their number

    Where the number of box constraints differs from that of the previous call, the
    handed-over constraints are those of the new problem, also for a new object. *)
Lemma counts_of n m s h p s' h' q :
  wf n m h p -> inv n m s -> set_problem n m s h p = Ok (s', h', q) ->
  (forall j, j < K p -> nth j (nbu s') 0 = nth j (p_nbu p) 0)
  /\ (forall j, 1 <= j <= K p -> nth j (nbx s') 0 = nth j (p_nbx p) 0).
Proof.
  intros W I E. destruct (step_inv _ _ _ _ _ _ _ _ W I E) as (P & _ & _).
  split; intros j Hj.
  - now apply (po_nbu _ _ _ _ _ _ _ P).
  - rewrite (po_nbx _ _ _ _ _ _ _ P) by lia. unfold xcount.
    destruct (Nat.eqb_spec j 0); auto; lia.
Qed.

Lemma used_resize {A} n m N s (v : A) l : used n m N s -> length l = S N -> resize (S N) v l = l.
Proof. intros U. apply resize_same. Qed.

Theorem C83_box_count_changed :
  forall n m calls s0 last h1 p1 s1 h1' q1 h2 p2 s2 h2' q2,
  List.Forall (fun c => wf n m (fst c) (snd c)) calls -> wf n m h1 p1 -> wf n m h2 p2 ->
  K p1 = K p2 ->
  run n m fresh [] calls = Ok (s0, last) ->
  set_problem n m s0 h1 p1 = Ok (s1, h1', q1) ->
  set_problem n m s1 h2 p2 = Ok (s2, h2', q2) ->
  forall i st, nth_error q2 i = Some st ->
  (i < K p2 -> nth i (p_nbu p1) 0 <> nth i (p_nbu p2) 0 ->
     q_box_u st = q_box_u (lq_stage n m h2 p2 i))
  /\ (1 <= i -> nth i (p_nbx p1) 0 <> nth i (p_nbx p2) 0 ->
     q_box_x st = q_box_x (lq_stage n m h2 p2 i)).
Proof.
  intros n m calls s0 last h1 p1 s1 h1' q1 h2 p2 s2 h2' q2 F W1 W2 EK R E1 E2 i st Hi.
  pose proof (run_inv _ _ _ _ _ _ _ F (fresh_inv n m) R) as I0.
  destruct (step_inv _ _ _ _ _ _ _ _ W1 I0 E1) as (_ & _ & U1).
  destruct (counts_of _ _ _ _ _ _ _ _ W1 I0 E1) as (CU & CX).
  assert (I1 : inv n m s1) by (right; eauto).
  destruct (step_inv _ _ _ _ _ _ _ _ W2 I1 E2) as (P & H & U2).
  destruct (hand_inv _ _ _ _ H) as (L & Q). rewrite seq_length in L.
  assert (Hlt : i < S (K p2)) by (rewrite <- L; apply nth_error_Some; congruence).
  destruct (Q i i) as (st' & X1 & X2).
  { rewrite (nth_error_nth' _ 0) by (rewrite seq_length; lia). rewrite seq_nth by lia. reflexivity. }
  assert (st' = st) by congruence. subst st'.
  rewrite (hand_stage_form n m p2 h2 s1 s2 h2' i W2 P) in X2 by lia.
  pose proof (us_sz _ _ _ _ U1) as SZ. rewrite EK in SZ.
  assert (RU : resize (S (K p2)) 0 (nbu s1) = nbu s1) by (apply resize_same; apply SZ).
  assert (RX : resize (S (K p2)) 0 (nbx s1) = nbx s1) by (apply resize_same; apply SZ).
  split.
  - intros Hk D.
    assert (Dk : (i =? K p2) = false) by (apply Nat.eqb_neq; lia).
    destruct (read_box s2 h2' axI axlb axub _ _ i (xcount p2 i)) as [bx| |]; try discriminate.
    cbn [obind] in X2. unfold ucount in X2. rewrite Dk in X2.
    destruct (po_u _ _ _ _ _ _ _ P i Hk) as [(B & _)|RN].
    { rewrite RU, CU in B by lia. contradiction. }
    pose proof (wf_nbu _ _ _ _ W2 i Hk) as NB.
    destruct (wf_get _ _ _ _ auI i W2) as (_ & L1); [cbn; lia|].
    destruct (wf_get _ _ _ _ aulb i W2) as (_ & L2); [cbn; lia|].
    destruct (wf_get _ _ _ _ auub i W2) as (_ & L3); [cbn; lia|].
    cbn [width] in L1, L2, L3.
    rewrite (read_box_renewed n m p2 h2 h2' s2 auI aulb auub) in X2
      by (first [assumption | solve [cbn; lia] | solve [unfold six; notin]
                | apply (po_heap _ _ _ _ _ _ _ P); unfold six; notin]).
    cbn [obind] in X2. apply Ok_inj in X2. subst st.
    cbn [with_box q_box_u lq_stage]. now rewrite Dk.
  - intros H1i D.
    assert (XC : xcount p2 i = nth i (p_nbx p2) 0).
    { unfold xcount. destruct (Nat.eqb_spec i 0); auto; lia. }
    destruct (po_x _ _ _ _ _ _ _ P i ltac:(lia)) as [(B & _)|RN].
    { rewrite RX, CX, XC in B by lia. contradiction. }
    rewrite XC in *.
    pose proof (wf_nbx _ _ _ _ W2 i ltac:(lia)) as NB.
    destruct (wf_get _ _ _ _ axI i W2) as (_ & L1); [cbn; lia|].
    destruct (wf_get _ _ _ _ axlb i W2) as (_ & L2); [cbn; lia|].
    destruct (wf_get _ _ _ _ axub i W2) as (_ & L3); [cbn; lia|].
    cbn [width] in L1, L2, L3.
    rewrite (read_box_renewed n m p2 h2 h2' s2 axI axlb axub) in X2
      by (first [assumption | solve [cbn; lia] | solve [unfold six; notin]
                | apply (po_heap _ _ _ _ _ _ _ P); unfold six; notin]).
    cbn [obind] in X2.
    destruct (read_box s2 h2' auI aulb auub _ _ i (ucount p2 s2 i)) as [bu| |]; try discriminate.
    cbn [obind] in X2. apply Ok_inj in X2. subst st.
    cbn [with_box q_box_x lq_stage]. destruct (Nat.eqb_spec i 0); auto; lia.
Qed.

(** ** The whole problem, in steady use *)

(** After a call with [(h, p)], every stage with box constraints points to the problem
    and has masks that follow its bounds. *)
Definition follows (p : problem) (aI al au : arr) (c : nat) (h : heap) (f : arr -> list ptr)
    (ml mu : list (list bool)) (j : nat) : Prop :=
  c = 0 \/
  ((nth j (f aI) Null = At (blk p aI) j
    /\ nth j (f al) Null = At (blk p al) j /\ nth j (f au) Null = At (blk p au) j)
   /\ nth j ml [] = map is_lower (firstn c (content h p al j))
   /\ nth j mu [] = map is_upper (firstn c (content h p au j))).

Record tracking (n m : nat) (h : heap) (p : problem) (s : solver) : Prop :=
  { tr_used : used n m (K p) s;
    tr_nbu : forall j, j < K p -> nth j (nbu s) 0 = nth j (p_nbu p) 0;
    tr_uN : nth (K p) (nbu s) 0 = 0;
    tr_nbx : forall j, j <= K p -> nth j (nbx s) 0 = xcount p j;
    tr_u : forall j, j < K p ->
       follows p auI aulb auub (nth j (p_nbu p) 0) h (ptrs s) (mlbu s) (mubu s) j;
    tr_x : forall j, j <= K p ->
       follows p axI axlb axub (xcount p j) h (ptrs s) (mlbx s) (mubx s) j }.

Lemma none_lower x : lower x = None <-> is_lower x = false.
Proof. rewrite lower_is. destruct (is_lower x); split; congruence. Qed.
Lemma none_upper x : upper x = None <-> is_upper x = false.
Proof. rewrite upper_is. destruct (is_upper x); split; congruence. Qed.

Lemma map_firstn_eq (f : Q -> bool) c (v w : cell) :
  c <= length v -> c <= length w ->
  (forall k, k < c -> f (nth k v 0%Q) = false <-> f (nth k w 0%Q) = false) ->
  map f (firstn c v) = map f (firstn c w).
Proof.
  revert v w. induction c as [|c IH]; intros v w Lv Lw H; auto.
  destruct v as [|x v]; [cbn in Lv; lia|]. destruct w as [|y w]; [cbn in Lw; lia|].
  cbn in *. f_equal.
  - specialize (H 0 ltac:(lia)). cbn in H. destruct (f x), (f y); intuition congruence.
  - apply IH; try lia. intros k Hk. apply (H (S k)). lia.
Qed.

Lemma same_masks h1 h2 p al au c j :
  c <= length (content h1 p al j) -> c <= length (content h2 p al j) ->
  c <= length (content h1 p au j) -> c <= length (content h2 p au j) ->
  same_unbounded h1 h2 p al au c j ->
  map is_lower (firstn c (content h1 p al j)) = map is_lower (firstn c (content h2 p al j))
  /\ map is_upper (firstn c (content h1 p au j)) = map is_upper (firstn c (content h2 p au j)).
Proof.
  intros L1 L2 L3 L4 S. split; apply map_firstn_eq; auto; intros k Hk.
  - destruct (S k Hk) as (A & _). now rewrite <- !none_lower.
  - destruct (S k Hk) as (_ & B). now rewrite <- !none_upper.
Qed.

(** A box family after a call: it follows the problem and is read correctly. *)
Lemma follows_step n m p h0 h s s' aI al au c c0 ml0 ml mu0 mu j :
  wf n m h0 p -> j < asize aI (K p) -> j < asize al (K p) -> j < asize au (K p) ->
  ~ In aI six -> get h p aI j = get h0 p aI j ->
  c <= length (content h0 p aI j) -> c <= length (content h0 p al j) ->
  c <= length (content h0 p au j) ->
  box_step p aI al au c c0 h0 h s s' ml0 ml mu0 mu j ->
  (c0 = c -> follows p aI al au c h0
      (fun a => resize (S (K p)) Null (ptrs s a)) (resize (S (K p)) [] ml0)
      (resize (S (K p)) [] mu0) j) ->
  follows p aI al au c h0 (ptrs s') ml mu j
  /\ read_box s' h aI al au (read_mask ml j c) (read_mask mu j c) j c
     = Ok (box_of c (content h0 p aI j) (content h0 p al j) (content h0 p au j)).
Proof.
  intros W I1 I2 I3 NI GI L1 L2 L3 B FW.
  assert (RN : renewed p aI al au c h0 h (ptrs s') ml mu j ->
    follows p aI al au c h0 (ptrs s') ml mu j
    /\ read_box s' h aI al au (read_mask ml j c) (read_mask mu j c) j c
       = Ok (box_of c (content h0 p aI j) (content h0 p al j) (content h0 p au j))).
  { intros R. split.
    - right. destruct R as (R1 & R2 & R3 & _). auto.
    - apply (read_box_renewed n m); auto. }
  destruct B as [(E & A & ML & MU)|R]; [|auto].
  destruct (FW E) as [Z|((P1 & P2 & P3) & M1 & M2)].
  - subst c. rewrite Z in *. split; [left; reflexivity|]. reflexivity.
  - apply RN.
    destruct (A aI) as (A1 & A2); [cbn; tauto|].
    destruct (A al) as (A3 & A4); [cbn; tauto|].
    destruct (A au) as (A5 & A6); [cbn; tauto|].
    destruct (wf_get _ _ _ _ al j W I2) as (G1 & _).
    destruct (wf_get _ _ _ _ au j W I3) as (G2 & _).
    unfold renewed. rewrite A1, A3, A5, ML, MU.
    repeat split; auto.
    + exists (content h0 p al j). rewrite A4. unfold agrees. auto.
    + exists (content h0 p au j). rewrite A6. unfold agrees. auto.
Qed.

Lemma nth_nil {A} (i : nat) (d : A) : nth i [] d = d.
Proof. destruct i; reflexivity. Qed.

Lemma resize_nil_nth {A} n (v d : A) i : i < n -> nth i (resize n v []) d = v.
Proof.
  intros H. unfold resize. rewrite firstn_nil. cbn [length app]. rewrite Nat.sub_0_r.
  rewrite nth_indep with (d' := v) by (rewrite repeat_length; lia). apply nth_repeat.
Qed.

(** One call: from an unused interface, or from one that follows a problem with which the
    new call is steady. *)
Lemma tracking_step n m s h p :
  wf n m h p ->
  (s = fresh \/ exists h1 p1, wf n m h1 p1 /\ tracking n m h1 p1 s /\ steady (h1, p1) (h, p)) ->
  exists s' h', set_problem n m s h p = Ok (s', h', lq_qp n m h p) /\ tracking n m h p s'.
Proof.
  intros W ST.
  assert (I : inv n m s).
  { destruct ST as [->|(h1 & p1 & _ & T & _)]; [apply fresh_inv|].
    right. exists (K p1). apply T. }
  destruct (set_problem_form n m s h p W I) as (s' & h' & P & E).
  pose proof P as P'. destruct P as [U P1 P2 P3 P4 P5 P6 P7 P8].
  (* the previous state of a stage with an unchanged number of constraints *)
  assert (FU : forall j, j < K p ->
     nth j (resize (S (K p)) 0 (nbu s)) 0 = nth j (p_nbu p) 0 ->
     follows p auI aulb auub (nth j (p_nbu p) 0) h
       (fun a => resize (S (K p)) Null (ptrs s a)) (resize (S (K p)) [] (mlbu s))
       (resize (S (K p)) [] (mubu s)) j).
  { intros j Hj Ec. destruct ST as [->|(h1 & p1 & W1 & T & (EK & EB & SU & _))].
    - left. rewrite <- Ec. cbn [nbu fresh]. apply resize_nil_nth. lia.
    - destruct T as [T1 T2 _ _ T5 _]. pose proof (us_sz _ _ _ _ T1) as SZ. rewrite EK in SZ.
      rewrite resize_same in Ec by apply SZ. rewrite T2 in Ec by lia.
      destruct (T5 j ltac:(lia)) as [Z|((Q1 & Q2 & Q3) & M1 & M2)]; [left; congruence|].
      right. rewrite !EB in *.
      rewrite !(resize_same (S (K p)) Null) by (apply SZ; cbn; tauto).
      rewrite !(resize_same (S (K p)) []) by apply SZ.
      assert (CE : forall a, content h1 p1 a j = content h1 p a j)
        by (intros; unfold content; now rewrite EB).
      rewrite CE, Ec in M1. rewrite CE, Ec in M2.
      destruct (wf_get _ _ _ _ aulb j W) as (_ & L1); [cbn; lia|].
      destruct (wf_get _ _ _ _ auub j W) as (_ & L2); [cbn; lia|].
      destruct (wf_get _ _ _ _ aulb j W1) as (_ & L3); [cbn; lia|].
      destruct (wf_get _ _ _ _ auub j W1) as (_ & L4); [cbn; lia|].
      cbn [width] in L1, L2, L3, L4. rewrite CE in L3, L4.
      pose proof (wf_nbu _ _ _ _ W j Hj) as NB.
      destruct (same_masks h1 h p aulb auub (nth j (p_nbu p) 0) j) as (SM1 & SM2);
        try lia; [apply SU; auto|].
      rewrite <- SM1, <- SM2. auto. }
  assert (FX : forall j, j <= K p ->
     nth j (resize (S (K p)) 0 (nbx s)) 0 = xcount p j ->
     follows p axI axlb axub (xcount p j) h
       (fun a => resize (S (K p)) Null (ptrs s a)) (resize (S (K p)) [] (mlbx s))
       (resize (S (K p)) [] (mubx s)) j).
  { intros j Hj Ec. destruct ST as [->|(h1 & p1 & W1 & T & (EK & EB & _ & SX))].
    - left. rewrite <- Ec. cbn [nbx fresh]. apply resize_nil_nth. lia.
    - destruct T as [T1 _ _ T4 _ T6]. pose proof (us_sz _ _ _ _ T1) as SZ. rewrite EK in SZ.
      rewrite resize_same in Ec by apply SZ. rewrite T4 in Ec by lia.
      destruct (Nat.eq_dec j 0) as [->|D0]; [left; reflexivity|].
      destruct (T6 j ltac:(lia)) as [Z|((Q1 & Q2 & Q3) & M1 & M2)]; [left; congruence|].
      right. rewrite !EB in *.
      rewrite !(resize_same (S (K p)) Null) by (apply SZ; cbn; tauto).
      rewrite !(resize_same (S (K p)) []) by apply SZ.
      assert (CE : forall a, content h1 p1 a j = content h1 p a j)
        by (intros; unfold content; now rewrite EB).
      rewrite CE, Ec in M1. rewrite CE, Ec in M2.
      assert (XC : xcount p j = nth j (p_nbx p) 0)
        by (unfold xcount; destruct (Nat.eqb_spec j 0); congruence).
      assert (XC1 : xcount p1 j = nth j (p_nbx p1) 0)
        by (unfold xcount; destruct (Nat.eqb_spec j 0); congruence).
      destruct (wf_get _ _ _ _ axlb j W) as (_ & L1); [cbn; lia|].
      destruct (wf_get _ _ _ _ axub j W) as (_ & L2); [cbn; lia|].
      destruct (wf_get _ _ _ _ axlb j W1) as (_ & L3); [cbn; lia|].
      destruct (wf_get _ _ _ _ axub j W1) as (_ & L4); [cbn; lia|].
      cbn [width] in L1, L2, L3, L4. rewrite CE in L3, L4.
      pose proof (wf_nbx _ _ _ _ W j Hj) as NB.
      destruct (same_masks h1 h p axlb axub (xcount p j) j) as (SM1 & SM2);
        try (rewrite XC; lia); [rewrite XC; apply SX; [lia|congruence]|].
      rewrite <- SM1, <- SM2. auto. }
  assert (GU : forall j, j < K p ->
    follows p auI aulb auub (nth j (p_nbu p) 0) h (ptrs s') (mlbu s') (mubu s') j
    /\ read_box s' h' auI aulb auub (read_mask (mlbu s') j (nth j (p_nbu p) 0))
         (read_mask (mubu s') j (nth j (p_nbu p) 0)) j (nth j (p_nbu p) 0)
       = Ok (box_of (nth j (p_nbu p) 0) (content h p auI j) (content h p aulb j)
               (content h p auub j))).
  { intros j Hj.
    pose proof (wf_nbu _ _ _ _ W j Hj) as NB.
    destruct (wf_get _ _ _ _ auI j W) as (_ & L1); [cbn; lia|].
    destruct (wf_get _ _ _ _ aulb j W) as (_ & L2); [cbn; lia|].
    destruct (wf_get _ _ _ _ auub j W) as (_ & L3); [cbn; lia|].
    cbn [width] in L1, L2, L3.
    apply (follows_step n m p h h' s s' auI aulb auub (nth j (p_nbu p) 0)
             (nth j (resize (S (K p)) 0 (nbu s)) 0) (mlbu s) (mlbu s') (mubu s) (mubu s') j);
      try (cbn; lia); auto; try lia.
    - unfold six; notin.
    - apply P7. unfold six; notin. }
  assert (GX : forall j, j <= K p ->
    follows p axI axlb axub (xcount p j) h (ptrs s') (mlbx s') (mubx s') j
    /\ read_box s' h' axI axlb axub (read_mask (mlbx s') j (xcount p j))
         (read_mask (mubx s') j (xcount p j)) j (xcount p j)
       = Ok (box_of (xcount p j) (content h p axI j) (content h p axlb j)
               (content h p axub j))).
  { intros j Hj.
    assert (NB : xcount p j <= n).
    { unfold xcount. destruct (Nat.eqb_spec j 0); [lia|]. apply (wf_nbx _ _ _ _ W); lia. }
    destruct (wf_get _ _ _ _ axI j W) as (_ & L1); [cbn; lia|].
    destruct (wf_get _ _ _ _ axlb j W) as (_ & L2); [cbn; lia|].
    destruct (wf_get _ _ _ _ axub j W) as (_ & L3); [cbn; lia|].
    cbn [width] in L1, L2, L3.
    apply (follows_step n m p h h' s s' axI axlb axub (xcount p j)
             (nth j (resize (S (K p)) 0 (nbx s)) 0) (mlbx s) (mlbx s') (mubx s) (mubx s') j);
      try (cbn; lia); auto; try lia.
    - unfold six; notin.
    - apply P7. unfold six; notin. }
  assert (TN : nth (K p) (nbu s') 0 = 0).
  { rewrite P3. destruct ST as [->|(h1 & p1 & W1 & T & (EK & _))].
    - cbn [nbu fresh]. apply resize_nil_nth. lia.
    - destruct T as [T1 _ T3 _ _ _]. pose proof (us_sz _ _ _ _ T1) as SZ. rewrite EK in SZ.
      rewrite resize_same by apply SZ. congruence. }
  exists s', h'. split.
  - rewrite E. rewrite (hand_ok s' h' (lq_stage n m h p)); [reflexivity|].
    intros i Hi. apply in_seq in Hi.
    rewrite (hand_stage_form n m p h s s' h' i W P') by lia.
    destruct (GX i ltac:(lia)) as (_ & ->). cbn [obind].
    unfold ucount. destruct (Nat.eqb_spec i (K p)) as [->|D].
    + rewrite TN. unfold read_box. cbn [read obind repeat].
      unfold with_box, lq_stage. cbn [q_nx q_nu q_A q_B q_b q_Q q_S q_R q_q q_r q_C q_D q_gen].
      rewrite Nat.eqb_refl. do 2 f_equal.
      unfold xcount. destruct (Nat.eqb_spec (K p) 0); auto.
    + destruct (GU i ltac:(lia)) as (_ & ->). cbn [obind].
      unfold with_box, lq_stage. cbn [q_nx q_nu q_A q_B q_b q_Q q_S q_R q_q q_r q_C q_D q_gen].
      rewrite (proj2 (Nat.eqb_neq i (K p)) D). do 2 f_equal.
      unfold xcount. destruct (Nat.eqb_spec i 0); auto.
  - constructor; auto; intros; [apply GU|apply GX]; auto.
Qed.

Lemma last_step {A} (r : list A) (x d : A) : List.last (x :: r) d = List.last r x.
Proof.
  revert x d. induction r as [|y r IH]; intros x d; [reflexivity|].
  change (List.last (x :: y :: r) d) with (List.last (y :: r) d). now rewrite !IH.
Qed.

Lemma run_steady n m calls : forall h1 p1 s last,
  wf n m h1 p1 -> tracking n m h1 p1 s -> last = lq_qp n m h1 p1 ->
  List.Forall (fun c => wf n m (fst c) (snd c)) calls ->
  steadily (h1, p1) calls ->
  exists s', run n m s last calls =
    Ok (s', lq_qp n m (fst (List.last calls (h1, p1))) (snd (List.last calls (h1, p1)))).
Proof.
  induction calls as [|[h p] r IH]; intros h1 p1 s last W T L F ST.
  - exists s. cbn. now rewrite L.
  - inversion F as [|? ? W2 F']; subst. destruct ST as (S1 & S2). cbn [fst snd] in W2.
    destruct (tracking_step n m s h p W2) as (s' & h' & E & T').
    { right. exists h1, p1. auto. }
    cbn [run]. rewrite E. cbn [obind].
    destruct (IH h p s' _ W2 T' eq_refl F' S2) as (s2 & E2).
    exists s2. rewrite E2.
    rewrite (last_step r (h, p) (h1, p1)). reflexivity.
Qed.

(** Whenever the calls are made with one problem object whose arrays do not move and whose
    horizon does not change, and the unbounded entries stay the same as long as the number
    of box constraints at a stage does, every call succeeds and hands over exactly the
    problem in memory at that call - in particular the first call does.
    Missing from the full statement: new objects, other horizons and other patterns of
    unbounded entries, see the refutations below. *)
Theorem C83_whole_problem_partial :
  forall n m c calls,
  wf n m (fst c) (snd c) ->
  List.Forall (fun c => wf n m (fst c) (snd c)) calls ->
  steadily c calls ->
  exists s, run n m fresh [] (c :: calls) =
    Ok (s, lq_qp n m (fst (List.last calls c)) (snd (List.last calls c))).
Proof.
  intros n m [h p] calls W F S. cbn [fst snd] in W.
  destruct (tracking_step n m fresh h p W (or_introl eq_refl)) as (s' & h' & E & T).
  cbn [run]. rewrite E. cbn [obind].
  apply run_steady; auto.
Qed.

(** ** Examples and refutations: one state, one input *)

Definition index (a : arr) : nat :=
  match a with
  | aA => 0 | aB => 1 | ab => 2 | aP => 3 | aqv => 4 | aQ => 5 | arv => 6 | aR => 7
  | axlb => 8 | axub => 9 | axI => 10 | aulb => 11 | auub => 12 | auI => 13
  | adlb => 14 | adub => 15 | aC => 16 | aD => 17
  end.

(** The arrays of a problem with [N] stages; the input is between [ul] and [uu], and
    there are [g] general constraints, x + 2 u between [gl] and [gu]. *)
Definition blocks (N g : nat) (ul uu gl gu : Q) : heap :=
  [Some (repeat [1%Q] N); Some (repeat [2%Q] N); Some (repeat [3%Q] (S N));
   Some (repeat [4%Q] N); Some (repeat [5%Q] (S N)); Some (repeat [6%Q] (S N));
   Some (repeat [7%Q] N); Some (repeat [8%Q] N);
   Some (repeat [(-9)%Q] (S N)); Some (repeat [9%Q] (S N)); Some (repeat [0%Q] (S N));
   Some (repeat [ul] N); Some (repeat [uu] N); Some (repeat [0%Q] N);
   Some (repeat (repeat gl g) (S N)); Some (repeat (repeat gu g) (S N));
   Some (repeat (repeat 1%Q g) (S N)); Some (repeat (repeat 2%Q g) (S N))].

Definition prob (base N g : nat) : problem :=
  mkProblem N (fun a => base + index a) (repeat 1 N) (repeat 1 (S N)) (repeat g (S N)).

Lemma nth_error_repeat {A} (v : A) n i : i < n -> nth_error (repeat v n) i = Some v.
Proof. revert i; induction n; destruct i; cbn; intros; try lia; auto. apply IHn. lia. Qed.

Lemma nth_repeat_lt {A} (v d : A) n i : i < n -> nth i (repeat v n) d = v.
Proof. revert i; induction n; destruct i; cbn; intros; try lia; auto. apply IHn. lia. Qed.

Lemma nth_repeat_le (v n i : nat) : nth i (repeat v n) 0 <= v.
Proof. revert i; induction n; destruct i; cbn; intros; try lia; auto. Qed.

Lemma blocks_wf pre post N g ul uu gl gu :
  1 <= N -> wf 1 1 (pre ++ blocks N g ul uu gl gu ++ post) (prob (length pre) N g).
Proof.
  intros HN. constructor; auto.
  - intros a b E. cbn [prob blk] in E. assert (index a = index b) as E' by lia.
    clear E. destruct a, b; cbn in E'; congruence.
  - intros a i Hi.
    assert (B : forall c, nth_error (blocks N g ul uu gl gu) (index a) = Some (Some c) ->
      nth_error (pre ++ blocks N g ul uu gl gu ++ post) (blk (prob (length pre) N g) a)
      = Some (Some c)).
    { intros c Hc. cbn [prob blk]. rewrite nth_error_app2 by lia.
      replace (length pre + index a - length pre) with (index a) by lia.
      rewrite nth_error_app1; auto. apply nth_error_Some. congruence. }
    destruct a; cbn [asize prob K] in Hi; eexists _, _; (split; [apply B; reflexivity|]);
      (split; [apply nth_error_repeat; lia|]);
      cbn [width prob p_ng]; rewrite ?nth_repeat_lt, ?repeat_length by lia; try reflexivity; lia.
  - intros i _. apply nth_repeat_le.
  - intros i _. apply nth_repeat_le.
Qed.

Lemma blocks_wf0 N g ul uu gl gu :
  1 <= N -> wf 1 1 (blocks N g ul uu gl gu) (prob 0 N g).
Proof.
  intros H. pose proof (blocks_wf [] [] N g ul uu gl gu H) as W.
  rewrite app_nil_r in W. exact W.
Qed.

(** The hypotheses of the theorems are met: three calls, with other bounds each time. *)
Example C83_example :
  let p := prob 0 3 1 in
  let h1 := blocks 3 1 (-1) 1 (-inject_Z 2000000000) 4 in
  let h2 := blocks 3 1 (-2) 2 (-3) 4 in
  wf 1 1 h1 p /\ wf 1 1 h2 p /\ steadily (h1, p) [(h2, p); (h1, p)]
  /\ (exists s, run 1 1 fresh [] [(h1, p); (h2, p); (h1, p)] = Ok (s, lq_qp 1 1 h1 p))
  /\ map q_box_u (lq_qp 1 1 h1 p) =
       [[(0, Some (-1), Some 1)]; [(0, Some (-1), Some 1)]; [(0, Some (-1), Some 1)]; []]%Q
  /\ map q_gen (lq_qp 1 1 h1 p) = repeat [(None, Some 4%Q)] 4.
Proof.
  cbn zeta.
  assert (W1 : wf 1 1 (blocks 3 1 (-1) 1 (-inject_Z 2000000000) 4) (prob 0 3 1))
    by (apply blocks_wf0; lia).
  assert (W2 : wf 1 1 (blocks 3 1 (-2) 2 (-3) 4) (prob 0 3 1)) by (apply blocks_wf0; lia).
  assert (S : steadily (blocks 3 1 (-1) 1 (-inject_Z 2000000000) 4, prob 0 3 1)
     [(blocks 3 1 (-2) 2 (-3) 4, prob 0 3 1);
      (blocks 3 1 (-1) 1 (-inject_Z 2000000000) 4, prob 0 3 1)]).
  { assert (T : forall j k (P : Prop), (1 <= j <= 3 \/ j < 3) -> k < 1 ->
      ((j = 0 \/ j = 1 \/ j = 2 \/ j = 3) -> k = 0 -> P) -> P).
    { intros j k P Hj Hk HP. apply HP; lia. }
    cbn [steadily]. unfold steady. cbn [prob K p_nbu p_nbx].
    split; [|split; [|exact I]]; (split; [reflexivity|]; split; [reflexivity|]; split);
      intros j Hj _ k Hk; apply (T j k); auto;
      try (eapply Nat.lt_le_trans; [exact Hk | apply nth_repeat_le]);
      intros [->|[->|[->| ->]]] ->; try lia; vm_compute; split; split; congruence. }
  split; [exact W1|]. split; [exact W2|]. split; [exact S|]. split.
  - destruct (C83_whole_problem_partial 1 1
      (blocks 3 1 (-1) 1 (-inject_Z 2000000000) 4, prob 0 3 1) [(blocks 3 1 (-2) 2 (-3) 4, prob 0 3 1);
      (blocks 3 1 (-1) 1 (-inject_Z 2000000000) 4, prob 0 3 1)] W1) as (s & E).
    + constructor; [exact W2|]. constructor; [exact W1|]. constructor.
    + exact S.
    + exists s. rewrite E. reflexivity.
  - split; vm_compute; reflexivity.
Qed.

(** A new problem object with as many constraints: the box constraints handed over are
    those of the object set before. *)
Theorem C83_new_object_refuted :
  exists h p1 p2, wf 1 1 h p1 /\ wf 1 1 h p2
  /\ exists s q, run 1 1 fresh [] [(h, p1); (h, p2)] = Ok (s, q)
     /\ map q_box_u q = [[(0, Some (-1), Some 1)]; []]%Q
     /\ map q_box_u (lq_qp 1 1 h p2) = [[(0, Some (-5), Some 5)]; []]%Q.
Proof.
  exists (blocks 1 0 (-1) 1 0 0 ++ blocks 1 0 (-5) 5 0 0), (prob 0 1 0), (prob 18 1 0).
  split; [|split].
  - exact (blocks_wf [] (blocks 1 0 (-5) 5 0 0) 1 0 (-1) 1 0 0 ltac:(lia)).
  - pose proof (blocks_wf (blocks 1 0 (-1) 1 0 0) [] 1 0 (-5) 5 0 0 ltac:(lia)) as W.
    rewrite app_nil_r in W. exact W.
  - vm_compute. eauto.
Qed.

(** ... and if that object has been freed in the meantime, freed memory is read. *)
Theorem C83_freed_object_refuted :
  exists h1 h2 p1 p2, wf 1 1 h1 p1 /\ wf 1 1 h2 p2
  /\ run 1 1 fresh [] [(h1, p1); (h2, p2)] = UB.
Proof.
  exists (blocks 1 0 (-1) 1 0 0), (repeat None 18 ++ blocks 1 0 (-5) 5 0 0),
    (prob 0 1 0), (prob 18 1 0).
  split; [|split].
  - apply blocks_wf0. lia.
  - pose proof (blocks_wf (repeat None 18) [] 1 0 (-5) 5 0 0 ltac:(lia)) as W.
    rewrite app_nil_r in W. exact W.
  - vm_compute. reflexivity.
Qed.

(** A bound which was infinite at the first call and is finite at the second is ignored. *)
Theorem C83_new_bound_refuted :
  exists h1 h2 p, wf 1 1 h1 p /\ wf 1 1 h2 p
  /\ exists s q, run 1 1 fresh [] [(h1, p); (h2, p)] = Ok (s, q)
     /\ map q_box_u q = [[(0, Some (-1), None)]; []]%Q
     /\ map q_box_u (lq_qp 1 1 h2 p) = [[(0, Some (-1), Some 1)]; []]%Q.
Proof.
  exists (blocks 1 0 (-1) (inject_Z 2000000000) 0 0), (blocks 1 0 (-1) 1 0 0), (prob 0 1 0).
  split; [apply blocks_wf0; lia|]. split; [apply blocks_wf0; lia|].
  vm_compute. eauto.
Qed.

(** A shorter horizon: the last stage, which has no input, gets an input constraint. *)
Theorem C83_shorter_horizon_refuted :
  exists h p1 p2, wf 1 1 h p1 /\ wf 1 1 h p2 /\ (forall a, blk p1 a = blk p2 a)
  /\ exists s q, run 1 1 fresh [] [(h, p1); (h, p2)] = Ok (s, q)
     /\ map (fun st => (q_nu st, q_box_u st)) q
        = [(1, [(0, Some (-1), Some 1)]%Q); (0, [(0, Some (-1), Some 1)]%Q)]
     /\ map (fun st => (q_nu st, q_box_u st)) (lq_qp 1 1 h p2)
        = [(1, [(0, Some (-1), Some 1)]%Q); (0, [])].
Proof.
  exists (blocks 2 0 (-1) 1 0 0), (prob 0 2 0), (prob 0 1 0).
  split; [apply blocks_wf0; lia|]. split.
  { constructor; auto.
    - intros a b E. cbn [prob blk] in E. destruct a, b; cbn in E; congruence.
    - intros a i Hi. destruct a; cbn [asize prob K] in Hi; eexists _, _; (split; [reflexivity|]);
      (split; [apply nth_error_repeat; lia|]);
      cbn [width prob p_ng]; rewrite ?nth_repeat_lt, ?repeat_length by lia; reflexivity.
    - intros i _. apply nth_repeat_le.
    - intros i _. apply nth_repeat_le. }
  split; [reflexivity|]. vm_compute. eauto.
Qed.

(** A longer horizon (LQOCProblem::changeNumStages) moves the arrays: the stages whose
    number of constraints is unchanged are read from the freed ones. *)
Theorem C83_longer_horizon_refuted :
  exists h p, wf 1 1 h p
  /\ let '(h2, p2) := change_num_stages (fun a => match a with adlb | adub | aC | aD => []
                                                         | _ => [0%Q] end) h p 2 in
     wf 1 1 h2 p2 /\ run 1 1 fresh [] [(h, p); (h2, p2)] = UB.
Proof.
  exists (blocks 1 0 (-1) 1 0 0), (prob 0 1 0).
  split; [apply blocks_wf0; lia|].
  destruct (change_num_stages _ _ _ 2) as [h2 p2] eqn:E.
  vm_compute in E. injection E as <- <-. split; [|vm_compute; reflexivity].
  constructor.
  - cbn; lia.
  - lia.
  - intros a b. destruct a, b; cbn; congruence.
  - intros a i Hi. destruct a; cbn in Hi; destruct i as [|[|[|i]]]; try lia;
      eexists _, _; (split; [reflexivity|]); (split; reflexivity).
  - intros i Hi. cbn in *. destruct i as [|[|i]]; lia.
  - intros i Hi. cbn in *. destruct i as [|[|[|i]]]; lia.
Qed.

(** Setting the same, untouched problem again: an absent bound of a general constraint has
    been overwritten by zero at the first call and becomes a bound at the second. *)
Theorem C83_same_problem_again_refuted :
  exists h p s h' q s2 h2 q2, wf 1 1 h p
  /\ set_problem 1 1 fresh h p = Ok (s, h', q)
  /\ set_problem 1 1 s h' p = Ok (s2, h2, q2)
  /\ map q_gen q = [[(None, Some 4)]; [(None, Some 4)]]%Q
  /\ map q_gen q2 = [[(None, Some 4)]; [(Some 0, Some 4)]]%Q.
Proof.
  exists (blocks 1 1 (-1) 1 (-inject_Z 2000000000) 4), (prob 0 1 1).
  destruct (set_problem 1 1 fresh (blocks 1 1 (-1) 1 (-inject_Z 2000000000) 4) (prob 0 1 1))
    as [[[s h'] q]| |] eqn:E; [|vm_compute in E; discriminate..].
  exists s, h', q.
  destruct (set_problem 1 1 s h' (prob 0 1 1)) as [[[s2 h2] q2]| |] eqn:E2;
    vm_compute in E; injection E as <- <- <-; vm_compute in E2; try discriminate.
  injection E2 as <- <- <-.
  eexists _, _, _. split; [apply blocks_wf0; lia|].
  split; [vm_compute; reflexivity|]. split; [vm_compute; reflexivity|].
  split; reflexivity.
Qed.

Print Assumptions C83_cost_and_general.
Print Assumptions C83_box_count_changed.
Print Assumptions C83_whole_problem_partial.
Print Assumptions C83_new_object_refuted.
Print Assumptions C83_freed_object_refuted.
Print Assumptions C83_new_bound_refuted.
Print Assumptions C83_shorter_horizon_refuted.
Print Assumptions C83_longer_horizon_refuted.
Print Assumptions C83_same_problem_again_refuted.
