(** * Proofs about the interface to the interior-point solver HPIPM *)
From Coq Require Import List QArith ZArith Bool Lia Arith.
From Verif Require Import Base.Outcome Optcon.HpipmModel Optcon.HpipmSpec.
Import ListNotations.
Local Open Scope nat_scope.

(** ** Lists *)
Lemma setnth_length {A} i (v : A) l : length (setnth i v l) = length l.
Proof. revert i; induction l; destruct i; cbn; auto. Qed.

Lemma nth_setnth_same {A} i (v d : A) l : i < length l -> nth i (setnth i v l) d = v.
Proof. revert i; induction l; destruct i; cbn; intros; try lia; auto. apply IHl; lia. Qed.

Lemma nth_setnth_other {A} i j (v d : A) l : i <> j -> nth j (setnth i v l) d = nth j l d.
Proof.
  revert i j; induction l; destruct i, j; cbn; intros; try lia; auto.
Qed.

Lemma nth_error_setnth_same {A} i (v : A) l :
  i < length l -> nth_error (setnth i v l) i = Some v.
Proof. revert i; induction l; destruct i; cbn; intros; try lia; auto. apply IHl; lia. Qed.

Lemma nth_error_setnth_other {A} i j (v : A) l :
  i <> j -> nth_error (setnth i v l) j = nth_error l j.
Proof. revert i j; induction l; destruct i, j; cbn; intros; try lia; auto. Qed.

Lemma setnth_nth {A} i (d : A) l : i < length l -> setnth i (nth i l d) l = l.
Proof. revert i; induction l; destruct i; cbn; intros; try lia; auto. f_equal. apply IHl; lia. Qed.

Lemma resize_length {A} n (v : A) l : length (resize n v l) = n.
Proof. unfold resize. rewrite app_length, firstn_length, repeat_length. lia. Qed.

Lemma resize_same {A} n (v : A) l : length l = n -> resize n v l = l.
Proof.
  intros H. unfold resize. rewrite <- H, firstn_all, Nat.sub_diag. cbn. apply app_nil_r.
Qed.

Lemma nth_resize {A} n (v d : A) l i :
  i < n -> i < length l -> nth i (resize n v l) d = nth i l d.
Proof.
  intros H1 H2. unfold resize. rewrite app_nth1 by (rewrite firstn_length; lia).
  rewrite <- (firstn_skipn n l) at 2. rewrite app_nth1; auto. rewrite firstn_length; lia.
Qed.

Lemma resize_repeat {A} n k (v : A) : resize n v (repeat v k) = repeat v n.
Proof.
  unfold resize. rewrite repeat_length.
  destruct (Nat.le_gt_cases n k) as [H|H].
  - replace (n - k) with 0 by lia. cbn. rewrite app_nil_r.
    replace k with (n + (k - n)) by lia. rewrite repeat_app, firstn_app, repeat_length.
    rewrite Nat.sub_diag. cbn. rewrite app_nil_r.
    rewrite firstn_all2; auto. rewrite repeat_length; lia.
  - rewrite firstn_all2 by (rewrite repeat_length; lia).
    rewrite <- repeat_app. f_equal. lia.
Qed.

Lemma setnth_repeat_last {A} n (v w : A) : setnth n w (repeat v (S n)) = repeat v n ++ [w].
Proof. induction n; cbn in *; auto. f_equal. exact IHn. Qed.

Lemma setnth_app_last {A} n (v w : A) l :
  length l = n -> setnth n w (l ++ [v]) = l ++ [w].
Proof. revert n; induction l; cbn; intros n <-; cbn; auto. f_equal. now apply IHl. Qed.

Lemma set_nu_nil N m : set_nu N m [] = repeat m N ++ [0].
Proof.
  unfold set_nu. unfold resize. rewrite firstn_nil. cbn [length app].
  replace (S N - 0) with (S N) by lia. apply setnth_repeat_last.
Qed.

Lemma set_nu_good N N' m : set_nu N m (repeat m N' ++ [0]) = repeat m N ++ [0].
Proof.
  unfold set_nu.
  assert (E : (match repeat m N' ++ [0] with [] => [] | _ =>
       setnth (length (repeat m N' ++ [0]) - 1) m (repeat m N' ++ [0]) end) = repeat m (S N')).
  { replace (length (repeat m N' ++ [0]) - 1) with N'
      by (rewrite app_length, repeat_length; cbn; lia).
    rewrite setnth_app_last by apply repeat_length.
    replace (S N') with (N' + 1) by lia. rewrite repeat_app. cbn.
    destruct N'; reflexivity. }
  rewrite E, resize_repeat. apply setnth_repeat_last.
Qed.

Lemma nx_good N N' n : setnth 0 0 (resize (S N) n (0 :: repeat n N')) = 0 :: repeat n N.
Proof.
  change (resize (S N) n (0 :: repeat n N')) with (0 :: resize N n (repeat n N')).
  rewrite resize_repeat. reflexivity.
Qed.

Lemma nx_nil N n : setnth 0 0 (resize (S N) n []) = 0 :: repeat n N.
Proof. unfold resize. rewrite firstn_nil. reflexivity. Qed.

(** ** Arrays *)
Lemma arr_eqb_eq a b : arr_eqb a b = true <-> a = b.
Proof. split; [destruct a, b; cbn; congruence | intros ->; destruct b; reflexivity]. Qed.

Definition arr_dec : forall a b : arr, {a = b} + {a <> b}.
Proof. decide equality. Defined.

Lemma arr_eqb_refl a : arr_eqb a a = true.
Proof. now apply arr_eqb_eq. Qed.

Lemma get_content h p a i v : get h p a i = Ok v -> content h p a i = v.
Proof.
  unfold get, content, live. destruct (nth_error h (blk p a)) as [[c|]|]; try discriminate.
  destruct (nth_error c i) eqn:E; try discriminate. intros [= <-].
  now apply nth_error_nth.
Qed.

Lemma wf_get n m h p a i : wf n m h p -> i < asize a (K p) ->
  get h p a i = Ok (content h p a i) /\ length (content h p a i) = width n m p a i.
Proof.
  intros W Hi. destruct (wf_cells _ _ _ _ W a i Hi) as (c & v & E1 & E2 & E3).
  assert (G : get h p a i = Ok v).
  { unfold get, live. now rewrite E1, E2. }
  rewrite (get_content _ _ _ _ _ G). auto.
Qed.

Lemma get_put_same h p a i v w : get h p a i = Ok w -> get (put h p a i v) p a i = Ok v.
Proof.
  unfold get, put, live. destruct (nth_error h (blk p a)) as [[c|]|] eqn:E; try discriminate.
  destruct (nth_error c i) eqn:E2; try discriminate. intros _.
  rewrite nth_error_setnth_same by (apply nth_error_Some; congruence).
  rewrite nth_error_setnth_same by (apply nth_error_Some; congruence). reflexivity.
Qed.

Lemma get_put_other h p a i v a' j :
  (forall a b, blk p a = blk p b -> a = b) -> (a <> a' \/ i <> j) ->
  get (put h p a i v) p a' j = get h p a' j.
Proof.
  intros Inj D. unfold get, put, live.
  destruct (nth_error h (blk p a)) as [[c|]|] eqn:E; auto.
  destruct (Nat.eq_dec (blk p a) (blk p a')) as [E1|E1].
  - pose proof (Inj _ _ E1); subst a'. rewrite E.
    rewrite nth_error_setnth_same by (apply nth_error_Some; congruence).
    rewrite nth_error_setnth_other by (destruct D; congruence). reflexivity.
  - rewrite nth_error_setnth_other by auto. reflexivity.
Qed.

(** ** Masks *)
Definition is_lower (x : Q) : bool := negb (Qltb x (- mask_limit)).
Definition is_upper (x : Q) : bool := negb (Qltb mask_limit x).

Lemma Qltb_lt a b : Qltb a b = true <-> (a < b)%Q.
Proof.
  unfold Qltb. rewrite negb_true_iff, <- not_true_iff_false, Qle_bool_iff.
  split; [apply Qnot_le_lt | apply Qlt_not_le].
Qed.

Lemma lower_is x : lower x = if is_lower x then Some x else None.
Proof.
  unfold lower, is_lower. destruct (Qlt_le_dec x (- inject_Z 1000000000)) as [H|H].
  - replace (Qltb x (- mask_limit)) with true; auto. symmetry. now apply Qltb_lt.
  - replace (Qltb x (- mask_limit)) with false; auto. symmetry.
    apply not_true_iff_false. rewrite Qltb_lt. now apply Qle_not_lt.
Qed.

Lemma upper_is x : upper x = if is_upper x then Some x else None.
Proof.
  unfold upper, is_upper. destruct (Qlt_le_dec (inject_Z 1000000000) x) as [H|H].
  - replace (Qltb mask_limit x) with true; auto. symmetry. now apply Qltb_lt.
  - replace (Qltb mask_limit x) with false; auto. symmetry.
    apply not_true_iff_false. rewrite Qltb_lt. now apply Qle_not_lt.
Qed.

(** The new bounds agree with the old ones wherever the mask is set. *)
Definition agrees (n : nat) (v v' : cell) (ms : list bool) : Prop :=
  masked (firstn n v') ms = masked (firstn n v) ms.

Lemma masks_ok n lb ub : n <= length lb -> n <= length ub ->
  exists lb' ub', masks n lb ub =
      Ok (lb', ub', map is_lower (firstn n lb), map is_upper (firstn n ub))
    /\ length lb' = length lb /\ length ub' = length ub
    /\ agrees n lb lb' (map is_lower (firstn n lb))
    /\ agrees n ub ub' (map is_upper (firstn n ub)).
Proof.
  unfold agrees. revert lb ub. induction n as [|n IH]; intros lb ub Hl Hu.
  - exists lb, ub. cbn. auto.
  - destruct lb as [|l lb]; [cbn in Hl; lia|]. destruct ub as [|u ub]; [cbn in Hu; lia|].
    cbn in Hl, Hu. destruct (IH lb ub) as (lb' & ub' & E & L1 & L2 & A1 & A2); try lia.
    cbn [masks]. rewrite E. cbn [obind]. cbn [firstn map].
    assert (Il : is_lower l = negb (Qltb l (- mask_limit))) by reflexivity.
    assert (Iu : is_upper u = negb (Qltb mask_limit u)) by reflexivity.
    rewrite Il, Iu.
    destruct (Qltb l (- mask_limit)) eqn:El; destruct (Qltb mask_limit u) eqn:Eu;
      cbn [negb]; eexists; eexists; (split; [reflexivity|]);
      cbn [length firstn]; (split; [congruence|]); (split; [congruence|]);
      unfold masked in *; cbn [combine map]; rewrite A1, A2; auto.
Qed.

Lemma masked_lower v : masked v (map is_lower v) = map lower v.
Proof.
  induction v as [|x v IH]; cbn; auto. unfold masked in *. cbn. rewrite IH, lower_is. auto.
Qed.
Lemma masked_upper v : masked v (map is_upper v) = map upper v.
Proof.
  induction v as [|x v IH]; cbn; auto. unfold masked in *. cbn. rewrite IH, upper_is. auto.
Qed.

(** ** Loops *)
Lemma loop_inv {X} (P : nat -> X -> Prop) body n i x :
  P i x ->
  (forall j x, i <= j < i + n -> P j x -> exists y, body j x = Ok y /\ P (S j) y) ->
  exists y, loop n i body x = Ok y /\ P (i + n) y.
Proof.
  revert i x. induction n as [|n IH]; intros i x H0 H.
  - exists x. rewrite Nat.add_0_r. auto.
  - destruct (H i x) as (y & E & Py); try lia; auto.
    destruct (IH (S i) y) as (z & E2 & Pz); auto.
    { intros j w Hj. apply H. lia. }
    exists z. cbn. rewrite E. cbn. split; auto.
    replace (i + S n) with (S i + n) by lia. auto.
Qed.

Lemma point_length p a i f a' : length (point p a i f a') = length (f a').
Proof.
  unfold point, set_ptrs. destruct (arr_eqb a a') eqn:E; auto.
  apply arr_eqb_eq in E; subst. apply setnth_length.
Qed.

Lemma point_other p a i f a' : a <> a' -> point p a i f a' = f a'.
Proof.
  intros D. unfold point, set_ptrs. destruct (arr_eqb a a') eqn:E; auto.
  apply arr_eqb_eq in E; congruence.
Qed.

Lemma point_same p a i f : i < length (f a) -> nth i (point p a i f a) Null = At (blk p a) i.
Proof.
  intros H. unfold point, set_ptrs. rewrite arr_eqb_refl. now apply nth_setnth_same.
Qed.

Lemma point_stage p a i f a' j : i <> j -> nth j (point p a i f a') Null = nth j (f a') Null.
Proof.
  intros H. unfold point, set_ptrs. destruct (arr_eqb a a') eqn:E; auto.
  apply arr_eqb_eq in E; subst. now apply nth_setnth_other.
Qed.

(** ** One stage of a family of constraints, before and after *)

(** Stage [j] has been set anew: the pointers go to the problem's arrays, the masks
    follow the bounds in [h0], and the bounds now in memory agree with those in [h0]
    wherever they are not masked. *)
Definition renewed (p : problem) (aI al au : arr) (c : nat) (h0 h : heap)
    (f : arr -> list ptr) (ml mu : list (list bool)) (j : nat) : Prop :=
  (nth j (f aI) Null = At (blk p aI) j
   /\ nth j (f al) Null = At (blk p al) j /\ nth j (f au) Null = At (blk p au) j)
  /\ nth j ml [] = map is_lower (firstn c (content h0 p al j))
  /\ nth j mu [] = map is_upper (firstn c (content h0 p au j))
  /\ (exists lb', get h p al j = Ok lb' /\ length lb' = length (content h0 p al j)
        /\ agrees c (content h0 p al j) lb' (nth j ml []))
  /\ (exists ub', get h p au j = Ok ub' /\ length ub' = length (content h0 p au j)
        /\ agrees c (content h0 p au j) ub' (nth j mu [])).

(** Stage [j] has been left alone. *)
Definition kept (p : problem) (h0 h : heap) (f0 f : arr -> list ptr)
    (ml0 ml mu0 mu : list (list bool)) (j : nat) : Prop :=
  (forall a, nth j (f a) Null = nth j (f0 a) Null)
  /\ nth j ml [] = nth j ml0 [] /\ nth j mu [] = nth j mu0 []
  /\ (forall a, get h p a j = get h0 p a j).

Lemma put2_other h p al au i lb ub a j :
  (forall a b, blk p a = blk p b -> a = b) ->
  (i <> j \/ (a <> al /\ a <> au)) ->
  get (put (put h p al i lb) p au i ub) p a j = get h p a j.
Proof.
  intros Inj D. rewrite !get_put_other; auto.
  - destruct D as [D|[D1 D2]]; auto.
  - destruct D as [D|[D1 D2]]; auto.
Qed.

Lemma point3_other p a1 a2 a3 i f a :
  a <> a1 -> a <> a2 -> a <> a3 -> point p a1 i (point p a2 i (point p a3 i f)) a = f a.
Proof. intros. rewrite !point_other; auto. Qed.

Lemma point3_stage p a1 a2 a3 i f a j : i <> j ->
  nth j (point p a1 i (point p a2 i (point p a3 i f)) a) Null = nth j (f a) Null.
Proof. intros. rewrite !point_stage; auto. Qed.

Lemma point3_at p a1 a2 a3 i f :
  a1 <> a2 -> a1 <> a3 -> a2 <> a3 ->
  i < length (f a1) -> i < length (f a2) -> i < length (f a3) ->
  let g := point p a1 i (point p a2 i (point p a3 i f)) in
  nth i (g a1) Null = At (blk p a1) i /\ nth i (g a2) Null = At (blk p a2) i
  /\ nth i (g a3) Null = At (blk p a3) i.
Proof.
  intros D1 D2 D3 L1 L2 L3 g. unfold g. repeat split.
  - rewrite point_same; auto. now rewrite !point_length.
  - rewrite (point_other _ a1); auto. rewrite point_same; auto. now rewrite !point_length.
  - rewrite (point_other _ a1); auto. rewrite (point_other _ a2); auto. rewrite point_same; auto.
Qed.

(** *** Input box constraints *)
Record input_frame (s0 s : solver) : Prop :=
  { if_N : sN s = sN s0; if_own : own s = own s0; if_nbx : nbx s = nbx s0;
    if_ng : ng s = ng s0; if_nu : nu s = nu s0; if_nx : nx s = nx s0;
    if_mlbx : mlbx s = mlbx s0; if_mubx : mubx s = mubx s0;
    if_mlg : mlg s = mlg s0; if_mug : mug s = mug s0; if_dims : dims s = dims s0;
    if_ptrs : forall a, a <> auI -> a <> aulb -> a <> auub -> ptrs s a = ptrs s0 a;
    if_len : forall a, length (ptrs s a) = length (ptrs s0 a);
    if_nbu : length (nbu s) = length (nbu s0);
    if_mlbu : length (mlbu s) = length (mlbu s0);
    if_mubu : length (mubu s) = length (mubu s0) }.

Record input_loop (p : problem) (s0 : solver) (h0 : heap) (ch0 : bool) (i : nat)
    (s : solver) (h : heap) (ch : bool) : Prop :=
  { il_frame : input_frame s0 s;
    il_ch : ch = false -> ch0 = false /\ nbu s = nbu s0;
    il_heap : forall a j, a <> aulb -> a <> auub -> get h p a j = get h0 p a j;
    il_after : forall j, i <= j -> nth j (nbu s) 0 = nth j (nbu s0) 0
       /\ kept p h0 h (ptrs s0) (ptrs s) (mlbu s0) (mlbu s) (mubu s0) (mubu s) j;
    il_before : forall j, j < i -> nth j (nbu s) 0 = nth j (p_nbu p) 0
       /\ ((nth j (nbu s0) 0 = nth j (p_nbu p) 0
            /\ kept p h0 h (ptrs s0) (ptrs s) (mlbu s0) (mlbu s) (mubu s0) (mubu s) j)
           \/ renewed p auI aulb auub (nth j (p_nbu p) 0) h0 h (ptrs s) (mlbu s) (mubu s) j) }.

Lemma kept_refl p h f ml mu j : kept p h h f f ml ml mu mu j.
Proof. repeat split; auto. Qed.

Lemma kept_step p h0 h h' f0 f f' ml0 ml ml' mu0 mu mu' j :
  kept p h0 h f0 f ml0 ml mu0 mu j ->
  (forall a, nth j (f' a) Null = nth j (f a) Null) ->
  nth j ml' [] = nth j ml [] -> nth j mu' [] = nth j mu [] ->
  (forall a, get h' p a j = get h p a j) ->
  kept p h0 h' f0 f' ml0 ml' mu0 mu' j.
Proof.
  intros (A & B & C & D) A' B' C' D'. repeat split; intros;
    rewrite ?A', ?B', ?C', ?D'; auto.
Qed.

Lemma renewed_step p aI al au c h0 h h' f f' ml ml' mu mu' j :
  renewed p aI al au c h0 h f ml mu j ->
  (forall a, nth j (f' a) Null = nth j (f a) Null) ->
  nth j ml' [] = nth j ml [] -> nth j mu' [] = nth j mu [] ->
  (forall a, get h' p a j = get h p a j) ->
  renewed p aI al au c h0 h' f' ml' mu' j.
Proof.
  intros ((A1 & A2 & A3) & B & C & D & E) A' B' C' D'. unfold renewed.
  rewrite !A', B', C', !D'. auto 10.
Qed.

Lemma input_stage_ok n m p s0 h0 ch0 i s h ch :
  wf n m h0 p -> i < K p ->
  (forall a, In a [auI; aulb; auub] -> length (ptrs s0 a) = S (K p)) ->
  length (nbu s0) = S (K p) -> length (mlbu s0) = S (K p) -> length (mubu s0) = S (K p) ->
  input_loop p s0 h0 ch0 i s h ch ->
  exists s' h' ch', input_box_stage p i (s, h, ch) = Ok (s', h', ch')
    /\ input_loop p s0 h0 ch0 (S i) s' h' ch'.
Proof.
  intros W Hi LP LN LM1 LM2 [F Hch Hh Ha Hb].
  unfold input_box_stage.
  destruct (Ha i (Nat.le_refl _)) as (E0 & Ki).
  rewrite E0. destruct (Nat.eqb_spec (nth i (nbu s0) 0) (nth i (p_nbu p) 0)) as [E|E].
  - exists s, h, ch. split; auto. constructor; auto.
    + intros j Hj. apply Ha. lia.
    + intros j Hj. destruct (Nat.eq_dec j i) as [->|D].
      * split; [congruence|]. left. auto.
      * apply Hb. lia.
  - destruct Ki as (Kp & Kl & Ku & Kh).
    destruct (wf_get _ _ _ _ aulb i W) as (G1 & L1); [cbn; lia|].
    destruct (wf_get _ _ _ _ auub i W) as (G2 & L2); [cbn; lia|].
    rewrite !Kh, G1, G2. cbn [obind].
    pose proof (wf_nbu _ _ _ _ W i Hi) as Bu.
    destruct (masks_ok (nth i (p_nbu p) 0) (content h0 p aulb i) (content h0 p auub i))
      as (lb' & ub' & EM & ML & MU & AL & AU); [cbn in L1; lia | cbn in L2; lia |].
    rewrite EM. cbn [obind].
    eexists _, _, _. split; [reflexivity|].
    assert (Inj := wf_inj _ _ _ _ W).
    assert (HH : forall a j, (i <> j \/ (a <> aulb /\ a <> auub)) ->
       get (put (put h p aulb i lb') p auub i ub') p a j = get h p a j).
    { intros. now apply put2_other. }
    constructor; cbn [sN ptrs own nbu nbx ng nu nx mlbu mubu mlbx mubx mlg mug dims].
    + destruct F. constructor; cbn [sN ptrs own nbu nbx ng nu nx mlbu mubu mlbx mubx mlg mug dims];
        auto; intros; rewrite ?setnth_length, ?point_length; auto.
      rewrite point3_other; auto.
    + discriminate.
    + intros a j D1 D2. rewrite HH by auto. now apply Hh.
    + intros j Hj. destruct (Ha j) as (N1 & K1); [lia|].
      rewrite nth_setnth_other by lia. split; auto.
      eapply kept_step; [exact K1| | | |].
      * intros. apply point3_stage. lia.
      * apply nth_setnth_other. lia.
      * apply nth_setnth_other. lia.
      * intros. apply HH. left; lia.
    + intros j Hj. destruct (Nat.eq_dec j i) as [->|D].
      * rewrite nth_setnth_same by (destruct F; lia). split; auto. right.
        destruct F as [? ? ? ? ? ? ? ? ? ? ? ? FL FN FM1 FM2].
        unfold renewed. rewrite !nth_setnth_same by lia.
        split.
        { pose proof (LP auI) as Q1. pose proof (LP aulb) as Q2. pose proof (LP auub) as Q3.
          cbn in Q1, Q2, Q3. apply and_comm, and_assoc.
          destruct (point3_at p auI auub aulb i (ptrs s)) as (R1 & R2 & R3);
            try discriminate; try (rewrite FL; rewrite ?Q1, ?Q2, ?Q3; auto; lia).
          auto. }
        split; auto. split; auto. split.
        { exists lb'. split.
          - rewrite get_put_other by (auto; left; discriminate).
            apply get_put_same with (content h0 p aulb i). now rewrite Kh.
          - auto. }
        { exists ub'. split.
          - apply get_put_same with (content h0 p auub i).
            rewrite get_put_other by (auto; left; discriminate). now rewrite Kh.
          - auto. }
      * destruct (Hb j) as (N1 & [[N2 K1]|R1]); [lia| |].
        -- rewrite nth_setnth_other by lia. split; auto. left. split; auto.
           eapply kept_step; [exact K1| | | |].
           ++ intros. apply point3_stage. lia.
           ++ apply nth_setnth_other. lia.
           ++ apply nth_setnth_other. lia.
           ++ intros. apply HH. left; lia.
        -- rewrite nth_setnth_other by lia. split; auto. right.
           eapply renewed_step; [exact R1| | | |].
           ++ intros. apply point3_stage. lia.
           ++ apply nth_setnth_other. lia.
           ++ apply nth_setnth_other. lia.
           ++ intros. apply HH. left; lia.
Qed.

Lemma input_loop_refl p s h ch : input_loop p s h ch 0 s h ch.
Proof.
  constructor; auto.
  - constructor; auto.
  - intros. split; auto. apply kept_refl.
  - intros; lia.
Qed.

Lemma input_loop_ok n m p s0 h0 ch0 :
  wf n m h0 p ->
  (forall a, In a [auI; aulb; auub] -> length (ptrs s0 a) = S (K p)) ->
  length (nbu s0) = S (K p) -> length (mlbu s0) = S (K p) -> length (mubu s0) = S (K p) ->
  exists s h ch, loop (K p) 0 (input_box_stage p) (s0, h0, ch0) = Ok (s, h, ch)
    /\ input_loop p s0 h0 ch0 (K p) s h ch.
Proof.
  intros W LP LN L1 L2.
  destruct (loop_inv (fun i (c : conf) => let '(s, h, ch) := c in
                        input_loop p s0 h0 ch0 i s h ch)
              (input_box_stage p) (K p) 0 (s0, h0, ch0)) as ([[s h] ch] & E & P).
  - apply input_loop_refl.
  - intros j [[s h] ch] Hj Hl.
    destruct (input_stage_ok n m p s0 h0 ch0 j s h ch) as (s' & h' & ch' & E & R); auto; [lia|].
    exists (s', h', ch'). auto.
  - exists s, h, ch. auto.
Qed.

(** *** State box constraints *)
Definition xcount (p : problem) (j : nat) : nat := if j =? 0 then 0 else nth j (p_nbx p) 0.

Record state_frame (s0 s : solver) : Prop :=
  { sf_N : sN s = sN s0; sf_own : own s = own s0; sf_nbu : nbu s = nbu s0;
    sf_ng : ng s = ng s0; sf_nu : nu s = nu s0; sf_nx : nx s = nx s0;
    sf_mlbu : mlbu s = mlbu s0; sf_mubu : mubu s = mubu s0;
    sf_mlg : mlg s = mlg s0; sf_mug : mug s = mug s0; sf_dims : dims s = dims s0;
    sf_ptrs : forall a, a <> axI -> a <> axlb -> a <> axub -> ptrs s a = ptrs s0 a;
    sf_len : forall a, length (ptrs s a) = length (ptrs s0 a);
    sf_nbx : length (nbx s) = length (nbx s0);
    sf_mlbx : length (mlbx s) = length (mlbx s0);
    sf_mubx : length (mubx s) = length (mubx s0) }.

Record state_loop (p : problem) (s0 : solver) (h0 : heap) (ch0 : bool) (i : nat)
    (s : solver) (h : heap) (ch : bool) : Prop :=
  { sl_frame : state_frame s0 s;
    sl_ch : ch = false -> ch0 = false /\ nbx s = nbx s0;
    sl_heap : forall a j, a <> axlb -> a <> axub -> get h p a j = get h0 p a j;
    sl_after : forall j, i <= j -> nth j (nbx s) 0 = nth j (nbx s0) 0
       /\ kept p h0 h (ptrs s0) (ptrs s) (mlbx s0) (mlbx s) (mubx s0) (mubx s) j;
    sl_before : forall j, j < i -> nth j (nbx s) 0 = xcount p j
       /\ ((nth j (nbx s0) 0 = xcount p j
            /\ kept p h0 h (ptrs s0) (ptrs s) (mlbx s0) (mlbx s) (mubx s0) (mubx s) j)
           \/ renewed p axI axlb axub (xcount p j) h0 h (ptrs s) (mlbx s) (mubx s) j) }.

Lemma state_stage_ok n m p s0 h0 ch0 i s h ch :
  wf n m h0 p -> i < S (K p) ->
  (forall a, In a [axI; axlb; axub] -> length (ptrs s0 a) = S (K p)) ->
  length (nbx s0) = S (K p) -> length (mlbx s0) = S (K p) -> length (mubx s0) = S (K p) ->
  nth 0 (nbx s0) 0 = 0 ->
  state_loop p s0 h0 ch0 i s h ch ->
  exists s' h' ch', state_box_stage p i (s, h, ch) = Ok (s', h', ch')
    /\ state_loop p s0 h0 ch0 (S i) s' h' ch'.
Proof.
  intros W Hi LP LN LM1 LM2 Z0 [F Hch Hh Ha Hb].
  unfold state_box_stage.
  destruct (Ha i (Nat.le_refl _)) as (E0 & Ki).
  destruct (Nat.eqb_spec i 0) as [Hi0|Hi0].
  { subst i. eexists _, _, _. split; [reflexivity|].
    assert (EN : setnth 0 0 (nbx s) = nbx s).
    { rewrite <- (setnth_nth 0 0 (nbx s)) at 2 by (destruct F; lia). now rewrite E0, Z0. }
    rewrite EN.
    constructor; cbn [sN ptrs own nbu nbx ng nu nx mlbu mubu mlbx mubx mlg mug dims]; auto.
    - destruct F. constructor; auto.
    - intros j Hj. apply Ha. lia.
    - intros j Hj. assert (j = 0) by lia. subst j. unfold xcount. cbn [Nat.eqb].
      split; [congruence|]. left. auto. }
  assert (XC : xcount p i = nth i (p_nbx p) 0).
  { unfold xcount. now rewrite (proj2 (Nat.eqb_neq i 0)). }
  rewrite E0, <- XC. destruct (Nat.eqb_spec (nth i (nbx s0) 0) (xcount p i)) as [E|E].
  - exists s, h, ch. split; auto. constructor; auto.
    + intros j Hj. apply Ha. lia.
    + intros j Hj. destruct (Nat.eq_dec j i) as [->|D].
      * split; [congruence|]. left. auto.
      * apply Hb. lia.
  - destruct Ki as (Kp & Kl & Ku & Kh).
    destruct (wf_get _ _ _ _ axlb i W) as (G1 & L1); [cbn; lia|].
    destruct (wf_get _ _ _ _ axub i W) as (G2 & L2); [cbn; lia|].
    rewrite !Kh, G1, G2. cbn [obind].
    pose proof (wf_nbx _ _ _ _ W i ltac:(lia)) as Bu. rewrite <- XC in Bu.
    destruct (masks_ok (xcount p i) (content h0 p axlb i) (content h0 p axub i))
      as (lb' & ub' & EM & ML & MU & AL & AU); [cbn in L1; lia | cbn in L2; lia |].
    rewrite EM. cbn [obind].
    eexists _, _, _. split; [reflexivity|].
    assert (Inj := wf_inj _ _ _ _ W).
    assert (HH : forall a j, (i <> j \/ (a <> axlb /\ a <> axub)) ->
       get (put (put h p axlb i lb') p axub i ub') p a j = get h p a j).
    { intros. now apply put2_other. }
    constructor; cbn [sN ptrs own nbu nbx ng nu nx mlbu mubu mlbx mubx mlg mug dims].
    + destruct F. constructor; cbn [sN ptrs own nbu nbx ng nu nx mlbu mubu mlbx mubx mlg mug dims];
        auto; intros; rewrite ?setnth_length, ?point_length; auto.
      rewrite point3_other; auto.
    + discriminate.
    + intros a j D1 D2. rewrite HH by auto. now apply Hh.
    + intros j Hj. destruct (Ha j) as (N1 & K1); [lia|].
      rewrite nth_setnth_other by lia. split; auto.
      eapply kept_step; [exact K1| | | |].
      * intros. apply point3_stage. lia.
      * apply nth_setnth_other. lia.
      * apply nth_setnth_other. lia.
      * intros. apply HH. left; lia.
    + intros j Hj. destruct (Nat.eq_dec j i) as [->|D].
      * rewrite nth_setnth_same by (destruct F; lia). split; auto. right.
        destruct F as [? ? ? ? ? ? ? ? ? ? ? ? FL FN FM1 FM2].
        unfold renewed. rewrite !nth_setnth_same by lia.
        split.
        { pose proof (LP axI) as Q1. pose proof (LP axlb) as Q2. pose proof (LP axub) as Q3.
          cbn in Q1, Q2, Q3. apply and_comm, and_assoc.
          destruct (point3_at p axI axub axlb i (ptrs s)) as (R1 & R2 & R3);
            try discriminate; try (rewrite FL; rewrite ?Q1, ?Q2, ?Q3; auto; lia).
          auto. }
        split; auto. split; auto. split.
        { exists lb'. split.
          - rewrite get_put_other by (auto; left; discriminate).
            apply get_put_same with (content h0 p axlb i). now rewrite Kh.
          - auto. }
        { exists ub'. split.
          - apply get_put_same with (content h0 p axub i).
            rewrite get_put_other by (auto; left; discriminate). now rewrite Kh.
          - auto. }
      * destruct (Hb j) as (N1 & [[N2 K1]|R1]); [lia| |].
        -- rewrite nth_setnth_other by lia. split; auto. left. split; auto.
           eapply kept_step; [exact K1| | | |].
           ++ intros. apply point3_stage. lia.
           ++ apply nth_setnth_other. lia.
           ++ apply nth_setnth_other. lia.
           ++ intros. apply HH. left; lia.
        -- rewrite nth_setnth_other by lia. split; auto. right.
           eapply renewed_step; [exact R1| | | |].
           ++ intros. apply point3_stage. lia.
           ++ apply nth_setnth_other. lia.
           ++ apply nth_setnth_other. lia.
           ++ intros. apply HH. left; lia.
Qed.

Lemma state_loop_ok n m p s0 h0 ch0 :
  wf n m h0 p ->
  (forall a, In a [axI; axlb; axub] -> length (ptrs s0 a) = S (K p)) ->
  length (nbx s0) = S (K p) -> length (mlbx s0) = S (K p) -> length (mubx s0) = S (K p) ->
  nth 0 (nbx s0) 0 = 0 ->
  exists s h ch, loop (S (K p)) 0 (state_box_stage p) (s0, h0, ch0) = Ok (s, h, ch)
    /\ state_loop p s0 h0 ch0 (S (K p)) s h ch.
Proof.
  intros W LP LN L1 L2 Z0.
  destruct (loop_inv (fun i (c : conf) => let '(s, h, ch) := c in
                        state_loop p s0 h0 ch0 i s h ch)
              (state_box_stage p) (S (K p)) 0 (s0, h0, ch0)) as ([[s h] ch] & E & P).
  - constructor; auto.
    + constructor; auto.
    + intros. split; auto. apply kept_refl.
    + intros; lia.
  - intros j [[s h] ch] Hj Hl.
    destruct (state_stage_ok n m p s0 h0 ch0 j s h ch) as (s' & h' & ch' & E & R); auto; [lia|].
    exists (s', h', ch'). auto.
  - exists s, h, ch. auto.
Qed.

(** *** General constraints *)
Record general_frame (s0 s : solver) : Prop :=
  { gf_N : sN s = sN s0;
    gf_own : forall a, a <> adlb -> a <> adub -> own s a = own s0 a;
    gf_nbu : nbu s = nbu s0;
    gf_nbx : nbx s = nbx s0; gf_nu : nu s = nu s0; gf_nx : nx s = nx s0;
    gf_mlbu : mlbu s = mlbu s0; gf_mubu : mubu s = mubu s0;
    gf_mlbx : mlbx s = mlbx s0; gf_mubx : mubx s = mubx s0; gf_dims : dims s = dims s0;
    gf_ptrs : forall a, a <> adlb -> a <> adub -> a <> aC -> a <> aD -> ptrs s a = ptrs s0 a;
    gf_len : forall a, length (ptrs s a) = length (ptrs s0 a);
    gf_ng : length (ng s) = length (ng s0);
    gf_mlg : length (mlg s) = length (mlg s0);
    gf_mug : length (mug s) = length (mug s0) }.

(** Stage [j] of the general constraints is that of the problem. *)
Definition gen_set (p : problem) (h0 h : heap) (s : solver) (j : nat) : Prop :=
  nth j (ng s) 0 = nth j (p_ng p) 0
  /\ nth j (ptrs s aC) Null = At (blk p aC) j /\ nth j (ptrs s aD) Null = At (blk p aD) j
  /\ nth j (mlg s) [] = map is_lower (content h0 p adlb j)
  /\ nth j (mug s) [] = map is_upper (content h0 p adub j)
  /\ exists lb' ub',
       length lb' = length (content h0 p adlb j) /\ length ub' = length (content h0 p adub j)
       /\ masked lb' (nth j (mlg s) []) = masked (content h0 p adlb j) (nth j (mlg s) [])
       /\ masked ub' (nth j (mug s) []) = masked (content h0 p adub j) (nth j (mug s) [])
       /\ ((j = 0 /\ nth j (ptrs s adlb) Null = Own /\ nth j (ptrs s adub) Null = Own
            /\ own s adlb = lb' /\ own s adub = ub')
           \/ (nth j (ptrs s adlb) Null = At (blk p adlb) j
               /\ nth j (ptrs s adub) Null = At (blk p adub) j
               /\ get h p adlb j = Ok lb' /\ get h p adub j = Ok ub')).

Record general_loop (p : problem) (s0 : solver) (h0 : heap) (ch0 : bool) (i : nat)
    (s : solver) (h : heap) (ch : bool) : Prop :=
  { gl_frame : general_frame s0 s;
    gl_own : i = 0 -> own s = own s0;
    gl_ch : ch = false -> ch0 = false /\ ng s = ng s0;
    gl_heap : forall a j, a <> adlb -> a <> adub -> get h p a j = get h0 p a j;
    gl_after : forall j, i <= j -> nth j (ng s) 0 = nth j (ng s0) 0
       /\ forall a, get h p a j = get h0 p a j;
    gl_before : forall j, j < i -> gen_set p h0 h s j }.

Lemma gen_set_step p h0 h h' s s' j :
  gen_set p h0 h s j ->
  nth j (ng s') 0 = nth j (ng s) 0 ->
  (forall a, nth j (ptrs s' a) Null = nth j (ptrs s a) Null) ->
  nth j (mlg s') [] = nth j (mlg s) [] -> nth j (mug s') [] = nth j (mug s) [] ->
  own s' = own s ->
  (forall a, get h' p a j = get h p a j) ->
  gen_set p h0 h' s' j.
Proof.
  intros H E1 E2 E3 E4 E5 E6. unfold gen_set in *.
  rewrite E1, !E2, E3, E4, E5, !E6. exact H.
Qed.

Lemma general_stage_ok n m p s0 h0 ch0 i s h ch :
  wf n m h0 p -> i < S (K p) ->
  (forall a, In a [adlb; adub; aC; aD] -> length (ptrs s0 a) = S (K p)) ->
  length (ng s0) = S (K p) -> length (mlg s0) = S (K p) -> length (mug s0) = S (K p) ->
  own s0 adlb = content h0 p adlb 0 -> own s0 adub = content h0 p adub 0 ->
  general_loop p s0 h0 ch0 i s h ch ->
  exists s' h' ch', general_stage n m p i (s, h, ch) = Ok (s', h', ch')
    /\ general_loop p s0 h0 ch0 (S i) s' h' ch'.
Proof.
  intros W Hi LP LN LM1 LM2 O1 O2 [F Ho Hch Hh Ha Hb].
  unfold general_stage.
  destruct (Ha i (Nat.le_refl _)) as (E0 & Kh).
  destruct (wf_get _ _ _ _ aC i W) as (GC & LC); [cbn; lia|].
  destruct (wf_get _ _ _ _ aD i W) as (GD & LD); [cbn; lia|].
  destruct (wf_get _ _ _ _ adlb i W) as (Gl & Ll); [cbn; lia|].
  destruct (wf_get _ _ _ _ adub i W) as (Gu & Lu); [cbn; lia|].
  cbn [width] in LC, LD, Ll, Lu.
  rewrite !Kh, GC, GD, Gl, Gu. cbn [obind].
  rewrite LC, LD, Ll, Lu, !Nat.eqb_refl. cbn [andb].
  set (g := nth i (p_ng p) 0) in *.
  assert (Inj := wf_inj _ _ _ _ W).
  assert (Lp : forall a, In a [adlb; adub; aC; aD] -> i < length (ptrs s a)).
  { intros a Ia. destruct F. rewrite gf_len0, LP; auto. }
  pose proof (Lp adlb) as Lp1. pose proof (Lp adub) as Lp2.
  pose proof (Lp aC) as Lp3. pose proof (Lp aD) as Lp4. cbn in Lp1, Lp2, Lp3, Lp4.
  specialize (Lp1 ltac:(auto)). specialize (Lp2 ltac:(auto)).
  specialize (Lp3 ltac:(auto)). specialize (Lp4 ltac:(auto)).
  assert (CH : forall X, (ch || negb (nth i (ng s) 0 =? g))%bool = false ->
     X = setnth i g (ng s) -> ch0 = false /\ X = ng s0).
  { intros X H ->. apply orb_false_iff in H. destruct H as [H1 H2].
    apply negb_false_iff, Nat.eqb_eq in H2. destruct (Hch H1) as (C1 & C2).
    split; auto. rewrite <- H2, setnth_nth; auto. rewrite C2. lia. }
  assert (FN : length (ng s) = S (K p)) by (destruct F; lia).
  assert (FL : length (mlg s) = S (K p)) by (destruct F; lia).
  assert (FU : length (mug s) = S (K p)) by (destruct F; lia).
  destruct (Nat.eqb_spec i 0) as [Hi0|Hi0].
  - subst i. rewrite Ho by reflexivity. rewrite O1, O2.
    destruct (masks_ok g (content h0 p adlb 0) (content h0 p adub 0))
      as (lb' & ub' & EM & ML & MU & AL & AU); [lia | lia |].
    rewrite EM. cbn [obind].
    eexists _, _, _. split; [reflexivity|].
    assert (FA1 : firstn g (content h0 p adlb 0) = content h0 p adlb 0)
      by (apply firstn_all2; lia).
    assert (FA2 : firstn g (content h0 p adub 0) = content h0 p adub 0)
      by (apply firstn_all2; lia).
    unfold agrees in AL, AU.
    rewrite (firstn_all2 lb') in AL by lia. rewrite (firstn_all2 ub') in AU by lia.
    rewrite FA1 in AL. rewrite FA2 in AU. rewrite FA1, FA2.
    constructor; cbn [sN ptrs own nbu nbx ng nu nx mlbu mubu mlbx mubx mlg mug dims].
    + destruct F. constructor; cbn [sN ptrs own nbu nbx ng nu nx mlbu mubu mlbx mubx mlg mug dims];
        auto; intros; rewrite ?setnth_length, ?point_length; auto.
      * unfold set_own. destruct a; try congruence; cbn; auto; now rewrite Ho.
      * rewrite !point_other by auto. unfold set_ptrs. destruct a; try congruence; cbn; auto.
      * unfold set_ptrs. destruct a; cbn [arr_eqb]; rewrite ?setnth_length; auto.
    + intros; lia.
    + intros C. now apply CH.
    + auto.
    + intros j Hj. rewrite nth_setnth_other by lia. apply Ha. lia.
    + intros j Hj. assert (j = 0) by lia. subst j.
      unfold gen_set. cbn [sN ptrs own nbu nbx ng nu nx mlbu mubu mlbx mubx mlg mug dims].
      rewrite !nth_setnth_same by lia. repeat split; auto.
      * rewrite point_other by discriminate. apply point_same. exact Lp3.
      * apply point_same. rewrite point_length. exact Lp4.
      * exists lb', ub'. repeat (split; [assumption|]).
        left. rewrite !point_other by discriminate.
        unfold set_ptrs, set_own. cbn [arr_eqb]. rewrite !nth_setnth_same by assumption. auto.
  - destruct (masks_ok g (content h0 p adlb i) (content h0 p adub i))
      as (lb' & ub' & EM & ML & MU & AL & AU); [lia | lia |].
    rewrite EM. cbn [obind].
    eexists _, _, _. split; [reflexivity|].
    assert (FA1 : firstn g (content h0 p adlb i) = content h0 p adlb i)
      by (apply firstn_all2; lia).
    assert (FA2 : firstn g (content h0 p adub i) = content h0 p adub i)
      by (apply firstn_all2; lia).
    unfold agrees in AL, AU.
    rewrite (firstn_all2 lb') in AL by lia. rewrite (firstn_all2 ub') in AU by lia.
    rewrite FA1 in AL. rewrite FA2 in AU. rewrite FA1, FA2.
    assert (HH : forall a j, (i <> j \/ (a <> adlb /\ a <> adub)) ->
       get (put (put h p adlb i lb') p adub i ub') p a j = get h p a j).
    { intros. now apply put2_other. }
    constructor; cbn [sN ptrs own nbu nbx ng nu nx mlbu mubu mlbx mubx mlg mug dims].
    + destruct F. constructor; cbn [sN ptrs own nbu nbx ng nu nx mlbu mubu mlbx mubx mlg mug dims];
        auto; intros; rewrite ?setnth_length, ?point_length; auto.
      rewrite !point_other; auto.
    + intros; lia.
    + intros C. now apply CH.
    + intros a j D1 D2. rewrite HH by auto. now apply Hh.
    + intros j Hj. rewrite nth_setnth_other by lia. destruct (Ha j) as (A1 & A2); [lia|].
      split; auto. intros a. rewrite HH by (left; lia). auto.
    + intros j Hj. destruct (Nat.eq_dec j i) as [->|D].
      * unfold gen_set. cbn [sN ptrs own nbu nbx ng nu nx mlbu mubu mlbx mubx mlg mug dims].
        rewrite !nth_setnth_same by lia. repeat split; auto.
        -- rewrite (point_other _ aD) by discriminate. apply point_same.
           now rewrite !point_length.
        -- apply point_same. now rewrite !point_length.
        -- exists lb', ub'. repeat (split; [assumption|]). right.
           repeat split.
           ++ rewrite !(point_other _ aD), !(point_other _ aC), !(point_other _ adub)
                by discriminate.
              apply point_same. exact Lp1.
           ++ rewrite !(point_other _ aD), !(point_other _ aC) by discriminate.
              apply point_same. now rewrite point_length.
           ++ rewrite get_put_other by (auto; left; discriminate).
              apply get_put_same with (content h0 p adlb i). now rewrite Kh.
           ++ apply get_put_same with (content h0 p adub i).
              rewrite get_put_other by (auto; left; discriminate). now rewrite Kh.
      * eapply gen_set_step; [apply Hb; lia| | | | | |];
          cbn [sN ptrs own nbu nbx ng nu nx mlbu mubu mlbx mubx mlg mug dims].
        -- apply nth_setnth_other; lia.
        -- intros a. rewrite !point_stage by lia. reflexivity.
        -- apply nth_setnth_other; lia.
        -- apply nth_setnth_other; lia.
        -- reflexivity.
        -- intros a. apply HH. left; lia.
Qed.

Lemma general_loop_ok n m p s0 h0 ch0 :
  wf n m h0 p ->
  (forall a, In a [adlb; adub; aC; aD] -> length (ptrs s0 a) = S (K p)) ->
  length (ng s0) = S (K p) -> length (mlg s0) = S (K p) -> length (mug s0) = S (K p) ->
  own s0 adlb = content h0 p adlb 0 -> own s0 adub = content h0 p adub 0 ->
  exists s h ch, loop (S (K p)) 0 (general_stage n m p) (s0, h0, ch0) = Ok (s, h, ch)
    /\ general_loop p s0 h0 ch0 (S (K p)) s h ch.
Proof.
  intros W LP LN L1 L2 O1 O2.
  destruct (loop_inv (fun i (c : conf) => let '(s, h, ch) := c in
                        general_loop p s0 h0 ch0 i s h ch)
              (general_stage n m p) (S (K p)) 0 (s0, h0, ch0)) as ([[s h] ch] & E & P).
  - constructor; auto.
    + constructor; auto.
    + intros; lia.
  - intros j [[s h] ch] Hj Hl.
    destruct (general_stage_ok n m p s0 h0 ch0 j s h ch) as (s' & h' & ch' & E & R); auto; [lia|].
    exists (s', h', ch'). auto.
  - exists s, h, ch. auto.
Qed.

(** ** Sizes of the vectors of the interface *)
Definition plen (a : arr) (N : nat) : nat :=
  match a with aA | aB | ab => N | _ => S N end.

Record sized (s : solver) (l : nat) : Prop :=
  { sz_ptrs : forall a, In a [auI; aulb; auub; axI; axlb; axub; adlb; adub; aC; aD] ->
                length (ptrs s a) = l;
    sz_nbu : length (nbu s) = l; sz_nbx : length (nbx s) = l; sz_ng : length (ng s) = l;
    sz_mlbu : length (mlbu s) = l; sz_mubu : length (mubu s) = l;
    sz_mlbx : length (mlbx s) = l; sz_mubx : length (mubx s) = l;
    sz_mlg : length (mlg s) = l; sz_mug : length (mug s) = l;
    sz_0 : nth 0 (nbx s) 0 = 0 }.

(** An interface between two calls: it has seen no problem, or a problem with [N] stages. *)
Record unused (s : solver) : Prop :=
  { un_N : sN s = (-1)%Z; un_ptrs : forall a, ptrs s a = []; un_nu : nu s = [];
    un_nx : nx s = []; un_sz : sized s 0 }.

Record used (n m N : nat) (s : solver) : Prop :=
  { us_N : sN s = Z.of_nat N; us_1 : 1 <= N;
    us_sz : sized s (S N);
    us_ptrs : forall a, length (ptrs s a) = plen a N;
    us_nu : nu s = repeat m N ++ [0]; us_nx : nx s = 0 :: repeat n N;
    us_b : nth 0 (ptrs s ab) Null = Own; us_r : nth 0 (ptrs s arv) Null = Own;
    us_dims : dims s = alloc_dims s }.

Definition inv (n m : nat) (s : solver) : Prop :=
  unused s \/ exists N, used n m N s.

Lemma fresh_inv n m : inv n m fresh.
Proof.
  left. constructor; auto. constructor; auto.
Qed.

Lemma inv_sized n m s : inv n m s -> exists l, sized s l.
Proof. intros [U|[N U]]; destruct U; eauto. Qed.

(** ** Setting up the cost and the dynamics *)
Record setup_loop (p : problem) (f0 : arr -> list ptr) (i : nat) (f : arr -> list ptr) : Prop :=
  { su_len : forall a, length (f a) = length (f0 a);
    su_oth : forall a, In a [auI; aulb; auub; axI; axlb; axub; adlb; adub; aC; aD] -> f a = f0 a;
    su_at : forall a j, In a [aA; aB; aQ; aP; aR; aqv] -> j < i ->
        nth j (f a) Null = At (blk p a) j;
    su_br : forall a j, In a [ab; arv] -> 1 <= j < i -> nth j (f a) Null = At (blk p a) j;
    su_0 : forall a, In a [ab; arv] -> nth 0 (f a) Null = nth 0 (f0 a) Null }.

Lemma setup_step p f0 N i f :
  i < N -> (forall a, length (f0 a) = plen a N) ->
  setup_loop p f0 i f -> setup_loop p f0 (S i) (setup_stage p i f).
Proof.
  intros Hi L [S1 S2 S3 S4 S5].
  assert (Lf : forall a, i < length (f a)).
  { intros a. rewrite S1, L. destruct a; cbn; lia. }
  unfold setup_stage. destruct (Nat.eqb_spec i 0) as [->|D].
  - constructor.
    + intros a. now rewrite !point_length.
    + intros a Ia. rewrite !point_other; auto; intros E; rewrite <- E in Ia; cbn in Ia; intuition discriminate.
    + intros a j Ia Hj. assert (j = 0) by lia. subst j. cbn in Ia.
      repeat (destruct Ia as [<-|Ia];
        [repeat (rewrite point_other by discriminate); apply point_same;
         rewrite ?point_length; apply Lf |]). contradiction.
    + intros; lia.
    + intros a Ia. rewrite !point_other; auto; intros E; rewrite <- E in Ia; cbn in Ia; intuition discriminate.
  - constructor.
    + intros a. now rewrite !point_length.
    + intros a Ia. rewrite !point_other; auto; intros E; rewrite <- E in Ia; cbn in Ia; intuition discriminate.
    + intros a j Ia Hj. destruct (Nat.eq_dec j i) as [->|Dj].
      * cbn in Ia.
        repeat (destruct Ia as [<-|Ia];
          [repeat (rewrite point_other by discriminate); apply point_same;
           rewrite ?point_length; apply Lf |]). contradiction.
      * rewrite !point_stage by auto. apply S3; auto. lia.
    + intros a j Ia Hj. destruct (Nat.eq_dec j i) as [->|Dj].
      * cbn in Ia.
        repeat (destruct Ia as [<-|Ia];
          [repeat (rewrite point_other by discriminate); apply point_same;
           rewrite ?point_length; apply Lf |]). contradiction.
      * rewrite !point_stage by auto. apply S4; auto. lia.
    + intros a Ia. rewrite !point_stage by auto. auto.
Qed.

Lemma setup_loop_ok p f0 N :
  (forall a, length (f0 a) = plen a N) ->
  exists f, loop N 0 (fun i f => Ok (setup_stage p i f)) f0 = Ok f /\ setup_loop p f0 N f.
Proof.
  intros L.
  destruct (loop_inv (fun i f => setup_loop p f0 i f)
             (fun i f => Ok (setup_stage p i f)) N 0 f0) as (f & E & P).
  - constructor; auto; intros; lia.
  - intros j f Hj Hf. eexists. split; [reflexivity|]. apply (setup_step p f0 N); auto; lia.
  - eauto.
Qed.

(** Pointers to cost and dynamics after a call *)
Record cost_set (p : problem) (h0 : heap) (s : solver) : Prop :=
  { co_at : forall a j, In a [aA; aB; aQ; aP; aR; aqv] -> j < K p ->
        nth j (ptrs s a) Null = At (blk p a) j;
    co_last : forall a, In a [aQ; aqv] -> nth (K p) (ptrs s a) Null = At (blk p a) (K p);
    co_br : forall a j, In a [ab; arv] -> 1 <= j < K p -> nth j (ptrs s a) Null = At (blk p a) j;
    co_0 : forall a, In a [ab; arv] -> nth 0 (ptrs s a) Null = Own;
    co_own : forall a, In a [ab; arv] -> own s a = content h0 p a 0 }.

Definition six := [aulb; auub; axlb; axub; adlb; adub].

(** Box constraints at a stage after a call, relative to the interface [s] before it *)
Definition box_step (p : problem) (aI al au : arr) (c c0 : nat) (h0 h : heap)
    (s s' : solver) (ml0 ml mu0 mu : list (list bool)) (j : nat) : Prop :=
  let N := K p in
  (c0 = c
   /\ (forall a, In a [aI; al; au] ->
        nth j (ptrs s' a) Null = nth j (resize (S N) Null (ptrs s a)) Null
        /\ get h p a j = get h0 p a j)
   /\ nth j ml [] = nth j (resize (S N) [] ml0) []
   /\ nth j mu [] = nth j (resize (S N) [] mu0) [])
  \/ renewed p aI al au c h0 h (ptrs s') ml mu j.

Record post (n m : nat) (p : problem) (h0 : heap) (s s' : solver) (h : heap) : Prop :=
  { po_used : used n m (K p) s';
    po_nbu : forall j, j < K p -> nth j (nbu s') 0 = nth j (p_nbu p) 0;
    po_u : forall j, j < K p ->
        box_step p auI aulb auub (nth j (p_nbu p) 0) (nth j (resize (S (K p)) 0 (nbu s)) 0)
          h0 h s s' (mlbu s) (mlbu s') (mubu s) (mubu s') j;
    po_uN : nth (K p) (nbu s') 0 = nth (K p) (resize (S (K p)) 0 (nbu s)) 0;
    po_nbx : forall j, j <= K p -> nth j (nbx s') 0 = xcount p j;
    po_x : forall j, j <= K p ->
        box_step p axI axlb axub (xcount p j) (nth j (resize (S (K p)) 0 (nbx s)) 0)
          h0 h s s' (mlbx s) (mlbx s') (mubx s) (mubx s') j;
    po_g : forall j, j <= K p -> gen_set p h0 h s' j;
    po_heap : forall a j, ~ In a six -> get h p a j = get h0 p a j;
    po_cost : cost_set p h0 s' }.

Lemma wf_of_get n m h0 h p :
  wf n m h0 p ->
  (forall a i, i < asize a (K p) -> exists v, get h p a i = Ok v /\ length v = width n m p a i) ->
  wf n m h p.
Proof.
  intros W H. destruct W as [W1 W2 W3 W4 W5 W6]. constructor; auto.
  intros a i Hi. destruct (H a i Hi) as (v & G & L). unfold get, live in G.
  destruct (nth_error h (blk p a)) as [[c|]|]; try discriminate.
  destruct (nth_error c i) eqn:E; try discriminate. injection G as ->. eauto.
Qed.

Lemma content_eq n m h0 h p a j :
  wf n m h0 p -> j < asize a (K p) -> get h p a j = get h0 p a j ->
  content h p a j = content h0 p a j.
Proof.
  intros W Hj E. destruct (wf_get _ _ _ _ a j W Hj) as (G & _).
  rewrite G in E. now apply get_content.
Qed.

Lemma resize_ptrs_in l as_ f a :
  NoDup as_ -> In a as_ -> resize_ptrs l as_ f a = resize l Null (f a).
Proof.
  unfold resize_ptrs. revert f. induction as_ as [|b r IH]; intros f ND I; [contradiction|].
  inversion ND as [|? ? N1 N2]; subst. cbn. destruct I as [->|I].
  - assert (E : forall g, fold_left (fun f a => set_ptrs f a (resize l Null (f a))) r g a = g a).
    { clear - N1. induction r as [|c r IH]; intros g; cbn; auto. rewrite IH.
      - unfold set_ptrs. destruct (arr_eqb c a) eqn:E; auto. apply arr_eqb_eq in E. subst.
        elim N1. now left.
      - intros H. apply N1. now right. }
    rewrite E. unfold set_ptrs. now rewrite arr_eqb_refl.
  - rewrite IH; auto. unfold set_ptrs. destruct (arr_eqb b a) eqn:E; auto.
    apply arr_eqb_eq in E. subst. contradiction.
Qed.

Lemma resize_ptrs_out l as_ f a : ~ In a as_ -> resize_ptrs l as_ f a = f a.
Proof.
  unfold resize_ptrs. revert f. induction as_ as [|b r IH]; intros f I; cbn; auto.
  rewrite IH by (intros H; apply I; now right). unfold set_ptrs.
  destruct (arr_eqb b a) eqn:E; auto. apply arr_eqb_eq in E. subst. elim I. now left.
Qed.

Ltac nodup := repeat (constructor; [cbn; intuition discriminate|]); constructor.
Ltac notin := cbn; intuition discriminate.

(** The three resizing steps, as one description: the flag tells whether anything changed. *)
Lemma input_resize_spec p s l : sized s l ->
  let '(s', ch) := input_box_resize (K p) s in
  (ch = false -> l = S (K p) /\ s' = s)
  /\ sN s' = sN s /\ own s' = own s /\ nbx s' = nbx s /\ ng s' = ng s
  /\ nu s' = nu s /\ nx s' = nx s /\ dims s' = dims s
  /\ mlbx s' = mlbx s /\ mubx s' = mubx s /\ mlg s' = mlg s /\ mug s' = mug s
  /\ (forall a, In a [auI; aulb; auub] -> ptrs s' a = resize (S (K p)) Null (ptrs s a))
  /\ (forall a, ~ In a [auI; aulb; auub] -> ptrs s' a = ptrs s a)
  /\ nbu s' = resize (S (K p)) 0 (nbu s)
  /\ mlbu s' = resize (S (K p)) [] (mlbu s) /\ mubu s' = resize (S (K p)) [] (mubu s).
Proof.
  intros Z. unfold input_box_resize. destruct (Nat.eqb_spec (length (nbu s)) (S (K p))) as [E|E].
  - destruct Z. assert (El : l = S (K p)) by lia.
    repeat split; auto; intros; symmetry; apply resize_same; rewrite <- ?El; auto.
    apply sz_ptrs0. cbn in *. tauto.
  - cbn [sN ptrs own nbu nbx ng nu nx mlbu mubu mlbx mubx mlg mug dims].
    repeat split; auto; try discriminate; intros a Ia.
    + now rewrite (resize_ptrs_in _ [auI; aulb; auub]) by (auto; nodup).
    + now rewrite (resize_ptrs_out _ [auI; aulb; auub]) by auto.
Qed.

Lemma gen_set_eq p h0 h h' s s' j :
  gen_set p h0 h s j ->
  ng s' = ng s -> mlg s' = mlg s -> mug s' = mug s ->
  (forall a, In a [adlb; adub; aC; aD] -> ptrs s' a = ptrs s a) ->
  own s' adlb = own s adlb -> own s' adub = own s adub ->
  (forall a, In a [adlb; adub] -> get h' p a j = get h p a j) ->
  gen_set p h0 h' s' j.
Proof.
  intros H E1 E2 E3 E4 E5 E6 E7. unfold gen_set in *.
  rewrite E1, E2, E3, E5, E6, !E4, !E7 by (cbn; tauto). exact H.
Qed.

Lemma renewed_eq p aI al au c h0 h h' f f' ml mu j :
  renewed p aI al au c h0 h f ml mu j ->
  (forall a, In a [aI; al; au] -> f' a = f a) ->
  (forall a, In a [aI; al; au] -> get h' p a j = get h p a j) ->
  renewed p aI al au c h0 h' f' ml mu j.
Proof.
  intros H E1 E2. unfold renewed in *. rewrite !E1, !E2 by (cbn; tauto). exact H.
Qed.

Lemma renewed_src p aI al au c h0 h1 h f ml mu j :
  renewed p aI al au c h1 h f ml mu j ->
  content h1 p al j = content h0 p al j -> content h1 p au j = content h0 p au j ->
  renewed p aI al au c h0 h f ml mu j.
Proof. intros H E1 E2. unfold renewed in *. rewrite E1, E2 in H. exact H. Qed.

Lemma gen_set_src p h0 h1 h s j :
  gen_set p h1 h s j ->
  content h1 p adlb j = content h0 p adlb j -> content h1 p adub j = content h0 p adub j ->
  gen_set p h0 h s j.
Proof. intros H E1 E2. unfold gen_set in *. rewrite E1, E2 in H. exact H. Qed.

Record mid (n m : nat) (p : problem) (h0 : heap) (s s' : solver) (h : heap) : Prop :=
  { mi_sz : sized s' (S (K p));
    mi_nbu : forall j, j < K p -> nth j (nbu s') 0 = nth j (p_nbu p) 0;
    mi_u : forall j, j < K p ->
        box_step p auI aulb auub (nth j (p_nbu p) 0) (nth j (resize (S (K p)) 0 (nbu s)) 0)
          h0 h s s' (mlbu s) (mlbu s') (mubu s) (mubu s') j;
    mi_uN : nth (K p) (nbu s') 0 = nth (K p) (resize (S (K p)) 0 (nbu s)) 0;
    mi_nbx : forall j, j <= K p -> nth j (nbx s') 0 = xcount p j;
    mi_x : forall j, j <= K p ->
        box_step p axI axlb axub (xcount p j) (nth j (resize (S (K p)) 0 (nbx s)) 0)
          h0 h s s' (mlbx s) (mlbx s') (mubx s) (mubx s') j;
    mi_g : forall j, j <= K p -> gen_set p h0 h s' j;
    mi_heap : forall a j, ~ In a six -> get h p a j = get h0 p a j;
    mi_N : sN s' = sN s; mi_nu : nu s' = nu s; mi_nx : nx s' = nx s; mi_dims : dims s' = dims s;
    mi_ptrs : forall a, In a [aA; aB; ab; aP; aqv; aQ; arv; aR] -> ptrs s' a = ptrs s a }.

Lemma configured n m p s h0 l :
  wf n m h0 p -> sized s l ->
  exists s1 h1 ch1 s2 h2 ch2 s3 h3 ch3,
    configure_input_box p s h0 = Ok (s1, h1, ch1)
    /\ configure_state_box p s1 h1 = Ok (s2, h2, ch2)
    /\ configure_general n m p s2 h2 = Ok (s3, h3, ch3)
    /\ mid n m p h0 s s3 h3
    /\ (ch1 || ch2 || ch3 = false ->
        l = S (K p) /\ nbu s3 = nbu s /\ nbx s3 = nbx s /\ ng s3 = ng s)%bool.
Proof.
  intros W Z.
  pose proof (wf_K _ _ _ _ W) as KP.
  (* inputs *)
  pose proof (input_resize_spec p s l Z) as R1. unfold configure_input_box.
  destruct (input_box_resize (K p) s) as [t1 c1].
  destruct R1 as (R1c & R1N & R1o & R1nbx & R1ng & R1nu & R1nx & R1d & R1a & R1b & R1e & R1f
                  & R1in & R1out & R1nbu & R1ml & R1mu).
  destruct (input_loop_ok n m p t1 h0 c1) as (s1 & h1 & ch1 & E1 & [F1 C1 H1 A1 B1]); auto.
  { intros a Ia. rewrite R1in by auto. apply resize_length. }
  { rewrite R1nbu. apply resize_length. }
  { rewrite R1ml. apply resize_length. }
  { rewrite R1mu. apply resize_length. }
  exists s1, h1, ch1.
  assert (W1 : wf n m h1 p).
  { apply wf_of_get with h0; auto. intros a i Hi.
    destruct (wf_get _ _ _ _ a i W Hi) as (G & L).
    assert (D : (a <> aulb /\ a <> auub) \/ ((a = aulb \/ a = auub) /\ i < K p)).
    { destruct a; cbn in Hi; try (left; split; discriminate); right; auto. }
    destruct D as [[D1 D2]|[D Hk]].
    - rewrite H1 by auto. eauto.
    - destruct (B1 i Hk) as (_ & [(_ & Kp & Kl & Ku & Kh)|(_ & _ & _ & (lb & X1 & X2 & _) & (ub & Y1 & Y2 & _))]).
      + rewrite Kh. eauto.
      + destruct D as [->| ->]; [exists lb | exists ub]; split; auto; congruence. }
  (* the state boxes *)
  assert (Zx : length (nbx s1) = l /\ length (mlbx s1) = l /\ length (mubx s1) = l
     /\ (forall a, In a [axI; axlb; axub] -> length (ptrs s1 a) = l)
     /\ nth 0 (nbx s1) 0 = 0).
  { destruct F1, Z. rewrite if_nbx0, if_mlbx0, if_mubx0, R1nbx, R1a, R1b.
    repeat split; auto. intros a Ia. rewrite if_ptrs0, R1out.
    - apply sz_ptrs0. cbn in *. tauto.
    - cbn in *. intuition (subst; discriminate).
    - intros ->; cbn in Ia; intuition discriminate.
    - intros ->; cbn in Ia; intuition discriminate.
    - intros ->; cbn in Ia; intuition discriminate. }
  unfold configure_state_box.
  assert (R2 : let '(t2, c2) := state_box_resize (K p) s1 in
     (c2 = false -> l = S (K p) /\ t2 = s1)
     /\ sN t2 = sN s1 /\ own t2 = own s1 /\ nbu t2 = nbu s1 /\ ng t2 = ng s1
     /\ nu t2 = nu s1 /\ nx t2 = nx s1 /\ dims t2 = dims s1
     /\ mlbu t2 = mlbu s1 /\ mubu t2 = mubu s1 /\ mlg t2 = mlg s1 /\ mug t2 = mug s1
     /\ (forall a, In a [axI; axlb; axub] -> ptrs t2 a = resize (S (K p)) Null (ptrs s1 a))
     /\ (forall a, ~ In a [axI; axlb; axub] -> ptrs t2 a = ptrs s1 a)
     /\ nbx t2 = resize (S (K p)) 0 (nbx s1)
     /\ mlbx t2 = resize (S (K p)) [] (mlbx s1) /\ mubx t2 = resize (S (K p)) [] (mubx s1)).
  { destruct Zx as (X1 & X2 & X3 & X4 & X5). unfold state_box_resize.
    destruct (Nat.eqb_spec (length (nbx s1)) (S (K p))) as [E|E].
    - assert (El : l = S (K p)) by lia.
      repeat split; auto; intros; symmetry; apply resize_same; rewrite <- ?El; auto.
    - cbn [sN ptrs own nbu nbx ng nu nx mlbu mubu mlbx mubx mlg mug dims].
      repeat split; auto; try discriminate; intros a Ia.
      + now rewrite (resize_ptrs_in _ [axI; axlb; axub]) by (auto; nodup).
      + now rewrite (resize_ptrs_out _ [axI; axlb; axub]) by auto. }
  destruct (state_box_resize (K p) s1) as [t2 c2].
  destruct R2 as (R2c & R2N & R2o & R2nbu & R2ng & R2nu & R2nx & R2d & R2a & R2b & R2e & R2f
                  & R2in & R2out & R2nbx & R2ml & R2mu).
  destruct (state_loop_ok n m p t2 h1 c2) as (s2 & h2 & ch2 & E2 & [F2 C2 H2 A2 B2]); auto.
  { intros a Ia. rewrite R2in by auto. apply resize_length. }
  { rewrite R2nbx. apply resize_length. }
  { rewrite R2ml. apply resize_length. }
  { rewrite R2mu. apply resize_length. }
  { rewrite R2nbx. destruct Zx as (X1 & _ & _ & _ & X5).
    destruct (nbx s1) as [|y ys] eqn:Ey; [reflexivity|]. cbn in X5. subst y. reflexivity. }
  exists s2, h2, ch2.
  assert (W2 : wf n m h2 p).
  { apply wf_of_get with h1; auto. intros a i Hi.
    destruct (wf_get _ _ _ _ a i W1 Hi) as (G & L).
    assert (D : (a <> axlb /\ a <> axub) \/ ((a = axlb \/ a = axub) /\ i < S (K p))).
    { destruct a; cbn in Hi; try (left; split; discriminate); right; auto. }
    destruct D as [[D1 D2]|[D Hk]].
    - rewrite H2 by auto. eauto.
    - destruct (B2 i Hk) as (_ & [(_ & Kp & Kl & Ku & Kh)|(_ & _ & _ & (lb & X1 & X2 & _) & (ub & Y1 & Y2 & _))]).
      + rewrite Kh. eauto.
      + destruct D as [->| ->]; [exists lb | exists ub]; split; auto; congruence. }
  (* general constraints *)
  assert (Zg : length (ng s2) = l /\ length (mlg s2) = l /\ length (mug s2) = l
     /\ (forall a, In a [adlb; adub; aC; aD] -> length (ptrs s2 a) = l)).
  { destruct F1, F2, Z. rewrite sf_ng0, sf_mlg0, sf_mug0, R2ng, R2e, R2f.
    rewrite if_ng0, if_mlg0, if_mug0, R1ng, R1e, R1f.
    repeat split; auto. intros a Ia.
    rewrite sf_ptrs0, R2out, if_ptrs0, R1out.
    - apply sz_ptrs0. cbn in *. tauto.
    - cbn in *. intuition (subst; discriminate).
    - intros ->; cbn in Ia; intuition discriminate.
    - intros ->; cbn in Ia; intuition discriminate.
    - intros ->; cbn in Ia; intuition discriminate.
    - cbn in *. intuition (subst; discriminate).
    - intros ->; cbn in Ia; intuition discriminate.
    - intros ->; cbn in Ia; intuition discriminate.
    - intros ->; cbn in Ia; intuition discriminate. }
  unfold configure_general.
  assert (R3 : let '(t3, c3) := general_resize (K p) s2 in
     (c3 = false -> l = S (K p) /\ t3 = s2)
     /\ sN t3 = sN s2 /\ own t3 = own s2 /\ nbu t3 = nbu s2 /\ nbx t3 = nbx s2
     /\ nu t3 = nu s2 /\ nx t3 = nx s2 /\ dims t3 = dims s2
     /\ mlbu t3 = mlbu s2 /\ mubu t3 = mubu s2 /\ mlbx t3 = mlbx s2 /\ mubx t3 = mubx s2
     /\ (forall a, In a [adlb; adub; aC; aD] -> ptrs t3 a = resize (S (K p)) Null (ptrs s2 a))
     /\ (forall a, ~ In a [adlb; adub; aC; aD] -> ptrs t3 a = ptrs s2 a)
     /\ ng t3 = resize (S (K p)) 0 (ng s2)
     /\ mlg t3 = resize (S (K p)) [] (mlg s2) /\ mug t3 = resize (S (K p)) [] (mug s2)).
  { destruct Zg as (X1 & X2 & X3 & X4). unfold general_resize.
    destruct (Nat.eqb_spec (length (ng s2)) (S (K p))) as [E|E].
    - assert (El : l = S (K p)) by lia.
      repeat split; auto; intros; symmetry; apply resize_same; rewrite <- ?El; auto.
    - cbn [sN ptrs own nbu nbx ng nu nx mlbu mubu mlbx mubx mlg mug dims].
      repeat split; auto; try discriminate; intros a Ia.
      + now rewrite (resize_ptrs_in _ [adlb; adub; aC; aD]) by (auto; nodup).
      + now rewrite (resize_ptrs_out _ [adlb; adub; aC; aD]) by auto. }
  destruct (general_resize (K p) s2) as [t3 c3].
  destruct R3 as (R3c & R3N & R3o & R3nbu & R3nbx & R3nu & R3nx & R3d & R3a & R3b & R3e & R3f
                  & R3in & R3out & R3ng & R3ml & R3mu).
  destruct (wf_get _ _ _ _ adlb 0 W2) as (G0l & _); [cbn; lia|].
  destruct (wf_get _ _ _ _ adub 0 W2) as (G0u & _); [cbn; lia|].
  rewrite G0l, G0u. cbn [obind].
  match goal with |- context [loop (S (K p)) 0 (general_stage n m p) (?t, h2, c3)] =>
    set (t3' := t) end.
  destruct (general_loop_ok n m p t3' h2 c3) as (s3 & h3 & ch3 & E3 & [F3 O3 C3 H3 A3 B3]); auto.
  { intros a Ia. unfold t3'. cbn [ptrs]. rewrite R3in by auto. apply resize_length. }
  { unfold t3'. cbn [ng]. rewrite R3ng. apply resize_length. }
  { unfold t3'. cbn [mlg]. rewrite R3ml. apply resize_length. }
  { unfold t3'. cbn [mug]. rewrite R3mu. apply resize_length. }
  exists s3, h3, ch3.
  split; [exact E1|]. split; [exact E2|]. split; [exact E3|].
  assert (P1 : forall a, In a [auI; aulb; auub] -> ptrs s3 a = ptrs s1 a).
  { intros a Ia. destruct F2, F3. rewrite gf_ptrs0; [unfold t3'; cbn [ptrs]; rewrite R3out, sf_ptrs0, R2out; auto| | | |];
      cbn in *; intuition (subst; discriminate). }
  assert (P2 : forall a, In a [axI; axlb; axub] -> ptrs s3 a = ptrs s2 a).
  { intros a Ia. destruct F3. rewrite gf_ptrs0; [unfold t3'; cbn [ptrs]; rewrite R3out; auto| | | |];
      cbn in *; intuition (subst; discriminate). }
  assert (G1 : forall a j, In a [auI; aulb; auub] -> get h3 p a j = get h1 p a j).
  { intros a j Ia. rewrite H3, H2; auto; intros ->; cbn in Ia; intuition discriminate. }
  assert (G2 : forall a j, In a [axI; axlb; axub] -> get h3 p a j = get h2 p a j).
  { intros a j Ia. rewrite H3; auto; intros ->; cbn in Ia; intuition discriminate. }
  assert (G3 : forall a j, In a [axI; axlb; axub] -> get h1 p a j = get h0 p a j).
  { intros a j Ia. rewrite H1; auto; intros ->; cbn in Ia; intuition discriminate. }
  assert (G4 : forall a j, In a [adlb; adub; aC; aD] -> get h2 p a j = get h0 p a j).
  { intros a j Ia. rewrite H2, H1; auto; intros ->; cbn in Ia; intuition discriminate. }
  assert (EQ1 : nbu s3 = nbu s1 /\ mlbu s3 = mlbu s1 /\ mubu s3 = mubu s1).
  { destruct F2, F3. rewrite gf_nbu0, gf_mlbu0, gf_mubu0. unfold t3'. cbn [nbu mlbu mubu].
    rewrite R3nbu, R3a, R3b, sf_nbu0, sf_mlbu0, sf_mubu0, R2nbu, R2a, R2b. auto. }
  assert (EQ2 : nbx s3 = nbx s2 /\ mlbx s3 = mlbx s2 /\ mubx s3 = mubx s2).
  { destruct F3. rewrite gf_nbx0, gf_mlbx0, gf_mubx0. unfold t3'. cbn [nbx mlbx mubx].
    rewrite R3nbx, R3e, R3f. auto. }
  assert (EQ3 : nbx s1 = nbx s /\ mlbx s1 = mlbx s /\ mubx s1 = mubx s /\
                (forall a, In a [axI; axlb; axub] -> ptrs s1 a = ptrs s a)).
  { destruct F1. rewrite if_nbx0, if_mlbx0, if_mubx0, R1nbx, R1a, R1b. repeat split; auto.
    intros a Ia. rewrite if_ptrs0, R1out; auto; cbn in *; intuition (subst; discriminate). }
  destruct EQ1 as (Q1 & Q2 & Q3). destruct EQ2 as (Q4 & Q5 & Q6).
  destruct EQ3 as (Q7 & Q8 & Q9 & Q10).
  split.
  - constructor.
    + constructor.
      * intros a Ia. cbn in Ia.
        assert (D : In a [auI; aulb; auub] \/ In a [axI; axlb; axub] \/ In a [adlb; adub; aC; aD])
          by (cbn; tauto).
        destruct D as [D|[D|D]].
        -- rewrite P1 by auto. destruct F1. rewrite if_len0, R1in by auto. apply resize_length.
        -- rewrite P2 by auto. destruct F2. rewrite sf_len0, R2in by auto. apply resize_length.
        -- destruct F3. rewrite gf_len0. unfold t3'. cbn [ptrs]. rewrite R3in by auto.
           apply resize_length.
      * rewrite Q1. destruct F1. rewrite if_nbu0, R1nbu. apply resize_length.
      * rewrite Q4. destruct F2. rewrite sf_nbx0, R2nbx. apply resize_length.
      * destruct F3. rewrite gf_ng0. unfold t3'. cbn [ng]. rewrite R3ng. apply resize_length.
      * rewrite Q2. destruct F1. rewrite if_mlbu0, R1ml. apply resize_length.
      * rewrite Q3. destruct F1. rewrite if_mubu0, R1mu. apply resize_length.
      * rewrite Q5. destruct F2. rewrite sf_mlbx0, R2ml. apply resize_length.
      * rewrite Q6. destruct F2. rewrite sf_mubx0, R2mu. apply resize_length.
      * destruct F3. rewrite gf_mlg0. unfold t3'. cbn [mlg]. rewrite R3ml. apply resize_length.
      * destruct F3. rewrite gf_mug0. unfold t3'. cbn [mug]. rewrite R3mu. apply resize_length.
      * rewrite Q4. destruct (B2 0) as (B & _); [lia|]. rewrite B. reflexivity.
    + intros j Hj. rewrite Q1. now apply B1.
    + intros j Hj. unfold box_step. rewrite Q2, Q3.
      destruct (B1 j Hj) as (_ & [(N1 & Kp & Kl & Ku & Kh)|R]).
      * left. rewrite R1nbu in N1. split; auto. split.
        { intros a Ia. rewrite P1, Kp, R1in by auto. split; auto.
          rewrite G1 by auto. apply Kh. }
        rewrite Kl, Ku, R1ml, R1mu. auto.
      * right. eapply renewed_eq; [exact R| |]; auto.
    + rewrite Q1. destruct (A1 (K p)) as (B & _); [lia|]. now rewrite B, R1nbu.
    + intros j Hj. rewrite Q4. apply B2. lia.
    + intros j Hj. unfold box_step. rewrite Q5, Q6.
      destruct (B2 j ltac:(lia)) as (_ & [(N1 & Kp & Kl & Ku & Kh)|R]).
      * left. rewrite R2nbx, Q7 in N1. split; auto. split.
        { intros a Ia. rewrite P2, Kp, R2in, Q10 by auto. split; auto.
          rewrite G2, Kh by auto. apply G3. auto. }
        rewrite Kl, Ku, R2ml, R2mu, Q8, Q9. auto.
      * right. apply renewed_src with h1.
        { eapply renewed_eq; [exact R| |]; auto. }
        { apply (content_eq n m); auto; [cbn; lia|]. apply G3. cbn; tauto. }
        { apply (content_eq n m); auto; [cbn; lia|]. apply G3. cbn; tauto. }
    + intros j Hj. apply gen_set_src with h2.
      { apply B3. lia. }
      { apply (content_eq n m); auto; [cbn; lia|]. apply G4. cbn; tauto. }
      { apply (content_eq n m); auto; [cbn; lia|]. apply G4. cbn; tauto. }
    + intros a j Ia. unfold six in Ia.
      rewrite H3, H2, H1; auto; intros ->; apply Ia; cbn; tauto.
    + destruct F1, F2, F3. rewrite gf_N0. unfold t3'. cbn [sN]. congruence.
    + destruct F1, F2, F3. rewrite gf_nu0. unfold t3'. cbn [nu]. congruence.
    + destruct F1, F2, F3. rewrite gf_nx0. unfold t3'. cbn [nx]. congruence.
    + destruct F1, F2, F3. rewrite gf_dims0. unfold t3'. cbn [dims]. congruence.
    + intros a Ia. destruct F1, F2, F3. rewrite gf_ptrs0; [unfold t3'; cbn [ptrs]; rewrite R3out, sf_ptrs0, R2out, if_ptrs0, R1out; auto| | | |];
        cbn in *; intuition (subst; discriminate).
  - intros HF. apply orb_false_iff in HF. destruct HF as [HF HF3].
    apply orb_false_iff in HF. destruct HF as [HF1 HF2].
    destruct (C1 HF1) as (X1 & X2). destruct (C2 HF2) as (X3 & X4). destruct (C3 HF3) as (X5 & X6).
    destruct (R1c X1) as (X7 & X8). destruct (R2c X3) as (_ & X9). destruct (R3c X5) as (_ & X10).
    split; auto. rewrite Q1, X2, X8. split; auto. split.
    + rewrite Q4, X4, X9. auto.
    + rewrite X6. unfold t3'. cbn [ng]. rewrite X10. destruct F2. rewrite sf_ng0, X9.
      destruct F1. rewrite if_ng0, X8. auto.
Qed.

Lemma box_step_eq p aI al au c c0 h0 h s s1 s' ml0 ml mu0 mu j :
  box_step p aI al au c c0 h0 h s s1 ml0 ml mu0 mu j ->
  (forall a, In a [aI; al; au] -> ptrs s' a = ptrs s1 a) ->
  box_step p aI al au c c0 h0 h s s' ml0 ml mu0 mu j.
Proof.
  intros [(E & A & B & C)|R] P.
  - left. split; auto. split; auto. intros a Ia. rewrite P by auto. now apply A.
  - right. eapply renewed_eq; eauto.
Qed.

Lemma set_ptrs_same f a v : set_ptrs f a v a = v.
Proof. unfold set_ptrs. now rewrite arr_eqb_refl. Qed.
Lemma set_ptrs_other f a v b : a <> b -> set_ptrs f a v b = f b.
Proof.
  intros D. unfold set_ptrs. destruct (arr_eqb a b) eqn:E; auto.
  apply arr_eqb_eq in E. congruence.
Qed.

(** The interface after changeProblemSize: as [mid], with all vectors of the right size. *)
Record ready (n m : nat) (p : problem) (h0 : heap) (s s' : solver) (h : heap) (dc : bool) : Prop :=
  { re_N : sN s' = Z.of_nat (K p);
    re_sz : sized s' (S (K p));
    re_len : forall a, length (ptrs s' a) = plen a (K p);
    re_nu : nu s' = repeat m (K p) ++ [0]; re_nx : nx s' = 0 :: repeat n (K p);
    re_b : nth 0 (ptrs s' ab) Null = Own; re_r : nth 0 (ptrs s' arv) Null = Own;
    re_dims : dc = false -> dims s' = alloc_dims s';
    re_nbu : forall j, j < K p -> nth j (nbu s') 0 = nth j (p_nbu p) 0;
    re_u : forall j, j < K p ->
        box_step p auI aulb auub (nth j (p_nbu p) 0) (nth j (resize (S (K p)) 0 (nbu s)) 0)
          h0 h s s' (mlbu s) (mlbu s') (mubu s) (mubu s') j;
    re_uN : nth (K p) (nbu s') 0 = nth (K p) (resize (S (K p)) 0 (nbu s)) 0;
    re_nbx : forall j, j <= K p -> nth j (nbx s') 0 = xcount p j;
    re_x : forall j, j <= K p ->
        box_step p axI axlb axub (xcount p j) (nth j (resize (S (K p)) 0 (nbx s)) 0)
          h0 h s s' (mlbx s) (mlbx s') (mubx s) (mubx s') j;
    re_g : forall j, j <= K p -> gen_set p h0 h s' j;
    re_heap : forall a j, ~ In a six -> get h p a j = get h0 p a j }.

Lemma change_size_ok n m p s h0 :
  wf n m h0 p -> inv n m s ->
  exists s' h dc, change_size n m p s h0 = Ok (s', h, dc) /\ ready n m p h0 s s' h dc.
Proof.
  intros W I. pose proof (wf_K _ _ _ _ W) as KP.
  destruct (inv_sized _ _ _ I) as (l & Z).
  unfold change_size.
  set (s0 := mkSolver (Z.of_nat (K p)) (ptrs s) (own s) (nbu s) (nbx s) (ng s) (nu s) (nx s)
             (mlbu s) (mubu s) (mlbx s) (mubx s) (mlg s) (mug s) (dims s)).
  assert (Z0 : sized s0 l) by (destruct Z; constructor; auto).
  destruct (configured n m p s0 h0 l W Z0)
    as (s1 & h1 & ch1 & s2 & h2 & ch2 & s3 & h3 & ch3 & E1 & E2 & E3 & M & FC).
  rewrite E1. cbn [obind]. rewrite E2. cbn [obind]. rewrite E3. cbn [obind].
  destruct M as [M1 M2 M3 M4 M5 M6 M7 M8 M9 M10 M11 M12 M13].
  cbn [sN nu nx dims ptrs s0] in M9, M10, M11, M12, M13.
  assert (M3' : forall j, j < K p ->
        box_step p auI aulb auub (nth j (p_nbu p) 0) (nth j (resize (S (K p)) 0 (nbu s)) 0)
          h0 h3 s s3 (mlbu s) (mlbu s3) (mubu s) (mubu s3) j) by exact M3.
  assert (M6' : forall j, j <= K p ->
        box_step p axI axlb axub (xcount p j) (nth j (resize (S (K p)) 0 (nbx s)) 0)
          h0 h3 s s3 (mlbx s) (mlbx s3) (mubx s) (mubx s3) j) by exact M6.
  assert (M4' : nth (K p) (nbu s3) 0 = nth (K p) (resize (S (K p)) 0 (nbu s)) 0) by exact M4.
  destruct (negb (sN s =? Z.of_nat (K p))%Z || (ch1 || ch2 || ch3))%bool eqn:FL; cbn [negb].
  - assert (KM : forall X : outcome conf, match K p with O => UB | S _ => X end = X)
      by (intros; destruct (K p); [lia|reflexivity]).
    rewrite KM.
    eexists _, _, _. split; [reflexivity|].
    match goal with |- ready _ _ _ _ _ (mkSolver _ ?f _ _ _ _ _ _ _ _ _ _ _ _ _) _ _ =>
      set (f' := f) end.
    assert (PO : forall a, In a [auI; aulb; auub; axI; axlb; axub; adlb; adub; aC; aD] ->
       f' a = ptrs s3 a).
    { intros a Ia. unfold f'. rewrite !set_ptrs_other, !resize_ptrs_out;
        auto; cbn in *; intuition (subst; discriminate). }
    assert (LEN : forall a, length (f' a) = plen a (K p)).
    { intros a. destruct (in_dec arr_dec a
         [auI; aulb; auub; axI; axlb; axub; adlb; adub; aC; aD]) as [Ia|Ia].
      - rewrite PO by auto. destruct M1. rewrite sz_ptrs0 by auto.
        cbn in Ia. intuition (subst; reflexivity).
      - unfold f'. destruct a; try (exfalso; apply Ia; cbn; tauto);
        repeat first [rewrite set_ptrs_same, ?setnth_length | rewrite set_ptrs_other by discriminate];
        repeat first [rewrite resize_ptrs_in by (first [solve [cbn; tauto] | nodup])
                     |rewrite resize_ptrs_out by notin];
        rewrite ?resize_length; reflexivity. }
    constructor; cbn [sN ptrs own nbu nbx ng nu nx mlbu mubu mlbx mubx mlg mug dims]; auto.
    + destruct M1. constructor; auto. intros a Ia. cbn [ptrs]. rewrite PO by auto. auto.
    + rewrite M10. destruct I as [U|[N' U]]; destruct U.
      * rewrite un_nu0. apply set_nu_nil.
      * rewrite us_nu0. apply set_nu_good.
    + rewrite M11. destruct I as [U|[N' U]]; destruct U.
      * rewrite un_nx0. apply nx_nil.
      * rewrite us_nx0. apply nx_good.
    + specialize (LEN ab). unfold f' in LEN |- *.
      repeat first [rewrite set_ptrs_same in * | rewrite set_ptrs_other in * by discriminate].
      rewrite setnth_length in LEN. rewrite nth_setnth_same; auto.
      cbn [plen] in LEN. lia.
    + specialize (LEN arv). unfold f' in LEN |- *.
      repeat first [rewrite set_ptrs_same in * | rewrite set_ptrs_other in * by discriminate].
      rewrite !setnth_length in LEN. rewrite nth_setnth_other by lia.
      rewrite nth_setnth_same; auto. cbn [plen] in LEN. lia.
    + discriminate.
    + intros j Hj. eapply box_step_eq; [apply M3'; auto|]. intros a Ia. cbn [ptrs].
      apply PO. cbn in *; tauto.
    + intros j Hj. eapply box_step_eq; [apply M6'; auto|]. intros a Ia. cbn [ptrs].
      apply PO. cbn in *; tauto.
  - apply orb_false_iff in FL. destruct FL as [FL1 FL2].
    apply negb_false_iff, Z.eqb_eq in FL1. destruct (FC FL2) as (L0 & N1 & N2 & N3).
    cbn [nbu nbx ng s0] in N1, N2, N3.
    exists s3, h3, false. split; auto.
    destruct I as [U|[N' U]]; [destruct U; lia|].
    destruct U as [U1 U2 U3 U4 U5 U6 U7 U8 U9].
    assert (N' = K p) by lia. subst N'.
    constructor; auto.
    + intros a. destruct (in_dec arr_dec a
         [auI; aulb; auub; axI; axlb; axub; adlb; adub; aC; aD]) as [Ia|Ia].
      * destruct M1. rewrite sz_ptrs0 by auto. cbn in Ia. intuition (subst; reflexivity).
      * rewrite M13; auto. destruct a; cbn in *; tauto.
    + rewrite M10. auto.
    + rewrite M11. auto.
    + rewrite M13 by (cbn; tauto). auto.
    + rewrite M13 by (cbn; tauto). auto.
    + intros _. rewrite M12, U9. unfold alloc_dims. rewrite M9, U1, M10, M11, N1, N2, N3. auto.
Qed.

Lemma setup_ok n m p h0 s s1 h1 dc :
  wf n m h0 p -> ready n m p h0 s s1 h1 dc ->
  exists s', setup p s1 h1 = Ok s' /\
    post n m p h0 s
      (if dc then mkSolver (sN s') (ptrs s') (own s') (nbu s') (nbx s') (ng s') (nu s') (nx s')
        (mlbu s') (mubu s') (mlbx s') (mubx s') (mlg s') (mug s') (alloc_dims s') else s') h1.
Proof.
  intros W [R1 R2 R3 R4 R5 R6 R7 R8 R9 R10 R11 R12 R13 R14 R15].
  pose proof (wf_K _ _ _ _ W) as KP.
  unfold setup. rewrite (proj2 (Z.eqb_neq (sN s1) (-1))) by lia.
  destruct (wf_get _ _ _ _ ab 0 W) as (Gb & _); [cbn; lia|].
  destruct (wf_get _ _ _ _ arv 0 W) as (Gr & _); [cbn; lia|].
  rewrite !R15 by (unfold six; notin). rewrite Gb, Gr. cbn [obind].
  rewrite R1, Nat2Z.id.
  destruct (setup_loop_ok p (ptrs s1) (K p)) as (f & E & [F1 F2 F3 F4 F5]); auto.
  rewrite E. cbn [obind]. eexists. split; [reflexivity|].
  match goal with |- post _ _ _ _ _ (if dc then ?a else ?b) _ =>
    set (sA := a); set (sB := b) end.
  assert (LF : forall a, length (f a) = plen a (K p)) by (intros; now rewrite F1).
  assert (PO : forall a, In a [auI; aulb; auub; axI; axlb; axub; adlb; adub; aC; aD] ->
       ptrs sB a = ptrs s1 a).
  { intros a Ia. unfold sB. cbn [ptrs]. rewrite !point_other, F2; auto;
      intros Ex; rewrite <- Ex in Ia; cbn in Ia; intuition discriminate. }
  assert (U : used n m (K p) (if dc then sA else sB)).
  { assert (SZ : sized sB (S (K p))).
    { destruct R2. constructor; auto. intros a Ia. rewrite PO by auto. auto. }
    assert (B0 : nth 0 (ptrs sB ab) Null = Own).
    { unfold sB. cbn [ptrs]. rewrite !point_other by discriminate. rewrite F5 by (cbn; tauto). auto. }
    assert (R0 : nth 0 (ptrs sB arv) Null = Own).
    { unfold sB. cbn [ptrs]. rewrite !point_other by discriminate. rewrite F5 by (cbn; tauto). auto. }
    assert (LL : forall a, length (ptrs sB a) = plen a (K p)).
    { intros a. unfold sB. cbn [ptrs]. now rewrite !point_length. }
    destruct dc.
    - unfold sA. constructor; auto. destruct SZ; constructor; auto.
    - constructor; auto. unfold sB. cbn [dims]. rewrite R8 by auto.
      unfold alloc_dims. cbn [sN nx nu nbx nbu ng]. now rewrite R1. }
  assert (CO : cost_set p h0 (if dc then sA else sB)).
  { assert (X : cost_set p h0 sB).
    { unfold sB. constructor; cbn [ptrs own].
      - intros a j Ia Hj. rewrite !point_stage by lia. now apply F3.
      - intros a Ia. cbn in Ia. destruct Ia as [<-|[<-|[]]].
        + rewrite point_other by discriminate. apply point_same. rewrite LF. cbn; lia.
        + apply point_same. rewrite point_length, LF. cbn; lia.
      - intros a j Ia Hj. rewrite !point_stage by lia. now apply F4.
      - intros a Ia. rewrite !point_stage by lia. rewrite F5 by auto.
        cbn in Ia. destruct Ia as [<-|[<-|[]]]; auto.
      - intros a Ia. cbn in Ia. destruct Ia as [<-|[<-|[]]]; unfold set_own; cbn [arr_eqb]; auto. }
    destruct dc; auto. destruct X; constructor; auto. }
  assert (FU : forall j, j < K p -> box_step p auI aulb auub (nth j (p_nbu p) 0)
     (nth j (resize (S (K p)) 0 (nbu s)) 0) h0 h1 s sB (mlbu s) (mlbu sB) (mubu s) (mubu sB) j).
  { intros j Hj. eapply box_step_eq; [apply R10; auto|]. intros a Ia. apply PO. cbn in *; tauto. }
  assert (FX : forall j, j <= K p -> box_step p axI axlb axub (xcount p j)
     (nth j (resize (S (K p)) 0 (nbx s)) 0) h0 h1 s sB (mlbx s) (mlbx sB) (mubx s) (mubx sB) j).
  { intros j Hj. eapply box_step_eq; [apply R13; auto|]. intros a Ia. apply PO. cbn in *; tauto. }
  assert (FG : forall j, j <= K p -> gen_set p h0 h1 sB j).
  { intros j Hj. eapply gen_set_eq; [apply R14; auto|..]; auto.
    intros a Ia. apply PO. cbn in *; tauto. }
  destruct dc; constructor; auto.
Qed.

(** ** What HPIPM reads after a call *)
Lemma read_0 s h a i : read s h a i 0 = Ok [].
Proof. reflexivity. Qed.

Lemma read_at s h p a i k v :
  nth i (ptrs s a) Null = At (blk p a) i -> get h p a i = Ok v -> k <= length v ->
  read s h a i k = Ok (firstn k v).
Proof.
  intros P G L. destruct k; [reflexivity|]. unfold read. rewrite P.
  unfold get in G. destruct (live h (blk p a)); try discriminate.
  destruct (nth_error b i); try discriminate. injection G as ->.
  apply Nat.leb_le in L. rewrite L. reflexivity.
Qed.

Lemma read_own s h a i k v :
  nth i (ptrs s a) Null = Own -> own s a = v -> k <= length v ->
  read s h a i k = Ok (firstn k v).
Proof.
  intros P G L. destruct k; [reflexivity|]. unfold read. rewrite P, G.
  apply Nat.leb_le in L. rewrite L. reflexivity.
Qed.

Lemma nx_nth N n i : i <= N -> nth i (0 :: repeat n N) 0 = if i =? 0 then 0 else n.
Proof.
  intros H. destruct i; auto. cbn. rewrite nth_indep with (d' := n) by (rewrite repeat_length; lia).
  apply nth_repeat.
Qed.

Lemma nu_nth N m i : i <= N -> nth i (repeat m N ++ [0]) 0 = if i =? N then 0 else m.
Proof.
  intros H. destruct (Nat.eqb_spec i N) as [->|D].
  - rewrite app_nth2; rewrite repeat_length; auto. now rewrite Nat.sub_diag.
  - rewrite app_nth1 by (rewrite repeat_length; lia).
    rewrite nth_indep with (d' := m) by (rewrite repeat_length; lia). apply nth_repeat.
Qed.

Lemma dims_nth n m N s i : used n m N s -> i <= N ->
  nth i (dims s) (mkDim 0 0 0 0 0) =
  mkDim (if i =? 0 then 0 else n) (if i =? N then 0 else m)
        (nth i (nbx s) 0) (nth i (nbu s) 0) (nth i (ng s) 0).
Proof.
  intros U H. rewrite (us_dims _ _ _ _ U). unfold alloc_dims.
  rewrite (us_N _ _ _ _ U), Nat2Z.id.
  set (F := fun i => _).
  rewrite nth_indep with (d' := F 0) by (rewrite map_length, seq_length; lia).
  rewrite map_nth, seq_nth by lia. unfold F. cbn [plus].
  rewrite (us_nx _ _ _ _ U), (us_nu _ _ _ _ U), nx_nth, nu_nth by lia. reflexivity.
Qed.

Definition with_box (st : stage) (bx bu : list (Q * bound * bound)) : stage :=
  mkStage (q_nx st) (q_nu st) (q_A st) (q_B st) (q_b st) (q_Q st) (q_S st) (q_R st)
    (q_q st) (q_r st) bx bu (q_C st) (q_D st) (q_gen st).

(** The reading of a family of box constraints *)
Definition read_box (s : solver) (h : heap) (aI al au : arr) (ml mu : outcome (list bool))
    (i c : nat) : outcome (list (Q * bound * bound)) :=
  do xi <- read s h aI i c ;;
  do xl <- read s h al i c ;;
  do xu <- read s h au i c ;;
  do m1 <- ml ;;
  do m2 <- mu ;;
  Ok (box3 xi (masked xl m1) (masked xu m2)).

Definition ucount (p : problem) (s : solver) (i : nat) : nat :=
  if i =? K p then nth i (nbu s) 0 else nth i (p_nbu p) 0.

Lemma hand_stage_form n m p h0 s s' h i :
  wf n m h0 p -> post n m p h0 s s' h -> i <= K p ->
  hand_stage s' h i =
    do bx <- read_box s' h axI axlb axub (read_mask (mlbx s') i (xcount p i))
               (read_mask (mubx s') i (xcount p i)) i (xcount p i) ;;
    do bu <- read_box s' h auI aulb auub
               (if i =? K p then Ok (repeat true (ucount p s' i))
                else read_mask (mlbu s') i (ucount p s' i))
               (if i =? K p then Ok (repeat true (ucount p s' i))
                else read_mask (mubu s') i (ucount p s' i)) i (ucount p s' i) ;;
    Ok (with_box (lq_stage n m h0 p i) bx bu).
Proof.
  intros W P Hi. pose proof (wf_K _ _ _ _ W) as KP.
  destruct P as [U P1 P2 P3 P4 P5 P6 P7 [C1 C2 C3 C4 C5]].
  unfold hand_stage.
  rewrite (us_N _ _ _ _ U), Nat2Z.id.
  rewrite (dims_nth n m (K p) s' i U Hi). cbn [d_nx d_nu d_nbx d_nbu d_ng].
  assert (EU : nth i (nbu s') 0 = ucount p s' i).
  { unfold ucount. destruct (Nat.eqb_spec i (K p)); auto. apply P1. lia. }
  rewrite EU, P4 by auto.
  destruct (P6 i Hi) as (G1 & G2 & G3 & G4 & G5 & lb' & ub' & L1 & L2 & M1 & M2 & G6).
  rewrite G1.
  (* sizes and contents *)
  assert (WG : forall a, i < asize a (K p) -> ~ In a six ->
     get h p a i = Ok (content h0 p a i) /\ length (content h0 p a i) = width n m p a i).
  { intros a Ha Ia. rewrite P7 by auto. apply wf_get; auto. }
  assert (RA : forall a k, i < asize a (K p) -> ~ In a six ->
     nth i (ptrs s' a) Null = At (blk p a) i -> k = width n m p a i ->
     read s' h a i k = Ok (content h0 p a i)).
  { intros a k Ha Ia Hp ->. destruct (WG a Ha Ia) as (X1 & X2).
    rewrite (read_at s' h p a i _ (content h0 p a i)); auto; [|lia].
    rewrite firstn_all2; auto. lia. }
  (* dynamics *)
  assert (NX1 : i <> K p -> d_nx (nth (S i) (dims s') (mkDim 0 0 0 0 0)) = n).
  { intros D. rewrite (dims_nth n m (K p) s' (S i) U) by lia. reflexivity. }
  assert (A1 : (if i =? K p then Ok [] else
      read s' h aA i (d_nx (nth (S i) (dims s') (mkDim 0 0 0 0 0)) * (if i =? 0 then 0 else n)))
      = Ok (q_A (lq_stage n m h0 p i))).
  { cbn [lq_stage q_A]. destruct (Nat.eqb_spec i (K p)); auto. rewrite NX1 by auto.
    destruct (Nat.eqb_spec i 0).
    - rewrite Nat.mul_0_r. reflexivity.
    - apply RA; [cbn; lia | unfold six; notin | apply C1; [cbn; tauto | lia] | reflexivity]. }
  assert (A2 : (if i =? K p then Ok [] else
      read s' h aB i (d_nx (nth (S i) (dims s') (mkDim 0 0 0 0 0)) * (if i =? K p then 0 else m)))
      = Ok (q_B (lq_stage n m h0 p i))).
  { cbn [lq_stage q_B]. destruct (Nat.eqb_spec i (K p)); auto. rewrite NX1 by auto.
    apply RA; [cbn; lia | unfold six; notin | apply C1; [cbn; tauto | lia] | reflexivity]. }
  assert (A3 : (if i =? K p then Ok [] else
      read s' h ab i (d_nx (nth (S i) (dims s') (mkDim 0 0 0 0 0))))
      = Ok (q_b (lq_stage n m h0 p i))).
  { cbn [lq_stage q_b]. destruct (Nat.eqb_spec i (K p)); auto. rewrite NX1 by auto.
    destruct (Nat.eq_dec i 0) as [->|D].
    - destruct (wf_get _ _ _ _ ab 0 W) as (_ & X2); [cbn; lia|]. cbn [width] in X2.
      rewrite (read_own s' h ab 0 n (content h0 p ab 0)).
      + rewrite firstn_all2; auto. lia.
      + apply C4. cbn; tauto.
      + apply C5. cbn; tauto.
      + lia.
    - apply RA; [cbn; lia | unfold six; notin | apply C3; [cbn; tauto | lia] | reflexivity]. }
  (* cost *)
  assert (A4 : read s' h aQ i ((if i =? 0 then 0 else n) * (if i =? 0 then 0 else n))
      = Ok (q_Q (lq_stage n m h0 p i))).
  { cbn [lq_stage q_Q]. destruct (Nat.eqb_spec i 0); auto.
    apply RA; [cbn; lia | unfold six; notin | | reflexivity].
    destruct (Nat.eq_dec i (K p)) as [->|]; [apply C2; cbn; tauto | apply C1; [cbn; tauto|lia]]. }
  assert (A5 : read s' h aP i ((if i =? K p then 0 else m) * (if i =? 0 then 0 else n))
      = Ok (q_S (lq_stage n m h0 p i))).
  { cbn [lq_stage q_S]. destruct (Nat.eqb_spec i 0); [rewrite Nat.mul_0_r; reflexivity|].
    destruct (Nat.eqb_spec i (K p)); [reflexivity|]. cbn [orb].
    apply RA; [cbn; lia | unfold six; notin | apply C1; [cbn; tauto | lia] | reflexivity]. }
  assert (A6 : read s' h aR i ((if i =? K p then 0 else m) * (if i =? K p then 0 else m))
      = Ok (q_R (lq_stage n m h0 p i))).
  { cbn [lq_stage q_R]. destruct (Nat.eqb_spec i (K p)); [reflexivity|].
    apply RA; [cbn; lia | unfold six; notin | apply C1; [cbn; tauto | lia] | reflexivity]. }
  assert (A7 : read s' h aqv i (if i =? 0 then 0 else n) = Ok (q_q (lq_stage n m h0 p i))).
  { cbn [lq_stage q_q]. destruct (Nat.eqb_spec i 0); auto.
    apply RA; [cbn; lia | unfold six; notin | | reflexivity].
    destruct (Nat.eq_dec i (K p)) as [->|]; [apply C2; cbn; tauto | apply C1; [cbn; tauto|lia]]. }
  assert (A8 : read s' h arv i (if i =? K p then 0 else m) = Ok (q_r (lq_stage n m h0 p i))).
  { cbn [lq_stage q_r]. destruct (Nat.eqb_spec i (K p)); auto.
    destruct (Nat.eq_dec i 0) as [->|D].
    - destruct (wf_get _ _ _ _ arv 0 W) as (_ & X2); [cbn; lia|]. cbn [width] in X2.
      rewrite (read_own s' h arv 0 m (content h0 p arv 0)).
      + rewrite firstn_all2; auto. lia.
      + apply C4. cbn; tauto.
      + apply C5. cbn; tauto.
      + lia.
    - apply RA; [cbn; lia | unfold six; notin | apply C3; [cbn; tauto | lia] | reflexivity]. }
  (* general constraints *)
  assert (A9 : read s' h aC i (nth i (p_ng p) 0 * (if i =? 0 then 0 else n))
      = Ok (q_C (lq_stage n m h0 p i))).
  { cbn [lq_stage q_C]. destruct (Nat.eqb_spec i 0); [rewrite Nat.mul_0_r; reflexivity|].
    apply RA; [cbn; lia | unfold six; notin | auto | reflexivity]. }
  assert (A10 : read s' h aD i (nth i (p_ng p) 0 * (if i =? K p then 0 else m))
      = Ok (q_D (lq_stage n m h0 p i))).
  { cbn [lq_stage q_D]. destruct (Nat.eqb_spec i (K p)); [rewrite Nat.mul_0_r; reflexivity|].
    apply RA; [cbn; lia | unfold six; notin | auto | reflexivity]. }
  destruct (wf_get _ _ _ _ adlb i W) as (_ & Ll); [cbn; lia|].
  destruct (wf_get _ _ _ _ adub i W) as (_ & Lu); [cbn; lia|]. cbn [width] in Ll, Lu.
  assert (A11 : read s' h adlb i (nth i (p_ng p) 0) = Ok lb').
  { destruct G6 as [(_ & X1 & _ & X3 & _)|(X1 & _ & X3 & _)].
    - rewrite (read_own _ _ _ _ _ lb') by (auto; lia). rewrite firstn_all2; auto; lia.
    - rewrite (read_at _ _ p _ _ _ lb') by (auto; lia). rewrite firstn_all2; auto; lia. }
  assert (A12 : read s' h adub i (nth i (p_ng p) 0) = Ok ub').
  { destruct G6 as [(_ & _ & X1 & _ & X3)|(_ & X1 & _ & X3)].
    - rewrite (read_own _ _ _ _ _ ub') by (auto; lia). rewrite firstn_all2; auto; lia.
    - rewrite (read_at _ _ p _ _ _ ub') by (auto; lia). rewrite firstn_all2; auto; lia. }
  assert (A13 : read_mask (mlg s') i (nth i (p_ng p) 0) = Ok (map is_lower (content h0 p adlb i))).
  { unfold read_mask. rewrite G4, map_length, Ll, Nat.leb_refl.
    rewrite firstn_all2; auto. rewrite map_length; lia. }
  assert (A14 : read_mask (mug s') i (nth i (p_ng p) 0) = Ok (map is_upper (content h0 p adub i))).
  { unfold read_mask. rewrite G5, map_length, Lu, Nat.leb_refl.
    rewrite firstn_all2; auto. rewrite map_length; lia. }
  rewrite G4, masked_lower in M1. rewrite G5, masked_upper in M2.
  rewrite A1, A2, A3, A4, A5, A6, A7, A8. cbn [obind].
  unfold read_box.
  destruct (read s' h axI i (xcount p i)); cbn [obind]; auto.
  destruct (read s' h axlb i (xcount p i)); cbn [obind]; auto.
  destruct (read s' h axub i (xcount p i)); cbn [obind]; auto.
  destruct (read_mask (mlbx s') i (xcount p i)); cbn [obind]; auto.
  destruct (read_mask (mubx s') i (xcount p i)); cbn [obind]; auto.
  destruct (read s' h auI i (ucount p s' i)); cbn [obind]; auto.
  destruct (read s' h aulb i (ucount p s' i)); cbn [obind]; auto.
  destruct (read s' h auub i (ucount p s' i)); cbn [obind]; auto.
  destruct (if i =? K p then Ok (repeat true (ucount p s' i))
            else read_mask (mlbu s') i (ucount p s' i)); cbn [obind]; auto.
  destruct (if i =? K p then Ok (repeat true (ucount p s' i))
            else read_mask (mubu s') i (ucount p s' i)); cbn [obind]; auto.
  rewrite A9, A10, A11, A12, A13, A14. cbn [obind]. unfold with_box. do 2 f_equal.
  - cbn [lq_stage q_gen]. now rewrite M1, M2.
Qed.

(** Reading a family of box constraints that follows the problem *)
Lemma read_box_renewed n m p h0 h s aI al au c ml mu i :
  wf n m h0 p -> i < asize aI (K p) -> i < asize al (K p) -> i < asize au (K p) ->
  ~ In aI six ->
  get h p aI i = get h0 p aI i ->
  c <= length (content h0 p aI i) -> c <= length (content h0 p al i) ->
  c <= length (content h0 p au i) ->
  renewed p aI al au c h0 h (ptrs s) ml mu i ->
  read_box s h aI al au (read_mask ml i c) (read_mask mu i c) i c
  = Ok (box_of c (content h0 p aI i) (content h0 p al i) (content h0 p au i)).
Proof.
  intros W I1 I2 I3 NI GI L1 L2 L3 ((P1 & P2 & P3) & E1 & E2 & (lb & G1 & B1 & A1) & (ub & G2 & B2 & A2)).
  destruct (wf_get _ _ _ _ aI i W I1) as (GG & _).
  unfold read_box.
  rewrite (read_at s h p aI i c (content h0 p aI i)) by (auto; congruence).
  rewrite (read_at s h p al i c lb) by (auto; lia).
  rewrite (read_at s h p au i c ub) by (auto; lia). cbn [obind].
  unfold agrees in A1, A2. rewrite E1 in A1. rewrite E2 in A2.
  unfold read_mask. rewrite E1, E2, !map_length, !firstn_length.
  rewrite (Nat.min_l c), (Nat.min_l c) by lia. rewrite Nat.leb_refl. cbn [obind].
  rewrite !(firstn_all2 (map _ _)) by (rewrite map_length, firstn_length; lia).
  rewrite A1, A2, masked_lower, masked_upper. reflexivity.
Qed.

Lemma hand_ok s h (f : nat -> stage) l :
  (forall i, In i l -> hand_stage s h i = Ok (f i)) -> hand s h l = Ok (map f l).
Proof.
  induction l as [|i r IH]; intros H; cbn; auto.
  rewrite H by (left; auto). cbn. rewrite IH by (intros; apply H; right; auto). reflexivity.
Qed.

Lemma hand_inv s h l q : hand s h l = Ok q ->
  length q = length l /\
  forall k i, nth_error l k = Some i -> exists st, nth_error q k = Some st /\ hand_stage s h i = Ok st.
Proof.
  revert q. induction l as [|i r IH]; cbn; intros q H.
  - injection H as <-. split; auto. intros [|k] i; discriminate.
  - destruct (hand_stage s h i) as [st| |] eqn:E; try discriminate. cbn in H.
    destruct (hand s h r) as [rs| |] eqn:E2; try discriminate. injection H as <-.
    destruct (IH rs eq_refl) as (L & Q). split; [cbn; congruence|].
    intros [|k] j Hk; cbn in Hk.
    + injection Hk as <-. exists st. split; [reflexivity | exact E].
    + apply Q; auto.
Qed.

(** One call *)
Lemma set_problem_form n m s h0 p :
  wf n m h0 p -> inv n m s ->
  exists s' h, post n m p h0 s s' h /\
    set_problem n m s h0 p = do q <- hand s' h (seq 0 (S (K p))) ;; Ok (s', h, q).
Proof.
  intros W I. unfold set_problem.
  destruct (change_size_ok n m p s h0 W I) as (s1 & h1 & dc & E1 & R).
  destruct (setup_ok n m p h0 s s1 h1 dc W R) as (s2 & E2 & P).
  rewrite E1. cbn [obind]. rewrite E2. cbn [obind].
  eexists _, _. split; [exact P|].
  pose proof (us_N _ _ _ _ (po_used _ _ _ _ _ _ _ P)) as EN.
  rewrite EN, Nat2Z.id. reflexivity.
Qed.
