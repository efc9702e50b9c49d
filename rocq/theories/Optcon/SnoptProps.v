(** Properties of the interface to SNOPT. *)
From Coq Require Import List Arith ZArith Lia Bool FinFun.
From Verif Require Import Base.Outcome Optcon.SnoptModel.
Import ListNotations.
Local Open Scope nat_scope.

(** * Specification *)
(** Solvers being created and destroyed in any order; each remembers the index it got.  The last number is the largest number of
    solvers that were alive at the same time. *)
Inductive history : pool -> list (nat * nat) -> nat -> Prop :=
| h_start : history [] [] 0
| h_new p L m s : history p L m -> ~ In s (map fst L) -> history (fst (place p s)) ((s, snd (place p s)) :: L) (Nat.max m (S (length L)))
| h_del p L m s : history p L m -> In s (map fst L) -> history (remove p s) (filter (fun e => negb (fst e =? s)) L) m.

(** * The pool *)
Fixpoint used (p : pool) : nat := match p with [] => 0 | Some _ :: p' => S (used p') | None :: p' => used p' end.
Lemma used_le p : used p <= length p.
Proof. induction p as [|[a|] p IH]; cbn; lia. Qed.
Lemma place_spec s : forall p, let (q, i) := place p s in
  nth_error q i = Some (Some s) /\ (forall k, k <> i -> nth_error q k = nth_error p k) /\ (forall a, nth_error p i <> Some (Some a)) /\
  used q = S (used p) /\ length q <= Nat.max (length p) (S (used p)).
Proof.
  induction p as [|[a|] p IH]; cbn.
  - repeat split; try lia. + intros [|k] H; [congruence|destruct k; reflexivity]. + discriminate.
  - destruct (place p s) as [q i]. destruct IH as (H1 & H2 & H3 & H4 & H5). cbn. repeat split; try lia; auto.
    intros [|k] H; [reflexivity|]. cbn. apply H2. congruence.
  - repeat split; try lia. + intros [|k] H; [congruence|reflexivity]. + discriminate.
Qed.
Lemma remove_spec s : forall p i, nth_error p i = Some (Some s) -> (forall j, nth_error p j = Some (Some s) -> j = i) ->
  (forall k, nth_error (remove p s) k = if k =? i then Some None else nth_error p k) /\ length (remove p s) = length p /\ S (used (remove p s)) = used p.
Proof.
  induction p as [|[a|] p IH]; intros i Hi U; [destruct i; discriminate| |].
  - cbn [remove]. destruct (Nat.eqb_spec a s) as [->|N].
    + assert (i = 0) as -> by (symmetry; apply U; reflexivity). split; [intros [|k]; reflexivity|]. split; reflexivity.
    + destruct i as [|i]; [cbn in Hi; congruence|]. destruct (IH i Hi) as (H1 & H2 & H3).
      { intros j Hj. specialize (U (S j) Hj). lia. }
      split; [intros [|k]; [reflexivity|apply H1]|]. cbn. split; lia.
  - cbn [remove]. destruct i as [|i]; [cbn in Hi; congruence|]. destruct (IH i Hi) as (H1 & H2 & H3).
    { intros j Hj. specialize (U (S j) Hj). lia. }
    split; [intros [|k]; [reflexivity|apply H1]|]. cbn. split; lia.
Qed.
Lemma nodup_key (L : list (nat * nat)) s i j : NoDup (map fst L) -> In (s, i) L -> In (s, j) L -> i = j.
Proof.
  induction L as [|[a b] L IH]; intros N Hi Hj; [destruct Hi|]. inversion N as [|? ? Na Nl]; subst.
  destruct Hi as [Hi|Hi]; destruct Hj as [Hj|Hj].
  - congruence.
  - injection Hi as -> ->. exfalso. apply Na. apply in_map_iff. exists (s, j). auto.
  - injection Hj as -> ->. exfalso. apply Na. apply in_map_iff. exists (s, i). auto.
  - auto.
Qed.
Lemma filter_nodup (L : list (nat * nat)) s : NoDup (map fst L) -> NoDup (map fst (filter (fun e => negb (fst e =? s)) L)).
Proof.
  induction L as [|[a b] L IH]; intros N; cbn; [constructor|]. inversion N as [|? ? Na Nl]; subst. destruct (a =? s); cbn; [auto|].
  constructor; [|auto]. intros H. apply Na. apply in_map_iff in H as ([c d] & <- & H). apply filter_In in H as [H _]. apply in_map_iff. exists (c, d). auto.
Qed.
Lemma filter_count (L : list (nat * nat)) s : NoDup (map fst L) -> In s (map fst L) -> S (length (filter (fun e => negb (fst e =? s)) L)) = length L.
Proof.
  induction L as [|[a b] L IH]; intros N H; [destruct H|]. inversion N as [|? ? Na Nl]; subst. cbn [filter fst]. destruct (Nat.eqb_spec a s) as [->|Ne]; cbn [negb].
  - cbn. f_equal. clear IH H N Nl. induction L as [|[c d] L IH]; [reflexivity|]. cbn in *. destruct (Nat.eqb_spec c s) as [->|]; cbn; [exfalso; apply Na; left; reflexivity|].
    f_equal. apply IH. intros H. apply Na. right. exact H.
  - cbn. f_equal. apply IH; [exact Nl|]. destruct H as [H|H]; [cbn in H; congruence|exact H].
Qed.
Lemma history_inv p L m : history p L m -> NoDup (map fst L) /\ (forall s i, nth_error p i = Some (Some s) <-> In (s, i) L) /\
  used p = length L /\ length L <= m /\ length p <= m.
Proof.
  induction 1 as [|p L m s H (I1 & I2 & I3 & I4 & I5) N|p L m s H (I1 & I2 & I3 & I4 & I5) N].
  - split; [constructor|]. split; [|cbn; lia]. intros s i. split; [destruct i; discriminate|intros []].
  - pose proof (place_spec s p) as P. destruct (place p s) as [q i]. destruct P as (P1 & P2 & P3 & P4 & P5). cbn [fst snd map length].
    split; [constructor; assumption|]. split; [|lia]. intros a k. destruct (Nat.eq_dec k i) as [->|Nk].
    + rewrite P1. split.
      * intros E. injection E as ->. left. reflexivity.
      * intros [E|E]; [injection E as ->; reflexivity|]. apply I2 in E. exfalso. exact (P3 a E).
    + rewrite P2 by exact Nk. rewrite I2. split; [right; assumption|]. intros [E|E]; [injection E; intros; congruence|exact E].
  - apply in_map_iff in N as ([s' i] & Es & Hi). cbn in Es. subst s'. pose proof (proj2 (I2 s i) Hi) as Ei.
    destruct (remove_spec s p i Ei) as (R1 & R2 & R3). { intros j Hj. apply I2 in Hj. exact (nodup_key L s j i I1 Hj Hi). }
    pose proof (filter_count L s I1 ltac:(apply in_map_iff; exists (s, i); auto)) as C.
    split; [apply filter_nodup; exact I1|]. split; [|lia]. intros a k. rewrite R1, filter_In. cbn [fst]. destruct (Nat.eqb_spec k i) as [->|Nk].
    + split; [discriminate|]. intros [Ha Hn]. apply negb_true_iff, Nat.eqb_neq in Hn. apply I2 in Ha. congruence.
    + rewrite I2. split; [|intros [Ha _]; exact Ha]. intros Ha. split; [exact Ha|]. apply negb_true_iff, Nat.eqb_neq. intros ->.
      apply Nk. exact (nodup_key L s k i I1 Ha Hi).
Qed.
(** Whatever solvers were created and destroyed before, a callback for a live solver reaches that solver, no callback reaches a
    destroyed one, live solvers have different indices, and the pool is never larger than the largest number of live solvers. *)
Theorem C104_pool p L m : history p L m ->
  (forall s i, In (s, i) L -> lookup p i = Ok s) /\ (forall s i, lookup p i = Ok s -> In (s, i) L) /\ NoDup (map snd L) /\ length p <= m.
Proof.
  intros H. destruct (history_inv p L m H) as (I1 & I2 & I3 & I4 & I5). split; [|split; [|split; [|exact I5]]].
  - intros s i Hi. apply I2 in Hi. unfold lookup. rewrite Hi. reflexivity.
  - intros s i E. apply I2. unfold lookup in E. destruct (nth_error p i) as [[a|]|]; congruence.
  - assert (U : forall s s' i, In (s, i) L -> In (s', i) L -> s = s'). { intros s s' i A B. apply I2 in A. apply I2 in B. congruence. }
    clear - I1 U. induction L as [|[a b] L IH]; cbn; [constructor|]. inversion I1 as [|? ? Na Nl]; subst. constructor.
    + intros Hb. apply in_map_iff in Hb as ([c d] & Ed & Hc). cbn in Ed. subst d. assert (a = c) as -> by (apply (U a c b); [left; reflexivity|right; exact Hc]).
      apply Na. apply in_map_iff. exists (c, b). auto.
    + apply IH; [exact Nl|]. intros s s' i A B. apply (U s s' i); right; assumption.
Qed.
Print Assumptions C104_pool.
Example pool_case : exists p, history p [(7, 0); (5, 1)] 3 /\ p = [Some 7; Some 5; None].
Proof.
  eexists. split; [|reflexivity].
  apply (h_new [None; Some 5; None] [(5, 1)] 3 7); [|cbn; lia].
  apply (h_del [None; Some 5; Some 6] [(6, 2); (5, 1)] 3 6); [|cbn; lia].
  apply (h_del [Some 4; Some 5; Some 6] [(6, 2); (5, 1); (4, 0)] 3 4); [|cbn; lia].
  apply (h_new [Some 4; Some 5] [(5, 1); (4, 0)] 2 6); [|cbn; lia]. apply (h_new [Some 4] [(4, 0)] 1 5); [|cbn; lia].
  apply (h_new [] [] 0 4); [constructor|cbn; lia].
Qed.

Section Problem.
Variables (T : Type) (zero lowest highest : T) (junk : nat -> memory T).
Notation nlp := (nlp T). Notation solver := (solver T).
(** A program whose parts have the sizes its variables and constraints ask for *)
Definition wellFormed (q : nlp) : Prop :=
  let n := length (guess T q) in let m := length (conLower T q) in
  length (xLower T q) = n /\ length (xUpper T q) = n /\ length (xMult T q) = n /\ length (xStates T q) = n /\
  length (conUpper T q) = m /\ length (zMult T q) = m + 1 /\ length (zStates T q) = m + 1 /\ length (jCol T q) = length (iRow T q).
(** Two programs with as many variables, constraints and entries *)
Definition sameSizes (q q' : nlp) : Prop :=
  length (guess T q) = length (guess T q') /\ length (conLower T q) = length (conLower T q') /\ length (iRow T q) = length (iRow T q').

Lemma put_ok {A} k (v : list A) : length v = k -> put k v = Ok v.
Proof. intros <-. unfold put. rewrite Nat.eqb_refl. reflexivity. Qed.
Lemma put_ub {A} k (v : list A) : length v <> k -> put k v = UB.
Proof. intros H. unfold put. destruct (Nat.eqb_spec (length v) k); [contradiction|reflexivity]. Qed.
Lemma handed_shape s0 s q q' : configure T junk s0 q = Ok s -> sameSizes q q' -> wellFormed q' ->
  handed T zero lowest highest s q' = Ok (startOption T s0, mkMemory T (guess T q') (xLower T q') (xUpper T q') (xMult T q') (xStates T q')
    (repeat zero (length (conLower T q') + 1)) (lowest :: conLower T q') (highest :: conUpper T q') (zMult T q') (zStates T q')
    (repeat 0 (length (guess T q')) ++ map (fun i => i + 1) (iRow T q')) (seq 0 (length (guess T q')) ++ jCol T q')).
Proof.
  intros C (S1 & S2 & S3) (W1 & W2 & W3 & W4 & W5 & W6 & W7 & W8).
  assert (E : s = mkSolver T (length (guess T q)) (length (conLower T q) + 1) (length (guess T q) + length (iRow T q)) (Allocated T (junk (arrays T s0))) (startOption T s0) true (arrays T s0 + 15)).
  { unfold configure in C. destruct (block T s0); [discriminate| |]; injection C as <-; reflexivity. }
  subst s. unfold handed. cbn [isInitialized startOption]. unfold fill_memory. cbn [n neF lenG]. unfold getConstraintsCount, getNonZeroJacobianCount.
  rewrite S1, S2, S3. rewrite !put_ok by congruence. cbn [obind]. rewrite !Nat.eqb_refl. cbn [andb obind]. reflexivity.
Qed.
(** What SNOPT is handed after a configuration: the guess, bounds, multipliers and states of the program, one row per constraint
    after a row for the objective, which is unbounded. *)
Theorem C104_handed s0 s q q' : configure T junk s0 q = Ok s -> sameSizes q q' -> wellFormed q' ->
  exists m, handed T zero lowest highest s q' = Ok (startOption T s0, m) /\
  x T m = guess T q' /\ xlow T m = xLower T q' /\ xupp T m = xUpper T q' /\ xmul T m = xMult T q' /\ xstate T m = xStates T q' /\
  nth_error (Flow T m) 0 = Some lowest /\ nth_error (Fupp T m) 0 = Some highest /\
  (forall i, nth_error (Flow T m) (S i) = nth_error (conLower T q') i /\ nth_error (Fupp T m) (S i) = nth_error (conUpper T q') i) /\
  length (F T m) = S (length (conLower T q')) /\ Fmul T m = zMult T q' /\ Fstate T m = zStates T q' /\
  length (iGfun T m) = length (guess T q') + length (iRow T q') /\ length (jGvar T m) = length (iGfun T m).
Proof.
  intros C S W. rewrite (handed_shape s0 s q q' C S W). destruct W as (W1 & W2 & W3 & W4 & W5 & W6 & W7 & W8).
  eexists. split; [reflexivity|]. cbn [x xlow xupp xmul xstate F Flow Fupp Fmul Fstate iGfun jGvar].
  repeat (split; [reflexivity|]). split; [intros i; split; reflexivity|]. rewrite !app_length, !repeat_length, map_length, seq_length, W8. repeat split; lia.
Qed.
Print Assumptions C104_handed.
(** Without a configuration solve throws; with a program of another size the mapped assignments are undefined. *)
Theorem C104_unready q : handed T zero lowest highest (newSolver T) q = Throw /\
  forall s0 s q0, configure T junk s0 q0 = Ok s -> length (guess T q) <> length (guess T q0) \/
    (wellFormed q /\ (length (conLower T q) <> length (conLower T q0) \/ length (iRow T q) <> length (iRow T q0))) -> handed T zero lowest highest s q = UB.
Proof.
  split; [reflexivity|]. intros s0 s q0 C H.
  assert (E : s = mkSolver T (length (guess T q0)) (length (conLower T q0) + 1) (length (guess T q0) + length (iRow T q0)) (Allocated T (junk (arrays T s0))) (startOption T s0) true (arrays T s0 + 15)).
  { unfold configure in C. destruct (block T s0); [discriminate| |]; injection C as <-; reflexivity. }
  subst s. unfold handed. cbn [isInitialized]. unfold fill_memory. cbn [n neF lenG]. unfold getConstraintsCount, getNonZeroJacobianCount.
  destruct (Nat.eq_dec (length (guess T q)) (length (guess T q0))) as [Eg|Ng]; [|rewrite (put_ub _ (guess T q)) by exact Ng; reflexivity].
  destruct H as [H|[(W1 & W2 & W3 & W4 & W5 & W6 & W7 & W8) H]]; [contradiction|]. rewrite (put_ok _ (guess T q)), (put_ok _ (xLower T q)), (put_ok _ (xUpper T q)), (put_ok _ (xMult T q)), (put_ok _ (xStates T q)), (put_ok _ (conLower T q)), (put_ok _ (conUpper T q)) by congruence.
  cbn [obind]. destruct (Nat.eq_dec (length (conLower T q)) (length (conLower T q0))) as [Ec|Nc]; [|rewrite (put_ub _ (zMult T q)) by lia; reflexivity].
  destruct H as [H|H]; [contradiction|]. rewrite (put_ok _ (zMult T q)), (put_ok _ (zStates T q)), (put_ok _ (iRow T q)), (put_ok _ (jCol T q)) by congruence. cbn [obind].
  rewrite Ec, Nat.eqb_refl. cbn [andb]. destruct (Nat.eqb_spec (length (guess T q0) + length (iRow T q)) (length (guess T q0) + length (iRow T q0))) as [B|B]; [lia|reflexivity].
Qed.
Print Assumptions C104_unready.

(** * Derivatives *)
(** Derivatives [D row var] of the objective (row 0) and of the constraints (row 1, 2, ...) at a point, as the program's own
    routines give them. *)
Definition derivatives (q : nlp) (pt : list T) (D : nat -> nat -> T) : Prop :=
  gradient T q pt = map (D 0) (seq 0 (length (guess T q))) /\
  length (jacobian T q pt) = length (iRow T q) /\
  forall k r c, nth_error (iRow T q) k = Some r -> nth_error (jCol T q) k = Some c -> nth_error (jacobian T q pt) k = Some (D (S r) c).
Lemma combine_app {A B} (a a' : list A) (b b' : list B) : length a = length b -> combine (a ++ a') (b ++ b') = combine a b ++ combine a' b'.
Proof. revert b. induction a as [|u a IH]; intros [|v b] H; try discriminate; [reflexivity|]. cbn. f_equal. apply IH. cbn in H. lia. Qed.
Lemma in_objective k m r c : In (r, c) (combine (repeat 0 k) (seq m k)) -> r = 0.
Proof. intros H. apply in_combine_l in H. apply repeat_spec in H. exact H. Qed.
Lemma nodup_objective k : forall m, NoDup (combine (repeat 0 k) (seq m k)).
Proof.
  induction k as [|k IH]; intros m; cbn; [constructor|]. constructor; [|apply IH]. intros H. apply in_combine_r in H. apply in_seq in H. lia.
Qed.
Lemma combine_shift (a b : list nat) : combine (map (fun i => i + 1) a) b = map (fun e => (fst e + 1, snd e)) (combine a b).
Proof. revert b. induction a as [|u a IH]; intros [|v b]; try reflexivity. cbn. f_equal. apply IH. Qed.
Lemma nodup_app {A} (a b : list A) : NoDup a -> NoDup b -> (forall e, In e a -> In e b -> False) -> NoDup (a ++ b).
Proof.
  induction a as [|u a IH]; intros Na Nb H; [exact Nb|]. inversion Na as [|? ? Nu Na']; subst. cbn. constructor.
  - rewrite in_app_iff. intros [Hu|Hu]; [contradiction|]. apply (H u); [left; reflexivity|exact Hu].
  - apply IH; [exact Na'|exact Nb|]. intros e Ha Hb. apply (H e); [right; exact Ha|exact Hb].
Qed.
(** Every value SNOPT is given belongs to its row, and every derivative to its row and variable; no pair of a row and a variable is
    declared twice if the pattern of the program does not. *)
Theorem C104_derivatives s0 s q st m pt D oldF oldG : configure T junk s0 q = Ok s -> wellFormed q -> handed T zero lowest highest s q = Ok (st, m) ->
  derivatives q pt D ->
  let (Fv, Gv) := callback T q pt true true oldF oldG in
  nth_error Fv 0 = Some (cost T q pt) /\ (forall i, nth_error Fv (S i) = nth_error (constraints T q pt) i) /\
  length Gv = length (iGfun T m) /\
  (forall k r c, nth_error (iGfun T m) k = Some r -> nth_error (jGvar T m) k = Some c -> nth_error Gv k = Some (D r c)) /\
  (forall c, c < length (guess T q) -> In (0, c) (combine (iGfun T m) (jGvar T m))) /\
  (forall r c, In (S r, c) (combine (iGfun T m) (jGvar T m)) <-> In (r, c) (combine (iRow T q) (jCol T q))) /\
  (NoDup (combine (iRow T q) (jCol T q)) -> NoDup (combine (iGfun T m) (jGvar T m))).
Proof.
  intros C W H (D1 & D2 & D3). rewrite (handed_shape s0 s q q C) in H; [|repeat split|exact W]. injection H as <- <-. cbn [iGfun jGvar].
  destruct W as (W1 & W2 & W3 & W4 & W5 & W6 & W7 & W8). set (g := length (guess T q)) in *. cbn [callback]. rewrite D1.
  assert (Lc : combine (repeat 0 g ++ map (fun i => i + 1) (iRow T q)) (seq 0 g ++ jCol T q) = combine (repeat 0 g) (seq 0 g) ++ map (fun e => (fst e + 1, snd e)) (combine (iRow T q) (jCol T q))).
  { rewrite combine_app by (rewrite repeat_length, seq_length; reflexivity). rewrite combine_shift. reflexivity. }
  split; [reflexivity|]. split; [reflexivity|]. split. { rewrite !app_length, !map_length, seq_length, repeat_length, D2. reflexivity. }
  split; [|split; [|split]].
  - intros k r c Hr Hc. destruct (Nat.lt_ge_cases k g) as [L|L].
    + rewrite nth_error_app1 in Hr by (rewrite repeat_length; exact L). rewrite nth_error_app1 in Hc by (rewrite seq_length; exact L).
      rewrite nth_error_app1 by (rewrite map_length, seq_length; exact L). apply nth_error_In in Hr. apply repeat_spec in Hr. subst r.
      apply map_nth_error. exact Hc.
    + rewrite nth_error_app2 in Hr by (rewrite repeat_length; exact L). rewrite nth_error_app2 in Hc by (rewrite seq_length; exact L).
      rewrite nth_error_app2 by (rewrite map_length, seq_length; exact L). rewrite repeat_length in Hr. rewrite seq_length in Hc. rewrite map_length, seq_length.
      rewrite nth_error_map in Hr. destruct (nth_error (iRow T q) (k - g)) as [r0|] eqn:E; cbn in Hr; [|discriminate]. injection Hr as <-. rewrite Nat.add_1_r.
      apply D3; assumption.
  - intros c Hc. rewrite Lc. apply in_or_app. left. 
    clear - Hc. assert (G : forall k m c, m <= c < m + k -> In (0, c) (combine (repeat 0 k) (seq m k))).
    { induction k as [|k IH]; intros m c' Hm; [lia|]. cbn. destruct (Nat.eq_dec m c') as [->|N]; [left; reflexivity|right; apply IH; lia]. }
    apply G. lia.
  - intros r c. rewrite Lc, in_app_iff. split.
    + intros [H|H]; [apply in_objective in H; discriminate|]. apply in_map_iff in H as ([a b] & E & H). cbn in E. injection E as E <-.
      replace r with a by lia. exact H.
    + intros H. right. apply in_map_iff. exists (r, c). split; [cbn; f_equal; lia|exact H].
  - intros N. rewrite Lc. apply nodup_app.
    + apply nodup_objective.
    + apply FinFun.Injective_map_NoDup; [|exact N]. intros [a b] [a' b'] E. cbn in E. injection E as E1 E2. f_equal; [lia|exact E2].
    + intros [r c] H1 H2. apply in_objective in H1. apply in_map_iff in H2 as ([a b] & E & _). cbn in E. injection E as E _. lia.
Qed.
Print Assumptions C104_derivatives.
(** A callback that asks for nothing changes nothing. *)
Theorem C104_unasked q pt oldF oldG : callback T q pt false false oldF oldG = (oldF, oldG) /\
  fst (callback T q pt false true oldF oldG) = oldF /\ snd (callback T q pt true false oldF oldG) = oldG.
Proof. repeat split. Qed.
Print Assumptions C104_unasked.

(** * Results *)
(** The solution and the multipliers are taken over for the statuses "optimality conditions satisfied" (1) and the two limits on the
    iterations (31, 32), for no other; bounds, pattern and guess stay. *)
Theorem C104_stored q status m : let q' := fst (finish T q status m) in
  ((status = 1 \/ status = 31 \/ status = 32)%Z -> solution T q' = x T m /\ xMult T q' = xmul T m /\ xStates T q' = xstate T m /\
     zMult T q' = Fmul T m /\ zStates T q' = Fstate T m) /\
  (~ (status = 1 \/ status = 31 \/ status = 32)%Z -> q' = q) /\
  guess T q' = guess T q /\ xLower T q' = xLower T q /\ xUpper T q' = xUpper T q /\ conLower T q' = conLower T q /\ conUpper T q' = conUpper T q /\
  iRow T q' = iRow T q /\ jCol T q' = jCol T q.
Proof.
  unfold finish, accepted. cbn [fst]. destruct (Z.eqb_spec status 1) as [E1|E1], (Z.eqb_spec status 31) as [E2|E2], (Z.eqb_spec status 32) as [E3|E3]; cbn [orb];
    repeat split; intros; try tauto.
Qed.
Print Assumptions C104_stored.
(** solve reports success for every status: for the status 13 (infeasible) the program is unchanged and the result is true. *)
Theorem C104_success_refuted q m : ~ forall status, snd (finish T q status m) = true -> (status = 1 \/ status = 31 \/ status = 32)%Z.
Proof. intros H. specialize (H 13%Z eq_refl). lia. Qed.
Print Assumptions C104_success_refuted.
(** Every configuration after the first leaves the earlier arrays allocated forever. *)
Fixpoint configureAll (s : solver) (qs : list nlp) : outcome solver :=
  match qs with [] => Ok s | q :: qs' => do s' <- configure T junk s q ;; configureAll s' qs' end.
Lemma configureAll_arrays qs : forall s, block T s <> Indeterminate T -> exists s', configureAll s qs = Ok s' /\ arrays T s' = arrays T s + 15 * length qs /\
  block T s' <> Indeterminate T /\ (qs <> [] -> exists m, block T s' = Allocated T m).
Proof.
  induction qs as [|q qs IH]; intros s B; cbn [configureAll length].
  - exists s. repeat split; [lia|exact B|congruence].
  - assert (E : exists s1, configure T junk s q = Ok s1 /\ arrays T s1 = arrays T s + 15 /\ block T s1 = Allocated T (junk (arrays T s))).
    { unfold configure. destruct (block T s); [congruence| |]; eexists; repeat split. }
    destruct E as (s1 & E1 & E2 & E3). rewrite E1. cbn [obind]. destruct (IH s1) as (s' & I1 & I2 & I3 & I4); [rewrite E3; discriminate|].
    exists s'. split; [exact I1|]. split; [lia|]. split; [exact I3|]. intros _. destruct qs as [|q' qs]; [|apply I4; discriminate].
    cbn in I1. injection I1 as <-. eexists. exact E3.
Qed.
Theorem C104_leak_refuted qs q : exists s, configureAll (newSolver T) (q :: qs) = Ok s /\ destroy T s = Ok (15 * length qs).
Proof.
  destruct (configureAll_arrays (q :: qs) (newSolver T)) as (s & H1 & H2 & H3 & H4); [discriminate|]. exists s. split; [exact H1|].
  destruct (H4 ltac:(discriminate)) as (m & Hm). unfold destroy. rewrite Hm, H2. cbn [length newSolver arrays]. f_equal. lia.
Qed.
Print Assumptions C104_leak_refuted.
(** A solver made by the default constructor holds an indeterminate pointer: destroying, configuring or warm starting it is undefined. *)
Theorem C104_default_refuted : destroy T (defaultSolver T) = UB /\ (forall q, configure T junk (defaultSolver T) q = UB) /\ prepareWarmStart T (defaultSolver T) = UB.
Proof. repeat split. Qed.
Print Assumptions C104_default_refuted.
(** After a successful solve, a warm start hands over the multipliers and states of that solve, but starts at the old guess; the
    states that prepareWarmStart writes reach SNOPT never. *)
Theorem C104_warm_refuted s0 s s' q status m : configure T junk s0 q = Ok s -> wellFormed q -> (status = 1 \/ status = 31 \/ status = 32)%Z ->
  length (x T m) = length (guess T q) -> length (xmul T m) = length (guess T q) -> length (xstate T m) = length (guess T q) ->
  length (Fmul T m) = length (conLower T q) + 1 -> length (Fstate T m) = length (conLower T q) + 1 -> prepareWarmStart T s = Ok s' ->
  exists m', handed T zero lowest highest s' (fst (finish T q status m)) = Ok (Warm, m') /\
  x T m' = guess T q /\ xmul T m' = xmul T m /\ xstate T m' = xstate T m /\ Fmul T m' = Fmul T m /\ Fstate T m' = Fstate T m.
Proof.
  intros C W S L1 L2 L3 L4 L5 P. assert (A : accepted status = true).
  { unfold accepted. destruct S as [ -> | [ -> | -> ] ]; reflexivity. }
  unfold finish. rewrite A. cbn [fst]. destruct W as (W1 & W2 & W3 & W4 & W5 & W6 & W7 & W8).
  assert (W' : wellFormed (store T q m)) by (unfold wellFormed, store; cbn; repeat split; assumption).
  set (s1 := mkSolver T 0 0 0 (Unallocated T) Warm true 0).
  assert (Hs : exists s2, configure T junk s1 q = Ok s2) by (eexists; reflexivity). destruct Hs as (s2 & Hs).
  assert (E : handed T zero lowest highest s' (store T q m) = handed T zero lowest highest s2 (store T q m)).
  { unfold configure in C, Hs. cbn [block s1] in Hs. injection Hs as <-. destruct (block T s0); [discriminate| |]; injection C as <-; cbn in P; injection P as <-; reflexivity. }
  rewrite E, (handed_shape s1 s2 q (store T q m) Hs); [|repeat split|exact W']. eexists. split; [reflexivity|]. cbn. repeat split.
Qed.
Print Assumptions C104_warm_refuted.
End Problem.

(** Two variables, one constraint: minimise 3 a + 5 b subject to 2 <= 7 b. *)
Definition smallNlp : nlp Z := mkNlp Z [1; 2]%Z [0; 0]%Z [-9; -9]%Z [9; 9]%Z [0; 0]%Z [0; 0]%Z [2]%Z [8]%Z [0; 0]%Z [0; 0]%Z [0] [1]
  (fun v => 3 * nth 0 v 0 + 5 * nth 1 v 0)%Z (fun _ => [3; 5]%Z) (fun v => [7 * nth 1 v 0]%Z) (fun _ => [7]%Z).
Definition noMemory : memory Z := mkMemory Z [] [] [] [] [] [] [] [] [] [] [] [].
Example small_case : wellFormed Z smallNlp /\ derivatives Z smallNlp [1; 2]%Z (fun r c => match r, c with O, O => 3%Z | O, _ => 5%Z | _, O => 0%Z | _, _ => 7%Z end) /\
  exists s, configure Z (fun _ => noMemory) (newSolver Z) smallNlp = Ok s /\
  exists m, handed Z 0%Z (-1000)%Z 1000%Z s smallNlp = Ok (Cold, m) /\ iGfun Z m = [0; 0; 1] /\ jGvar Z m = [0; 1; 1] /\ Flow Z m = [-1000; 2]%Z /\
  callback Z smallNlp [1; 2]%Z true true [] [] = ([13; 14]%Z, [3; 5; 7]%Z) /\
  exists s', prepareWarmStart Z s = Ok s'.
Proof.
  split; [repeat split|]. split.
  - split; [reflexivity|]. split; [reflexivity|]. intros [|[|k]] r c Hr Hc; cbn in *; try discriminate. injection Hr as <-. injection Hc as <-. reflexivity.
  - eexists. split; [reflexivity|]. eexists. split; [reflexivity|]. repeat (split; [reflexivity|]). eexists. reflexivity.
Qed.
