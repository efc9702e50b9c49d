From Coq Require Import List QArith Qabs Bool Arith Lia Lqa.
From Verif.Optcon Require Import LsModel LsSpec.
Import ListNotations.

Section Ls.
Variables T Df : Type.

Lemma Qle_bool_false a b : Qle_bool a b = false <-> b < a.
Proof.
  split; intros H.
  - apply Qnot_le_lt. intros Hle. apply Qle_bool_iff in Hle. congruence.
  - destruct (Qle_bool a b) eqn:E; [|reflexivity]. apply Qle_bool_iff in E. exfalso; lra.
Qed.

Lemma merit_spec c (o : trial T Df) :
  match merit c o with Some m => has_merit T Df c o m | None => forall m, ~ has_merit T Df c o m end.
Proof.
  unfold merit, has_merit.
  destruct (o_int o) as [i|], (o_fin o) as [f|], (o_def o) as [d|], (o_box o) as [b|], (o_gen o) as [g|]; cbn [nadd nmul];
    try (intros m (?&?&?&?&?&?&?&?&?&?&?); discriminate).
  exists i, f, d, b, g. repeat split.
Qed.
Lemma has_merit_unique c (o : trial T Df) m m' : has_merit T Df c o m -> has_merit T Df c o m' -> m == m'.
Proof.
  intros (i&f&d&b&g&A1&A2&A3&A4&A5&A) (i'&f'&d'&b'&g'&B1&B2&B3&B4&B5&B).
  rewrite A1 in B1; injection B1 as <-. rewrite A2 in B2; injection B2 as <-. rewrite A3 in B3; injection B3 as <-.
  rewrite A4 in B4; injection B4 as <-. rewrite A5 in B5; injection B5 as <-. lra.
Qed.

Lemma acceptStep_ok c d1 d2 alpha (o : trial T Df) lowest :
  acceptStep c d1 d2 alpha o lowest = true <-> acceptable T Df c d1 d2 alpha o lowest.
Proof.
  unfold acceptStep, acceptable. pose proof (merit_spec c o) as Hm. destruct (merit c o) as [m|] eqn:E.
  2:{ split.
      - destruct (ls_kind c); cbn [isnan negb]; [rewrite andb_false_r|]; discriminate.
      - intros (m & l & H & _). now apply Hm in H. }
  destruct (ls_kind c) eqn:Ek; cbn [isnan negb].
  - rewrite andb_true_r. destruct lowest as [l|]; cbn [nsub nltb].
    + rewrite negb_true_iff, Qle_bool_false. split.
      * intros H. exists m, l. repeat split; auto. lra.
      * intros (m' & l' & H1 & H2 & H3). injection H2 as <-. pose proof (has_merit_unique _ _ _ _ Hm H1). lra.
    + split; [discriminate|]. intros (m' & l' & _ & H & _). discriminate.
  - destruct lowest as [l|]; cbn [nsub].
    2:{ split.
        - unfold nleb. destruct (nmul _ _); discriminate.
        - intros (m' & l' & _ & H & _). discriminate. }
    destruct d1 as [D1|], d2 as [D2|]; cbn [nmul nadd nleb andb];
      try (split; [discriminate|intros (m' & l' & _ & _ & _ & D1' & D2' & ? & ? & _); discriminate]).
    rewrite andb_true_iff, !Qle_bool_iff. split.
    + intros [H1 H2]. exists m, l. repeat split; auto; [lra|]. exists D1, D2. repeat split. exact H1.
    + intros (m' & l' & H1 & H2 & H3 & D1' & D2' & E1 & E2 & H4). injection H2 as <-. injection E1 as <-. injection E2 as <-.
      pose proof (has_merit_unique _ _ _ _ Hm H1) as Hq. split; [|lra]. rewrite Hq. exact H4.
Qed.

Lemma search_spec c d1 d2 eval n : forall alpha b alpha' b',
  search c d1 d2 eval n alpha b = (alpha', b') ->
  (exists i, (i < n)%nat /\ alpha' = step_size alpha (ls_n c) i /\
     acceptable T Df c d1 d2 alpha' (eval alpha') (b_lowest b) /\
     taken_over T Df (eval alpha') b' /\ (exists m, b_lowest b' = Some m /\ has_merit T Df c (eval alpha') m) /\
     forall j, (j < i)%nat -> ~ acceptable T Df c d1 d2 (step_size alpha (ls_n c) j) (eval (step_size alpha (ls_n c) j)) (b_lowest b))
  \/ (alpha' = 0 /\ b' = b /\
     forall j, (j < n)%nat -> ~ acceptable T Df c d1 d2 (step_size alpha (ls_n c) j) (eval (step_size alpha (ls_n c) j)) (b_lowest b)).
Proof.
  assert (Hshift : forall a q i, step_size (a * q) q i = step_size a q (S i)).
  { intros a q i. induction i as [|i IH]; [reflexivity|]. cbn [step_size] in *. now rewrite IH. }
  induction n as [|n IH]; intros alpha b alpha' b' H; cbn [search] in H.
  - injection H as <- <-. right. repeat split. intros; lia.
  - destruct (acceptStep c d1 d2 alpha (eval alpha) (b_lowest b)) eqn:E.
    + injection H as <- <-. left. exists 0%nat. apply acceptStep_ok in E as HA. repeat split; auto; try lia.
      cbn. destruct HA as (m & l & Hm & _). pose proof (merit_spec c (eval alpha)) as Hs.
      destruct (merit c (eval alpha)) as [m'|]; [exists m'; auto|]. now apply Hs in Hm.
    + assert (HN : ~ acceptable T Df c d1 d2 alpha (eval alpha) (b_lowest b)) by (rewrite <- acceptStep_ok; congruence).
      apply IH in H. destruct H as [(i & Hi & Ha & H1 & H2 & H3 & H4)|(H1 & H2 & H3)].
      * left. exists (S i). split; [lia|]. rewrite <- Hshift. repeat split; auto; try apply H2.
        intros [|j] Hj; [exact HN|]. rewrite <- Hshift. apply H4. lia.
      * right. repeat split; auto. intros [|j] Hj; [exact HN|]. rewrite <- Hshift. apply H3. lia.
Qed.

Lemma step_size_pos a q i : 0 < a -> 0 < q -> 0 < step_size a q i.
Proof. intros Ha Hq. induction i; cbn; [exact Ha|]. now apply Qmult_lt_0_compat. Qed.
End Ls.

(** *** The multi-threaded search *)
Section Mp.
Variable acc : nat -> bool.
Variable max : nat.

Lemma nth_lupd {A} (l : list A) i j v d : nth j (lupd l i v) d = if (j =? i) && (j <? length l) then v else nth j l d.
Proof.
  revert i j. induction l as [|a l IH]; intros [|i] [|j]; cbn; try reflexivity; try now rewrite ?andb_false_r.
  now rewrite IH.
Qed.
Lemma length_lupd {A} (l : list A) i v : length (lupd l i v) = length l.
Proof. revert i. induction l; intros [|i]; cbn; auto. Qed.
Lemma In_lupd {A} (l : list A) i v x : In x (lupd l i v) -> x = v \/ exists j, j <> i /\ nth_error l j = Some x.
Proof.
  revert i. induction l as [|a l IH]; intros [|i]; cbn; try tauto.
  - intros [->|H]; auto. apply In_nth_error in H. destruct H as [j H]. right. now exists (S j).
  - intros [->|H].
    + right. now exists 0%nat.
    + apply IH in H. destruct H as [->|(j & Hj & H)]; auto. right. exists (S j). split; [lia|auto].
Qed.
Lemma In_lupd_same {A} (l : list A) i v a : nth_error l i = Some a -> In v (lupd l i v).
Proof. revert i. induction l as [|b l IH]; intros [|i]; cbn; try discriminate; eauto. Qed.
Lemma In_lupd_other {A} (l : list A) i j v x : nth_error l j = Some x -> j <> i -> In x (lupd l i v).
Proof.
  revert i j. induction l as [|b l IH]; intros [|i] [|j]; cbn; try discriminate; try tauto; try lia.
  - intros H _. right. eapply nth_error_In; eauto.
  - intros H _. injection H as ->. auto.
  - intros H Hn. right. apply (IH i j); auto.
Qed.
Lemma all_before_ok best p : (best <= length p)%nat -> (all_before best p = true <-> forall e, (e < best)%nat -> nth e p false = true).
Proof.
  unfold all_before. revert p. induction best as [|b IH]; intros p Hl; cbn [firstn forallb].
  - split; intros; [lia|reflexivity].
  - destruct p as [|a p]; cbn in Hl; [lia|]. cbn [firstn forallb]. rewrite andb_true_iff, IH by lia. split.
    + intros [Ha H] [|e] He; cbn; [exact Ha|]. apply H. lia.
    + intros H. split; [apply (H 0%nat); lia|]. intros e He. apply (H (S e)). lia.
Qed.

(** Which exponent a worker is busy with. *)
Definition holds (w : lwpc) (e : nat) : Prop :=
  match w with LHave e' | LExec e' | LCommit e' _ => e' = e | _ => False end.
Definition wok (s : lst) (w : lwpc) : Prop :=
  match w with
  | LHave e => (e < l_taken s)%nat
  | LExec e => (e < max)%nat /\ (e < l_taken s)%nat
  | LCommit e v => (e < max)%nat /\ (e < l_taken s)%nat /\ (v = acc e \/ l_found s = true)
  | LOut => l_found s = true \/ (max < l_taken s)%nat
  | _ => True
  end.

Record inv (s : lst) : Prop := {
  i_len : length (l_processed s) = max;
  i_res : (l_best s = max /\ l_result s = None) \/ ((l_best s < max)%nat /\ acc (l_best s) = true /\ l_result s = Some (l_best s));
  i_none : l_best s = max -> (forall e, nth e (l_processed s) false = true -> acc e = false) /\
                             (l_found s = true -> forall e, (e < max)%nat -> acc e = false);
  i_work : forall w, In w (l_workers s) -> wok s w;
  i_done : l_main s = LDone -> l_found s = true;
  i_all : l_found s = false -> forall e, (e < l_taken s)%nat -> (e < max)%nat -> nth e (l_processed s) false = true \/ exists w, In w (l_workers s) /\ holds w e;
  i_open : l_found s = false -> max = 0%nat \/ exists e, (e < l_best s)%nat /\ nth e (l_processed s) false = false;
  i_first : (0 < max)%nat -> acc 0%nat = true -> (nth 0 (l_processed s) false = true -> l_found s = true) /\ (l_found s = true -> l_best s = 0%nat)
}.

Lemma inv_post n : inv (lpost max n).
Proof.
  assert (Hn : forall e, nth e (repeat false max) false = false).
  { intros e. destruct (Nat.lt_ge_cases e max).
    - apply nth_repeat.
    - apply nth_overflow. now rewrite repeat_length. }
  split; cbn.
  - apply repeat_length.
  - auto.
  - intros _. split; [intros e; rewrite Hn|]; discriminate.
  - intros w Hw. apply repeat_spec in Hw. subst w. exact I.
  - discriminate.
  - intros; lia.
  - intros _. destruct max as [|m] eqn:E; auto. right. exists 0%nat. split; [lia|]. apply nth_repeat.
  - intros _ _. rewrite Hn. split; discriminate.
Qed.

Lemma firstn_all_before_0 p : all_before 0 p = true.
Proof. reflexivity. Qed.

Lemma wok_mono s s' w : wok s w -> (l_found s = true -> l_found s' = true) -> (l_taken s <= l_taken s')%nat -> wok s' w.
Proof.
  intros H Hf Ht. destruct w; cbn in *; auto; try lia.
  - destruct H as (H1 & H2 & [H3|H3]); repeat split; auto; lia.
  - destruct H; auto. right. lia.
Qed.

Lemma inv_worker i v s s' : inv s -> lworker acc max i v s = Some s' -> inv s'.
Proof.
  intros [L R N W D A O F] H. unfold lworker in H.
  destruct (nth_error (l_workers s) i) as [w|] eqn:Ew; [|discriminate].
  pose proof (W w (nth_error_In _ _ Ew)) as Hw.
  assert (Hother : forall s' x, (l_found s = true -> l_found s' = true) -> (l_taken s <= l_taken s')%nat ->
     wok s' x -> forall y, In y (lupd (l_workers s) i x) -> wok s' y).
  { intros t x Hf Ht Hx y Hy. apply In_lupd in Hy. destruct Hy as [->|(j & _ & Hj)]; auto.
    apply nth_error_In in Hj. eapply wok_mono; eauto. }
  assert (Hhold : forall x e, (holds w e -> holds x e) ->
     (exists y, In y (l_workers s) /\ holds y e) -> exists y, In y (lupd (l_workers s) i x) /\ holds y e).
  { intros x e Hx (y & Hy & He). apply In_nth_error in Hy. destruct Hy as [j Hj].
    destruct (Nat.eq_dec j i) as [->|Hne].
    - exists x. split; [eapply In_lupd_same; eauto|]. apply Hx. congruence.
    - exists y. split; auto. eapply In_lupd_other; eauto. }
  destruct w as [| |e|e|e vv|]; try discriminate; injection H as <-.
  - split; cbn; auto.
    + apply Hother; cbn; auto.
    + intros Hf e He Hm. destruct (A Hf e He Hm) as [|Hx]; [now left|right]. apply Hhold; auto.
  - split; cbn; auto.
    + apply Hother; cbn; auto.
    + intros Hf e He Hm. destruct (Nat.eq_dec e (l_taken s)) as [->|Hne].
      * right. exists (LHave (l_taken s)). split; [eapply In_lupd_same; eauto|reflexivity].
      * destruct (A Hf e ltac:(lia) Hm) as [|Hx]; [now left|right]. apply Hhold; [intros []|exact Hx].
  - split; cbn; auto.
    + apply Hother; cbn; auto. cbn in Hw. destruct (Nat.leb_spec max e); cbn.
      * right. lia.
      * destruct (l_found s) eqn:Ef; cbn; auto.
    + intros Hf e' He Hm. destruct (A Hf e' He Hm) as [|Hx]; [now left|right]. apply Hhold; auto.
      rewrite Hf, orb_false_r. cbn. intros ->. destruct (Nat.leb_spec max e'); [lia|reflexivity].
  - split; cbn; auto.
    + apply Hother; cbn; auto. cbn in Hw. repeat split; try lia. destruct (l_found s); auto.
    + intros Hf e' He Hm. destruct (A Hf e' He Hm) as [|Hx]; [now left|right]. apply Hhold; auto.
  - cbn in Hw. destruct Hw as (He & Het & Hv). unfold commit. destruct (vv && l_found s) eqn:Evf.
    + apply andb_true_iff in Evf. destruct Evf as [-> Ef]. split; cbn; auto.
      * apply Hother; cbn; auto.
      * rewrite Ef. discriminate.
    + set (p := lupd (l_processed s) e true). set (best := if vv then e else l_best s).
      assert (Hp : forall j, nth j p false = if j =? e then true else nth j (l_processed s) false).
      { intros j. unfold p. rewrite nth_lupd, L. destruct (Nat.eqb_spec j e) as [->|]; cbn [andb]; auto.
        destruct (Nat.ltb_spec e max); [reflexivity|lia]. }
      assert (Hpl : length p = max) by (unfold p; now rewrite length_lupd).
      assert (Hb : (best <= max)%nat) by (unfold best; destruct vv; [lia|]; destruct R as [[-> _]|[? _]]; lia).
      pose proof (all_before_ok best p ltac:(lia)) as Hall.
      assert (Hvv : vv = true -> l_found s = false /\ acc e = true).
      { intros ->. cbn in Evf. split; [exact Evf|]. destruct Hv; congruence. }
      split; cbn; fold p best; auto.
      * unfold best. destruct vv; [|exact R]. right. split; [lia|]. split; [|reflexivity]. now apply Hvv.
      * unfold best. destruct vv; [lia|]. intros Hbm. destruct (N Hbm) as [N1 N2]. 
        assert (Hacce : acc e = false).
        { destruct Hv as [Hv|Hv]; [congruence|]. apply N2; auto. }
        assert (Hpa : forall j, nth j p false = true -> acc j = false).
        { intros j. rewrite Hp. destruct (Nat.eqb_spec j e) as [->|]; auto. }
        split; [exact Hpa|]. intros Hf j Hj. apply orb_true_iff in Hf. destruct Hf as [Hf|Hf]; [now apply N2|].
        apply Hpa. unfold best in Hall. rewrite Hbm in *. now apply Hall.
      * apply Hother; cbn; auto. intros ->. reflexivity.
      * intros Hm. apply orb_true_iff. left. apply D. destruct (all_before best p); auto. destruct (l_main s); congruence.
      * intros Hf. apply orb_false_iff in Hf. destruct Hf as [Hf Hnall]. intros j Hj Hm. rewrite Hp.
        destruct (Nat.eqb_spec j e) as [|Hne]; auto. destruct (A Hf j Hj Hm) as [|Hx]; [now left|right].
        apply Hhold; auto. cbn. congruence.
      * intros Hf. apply orb_false_iff in Hf. destruct Hf as [Hf Hnall]. right.
        assert (~ forall j, (j < best)%nat -> nth j p false = true) as Hnot by (rewrite <- Hall; congruence).
        clear -Hnot. induction best as [|b IH].
        -- exfalso. apply Hnot. intros; lia.
        -- destruct (nth b p false) eqn:E.
           ++ destruct IH as (j & Hj & Hjp); [|exists j; split; auto; lia].
              intros H. apply Hnot. intros j Hj. destruct (Nat.eq_dec j b) as [->|]; auto. apply H. lia.
           ++ exists b. auto.
      * intros H0 Ha0. destruct (F H0 Ha0) as [F1 F2]. split.
        -- rewrite Hp. destruct (Nat.eqb_spec 0 e) as [<-|Hne].
           ++ intros _. destruct vv.
              ** unfold best. rewrite firstn_all_before_0. apply orb_true_r.
              ** destruct Hv as [Hv|Hv]; [congruence|]. now rewrite Hv.
           ++ intros Hx. rewrite F1; auto.
        -- intros Hf. unfold best. destruct vv.
           ++ destruct (Hvv eq_refl) as [Hff Hae]. rewrite Hff in Hf. cbn in Hf. destruct e as [|e]; [reflexivity|]. exfalso.
              unfold best in Hall. apply Hall with (e := 0%nat) in Hf; [|lia]. rewrite Hp in Hf. cbn in Hf.
              rewrite F1 in Hff by auto. discriminate.
           ++ destruct (l_found s) eqn:Hff; [now apply F2|]. cbn in Hf. unfold best in Hall.
              destruct (Nat.eq_dec (l_best s) 0) as [E0|E0]; [exact E0|]. exfalso.
              pose proof (proj1 Hall Hf 0%nat ltac:(lia)) as Hx. rewrite Hp in Hx.
              destruct (Nat.eqb_spec 0 e) as [<-|Hne]; [destruct Hv; congruence|].
              apply F1 in Hx. discriminate.
Qed.

Lemma inv_step ev s s' : inv s -> lstep acc max ev s = Some s' -> inv s'.
Proof.
  intros HI H. destruct ev as [|i v|]; cbn in H.
  - destruct HI as [L R N W D A O F]. unfold lmain in H. destruct (l_main s) eqn:Em; try discriminate; injection H as <-.
    + split; cbn; auto. destruct (l_found s); congruence.
    + split; cbn; auto. congruence.
  - eapply inv_worker; eauto.
  - destruct HI as [L R N W D A O F]. destruct (l_main s) eqn:Em; try discriminate; injection H as <-.
    split; cbn; auto. congruence.
Qed.
Lemma inv_run sch : forall s s', inv s -> lrun acc max sch s = Some s' -> inv s'.
Proof.
  induction sch as [|e sch IH]; cbn; intros s s' HI H; [congruence|].
  destruct (lstep acc max e s) as [t|] eqn:E; [|discriminate]. eapply IH; [|eauto]. eapply inv_step; eauto.
Qed.
Lemma length_workers_step e s s' : lstep acc max e s = Some s' -> length (l_workers s') = length (l_workers s).
Proof.
  destruct e as [|i v|]; cbn; intros H.
  - unfold lmain in H. destruct (l_main s); try discriminate; now injection H as <-.
  - unfold lworker in H. destruct (nth_error _ _) as [w|]; [|discriminate].
    destruct w; try discriminate; injection H as <-; cbn; try apply length_lupd.
    unfold commit. destruct (_ && _); cbn; apply length_lupd.
  - destruct (l_main s); try discriminate; now injection H as <-.
Qed.
Lemma length_workers_run sch : forall s s', lrun acc max sch s = Some s' -> length (l_workers s') = length (l_workers s).
Proof.
  induction sch as [|e sch IH]; cbn; intros s s' H; [congruence|].
  destruct (lstep acc max e s) as [t|] eqn:E; [|discriminate]. rewrite (IH t s' H). eapply length_workers_step; eauto.
Qed.

(** One worker works through the steps in order. *)
Definition inv1 (s : lst) : Prop := exists w, l_workers s = [w] /\ exists k,
  (forall e, (e < k)%nat -> (e < max)%nat -> acc e = false) /\
  match w with
  | LIdle => k = 0%nat /\ l_taken s = 0%nat /\ l_found s = false /\ l_best s = max
  | LTake => (l_taken s = k /\ l_best s = max) \/ (l_found s = true /\ first_acceptable acc max (l_best s))
  | LHave e => (e = k /\ l_taken s = S k /\ l_best s = max) \/ (l_found s = true /\ first_acceptable acc max (l_best s))
  | LExec e => e = k /\ (k < max)%nat /\ l_taken s = S k /\ l_best s = max /\ l_found s = false
  | LCommit e v => e = k /\ (k < max)%nat /\ l_taken s = S k /\ l_best s = max /\ l_found s = false /\ v = acc e
  | LOut => l_best s = max \/ first_acceptable acc max (l_best s)
  end /\ (forall e, (e < k)%nat -> (e < max)%nat -> l_found s = false -> nth e (l_processed s) false = true) /\ length (l_processed s) = max.

Lemma inv1_step ev s s' : inv1 s -> lstep acc max ev s = Some s' -> inv1 s'.
Proof.
  intros (w & Hw & k & Hrej & Hpc & Hproc & Hlen) H.
  destruct ev as [|i v|]; cbn in H.
  - unfold lmain in H. destruct (l_main s); try discriminate; injection H as <-; exists w; cbn; split; auto; exists k; auto.
  - unfold lworker in H. rewrite Hw in H. destruct i as [|i]; cbn [nth_error] in H; [|now destruct i].
    destruct w as [| |e|e|e vv|]; try discriminate; injection H as <-.
    + exists LTake. cbn. split; auto. destruct Hpc as (-> & H1 & H2 & H3). exists 0%nat. repeat split; auto.
    + exists (LHave (l_taken s)). cbn. split; auto. exists k. split; auto. split; auto.
      destruct Hpc as [[-> H2]|H]; auto.
    + destruct Hpc as [(-> & H1 & H2)|[H1 H2]].
      * destruct (Nat.leb_spec max k) as [Hk|Hk]; cbn.
        -- exists LOut. split; auto. exists k. auto.
        -- destruct (l_found s) eqn:Ef; cbn.
           ++ exists LOut. split; auto. exists k. split; auto.
           ++ exists (LExec k). split; auto. exists k. auto 10.
      * rewrite H1, orb_true_r. exists LOut. cbn. split; [reflexivity|]. exists k. split; [exact Hrej|]. split; [right; exact H2|]. split; [|exact Hlen]. intros; auto; congruence.
    + destruct Hpc as (-> & H1 & H2 & H3 & H4). rewrite H4. exists (LCommit k (acc k)). cbn. split; auto. exists k. auto 10.
    + destruct Hpc as (-> & H1 & H2 & H3 & H4 & ->). unfold commit. rewrite H4, andb_false_r. cbn [orb].
      assert (Hp : forall e, (e <= k)%nat -> nth e (lupd (l_processed s) k true) false = true).
      { intros e He. rewrite nth_lupd, Hlen. destruct (Nat.eqb_spec e k) as [->|]; cbn [andb].
        - destruct (Nat.ltb_spec k max); auto; lia.
        - apply Hproc; auto; lia. }
      exists LTake. cbn. rewrite Hw. split; [reflexivity|]. destruct (acc k) eqn:Ea.
      * exists k. split; auto.
        assert (Hall : all_before k (lupd (l_processed s) k true) = true).
        { apply all_before_ok; [rewrite length_lupd; lia|]. intros e He. apply Hp. lia. }
        rewrite Hall. split; [right; split; auto; repeat split; auto|]. { intros i Hi. apply Hrej; lia. }
        split; [discriminate|]. now rewrite length_lupd.
      * exists (S k). split; [|split; [left; auto|split; [|now rewrite length_lupd]]].
        -- intros e He Hm. destruct (Nat.eq_dec e k) as [->|]; auto. apply Hrej; lia.
        -- intros e He Hm _. apply Hp. lia.
  - destruct (l_main s); try discriminate; injection H as <-; exists w; cbn; split; auto; exists k; auto.
Qed.
Lemma inv1_run sch : forall s s', inv1 s -> lrun acc max sch s = Some s' -> inv1 s'.
Proof.
  induction sch as [|e sch IH]; cbn; intros s s' HI H; [congruence|].
  destruct (lstep acc max e s) as [t|] eqn:E; [|discriminate]. eapply IH; [|eauto]. eapply inv1_step; eauto.
Qed.
Lemma inv1_post : inv1 (lpost max 1).
Proof.
  exists LIdle. split; [reflexivity|]. exists 0%nat. cbn. repeat split; intros; try lia. apply repeat_length.
Qed.
Lemma inv1_best s : inv1 s -> l_best s = max \/ first_acceptable acc max (l_best s).
Proof.
  intros (w & Hw & k & Hrej & Hpc & _). destruct w; try tauto.
Qed.

(** Nothing can move any more. *)
Lemma stuck_found n sch s : (0 < n)%nat -> (0 < max)%nat -> lrun acc max sch (lpost max n) = Some s ->
  (forall i v, lworker acc max i v s = None) -> l_found s = true.
Proof.
  intros Hn Hmax Hrun Hst. pose proof (inv_run _ _ _ (inv_post n) Hrun) as [L R N W D A O F].
  apply length_workers_run in Hrun as Hlen. cbn in Hlen. rewrite repeat_length in Hlen.
  destruct (l_found s) eqn:Ef; [reflexivity|]. exfalso.
  assert (Hout : forall w, In w (l_workers s) -> w = LOut).
  { intros w Hw. apply In_nth_error in Hw. destruct Hw as [i Hi]. specialize (Hst i false). unfold lworker in Hst. rewrite Hi in Hst.
    destruct w; congruence. }
  assert (Hone : exists w, In w (l_workers s)).
  { destruct (l_workers s) as [|w ws]; cbn in Hlen; [lia|]. exists w. now left. }
  destruct Hone as (w & Hw). pose proof (W w Hw) as Hok. rewrite (Hout w Hw) in Hok. cbn in Hok. destruct Hok as [Hok|Hok]; [congruence|].
  destruct (O eq_refl) as [|(e & He & Hp)]; [lia|].
  assert (e < max)%nat by (destruct R as [[HR _]|[HR _]]; lia).
  destruct (A eq_refl e) as [Hx|(y & Hy & He')]; try lia; [congruence|].
  rewrite (Hout y Hy) in He'. exact He'.
Qed.
End Mp.
