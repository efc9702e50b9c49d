(** The discretised path constraints: loops over nodes and containers. *)
From Coq Require Import Reals Lra Lia List Bool Arith ZArith.
From Verif Require Import Base.Outcome Base.RVec Optcon.DmsModel Optcon.DmsSpec Optcon.DmsProofs
  Optcon.DmsSplineModel Optcon.ConstraintModel Optcon.ConstraintSpec Optcon.ConstraintProofs
  Optcon.ConstraintProps Optcon.NlpModel Optcon.NlpSpec Optcon.NlpProofs.
Import ListNotations.
Local Open Scope R_scope.

(** ** Loops that append *)
Section Loop.
Context {K Acc B : Type}.
Variables (St : list B -> Acc) (fit : list B -> Prop).
Hypothesis fit_prefix : forall a b, fit (a ++ b) -> fit a.

Lemma containers_spec (rel rel' : K -> container -> Prop) (f : container -> Acc -> outcome (container * Acc))
  (v : K -> list B) :
  (forall k c h, rel k c -> fit (h ++ v k) -> exists c', f c (St h) = Ok (c', St (h ++ v k)) /\ rel' k c') ->
  forall ks l, Forall2 rel ks l -> forall h, fit (h ++ flat_map v ks) ->
  exists l', overContainers f l (St h) = Ok (l', St (h ++ flat_map v ks)) /\ Forall2 rel' ks l'.
Proof.
  intros Hf. induction 1 as [|k c ks l Hk Hl IH]; intros h F; cbn [overContainers flat_map].
  - exists []. rewrite app_nil_r. auto.
  - cbn [flat_map] in F. rewrite app_assoc in F.
    destruct (Hf k c h Hk (fit_prefix _ _ F)) as (c' & E & R'). rewrite E. cbn [obind fst snd].
    destruct (IH _ F) as (l' & E' & R''). rewrite E'. cbn [obind fst snd].
    exists (c' :: l'). rewrite <- app_assoc. split; [reflexivity|]. constructor; auto.
Qed.

Lemma nodes_spec (rel : K -> container -> Prop) (rel' : nat -> K -> container -> Prop)
  (f : nat -> container -> Acc -> outcome (container * Acc)) (v : nat -> K -> list B) (N : nat) :
  (forall i k c, rel' i k c -> rel k c) ->
  (forall i k c h, (i <= N)%nat -> rel k c -> fit (h ++ v i k) ->
     exists c', f i c (St h) = Ok (c', St (h ++ v i k)) /\ rel' i k c') ->
  forall k i ks l, (i + k = N + 1)%nat -> Forall2 rel ks l -> forall h,
  fit (h ++ flat_map (fun j => flat_map (v j) ks) (seq i k)) ->
  exists l', overNodes f i k l (St h) =
      Ok (l', St (h ++ flat_map (fun j => flat_map (v j) ks) (seq i k))) /\
    ((0 < k)%nat -> Forall2 (rel' N) ks l').
Proof.
  intros Hsub Hf. induction k as [|k IH]; intros i ks l Hi Hl h F; cbn [overNodes seq flat_map].
  - exists l. rewrite app_nil_r. split; [auto|lia].
  - cbn [seq flat_map] in F. rewrite app_assoc in F.
    destruct (containers_spec rel (rel' i) (f i) (v i)) with (ks := ks) (l := l) (h := h)
      as (l1 & E1 & R1); auto.
    { intros k0 c h0 Hk Hfit. apply Hf; auto. lia. }
    { eapply fit_prefix; eauto. }
    rewrite E1. cbn [obind fst snd].
    destruct (IH (S i) ks l1) with (h := h ++ flat_map (v i) ks) as (l2 & E2 & R2); auto.
    { lia. }
    { revert R1. apply Forall2_imp. apply Hsub. }
    exists l2. rewrite E2, <- app_assoc. split; [reflexivity|]. intros _.
    destruct k as [|k]; [|apply R2; lia].
    cbn [overNodes] in E2. apply Ok_inj in E2. assert (l2 = l1) by congruence. subst l2.
    replace N with i by lia. exact R1.
Qed.
End Loop.

(** Accumulators. *)
Section Vec.
Context {A : Type}.
Variable buf : list A.
Definition vecSt (h : list A) : nat * list A := (length h, h ++ skipn (length h) buf).
Definition vecFit (h : list A) : Prop := (length h <= length buf)%nat.
Lemma vecFit_prefix a b : vecFit (a ++ b) -> vecFit a.
Proof. unfold vecFit. rewrite app_length. lia. Qed.
Lemma putIf_spec k x h : length x = k -> vecFit (h ++ x) -> putIf k (Ok x) (vecSt h) = Ok (vecSt (h ++ x)).
Proof.
  intros L F. unfold putIf, vecSt. destruct (Nat.ltb_spec 0 k).
  - cbn [obind]. unfold vecFit in F. rewrite app_length in F. rewrite assign_next by lia. cbn [obind].
    now replace (length h + k)%nat with (length (h ++ x)) by (rewrite app_length; lia).
  - destruct x; [|simpl in L; lia]. now rewrite app_nil_r.
Qed.
Lemma putIf_zero (x : outcome (list A)) s : putIf 0 x s = Ok s.
Proof. destruct s. reflexivity. Qed.
End Vec.

Section Pat.
Variables ir jc : list nat.
Definition nzOf (h : list blk) : nat := length (concat (map bc h)).
Definition patSt (h : list blk) : pstate :=
  (nzOf h, list_sum (map bk h), offRows 0 h ++ skipn (nzOf h) ir, concat (map bc h) ++ skipn (nzOf h) jc).
Definition patFit (h : list blk) : Prop :=
  Forall (fun b => length (br b) = length (bc b)) h /\ (nzOf h <= length ir)%nat /\ (nzOf h <= length jc)%nat.
Lemma nzOf_app a b : nzOf (a ++ b) = (nzOf a + nzOf b)%nat.
Proof. unfold nzOf. now rewrite map_app, concat_app, app_length. Qed.
Lemma patFit_prefix a b : patFit (a ++ b) -> patFit a.
Proof.
  intros (H1 & H2 & H3). rewrite nzOf_app in *. apply Forall_app in H1 as [H1 _].
  split; [auto|]. lia.
Qed.
Lemma rows_nz h : Forall (fun b => length (br b) = length (bc b)) h -> forall off, length (offRows off h) = nzOf h.
Proof.
  unfold nzOf. induction 1 as [|b h Hb Hh IH]; intros off; [reflexivity|]. cbn [offRows map concat].
  now rewrite !app_length, map_length, IH, Hb.
Qed.

(** A block written in two parts. *)
Lemma putPattern_two ks ki rS cS rI cI sidx uidx D v size h :
  length rS = ks -> length cS = ks -> length rI = ki -> length cI = ki ->
  let b := mkBlk size D (rS ++ rI) (map (fun i => sidx + i)%nat cS ++ map (fun i => uidx + i)%nat cI) v in
  patFit (h ++ [b]) ->
  (do s1 <- putPattern ks (Ok (rS, cS)) (Ok sidx) (patSt h) ;;
   do s2 <- putPattern ki (Ok (rI, cI)) (Ok uidx) s1 ;; Ok (advance size s2)) = Ok (patSt (h ++ [b])).
Proof.
  intros L1 L2 L3 L4 b (F1 & F2 & F3). apply Forall_app in F1 as [F1 F1']. rewrite nzOf_app in F2, F3.
  assert (NB : nzOf [b] = (ks + ki)%nat).
  { unfold nzOf. cbn [map concat bc b]. rewrite app_nil_r, app_length, !map_length. lia. }
  rewrite NB in *.
  set (off := list_sum (map bk h)).
  pose proof (rows_nz h F1 0) as LR.
  assert (LC : length (concat (map bc h)) = nzOf h) by reflexivity.
  assert (C1 : forall l, map (fun i => (i + sidx)%nat) l = map (fun i => (sidx + i)%nat) l)
    by (intros; apply map_ext; intros; lia).
  assert (C2 : forall l, map (fun i => (i + uidx)%nat) l = map (fun i => (uidx + i)%nat) l)
    by (intros; apply map_ext; intros; lia).
  assert (S1 : putPattern ks (Ok (rS, cS)) (Ok sidx) (patSt h) =
    Ok ((nzOf h + ks)%nat, off, (offRows 0 h ++ map (fun i => i + off)%nat rS) ++ skipn (nzOf h + ks) ir,
        (concat (map bc h) ++ map (fun i => sidx + i)%nat cS) ++ skipn (nzOf h + ks) jc)).
  { unfold putPattern, patSt. fold off. destruct (Nat.ltb_spec 0 ks).
    - cbn [obind fst snd]. rewrite <- LR at 1 2. rewrite assign_next by (rewrite ?map_length; lia). cbn [obind].
      rewrite <- LC at 1 2. rewrite assign_next by (rewrite ?map_length; lia). cbn [obind].
      rewrite !app_length, !map_length, LR, LC, L1, L2, C1. reflexivity.
    - assert (ks = 0)%nat by lia. destruct rS; [|simpl in *; lia]. destruct cS; [|simpl in *; lia].
      cbn [map]. rewrite !app_nil_r. subst ks. replace (nzOf h + 0)%nat with (nzOf h) by lia.
      replace (nzOf h + length (@nil nat))%nat with (nzOf h) by (simpl; lia). reflexivity. }
  rewrite S1. cbn [obind].
  assert (S2 : putPattern ki (Ok (rI, cI)) (Ok uidx)
    ((nzOf h + ks)%nat, off, (offRows 0 h ++ map (fun i => i + off)%nat rS) ++ skipn (nzOf h + ks) ir,
        (concat (map bc h) ++ map (fun i => sidx + i)%nat cS) ++ skipn (nzOf h + ks) jc) =
    Ok ((nzOf h + (ks + ki))%nat, off, (offRows 0 h ++ map (fun i => i + off)%nat (rS ++ rI)) ++
          skipn (nzOf h + (ks + ki)) ir,
        (concat (map bc h) ++ map (fun i => sidx + i)%nat cS ++ map (fun i => uidx + i)%nat cI) ++
          skipn (nzOf h + (ks + ki)) jc)).
  { unfold putPattern. rewrite map_app. destruct (Nat.ltb_spec 0 ki).
    - cbn [obind fst snd].
      assert (Q1 : (nzOf h + ks)%nat = length (offRows 0 h ++ map (fun i => i + off)%nat rS))
        by (rewrite app_length, map_length; lia).
      assert (Q2 : (nzOf h + ks)%nat = length (concat (map bc h) ++ map (fun i => sidx + i)%nat cS))
        by (rewrite app_length, map_length; lia).
      rewrite Q1 at 1 2. rewrite assign_next by (rewrite ?app_length, ?map_length; lia). cbn [obind].
      rewrite Q2 at 1 2. rewrite assign_next by (rewrite ?app_length, ?map_length; lia). cbn [obind].
      rewrite C2. rewrite (app_length (offRows 0 h ++ _)), (app_length (concat _ ++ _)), <- Q1, <- Q2.
      rewrite !map_length, L3, L4, <- !app_assoc, Nat.add_assoc. reflexivity.
    - assert (ki = 0)%nat by lia. destruct rI; [|simpl in *; lia]. destruct cI; [|simpl in *; lia].
      cbn [map]. rewrite !app_nil_r. subst ki. replace (nzOf h + (ks + length (@nil nat)))%nat with (nzOf h + ks)%nat by (simpl; lia).
      replace (nzOf h + (ks + 0))%nat with (nzOf h + ks)%nat by lia. reflexivity. }
  rewrite S2. cbn [obind advance]. unfold patSt.
  rewrite nzOf_app, NB, offRows_app, !map_app, concat_app, list_sum_app.
  cbn [map concat offRows Nat.add bk br bc b list_sum fold_right]. fold off. rewrite !app_nil_r.
  rewrite Nat.add_0_r, !map_app. reflexivity.
Qed.
End Pat.

Section Disc.
Variables n m : nat.
Notation evaluate := (evaluate n m).
Notation size := (size n).
Notation jacobianState := (jacobianState n).
Notation jacobianInput := (jacobianInput n).
Notation nnzState := (nnzState n).
Notation nnzInput := (nnzInput m).

(** ** One stage of a container *)
Definition patS (l : list constraint) : list nat * list nat :=
  match patternLoop n nnzState (patternState n) l 0 [] [] with Ok p => p | _ => ([], []) end.
Definition patI (l : list constraint) : list nat * list nat :=
  match patternLoop n nnzInput (patternInput n m) l 0 [] [] with Ok p => p | _ => ([], []) end.
Section At.
Variables (x u : rvec) (t : R).
Definition valsOf (l : list constraint) := concat (map (fun c => evaluate c x u t) l).
Definition spS (l : list constraint) := concat (map (fun c => sparseState n c x u t)
  (filter (fun c => negb (nnzState c =? 0)%nat) l)).
Definition spI (l : list constraint) := concat (map (fun c => sparseInput n m c x u t)
  (filter (fun c => negb (nnzInput c =? 0)%nat) l)).
Definition matS (l : list constraint) : rmat := entry (concat (map (fun c => jacobianState c x u t) l)).
Definition matI (l : list constraint) : rmat := entry (concat (map (fun c => jacobianInput c x u t) l)).

Lemma stage_values s : stage_inv n m s -> s_init s = true ->
  stageEval n m x u t s = Ok (valsOf (s_terms s)) /\ length (valsOf (s_terms s)) = total size s.
Proof.
  intros Hi Hf. split; [apply (stage_eval n m); auto|].
  destruct Hi as (H1 & _). unfold valsOf, total. apply (concat_length_sum _ size).
  intros c Hc. apply built_lengths. exact (proj1 (Forall_forall _ _) H1 c Hc).
Qed.

Lemma stage_S s : stage_inv n m s -> s_init s = true -> Forall (sparse_ok n m) (s_terms s) ->
  stagePatternState n s = Ok (patS (s_terms s)) /\ stageSparseState n x u t true s = Ok (spS (s_terms s)) /\
  length (spS (s_terms s)) = total nnzState s /\
  sparse_form (total size s) n (matS (s_terms s)) (fst (patS (s_terms s))) (snd (patS (s_terms s)))
    (spS (s_terms s)).
Proof.
  intros Hi Hf Hs. destruct (stage_sparseS n m x u t s Hi Hf Hs) as (rows & cols & vals & E1 & E2 & L & S).
  assert (P : patS (s_terms s) = (rows, cols)).
  { unfold patS. unfold stagePatternState in E1. rewrite Hf in E1. cbn [negb] in E1. now rewrite E1. }
  assert (V : vals = spS (s_terms s)).
  { apply Ok_inj. rewrite <- E2. unfold stageSparseState. cbn [negb].
    destruct Hi as (H1 & _ & H3). destruct (H3 Hf) as (_ & LS & _).
    apply writeNonEmpty_all; auto. intros c Hc _. apply (built_sparse_state n m).
    - exact (proj1 (Forall_forall _ _) H1 c Hc).
    - exact (proj1 (Forall_forall _ _) Hs c Hc). }
  rewrite P. subst vals. auto.
Qed.

Lemma stage_I s : stage_inv n m s -> s_init s = true -> Forall (sparse_ok n m) (s_terms s) ->
  stagePatternInput n m s = Ok (patI (s_terms s)) /\ stageSparseInput n m x u t s = Ok (spI (s_terms s)) /\
  length (spI (s_terms s)) = total nnzInput s /\
  sparse_form (total size s) m (matI (s_terms s)) (fst (patI (s_terms s))) (snd (patI (s_terms s)))
    (spI (s_terms s)).
Proof.
  intros Hi Hf Hs. destruct (stage_sparseI n m x u t s Hi Hf Hs) as (rows & cols & vals & E1 & E2 & L & S).
  assert (P : patI (s_terms s) = (rows, cols)).
  { unfold patI. unfold stagePatternInput in E1. rewrite Hf in E1. cbn [negb] in E1. now rewrite E1. }
  assert (V : vals = spI (s_terms s)).
  { apply Ok_inj. rewrite <- E2. unfold stageSparseInput. rewrite Hf. cbn [negb].
    destruct Hi as (H1 & _ & H3). destruct (H3 Hf) as (_ & _ & LS & _).
    apply writeNonEmpty_all; auto. intros c Hc Hn. apply built_sparse_input; auto.
    - exact (proj1 (Forall_forall _ _) H1 c Hc).
    - exact (proj1 (Forall_forall _ _) Hs c Hc). }
  rewrite P. subst vals. auto.
Qed.
End At.

(** ** The discretizer *)

(** A container as the discretizer receives it: any calls, then initialize. *)
Definition prepared (cs : list ccall) (c : container) : Prop :=
  allOf (built n m) cs /\ allOf (sparse_ok n m) cs /\ crun n m (cs ++ [Initialize]) newContainer = Ok c.

Definition rel (cs : list ccall) (c : container) : Prop :=
  stage_inv n m (c_inter c) /\ stage_inv n m (c_term c) /\
  s_init (c_inter c) = true /\ s_init (c_term c) = true /\
  s_terms (c_inter c) = intermediateOf cs /\ s_terms (c_term c) = terminalOf cs /\
  Forall (sparse_ok n m) (intermediateOf cs) /\ Forall (sparse_ok n m) (terminalOf cs).
Definition relAt (x u : rvec) (t : R) (cs : list ccall) (c : container) : Prop :=
  rel cs c /\ c_x c = x /\ c_u c = u /\ c_t c = t.

Lemma prepared_rel cs c : prepared cs c -> rel cs c.
Proof.
  intros (Ha & [P1 P2] & E).
  destruct (crun_inv n m cs newContainer Ha) as (c1 & E1 & [I1 I2] & T1 & T2).
  { split; apply new_inv. }
  destruct (init_inv n m _ I1) as (s1 & F1 & J1 & U1 & G1).
  destruct (init_inv n m _ I2) as (s2 & F2 & J2 & U2 & G2).
  rewrite crun_app, E1 in E. cbn [obind crun cstep] in E. unfold initialize in E.
  rewrite F1 in E. cbn [obind] in E. rewrite F2 in E. cbn [obind] in E. apply Ok_inj in E. subst c.
  unfold rel. cbn [c_inter c_term]. rewrite U1, U2, T1, T2. auto 10.
Qed.
Lemma prepared_exists cs : allOf (built n m) cs -> allOf (sparse_ok n m) cs -> exists c, prepared cs c.
Proof.
  intros Ha Hs. destruct (crun_inv n m cs newContainer Ha) as (c1 & E1 & [I1 I2] & T1 & T2).
  { split; apply new_inv. }
  destruct (init_inv n m _ I1) as (s1 & F1 & _). destruct (init_inv n m _ I2) as (s2 & F2 & _).
  unfold prepared. rewrite crun_app, E1. cbn [obind crun cstep]. unfold initialize.
  rewrite F1. cbn [obind]. rewrite F2. cbn [obind]. eauto.
Qed.

Section Nodes.
Variables (N : nat) (l g0 : list node) (w : optvec) (g : grid R) (nodes : list rvec).
Hypothesis Hw : holds n m N l g0 w.
Hypothesis Hg : length (g_t g) = S N.
Hypothesis Hn : length nodes = S N.

Definition X (i : nat) : rvec := ofList (fst (nth i l dflt)).
Definition U (i : nat) : rvec := nth i nodes rzero.
Definition T (i : nat) : R := nth i (g_t g) 0.

Lemma moveTo_spec i c : (i <= N)%nat ->
  moveTo n ZERO_ORDER_HOLD w nodes g i c = Ok (setCurrent (X i) (U i) (T i) c).
Proof.
  intros Hi. unfold moveTo, getShotStartTime. rewrite (vec_get_nth (g_t g) i 0) by lia. cbn [obind].
  rewrite (holds_get_state n m N l g0 w i Hw Hi). cbn [obind evalSpline].
  rewrite (vec_get_nth nodes i rzero) by lia. reflexivity.
Qed.

Lemma rel_move cs c x u t : rel cs c -> relAt x u t cs (setCurrent x u t c).
Proof. intros H. split; [exact H|auto]. Qed.

(** Values, bounds, sparse values and blocks of the discretised constraints. *)
Section Containers.
Variable css : list (list ccall).
Definition allVals : list R :=
  flat_map (fun i => flat_map (fun cs => valsOf (X i) (U i) (T i) (intermediateOf cs)) css) (seq 0 (N + 1)) ++
  flat_map (fun cs => valsOf (X N) (U N) (T N) (terminalOf cs)) css.
Definition interBlk (i : nat) (cs : list ccall) : blk :=
  mkBlk (list_sum (map size (intermediateOf cs)))
    (at_node n m i (matS (X i) (U i) (T i) (intermediateOf cs)) (matI (X i) (U i) (T i) (intermediateOf cs)))
    (fst (patS (intermediateOf cs)) ++ fst (patI (intermediateOf cs)))
    (map (fun j => i * (n + m) + j)%nat (snd (patS (intermediateOf cs))) ++
     map (fun j => i * (n + m) + n + j)%nat (snd (patI (intermediateOf cs))))
    (spS (X i) (U i) (T i) (intermediateOf cs) ++ spI (X i) (U i) (T i) (intermediateOf cs)).
Definition termBlk (cs : list ccall) : blk :=
  mkBlk (list_sum (map size (terminalOf cs)))
    (at_node n m N (matS (X N) (U N) (T N) (terminalOf cs)) (matI (X N) (U N) (T N) (terminalOf cs)))
    (fst (patS (terminalOf cs)) ++ fst (patI (terminalOf cs)))
    (map (fun j => N * (n + m) + j)%nat (snd (patS (terminalOf cs))) ++
     map (fun j => N * (n + m) + n + j)%nat (snd (patI (terminalOf cs))))
    (spS (X N) (U N) (T N) (terminalOf cs) ++ spI (X N) (U N) (T N) (terminalOf cs)).
Definition allBlks : list blk :=
  flat_map (fun i => flat_map (fun cs => [interBlk i cs]) css) (seq 0 (N + 1)) ++
  flat_map (fun cs => [termBlk cs]) css.
Definition allBound (b : constraint -> list R) : list R :=
  flat_map (fun i : nat => flat_map (fun cs => concat (map b (intermediateOf cs))) css) (seq 0 (N + 1)) ++
  flat_map (fun cs => concat (map b (terminalOf cs))) css.

Variable z : discretizer.
Hypothesis HN : z_N z = N.
Hypothesis Hz : Forall2 rel css (z_con z).

Lemma discEval_spec : length (z_buf z) = length allVals ->
  exists cs', discEval n m ZERO_ORDER_HOLD w nodes g z = Ok (withEval allVals cs' z) /\ Forall2 rel css cs'.
Proof.
  intros L. unfold discEval. rewrite HN.
  change (0%nat, z_buf z) with (vecSt (z_buf z) []).
  set (v := fun i cs => valsOf (X i) (U i) (T i) (intermediateOf cs)).
  destruct (nodes_spec (vecSt (z_buf z)) (vecFit (z_buf z)) (vecFit_prefix _) rel
    (fun i => relAt (X i) (U i) (T i)) (fun i c s =>
            do c' <- moveTo n ZERO_ORDER_HOLD w nodes g i c ;;
            do s' <- putIf (total size (c_inter c')) (evaluateIntermediate n m c') s ;;
            Ok (c', s')) v N) with (k := (N + 1)%nat) (i := 0%nat) (ks := css) (l := z_con z) (h := @nil R)
    as (l1 & E1 & R1); auto.
  - intros i k c [H _]. exact H.
  - intros i k c h Hi Hr F. rewrite moveTo_spec by auto. cbn [obind].
    pose proof (rel_move k c (X i) (U i) (T i) Hr) as Hr'.
    destruct Hr as (S1 & _ & I1 & _ & T1 & _).
    destruct (stage_values (X i) (U i) (T i) (c_inter c) S1 I1) as [EV LV].
    unfold evaluateIntermediate. cbn [setCurrent c_x c_u c_t c_inter].
    rewrite EV, T1 in *. rewrite putIf_spec by (auto). cbn [obind]. eexists. split; [reflexivity|exact Hr'].
  - unfold vecFit. cbn [app]. rewrite L. unfold allVals. rewrite app_length. apply Nat.le_add_r.
  - rewrite E1. cbn [obind fst snd app].
    destruct (containers_spec (vecSt (z_buf z)) (vecFit (z_buf z)) (vecFit_prefix _)
      (relAt (X N) (U N) (T N)) (relAt (X N) (U N) (T N)) (fun c s =>
            do s' <- putIf (total size (c_term c)) (evaluateTerminal n m c) s ;;
            Ok (c, s')) (fun cs => valsOf (X N) (U N) (T N) (terminalOf cs))) with (ks := css) (l := l1)
      (h := flat_map (fun j => flat_map (v j) css) (seq 0 (N + 1))) as (l2 & E2 & R2); auto.
    + intros k c h Hr F. pose proof Hr as Hr'. destruct Hr as ((_ & S1 & _ & I1 & _ & T1 & _) & Ex & Eu & Et).
      destruct (stage_values (X N) (U N) (T N) (c_term c) S1 I1) as [EV LV].
      unfold evaluateTerminal. rewrite Ex, Eu, Et, EV, T1 in *. rewrite putIf_spec by auto. cbn [obind].
      eexists. split; [reflexivity|exact Hr'].
    + apply R1. lia.
    + unfold vecFit. rewrite L. apply le_n.
    + rewrite E2. cbn [obind fst snd]. exists l2. unfold vecSt. cbn [snd].
      rewrite skipn_all_nil, app_nil_r by (rewrite L; reflexivity). split; [reflexivity|].
      revert R2. apply Forall2_imp. intros a b [H _]. exact H.
Qed.

Lemma concat_single {A B} (f : B -> list R) (h : A -> B) ks :
  concat (map f (flat_map (fun a => [h a]) ks)) = flat_map (fun a => f (h a)) ks.
Proof. induction ks as [|a ks IH]; [reflexivity|]. cbn [flat_map app map concat]. now rewrite IH. Qed.
Lemma concat_flat {A B} (f : B -> list R) (h : A -> list B) ks :
  concat (map f (flat_map h ks)) = flat_map (fun a => concat (map f (h a))) ks.
Proof.
  induction ks as [|a ks IH]; [reflexivity|]. cbn [flat_map]. now rewrite map_app, concat_app, IH.
Qed.
Definition jacVals : list R :=
  flat_map (fun i => flat_map (fun cs => bv (interBlk i cs)) css) (seq 0 (N + 1)) ++
  flat_map (fun cs => bv (termBlk cs)) css.
Lemma jacVals_blks : jacVals = concat (map bv allBlks).
Proof.
  unfold jacVals, allBlks. rewrite map_app, concat_app, concat_single, concat_flat. f_equal.
  apply flat_map_ext. intros i. now rewrite concat_single.
Qed.

Lemma discJac_spec : length (z_jac z) = length jacVals ->
  exists cs', discJac n m ZERO_ORDER_HOLD w nodes g z = Ok (withJac jacVals cs' z) /\ Forall2 rel css cs'.
Proof.
  intros L. unfold discJac. rewrite HN.
  change (0%nat, z_jac z) with (vecSt (z_jac z) []).
  destruct (nodes_spec (vecSt (z_jac z)) (vecFit (z_jac z)) (vecFit_prefix _) rel
    (fun i => relAt (X i) (U i) (T i)) (fun i c s =>
            do c' <- moveTo n ZERO_ORDER_HOLD w nodes g i c ;;
            do s1 <- putIf (total nnzState (c_inter c')) (jacobianStateSparseIntermediate n c') s ;;
            do s2 <- putIf (total nnzInput (c_inter c')) (jacobianInputSparseIntermediate n m c') s1 ;;
            Ok (c', s2)) (fun i cs => bv (interBlk i cs)) N) with (k := (N + 1)%nat) (i := 0%nat) (ks := css)
    (l := z_con z) (h := @nil R) as (l1 & E1 & R1); auto.
  - intros i k c [H _]. exact H.
  - intros i k c h Hi Hr F. rewrite moveTo_spec by auto. cbn [obind].
    pose proof (rel_move k c (X i) (U i) (T i) Hr) as Hr'.
    destruct Hr as (S1 & _ & I1 & _ & T1 & _ & O1 & _). rewrite <- T1 in O1.
    destruct (stage_S (X i) (U i) (T i) (c_inter c) S1 I1 O1) as (_ & EV & LV & _).
    destruct (stage_I (X i) (U i) (T i) (c_inter c) S1 I1 O1) as (_ & EW & LW & _).
    unfold jacobianStateSparseIntermediate, jacobianInputSparseIntermediate.
    cbn [setCurrent c_x c_u c_t c_inter]. cbn [bv interBlk] in *.
    rewrite I1, EV, EW, T1 in *. rewrite app_assoc in *.
    rewrite putIf_spec; [|exact LV|eapply vecFit_prefix; exact F]. cbn [obind].
    rewrite putIf_spec by auto. cbn [obind]. eexists. split; [reflexivity|exact Hr'].
  - unfold vecFit. cbn [app]. rewrite L. unfold jacVals. rewrite app_length. apply Nat.le_add_r.
  - rewrite E1. cbn [obind fst snd app].
    destruct (containers_spec (vecSt (z_jac z)) (vecFit (z_jac z)) (vecFit_prefix _)
      (relAt (X N) (U N) (T N)) (relAt (X N) (U N) (T N)) (fun c s =>
            do s1 <- putIf (total nnzState (c_term c)) (jacobianStateSparseTerminal n c) s ;;
            do s2 <- putIf (total nnzInput (c_term c)) (jacobianInputSparseTerminal n m c) s1 ;;
            Ok (c, s2)) (fun cs => bv (termBlk cs))) with (ks := css) (l := l1)
      (h := flat_map (fun j => flat_map (fun cs => bv (interBlk j cs)) css) (seq 0 (N + 1)))
      as (l2 & E2 & R2); auto.
    + intros k c h Hr F. pose proof Hr as Hr'.
      destruct Hr as ((_ & S1 & I0 & I1 & _ & T1 & _ & O1) & Ex & Eu & Et). rewrite <- T1 in O1.
      destruct (stage_S (X N) (U N) (T N) (c_term c) S1 I1 O1) as (_ & EV & LV & _).
      destruct (stage_I (X N) (U N) (T N) (c_term c) S1 I1 O1) as (_ & EW & LW & _).
      unfold jacobianStateSparseTerminal, jacobianInputSparseTerminal. cbn [bv termBlk] in *.
      rewrite I0, Ex, Eu, Et, EV, EW, T1 in *. rewrite app_assoc in *.
      rewrite putIf_spec; [|exact LV|eapply vecFit_prefix; exact F]. cbn [obind].
      rewrite putIf_spec by auto. cbn [obind]. eexists. split; [reflexivity|exact Hr'].
    + apply R1. lia.
    + unfold vecFit. rewrite L. apply le_n.
    + rewrite E2. cbn [obind fst snd]. exists l2. unfold vecSt. cbn [snd].
      rewrite skipn_all_nil, app_nil_r by (rewrite L; reflexivity). split; [reflexivity|].
      revert R2. apply Forall2_imp. intros a b [H _]. exact H.
Qed.

Lemma Forall2_in {A B} (P : A -> B -> Prop) la lb : Forall2 P la lb -> forall a, In a la -> exists b, P a b.
Proof.
  induction 1 as [|a b la lb H F IH]; intros a' Hin; [destruct Hin|]. destruct Hin as [<-|Hin]; eauto.
Qed.

Lemma rel_lengths i cs c : (i <= N)%nat -> rel cs c ->
  length (fst (patS (intermediateOf cs))) = total nnzState (c_inter c) /\
  length (snd (patS (intermediateOf cs))) = total nnzState (c_inter c) /\
  length (fst (patI (intermediateOf cs))) = total nnzInput (c_inter c) /\
  length (snd (patI (intermediateOf cs))) = total nnzInput (c_inter c) /\
  length (fst (patS (terminalOf cs))) = total nnzState (c_term c) /\
  length (snd (patS (terminalOf cs))) = total nnzState (c_term c) /\
  length (fst (patI (terminalOf cs))) = total nnzInput (c_term c) /\
  length (snd (patI (terminalOf cs))) = total nnzInput (c_term c) /\
  blk_ok ((N + 1) * (n + m)) (interBlk i cs) /\ blk_ok ((N + 1) * (n + m)) (termBlk cs) /\
  length (bv (interBlk i cs)) = (total nnzState (c_inter c) + total nnzInput (c_inter c))%nat /\
  length (bv (termBlk cs)) = (total nnzState (c_term c) + total nnzInput (c_term c))%nat.
Proof.
  intros Hi (S1 & S2 & I1 & I2 & T1 & T2 & O1 & O2). rewrite <- T1 in O1. rewrite <- T2 in O2.
  destruct (stage_S (X i) (U i) (T i) (c_inter c) S1 I1 O1) as (_ & _ & A1 & A2).
  destruct (stage_I (X i) (U i) (T i) (c_inter c) S1 I1 O1) as (_ & _ & B1 & B2).
  destruct (stage_S (X N) (U N) (T N) (c_term c) S2 I2 O2) as (_ & _ & C1 & C2).
  destruct (stage_I (X N) (U N) (T N) (c_term c) S2 I2 O2) as (_ & _ & D1 & D2).
  pose proof (sparse_node n m N i _ _ _ _ _ _ _ _ _ Hi A2 B2) as [K1 _].
  pose proof (sparse_node n m N N _ _ _ _ _ _ _ _ _ (le_n _) C2 D2) as [K2 _].
  unfold blk_ok, interBlk, termBlk. cbn [bk bD br bc bv]. unfold total in K1, K2.
  unfold total in A1, B1, C1, D1, A2, B2, C2, D2 |- *. rewrite T1, T2 in *.
  destruct A2 as (? & ? & _), B2 as (? & ? & _), C2 as (? & ? & _), D2 as (? & ? & _).
  rewrite !app_length. do 8 (split; [lia|]). split; [exact K1|]. split; [exact K2|]. split; lia.
Qed.

Lemma allBlks_ok : Forall (blk_ok ((N + 1) * (n + m))) allBlks.
Proof.
  apply Forall_app. split; apply Forall_flat_map, Forall_forall.
  - intros i Hi. apply in_seq in Hi. apply Forall_flat_map, Forall_forall. intros cs Hcs.
    destruct (Forall2_in _ _ _ Hz cs Hcs) as (c & Hc). constructor; auto.
    apply (rel_lengths i cs c); auto; lia.
  - intros cs Hcs. destruct (Forall2_in _ _ _ Hz cs Hcs) as (c & Hc). constructor; auto.
    apply (rel_lengths 0 cs c); auto; lia.
Qed.

Lemma blk_lengths nc b : blk_ok nc b -> length (br b) = length (bc b) /\ length (bc b) = length (bv b).
Proof. intros (A & B & _). lia. Qed.
Lemma nz_vals ks nc : Forall (blk_ok nc) ks -> nzOf ks = length (concat (map bv ks)).
Proof.
  unfold nzOf. induction 1 as [|b ks Hb Hk IH]; [reflexivity|]. cbn [map concat].
  rewrite !app_length, IH. f_equal. eapply blk_lengths; eauto.
Qed.

Lemma discPattern_spec : length (z_iRow z) = length jacVals -> length (z_jCol z) = length jacVals ->
  discPattern n m w z = Ok (mkDisc (z_N z) (z_con z) (z_interCount z) (z_termCount z) (z_nnzInter z) (z_nnzTerm z)
        (z_buf z) (z_lo z) (z_up z) (z_jac z) (offRows 0 allBlks) (concat (map bc allBlks))).
Proof.
  intros L1 L2. unfold discPattern. rewrite HN at 1.
  assert (NZ : nzOf allBlks = length jacVals).
  { rewrite jacVals_blks. eapply nz_vals. apply allBlks_ok. }
  assert (FA : Forall (fun b => length (br b) = length (bc b)) allBlks).
  { eapply Forall_impl; [|apply allBlks_ok]. intros b Hb. eapply blk_lengths; eauto. }
  change (0%nat, 0%nat, z_iRow z, z_jCol z) with (patSt (z_iRow z) (z_jCol z) []).
  destruct (nodes_spec (patSt (z_iRow z) (z_jCol z)) (patFit (z_iRow z) (z_jCol z)) (patFit_prefix _ _) rel
    (fun _ => rel) (fun i c s =>
            do s1 <- putPattern (total nnzState (c_inter c)) (stagePatternState n (c_inter c))
                       (getStateIndex w i) s ;;
            do s2 <- putPattern (total nnzInput (c_inter c)) (stagePatternInput n m (c_inter c))
                       (getControlIndex w i) s1 ;;
            Ok (c, advance (total size (c_inter c)) s2)) (fun i cs => [interBlk i cs]) N)
     with (k := (N + 1)%nat) (i := 0%nat) (ks := css)
    (l := z_con z) (h := @nil blk) as (l1 & E1 & R1); auto.
  - intros i k c h Hi Hr F. pose proof Hr as Hr'.
    destruct (rel_lengths i k c Hi Hr) as (A1 & A2 & A3 & A4 & _).
    destruct Hr as (S1 & _ & I1 & _ & T1 & _ & O1 & _). rewrite <- T1 in O1.
    destruct (stage_S (X i) (U i) (T i) (c_inter c) S1 I1 O1) as (EV & _).
    destruct (stage_I (X i) (U i) (T i) (c_inter c) S1 I1 O1) as (EW & _).
    rewrite EV, EW, T1, (holds_state_index n m N l g0 w i Hw), (holds_control_index n m N l g0 w i Hw).
    replace (i <=? N)%nat with true by (symmetry; apply Nat.leb_le; lia).
    rewrite (surjective_pairing (patS _)), (surjective_pairing (patI _)).
    pose proof (putPattern_two (z_iRow z) (z_jCol z) _ _ _ _ _ _ (i * (n + m)) (i * (n + m) + n)
      (bD (interBlk i k)) (bv (interBlk i k)) (bk (interBlk i k)) h A1 A2 A3 A4 F) as E.
    destruct (putPattern _ _ _ (patSt _ _ h)) as [s1| |]; cbn [obind] in E |- *; try discriminate.
    destruct (putPattern _ _ _ s1) as [s2| |]; cbn [obind] in E |- *; try discriminate.
    apply Ok_inj in E. exists c. split; [|exact Hr'].
    unfold total. rewrite T1. change (list_sum (map size (intermediateOf k))) with (bk (interBlk i k)).
    rewrite E. reflexivity.
  - cbn [app]. unfold allBlks in FA, NZ. apply Forall_app in FA as [FA _]. rewrite nzOf_app in NZ.
    split; [exact FA|]. rewrite L1, L2, <- NZ. lia.
  - rewrite E1. cbn [obind fst snd app].
    destruct (containers_spec (patSt (z_iRow z) (z_jCol z)) (patFit (z_iRow z) (z_jCol z)) (patFit_prefix _ _)
      rel rel (fun c s =>
            do s1 <- putPattern (total nnzState (c_term c)) (stagePatternState n (c_term c))
                       (getStateIndex w (z_N z)) s ;;
            do s2 <- putPattern (total nnzInput (c_term c)) (stagePatternInput n m (c_term c))
                       (getControlIndex w (z_N z)) s1 ;;
            Ok (c, advance (total size (c_term c)) s2)) (fun cs => [termBlk cs])) with (ks := css) (l := l1)
      (h := flat_map (fun j => flat_map (fun cs => [interBlk j cs]) css) (seq 0 (N + 1)))
      as (l2 & E2 & R2); auto.
    + intros k c h Hr F. pose proof Hr as Hr'.
      destruct (rel_lengths 0 k c (Nat.le_0_l _) Hr) as (_ & _ & _ & _ & A1 & A2 & A3 & A4 & _).
      destruct Hr as (_ & S1 & _ & I1 & _ & T1 & _ & O1). rewrite <- T1 in O1.
      destruct (stage_S (X N) (U N) (T N) (c_term c) S1 I1 O1) as (EV & _).
      destruct (stage_I (X N) (U N) (T N) (c_term c) S1 I1 O1) as (EW & _).
      rewrite HN, EV, EW, T1, (holds_state_index n m N l g0 w N Hw), (holds_control_index n m N l g0 w N Hw).
      rewrite Nat.leb_refl.
      rewrite (surjective_pairing (patS _)), (surjective_pairing (patI _)).
      pose proof (putPattern_two (z_iRow z) (z_jCol z) _ _ _ _ _ _ (N * (n + m)) (N * (n + m) + n)
        (bD (termBlk k)) (bv (termBlk k)) (bk (termBlk k)) h A1 A2 A3 A4 F) as E.
      destruct (putPattern _ _ _ (patSt _ _ h)) as [s1| |]; cbn [obind] in E |- *; try discriminate.
      destruct (putPattern _ _ _ s1) as [s2| |]; cbn [obind] in E |- *; try discriminate.
      apply Ok_inj in E. exists c. split; [|exact Hr'].
      unfold total. rewrite T1. change (list_sum (map size (terminalOf k))) with (bk (termBlk k)).
      rewrite E. reflexivity.
    + apply R1. lia.
    + split; [exact FA|]. change (nzOf allBlks <= length (z_iRow z) /\ nzOf allBlks <= length (z_jCol z))%nat.
      rewrite L1, L2, NZ. lia.
    + rewrite E2. cbn [obind fst snd].
      change (flat_map (fun j => flat_map (fun cs => [interBlk j cs]) css) (seq 0 (N + 1)) ++
        flat_map (fun cs => [termBlk cs]) css) with allBlks.
      unfold patSt. rewrite !skipn_all_nil, !app_nil_r by lia. reflexivity.
Qed.

Lemma bounds_spec (b : constraint -> list R) (f : stage -> list R) buf :
  (forall s, stage_inv n m s -> s_init s = true -> f s = concat (map b (s_terms s))) ->
  (forall c, built n m c -> length (b c) = size c) ->
  length buf = length (allBound b) -> discBounds n f buf z = Ok (allBound b).
Proof.
  intros Hf Hb L. unfold discBounds. rewrite HN.
  change (0%nat, buf) with (vecSt buf []).
  assert (Hlen : forall s, stage_inv n m s -> length (concat (map b (s_terms s))) = total size s).
  { intros s (H1 & _). apply (concat_length_sum _ size). intros c Hc. apply Hb.
    exact (proj1 (Forall_forall _ _) H1 c Hc). }
  destruct (nodes_spec (vecSt buf) (vecFit buf) (vecFit_prefix _) rel
    (fun _ => rel) (fun (i : nat) c s =>
            do s' <- putIf (total size (c_inter c)) (Ok (f (c_inter c))) s ;; Ok (c, s'))
    (fun _ cs => concat (map b (intermediateOf cs))) N) with (k := (N + 1)%nat) (i := 0%nat) (ks := css)
    (l := z_con z) (h := @nil R) as (l1 & E1 & R1); auto.
  - intros i k c h Hi Hr F. pose proof Hr as Hr'. destruct Hr as (S1 & _ & I1 & _ & T1 & _).
    specialize (Hlen _ S1). rewrite Hf, T1 in * by auto. rewrite putIf_spec by auto. cbn [obind].
    eexists. split; [reflexivity|exact Hr'].
  - unfold vecFit. cbn [app]. rewrite L. unfold allBound. rewrite app_length. apply Nat.le_add_r.
  - rewrite E1. cbn [obind fst snd app].
    destruct (containers_spec (vecSt buf) (vecFit buf) (vecFit_prefix _)
      rel rel (fun c s =>
            do s' <- putIf (total size (c_term c)) (Ok (f (c_term c))) s ;; Ok (c, s'))
      (fun cs => concat (map b (terminalOf cs)))) with (ks := css) (l := l1)
      (h := flat_map (fun j : nat => flat_map (fun cs => concat (map b (intermediateOf cs))) css) (seq 0 (N + 1)))
      as (l2 & E2 & R2); auto.
    + intros k c h Hr F. pose proof Hr as Hr'. destruct Hr as (_ & S1 & _ & I1 & _ & T1 & _).
      specialize (Hlen _ S1). rewrite Hf, T1 in * by auto. rewrite putIf_spec by auto. cbn [obind].
      eexists. split; [reflexivity|exact Hr'].
    + apply R1. lia.
    + unfold vecFit. rewrite L. apply le_n.
    + rewrite E2. cbn [obind fst snd]. unfold vecSt. cbn [snd].
      rewrite skipn_all_nil, app_nil_r by (rewrite L; reflexivity). reflexivity.
Qed.
End Containers.
End Nodes.
End Disc.
