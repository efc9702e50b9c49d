(** * Proofs about load functions *)
From Coq Require Import List String Ascii ZArith Bool Lia.
From Coq Require Import Floats.SpecFloat.
From Verif Require Import Base.Outcome Core.InfoModel Core.InfoProofs Optcon.SettingsModel Optcon.SettingsSpec.
Import ListNotations.
Local Open Scope string_scope.

Lemma dotted_inj pre f g : dotted pre f = dotted pre g -> f = g.
Proof.
  unfold dotted. destruct (pre =? ""); auto. intros H. apply append_inj_l in H.
  now apply append_inj_l in H.
Qed.
Lemma upd_same s f v : upd s f v f = v.
Proof. unfold upd. now rewrite String.eqb_refl. Qed.
Lemma upd_other s f v g : g <> f -> upd s f v g = s g.
Proof. unfold upd. intros H. destruct (String.eqb_spec g f); congruence. Qed.

(** The members a statement can change. *)
Fixpoint writes (pre : string) (c : stm) : list string :=
  match c with
  | Get _ f _ | GetConv _ _ f _ | Copy f _ | Set_ f _ | IfExists _ f _ | Enum _ f _
  | EnumWarn _ f _ => [dotted pre f]
  | Try b => flat_map (writes pre) b
  | Load m _ b => flat_map (writes (dotted pre m)) b
  | Switch _ cases =>
      (fix go l := match l with [] => [] | (_, c') :: r => (writes pre c' ++ go r)%list end) cases
  end.

Section Gen.
Variable pd : string -> option spec_float.
Variable pt : tree.
Notation exec := (exec pd pt).

Fixpoint exec_frame (c : stm) : forall pre ns s g,
  ~ In g (writes pre c) -> snd (exec pre ns c s) g = s g.
Proof.
  assert (SEQ : forall b, List.Forall (fun c => forall pre ns s g,
              ~ In g (writes pre c) -> snd (exec pre ns c s) g = s g) b ->
            forall pre ns s g, ~ In g (flat_map (writes pre) b) ->
              snd (seq_ (exec pre ns) b s) g = s g).
  { induction 1 as [|c' r H _ IH]; intros pre ns s g N; [reflexivity|].
    cbn [flat_map] in N. rewrite in_app_iff in N. cbn [seq_].
    specialize (H pre ns s g (fun x => N (or_introl x))).
    destruct (exec pre ns c' s) as [[] s'] eqn:Ex; cbn [snd] in *; auto.
    rewrite (IH pre ns s' g (fun x => N (or_intror x))). auto. }
  destruct c; intros pre ns s g N; cbn [writes SettingsModel.exec] in *.
  - destruct (get pd pt t ns key); cbn; auto. apply upd_other. cbn in N. intuition congruence.
  - destruct (get pd pt t ns key); cbn; auto. apply upd_other. cbn in N. intuition congruence.
  - apply upd_other. cbn in N. intuition congruence.
  - apply upd_other. cbn in N. intuition congruence.
  - destruct (pt _); cbn; auto. destruct (get pd pt t ns key); cbn; auto. apply upd_other. cbn in N. intuition congruence.
  - destruct (get pd pt TS ns key) as [[]| |]; cbn; auto.
    destruct (assoc names s0); cbn; auto. apply upd_other. cbn in N. intuition congruence.
  - destruct (get pd pt TS ns key) as [[]| |]; cbn; auto.
    destruct (assoc names s0); cbn; auto. apply upd_other. cbn in N. intuition congruence.
  - assert (F : List.Forall (fun c => forall pre ns s g,
              ~ In g (writes pre c) -> snd (exec pre ns c s) g = s g) b).
    { clear N. induction b as [|c r IH]; constructor; [apply exec_frame|apply IH]. }
    specialize (SEQ b F pre ns s g N).
    destruct (seq_ (exec pre ns) b s) as [[] s']; cbn in *; auto.
  - assert (F : List.Forall (fun c => forall pre ns s g,
              ~ In g (writes pre c) -> snd (exec pre ns c s) g = s g) b).
    { clear N. induction b as [|c r IH]; constructor; [apply exec_frame|apply IH]. }
    apply (SEQ b F). exact N.
  - induction cases as [|[v c] r IH]; [reflexivity|]. rewrite in_app_iff in N.
    destruct (value_eqb (s (dotted pre member)) v).
    + apply exec_frame. tauto.
    + apply IH. tauto.
Qed.

Lemma seq_frame b : forall pre ns s g,
  ~ In g (flat_map (writes pre) b) -> snd (seq_ (exec pre ns) b s) g = s g.
Proof.
  induction b as [|c' r IH]; intros pre ns s g N; [reflexivity|].
  cbn [flat_map] in N. rewrite in_app_iff in N. cbn [seq_].
  pose proof (exec_frame c' pre ns s g (fun x => N (or_introl x))) as H.
  destruct (exec pre ns c' s) as [[] s'] eqn:Ex; cbn [snd] in *; auto.
  rewrite (IH pre ns s' g (fun x => N (or_intror x))). auto.
Qed.

Lemma seq_app run a b s :
  seq_ run (a ++ b) s = match seq_ run a s with (Done, s') => seq_ run b s' | x => x end.
Proof.
  revert s. induction a as [|c r IH]; intros s; [reflexivity|].
  cbn [seq_ app]. destruct (run c s) as [[] s']; auto.
Qed.

(** ** Lists of independent settings *)
Definition stm_of (e : setting) : stm :=
  match need_ e with
  | Required => GetConv (type_ e) (conv_ e) (member_ e) (key_ e)
  | Optional => Try [GetConv (type_ e) (conv_ e) (member_ e) (key_ e)]
  | IfThere => IfExists (type_ e) (member_ e) (key_ e)
  end.

(** a statement does what the setting says *)
Definition implements (c : stm) (e : setting) : Prop :=
  forall pre ns s,
    (fst (exec pre ns c s) <> Exited)
    /\ (fst (exec pre ns c s) = Done <-> acceptable pd pt ns e)
    /\ (acceptable pd pt ns e -> forall g,
          snd (exec pre ns c s) g
          = if g =? dotted pre (member_ e) then expected pd pt ns e (s (dotted pre (member_ e))) else s g).

Lemma get_given t ns k :
  get pd pt t ns k = match given pd pt t ns k with Some v => Ok v | None => Throw end.
Proof. unfold get, pt_get, given. destruct (pt _); auto. Qed.

Lemma eqb_case (g f : string) (s : settings) :
  (if g =? f then s f else s g) = s g.
Proof. destruct (String.eqb_spec g f); subst; auto. Qed.

Lemma impl_getconv t conv f k : implements (GetConv t conv f k) (mkSetting Required t conv f k).
Proof.
  intros pre ns s. cbn [SettingsModel.exec]. rewrite get_given. unfold acceptable, expected. cbn.
  destruct (given pd pt t ns k); cbn.
  - repeat split; congruence.
  - repeat split; try congruence.
Qed.
Lemma impl_get t f k : implements (Get t f k) (mkSetting Required t id_conv f k).
Proof. exact (impl_getconv t id_conv f k). Qed.
Lemma impl_opt t f k : implements (Opt t f k) (mkSetting Optional t id_conv f k).
Proof.
  intros pre ns s. unfold Opt. cbn [SettingsModel.exec seq_]. rewrite get_given. unfold acceptable, expected. cbn.
  destruct (given pd pt t ns k); cbn.
  - repeat split; try congruence.
  - repeat split; try congruence; intros _ g; now rewrite eqb_case.
Qed.
Lemma impl_ifexists t f k : implements (IfExists t f k) (mkSetting IfThere t id_conv f k).
Proof.
  intros pre ns s. cbn [SettingsModel.exec]. rewrite get_given. unfold acceptable, expected, given.
  cbn [need_ type_ conv_ member_ key_].
  destruct (pt (path (ns ++ "." ++ k))) as [txt|] eqn:Hp; cbn in *.
  - destruct (parse pd t txt); cbn.
    + split; [intros X; discriminate X|]. split; [split; [intros _ _ X; discriminate X|reflexivity]|]. reflexivity.
    + split; [intros X; discriminate X|]. split; [split; [intros X; discriminate X|]|]; intros H; exfalso; apply H; congruence.
  - repeat split; try congruence; intros _ g; now rewrite eqb_case.
Qed.
Lemma impl_conv c n t conv conv' f k :
  (forall txt v, parse pd t txt = Some v -> conv v = conv' v) ->
  implements c (mkSetting n t conv f k) -> implements c (mkSetting n t conv' f k).
Proof.
  intros Hc H pre ns s. destruct (H pre ns s) as (A & B & C). split; [exact A|]. split; [exact B|].
  intros Ha g. rewrite (C Ha g). unfold expected. cbn. unfold given.
  destruct (pt _); auto. destruct (parse pd t s0) eqn:P; auto. now rewrite (Hc _ _ P).
Qed.

(** entries for the same member are the same *)
Definition consistent (l : list setting) : Prop :=
  forall e e', In e l -> In e' l -> member_ e = member_ e' ->
    type_ e = type_ e' /\ key_ e = key_ e' /\ conv_ e = conv_ e'.

Lemma flat_spec b l : Forall2 implements b l -> consistent l -> forall pre ns s,
  (fst (seq_ (exec pre ns) b s) <> Exited)
  /\ (fst (seq_ (exec pre ns) b s) = Done <-> List.Forall (acceptable pd pt ns) l)
  /\ (fst (seq_ (exec pre ns) b s) = Done ->
        (forall e, In e l -> snd (seq_ (exec pre ns) b s) (dotted pre (member_ e))
                           = expected pd pt ns e (s (dotted pre (member_ e))))
        /\ forall g, ~ In g (map (fun e => dotted pre (member_ e)) l) ->
             snd (seq_ (exec pre ns) b s) g = s g).
Proof.
  induction 1 as [|c e b l I F IH]; intros CO pre ns s; cbn [seq_].
  - cbn. repeat split; intros; try discriminate; auto. tauto.
  - assert (CO' : consistent l) by (intros x y Hx Hy; apply CO; right; auto).
    destruct (I pre ns s) as (IE & ID & IV).
    destruct (exec pre ns c s) as [[] s1] eqn:Ex; cbn [fst snd] in *; [| |congruence].
    2:{ split; [discriminate|]. split.
        - split; [discriminate|]. intros A. inversion A; subst. apply ID in H1. discriminate.
        - discriminate. }
    assert (Ha : acceptable pd pt ns e) by now apply ID. specialize (IV Ha).
    destruct (IH CO' pre ns s1) as (JE & JD & JV).
    split; [exact JE|]. split.
    { rewrite JD. split; intros H; [constructor; auto|now inversion H]. }
    intros D. destruct (JV D) as [V1 V2].
    assert (HD : forall x, In x l -> member_ x = member_ e ->
              snd (seq_ (exec pre ns) b s1) (dotted pre (member_ e))
              = expected pd pt ns e (s (dotted pre (member_ e)))).
    { intros x Hx Em. pose proof (V1 x Hx) as V. rewrite Em in V. rewrite V.
      destruct (CO x e (or_intror Hx) (or_introl eq_refl) Em) as (T1 & T2 & T3).
      rewrite IV, String.eqb_refl. unfold expected. rewrite T1, T2, T3.
      now destruct (given pd pt (type_ e) ns (key_ e)). }
    split.
    + intros x [<-|Hx].
      * destruct (in_dec string_dec (member_ e) (map member_ l)) as [Hin|Hn].
        -- apply in_map_iff in Hin. destruct Hin as (y & Ey & Hy). eapply HD; eauto.
        -- rewrite V2. { rewrite IV, String.eqb_refl. reflexivity. }
           rewrite in_map_iff. intros (y & Ey & Hy). apply dotted_inj in Ey. apply Hn.
           rewrite <- Ey. now apply in_map.
      * destruct (string_dec (member_ x) (member_ e)) as [Em|Nm].
        -- destruct (CO x e (or_intror Hx) (or_introl eq_refl) Em) as (T1 & T2 & T3).
           rewrite Em. rewrite (HD x Hx Em). unfold expected. now rewrite T1, T2, T3.
        -- rewrite (V1 x Hx), IV.
           destruct (String.eqb_spec (dotted pre (member_ x)) (dotted pre (member_ e))) as [Eq|_]; auto.
           apply dotted_inj in Eq. contradiction.
    + intros g Ng. cbn in Ng. rewrite V2 by tauto. rewrite IV.
      destruct (String.eqb_spec g (dotted pre (member_ e))); [exfalso; apply Ng; left; auto|auto].
Qed.

Lemma consistent_nodup l : NoDup (map member_ l) -> consistent l.
Proof.
  induction l as [|a r IH]; intros N e e' He He' Em; [destruct He|].
  cbn in N. inversion N; subst.
  destruct He as [->|He], He' as [->|He']; auto.
  - exfalso. apply H1. rewrite Em. now apply in_map.
  - exfalso. apply H1. rewrite <- Em. now apply in_map.
  - now apply (IH H2 e e').
Qed.
End Gen.
