(** The composite rigid body algorithm. *)
From Coq Require Import Reals List Bool Arith Lia Lra.
From Verif Require Import Base.RVec Rbd.SpatialModel Rbd.SpatialProofs Rbd.SpatialProps Rbd.ArticulatedProps Rbd.InertiaProps
  Rbd.ChainModel Rbd.ChainProofs Rbd.ChainProps Rbd.JsimModel.
Import ListNotations.
Local Open Scope R_scope.

Definition goodBody (I : mat) : Prop := exists m c T, 0 < m /\ Body I m c T /\ sym3 T.
Definition goodXF (X : mat) : Prop := exists E r, rotation E /\ forceTransform E r X.

Lemma goodBody_sym I : goodBody I -> sym6 I.
Proof.
  intros (m & c & T & _ & B & S) i j Hi Hj. pose proof (Body_entry _ _ _ _ B) as E. rewrite !E by assumption.
  pose proof (S 1%nat 0%nat ltac:(lia) ltac:(lia)) as S1. pose proof (S 2%nat 0%nat ltac:(lia) ltac:(lia)) as S2.
  pose proof (S 2%nat 1%nat ltac:(lia) ltac:(lia)) as S3.
  idx i; idx j; ev; rewrite ?S1, ?S2, ?S3; ring.
Qed.

Lemma zeros9 M : fixedZero M -> M 0%nat 3%nat = 0 /\ M 1%nat 4%nat = 0 /\ M 2%nat 5%nat = 0 /\ M 3%nat 0%nat = 0 /\ M 4%nat 1%nat = 0 /\ M 5%nat 2%nat = 0 /\
  M 3%nat 4%nat = 0 /\ M 3%nat 5%nat = 0 /\ M 4%nat 3%nat = 0 /\ M 4%nat 5%nat = 0 /\ M 5%nat 3%nat = 0 /\ M 5%nat 4%nat = 0.
Proof.
  intros Z. destruct (Z 0%nat ltac:(lia)) as (Z1 & Z2 & Z3). destruct (Z 1%nat ltac:(lia)) as (Z4 & Z5 & Z6). destruct (Z 2%nat ltac:(lia)) as (Z7 & Z8 & Z9).
  pose proof (Z3 1%nat ltac:(lia) ltac:(discriminate)) as W1. pose proof (Z3 2%nat ltac:(lia) ltac:(discriminate)) as W2.
  pose proof (Z6 0%nat ltac:(lia) ltac:(discriminate)) as W3. pose proof (Z6 2%nat ltac:(lia) ltac:(discriminate)) as W4.
  pose proof (Z9 0%nat ltac:(lia) ltac:(discriminate)) as W5. pose proof (Z9 1%nat ltac:(lia) ltac:(discriminate)) as W6.
  cbn [Nat.add] in *. repeat split; assumption.
Qed.
Ltac zrw := try (match goal with H : ?x = 0 |- ?x = _ => rewrite H end).

Lemma assign_body I M m c T : Body I m c T -> fixedZero M -> Body (assign I M) m c T.
Proof.
  intros B Z. pose proof (Body_entry _ _ _ _ B) as E. destruct (zeros9 M Z) as (Z1 & Z2 & Z3 & Z4 & Z5 & Z6 & Z7 & Z8 & Z9 & Z10 & Z11 & Z12).
  apply entry_Body. intros i j Hi Hj. unfold assign. rewrite !E by lia.
  idx i; idx j; cbn -[inertia]; rewrite ?E by lia; ev; zrw; ring.
Qed.
Lemma fill_body I E T r c m XF IB : rotation E -> forceTransform E r XF -> Body I m c T -> sym3 T -> m <> 0 -> fixedZero IB ->
  exists c' T', Body (transformInertia I XF IB) m c' T' /\ sym3 T'.
Proof.
  intros RE HX HI ST M0 Z. rewrite (ti_val E T r c m I XF IB RE HX HI M0).
  match goal with |- context [fillInertia m ?p ?s IB] => set (cc := p); set (t := s) end.
  exists cc, (fun i j => match i, j with
     | 0, 0 => sXX t | 1, 1 => sYY t | 2, 2 => sZZ t | 0, 1 => sXY t | 1, 0 => sXY t | 0, 2 => sXZ t | 2, 0 => sXZ t | 1, 2 => sYZ t | _, _ => sYZ t end%nat).
  destruct (zeros9 IB Z) as (Z1 & Z2 & Z3 & Z4 & Z5 & Z6 & Z7 & Z8 & Z9 & Z10 & Z11 & Z12).
  clearbody cc t. split.
  - apply entry_Body. intros i j Hi Hj. idx i; idx j; ev; zrw; ring.
  - intros i j Hi Hj. idx i; idx j; reflexivity.
Qed.
Lemma add_body A B m c T m' c' T' : Body A m c T -> Body B m' c' T' -> sym3 T -> sym3 T' -> 0 < m -> 0 < m' ->
  (forall i j, (i < 6)%nat -> (j < 6)%nat -> addTo B A i j = A i j + B i j) /\ goodBody (addTo B A).
Proof.
  intros HA HB SA SB Hm Hm'. pose proof (Body_entry _ _ _ _ HA) as EA. pose proof (Body_entry _ _ _ _ HB) as EB.
  assert (K : forall i j, (i < 6)%nat -> (j < 6)%nat -> addTo B A i j = A i j + B i j).
  { intros i j Hi Hj. unfold addTo. idx i; idx j; cbn -[inertia]; rewrite ?EA, ?EB by lia; ev; ring. }
  split; [exact K|]. exists (m + m'), (fun i => (m * c i + m' * c' i) / (m + m')), (fun i j => T i j + T' i j).
  split; [lra|split].
  - apply entry_Body. intros i j Hi Hj. rewrite K, EA, EB by lia. idx i; idx j; ev; field; lra.
  - intros i j Hi Hj. rewrite (SA i j), (SB i j) by assumption. reflexivity.
Qed.
(** One step of the composite inertias. *)
Lemma composite_step I I' X M sp : goodBody I -> goodBody I' -> goodXF X -> fixedZero M -> fixedZero sp ->
  let sp1 := transformInertia I' X sp in
  let Ic := addTo sp1 (assign I M) in
  goodBody Ic /\ fixedZero sp1 /\ forall a, agree (rmv 6 Ic a) (fun i => rmv 6 I a i + rmv 6 X (rmv 6 I' (rmv 6 (tr X) a)) i).
Proof.
  intros (m & c & T & Hm & B & S) (m' & c' & T' & Hm' & B' & S') (E & r & RE & HX) ZM Zs sp1 Ic.
  destruct (fill_body I' E T' r c' m' X sp RE HX B' S' ltac:(lra) Zs) as (c2 & T2 & B2 & S2). fold sp1 in B2.
  pose proof (assign_body I M m c T B ZM) as BA.
  destruct (add_body (assign I M) sp1 m c T m' c2 T2 BA B2 S S2 Hm Hm') as [K1 K2].
  split; [exact K2|split; [exact (fixedZero_body _ _ _ _ B2)|]].
  intros a i Hi. rewrite (rmv_mext Ic (fun i j => I i j + mm X (mm I' (tr X)) i j)).
  - rewrite rmv_madd, rmv_mm. f_equal. apply rmv_agree. intros k Hk. apply rmv_mm.
  - intros j Hj. unfold Ic. rewrite K1 by assumption. f_equal.
    + rewrite (Body_entry _ _ _ _ BA), (Body_entry _ _ _ _ B) by assumption. reflexivity.
    + apply (C90_transformInertia E T' r c' m' I' X sp RE HX B' S' ltac:(lra) Zs); assumption.
Qed.

(** ** Forces carried towards the base. *)
Fixpoint up (F : rvec) (Xs : list mat) : list R := match Xs with [] => [] | X :: Xs' => rmv 6 X F 2%nat :: up (rmv 6 X F) Xs' end.
Lemma up_agree Xs : forall F G, agree F G -> up F Xs = up G Xs.
Proof.
  induction Xs as [|X Xs IH]; intros F G H; [reflexivity|]. cbn [up]. rewrite (rmv_agree X F G 2 H). f_equal. apply IH.
  intros i Hi. apply rmv_agree. exact H.
Qed.
Lemma up_lin Xs : forall F G x d, nth d (up (fun i => F i * x + G i) Xs) 0 = nth d (up F Xs) 0 * x + nth d (up G Xs) 0.
Proof.
  induction Xs as [|X Xs IH]; intros F G x d; [destruct d; cbn; ring|]. cbn [up].
  assert (K : forall i, rmv 6 X (fun i => F i * x + G i) i = rmv 6 X F i * x + rmv 6 X G i).
  { intros i. rewrite rmv_plus. f_equal. unfold rmv. rewrite <- rsum_scal_r. apply rsum_ext. intros; ring. }
  destruct d as [|d]; cbn [nth]; [apply K|]. rewrite (up_agree Xs _ (fun i => rmv 6 X F i * x + rmv 6 X G i)) by (intros i _; apply K). apply IH.
Qed.

Lemma put_eq H i j v : put H i j v i j = v.
Proof. unfold put. rewrite !Nat.eqb_refl. reflexivity. Qed.
Lemma put_neq H i j v a b : (a <> i \/ b <> j) -> put H i j v a b = H a b.
Proof. intros N. unfold put. destruct (Nat.eqb_spec a i); destruct (Nat.eqb_spec b j); cbn [andb]; try reflexivity; lia. Qed.
Lemma rowUp_other Xs : forall k0 k F H i j, length Xs = k -> (k <= k0)%nat ->
  ~ (i = k0 /\ (j < k)%nat) -> ~ (j = k0 /\ (i < k)%nat) -> rowUp k0 k F Xs H i j = H i j.
Proof.
  induction Xs as [|X Xs IH]; intros k0 k F H i j HL Hk N1 N2; [reflexivity|]. cbn [rowUp length] in *.
  rewrite IH by lia. rewrite !put_neq by lia. reflexivity.
Qed.
Lemma rowUp_row Xs : forall k0 k F H j, length Xs = k -> (k <= k0)%nat -> (j < k)%nat ->
  rowUp k0 k F Xs H k0 j = nth (k - 1 - j) (up F Xs) 0 /\ rowUp k0 k F Xs H j k0 = nth (k - 1 - j) (up F Xs) 0.
Proof.
  induction Xs as [|X Xs IH]; intros k0 k F H j HL Hk Hj; [cbn in HL; lia|]. cbn [rowUp length up] in *.
  destruct (Nat.eq_dec j (k - 1)) as [->|N].
  - rewrite Nat.sub_diag. cbn [nth]. rewrite !rowUp_other by lia. split.
    + rewrite put_neq, put_eq by lia. reflexivity.
    + rewrite put_eq, put_eq. reflexivity.
  - destruct (k - 1 - j)%nat as [|d] eqn:Ed; [lia|]. cbn [nth]. replace d with (k - 1 - 1 - j)%nat by lia. apply IH; lia.
Qed.

(** ** Linear part of the equations of motion. *)
Section Lin.
Variable Q : nat -> R.
Fixpoint linF (k : nat) (a : rvec) (I : mat) (rest : list (mat * mat)) : list R * rvec :=
  match rest with
  | [] => ([rmv 6 I a 2%nat], rmv 6 I a)
  | (X, I') :: rest' =>
      let '(t, f) := linF (S k) (fun i => rmv 6 (tr X) a i + aboutZ (Q (S k)) i) I' rest' in
      let F := fun i => rmv 6 I a i + rmv 6 X f i in
      (F 2%nat :: t, F)
  end.
Fixpoint acc (k : nat) (Xs : list mat) : rvec :=
  match Xs with
  | [] => aboutZ (Q k)
  | X :: Xs' => fun i => rmv 6 (tr X) (acc (k - 1) Xs') i + aboutZ (Q k) i
  end.
Lemma rdot_aboutZ F x : rdot 6 F (aboutZ x) = F 2%nat * x.
Proof. ev. ring. Qed.
Lemma rdot_tr F X a : rdot 6 F (rmv 6 (tr X) a) = rdot 6 (rmv 6 X F) a.
Proof.
  unfold rdot, rmv, tr. rewrite (rsum_ext 6 _ (fun i => rsum 6 (fun j => F i * X j i * a j))) by (intros; rewrite <- rsum_scal; apply rsum_ext; intros; ring).
  rewrite rsum_swap. apply rsum_ext. intros j _. rewrite <- rsum_scal_r. apply rsum_ext. intros; ring.
Qed.
Lemma rsum_shift n f : rsum (S n) f = f 0%nat + rsum n (fun i => f (S i)).
Proof. induction n as [|n IH]; [cbn; ring|]. cbn [rsum] in *. rewrite IH. ring. Qed.
Lemma rdot_acc Xs : forall k F, length Xs = k -> rdot 6 F (acc k Xs) = rsum (S k) (fun j => nth (k - j) (F 2%nat :: up F Xs) 0 * Q j).
Proof.
  induction Xs as [|X Xs IH]; intros k F HL; cbn [length] in HL.
  - subst. cbn [acc]. rewrite rdot_aboutZ. cbn. ring.
  - destruct k as [|k]; [lia|]. cbn [acc]. replace (S k - 1)%nat with k by lia.
    change (rdot 6 F (fun i => rmv 6 (tr X) (acc k Xs) i + aboutZ (Q (S k)) i)) with (rdot 6 F (radd (rmv 6 (tr X) (acc k Xs)) (aboutZ (Q (S k))))).
    rewrite rdot_add_r, rdot_aboutZ, rdot_tr, IH by lia.
    change (rsum (S (S k)) ?f) with (rsum (S k) f + f (S k)). cbv beta. rewrite Nat.sub_diag. cbn [nth]. f_equal.
    apply rsum_ext. intros j Hj. replace (S k - j)%nat with (S (k - j)) by lia. reflexivity.
Qed.
Lemma linF_agree rest : forall k a b I, agree a b -> fst (linF k a I rest) = fst (linF k b I rest) /\ agree (snd (linF k a I rest)) (snd (linF k b I rest)).
Proof.
  induction rest as [|[X I'] rest IH]; intros k a b I Hab; cbn [linF].
  - split; [cbn [fst]; rewrite (rmv_agree I a b 2 Hab); reflexivity|intros i Hi; apply rmv_agree; exact Hab].
  - destruct (IH (S k) (fun i => rmv 6 (tr X) a i + aboutZ (Q (S k)) i) (fun i => rmv 6 (tr X) b i + aboutZ (Q (S k)) i) I') as [K1 K2].
    { intros i Hi. rewrite (rmv_agree (tr X) a b i Hab). reflexivity. }
    destruct (linF (S k) (fun i => rmv 6 (tr X) a i + aboutZ (Q (S k)) i) I' rest) as [t f].
    destruct (linF (S k) (fun i => rmv 6 (tr X) b i + aboutZ (Q (S k)) i) I' rest) as [t' f']. cbn [fst snd] in *. subst t'.
    assert (F : forall i, (i < 6)%nat -> rmv 6 I a i + rmv 6 X f i = rmv 6 I b i + rmv 6 X f' i).
    { intros i Hi. rewrite (rmv_agree I a b i Hab), (rmv_agree X f f' i K2). reflexivity. }
    split; [rewrite F by lia; reflexivity|intros i Hi; apply F; exact Hi].
Qed.

Lemma col_sym Ic a : sym6 Ic -> rmv 6 Ic a 2%nat = rdot 6 (fun i => Ic i 2%nat) a.
Proof. intros S. unfold rmv, rdot. apply rsum_ext. intros j Hj. rewrite (S 2%nat j) by lia. reflexivity. Qed.
Lemma rmv_aboutZ A x i : rmv 6 A (aboutZ x) i = A i 2%nat * x.
Proof. ev. ring. Qed.

Lemma sweep_ok rest : forall k Xs I mem spare H, goodBody I -> List.Forall (fun p => goodXF (fst p) /\ goodBody (snd p)) rest ->
  List.Forall fixedZero mem -> fixedZero spare -> length Xs = k ->
  let '(Ic, spare', mem', H') := sweep k Xs I rest mem spare H in
  goodBody Ic /\ fixedZero spare' /\ List.Forall fixedZero mem' /\
  (forall i j, (i < k)%nat -> (j < k)%nat -> H' i j = H i j) /\
  (forall i j, (k <= Nat.max i j < k + S (length rest))%nat -> H' i j = H' j i) /\
  (exists g, (forall a, agree (snd (linF k a I rest)) (fun i => rmv 6 Ic a i + g i)) /\
     let FT := fun i => Ic i 2%nat * Q k + g i in
     forall d, (d <= k)%nat -> nth d (FT 2%nat :: up FT Xs) 0 = rsum (S (length rest)) (fun m => H' (k + m)%nat (k - d)%nat * Q (k + m)%nat)) /\
  fst (linF k (acc k Xs) I rest) = map (fun m => rsum (k + S (length rest)) (fun j => H' (k + m)%nat j * Q j)) (seq 0 (S (length rest))).
Proof.
  induction rest as [|[X I'] rest IH]; intros k Xs I mem spare H GI GR ZM ZS HL.
  - cbn [sweep]. set (H' := rowUp k k (fun i => I i 2%nat) Xs (put H k k (I 2%nat 2%nat))).
    assert (ROW : forall d, (d <= k)%nat -> H' k (k - d)%nat = nth d (I 2%nat 2%nat :: up (fun i => I i 2%nat) Xs) 0 /\ H' (k - d)%nat k = H' k (k - d)%nat).
    { intros d Hd. destruct d as [|d].
      - rewrite Nat.sub_0_r. split; [|reflexivity]. unfold H'. rewrite rowUp_other by lia. apply put_eq.
      - destruct (rowUp_row Xs k k (fun i => I i 2%nat) (put H k k (I 2%nat 2%nat)) (k - S d) HL ltac:(lia) ltac:(lia)) as [R1 R2].
        fold H' in R1, R2. replace (k - 1 - (k - S d))%nat with d in * by lia. split; [exact R1|congruence]. }
    split; [exact GI|split; [exact ZS|split; [constructor|split; [|split; [|split]]]]].
    + intros i j Hi Hj. unfold H'. rewrite rowUp_other, put_neq by lia. reflexivity.
    + cbn [length]. intros i j Hij. assert (i = k \/ j = k) as [->| ->] by lia.
      * destruct (ROW (k - j)%nat ltac:(lia)) as [_ R]. replace (k - (k - j))%nat with j in R by lia. congruence.
      * destruct (ROW (k - i)%nat ltac:(lia)) as [_ R]. replace (k - (k - i))%nat with i in R by lia. congruence.
    + exists (fun _ => 0). split; [intros a i Hi; cbn [linF snd]; ring|]. cbv zeta. intros d Hd. cbn [length rsum]. rewrite Nat.add_0_r.
      destruct (ROW d Hd) as [R _]. rewrite R.
      destruct d as [|d]; cbn [nth]; [ring|]. rewrite (up_lin Xs (fun i => I i 2%nat) (fun _ => 0) (Q k) d).
      replace (nth d (up (fun _ => 0) Xs) 0) with 0; [ring|]. clear. revert d. 
      assert (Z : forall X i, rmv 6 X (fun _ => 0) i = 0) by (intros; ev; ring).
      induction Xs as [|X Xs IH]; intros d; [destruct d; reflexivity|]. cbn [up]. destruct d as [|d]; cbn [nth]; [rewrite Z; reflexivity|].
      rewrite (up_agree Xs _ (fun _ => 0)) by (intros i _; apply Z). apply IH.
    + cbn [linF fst length seq map]. rewrite Nat.add_0_r, Nat.add_1_r. f_equal. rewrite (col_sym I _ (goodBody_sym I GI)), rdot_acc by exact HL.
      apply rsum_ext. intros j Hj. f_equal. destruct (ROW (k - j)%nat ltac:(lia)) as [R _]. replace (k - (k - j))%nat with j in R by lia. symmetry; exact R.
  - inversion GR as [|? ? [GX GI'] GR']; subst. cbn [fst snd] in GX, GI'. cbn [sweep]. set (k := length Xs) in *.
    assert (ZT : List.Forall fixedZero (tl mem)) by (destruct ZM; [constructor|assumption]).
    specialize (IH (S k) (X :: Xs) I' (tl mem) spare H GI' GR' ZT ZS eq_refl).
    destruct (sweep (S k) (X :: Xs) I' rest (tl mem) spare H) as [[[Ic' spare'] mem'] H1].
    destruct IH as (GIc' & ZS' & ZM' & OLD & SYM & (g' & LF & UP) & TAU).
    assert (ZH : fixedZero (hd (fun _ _ => 0) mem)).
    { destruct ZM as [|m0 mem0 Hm0 _]; [|exact Hm0]. intros i Hi. split; [reflexivity|split; [reflexivity|intros; reflexivity]]. }
    destruct (composite_step I Ic' X (hd (fun _ _ => 0) mem) spare' GI GIc' GX ZH ZS') as (GIc & ZS1 & STEP).
    set (sp1 := transformInertia Ic' X spare') in *. set (Ic := addTo sp1 (assign I (hd (fun _ _ => 0) mem))) in *.
    set (H' := rowUp k k (fun i => Ic i 2%nat) Xs (put H1 k k (Ic 2%nat 2%nat))).
    assert (ROW : forall d, (d <= k)%nat -> H' k (k - d)%nat = nth d (Ic 2%nat 2%nat :: up (fun i => Ic i 2%nat) Xs) 0 /\ H' (k - d)%nat k = H' k (k - d)%nat).
    { intros d Hd. destruct d as [|d].
      - rewrite Nat.sub_0_r. split; [|reflexivity]. unfold H'. rewrite rowUp_other by (unfold k; lia). apply put_eq.
      - destruct (rowUp_row Xs k k (fun i => Ic i 2%nat) (put H1 k k (Ic 2%nat 2%nat)) (k - S d) eq_refl ltac:(lia) ltac:(lia)) as [R1 R2].
        fold H' in R1, R2. replace (k - 1 - (k - S d))%nat with d in * by lia. split; [exact R1|congruence]. }
    assert (KEEP : forall i j, (k < Nat.max i j)%nat -> H' i j = H1 i j).
    { intros i j Hij. unfold H'. rewrite rowUp_other, put_neq by (unfold k in *; lia). reflexivity. }
    set (g := rmv 6 X (fun i => Ic' i 2%nat * Q (S k) + g' i)).
    split; [exact GIc|split; [exact ZS1|split; [|split; [|split; [|split]]]]].
    + constructor; [|exact ZM']. destruct GIc as (m & c & T & _ & B & _). exact (fixedZero_body _ _ _ _ B).
    + intros i j Hi Hj. unfold H'. rewrite rowUp_other, put_neq by (unfold k in *; lia). apply OLD; lia.
    + intros i j Hij. cbn [length] in Hij. destruct (Nat.eq_dec (Nat.max i j) k) as [E|N].
      * assert (i = k \/ j = k) as [->| ->] by lia.
        -- destruct (ROW (k - j)%nat ltac:(lia)) as [_ R]. replace (k - (k - j))%nat with j in R by lia. congruence.
        -- destruct (ROW (k - i)%nat ltac:(lia)) as [_ R]. replace (k - (k - i))%nat with i in R by lia. congruence.
      * rewrite !KEEP by lia. apply SYM. lia.
    + exists g. split.
      * intros a i Hi. cbn [linF].
        specialize (LF (fun i => rmv 6 (tr X) a i + aboutZ (Q (S k)) i)).
        destruct (linF (S k) (fun i => rmv 6 (tr X) a i + aboutZ (Q (S k)) i) I' rest) as [t f]. cbn [snd] in *.
        rewrite (STEP a i Hi). rewrite Rplus_assoc. f_equal. rewrite (rmv_agree X f _ i LF). unfold g. rewrite <- rmv_plus.
        apply rmv_agree. intros j Hj. rewrite rmv_plus, rmv_aboutZ. ring.
      * cbv zeta. intros d Hd. cbn [length]. rewrite rsum_shift, Nat.add_0_r.
        destruct (ROW d Hd) as [R _]. rewrite R.
        specialize (UP (S d) ltac:(lia)). cbn [nth] in UP. cbv zeta in UP. cbn [up] in UP. change (rmv 6 X (fun i => Ic' i 2%nat * Q (S k) + g' i)) with g in UP.
        replace (rsum (S (length rest)) (fun i => H' (k + S i)%nat (k - d)%nat * Q (k + S i)%nat)) with (nth d (g 2%nat :: up g Xs) 0).
        -- destruct d as [|d]; cbn [nth]; [ring|]. rewrite (up_lin Xs (fun i => Ic i 2%nat) g (Q k) d). ring.
        -- rewrite UP. apply rsum_ext. intros m Hm. rewrite KEEP by lia. replace (S k + m)%nat with (k + S m)%nat by lia. reflexivity.
    + cbn [linF]. cbn [acc] in TAU. replace (S k - 1)%nat with k in TAU by lia.
      specialize (LF (fun i => rmv 6 (tr X) (acc k Xs) i + aboutZ (Q (S k)) i)).
      destruct (linF (S k) (fun i => rmv 6 (tr X) (acc k Xs) i + aboutZ (Q (S k)) i) I' rest) as [t f]. cbn [fst snd] in *.
      change (length ((X, I') :: rest)) with (S (length rest)). set (n := S (length rest)) in *. cbn [seq map]. f_equal.
      * rewrite Nat.add_0_r.
        transitivity (rmv 6 Ic (acc k Xs) 2%nat + g 2%nat).
        { rewrite (STEP _ 2%nat ltac:(lia)). rewrite Rplus_assoc. f_equal. rewrite (rmv_agree X f _ 2 LF). unfold g. rewrite <- rmv_plus.
          apply rmv_agree. intros j Hj. rewrite rmv_plus, rmv_aboutZ. ring. }
        rewrite (col_sym Ic _ (goodBody_sym Ic GIc)), rdot_acc by reflexivity.
        replace (k + S n)%nat with (S k + n)%nat by lia.
        assert (SPL : forall a b f, rsum (a + b) f = rsum a f + rsum b (fun m => f (a + m)%nat)).
        { clear. intros a b f. induction b as [|b IH]; [rewrite Nat.add_0_r; cbn [rsum]; ring|]. rewrite Nat.add_succ_r. cbn [rsum]. rewrite IH. ring. }
        rewrite SPL. f_equal.
        -- apply rsum_ext. intros j Hj. f_equal. destruct (ROW (k - j)%nat ltac:(lia)) as [R _]. replace (k - (k - j))%nat with j in R by lia. symmetry; exact R.
        -- specialize (UP 1%nat ltac:(lia)). cbn [nth] in UP. cbv zeta in UP. cbn [up nth] in UP. fold g in UP. rewrite UP.
           apply rsum_ext. intros m Hm. rewrite KEEP by lia. rewrite (SYM k (S k + m)%nat) by lia. replace (S k - 1)%nat with k by lia. reflexivity.
      * rewrite TAU. rewrite <- seq_shift, map_map. apply map_ext_in. intros m Hm. apply in_seq in Hm.
        replace (S k + n)%nat with (k + S n)%nat by lia. apply rsum_ext. intros j Hj.
        replace (S k + m)%nat with (k + S m)%nat by lia. rewrite KEEP by lia. reflexivity.
Qed.
End Lin.
