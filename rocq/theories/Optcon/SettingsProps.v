(** * C87: settings are what the settings file says *)
From Coq Require Import List String Ascii ZArith Bool Lia.
From Coq Require Import Floats.SpecFloat.
From Verif Require Import Base.Outcome Core.InfoModel Core.InfoProofs Optcon.SettingsModel
  Optcon.SettingsSpec Optcon.SettingsProofs.
Import ListNotations.
Local Open Scope string_scope.

Section Main.
Variable pd : string -> option spec_float.
Variable pt : tree.
Notation exec := (exec pd pt).
Notation run := (run pd pt).

(** the setting a statement implements *)
Definition setting_of (c : stm) : setting :=
  match c with
  | Get t f k => mkSetting Required t id_conv f k
  | GetConv t v f k => mkSetting Required t v f k
  | IfExists t f k => mkSetting IfThere t id_conv f k
  | Try [Get t f k] => mkSetting Optional t id_conv f k
  | _ => mkSetting Optional TB id_conv "" ""
  end.
Definition simple (c : stm) : bool :=
  match c with Get _ _ _ | GetConv _ _ _ _ | IfExists _ _ _ | Try [Get _ _ _] => true | _ => false end.
Lemma simple_impl b : forallb simple b = true -> Forall2 (implements pd pt) b (map setting_of b).
Proof.
  induction b as [|c r IH]; cbn; intros H; constructor.
  - apply andb_true_iff in H. destruct H as [H _].
    destruct c; try discriminate; try apply impl_get; try apply impl_getconv; try apply impl_ifexists.
    destruct b as [|[] [|]]; try discriminate. apply impl_opt.
  - apply IH. apply andb_true_iff in H. tauto.
Qed.

(** settings that say the same *)
Definition agree (e e' : setting) : Prop :=
  need_ e = need_ e' /\ type_ e = type_ e' /\ member_ e = member_ e' /\ key_ e = key_ e'
  /\ forall txt v, parse pd (type_ e) txt = Some v -> conv_ e v = conv_ e' v.
Lemma agree_expected ns e e' old : agree e e' -> expected pd pt ns e old = expected pd pt ns e' old.
Proof.
  intros (_ & T & _ & K & C). unfold expected, given. rewrite T, K in *.
  destruct (pt _); auto. destruct (parse pd (type_ e') s) eqn:P; auto. now apply (C s).
Qed.
Lemma agree_acceptable ns e e' : agree e e' -> (acceptable pd pt ns e <-> acceptable pd pt ns e').
Proof. intros (N & T & _ & K & _). unfold acceptable, given. now rewrite N, T, K. Qed.
Definition covers (table : list setting) (b : list stm) : Prop :=
  forall e, In e table -> exists e', In e' (map setting_of b) /\ agree e e'.

Lemma flat_loaded b table : forallb simple b = true -> consistent (map setting_of b) ->
  covers table b -> forall pre ns s,
  (fst (seq_ (exec pre ns) b s) <> Exited)
  /\ (fst (seq_ (exec pre ns) b s) = Done ->
       loaded pd pt pre ns table s (snd (seq_ (exec pre ns) b s))
       /\ List.Forall (acceptable pd pt ns) table).
Proof.
  intros S C K pre ns s. destruct (flat_spec pd pt _ _ (simple_impl b S) C pre ns s) as (A & B & V).
  split; [exact A|]. intros D. destruct (V D) as [V1 _]. split.
  - intros e He. destruct (K e He) as (e' & He' & Ag). rewrite (agree_expected ns _ _ _ Ag).
    destruct Ag as (_ & _ & M & _). rewrite M. exact (V1 e' He').
  - apply List.Forall_forall. intros e He. destruct (K e He) as (e' & He' & Ag).
    apply (agree_acceptable ns _ _ Ag). apply B in D. rewrite List.Forall_forall in D. auto.
Qed.
Lemma flat_done b table : forallb simple b = true -> consistent (map setting_of b) ->
  (forall e', In e' (map setting_of b) -> exists e, In e table /\ agree e e') -> forall pre ns s,
  List.Forall (acceptable pd pt ns) table -> fst (seq_ (exec pre ns) b s) = Done.
Proof.
  intros S C K pre ns s F. destruct (flat_spec pd pt _ _ (simple_impl b S) C pre ns s) as (A & B & V).
  apply B. apply List.Forall_forall. intros e' He'. destruct (K e' He') as (e & He & Ag).
  apply (agree_acceptable ns _ _ Ag). rewrite List.Forall_forall in F. auto.
Qed.

Lemma wrap_agree txt v : parse pd TU txt = Some v -> wrap v = to_int32 v.
Proof.
  cbn. unfold parse_unsigned. destruct (parse_Z txt) as [z|]; [|discriminate]. cbn.
  destruct (Z.abs z <? _)%Z; [|discriminate]. cbn. intros [= <-]. cbn. f_equal.
  assert (B : (0 <= z mod 4294967296 < 4294967296)%Z) by (apply Z.mod_pos_bound; lia).
  set (m := (z mod 4294967296)%Z) in *. clearbody m.
  destruct (Z.ltb_spec m 2147483648).
  - rewrite Z.mod_small; lia.
  - replace (m + 2147483648)%Z with (m - 2147483648 + 1 * 4294967296)%Z by lia.
    rewrite Z.mod_add by lia. rewrite Z.mod_small; lia.
Qed.

(** checks by computation *)
Definition mem_b (x : string) (l : list string) : bool := existsb (String.eqb x) l.
Lemma mem_b_in x l : mem_b x l = true <-> In x l.
Proof.
  unfold mem_b. rewrite existsb_exists. split.
  - intros (y & Hy & E). apply String.eqb_eq in E. now subst.
  - intros H. exists x. split; [exact H|apply String.eqb_refl].
Qed.
Lemma not_in_b x l : mem_b x l = false -> ~ In x l.
Proof. intros H Hin. apply mem_b_in in Hin. congruence. Qed.
Lemma incl_b l l' : forallb (fun x => mem_b x l') l = true -> incl l l'.
Proof. rewrite forallb_forall. intros H x Hx. apply mem_b_in. auto. Qed.
Fixpoint nodup_b (l : list string) : bool :=
  match l with [] => true | x :: r => (negb (mem_b x r) && nodup_b r)%bool end.
Lemma nodup_b_spec l : nodup_b l = true -> NoDup l.
Proof.
  induction l as [|x r IH]; cbn; intros H; constructor; apply andb_true_iff in H; destruct H as [A B]; auto.
  apply not_in_b. now destruct (mem_b x r).
Qed.
Definition named (l : list setting) (m : string) : option setting :=
  find (fun e => member_ e =? m) l.
Lemma named_in l m e : named l m = Some e -> In e l.
Proof. intros H. now apply find_some in H. Qed.
Lemma covers_by table b :
  List.Forall (fun e => match named (map setting_of b) (member_ e) with Some e' => agree e e' | None => False end) table ->
  covers table b.
Proof.
  intros F e He. rewrite List.Forall_forall in F. specialize (F e He). cbn in F.
  destruct (named (map setting_of b) (member_ e)) as [e'|] eqn:N; [|destruct F].
  exists e'. split; [eapply named_in; eauto|exact F].
Qed.
Lemma covered_by table b :
  List.Forall (fun e' => match named table (member_ e') with Some e => agree e e' | None => False end) (map setting_of b) ->
  forall e', In e' (map setting_of b) -> exists e, In e table /\ agree e e'.
Proof.
  intros F e He. rewrite List.Forall_forall in F. specialize (F e He). cbn in F.
  destruct (named table (member_ e)) as [e'|] eqn:N; [|destruct F].
  exists e'. split; [eapply named_in; eauto|exact F].
Qed.
Ltac agree_tac := lazy -[agree wrap to_int32 choice yes_no id_conv];
  split; [reflexivity|split; [reflexivity|split; [reflexivity|split; [reflexivity|]]]]; cbn [type_ conv_];
  intros txt v P; first [reflexivity | exact (wrap_agree txt v P) | now destruct v as [| |[]|]].
Ltac cover := apply covers_by; lazy -[agree wrap to_int32 choice yes_no id_conv];
  repeat (apply List.Forall_cons; [agree_tac|]); apply List.Forall_nil.
Ltac cover' := apply covered_by; lazy -[agree wrap to_int32 choice yes_no id_conv];
  repeat (apply List.Forall_cons; [agree_tac|]); apply List.Forall_nil.
Ltac nodup := apply nodup_b_spec; vm_compute; reflexivity.

(** ** The solver *)
Definition scalar_part : list stm := firstn 19 load_nloptcon.
Definition line_search_part : stm := Try [Load "lineSearchSettings" ".line_search" load_line_search].
Definition lqoc_part : stm := Try [Load "lqoc_solver_settings" ".lqoc_solver_settings" load_lqoc].
Definition names_part : stm :=
  Try [ Enum integrators "integrator" "integrator";
        Enum discretizations "discretization" "discretization";
        Enum algorithms "nlocp_algorithm" "nlocp_algorithm";
        Enum lqoc_solvers "lqocp_solver" "locp_solver" ].
Lemma parts : load_nloptcon = (scalar_part ++ [line_search_part; lqoc_part; names_part])%list.
Proof. reflexivity. Qed.

Lemma cons_scalar : consistent (map setting_of scalar_part).
Proof. apply consistent_nodup. cbn. nodup. Qed.
Lemma cons_lqoc : consistent (map setting_of load_lqoc).
Proof. apply consistent_nodup. cbn. nodup. Qed.
Lemma scalar_done ns s : fst (seq_ (exec "" ns) scalar_part s) = Done.
Proof.
  destruct (flat_spec pd pt scalar_part _ (simple_impl scalar_part eq_refl)
     cons_scalar "" ns s) as (_ & B & _).
  apply B. repeat (constructor; [exact I|]). constructor.
Qed.
Lemma try_not_thrown pre ns b s : fst (exec pre ns (Try b) s) <> Thrown.
Proof. cbn. destruct (seq_ (exec pre ns) b s) as [[] ?]; cbn; congruence. Qed.

Lemma run_parts ns s : run load_nloptcon ns s
  = let s1 := snd (seq_ (exec "" ns) scalar_part s) in
    let r2 := exec "" ns line_search_part s1 in
    match fst r2 with
    | Done => let r3 := exec "" ns lqoc_part (snd r2) in
              match fst r3 with Done => exec "" ns names_part (snd r3) | _ => r3 end
    | _ => r2
    end.
Proof.
  unfold SettingsModel.run. rewrite parts, seq_app. cbn zeta.
  pose proof (scalar_done ns s) as D.
  destruct (seq_ (exec "" ns) scalar_part s) as [st s1]. cbn in D. subst st. cbn [seq_ snd].
  destruct (exec "" ns line_search_part s1) as [[] s2]; cbn [fst snd]; auto.
  destruct (exec "" ns lqoc_part s2) as [[] s3]; cbn [fst snd]; auto.
  destruct (exec "" ns names_part s3) as [[] s4]; reflexivity.
Qed.

Lemma lqoc_status pre ns s : fst (seq_ (exec pre ns) load_lqoc s) = Done.
Proof.
  destruct (flat_spec pd pt load_lqoc _ (simple_impl load_lqoc eq_refl) cons_lqoc pre ns s) as (_ & B & _).
  apply B. repeat (constructor; [exact I|]). constructor.
Qed.
Lemma lqoc_exec ns s :
  exec "" ns lqoc_part s
  = (Done, snd (seq_ (exec "lqoc_solver_settings" (ns ++ ".lqoc_solver_settings")) load_lqoc s)).
Proof.
  unfold lqoc_part. cbn [SettingsModel.exec].
  change (dotted "" "lqoc_solver_settings") with "lqoc_solver_settings".
  pose proof (lqoc_status "lqoc_solver_settings" (ns ++ ".lqoc_solver_settings") s) as D.
  unfold seq_ at 1. cbn [SettingsModel.exec].
  change (dotted "" "lqoc_solver_settings") with "lqoc_solver_settings".
  destruct (seq_ _ load_lqoc s) as [st s3]. cbn in D. subst st. reflexivity.
Qed.
Lemma lqoc_done ns s : fst (exec "" ns lqoc_part s) = Done.
Proof. now rewrite lqoc_exec. Qed.

(** The members that loading the settings of the solver can change. *)
Definition solver_members : list string :=
  (map member_ nloptcon_settings
   ++ map (fun e => append "lqoc_solver_settings." (member_ e)) lqoc_settings
   ++ map (append "lineSearchSettings.")
        ["type"; "maxIterations"; "alpha_0"; "n_alpha"; "debugPrint"; "alpha_max"; "adaptive";
         "armijo_parameter"]
   ++ ["integrator"; "discretization"; "nlocp_algorithm"; "lqocp_solver"])%list.

Ltac notin := apply not_in_b; vm_compute; reflexivity.

(** No file makes loading throw.  If the process is not ended, every numeric, boolean and text
    setting has the value of the file, or the value it had if the file has none (or an
    unreadable one), and nothing else changes. *)
Theorem C87_solver_settings ns s :
  let r := run load_nloptcon ns s in
  fst r <> Thrown
  /\ (fst r = Done ->
        loaded pd pt "" ns nloptcon_settings s (snd r)
        /\ loaded pd pt "lqoc_solver_settings" (ns ++ ".lqoc_solver_settings") lqoc_settings s (snd r))
  /\ forall g, ~ In g solver_members -> snd r g = s g.
Proof.
  intros r.
  assert (FR : forall g, ~ In g (flat_map (writes "") load_nloptcon) -> snd r g = s g).
  { intros g Hg. apply seq_frame. exact Hg. }
  split; [|split].
  - unfold r. rewrite run_parts. cbn zeta.
    pose proof (try_not_thrown "" ns [Load "lineSearchSettings" ".line_search" load_line_search]
      (snd (seq_ (exec "" ns) scalar_part s))) as T2. fold line_search_part in T2.
    destruct (exec "" ns line_search_part _) as [[] s2]; cbn [fst snd] in *; try congruence.
    pose proof (lqoc_done ns s2) as T3.
    destruct (exec "" ns lqoc_part s2) as [st3 s3]. cbn [fst snd] in *. subst st3.
    apply try_not_thrown.
  - unfold r. rewrite run_parts. cbn zeta. clear FR r.
    destruct (flat_loaded scalar_part nloptcon_settings eq_refl cons_scalar
      ltac:(cover) "" ns s) as (_ & SC).
    destruct (SC (scalar_done ns s)) as [L1 _]. clear SC.
    assert (FS : forall g, ~ In g (flat_map (writes "") scalar_part) ->
        snd (seq_ (exec "" ns) scalar_part s) g = s g) by (intros; now apply seq_frame).
    set (s1 := snd (seq_ (exec "" ns) scalar_part s)) in *.
    pose proof (exec_frame pd pt line_search_part "" ns s1) as F2.
    destruct (exec "" ns line_search_part s1) as [[] s2]; cbn [fst snd] in *; try discriminate.
    pose proof (lqoc_done ns s2) as D3.
    pose proof (exec_frame pd pt lqoc_part "" ns s2) as F3.
    assert (L3 : loaded pd pt "lqoc_solver_settings" (ns ++ ".lqoc_solver_settings") lqoc_settings s2
                   (snd (exec "" ns lqoc_part s2))).
    { destruct (flat_loaded load_lqoc lqoc_settings eq_refl cons_lqoc
        ltac:(cover) "lqoc_solver_settings" (ns ++ ".lqoc_solver_settings") s2) as (_ & SC).
      rewrite lqoc_exec. apply SC. apply lqoc_status. }
    destruct (exec "" ns lqoc_part s2) as [st3 s3]. cbn [fst snd] in *. subst st3.
    pose proof (exec_frame pd pt names_part "" ns s3) as F4.
    intros _. split.
    + intros e He. pose proof (L1 e He) as V. change (member_of "" (member_ e)) with (member_ e) in *.
      rewrite <- V. 
      assert (W : ~ In (member_ e) (writes "" line_search_part) /\ ~ In (member_ e) (writes "" lqoc_part)
                  /\ ~ In (member_ e) (writes "" names_part)).
      { clear -He. cbn [nloptcon_settings map app In] in He.
        repeat (destruct He as [<-|He]; [split; [notin|split; notin]|]). destruct He. }
      rewrite F4, F3, F2 by tauto. reflexivity.
    + intros e He. rewrite F4.
      * rewrite (L3 e He). f_equal. rewrite F2. apply FS.
        all: clear -He; cbn [lqoc_settings In] in He; repeat (destruct He as [<-|He]; [notin|]); destruct He.
      * clear -He; cbn [lqoc_settings In] in He; repeat (destruct He as [<-|He]; [notin|]); destruct He.
  - intros g Hg. apply FR. intros Hin. apply Hg. clear -Hin.
    revert g Hin. apply incl_b. vm_compute. reflexivity.
Qed.

(** *** The line search *)
Lemma assoc_line_search n txt : nth_error line_search_names n = Some txt ->
  assoc line_search_types txt = Some (Z.of_nat n).
Proof. do 4 (destruct n as [|n]; [intros [= <-]; reflexivity|]). destruct n; discriminate. Qed.
Lemma assoc_unknown names (table : list (string * Z)) txt :
  map fst table = names -> (assoc table txt = None <-> ~ In txt names).
Proof.
  intros <-. unfold assoc. destruct (find _ table) as [p|] eqn:F.
  - apply find_some in F. destruct F as [F1 F2]. apply String.eqb_eq in F2. subst txt.
    split; [discriminate|]. intros H. exfalso. apply H. now apply in_map.
  - split; [|reflexivity]. intros _ H. apply in_map_iff in H. destruct H as (p & E & H).
    apply (find_none _ _ F) in H. rewrite E, String.eqb_refl in H. discriminate.
Qed.

Lemma exec_opt pre ns t f k s : exec pre ns (Opt t f k) s
  = (Done, match given pd pt t ns k with Some v => upd s (dotted pre f) v | None => s end).
Proof.
  unfold Opt. cbn [SettingsModel.exec seq_]. rewrite get_given.
  destruct (given pd pt t ns k); reflexivity.
Qed.

(** A complete block for the line search sets all its values; the maximum step is the first
    step and adaptation is off if the file does not say otherwise. *)
Theorem C87_line_search_partial ns s n m a0 na db :
  let ls := ns ++ ".line_search" in
  names_it pd pt line_search_names ls "type" n ->
  given pd pt TZ ls "maxIterations" = Some m ->
  given pd pt TD ls "alpha_0" = Some a0 ->
  given pd pt TD ls "n_alpha" = Some na ->
  given pd pt TB ls "debugPrint" = Some db ->
  let r := run load_nloptcon ns s in
  fst r = Done ->
  let v f := snd r ("lineSearchSettings." ++ f) in
  v "type" = VI (Z.of_nat n) /\ v "maxIterations" = m /\ v "alpha_0" = a0 /\ v "n_alpha" = na
  /\ v "debugPrint" = db
  /\ v "alpha_max" = (match given pd pt TD ls "alpha_max" with Some x => x | None => a0 end)
  /\ v "adaptive" = (match given pd pt TB ls "adaptive" with Some x => x | None => VB false end)
  /\ v "armijo_parameter" = (match given pd pt TD ls "armijo_parameter" with
                             | Some x => x | None => s "lineSearchSettings.armijo_parameter" end).
Proof.
  intros ls (txt & Gt & Nt) Gm Ga Gn Gd r Hr v.
  assert (X : forall f, In f ["type"; "maxIterations"; "alpha_0"; "n_alpha"; "debugPrint";
               "alpha_max"; "adaptive"; "armijo_parameter"] ->
      v f = snd (exec "" ns line_search_part (snd (seq_ (exec "" ns) scalar_part s)))
              ("lineSearchSettings." ++ f)).
  { intros f Hf. unfold v. unfold r in *. rewrite run_parts in *. cbn zeta in *.
    set (s1 := snd (seq_ (exec "" ns) scalar_part s)) in *.
    destruct (exec "" ns line_search_part s1) as [[] s2]; cbn [fst snd] in *; try discriminate.
    pose proof (exec_frame pd pt lqoc_part "" ns s2) as F3.
    pose proof (lqoc_done ns s2) as D3.
    destruct (exec "" ns lqoc_part s2) as [st3 s3]. cbn [fst snd] in *. subst st3.
    pose proof (exec_frame pd pt names_part "" ns s3) as F4.
    rewrite F4, F3; auto; clear -Hf; cbn [In] in Hf;
      repeat (destruct Hf as [<-|Hf]; [notin|]); destruct Hf. }
  assert (A0 : snd (seq_ (exec "" ns) scalar_part s) "lineSearchSettings.armijo_parameter"
               = s "lineSearchSettings.armijo_parameter") by (apply seq_frame; notin).
  set (s1 := snd (seq_ (exec "" ns) scalar_part s)) in *. clearbody s1.
  rewrite !X by (cbn; tauto). rewrite <- A0. clear X v.
  unfold line_search_part. cbn [SettingsModel.exec seq_ load_line_search].
  fold ls. rewrite !get_given, Gt, Gm, Ga, Gn, Gd.
  rewrite (assoc_line_search _ _ Nt). rewrite !exec_opt.
  change (dotted "" "lineSearchSettings") with "lineSearchSettings".
  destruct (given pd pt TD ls "alpha_max"), (given pd pt TB ls "adaptive"),
    (given pd pt TD ls "armijo_parameter"); cbn; repeat split; reflexivity.
Qed.

(** *** The names *)
Lemma assoc_integrator n txt : nth_error integrator_names n = Some txt ->
  assoc integrators txt = Some (Z.of_nat n).
Proof. do 11 (destruct n as [|n]; [intros [= <-]; reflexivity|]). destruct n; discriminate. Qed.
Lemma assoc_discretization n txt : nth_error discretization_names n = Some txt ->
  assoc discretizations txt = Some (Z.of_nat n).
Proof. do 5 (destruct n as [|n]; [intros [= <-]; reflexivity|]). destruct n; discriminate. Qed.
Lemma assoc_algorithm n txt : nth_error algorithm_names n = Some txt ->
  assoc algorithms txt = Some (Z.of_nat n).
Proof. do 7 (destruct n as [|n]; [intros [= <-]; reflexivity|]). destruct n; discriminate. Qed.
Lemma assoc_lq_solver n txt : nth_error lq_solver_names n = Some txt ->
  assoc lqoc_solvers txt = Some (Z.of_nat n).
Proof. do 2 (destruct n as [|n]; [intros [= <-]; reflexivity|]). destruct n; discriminate. Qed.

(** If the file names the integrator, the discretisation, the algorithm and the LQ solver, all
    four are set. *)
Theorem C87_names_partial ns s i d a l :
  names_it pd pt integrator_names ns "integrator" i ->
  names_it pd pt discretization_names ns "discretization" d ->
  names_it pd pt algorithm_names ns "nlocp_algorithm" a ->
  names_it pd pt lq_solver_names ns "locp_solver" l ->
  let r := run load_nloptcon ns s in
  fst r = Done ->
  snd r "integrator" = VI (Z.of_nat i) /\ snd r "discretization" = VI (Z.of_nat d)
  /\ snd r "nlocp_algorithm" = VI (Z.of_nat a) /\ snd r "lqocp_solver" = VI (Z.of_nat l).
Proof.
  intros (ti & Gi & Ni) (td & Gd & Nd) (ta & Ga & Na) (tl & Gl & Nl) r Hr.
  unfold r in *. rewrite run_parts in *. cbn zeta in *.
  destruct (exec "" ns line_search_part _) as [[] s2]; cbn [fst snd] in *; try discriminate.
  pose proof (lqoc_done ns s2) as D3.
  destruct (exec "" ns lqoc_part s2) as [st3 s3]. cbn [fst snd] in *. subst st3.
  unfold names_part. cbn [SettingsModel.exec seq_].
  rewrite !get_given, Gi, Gd, Ga, Gl, (assoc_integrator _ _ Ni), (assoc_discretization _ _ Nd),
    (assoc_algorithm _ _ Na), (assoc_lq_solver _ _ Nl).
  cbn. repeat split; reflexivity.
Qed.

(** The process is ended exactly by an unknown name that is reached. *)
Theorem C87_exit ns s :
  let known names key := exists n, names_it pd pt names ns key n in
  fst (run load_nloptcon ns s) = Exited <->
    unknown pd pt line_search_names (ns ++ ".line_search") "type"
    \/ unknown pd pt integrator_names ns "integrator"
    \/ known integrator_names "integrator" /\ unknown pd pt discretization_names ns "discretization"
    \/ known integrator_names "integrator" /\ known discretization_names "discretization"
       /\ unknown pd pt algorithm_names ns "nlocp_algorithm"
    \/ known integrator_names "integrator" /\ known discretization_names "discretization"
       /\ known algorithm_names "nlocp_algorithm" /\ unknown pd pt lq_solver_names ns "locp_solver".
Proof.
  intros known. rewrite run_parts. cbn zeta.
  (* a name is missing, unknown or known *)
  assert (TRI : forall names table ns' key,
    map fst table = names -> (forall n txt, nth_error names n = Some txt -> assoc table txt = Some (Z.of_nat n)) ->
    (unknown pd pt names ns' key <-> exists txt, given pd pt TS ns' key = Some (VS txt) /\ assoc table txt = None)
    /\ ((exists n, names_it pd pt names ns' key n) <->
        exists txt z, given pd pt TS ns' key = Some (VS txt) /\ assoc table txt = Some z)).
  { intros names table ns' key Hm Ha. split.
    - split; intros (txt & G & U); exists txt; split; auto; now apply (assoc_unknown names table txt Hm).
    - split.
      + intros (n & txt & G & N). exists txt, (Z.of_nat n). split; auto.
      + intros (txt & z & G & As).
        assert (In txt names).
        { destruct (in_dec string_dec txt names) as [|Hn]; auto.
          apply (assoc_unknown names table txt Hm) in Hn. congruence. }
        apply In_nth_error in H. destruct H as (n & Hn). exists n, txt. auto. }
  assert (TS_ : forall ns' key, (given pd pt TS ns' key = None) \/ exists txt, given pd pt TS ns' key = Some (VS txt)).
  { intros. unfold given. destruct (pt _) as [x|]; [right; exists x; reflexivity|left; reflexivity]. }
  set (s1 := snd (seq_ (exec "" ns) scalar_part s)). clearbody s1.
  assert (LS : fst (exec "" ns line_search_part s1) = Exited
               <-> unknown pd pt line_search_names (ns ++ ".line_search") "type").
  { destruct (TRI line_search_names line_search_types (ns ++ ".line_search") "type" eq_refl assoc_line_search) as [-> _].
    unfold line_search_part. cbn [SettingsModel.exec seq_ load_line_search]. rewrite !get_given.
    destruct (TS_ (ns ++ ".line_search") "type") as [G|(txt & G)]; rewrite G.
    { split; [discriminate|]. intros (txt & H & _). discriminate. }
    destruct (assoc line_search_types txt) eqn:As.
    - split.
      + intros H. exfalso. revert H.
        destruct (given pd pt TZ (ns ++ ".line_search") "maxIterations"); [|discriminate].
        destruct (given pd pt TD (ns ++ ".line_search") "alpha_0"); [|discriminate].
        destruct (given pd pt TD (ns ++ ".line_search") "n_alpha"); [|discriminate].
        destruct (given pd pt TB (ns ++ ".line_search") "debugPrint"); [|discriminate].
        rewrite !exec_opt. discriminate.
      + intros (t' & E1 & E2). injection E1 as <-. congruence.
    - split; [intros _; eauto|reflexivity]. }
  pose proof (try_not_thrown "" ns [Load "lineSearchSettings" ".line_search" load_line_search] s1) as NT.
  fold line_search_part in NT.
  destruct (exec "" ns line_search_part s1) as [[] s2]; cbn [fst snd] in *; try congruence.
  2:{ split; [intros _; left; now apply LS|reflexivity]. }
  assert (NLS : ~ unknown pd pt line_search_names (ns ++ ".line_search") "type").
  { intros H. apply LS in H. discriminate. }
  rewrite lqoc_exec. cbn [fst snd].
  set (s3 := snd (seq_ _ load_lqoc s2)). clearbody s3.
  destruct (TRI integrator_names integrators ns "integrator" eq_refl assoc_integrator) as [U1 K1].
  destruct (TRI discretization_names discretizations ns "discretization" eq_refl assoc_discretization) as [U2 K2].
  destruct (TRI algorithm_names algorithms ns "nlocp_algorithm" eq_refl assoc_algorithm) as [U3 K3].
  destruct (TRI lq_solver_names lqoc_solvers ns "locp_solver" eq_refl assoc_lq_solver) as [U4 _].
  unfold known. rewrite U1, U2, U3, U4, K1, K2, K3. clear U1 U2 U3 U4 K1 K2 K3 TRI.
  unfold names_part. cbn [SettingsModel.exec seq_]. rewrite !get_given.
  destruct (TS_ ns "integrator") as [G1|(t1 & G1)]; rewrite G1.
  { split; [discriminate|]. intros [H|[(?&H&_)|[((?&?&H&_)&_)|[((?&?&H&_)&_)|((?&?&H&_)&_)]]]]; try discriminate.
    contradiction. }
  destruct (assoc integrators t1) as [z1|] eqn:A1.
  2:{ split; [intros _; right; left; eauto|reflexivity]. }
  assert (KK1 : exists txt z, Some (VS t1) = Some (VS txt) /\ assoc integrators txt = Some z) by eauto.
  assert (NU1 : ~ exists txt, Some (VS t1) = Some (VS txt) /\ assoc integrators txt = None).
  { intros (x & E1 & E2). injection E1 as <-. congruence. }
  destruct (TS_ ns "discretization") as [G2|(t2 & G2)]; rewrite G2.
  { split; [discriminate|]. intros [H|[H|[(_&?&H&_)|[(_&(?&?&H&_)&_)|(_&(?&?&H&_)&_)]]]]; try discriminate; contradiction. }
  destruct (assoc discretizations t2) as [z2|] eqn:A2.
  2:{ split; [intros _; right; right; left; eauto|reflexivity]. }
  assert (KK2 : exists txt z, Some (VS t2) = Some (VS txt) /\ assoc discretizations txt = Some z) by eauto.
  assert (NU2 : ~ exists txt, Some (VS t2) = Some (VS txt) /\ assoc discretizations txt = None).
  { intros (x & E1 & E2). injection E1 as <-. congruence. }
  destruct (TS_ ns "nlocp_algorithm") as [G3|(t3 & G3)]; rewrite G3.
  { split; [discriminate|]. intros [H|[H|[(_&H)|[(_&_&(?&H&_))|(_&_&(?&?&H&_)&_)]]]]; try discriminate; contradiction. }
  destruct (assoc algorithms t3) as [z3|] eqn:A3.
  2:{ split; [intros _; right; right; right; left; eauto 6|reflexivity]. }
  assert (KK3 : exists txt z, Some (VS t3) = Some (VS txt) /\ assoc algorithms txt = Some z) by eauto.
  assert (NU3 : ~ exists txt, Some (VS t3) = Some (VS txt) /\ assoc algorithms txt = None).
  { intros (x & E1 & E2). injection E1 as <-. congruence. }
  destruct (TS_ ns "locp_solver") as [G4|(t4 & G4)]; rewrite G4.
  { split; [discriminate|]. intros [H|[H|[(_&H)|[(_&_&H)|(_&_&_&(?&H&_))]]]]; try discriminate; contradiction. }
  destruct (assoc lqoc_solvers t4) as [z4|] eqn:A4.
  2:{ split; [intros _; right; right; right; right; eauto 7|reflexivity]. }
  split; [discriminate|].
  intros [H|[H|[(_&H)|[(_&_&H)|(_&_&_&(?&E1&E2))]]]]; try contradiction.
  injection E1 as <-. congruence.
Qed.

(** ** MPC *)
Lemma cons_mpc : consistent (map setting_of load_mpc).
Proof. apply consistent_nodup. cbn. nodup. Qed.
Theorem C87_mpc_settings s :
  let r := run load_mpc "mpc" s in
  (fst r = Done <-> List.Forall (acceptable pd pt "mpc") mpc_settings)
  /\ fst r <> Exited
  /\ (fst r = Done -> loaded pd pt "" "mpc" mpc_settings s (snd r))
  /\ forall g, ~ In g (map member_ mpc_settings) -> snd r g = s g.
Proof.
  intros r. destruct (flat_loaded load_mpc mpc_settings eq_refl cons_mpc ltac:(cover) "" "mpc" s) as (A & B).
  split; [split; [intros D; now apply B|]|].
  { apply (flat_done load_mpc mpc_settings eq_refl cons_mpc).
    cover'. }
  split; [exact A|]. split; [intros D; now apply B|].
  intros g Hg. apply seq_frame. intros Hin. apply Hg.
  clear -Hin. revert g Hin. apply incl_b. vm_compute. reflexivity.
Qed.

(** The horizon mode cannot be loaded: no file changes it. *)
Theorem C87_mpc_mode_refuted s : snd (run load_mpc "mpc" s) "mpc_mode" = s "mpc_mode".
Proof. apply seq_frame. notin. Qed.

(** ** Direct multiple shooting *)
Definition dms_part : list stm := firstn 11 load_dms.
Definition nlp_flags : list stm := firstn 2 (skipn 1 load_nlp).
Definition cppad_part : list stm := firstn 12 load_cppad.
Lemma cons_dms : consistent (map setting_of dms_part).
Proof. apply consistent_nodup. cbn. nodup. Qed.
Lemma cons_flags : consistent (map setting_of nlp_flags).
Proof. apply consistent_nodup. cbn. nodup. Qed.
Lemma cons_snopt : consistent (map setting_of load_snopt).
Proof. apply consistent_nodup. cbn. nodup. Qed.
Lemma cons_cppad : consistent (map setting_of cppad_part).
Proof. apply consistent_nodup. cbn. nodup. Qed.
(** the entries of IPOPT without the repeated ones *)
Definition ipopt_once : list stm :=
  (firstn 7 load_ipopt ++ firstn 3 (skipn 8 load_ipopt) ++ firstn 12 (skipn 12 load_ipopt))%list.
Lemma cons_ipopt : consistent (map setting_of load_ipopt).
Proof.
  assert (C : consistent (map setting_of ipopt_once)).
  { apply consistent_nodup. cbn. nodup. }
  assert (I : incl (map setting_of load_ipopt) (map setting_of ipopt_once)).
  { intros e He. cbn [map setting_of load_ipopt In] in He.
    repeat (destruct He as [<-|He]; [cbn; tauto|]). destruct He. }
  intros e e' He He'. apply C; apply I; assumption.
Qed.

(** If loading does not throw, every setting of direct multiple shooting, of the chosen NLP
    solver and of the code generator has the value of the file, and the settings of the other
    NLP solver are left alone. *)
Theorem C87_dms_settings ns s z :
  let r := run load_dms ns s in
  let nlp := ns ++ ".solver" in
  fst r = Done -> given pd pt TU nlp "SolverType" = Some (VI z) -> (z < 256)%Z ->
  loaded pd pt "" ns dms_settings s (snd r)
  /\ snd r "solverSettings_.solverType_" = VI z
  /\ loaded pd pt "solverSettings_" nlp nlp_settings s (snd r)
  /\ loaded pd pt "cppadSettings_" (ns ++ ".cppad") cppad_settings s (snd r)
  /\ (z = 0%Z -> loaded pd pt "solverSettings_.ipoptSettings_" (nlp ++ ".ipopt") ipopt_settings s (snd r))
  /\ (z = 1%Z -> loaded pd pt "solverSettings_.snoptSettings_" (nlp ++ ".snopt") snopt_settings s (snd r))
  /\ (z <> 0%Z -> forall e, In e ipopt_settings ->
        snd r ("solverSettings_.ipoptSettings_." ++ member_ e) = s ("solverSettings_.ipoptSettings_." ++ member_ e))
  /\ (z <> 1%Z -> forall e, In e snopt_settings ->
        snd r ("solverSettings_.snoptSettings_." ++ member_ e) = s ("solverSettings_.snoptSettings_." ++ member_ e)).
Proof.
  intros r nlp Hr Gz Hz.
  assert (Z0 : (0 <= z)%Z).
  { clear -Gz. unfold given in Gz. destruct (pt _) as [txt|]; [|discriminate]. cbn in Gz.
    unfold parse_unsigned in Gz. destruct (parse_Z txt) as [y|]; [|discriminate].
    destruct (Z.abs y <? _)%Z; [|discriminate]. cbn in Gz. injection Gz as <-.
    apply Z.mod_pos_bound. lia. }
  assert (Mz : (z mod 256 = z)%Z) by (apply Z.mod_small; lia).
  unfold r in *. unfold SettingsModel.run in *.
  change load_dms with (dms_part ++ [Load "solverSettings_" ".solver" load_nlp;
                                     Load "cppadSettings_" ".cppad" load_cppad])%list in *.
  rewrite seq_app in *.
  pose proof (proj2 (flat_loaded dms_part dms_settings eq_refl cons_dms ltac:(cover) "" ns s)) as L1.
  pose proof (seq_frame pd pt dms_part "" ns s) as F1.
  destruct (seq_ (exec "" ns) dms_part s) as [[] s1]; cbn [fst snd] in *; try discriminate.
  destruct (L1 eq_refl) as [D1 _]. clear L1.
  cbn [seq_ SettingsModel.exec] in *.
  change (dotted "" "solverSettings_") with "solverSettings_" in *.
  change (dotted "" "cppadSettings_") with "cppadSettings_" in *.
  change (ns ++ ".solver") with nlp in Hr |- *. clearbody nlp.
  (* the NLP solver *)
  change load_nlp with ([GetConv TU to_uint8 "solverType_" "SolverType"] ++ nlp_flags ++
     [Switch "solverType_" [(VI 0, Load "ipoptSettings_" ".ipopt" load_ipopt);
                            (VI 1, Load "snoptSettings_" ".snopt" load_snopt)]])%list in *.
  clear r. rewrite !seq_app in Hr |- *. cbn [seq_ SettingsModel.exec] in Hr |- *. rewrite get_given, Gz in Hr |- *.
  change (dotted "solverSettings_" "solverType_") with "solverSettings_.solverType_" in *.
  rewrite !seq_app in Hr |- *.
  set (s2 := upd s1 "solverSettings_.solverType_" (to_uint8 (VI z))) in *.
  pose proof (proj2 (flat_loaded nlp_flags nlp_settings eq_refl cons_flags ltac:(cover) "solverSettings_" nlp s2)) as L2.
  pose proof (seq_frame pd pt nlp_flags "solverSettings_" nlp s2) as F2.
  destruct (seq_ (exec "solverSettings_" nlp) nlp_flags s2) as [[] s3]; cbn [fst snd] in *; try discriminate.
  destruct (L2 eq_refl) as [D2 _]. clear L2.
  assert (T3 : s3 "solverSettings_.solverType_" = VI z).
  { rewrite F2 by notin. unfold s2. rewrite upd_same. cbn. now rewrite Mz. }
  cbn [seq_ SettingsModel.exec] in Hr |- *.
  change (dotted "solverSettings_" "solverType_") with "solverSettings_.solverType_" in *.
  rewrite T3 in Hr |- *. cbn [value_eqb] in Hr |- *.
  change (dotted "solverSettings_" "ipoptSettings_") with "solverSettings_.ipoptSettings_" in *.
  change (dotted "solverSettings_" "snoptSettings_") with "solverSettings_.snoptSettings_" in *.
  (* the solver's own settings: s4 *)
  set (own := if (z =? 0)%Z then seq_ (exec "solverSettings_.ipoptSettings_" (nlp ++ ".ipopt")) load_ipopt s3
              else if (z =? 1)%Z then seq_ (exec "solverSettings_.snoptSettings_" (nlp ++ ".snopt")) load_snopt s3
              else (Done, s3)) in *.
  pose proof (proj2 (flat_loaded load_ipopt ipopt_settings eq_refl cons_ipopt ltac:(cover)
                 "solverSettings_.ipoptSettings_" (nlp ++ ".ipopt") s3)) as LI.
  pose proof (proj2 (flat_loaded load_snopt snopt_settings eq_refl cons_snopt ltac:(cover)
                 "solverSettings_.snoptSettings_" (nlp ++ ".snopt") s3)) as LS.
  pose proof (seq_frame pd pt load_ipopt "solverSettings_.ipoptSettings_" (nlp ++ ".ipopt") s3) as FI.
  pose proof (seq_frame pd pt load_snopt "solverSettings_.snoptSettings_" (nlp ++ ".snopt") s3) as FS.
  assert (OWN : fst own = Done ->
      (z = 0%Z -> loaded pd pt "solverSettings_.ipoptSettings_" (nlp ++ ".ipopt") ipopt_settings s3 (snd own))
   /\ (z = 1%Z -> loaded pd pt "solverSettings_.snoptSettings_" (nlp ++ ".snopt") snopt_settings s3 (snd own))
   /\ (z <> 0%Z -> forall g, ~ In g (flat_map (writes "solverSettings_.snoptSettings_") load_snopt) -> snd own g = s3 g)
   /\ (z <> 1%Z -> forall g, ~ In g (flat_map (writes "solverSettings_.ipoptSettings_") load_ipopt) -> snd own g = s3 g)
   /\ (forall g, ~ In g (flat_map (writes "solverSettings_.ipoptSettings_") load_ipopt) ->
                 ~ In g (flat_map (writes "solverSettings_.snoptSettings_") load_snopt) -> snd own g = s3 g)).
  { unfold own. destruct (Z.eqb_spec z 0), (Z.eqb_spec z 1); try lia; intros D; cbn [snd];
      repeat split; try (intros; lia); intros; try reflexivity; try (now apply LI); try (now apply LS);
      try (now apply FI); try (now apply FS). }
  assert (SEQ : (match own with (Done, s') => (Done, s') | (Thrown, s') => (Thrown, s') | (Exited, s') => (Exited, s') end) = own)
    by (destruct own as [[] ?]; reflexivity).
  clearbody own. clear LI LS FI FS.
  destruct own as [[] s4]; cbn [fst snd] in *; try discriminate.
  destruct (OWN eq_refl) as (O1 & O2 & O3 & O4 & O5). clear OWN SEQ.
  (* the code generator *)
  change load_cppad with (cppad_part ++ [EnumWarn [("GCC", 0); ("CLANG", 1)]%Z "compiler_" "Compiler"])%list in *.
  rewrite !seq_app in *.
  pose proof (proj2 (flat_loaded cppad_part cppad_settings eq_refl cons_cppad ltac:(cover) "cppadSettings_" (ns ++ ".cppad") s4)) as L5.
  pose proof (seq_frame pd pt cppad_part "cppadSettings_" (ns ++ ".cppad") s4) as F5.
  destruct (seq_ (exec "cppadSettings_" (ns ++ ".cppad")) cppad_part s4) as [[] s5]; cbn [fst snd] in *; try discriminate.
  destruct (L5 eq_refl) as [D5 _]. clear L5.
  cbn [seq_] in *.
  pose proof (exec_frame pd pt (EnumWarn [("GCC", 0); ("CLANG", 1)]%Z "compiler_" "Compiler") "cppadSettings_" (ns ++ ".cppad") s5) as F6.
  destruct (exec "cppadSettings_" (ns ++ ".cppad") (EnumWarn _ _ _) s5) as [[] s6]; cbn [fst snd] in *; try discriminate.
  assert (G2 : forall g, g <> "solverSettings_.solverType_" -> s2 g = s1 g) by (intros; now apply upd_other).
  clearbody s2. clear Hr.
  repeat split.
  - intros e He. pose proof (D1 e He) as V. change (member_of "" (member_ e)) with (member_ e) in *. rewrite <- V.
    cbn [dms_settings In] in He.
    repeat (destruct He as [<-|He];
      [rewrite F6 by notin; rewrite F5 by notin; rewrite O5 by notin; rewrite F2 by notin;
       apply G2; cbn; discriminate|]). destruct He.
  - rewrite F6 by notin; rewrite F5 by notin; rewrite O5 by notin. exact T3.
  - intros e He. pose proof (D2 e He) as V. cbn [nlp_settings In] in He.
    repeat (destruct He as [<-|He];
      [rewrite F6 by notin; rewrite F5 by notin; rewrite O5 by notin; rewrite V; f_equal;
       rewrite G2 by (cbn; discriminate); apply F1; notin|]). destruct He.
  - intros e He. pose proof (D5 e He) as V. cbn [cppad_settings In] in He.
    repeat (destruct He as [<-|He];
      [rewrite F6 by notin; rewrite V; f_equal; rewrite O5 by notin; rewrite F2 by notin;
       rewrite G2 by (cbn; discriminate); apply F1; notin|]). destruct He.
  - intros Ez e He. pose proof (O1 Ez e He) as V. cbn [ipopt_settings ipopt_optional map app In] in He.
    repeat (destruct He as [<-|He];
      [rewrite F6 by notin; rewrite F5 by notin; rewrite V; f_equal; rewrite F2 by notin;
       rewrite G2 by (cbn; discriminate); apply F1; notin|]). destruct He.
  - intros Ez e He. pose proof (O2 Ez e He) as V. cbn [snopt_settings In] in He.
    repeat (destruct He as [<-|He];
      [rewrite F6 by notin; rewrite F5 by notin; rewrite V; f_equal; rewrite F2 by notin;
       rewrite G2 by (cbn; discriminate); apply F1; notin|]). destruct He.
  - intros Ez e He. cbn [ipopt_settings ipopt_optional map app In] in He.
    repeat (destruct He as [<-|He];
      [rewrite F6 by notin; rewrite F5 by notin; rewrite (O3 Ez) by notin; rewrite F2 by notin;
       rewrite G2 by (cbn; discriminate); apply F1; notin|]). destruct He.
  - intros Ez e He. cbn [snopt_settings In] in He.
    repeat (destruct He as [<-|He];
      [rewrite F6 by notin; rewrite F5 by notin; rewrite (O4 Ez) by notin; rewrite F2 by notin;
       rewrite G2 by (cbn; discriminate); apply F1; notin|]). destruct He.
Qed.

(** Loading never ends the process, and it does not throw exactly if the file has a legible
    entry for everything that is needed. *)
Definition frequency_ok (ns : string) : Prop :=
  acceptable pd pt ns (mkSetting IfThere TI id_conv "print_frequency_iter_" "print_frequency_iter_").
Lemma flat_acc b table : forallb simple b = true -> consistent (map setting_of b) ->
  covers table b -> (forall e', In e' (map setting_of b) -> exists e, In e table /\ agree e e') ->
  forall pre ns s,
    fst (seq_ (exec pre ns) b s) <> Exited
    /\ (fst (seq_ (exec pre ns) b s) = Done <-> List.Forall (acceptable pd pt ns) table).
Proof.
  intros S C K K' pre ns s. destruct (flat_loaded b table S C K pre ns s) as [A B].
  split; [exact A|]. split; [intros D; apply (B D)|]. now apply flat_done.
Qed.
Definition ipopt_all : list setting :=
  (ipopt_settings ++ [mkSetting IfThere TI id_conv "print_frequency_iter_" "print_frequency_iter_"])%list.

Theorem C87_dms_complete ns s :
  let nlp := ns ++ ".solver" in
  fst (run load_dms ns s) <> Exited
  /\ (fst (run load_dms ns s) = Done <->
        List.Forall (acceptable pd pt ns) dms_settings
        /\ (exists z, given pd pt TU nlp "SolverType" = Some (VI z)
             /\ (z mod 256 = 0 -> List.Forall (acceptable pd pt (nlp ++ ".ipopt")) ipopt_settings
                                  /\ frequency_ok (nlp ++ ".ipopt"))%Z
             /\ (z mod 256 = 1 -> List.Forall (acceptable pd pt (nlp ++ ".snopt")) snopt_settings)%Z)
        /\ List.Forall (acceptable pd pt nlp) nlp_settings
        /\ List.Forall (acceptable pd pt (ns ++ ".cppad")) cppad_settings
        /\ given pd pt TS (ns ++ ".cppad") "Compiler" <> None).
Proof.
  intros nlp. unfold SettingsModel.run.
  change load_dms with (dms_part ++ [Load "solverSettings_" ".solver" load_nlp;
                                     Load "cppadSettings_" ".cppad" load_cppad])%list.
  rewrite seq_app.
  destruct (flat_acc dms_part dms_settings eq_refl cons_dms ltac:(cover) ltac:(cover') "" ns s) as [E1 A1].
  destruct (seq_ (exec "" ns) dms_part s) as [[] s1]; cbn [fst] in *; try congruence.
  2:{ split; [discriminate|]. split; [discriminate|]. intros (X & _). apply A1 in X. discriminate. }
  cbn [seq_ SettingsModel.exec].
  change (ns ++ ".solver") with nlp. clearbody nlp.
  change (dotted "" "solverSettings_") with "solverSettings_".
  change (dotted "" "cppadSettings_") with "cppadSettings_".
  set (cp := ns ++ ".cppad"). clearbody cp.
  assert (CP : forall s4, let r := seq_ (exec "cppadSettings_" cp) load_cppad s4 in
     fst r <> Exited /\ (fst r = Done <-> List.Forall (acceptable pd pt cp) cppad_settings
                                         /\ given pd pt TS cp "Compiler" <> None)).
  { intros s4. cbv zeta.
    change load_cppad with (cppad_part ++ [EnumWarn [("GCC", 0); ("CLANG", 1)]%Z "compiler_" "Compiler"])%list.
    rewrite seq_app.
    destruct (flat_acc cppad_part cppad_settings eq_refl cons_cppad ltac:(cover) ltac:(cover') "cppadSettings_" cp s4) as [E5 A5].
    destruct (seq_ (exec "cppadSettings_" cp) cppad_part s4) as [[] s5]; cbn [fst] in *; try congruence.
    - cbn [seq_ SettingsModel.exec]. rewrite get_given. unfold given. destruct (pt _) as [txt|]; cbn.
      + destruct (assoc _ txt); cbn; (split; [discriminate|]); (split; [intros _; split; [now apply A5|discriminate]|reflexivity]).
      + split; [discriminate|]. split; [discriminate|]. intros (_ & X). congruence.
    - split; [discriminate|]. split; [discriminate|]. intros (X & _). apply A5 in X. discriminate. }
  assert (NLP : let r := seq_ (exec "solverSettings_" nlp) load_nlp s1 in
     fst r <> Exited /\ (fst r = Done <->
        (exists z, given pd pt TU nlp "SolverType" = Some (VI z)
             /\ (z mod 256 = 0 -> List.Forall (acceptable pd pt (nlp ++ ".ipopt")) ipopt_settings
                                  /\ frequency_ok (nlp ++ ".ipopt"))%Z
             /\ (z mod 256 = 1 -> List.Forall (acceptable pd pt (nlp ++ ".snopt")) snopt_settings)%Z)
        /\ List.Forall (acceptable pd pt nlp) nlp_settings)).
  { cbv zeta.
    change load_nlp with ([GetConv TU to_uint8 "solverType_" "SolverType"] ++ nlp_flags ++
     [Switch "solverType_" [(VI 0, Load "ipoptSettings_" ".ipopt" load_ipopt);
                            (VI 1, Load "snoptSettings_" ".snopt" load_snopt)]])%list.
    rewrite seq_app. cbn [seq_ SettingsModel.exec]. rewrite get_given.
    destruct (given pd pt TU nlp "SolverType") as [v|] eqn:Gz.
    2:{ split; [discriminate|]. split; [discriminate|]. intros ((z & X & _) & _). discriminate. }
    assert (Hv : exists z, v = VI z).
    { clear -Gz. unfold given in Gz. destruct (pt _); [|discriminate]. cbn in Gz.
      destruct (parse_unsigned 32 s) as [z|]; [|discriminate]. injection Gz as <-. now exists z. }
    destruct Hv as [z ->]. rewrite seq_app.
    change (dotted "solverSettings_" "solverType_") with "solverSettings_.solverType_".
    set (s2 := upd s1 "solverSettings_.solverType_" (to_uint8 (VI z))).
    destruct (flat_acc nlp_flags nlp_settings eq_refl cons_flags ltac:(cover) ltac:(cover') "solverSettings_" nlp s2) as [E2 A2].
    pose proof (seq_frame pd pt nlp_flags "solverSettings_" nlp s2) as F2.
    destruct (seq_ (exec "solverSettings_" nlp) nlp_flags s2) as [[] s3]; cbn [fst snd] in *; try congruence.
    2:{ split; [discriminate|]. split; [discriminate|]. intros (_ & X). apply A2 in X. discriminate. }
    assert (T3 : s3 "solverSettings_.solverType_" = VI (z mod 256)).
    { rewrite F2 by notin. unfold s2. now rewrite upd_same. }
    cbn [seq_ SettingsModel.exec].
    change (dotted "solverSettings_" "solverType_") with "solverSettings_.solverType_".
    rewrite T3. cbn [value_eqb].
    change (dotted "solverSettings_" "ipoptSettings_") with "solverSettings_.ipoptSettings_".
    change (dotted "solverSettings_" "snoptSettings_") with "solverSettings_.snoptSettings_".
    destruct (flat_acc load_ipopt ipopt_all eq_refl cons_ipopt ltac:(cover) ltac:(cover')
                 "solverSettings_.ipoptSettings_" (nlp ++ ".ipopt") s3) as [EI AI].
    destruct (flat_acc load_snopt snopt_settings eq_refl cons_snopt ltac:(cover) ltac:(cover')
                 "solverSettings_.snoptSettings_" (nlp ++ ".snopt") s3) as [ES AS].
    unfold ipopt_all in AI. rewrite Forall_app in AI.
    destruct (Z.eqb_spec (z mod 256) 0) as [Z0|Z0].
    - destruct (seq_ (exec "solverSettings_.ipoptSettings_" (nlp ++ ".ipopt")) load_ipopt s3) as [[] s4]; cbn [fst] in *; try congruence.
      + split; [discriminate|]. split; [intros _|reflexivity]. split; [|now apply A2].
        exists z. split; [reflexivity|]. split; [|intros X; rewrite Z0 in X; discriminate].
        intros _. destruct AI as [AI _]. destruct (AI eq_refl) as [X Y]. split; [exact X|]. now inversion Y.
      + split; [discriminate|]. split; [discriminate|]. intros ((z' & Ez & X & _) & _).
        injection Ez as <-. destruct (X Z0) as [X1 X2]. destruct AI as [_ AI].
        assert (T : Thrown = Done) by (apply AI; split; [exact X1|constructor; [exact X2|constructor]]). discriminate.
    - destruct (Z.eqb_spec (z mod 256) 1) as [Z1|Z1].
      + destruct (seq_ (exec "solverSettings_.snoptSettings_" (nlp ++ ".snopt")) load_snopt s3) as [[] s4]; cbn [fst] in *; try congruence.
        * split; [discriminate|]. split; [intros _|reflexivity]. split; [|now apply A2].
          exists z. split; [reflexivity|]. split; [contradiction|]. intros _. now apply AS.
        * split; [discriminate|]. split; [discriminate|]. intros ((z' & Ez & _ & X) & _).
          injection Ez as <-. specialize (X Z1). apply AS in X. discriminate.
      + split; [discriminate|]. split; [intros _|reflexivity]. split; [|now apply A2].
        exists z. split; [reflexivity|]. split; contradiction. }
  cbv zeta in NLP. destruct NLP as [EN AN].
  destruct (seq_ (exec "solverSettings_" nlp) load_nlp s1) as [[] s4]; cbn [fst] in *; try congruence.
  2:{ split; [discriminate|]. split; [discriminate|]. intros (_ & X & Y & _).
      assert (Z : Thrown = Done) by (apply AN; auto). discriminate. }
  destruct (CP s4) as [EC AC].
  destruct (seq_ (exec "cppadSettings_" cp) load_cppad s4) as [[] s5]; cbn [fst] in *; try congruence.
  - split; [discriminate|]. destruct AN as [AN _], AC as [AC _]. destruct (AN eq_refl), (AC eq_refl). tauto.
  - split; [discriminate|]. split; [discriminate|]. intros (_ & _ & _ & X & Y).
    assert (Z : Thrown = Done) by (apply AC; auto). discriminate.
Qed.
End Main.

Print Assumptions C87_solver_settings.
Print Assumptions C87_line_search_partial.
Print Assumptions C87_names_partial.
Print Assumptions C87_exit.
Print Assumptions C87_mpc_settings.
Print Assumptions C87_mpc_mode_refuted.
Print Assumptions C87_dms_settings.
Print Assumptions C87_dms_complete.
