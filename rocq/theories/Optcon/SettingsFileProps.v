(** * C87: matrices in files, checks of the settings, and what files are misread *)
From Coq Require Import List String Ascii ZArith Bool Lia Reals Lra Permutation FinFun.
From Coq Require Import Floats.SpecFloat.
From Coq Require Decimal DecimalString DecimalZ DecimalPos.
From Flocq Require Import Core IEEE754.BinarySingleNaN.
From Verif Require Import Base.Outcome Core.InfoModel Core.InfoProofs Optcon.SettingsModel
  Optcon.SettingsSpec Optcon.SettingsProofs.
Import ListNotations.
Local Open Scope string_scope.

(** ** Matrices *)
Section Matrix.
Variable pd : string -> option spec_float.
Variable mul : spec_float -> spec_float -> spec_float.
Variable show : spec_float -> string.

Lemma lines_in block r c M i j : (i < r)%nat -> (j < c)%nat ->
  In ((block ++ [entry_key i j])%list, show (M i j)) (matrix_lines show block r c M).
Proof.
  intros Hi Hj. unfold matrix_lines. apply in_flat_map. exists i. split; [apply in_seq; lia|].
  apply in_map_iff. exists j. split; [reflexivity|apply in_seq; lia].
Qed.
Lemma lines_keys block r c M q : In q (map fst (matrix_lines show block r c M)) ->
  exists i j, (i < r)%nat /\ (j < c)%nat /\ q = (block ++ [entry_key i j])%list.
Proof.
  rewrite in_map_iff. intros ([q' t] & E & H). cbn in E. subst q'. unfold matrix_lines in H.
  apply in_flat_map in H. destruct H as (i & Hi & H). apply in_map_iff in H. destruct H as (j & E & Hj).
  apply (f_equal fst) in E. cbn [fst] in E. subst q. apply in_seq in Hi, Hj. exists i, j. repeat split; lia.
Qed.
Lemma key_inj block i j k l :
  (block ++ [entry_key i j])%list = (block ++ [entry_key k l])%list -> i = k /\ j = l.
Proof. intros H. apply app_inj_tail in H. exact (entry_inj i j k l (proj2 H)). Qed.
Lemma lines_nodup block r c M : NoDup (map fst (matrix_lines show block r c M)).
Proof.
  unfold matrix_lines.
  assert (G : forall rows, NoDup rows -> NoDup (map fst (flat_map (fun i => map (fun j =>
              ((block ++ [entry_key i j])%list, show (M i j))) (seq 0 c)) rows))).
  { induction rows as [|i rows IH]; intros N; [constructor|]. inversion N; subst. cbn [flat_map]. rewrite map_app.
    assert (D : forall q, In q (map fst (map (fun j => ((block ++ [entry_key i j])%list, show (M i j))) (seq 0 c))) ->
              ~ In q (map fst (flat_map (fun i => map (fun j =>
              ((block ++ [entry_key i j])%list, show (M i j))) (seq 0 c)) rows))).
    { intros q Hq Hq'. rewrite map_map in Hq. apply in_map_iff in Hq. destruct Hq as (j & <- & _). cbn in Hq'.
      apply in_map_iff in Hq'. destruct Hq' as ([q t] & E & Hf). cbn in E. subst q.
      apply in_flat_map in Hf. destruct Hf as (k & Hk & Hf). apply in_map_iff in Hf. destruct Hf as (l & E & _).
      apply (f_equal fst) in E. cbn [fst] in E. apply app_inj_tail in E. destruct E as [_ E].
      apply entry_inj in E. destruct E as [-> _]. contradiction. }
    assert (S : NoDup (map fst (map (fun j => ((block ++ [entry_key i j])%list, show (M i j))) (seq 0 c)))).
    { rewrite map_map. cbn. apply FinFun.Injective_map_NoDup; [|apply seq_NoDup].
      intros j l E. apply key_inj in E. tauto. }
    pose proof (IH H2) as I0. revert D S I0. generalize (map fst (map (fun j => ((block ++ [entry_key i j])%list, show (M i j))) (seq 0 c))).
    intros a D S I0. induction a as [|x a IHa]; cbn [app]; [exact I0|]. inversion S; subst. constructor.
    - rewrite in_app_iff. intros [X|X]; [contradiction|]. apply (D x); [left; reflexivity|exact X].
    - apply IHa; auto. intros q Hq. apply D. now right. }
  apply G, seq_NoDup.
Qed.

(** A matrix written into a block of a file, line by line, with other lines before and after
    that are not in that block, is what loadMatrix reads; the lines of the block may be in any
    order, and a line with the scaling factor multiplies every entry.  Entries the file does
    not have are zero. *)
Theorem C87_matrix before block after name ns r c M k i j :
  let b := path (ns ++ name) in
  (forall i j, (i < r)%nat -> (j < c)%nat -> pd (show (M i j)) = Some (M i j)) ->
  (forall x, k = Some x -> pd (show x) = Some x) ->
  (forall q, In q (map fst (before ++ after)) -> forall x, q <> (b ++ [x])%list) ->
  Permutation.Permutation block
     (matrix_lines show b r c M ++ match k with Some x => [((b ++ ["scaling"])%list, show x)] | None => [] end)%list ->
  let file := of_nodes (before ++ block ++ after) in
  let scale := match k with Some x => x | None => one64 end in
  loadMatrix pd mul file name ns i j
  = mul scale (if ((i <? r) && (j <? c))%nat%bool then M i j else zero64).
Proof.
  intros b show_M show_k Hout Hp file scale. unfold loadMatrix.
  assert (SC : forall i j, entry_key i j <> "scaling") by (intros ? ? X; discriminate X).
  assert (ND : NoDup (map fst block)).
  { apply (Permutation.Permutation_map fst) in Hp. apply (Permutation.Permutation_NoDup (Permutation.Permutation_sym Hp)).
    rewrite map_app. pose proof (lines_nodup b r c M) as N. destruct k as [x|]; cbn; [|now rewrite app_nil_r].
    apply (Permutation.Permutation_NoDup (Permutation.Permutation_cons_append _ _)). constructor; [|exact N].
    intros H. apply lines_keys in H. destruct H as (i' & j' & _ & _ & E). apply app_inj_tail in E.
    destruct E as [_ E]. symmetry in E. now apply SC in E. }
  assert (LK : forall x t, In ((b ++ [x])%list, t) block -> file (b ++ [x])%list = Some t).
  { intros x t H. unfold file. rewrite of_nodes_app. rewrite of_nodes_none.
    - rewrite of_nodes_app, (of_nodes_some _ _ _ ND H). reflexivity.
    - intros X. apply (Hout (b ++ [x])%list) with (x := x); [|reflexivity]. rewrite map_app, in_app_iff. tauto. }
  assert (LN : forall x, ~ In (b ++ [x])%list (map fst block) -> file (b ++ [x])%list = None).
  { intros x H. unfold file. rewrite of_nodes_none; [reflexivity|]. rewrite !map_app, !in_app_iff.
    intros X. destruct X as [X|[X|X]]; [|contradiction|];
    (apply (Hout (b ++ [x])%list) with (x := x); [|reflexivity]; rewrite map_app, in_app_iff; tauto). }
  f_equal.
  - unfold pt_get_default. rewrite scaling_path. fold b. unfold scale. destruct k as [x|].
    + rewrite (LK "scaling" (show x)); [now rewrite show_k|].
      apply (Permutation.Permutation_in _ (Permutation.Permutation_sym Hp)). apply in_app_iff. right. now left.
    + rewrite LN; [reflexivity|]. intros H.
      apply (Permutation.Permutation_map fst) in Hp. apply (Permutation.Permutation_in _ Hp) in H.
      rewrite app_nil_r in H. apply lines_keys in H. destruct H as (i' & j' & _ & _ & E).
      apply app_inj_tail in E. destruct E as [_ E]. symmetry in E. now apply SC in E.
  - unfold pt_get_default. rewrite entry_path. fold b. change (entry i j) with (entry_key i j).
    destruct (Nat.ltb_spec i r), (Nat.ltb_spec j c); cbn [andb].
    { rewrite (LK _ (show (M i j))); [now rewrite show_M|].
      apply (Permutation.Permutation_in _ (Permutation.Permutation_sym Hp)). apply in_app_iff. left.
      now apply lines_in. }
    all: rewrite LN; [reflexivity|]; intros X;
      apply (Permutation.Permutation_map fst) in Hp; apply (Permutation.Permutation_in _ Hp) in X;
      rewrite map_app, in_app_iff in X; destruct X as [X|X];
      [apply lines_keys in X; destruct X as (i' & j' & Hi & Hj & E); apply app_inj_tail in E; destruct E as [_ E];
       apply entry_inj in E; destruct E; lia
      |destruct k as [x|]; [|destruct X]; destruct X as [X|[]]; cbn in X;
       apply app_inj_tail in X; destruct X as [_ X]; symmetry in X; now apply SC in X].
Qed.
End Matrix.

(** A 1x2 matrix [1 2], scaled by two, with its lines in another order, between other lines. *)
Definition two64 : spec_float := S754_finite false 4503599627370496 (-51).
Definition ex_show (x : spec_float) : string := if SFeqb x one64 then "1" else "2".
Definition ex_pd (t : string) : option spec_float :=
  if t =? "1" then Some one64 else if t =? "2" then Some two64 else None.
Definition ex_M (i j : nat) : spec_float := match j with O => one64 | _ => two64 end.
Example C87_matrix_example mul :
  let file := of_nodes [(["cost"; "R"; "(0,0)"], "9"); (["cost"; "Q"; "scaling"], "2");
                        (["cost"; "Q"; "(0,1)"], "2"); (["cost"; "Q"; "(0,0)"], "1")] in
  loadMatrix ex_pd mul file "Q" "cost." 0 1 = mul two64 two64.
Proof.
  intros file.
  refine (C87_matrix ex_pd mul ex_show [(["cost"; "R"; "(0,0)"], "9")]
    [(["cost"; "Q"; "scaling"], "2"); (["cost"; "Q"; "(0,1)"], "2"); (["cost"; "Q"; "(0,0)"], "1")] []
    "Q" "cost." 1 2 ex_M (Some two64) 0 1 _ _ _ _).
  - intros i [|[|j]] _ Hj; try lia; reflexivity.
  - intros x [= <-]. reflexivity.
  - cbn. intros q [<-|[]] x. discriminate.
  - cbn. apply perm_trans with [(["cost"; "Q"; "scaling"], "2"); (["cost"; "Q"; "(0,0)"], "1"); (["cost"; "Q"; "(0,1)"], "2")].
    + apply perm_skip, perm_swap.
    + change [(["cost"; "Q"; "scaling"], "2"); (["cost"; "Q"; "(0,0)"], "1"); (["cost"; "Q"; "(0,1)"], "2")]
        with ([(["cost"; "Q"; "scaling"], "2")] ++ [(["cost"; "Q"; "(0,0)"], "1"); (["cost"; "Q"; "(0,1)"], "2")])%list.
      apply Permutation_app_comm.
Qed.

(** An entry that cannot be read is not an error: it becomes zero. *)
Theorem C87_matrix_entry_refuted : exists pd pt, pt (path "file.Q.(0,0)") = Some "1,5"
  /\ pd "1,5" = None /\ forall mul, loadMatrix pd mul pt "Q" "file." 0 0 = mul one64 zero64.
Proof.
  exists (fun _ => None), (of_nodes [(["file"; "Q"; "(0,0)"], "1,5")]).
  split; [reflexivity|]. split; reflexivity.
Qed.

(** ** Texts: what is written as a decimal number or as a word is read as that value. *)
Lemma parse_print z : parse_Z (DecimalString.NilZero.string_of_int (Z.to_int z)) = Some z.
Proof.
  unfold parse_Z. rewrite DecimalString.NilZero.isi.
  - cbn. now rewrite DecimalZ.of_to.
  - destruct z; try discriminate. cbn. pose proof (DecimalPos.Unsigned.to_uint_nonnil p). congruence.
  - destruct z; try discriminate. cbn. pose proof (DecimalPos.Unsigned.to_uint_nonnil p). congruence.
Qed.
Theorem C87_texts pd z txt :
  let printed := DecimalString.NilZero.string_of_int (Z.to_int z) in
  parse pd TI printed = (if ((-2147483648 <=? z) && (z <=? 2147483647))%Z then Some (VI z) else None)
  /\ ((0 <= z < 4294967296)%Z -> parse pd TU printed = Some (VI z))
  /\ ((0 <= z < 18446744073709551616)%Z -> parse pd TZ printed = Some (VI z))
  /\ ((4294967296 <= z)%Z -> parse pd TU printed = None)
  /\ ((18446744073709551616 <= z)%Z -> parse pd TZ printed = None)
  /\ ((-4294967296 < z < 0)%Z -> parse pd TU printed = Some (VI (4294967296 + z)))
  /\ parse pd TS txt = Some (VS txt)
  /\ (parse pd TB txt = Some (VB true) <-> txt = "1" \/ txt = "true")
  /\ (parse pd TB txt = Some (VB false) <-> txt = "0" \/ txt = "false").
Proof.
  intros printed.
  assert (P : parse_Z printed = Some z) by apply parse_print.
  assert (U : forall bits, (0 <= bits)%Z -> parse_unsigned bits printed
      = if (Z.abs z <? 2 ^ bits)%Z then Some (z mod 2 ^ bits)%Z else None).
  { intros bits _. unfold parse_unsigned. now rewrite P. }
  clearbody printed.
  split; [cbn; rewrite P; reflexivity|].
  split; [intros H; cbn [parse]; rewrite U by lia; change (2 ^ 32)%Z with 4294967296%Z;
    rewrite Z.abs_eq by lia; destruct (Z.ltb_spec z 4294967296); [|lia]; rewrite Z.mod_small by lia; reflexivity|].
  split; [intros H; cbn [parse]; rewrite U by lia; change (2 ^ 64)%Z with 18446744073709551616%Z;
    rewrite Z.abs_eq by lia; destruct (Z.ltb_spec z 18446744073709551616); [|lia]; rewrite Z.mod_small by lia; reflexivity|].
  split; [intros H; cbn [parse]; rewrite U by lia; change (2 ^ 32)%Z with 4294967296%Z;
    rewrite Z.abs_eq by lia; destruct (Z.ltb_spec z 4294967296); [lia|reflexivity]|].
  split; [intros H; cbn [parse]; rewrite U by lia; change (2 ^ 64)%Z with 18446744073709551616%Z;
    rewrite Z.abs_eq by lia; destruct (Z.ltb_spec z 18446744073709551616); [lia|reflexivity]|].
  split; [intros H; cbn [parse]; rewrite U by lia; change (2 ^ 32)%Z with 4294967296%Z;
    destruct (Z.ltb_spec (Z.abs z) 4294967296); [|lia];
    replace (z mod 4294967296)%Z with (4294967296 + z)%Z; [reflexivity|];
    apply (Z.mod_unique z 4294967296 (-1) (4294967296 + z)); lia|].
  split; [reflexivity|].
  cbn [parse]. unfold parse_bool.
  destruct (String.eqb_spec txt "0") as [->|]; [cbn; intuition discriminate|].
  destruct (String.eqb_spec txt "1") as [->|]; [cbn; intuition discriminate|].
  destruct (String.eqb_spec txt "false") as [->|]; [cbn; intuition discriminate|].
  destruct (String.eqb_spec txt "true") as [->|]; [cbn; intuition discriminate|].
  cbn; intuition discriminate.
Qed.

(** ** The checks of the settings *)
Definition b64 := binary_float 53 1024.
Lemma gt_R (x y : b64) : is_finite x = true -> is_finite y = true ->
  gt (B2SF x) (B2SF y) = true <-> (B2R y < B2R x)%R.
Proof.
  intros Hx Hy. unfold gt. change (SFltb (B2SF y) (B2SF x)) with (Bltb y x).
  rewrite Bltb_correct by assumption. case Rlt_bool_spec; split; intros; try discriminate; try lra; auto.
Qed.
Lemma le_R (x y : b64) : is_finite x = true -> is_finite y = true ->
  SFleb (B2SF x) (B2SF y) = true <-> (B2R x <= B2R y)%R.
Proof.
  intros Hx Hy. change (SFleb (B2SF x) (B2SF y)) with (Bleb x y).
  rewrite Bleb_correct by assumption. case Rle_bool_spec; split; intros; try discriminate; try lra; auto.
Qed.
Definition b_zero : b64 := B754_zero false.
Definition b_fin m e (H : SpecFloat.bounded 53 1024 m e = true) : b64 := B754_finite false m e H.
Definition b_one : b64 := b_fin 4503599627370496 (-52) eq_refl.
Definition b_001 : b64 := b_fin 5764607523034235 (-59) eq_refl.
Definition b_100 : b64 := b_fin 7036874417766400 (-46) eq_refl.
Definition b_1em20 : b64 := b_fin 6646139978924579 (-119) eq_refl.
Lemma b_zero_R : B2R b_zero = 0%R. Proof. reflexivity. Qed.
Lemma b_one_R : B2R b_one = 1%R.
Proof. unfold b_one, b_fin, B2R, F2R. cbn [Fnum Fexp cond_Zopp]. change (bpow radix2 (-52)) with (/ IZR (2 ^ 52))%R. cbn. lra. Qed.
Lemma b_100_R : B2R b_100 = 100%R.
Proof. unfold b_100, b_fin, B2R, F2R. cbn [Fnum Fexp cond_Zopp]. change (bpow radix2 (-46)) with (/ IZR (2 ^ 46))%R. cbn. lra. Qed.
(** the other two constants are the doubles nearest to 0.01 and 1e-20 *)
Lemma b_001_R : (Rabs (B2R b_001 - 1 / 100) < bpow radix2 (-59))%R.
Proof.
  unfold b_001, b_fin, B2R, F2R. cbn [Fnum Fexp cond_Zopp]. change (bpow radix2 (-59)) with (/ IZR (2 ^ 59))%R. cbn.
  apply Rabs_def1; lra.
Qed.
Lemma b_1em20_R : (Rabs (B2R b_1em20 - 1 / 100000000000000000000) < bpow radix2 (-119))%R.
Proof.
  unfold b_1em20, b_fin, B2R, F2R. cbn [Fnum Fexp cond_Zopp]. change (bpow radix2 (-119)) with (/ IZR (2 ^ 119))%R. cbn.
  apply Rabs_def1; lra.
Qed.
Definition finite (x : b64) : Prop := is_finite x = true.

(** ** Matrices in doubles: without a scaling factor the matrix is read as it was written. *)
Lemma round_aux_NE s m e l : SpecFloat.binary_round_aux 53 1024 s m e l = binary_round_aux 53 1024 mode_NE s m e l.
Proof.
  unfold SpecFloat.binary_round_aux, binary_round_aux. destruct (shr_fexp _ _ _ _) as [r e']. cbn.
  replace (round_nearest_even (shr_m r) (loc_of_shr_record r))
    with (choice_mode mode_NE s (shr_m r) (loc_of_shr_record r)); [reflexivity|].
  destruct (loc_of_shr_record r) as [|[]]; try reflexivity. cbn. unfold Round.cond_incr. now destruct (Z.even _).
Qed.
Lemma SFmul_one (x : b64) : finite x -> SFmul 53 1024 (B2SF b_one) (B2SF x) = B2SF x.
Proof.
  intros Hx. assert (P0 : Prec_gt_0 53) by reflexivity. assert (P1 : Prec_lt_emax 53 1024) by reflexivity.
  assert (E : SFmul 53 1024 (B2SF b_one) (B2SF x) = B2SF (Bmult mode_NE b_one x)).
  { destruct x as [s|s| |s m e B]; try discriminate; [reflexivity|]. unfold b_one, b_fin, Bmult.
    rewrite B2SF_SF2B. apply round_aux_NE. }
  rewrite E. f_equal. pose proof (Bmult_correct 53 1024 P0 P1 mode_NE b_one x) as C.
  rewrite b_one_R, Rmult_1_l, round_generic in C; [|apply valid_rnd_round_mode|apply generic_format_B2R].
  rewrite Rlt_bool_true in C by apply abs_B2R_lt_emax. destruct C as (C1 & C2 & C3).
  apply B2R_Bsign_inj; auto; rewrite C2 || idtac; [now rewrite Hx|].
  rewrite C3; [cbn; now destruct (Bsign x)|].
  destruct (Bmult mode_NE b_one x); try reflexivity. cbn in C2. rewrite Hx in C2. discriminate.
Qed.
Theorem C87_matrix_unscaled pd show before block after name ns r c (M : nat -> nat -> b64) i j :
  let b := path (ns ++ name) in
  (forall i j, (i < r)%nat -> (j < c)%nat -> finite (M i j) /\ pd (show (B2SF (M i j))) = Some (B2SF (M i j))) ->
  (forall q, In q (map fst (before ++ after)) -> forall x, q <> (b ++ [x])%list) ->
  Permutation.Permutation block (matrix_lines show b r c (fun i j => B2SF (M i j))) ->
  (i < r)%nat -> (j < c)%nat ->
  loadMatrix pd (SFmul 53 1024) (of_nodes (before ++ block ++ after)) name ns i j = B2SF (M i j).
Proof.
  intros b HM Hout Hp Hi Hj.
  rewrite (C87_matrix pd (SFmul 53 1024) show before block after name ns r c (fun i j => B2SF (M i j)) None i j).
  - apply Nat.ltb_lt in Hi as Hi'. apply Nat.ltb_lt in Hj as Hj'. rewrite Hi', Hj'. cbn [andb].
    change one64 with (B2SF b_one). apply SFmul_one. now apply HM.
  - intros i' j' A B. now apply HM.
  - discriminate.
  - exact Hout.
  - now rewrite app_nil_r.
Qed.

(** For numbers (neither infinite nor NaN) the checks are these conditions. *)
Theorem C87_line_search_check (a0 na am : b64) : finite a0 -> finite na -> finite am ->
  line_search_ok (B2SF a0) (B2SF na) (B2SF am) = true
  <-> (0 < B2R a0 /\ 0 < B2R na < 1 /\ 0 < B2R am)%R.
Proof.
  intros H1 H2 H3. unfold line_search_ok. rewrite !andb_true_iff.
  change zero_d with (B2SF b_zero). change one_d with (B2SF b_one).
  change (SFltb (B2SF na) (B2SF b_one)) with (gt (B2SF b_one) (B2SF na)).
  rewrite !gt_R by (auto; reflexivity). rewrite b_zero_R, b_one_R. tauto.
Qed.
Lemma if_false (b c : bool) : (if b then false else c) = true <-> b = false /\ c = true.
Proof. destruct b; intuition congruence. Qed.
Lemma le_R_false (x y : b64) : finite x -> finite y ->
  SFleb (B2SF x) (B2SF y) = false <-> (B2R y < B2R x)%R.
Proof.
  intros Hx Hy. pose proof (le_R x y Hx Hy) as E. destruct (SFleb _ _).
  - assert (B2R x <= B2R y)%R by now apply E. split; [discriminate|lra].
  - split; [|reflexivity]. intros _. destruct (Rle_or_lt (B2R x) (B2R y)) as [L|L]; auto. apply E in L. discriminate.
Qed.
Lemma gt_R_false (x y : b64) : finite x -> finite y ->
  gt (B2SF x) (B2SF y) = false <-> (B2R x <= B2R y)%R.
Proof.
  intros Hx Hy. pose proof (gt_R x y Hx Hy) as E. destruct (gt _ _).
  - assert (B2R y < B2R x)%R by now apply E. split; [discriminate|lra].
  - split; [|reflexivity]. intros _. destruct (Rle_or_lt (B2R x) (B2R y)) as [L|L]; auto. apply E in L. discriminate.
Qed.

Theorem C87_solver_check_partial (dt a0 na am : b64) ksim kshot alg nt ne :
  finite dt -> finite a0 -> finite na -> finite am ->
  nloptcon_ok (mkNloc (B2SF dt) ksim kshot alg nt ne (B2SF a0) (B2SF na) (B2SF am)) = true
  <-> (0 < B2R dt)%R /\ (0 < ksim)%Z /\ (0 < kshot)%Z /\ (alg = 1 -> kshot = 1)%Z
      /\ (nt <= 100)%Z /\ (ne <= 100)%Z
      /\ (0 < B2R a0 /\ 0 < B2R na < 1 /\ 0 < B2R am)%R.
Proof.
  intros H0 H1 H2 H3. rewrite <- (C87_line_search_check a0 na am H1 H2 H3).
  unfold nloptcon_ok. cbn [p_dt p_K_sim p_K_shot p_algorithm p_nThreads p_nThreadsEigen p_alpha_0 p_n_alpha p_alpha_max].
  rewrite !if_false. change zero_d with (B2SF b_zero). rewrite le_R_false by (auto; reflexivity).
  rewrite b_zero_R. rewrite !orb_false_iff, andb_false_iff.
  rewrite !Z.leb_gt, !Z.ltb_ge, Z.eqb_neq.
  intuition lia.
Qed.

Theorem C87_dms_check_partial (T hmin dt ab rel : b64) n nt sp co ob it so :
  finite T -> finite hmin -> finite dt -> finite ab -> finite rel ->
  dms_ok (mkDms n (B2SF T) nt sp co ob (B2SF hmin) it (B2SF dt) (B2SF ab) (B2SF rel) so) = true
  <-> (1 <= n <= 1000)%Z /\ (0 < B2R T)%R /\ (1 <= nt <= 32)%Z
      /\ (0 <= sp < 2)%Z /\ (0 <= co < 2)%Z /\ (0 <= ob < 2)%Z /\ (0 <= it < 3)%Z /\ (0 <= so < 2)%Z
      /\ (B2R b_001 <= B2R hmin <= B2R T)%R /\ (0 < B2R dt <= 100)%R
      /\ (B2R b_1em20 < B2R ab <= 1)%R /\ (B2R b_1em20 < B2R rel <= 1)%R.
Proof.
  intros H0 H1 H2 H3 H4. unfold dms_ok.
  cbn [q_N q_T q_nThreads q_spline q_cost q_objective q_h_min q_integration q_dt_sim q_abs q_rel q_solver].
  rewrite !if_false, !orb_false_iff, !negb_false_iff.
  change zero_d with (B2SF b_zero). change d_001 with (B2SF b_001). change d_100 with (B2SF b_100).
  change d_1em20 with (B2SF b_1em20). change one_d with (B2SF b_one).
  change (SFltb (B2SF hmin) (B2SF b_001)) with (gt (B2SF b_001) (B2SF hmin)).
  rewrite !le_R_false, !gt_R_false by (auto; reflexivity).
  rewrite b_zero_R, b_one_R, b_100_R. unfold nlp_ok.
  rewrite orb_true_iff, !Z.eqb_eq, !Z.ltb_ge, !Z.ltb_lt.
  intuition lia.
Qed.

(** NaN passes both checks, and so does a number of threads that is not positive. *)
Theorem C87_nan_refuted :
  nloptcon_ok (mkNloc S754_nan 1 1 0 4 4 (B2SF b_one) (B2SF b_001) (B2SF b_one)) = true
  /\ dms_ok (mkDms 10 S754_nan 4 0 0 0 (B2SF b_one) 0 (B2SF b_one) (B2SF b_001) (B2SF b_001) 0) = true.
Proof. split; vm_compute; reflexivity. Qed.
Theorem C87_threads_refuted (n m : Z) : (n <= 0)%Z -> (m <= 0)%Z ->
  nloptcon_ok (mkNloc (B2SF b_001) 1 1 0 n m (B2SF b_one) (B2SF b_001) (B2SF b_one)) = true.
Proof.
  intros H1 H2. unfold nloptcon_ok.
  cbn [p_dt p_K_sim p_K_shot p_algorithm p_nThreads p_nThreadsEigen p_alpha_0 p_n_alpha p_alpha_max].
  replace (100 <? n)%Z with false by (symmetry; apply Z.ltb_ge; lia).
  replace (100 <? m)%Z with false by (symmetry; apply Z.ltb_ge; lia). vm_compute. reflexivity.
Qed.

(** values that pass *)
Example C87_check_example :
  nloptcon_ok (mkNloc (B2SF b_001) 1 1 1 4 4 (B2SF b_one) (B2SF b_001) (B2SF b_one)) = true
  /\ dms_ok (mkDms 25 (B2SF b_100) 4 1 0 1 (B2SF b_one) 2 (B2SF b_001) (B2SF b_001) (B2SF b_001) 1) = true.
Proof. split; vm_compute; reflexivity. Qed.

(** ** Files that are misread *)
Section Misread.
Variable pd : string -> option spec_float.
Variable s : settings.

(** The algorithm is named, but as the integrator is not, it is not loaded. *)
Theorem C87_names_refuted :
  let pt := of_nodes [(["solver"; "nlocp_algorithm"], "ILQR")] in
  names_it pd pt algorithm_names "solver" "nlocp_algorithm" 1
  /\ fst (run pd pt load_nloptcon "solver" s) = Done
  /\ snd (run pd pt load_nloptcon "solver" s) "nlocp_algorithm" = s "nlocp_algorithm".
Proof.
  split; [exists "ILQR"; split; reflexivity|]. split; reflexivity.
Qed.
(** A misspelt name ends the process instead of being reported. *)
Theorem C87_unknown_exits_refuted :
  fst (run pd (of_nodes [(["solver"; "integrator"], "Rk4")]) load_nloptcon "solver" s) = Exited.
Proof. reflexivity. Qed.
(** A line search block without alpha_0: what comes before it is loaded, what comes after it
    is ignored, without an error. *)
Theorem C87_line_search_refuted :
  let pt := of_nodes [(["solver"; "line_search"; "type"], "ARMIJO");
                      (["solver"; "line_search"; "maxIterations"], "7");
                      (["solver"; "line_search"; "debugPrint"], "true")] in
  let r := run pd pt load_nloptcon "solver" s in
  fst r = Done /\ snd r "lineSearchSettings.type" = VI 2 /\ snd r "lineSearchSettings.maxIterations" = VI 7
  /\ given pd pt TB "solver.line_search" "debugPrint" = Some (VB true)
  /\ snd r "lineSearchSettings.debugPrint" = s "lineSearchSettings.debugPrint".
Proof. repeat split. Qed.
(** The print frequency of IPOPT is looked for under a key with an underscore at its end. *)
Theorem C87_ipopt_frequency_refuted (rest : tree) (z : string) ns :
  let pt p := if list_eq_dec string_dec p (path (ns ++ "." ++ "print_frequency_iter")) then Some z else rest p in
  rest (path (ns ++ "." ++ "print_frequency_iter_")) = None ->
  snd (run pd pt load_ipopt ns s) "print_frequency_iter_" = s "print_frequency_iter_".
Proof.
  intros pt H. unfold run.
  change load_ipopt with (firstn 15 load_ipopt ++ [IfExists TI "print_frequency_iter_" "print_frequency_iter_"]
                          ++ skipn 16 load_ipopt)%list.
  rewrite !seq_app.
  assert (N1 : ~ In "print_frequency_iter_" (flat_map (writes "") (firstn 15 load_ipopt))) by (cbn; intuition discriminate).
  assert (N2 : ~ In "print_frequency_iter_" (flat_map (writes "") (skipn 16 load_ipopt))) by (cbn; intuition discriminate).
  pose proof (seq_frame pd pt _ "" ns s _ N1) as F1.
  destruct (seq_ (exec pd pt "" ns) (firstn 15 load_ipopt) s) as [[] s1]; cbn [snd] in *; auto.
  cbn [app seq_ exec].
  assert (E : pt (path (ns ++ "." ++ "print_frequency_iter_")) = None).
  { unfold pt. destruct (list_eq_dec _ _ _) as [e|]; [|exact H]. apply path_inj in e. apply append_inj_l in e. discriminate. }
  rewrite E. rewrite (seq_frame pd pt _ "" ns s1 _ N2). exact F1.
Qed.
(** The solver type is kept in eight bits: 256 is IPOPT, and passes the check. *)
Theorem C87_solver_type_refuted :
  let pt := of_nodes [(["nlp"; "SolverType"], "256"); (["nlp"; "UseGeneratedCostGradient"], "0");
                      (["nlp"; "UseGeneratedConstraintJacobian"], "0")] in
  given pd pt TU "nlp" "SolverType" = Some (VI 256)
  /\ snd (run pd pt load_nlp "nlp" s) "solverType_" = VI 0 /\ nlp_ok 0 = true.
Proof. repeat split. Qed.

(** The parameters of the unscented filter are read as truth values: what is not 0, 1, true or
    false throws, whatever number it is. *)
Theorem C87_ukf_parameters_refuted (pt : tree) ns txt :
  pt (path (ns ++ "." ++ "alpha")) = Some txt -> ~ In txt ["0"; "1"; "true"; "false"] ->
  fst (run pd pt load_ukf ns s) = Thrown.
Proof.
  intros H N. unfold run. cbn [load_ukf seq_ exec]. rewrite get_given. unfold given. rewrite H.
  cbn [parse]. unfold parse_bool. cbn in N.
  destruct (String.eqb_spec txt "0"); [exfalso; subst; tauto|].
  destruct (String.eqb_spec txt "1"); [exfalso; subst; tauto|].
  destruct (String.eqb_spec txt "false"); [exfalso; subst; tauto|].
  destruct (String.eqb_spec txt "true"); [exfalso; subst; tauto|]. reflexivity.
Qed.

(** The matrices of the unscented filter are read from the block whose path is the namespace directly followed by the
    name: what is written there arrives. *)
Theorem C87_ukf_matrix show before block after name ns r c (M : nat -> nat -> b64) i j :
  let b := path (ns ++ name) in
  (forall i j, (i < r)%nat -> (j < c)%nat -> finite (M i j) /\ pd (show (B2SF (M i j))) = Some (B2SF (M i j))) ->
  (forall q, In q (map fst (before ++ after)) -> forall x, q <> (b ++ [x])%list) ->
  Permutation.Permutation block (matrix_lines show b r c (fun i j => B2SF (M i j))) ->
  (i < r)%nat -> (j < c)%nat ->
  load_ukf_matrix pd (SFmul 53 1024) (of_nodes (before ++ block ++ after)) ns name i j = B2SF (M i j).
Proof. intros. unfold load_ukf_matrix. now apply (C87_matrix_unscaled pd show before block after name ns r c). Qed.

(** With all its settings in one block, no namespace makes both the parameters and the
    matrices load. *)
Theorem C87_ukf_namespace_refuted mul x00 ns :
  let pt := of_nodes [(["ukf"; "alpha"], "1"); (["ukf"; "beta"], "1"); (["ukf"; "kappa"], "1");
                      (["ukf"; "x0"; "(0,0)"], x00)] in
  fst (run pd pt load_ukf ns s) = Done ->
  load_ukf_matrix pd mul pt ns "x0" 0 0 = mul one64 zero64.
Proof.
  intros pt D. unfold run in D. cbn [load_ukf seq_ exec] in D. rewrite get_given in D. unfold given in D.
  destruct (pt (path (ns ++ "." ++ "alpha"))) as [t|] eqn:A; [|discriminate].
  assert (P : ns = "ukf").
  { rewrite path_app in A. change (path "alpha") with ["alpha"] in A. unfold pt in A. cbn [of_nodes] in A.
    repeat match type of A with
    | context [list_eq_dec string_dec ?a ?b] => destruct (list_eq_dec string_dec a b)
    end; try discriminate.
    all: match goal with X : _ = (_ ++ ["alpha"])%list |- _ =>
      pose proof (f_equal (fun l => last l "") X) as Y; cbv beta in Y; rewrite last_last in Y;
      try discriminate Y; pose proof (f_equal (@removelast string) X) as W; rewrite removelast_last in W end.
    apply path_inj. symmetry. exact W. }
  subst ns. reflexivity.
Qed.
End Misread.

(** ** Files the theorems about loading apply to *)
Section Files.
Variable s : settings.
(** a solver block with a line search: the hypotheses of C87_line_search_partial and
    C87_names_partial *)
Definition solver_file : tree := of_nodes
  [(["solver"; "integrator"], "RK4"); (["solver"; "discretization"], "Tustin");
   (["solver"; "nlocp_algorithm"], "GNMS"); (["solver"; "locp_solver"], "HPIPM_SOLVER");
   (["solver"; "line_search"; "type"], "SIMPLE"); (["solver"; "line_search"; "maxIterations"], "10");
   (["solver"; "line_search"; "alpha_0"], "1"); (["solver"; "line_search"; "n_alpha"], "1");
   (["solver"; "line_search"; "debugPrint"], "false"); (["solver"; "dt"], "2")].
Example C87_solver_example :
  names_it ex_pd solver_file integrator_names "solver" "integrator" 1
  /\ names_it ex_pd solver_file discretization_names "solver" "discretization" 3
  /\ names_it ex_pd solver_file algorithm_names "solver" "nlocp_algorithm" 0
  /\ names_it ex_pd solver_file lq_solver_names "solver" "locp_solver" 1
  /\ names_it ex_pd solver_file line_search_names "solver.line_search" "type" 1
  /\ given ex_pd solver_file TZ "solver.line_search" "maxIterations" = Some (VI 10)
  /\ given ex_pd solver_file TD "solver.line_search" "alpha_0" = Some (VD one64)
  /\ given ex_pd solver_file TD "solver.line_search" "n_alpha" = Some (VD one64)
  /\ given ex_pd solver_file TB "solver.line_search" "debugPrint" = Some (VB false)
  /\ fst (run ex_pd solver_file load_nloptcon "solver" s) = Done
  /\ snd (run ex_pd solver_file load_nloptcon "solver" s) "dt" = VD two64.
Proof. repeat split; (eexists; split; reflexivity). Qed.
(** a complete file for direct multiple shooting with IPOPT *)
Definition block (p : list string) (l : list (string * string)) : list (list string * string) :=
  map (fun kv => (List.app p [fst kv], snd kv)) l.
Definition dms_file : tree := of_nodes
  (block ["dms"] [("N", "25"); ("T", "2"); ("nThreads", "4"); ("InterpolationType", "0");
                  ("CostEvaluationType", "0"); ("ObjectiveType", "0"); ("h_min", "1");
                  ("IntegrationType", "1"); ("dt_sim", "1"); ("AbsErrTol", "1"); ("RelErrTol", "1")] ++
   block ["dms"; "solver"] [("SolverType", "0"); ("UseGeneratedCostGradient", "1");
                            ("UseGeneratedConstraintJacobian", "0")] ++
   block ["dms"; "solver"; "ipopt"] [("MaxIterations", "100"); ("CheckDerivatives", "0");
                                     ("ExactHessian", "0"); ("Verbosity", "0"); ("OptimalityTolerance", "1");
                                     ("restoTol", "2"); ("linear_solver", "ma57")] ++
   block ["dms"; "cppad"] [("MultiThreading", "0"); ("CreateForwardZero", "1"); ("CreateForwardOne", "0");
                           ("CreateReverseOne", "0"); ("CreateReverseTwo", "0"); ("CreateJacobian", "1");
                           ("CreateSparseJacobian", "0"); ("CreateHessian", "0"); ("CreateSparseHessian", "0");
                           ("MaxAssignements", "20000"); ("GenerateSourceCode", "0"); ("UseDynamicLibrary", "0");
                           ("Compiler", "CLANG")]).
Example C87_dms_example :
  let r := run ex_pd dms_file load_dms "dms" s in
  fst r = Done /\ given ex_pd dms_file TU "dms.solver" "SolverType" = Some (VI 0)
  /\ snd r "N_" = VI 25 /\ snd r "solverSettings_.ipoptSettings_.max_iter_" = VI 100
  /\ snd r "solverSettings_.ipoptSettings_.linear_solver_" = VS "ma57"
  /\ snd r "solverSettings_.useGeneratedCostGradient_" = VB true
  /\ snd r "cppadSettings_.compiler_" = VI 1.
Proof. repeat split; vm_compute; reflexivity. Qed.
Example C87_mpc_example :
  let file := of_nodes (block ["mpc"]
     [("measureDelay", "1"); ("stateForwardIntegration", "0"); ("stateForwardIntegration_dt", "1");
      ("stateForwardIntegratorType", "1"); ("fixedDelayUs", "0"); ("additionalDelayUs", "0");
      ("timeHorizon", "2"); ("coldStart", "false"); ("postTruncation", "true");
      ("delayMeasurementMultiplier", "1"); ("useExternalTiming", "false")]) in
  let r := run ex_pd file load_mpc "mpc" s in
  fst r = Done /\ snd r "minimumTimeHorizonMpc_" = VD two64 /\ snd r "postTruncation_" = VB true.
Proof. repeat split; vm_compute; reflexivity. Qed.
End Files.

Print Assumptions C87_matrix.
Print Assumptions C87_matrix_unscaled.
Print Assumptions C87_matrix_entry_refuted.
Print Assumptions C87_texts.
Print Assumptions C87_line_search_check.
Print Assumptions C87_solver_check_partial.
Print Assumptions C87_dms_check_partial.
Print Assumptions C87_nan_refuted.
Print Assumptions C87_threads_refuted.
Print Assumptions C87_names_refuted.
Print Assumptions C87_unknown_exits_refuted.
Print Assumptions C87_line_search_refuted.
Print Assumptions C87_ipopt_frequency_refuted.
Print Assumptions C87_solver_type_refuted.
Print Assumptions C87_ukf_parameters_refuted.
Print Assumptions C87_ukf_namespace_refuted.
Print Assumptions C87_ukf_matrix.
