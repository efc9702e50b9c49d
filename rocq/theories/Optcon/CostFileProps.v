(** Properties of cost functions loaded from files. *)
From Coq Require Import List String Ascii ZArith Arith Bool Lia FinFun.
From Coq Require Import Floats.SpecFloat.
From Verif Require Import Base.Outcome Core.InfoModel Core.InfoProofs Optcon.CostFileModel.
Import ListNotations.
Local Open Scope string_scope.

(** * Specification *)
(** The file describes term number [i] by a kind, in any case, and the type 0 (intermediate) or 1 (final). *)
Definition describes (pt : tree) (i : nat) (e : string * Z) : Prop :=
  exists k t, pt ["term" ++ to_string i; "kind"] = Some k /\ lower k = fst e /\ In (fst e) ["linear"; "quadratic"; "mixed"; "quadratic-multiplicative"; "smooth-abs"] /\
  pt ["term" ++ to_string i; "type"] = Some t /\ parse_Z t = Some (snd e) /\ (snd e = 0 \/ snd e = 1)%Z.
(** The terms of a type, with their numbers *)
Fixpoint ofType (ty : Z) (i : nat) (es : list (string * Z)) : list (nat * string) :=
  match es with [] => [] | e :: r => if Z.eqb (snd e) ty then (i, fst e) :: ofType ty (S i) r else ofType ty (S i) r end.
Definition contents (l : list loaded) : list (nat * string) := map (fun t => (number t, kind t)) l.

(** * Lemmas *)
Lemma term_plain i : has "." (termKey i) = false.
Proof. unfold termKey. rewrite has_app. destruct (plain_to_string i) as [-> _]. reflexivity. Qed.
Lemma term_path i k : has "." k = false -> path (termKey i ++ "." ++ k) = [termKey i; k].
Proof. intros H. rewrite path_app, !path_plain by (exact H || apply term_plain). reflexivity. Qed.
Section Load.
Variable parse_double : string -> option spec_float.
Variable pt : tree.
Definition added (ad : bool) (e : string * Z) (i : nat) (c : costs) : costs :=
  let t := mkLoaded i (fst e) (fst e) in
  if Z.eqb (snd e) 0 then (if ad then mkCosts (intermediate c) (final c) (intermediateAD c ++ [t])%list (finalAD c) else mkCosts (intermediate c ++ [t])%list (final c) (intermediateAD c) (finalAD c))
  else (if ad then mkCosts (intermediate c) (final c) (intermediateAD c) (finalAD c ++ [t])%list else mkCosts (intermediate c) (final c ++ [t])%list (intermediateAD c) (finalAD c)).
Lemma load_one ad i e c : describes pt i e -> loadTerm parse_double pt ad i c = Ok (added ad e i c).
Proof.
  intros (k & t & Hk & Hl & Hs & Ht & Hz & Ho). destruct e as [a z]. cbn [fst snd] in *. fold (termKey i) in Hk, Ht.
  unfold loadTerm, pt_get. rewrite (term_path i "kind") by reflexivity. rewrite Hk. cbn [parse obind]. rewrite (term_path i "type") by reflexivity. rewrite Ht. cbn [parse]. rewrite Hz.
  assert (I : in_int z = true) by (destruct Ho as [->| ->]; reflexivity). rewrite I. cbn [obind]. rewrite Hl.
  assert (Su : isSupported a = true). { unfold isSupported. apply existsb_exists. exists a. split; [exact Hs|apply String.eqb_refl]. }
  rewrite Su. unfold addTerm, added. cbn [fst snd]. destruct Ho as [->| ->]; cbn; destruct ad; reflexivity.
Qed.
Lemma load_loop ad : forall es i c fuel, es <> [] -> (forall n e, nth_error es n = Some e -> describes pt (i + n) e) ->
  (forall n, (0 < n < List.length es)%nat -> pt ["term" ++ to_string (i + n)] <> None) -> pt ["term" ++ to_string (i + List.length es)] = None -> (List.length es <= fuel)%nat ->
  exists c', loop parse_double pt ad fuel i c = Some (Ok c') /\
  (ad = false -> contents (intermediate c') = (contents (intermediate c) ++ ofType 0 i es)%list /\ contents (final c') = (contents (final c) ++ ofType 1 i es)%list /\
     intermediateAD c' = intermediateAD c /\ finalAD c' = finalAD c) /\
  (ad = true -> contents (intermediateAD c') = (contents (intermediateAD c) ++ ofType 0 i es)%list /\ contents (finalAD c') = (contents (finalAD c) ++ ofType 1 i es)%list /\
     intermediate c' = intermediate c /\ final c' = final c).
Proof.
  induction es as [|e es IH]; intros i c fuel N D Ex Nx Hf; [congruence|]. destruct fuel as [|fuel]; [cbn in Hf; lia|]. cbn [loop].
  pose proof (D 0%nat e eq_refl) as D0. rewrite Nat.add_0_r in D0. rewrite (load_one ad i e c D0). assert (Ho : (snd e = 0 \/ snd e = 1)%Z) by (destruct D0 as (k & t & D0); apply D0).
  assert (A : (ad = false -> contents (intermediate (added ad e i c)) = (contents (intermediate c) ++ ofType 0 i [e])%list /\ contents (final (added ad e i c)) = (contents (final c) ++ ofType 1 i [e])%list /\
     intermediateAD (added ad e i c) = intermediateAD c /\ finalAD (added ad e i c) = finalAD c) /\
     (ad = true -> contents (intermediateAD (added ad e i c)) = (contents (intermediateAD c) ++ ofType 0 i [e])%list /\ contents (finalAD (added ad e i c)) = (contents (finalAD c) ++ ofType 1 i [e])%list /\
     intermediate (added ad e i c) = intermediate c /\ final (added ad e i c) = final c)).
  { unfold added, ofType, contents. destruct Ho as [-> | ->]; cbn; split; intros ->; cbn; rewrite ?map_app, ?app_nil_r; cbn; repeat split. }
  destruct es as [|e' es].
  - cbn [List.length] in Nx. unfold termKey. rewrite Nx. exists (added ad e i c). split; [reflexivity|exact A].
  - destruct (pt [termKey (i + 1)]) as [t|] eqn:Et; [|exfalso; apply (Ex 1%nat); [cbn; lia|exact Et]].
    destruct (IH (i + 1)%nat (added ad e i c) fuel) as (c' & E & Fa & Ta).
    + discriminate.
    + intros n e0 Hn. replace (i + 1 + n)%nat with (i + S n)%nat by lia. apply D. exact Hn.
    + intros n Hn. replace (i + 1 + n)%nat with (i + S n)%nat by lia. apply Ex. cbn in *. lia.
    + replace (i + 1 + List.length (e' :: es))%nat with (i + List.length (e :: e' :: es))%nat by (cbn; lia). exact Nx.
    + cbn in *. lia.
    + exists c'. split; [exact E|].
      assert (Cons : forall ty, ofType ty i (e :: e' :: es) = (ofType ty i [e] ++ ofType ty (i + 1) (e' :: es))%list).
      { intros ty. rewrite Nat.add_1_r. cbn [ofType]. destruct (Z.eqb (snd e) ty); reflexivity. }
      rewrite !Cons. split.
      * intros Had. destruct (Fa Had) as (F1 & F2 & F3 & F4). destruct (proj1 A Had) as (A1 & A2 & A3 & A4). rewrite F1, F2, F3, F4, A1, A2, A3, A4, !app_assoc. repeat split.
      * intros Had. destruct (Ta Had) as (F1 & F2 & F3 & F4). destruct (proj2 A Had) as (A1 & A2 & A3 & A4). rewrite F1, F2, F3, F4, A1, A2, A3, A4, !app_assoc. repeat split.
Qed.
(** A file that describes the terms 0, 1, ..., n - 1 and has no term n gives a cost function with exactly these terms, those of type 0
    as intermediate and those of type 1 as final terms, in the order of the file; analytical terms it had before are gone. *)
Theorem C107_loaded es c fuel : es <> [] -> (forall n e, nth_error es n = Some e -> describes pt n e) ->
  (forall n, (0 < n < List.length es)%nat -> pt ["term" ++ to_string n] <> None) -> pt ["term" ++ to_string (List.length es)] = None -> (List.length es <= fuel)%nat ->
  exists c', loadFromConfigFile parse_double pt false fuel c = Some (Ok c') /\
  contents (intermediate c') = ofType 0 0 es /\ contents (final c') = ofType 1 0 es.
Proof.
  intros N D Ex Nx Hf. destruct (load_loop false es 0 (mkCosts [] [] (intermediateAD c) (finalAD c)) fuel N D Ex Nx Hf) as (c' & E & Fa & _).
  exists c'. split; [exact E|]. destruct (Fa eq_refl) as (F1 & F2 & _). split; assumption.
Qed.
Print Assumptions C107_loaded.
(** The automatically differentiated cost function appends the terms of the file to those it had: loading a file twice counts every
    term twice. *)
Theorem C107_again_refuted es c fuel : es <> [] -> (forall n e, nth_error es n = Some e -> describes pt n e) ->
  (forall n, (0 < n < List.length es)%nat -> pt ["term" ++ to_string n] <> None) -> pt ["term" ++ to_string (List.length es)] = None -> (List.length es <= fuel)%nat ->
  exists c1 c2, loadFromConfigFile parse_double pt true fuel c = Some (Ok c1) /\ loadFromConfigFile parse_double pt true fuel c1 = Some (Ok c2) /\
  contents (intermediateAD c1) = (contents (intermediateAD c) ++ ofType 0 0 es)%list /\
  contents (intermediateAD c2) = (contents (intermediateAD c) ++ ofType 0 0 es ++ ofType 0 0 es)%list /\
  contents (finalAD c2) = (contents (finalAD c) ++ ofType 1 0 es ++ ofType 1 0 es)%list.
Proof.
  intros N D Ex Nx Hf. destruct (load_loop true es 0 (mkCosts [] [] (intermediateAD c) (finalAD c)) fuel N D Ex Nx Hf) as (c1 & E & _ & Ta).
  destruct (load_loop true es 0 (mkCosts [] [] (intermediateAD c1) (finalAD c1)) fuel N D Ex Nx Hf) as (c2 & E2 & _ & Tb).
  exists c1, c2. split; [exact E|]. split; [exact E2|]. destruct (Ta eq_refl) as (F1 & F2 & _). destruct (Tb eq_refl) as (G1 & G2 & _). cbn [intermediateAD finalAD] in *.
  split; [exact F1|]. rewrite G1, G2, F1, F2, !app_assoc. split; reflexivity.
Qed.
Print Assumptions C107_again_refuted.
(** A first term without kind or type, of an unknown kind or of another type is an exception. *)
Theorem C107_rejected ad fuel c : (pt ["term" ++ to_string 0; "kind"] = None \/ pt ["term" ++ to_string 0; "type"] = None \/
  (exists k, pt ["term" ++ to_string 0; "kind"] = Some k /\ ~ In (lower k) ["linear"; "quadratic"; "mixed"; "quadratic-multiplicative"; "smooth-abs"]) \/
  (exists t z, pt ["term" ++ to_string 0; "type"] = Some t /\ parse_Z t = Some z /\ z <> 0%Z /\ z <> 1%Z)) ->
  loadFromConfigFile parse_double pt ad (S fuel) c = Some Throw.
Proof.
  intros H. unfold loadFromConfigFile. cbn [loop]. set (c0 := mkCosts _ _ _ _).
  assert (E : loadTerm parse_double pt ad 0 c0 = Throw); [|rewrite E; reflexivity].
  unfold loadTerm, pt_get. rewrite (term_path 0 "kind") by reflexivity. rewrite (term_path 0 "type") by reflexivity. fold (termKey 0) in H.
  destruct (pt [termKey 0; "kind"]) as [k|] eqn:Ek; [|reflexivity]. cbn [parse obind]. destruct (pt [termKey 0; "type"]) as [t|] eqn:Et; [|reflexivity].
  cbn [parse]. destruct (parse_Z t) as [z|] eqn:Ez; [|reflexivity]. destruct (in_int z); [|reflexivity]. cbn [obind].
  destruct (isSupported (lower k)) eqn:Su; [|reflexivity]. destruct H as [H|[H|[(k' & H1 & H2)|(t' & z' & H1 & H2 & H3 & H4)]]]; try discriminate.
  - injection H1 as <-. exfalso. apply H2. unfold isSupported in Su. apply existsb_exists in Su as (a & Ha & Ea). apply String.eqb_eq in Ea. rewrite Ea. exact Ha.
  - injection H1 as <-. rewrite H2 in Ez. injection Ez as ->. unfold addTerm. destruct (Z.eqb_spec z 0); [contradiction|]. destruct (Z.eqb_spec z 1); [contradiction|]. reflexivity.
Qed.
Print Assumptions C107_rejected.
(** Weights of a term are read below its node, with an optional common factor, like matrices of the core library. *)
Theorem C107_weights mul nm term i j : term <> "" -> loadMatrixCF parse_double pt mul nm term i j = loadMatrix parse_double mul pt nm (term ++ ".weights.") i j.
Proof.
  intros H. unfold loadMatrixCF, loadMatrix. destruct (String.eqb_spec term ""); [contradiction|]. rewrite !append_assoc. reflexivity.
Qed.
Print Assumptions C107_weights.
End Load.

(** * The loop ends *)
Lemma unended pd pt ad : forall fuel i c, loop pd pt ad fuel i c = None -> forall n, (1 <= n <= fuel)%nat -> pt [termKey (i + n)] <> None.
Proof.
  induction fuel as [|f IH]; intros i c H n Hn; [lia|]. cbn [loop] in H. destruct (loadTerm pd pt ad i c) as [c'| |]; try discriminate.
  destruct (pt [termKey (i + 1)]) as [t|] eqn:E; [|discriminate]. destruct (Nat.eq_dec n 1) as [->|N]; [rewrite E; discriminate|].
  replace (i + n)%nat with (i + 1 + (n - 1))%nat by lia. apply (IH _ _ H). lia.
Qed.
(** Every file, right or wrong, is loaded or rejected after finitely many rounds. *)
Theorem C107_ends pd l ad fuel c : (List.length l < fuel)%nat -> exists o, loadFromConfigFile pd (of_nodes l) ad fuel c = Some o.
Proof.
  intros Hl. unfold loadFromConfigFile. set (c0 := mkCosts _ _ _ _). destruct (loop pd (of_nodes l) ad fuel 0 c0) as [o|] eqn:E; [exists o; reflexivity|]. exfalso.
  assert (I : incl (map (fun n => [termKey n]) (seq 1 fuel)) (map fst l)).
  { intros p Hp. apply in_map_iff in Hp as (n & <- & Hn). apply in_seq in Hn. destruct (in_dec (list_eq_dec string_dec) [termKey n] (map fst l)) as [Hi|Hi]; [exact Hi|].
    exfalso. apply (unended pd (of_nodes l) ad fuel 0 c0 E n); [lia|]. apply of_nodes_none. exact Hi. }
  apply NoDup_incl_length in I.
  - rewrite !map_length, seq_length in I. lia.
  - apply FinFun.Injective_map_NoDup; [|apply seq_NoDup]. intros a b H. injection H as H. apply to_string_inj in H. exact H.
Qed.
Print Assumptions C107_ends.

(** * Refutations *)
Definition sampleFile : tree := of_nodes [(["term0"], ""); (["term0"; "kind"], "Quadratic"); (["term0"; "name"], "tracking"); (["term0"; "type"], "0");
  (["term1"], ""); (["term1"; "kind"], "linear"); (["term1"; "type"], "1"); (["term3"], ""); (["term3"; "kind"], "linear"); (["term3"; "type"], "0")].
Example sample_described : describes sampleFile 0 ("quadratic", 0%Z) /\ describes sampleFile 1 ("linear", 1%Z) /\ sampleFile ["term" ++ to_string 1] <> None /\ sampleFile ["term" ++ to_string 2] = None.
Proof.
  split; [|split; [|split; [discriminate|reflexivity]]].
  - exists "Quadratic", "0". repeat split; cbn; auto.
  - exists "linear", "1". repeat split; cbn; auto.
Qed.
(** The name a file gives a term is not the name of the loaded term, and a term after a missing number is left out silently. *)
Theorem C107_name_refuted (pd : string -> option spec_float) c : exists c', loadFromConfigFile pd sampleFile false 5 c = Some (Ok c') /\
  sampleFile ["term0"; "name"] = Some "tracking" /\ termByName (intermediate c') "tracking" = Throw /\ termByName (intermediate c') "quadratic" = Ok (mkLoaded 0 "quadratic" "quadratic").
Proof. eexists. split; [reflexivity|]. repeat split. Qed.
Print Assumptions C107_name_refuted.
Theorem C107_gap_refuted (pd : string -> option spec_float) c : exists c', loadFromConfigFile pd sampleFile false 5 c = Some (Ok c') /\
  describes sampleFile 3 ("linear", 0%Z) /\ contents (intermediate c') = [(0%nat, "quadratic")] /\ contents (final c') = [(1%nat, "linear")].
Proof. eexists. split; [reflexivity|]. split; [|repeat split]. exists "linear", "0". repeat split; cbn; auto. Qed.
Print Assumptions C107_gap_refuted.
(** Without a term the common factor is looked for at another place than the entries, so a factor written beside the entries is
    ignored. *)
Theorem C107_scaling_refuted (pd : string -> option spec_float) mul two three : pd "2" = Some two -> pd "3" = Some three ->
  let f := of_nodes [(["Q"], ""); (["Q"; "scaling"], "2"); (["Q"; "(0,0)"], "3")] in
  loadMatrixCF pd f mul "Q" "" 0 0 = mul one64 three /\ loadMatrix pd mul f "Q" "" 0 0 = mul two three.
Proof. intros H2 H3 f. split; unfold loadMatrixCF, loadMatrix, pt_get_default; cbn; rewrite ?H2, ?H3; reflexivity. Qed.
Print Assumptions C107_scaling_refuted.
