(** C97: constraints differentiated automatically. *)
From Coq Require Import Reals List Bool Arith Lia Lra.
From Coquelicot Require Import Coquelicot.
From Verif Require Import Base.Outcome Core.JitModel Optcon.ConstraintADModel.
Import ListNotations.
Local Open Scope R_scope.

(** ** Specification: derivatives compiled just in time *)
(** A program that compiles, replaces or copies the derivatives of a function. *)
Inductive jop := Update (f : func) (i o : nat) | Compile | Copy.
Section JitSpec.
Variable jacOf : func -> vec -> nat -> nat -> R.
Variable patternOf : func -> nat -> nat -> list (nat * nat).
Definition jstep (dynamic llvm : bool) (j : jit) (a : jop) : outcome jit :=
  match a with Update f i o => Ok (update f i o j) | Compile => compileJIT patternOf dynamic llvm j | Copy => copyJit j end.
Fixpoint jexec (dynamic llvm : bool) (j : jit) (l : list jop) : outcome jit :=
  match l with [] => Ok j | a :: r => do j' <- jstep dynamic llvm j a ;; jexec dynamic llvm j' r end.
(** The function last given, and whether it has been compiled since. *)
Fixpoint current (g : func * nat * nat * bool) (l : list jop) : func * nat * nat * bool :=
  match l with
  | [] => g
  | Update f i o :: r => current (f, i, o, false) r
  | Compile :: r => current (fst g, true) r
  | Copy :: r => current g r
  end.
Definition positive (a : jop) : Prop := match a with Update _ i o => (0 < i)%nat /\ (0 < o)%nat | _ => True end.

Lemma jit_inv llvm : forall l f i o b j, List.Forall positive l -> (0 < i)%nat -> (0 < o)%nat ->
  inputDim j = i -> outputDim j = o -> tape j = Some f -> compiled j = b -> (b = true -> model j = Some f /\ dynamicLib j = true) ->
  exists j', jexec true llvm j l = Ok j' /\ let '(f', i', o', b') := current (f, i, o, b) l in
    (0 < o')%nat /\ inputDim j' = i' /\ outputDim j' = o' /\ tape j' = Some f' /\ compiled j' = b' /\ (b' = true -> model j' = Some f' /\ dynamicLib j' = true).
Proof.
  induction l as [|a l IH]; intros f i o b j P Hi Ho E1 E2 E3 E4 E5.
  - exists j. split; [reflexivity|]. cbn. repeat split; try assumption; apply E5; assumption.
  - inversion P as [|? ? Pa Pl]; subst. destruct a as [f' i' o'| |]; cbn [jexec jstep current].
    + cbn [obind]. destruct Pa as [Pi Po]. unfold update. rewrite (proj2 (Nat.ltb_lt _ _) Pi), (proj2 (Nat.ltb_lt _ _) Po). cbn [andb].
      apply IH; cbn; auto; discriminate.
    + unfold compileJIT. destruct (compiled j) eqn:C; cbn [fst].
      * cbn [obind]. apply IH; auto.
      * rewrite E3. cbn [orb obind]. rewrite orb_true_r. apply IH; cbn; auto.
    + unfold copyJit. destruct (compiled j) eqn:C.
      * destruct (E5 eq_refl) as [M D]. rewrite D. cbn [obind]. apply IH; cbn; auto.
      * cbn [obind]. apply IH; cbn; auto. discriminate.
Qed.
(** With dynamic libraries, after every history of updates, compilations and copies: value and Jacobian are those of the function
    last given, once it has been compiled, and an exception before. *)
Theorem C97_jit (llvm : bool) (f : func) (i o : nat) (l : list jop) (x : vec) :
  (0 < i)%nat -> (0 < o)%nat -> List.Forall positive l ->
  exists j, jexec true llvm (newJit f i o) l = Ok j /\ let '(f', i', o', ready) := current (f, i, o, false) l in
    outputDim j = o' /\ forwardZero j x = (if ready then Ok (f' x) else Throw) /\ jacobian jacOf j x = (if ready then Ok (jacOf f' x) else Throw).
Proof.
  intros Hi Ho P.
  assert (G : inputDim (newJit f i o) = i /\ outputDim (newJit f i o) = o /\ tape (newJit f i o) = Some f /\ compiled (newJit f i o) = false).
  { unfold newJit, update. rewrite (proj2 (Nat.ltb_lt _ _) Hi), (proj2 (Nat.ltb_lt _ _) Ho). repeat split. }
  destruct G as (G1 & G2 & G3 & G4). destruct (jit_inv llvm l f i o false (newJit f i o) P Hi Ho G1 G2 G3 G4) as (j & E & H); [discriminate|].
  exists j. split; [exact E|]. destruct (current (f, i, o, false) l) as [[[f' i'] o'] b]. destruct H as (Po & _ & H2 & _ & H4 & H5).
  split; [exact H2|]. unfold forwardZero, jacobian. rewrite H2, H4. destruct (Nat.leb_spec o' 0) as [L|_]; [lia|]. destruct b; [|auto]. destruct (H5 eq_refl) as [-> _]. auto.
Qed.
(** Refuted: a copy of compiled derivatives evaluates, but has lost its sparsity pattern: the pattern and the number of nonzeros are
    empty, and sparse values come without indices. *)
Theorem C97_copy_sparsity_refuted (llvm : bool) (f : func) (i o : nat) (x : vec) : (0 < i)%nat -> (0 < o)%nat -> patternOf f i o <> [] ->
  exists j j', jexec true llvm (newJit f i o) [Compile] = Ok j /\ copyJit j = Ok j' /\
    getSparsityPatternJacobian j = patternOf f i o /\ getSparsityPatternJacobian j' = [] /\ getNumNonZerosJacobian j' = 0%nat /\
    forwardZero j' x = forwardZero j x /\ jacobian jacOf j' x = jacobian jacOf j x /\
    exists v, fst (sparseJacobian jacOf patternOf j' x) = Ok (v, []) /\ length v = length (patternOf f i o) /\ v <> [].
Proof.
  intros Hi Ho N. unfold newJit, update, jexec, jstep, compileJIT. rewrite (proj2 (Nat.ltb_lt _ _) Hi), (proj2 (Nat.ltb_lt _ _) Ho). cbn [andb compiled tape orb obind negb inputDim outputDim dynamicLib llvmLib].
  eexists _, _. split; [reflexivity|]. split; [reflexivity|]. repeat split.
  unfold sparseJacobian. cbn [outputDim compiled model]. destruct (Nat.leb_spec o 0) as [L|_]; [lia|]. cbn [fst sparsityEigen inputDim]. eexists. split; [reflexivity|].
  rewrite map_length. split; [reflexivity|]. destruct (patternOf f i o); [congruence|discriminate].
Qed.
(** Refuted: an update to a function without outputs is ignored by compiled derivatives, which go on evaluating the old function. *)
Theorem C97_empty_update_refuted (llvm : bool) (f g : func) (i o : nat) (x : vec) : (0 < i)%nat -> (0 < o)%nat ->
  exists j, jexec true llvm (newJit f i o) [Compile; Update g i 0] = Ok j /\ outputDim j = 0%nat /\ forwardZero j x = Ok (f x).
Proof.
  intros Hi Ho. unfold newJit, update, jexec, jstep, compileJIT. rewrite (proj2 (Nat.ltb_lt _ _) Hi), (proj2 (Nat.ltb_lt _ _) Ho).
  cbn [andb compiled tape orb obind negb inputDim outputDim dynamicLib llvmLib]. unfold update. cbn [Nat.ltb Nat.leb andb]. eexists. split; [reflexivity|]. split; reflexivity.
Qed.
(** Refuted: derivatives compiled with LLVM cannot be copied. *)
Theorem C97_copy_llvm_refuted (f : func) (i o : nat) : (0 < i)%nat -> (0 < o)%nat -> jexec false true (newJit f i o) [Compile; Copy] = Throw.
Proof.
  intros Hi Ho. unfold newJit, update, jexec, jstep, compileJIT. rewrite (proj2 (Nat.ltb_lt _ _) Hi), (proj2 (Nat.ltb_lt _ _) Ho). reflexivity.
Qed.
End JitSpec.
Print Assumptions C97_jit.
Print Assumptions C97_copy_sparsity_refuted.
Print Assumptions C97_empty_update_refuted.
Print Assumptions C97_copy_llvm_refuted.

(** ** Specification: the container *)
(** The constraints added, in order; and whether the container has been initialised since the last of them. *)
Definition added (terminal : bool) (os : list op) : list constraint :=
  flat_map (fun o => match o with AddIntermediate c => if terminal then [] else [c] | AddTerminal c => if terminal then [c] else [] | _ => [] end) os.
Definition readiness (terminal : bool) (b : bool) (o : op) : bool :=
  match o with AddIntermediate _ => terminal && b | AddTerminal _ => negb terminal && b | Initialize => true | _ => b end.
Definition ready (terminal : bool) (os : list op) : bool := fold_left (readiness terminal) os false.
(** State and input last set. *)
Definition lastXU (p0 : vec * vec) (os : list op) : vec * vec := fold_left (fun p o => match o with Set_ x u _ => (x, u) | _ => p end) os p0.
(** The values of constraints, one below the other. *)
Definition valuesAt (cs : list constraint) (x u : vec) (t : R) : vec := concat (map (fun c => c_eval c x u t) cs).
Definition total (cs : list constraint) : nat := list_sum (map c_size cs).
Definition of_stage (terminal : bool) (k : container) : stage := if terminal then term k else inter k.
Definition well_sized (n m : nat) (o : op) : Prop := match o with Set_ x u _ => length x = n /\ length u = m | _ => True end.

Section ContainerProps.
Variable jacOf : func -> vec -> nat -> nat -> R.
Variable patternOf : func -> nat -> nat -> list (nat * nat).
Variables n m : nat.
Hypothesis dims : (0 < n + m)%nat.

Lemma count_total cs : countOf cs = total cs.
Proof.
  unfold countOf, total. assert (A : forall a, fold_left (fun count c => (count + c_size c)%nat) cs a = (a + list_sum (map c_size cs))%nat).
  { induction cs as [|c cs IH]; intros a; cbn; [lia|]. rewrite IH. unfold list_sum in *. lia. } apply A.
Qed.
Lemma codegen_values cs s : evaluateCodegen n cs s = valuesAt cs (firstn n s) (skipn n s) 0.
Proof.
  unfold evaluateCodegen, valuesAt. assert (A : forall a, fold_left (fun g c => g ++ c_eval c (firstn n s) (skipn n s) 0) cs a = a ++ concat (map (fun c => c_eval c (firstn n s) (skipn n s) 0) cs)).
  { induction cs as [|c cs IH]; intros a; cbn; [symmetry; apply app_nil_r|]. rewrite IH, app_assoc. reflexivity. } apply (A []).
Qed.
Lemma bounds_concat f cs : bounds f cs = concat (map f cs).
Proof.
  unfold bounds. assert (A : forall a, fold_left (fun b c => b ++ f c) cs a = a ++ concat (map f cs)).
  { induction cs as [|c cs IH]; intros a; cbn; [symmetry; apply app_nil_r|]. rewrite IH, app_assoc. reflexivity. } apply (A []).
Qed.
Definition pat (cs : list constraint) := patternOf (evaluateCodegen n cs) (n + m) (total cs).
Definition inv (cs : list constraint) (b : bool) (s : stage) : Prop := terms s = cs /\ initialized s = b /\ exists j, codegen s = Some j /\
  ((0 < total cs)%nat -> inputDim j = (n + m)%nat /\ outputDim j = total cs /\ tape j = Some (evaluateCodegen n cs) /\
     (compiled j = true -> model j = Some (evaluateCodegen n cs) /\ dynamicLib j = true /\ sparsityEigen j = pat cs)) /\
  (total cs = 0%nat -> compiled j = false /\ outputDim j = 0%nat) /\
  (b = true -> (0 < total cs)%nat -> compiled j = true /\ (patState s, patInput s) = split n (pat cs) /\ lower s = concat (map c_lower cs) /\ upper s = concat (map c_upper cs)).

Lemma add_inv c cs b s : inv cs b s -> exists s', addStage n m c s = Ok s' /\ inv (cs ++ [c]) false s'.
Proof.
  intros (E1 & E2 & j & Ej & A & B & C). unfold addStage. rewrite Ej. eexists. split; [reflexivity|]. rewrite E1. split; [reflexivity|]. split; [reflexivity|].
  eexists. split; [reflexivity|]. rewrite count_total. unfold update. destruct (Nat.ltb_spec 0 (total (cs ++ [c]))) as [L|L]; cbn [andb].
  - rewrite (proj2 (Nat.ltb_lt _ _) dims). cbn. split; [auto 10 with bool; intros _; repeat split; auto; discriminate|]. split; [lia|discriminate].
  - assert (Z : total cs = 0%nat) by (unfold total in *; rewrite map_app, list_sum_app in L; lia). destruct (B Z) as [B1 B2]. cbn. split; [lia|]. split; [intros _; split; [exact B1|lia]|discriminate].
Qed.
Lemma init_inv cs b s : inv cs b s -> exists s', initStage patternOf n s = Ok s' /\ terms s' = cs /\ inv cs b s' /\ inv cs true (flag true s').
Proof.
  intros (E1 & E2 & j & Ej & A & B & C). unfold initStage. rewrite E1, count_total. destruct (Nat.ltb_spec 0 (total cs)) as [L|L].
  - rewrite Ej. destruct (A L) as (A1 & A2 & A3 & A4).
    assert (K : exists j', compileJIT patternOf true false j = Ok j' /\ compiled j' = true /\ inputDim j' = (n + m)%nat /\ outputDim j' = total cs /\ tape j' = Some (evaluateCodegen n cs) /\
      model j' = Some (evaluateCodegen n cs) /\ dynamicLib j' = true /\ sparsityEigen j' = pat cs).
    { unfold compileJIT. destruct (compiled j) eqn:Cj; [destruct (A4 eq_refl) as (M & D & S); exists j; repeat split; auto|].
      rewrite A3. cbn [orb]. rewrite orb_true_r. eexists. split; [reflexivity|]. cbn. rewrite A1, A2. repeat split; auto. }
    destruct K as (j' & Ec & K1 & K2 & K3 & K4 & K5 & K6 & K7). rewrite Ec. cbn [obind]. unfold getSparsityPatternJacobian. rewrite K7. destruct (split n (pat cs)) as [ps pi] eqn:Sp.
    eexists. split; [reflexivity|]. split; [reflexivity|]. split; (split; [reflexivity|]); (split; [try exact E2; reflexivity|]); exists j'; (split; [reflexivity|]);
      (split; [intros _; repeat split; auto|]); (split; [lia|]); intros _ _; cbn; rewrite Sp, !bounds_concat; auto.
  - exists s. split; [reflexivity|]. split; [exact E1|]. split; [split; [exact E1|split; [exact E2|exists j; auto]]|].
    split; [exact E1|]. split; [reflexivity|]. exists j. split; [exact Ej|]. split; [intros; lia|]. split; [exact B|]. intros; lia.
Qed.
Lemma clone_inv cs b s : inv cs b s -> exists s', initStage patternOf n (copyStage n m s) = Ok s' /\ inv cs b s'.
Proof.
  intros (E1 & E2 & j & Ej & A & B & C).
  assert (F : inv cs false (flag false (copyStage n m s))).
  { unfold copyStage. rewrite E1, count_total. split; [reflexivity|]. split; [reflexivity|]. eexists. split; [reflexivity|]. unfold newJit, update. destruct (Nat.ltb_spec 0 (total cs)) as [L|L]; cbn [andb].
    - rewrite (proj2 (Nat.ltb_lt _ _) dims). cbn. split; [intros _; repeat split; auto; discriminate|]. split; [lia|discriminate].
    - cbn. split; [lia|]. split; [intros; split; [reflexivity|lia]|discriminate]. }
  destruct (init_inv cs false _ F) as (s1 & I1 & T1 & _ & V).
  assert (Q : initStage patternOf n (copyStage n m s) = Ok (flag b s1)).
  { revert I1. unfold initStage. cbn [flag terms codegen copyStage]. rewrite E1. destruct (0 <? countOf cs)%nat.
    - destruct (compileJIT _ _ _ _) as [j'| |]; cbn [obind]; try discriminate. destruct (split n (getSparsityPatternJacobian j')) as [ps pi]. intros Hq; injection Hq as Hq; rewrite <- Hq. cbn. rewrite E2. reflexivity.
    - intros Hq; injection Hq as Hq; rewrite <- Hq. unfold flag, copyStage. cbn. rewrite E1, E2. reflexivity. }
  exists (flag b s1). split; [exact Q|]. destruct V as (V1 & _ & j' & Vj & VA & VB & VC). split; [exact T1|]. split; [reflexivity|]. exists j'. split; [exact Vj|].
  split; [exact VA|]. split; [exact VB|]. intros _ L. exact (VC eq_refl L).
Qed.

Definition minv (cs ct : list constraint) (bi bt : bool) (x u : vec) (k : container) : Prop :=
  inv cs bi (inter k) /\ inv ct bt (term k) /\ stateControlD k = x ++ u.
Lemma exec_inv : forall os cs ct bi bt x u k, minv cs ct bi bt x u k -> exists k', exec patternOf n m k os = Ok k' /\
  minv (cs ++ added false os) (ct ++ added true os) (fold_left (readiness false) os bi) (fold_left (readiness true) os bt) (fst (lastXU (x, u) os)) (snd (lastXU (x, u) os)) k'.
Proof.
  induction os as [|o os IH]; intros cs ct bi bt x u k (I & T & S).
  - exists k. split; [reflexivity|]. cbn. rewrite !app_nil_r. split; [assumption|split; assumption].
  - destruct o as [c|c| |x' u' t|]; cbn [exec step].
    + destruct (add_inv c cs bi (inter k) I) as (s' & Es & Is). unfold addIntermediateConstraint. rewrite Es. cbn [obind].
      destruct (IH (cs ++ [c]) ct false bt x u (mkContainer s' (term k) (b_x k) (b_u k) (b_t k) (stateControlD k))) as (k' & E & V); [split; [assumption|split; assumption]|].
      exists k'. split; [exact E|]. rewrite <- app_assoc in V. exact V.
    + destruct (add_inv c ct bt (term k) T) as (s' & Es & Is). unfold addTerminalConstraint. rewrite Es. cbn [obind].
      destruct (IH cs (ct ++ [c]) bi false x u (mkContainer (inter k) s' (b_x k) (b_u k) (b_t k) (stateControlD k))) as (k' & E & V); [split; [assumption|split; assumption]|].
      exists k'. split; [exact E|]. rewrite <- app_assoc in V. exact V.
    + destruct (init_inv cs bi (inter k) I) as (s1 & E1 & _ & _ & I1). destruct (init_inv ct bt (term k) T) as (s2 & E2 & _ & _ & I2). unfold initialize. rewrite E1, E2. cbn [obind].
      apply (IH cs ct true true x u). split; [assumption|split; assumption].
    + cbn [obind]. apply (IH cs ct bi bt x' u'). split; [assumption|split; [assumption|reflexivity]].
    + destruct (clone_inv cs bi (inter k) I) as (s1 & E1 & I1). destruct (clone_inv ct bt (term k) T) as (s2 & E2 & I2). unfold copyContainer. rewrite E1, E2. cbn [obind].
      apply (IH cs ct bi bt x u). split; [assumption|split; assumption].
Qed.
Lemma new_inv : minv [] [] false false (repeat 0 n) (repeat 0 m) (newContainer n m).
Proof.
  assert (V : inv [] false (emptyStage (Some (newJit (evaluateCodegen n []) (n + m) (countOf []))))).
  { split; [reflexivity|]. split; [reflexivity|]. eexists. split; [reflexivity|]. cbn. split; [lia|]. split; [auto|discriminate]. }
  split; [exact V|]. split; [exact V|]. unfold newContainer. cbn [stateControlD]. apply repeat_app.
Qed.
Lemma last_sized : forall os x u, List.Forall (well_sized n m) os -> length x = n -> length u = m -> length (fst (lastXU (x, u) os)) = n /\ length (snd (lastXU (x, u) os)) = m.
Proof.
  induction os as [|o os IH]; intros x u W Hx Hu; [auto|]. pose proof (Forall_inv W) as Wo. pose proof (Forall_inv_tail W) as Ws. destruct o as [c|c| |x' u' t|]; try exact (IH x u Ws Hx Hu). destruct Wo as [Wx Wu]. exact (IH x' u' Ws Wx Wu).
Qed.
Lemma after_history (terminal : bool) os : List.Forall (well_sized n m) os -> exists k x u, exec patternOf n m (newContainer n m) os = Ok k /\
  (x, u) = lastXU (repeat 0 n, repeat 0 m) os /\ length x = n /\ length u = m /\ stateControlD k = x ++ u /\ inv (added terminal os) (ready terminal os) (of_stage terminal k).
Proof.
  intros W. destruct (exec_inv os [] [] false false _ _ _ new_inv) as (k & E & I & T & S). cbn [app] in I, T.
  destruct (last_sized os (repeat 0 n) (repeat 0 m) W (repeat_length _ _) (repeat_length _ _)) as [L1 L2].
  exists k, (fst (lastXU (repeat 0 n, repeat 0 m) os)), (snd (lastXU (repeat 0 n, repeat 0 m) os)). split; [exact E|]. split; [symmetry; apply surjective_pairing|]. split; [exact L1|]. split; [exact L2|]. split; [exact S|]. destruct terminal; assumption.
Qed.
Lemma cut (x u : vec) : length x = n -> firstn n (x ++ u) = x /\ skipn n (x ++ u) = u.
Proof.
  intros <-. rewrite firstn_app, skipn_app, firstn_all, skipn_all, Nat.sub_diag. cbn. rewrite app_nil_r. auto.
Qed.

(** After every history, intermediate or terminal constraints: initialised since the last one was added, the values are those of
    the constraints in the order in which they were added, at the state and input last set, and the bounds are in the same order;
    otherwise evaluation throws. *)
Theorem C97_values (terminal : bool) (os : list op) : List.Forall (well_sized n m) os ->
  exists k, exec patternOf n m (newContainer n m) os = Ok k /\
  let s := of_stage terminal k in let cs := added terminal os in let '(x, u) := lastXU (repeat 0 n, repeat 0 m) os in
  countOf (terms s) = total cs /\
  (ready terminal os = true -> (0 < total cs)%nat ->
     evaluate s (stateControlD k) = Ok (valuesAt cs x u 0) /\ lower s = concat (map c_lower cs) /\ upper s = concat (map c_upper cs)) /\
  (ready terminal os = false -> evaluate s (stateControlD k) = Throw).
Proof.
  intros W. destruct (after_history terminal os W) as (k & x & u & E & Exu & Lx & Lu & S & T & Fl & j & Ej & A & B & C). exists k. split; [exact E|]. cbv zeta. rewrite <- Exu.
  split; [rewrite T; apply count_total|]. unfold evaluate. rewrite Fl. split.
  - intros R L. rewrite R. cbn [negb]. unfold withCodegen. rewrite Ej. destruct (A L) as (_ & _ & _ & A4). destruct (C R L) as (C1 & _ & C3 & C4). destruct (A4 C1) as (M & _).
    unfold forwardZero. rewrite C1, M, S, codegen_values. destruct (cut x u Lx) as [-> ->]. auto.
  - intros ->. reflexivity.
Qed.

(** *** Jacobians *)
(** A vector with one entry replaced. *)
Definition replace (v : vec) (c : nat) (h : R) : vec := firstn c v ++ h :: skipn (S c) v.
(** CppAD: Jacobians are derivatives, and sparsity patterns list, once each, at least the entries that are not always zero. *)
Definition differentiates (f : func) (d k : nat) : Prop :=
  (forall z r c, length z = d -> (r < k)%nat -> (c < d)%nat -> is_derive (fun h => nth r (f (replace z c h)) 0) (nth c z 0) (jacOf f z r c)) /\
  (forall z r c, length z = d -> (r < k)%nat -> (c < d)%nat -> jacOf f z r c <> 0 -> In (r, c) (patternOf f d k)) /\
  NoDup (patternOf f d k) /\ (forall r c, In (r, c) (patternOf f d k) -> (r < k)%nat /\ (c < d)%nat).
Definition sumAt (p : list (nat * nat)) (v : vec) (r c : nat) : R :=
  fold_right Rplus 0 (map (fun e => if ((fst (fst e) =? r) && (snd (fst e) =? c))%nat then snd e else 0) (combine p v)).
(** A sparse matrix given by positions and values is the dense one. *)
Definition represents (p : list (nat * nat)) (v : vec) (rows cols : nat) (J : nat -> nat -> R) : Prop :=
  length v = length p /\ NoDup p /\ (forall r c, In (r, c) p -> (r < rows)%nat /\ (c < cols)%nat) /\
  forall r c, (r < rows)%nat -> (c < cols)%nat -> sumAt p v r c = J r c.

Definition pair_dec (a b : nat * nat) : {a = b} + {a <> b}.
Proof. decide equality; apply Nat.eq_dec. Defined.
Lemma sum_map J r c : forall p, NoDup p -> sumAt p (map (fun rc => J (fst rc) (snd rc)) p) r c = if in_dec pair_dec (r, c) p then J r c else 0.
Proof.
  unfold sumAt. induction p as [|[a b] p IH]; intros N; [cbn [in_dec list_rec list_rect]; reflexivity|]. pose proof (NoDup_cons_iff (a, b) p) as NI. apply NI in N. destruct N as [N1 N2].
  cbn [map combine fold_right fst snd]. rewrite (IH N2). destruct (in_dec pair_dec (r, c) p) as [i|i]; destruct (in_dec pair_dec (r, c) ((a, b) :: p)) as [i'|i'].
  - destruct (Nat.eqb_spec a r), (Nat.eqb_spec b c); subst; try contradiction; cbn; ring.
  - exfalso. apply i'. right. assumption.
  - destruct i' as [[= -> ->]|i']; [|contradiction]. rewrite !Nat.eqb_refl. cbn. ring.
  - destruct (Nat.eqb_spec a r), (Nat.eqb_spec b c); subst; cbn; try ring. exfalso. apply i'. left. reflexivity.
Qed.
Lemma split_in p : forall r c, (In (r, c) (fst (split n p)) <-> In (r, c) p /\ (c < n)%nat) /\ (In (r, c) (snd (split n p)) <-> In (r, (n + c)%nat) p).
Proof.
  induction p as [|[a b] p IH]; intros r c; [cbn; tauto|]. specialize (IH r c). destruct IH as [I1 I2]. cbn [split]. destruct (split n p) as [s i]. cbn [fst snd] in *.
  destruct (Nat.ltb_spec b n) as [L|L]; cbn [fst snd In]; rewrite ?I1, ?I2; split; split.
  - intros [[= <- <-]|[H1 H2]]; auto. - intros [[[= <- <-]|H] H2]; auto. - auto. - intros [[= <- E]|H]; [lia|exact H].
  - intros [H1 H2]. auto. - intros [[[= <- <-]|H] H2]; [lia|auto]. - intros [[= <- <-]|H]; [left; f_equal; lia|auto]. - intros [[= <- E]|H]; [left; f_equal; lia|auto].
Qed.
Lemma split_nodup p : NoDup p -> NoDup (fst (split n p)) /\ NoDup (snd (split n p)).
Proof.
  induction p as [|[a b] p IH]; intros N; [cbn; split; constructor|]. inversion N as [|? ? N1 N2]; subst. destruct (IH N2) as [A B]. pose proof (split_in p) as SI. cbn [split].
  destruct (split n p) as [s i]. cbn [fst snd] in *. destruct (Nat.ltb_spec b n) as [L|L]; cbn [fst snd].
  - split; [|exact B]. constructor; [|exact A]. intros H. apply (SI a b) in H. apply N1. apply H.
  - split; [exact A|]. constructor; [|exact B]. intros H. apply (SI a (b - n)%nat) in H. apply N1. replace (n + (b - n))%nat with b in H by lia. exact H.
Qed.
Lemma replace_left x u c h : length x = n -> (c < n)%nat -> replace (x ++ u) c h = replace x c h ++ u.
Proof.
  intros Lx Hc. unfold replace. rewrite firstn_app, skipn_app. replace (c - length x)%nat with 0%nat by lia. replace (S c - length x)%nat with 0%nat by lia. cbn [firstn skipn]. rewrite app_nil_r, <- app_assoc. reflexivity.
Qed.
Lemma replace_right x u c h : length x = n -> replace (x ++ u) (n + c) h = x ++ replace u c h.
Proof.
  intros Lx. unfold replace. rewrite firstn_app, skipn_app. rewrite firstn_all2 by lia. rewrite (skipn_all2 x) by lia. replace (n + c - length x)%nat with c by lia. replace (S (n + c) - length x)%nat with (S c) by lia.
  cbn [app]. rewrite <- app_assoc. reflexivity.
Qed.
Lemma replace_length x c h : (c < length x)%nat -> length (replace x c h) = length x.
Proof. intros H. unfold replace. rewrite app_length, firstn_length. cbn [length]. rewrite skipn_length. lia. Qed.

(** After every history, once initialised: the dense Jacobians are the derivatives of the values by state and by input, and the
    sparse ones with their patterns represent the same matrices. *)
Theorem C97_jacobians (terminal : bool) (os : list op) : List.Forall (well_sized n m) os -> let cs := added terminal os in
  differentiates (evaluateCodegen n cs) (n + m) (total cs) -> ready terminal os = true -> (0 < total cs)%nat ->
  exists k, exec patternOf n m (newContainer n m) os = Ok k /\ let s := of_stage terminal k in let '(x, u) := lastXU (repeat 0 n, repeat 0 m) os in
  exists Jx Ju vx vu px pu, jacobianState jacOf s (stateControlD k) = Ok Jx /\ jacobianInput jacOf n s (stateControlD k) = Ok Ju /\
    (forall r c, (r < total cs)%nat -> (c < n)%nat -> is_derive (fun h => nth r (valuesAt cs (replace x c h) u 0) 0) (nth c x 0) (Jx r c)) /\
    (forall r c, (r < total cs)%nat -> (c < m)%nat -> is_derive (fun h => nth r (valuesAt cs x (replace u c h) 0) 0) (nth c u 0) (Ju r c)) /\
    jacobianStateSparse jacOf s (stateControlD k) = Ok vx /\ sparsityPatternState s = Ok px /\ nonZeroState s = Ok (length px) /\ represents px vx (total cs) n Jx /\
    jacobianInputSparseTerminal jacOf n s (stateControlD k) = Ok vu /\ jacobianInputSparseIntermediate jacOf n s (stateControlD k) = Ok vu /\
    sparsityPatternInput s = Ok pu /\ nonZeroInput s = Ok (length pu) /\ represents pu vu (total cs) m Ju.
Proof.
  intros W cs D R L. destruct (after_history terminal os W) as (k & x & u & E & Exu & Lx & Lu & S & T & Fl & j & Ej & A & B & C). exists k. split; [exact E|]. cbv zeta. rewrite <- Exu.
  destruct (A L) as (_ & A2 & _ & A4). destruct (C R L) as (C1 & C2 & _ & _). destruct (A4 C1) as (M & _). fold cs in A2, A4, C2, M. destruct D as (D1 & D2 & D3 & D4).
  set (f := evaluateCodegen n cs) in *. set (z := x ++ u) in *. assert (Lz : length z = (n + m)%nat) by (unfold z; rewrite app_length; lia).
  assert (J : withCodegen (of_stage terminal k) (fun j => jacobian jacOf j (stateControlD k)) = Ok (jacOf f z)).
  { unfold withCodegen. rewrite Ej. unfold jacobian. rewrite A2, C1, M, S. destruct (Nat.leb_spec (total cs) 0); [fold cs in L; lia|]. reflexivity. }
  assert (P1 : patState (of_stage terminal k) = fst (split n (pat cs))) by (rewrite <- C2; reflexivity).
  assert (P2 : patInput (of_stage terminal k) = snd (split n (pat cs))) by (rewrite <- C2; reflexivity).
  destruct (split_nodup (pat cs) D3) as [N1 N2].
  exists (jacOf f z), (fun r c => jacOf f z r (n + c)%nat), (map (fun rc => jacOf f z (fst rc) (snd rc)) (patState (of_stage terminal k))),
    (map (fun rc => jacOf f z (fst rc) (n + snd rc)%nat) (patInput (of_stage terminal k))), (patState (of_stage terminal k)), (patInput (of_stage terminal k)).
  unfold jacobianState, jacobianInput, jacobianStateSparse, jacobianInputSparseTerminal, jacobianInputSparseIntermediate, sparsityPatternState, sparsityPatternInput, nonZeroState, nonZeroInput.
  rewrite Fl, R. cbn [negb]. rewrite J. cbn [obind]. rewrite P1, P2.
  split; [reflexivity|]. split; [reflexivity|]. split; [|split; [|split; [reflexivity|split; [reflexivity|split; [reflexivity|split; [|split; [reflexivity|split; [reflexivity|split; [reflexivity|split; [reflexivity|]]]]]]]]]].
  - intros r c Hr Hc. pose proof (D1 z r c Lz Hr ltac:(lia)) as H. unfold z in H at 2. rewrite app_nth1 in H by lia. eapply is_derive_ext; [|exact H]. intros h. cbn beta. unfold f.
    rewrite codegen_values. unfold z. rewrite replace_left by assumption. destruct (cut (replace x c h) u) as [-> ->]; [rewrite replace_length; lia|]. reflexivity.
  - intros r c Hr Hc. pose proof (D1 z r (n + c)%nat Lz Hr ltac:(lia)) as H. unfold z in H at 2. rewrite app_nth2 in H by lia. replace (n + c - length x)%nat with c in H by lia.
    eapply is_derive_ext; [|exact H]. intros h. cbn beta. unfold f. rewrite codegen_values. unfold z. rewrite replace_right by assumption. destruct (cut x (replace u c h) Lx) as [-> ->]. reflexivity.
  - split; [apply map_length|]. split; [exact N1|]. split; [intros r c Hi; apply split_in in Hi; destruct Hi as [Hi Hc]; split; [apply (D4 r c Hi)|exact Hc]|].
    intros r c Hr Hc. rewrite sum_map by exact N1. destruct (in_dec pair_dec (r, c) _) as [i|i]; [reflexivity|]. destruct (Req_dec (jacOf f z r c) 0) as [Z|Z]; [symmetry; exact Z|].
    exfalso. apply i. apply split_in. split; [|exact Hc]. apply (D2 z r c Lz Hr); [lia|exact Z].
  - split; [apply map_length|]. split; [exact N2|]. split; [intros r c Hi; apply split_in in Hi; destruct (D4 _ _ Hi); split; [assumption|lia]|].
    intros r c Hr Hc. rewrite (sum_map (fun r c => jacOf f z r (n + c)%nat)) by exact N2. destruct (in_dec pair_dec (r, c) _) as [i|i]; [reflexivity|]. destruct (Req_dec (jacOf f z r (n + c)%nat) 0) as [Z|Z]; [symmetry; exact Z|].
    exfalso. apply i. apply split_in. apply (D2 z r (n + c)%nat Lz Hr); [lia|exact Z].
Qed.

(** Refuted: the time is not passed on; a constraint that depends on time is evaluated at time zero. *)
Theorem C97_time_refuted : exists c, forall x u t, length x = n -> length u = m -> t <> 0 ->
  exists k, exec patternOf n m (newContainer n m) [AddIntermediate c; Initialize; Set_ x u t] = Ok k /\ b_t k = t /\
    evaluate (inter k) (stateControlD k) = Ok [0] /\ c_eval c x u t = [t].
Proof.
  exists (mkConstraint 1 (fun _ _ t => [t]) [0] [0]). intros x u t Hx Hu Ht.
  destruct (C97_values false [AddIntermediate (mkConstraint 1 (fun _ _ t => [t]) [0] [0]); Initialize; Set_ x u t]) as (k & E & H); [repeat constructor; assumption|].
  exists k. split; [exact E|]. cbn in H. destruct H as (_ & H & _). destruct (H eq_refl ltac:(lia)) as (V & _). split; [|split; [exact V|reflexivity]].
  revert E. cbn [exec step]. destruct (addIntermediateConstraint _ _ _ _) as [k1| |]; cbn [obind]; try discriminate. destruct (initialize _ _ _) as [k2| |]; cbn [obind]; try discriminate. intros [= <-]. reflexivity.
Qed.
(** Refuted: a container constructed at a state, input and time has no generated code, and adding any constraint to it is undefined. *)
Theorem C97_constructor_refuted (x u : vec) (t : R) (c : constraint) :
  addIntermediateConstraint n m c (newContainerAt n m x u t) = UB /\ addTerminalConstraint n m c (newContainerAt n m x u t) = UB.
Proof. split; reflexivity. Qed.
(** Refuted: a stage without constraints cannot be evaluated: instead of an empty vector there is an exception. *)
Theorem C97_no_constraints_refuted (terminal : bool) (os : list op) : List.Forall (well_sized n m) os -> total (added terminal os) = 0%nat ->
  exists k, exec patternOf n m (newContainer n m) os = Ok k /\ evaluate (of_stage terminal k) (stateControlD k) = Throw /\ jacobianState jacOf (of_stage terminal k) (stateControlD k) = Throw.
Proof.
  intros W Z. destruct (after_history terminal os W) as (k & x & u & E & _ & _ & _ & _ & _ & Fl & j & Ej & _ & B & _). exists k. split; [exact E|].
  destruct (B Z) as [B1 B2]. unfold evaluate, jacobianState. destruct (negb (initialized _)); [auto|]. unfold withCodegen. rewrite Ej. unfold forwardZero, jacobian. rewrite B1, B2. auto.
Qed.
End ContainerProps.
Print Assumptions C97_values.
Print Assumptions C97_jacobians.
Print Assumptions C97_time_refuted.
Print Assumptions C97_constructor_refuted.
Print Assumptions C97_no_constraints_refuted.

(** The hypotheses are met: a constraint on the product of state and input and on the state. *)
Definition exampleConstraint : constraint := mkConstraint 2 (fun x u _ => [nth 0 x 0 * nth 0 u 0; nth 0 x 0]) [0; 0] [1; 2].
Definition exampleJac (_ : func) (z : vec) (r c : nat) : R :=
  match r, c with O, O => nth 1 z 0 | O, S O => nth 0 z 0 | S O, O => 1 | _, _ => 0 end.
Definition examplePattern (_ : func) (_ _ : nat) : list (nat * nat) := [(0, 0); (0, 1); (1, 0)]%nat.
Definition exampleOps : list op := [AddTerminal exampleConstraint; Initialize; AddIntermediate exampleConstraint; Clone; Initialize; Set_ [3] [4] 1].
Example ad_case : List.Forall (well_sized 1 1) exampleOps /\ ready false exampleOps = true /\ added false exampleOps = [exampleConstraint] /\
  total (added false exampleOps) = 2%nat /\ lastXU ([0], [0]) exampleOps = ([3], [4]) /\
  differentiates exampleJac examplePattern (evaluateCodegen 1 (added false exampleOps)) (1 + 1) (total (added false exampleOps)) /\
  ready false [AddIntermediate exampleConstraint; Initialize; AddIntermediate exampleConstraint] = false.
Proof.
  split; [repeat constructor|]. repeat (split; [reflexivity|]). split; [|reflexivity]. split; [|split; [|split]].
  - intros z r c Hz Hr Hc. destruct z as [|a [|b [|]]]; try discriminate. cbn in Hr.
    destruct r as [|[|r]]; [| |lia]; (destruct c as [|[|c]]; [| |lia]); cbn; auto_derive; auto; ring.
  - intros z r c Hz Hr Hc. cbn in Hr. destruct r as [|[|r]]; [| |lia]; (destruct c as [|[|c]]; [| |lia]); cbn; tauto.
  - repeat constructor; cbn; intuition discriminate.
  - intros r c. cbn. intros [[= <- <-]|[[= <- <-]|[[= <- <-]|[]]]]; lia.
Qed.
Example jit_case : exists l : list jop, List.Forall positive l /\ snd (current (fun x => x, 2%nat, 2%nat, false) l) = true /\ length l = 4%nat.
Proof. exists [Compile; Update (fun x => map Ropp x) 3 3; Compile; Copy]. split; [repeat constructor; cbn; lia|]. split; reflexivity. Qed.
