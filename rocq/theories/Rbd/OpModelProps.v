(** C101: operational space models (properties about OpModelModel). *)
From mathcomp Require Import all_ssreflect all_algebra.
From Verif Require Import Base.Outcome Base.Mx Rbd.OpJacModel Rbd.OpJacProps Rbd.OpModelModel.
Set Implicit Arguments. Unset Strict Implicit. Unset Printing Implicit Defensive.
Import GRing.Theory Num.Theory Order.TTheory.
Local Open Scope ring_scope.

Section OpModelProps.
Variables (F : realFieldType) (m n j c : nat) (state : Type).
Variables (full : state -> params F n j c) (vel : state -> 'cV[F]_n) (getJ getdJ : state -> 'M[F]_(m, n)).
Variable solve : forall k, 'M[F]_k -> 'M[F]_k.
(** The decomposition inverts symmetric positive definite matrices. *)
Hypothesis solve_ok : forall k (A : 'M[F]_k), symmetric A -> posdef A -> solve A = invmx A.

(** ** Specification *)
(** The full body model at a state: the mass matrix is symmetric and positive definite and comes with its inverse; the task
    coordinates are independent. *)
Definition regular (s : state) : Prop :=
  [/\ symmetric (pM (full s)), posdef (pM (full s)), pM (full s) *m pMInverse (full s) = 1%:M & forall y : 'cV[F]_m, (getJ s)^T *m y = 0 -> y = 0].
(** Equations of motion with torques tau and contact forces lambda. *)
Definition moves k (M : 'M[F]_k) (C G : 'cV[F]_k) (S : 'M[F]_(j, k)) (Jc : 'I_c -> 'M[F]_(3, k)) (a : 'cV[F]_k) (tau : 'cV[F]_j) (lambda : 'I_c -> 'cV[F]_3) : Prop :=
  M *m a + C + G = S^T *m tau + \sum_i (Jc i)^T *m lambda i.
(** The state a model was last updated with. *)
Definition lastState (i : nat) (s0 : option state) (l : seq (event F n state)) : option state :=
  foldl (fun a e => if e is Update k s then (if (k == i)%N then Some s else a) else a) s0 l.

Notation exec := (@exec F m n j c state full vel getJ getdJ solve).
Notation step := (@step F m n j c state full vel getJ getdJ solve).
Notation update := (@update F m n j c state full vel getJ getdJ solve).
Notation Jd s := (rightInverse (@solve m) (pMInverse (full s)) (getJ s)).
Definition modelAt (s : state) : opmodel F m j c state :=
  let D := Jd s in let f := full s in let M := D^T *m pM f *m D in
  mkModel s M (solve M) (D^T *m pC f - M *m getdJ s *m vel s) (D^T *m pG f) (pS f *m D) (fun i => pJc f i *m D).

Lemma update_good s w : (update s w).2 = modelAt s /\ good getJ getdJ (@solve m) s (pMInverse (full s)) (jac (update s w).1).
Proof.
  have G0 : good getJ getdJ (@solve m) s (pMInverse (full s)) (updateState (jac w) s (pMInverse (full s))) by [].
  rewrite /OpModelModel.update. have := Jd_good G0. case: (JdagerLDLT _ _ _)=> [D o1] /= [-> G1]. have := dJ_good G1. by case: (dJdt _ _)=> [d o2] /= [-> G2].
Qed.
Lemma update_step i s w : good getJ getdJ (@solve m) s (pMInverse (full s)) (jac (step w (Update F n i s)).1).
Proof. by have [_ G] := update_good s w.1. Qed.
Lemma exec_models : forall l w i, (exec w l).2 i = if lastState i None l is Some s then Some (modelAt s) else w.2 i.
Proof.
  have G : forall l w a i d, w.2 i = (if a is Some s then Some (modelAt s) else d) -> (exec w l).2 i = if lastState i a l is Some s then Some (modelAt s) else d.
  { elim=> [|e l IH] w a i d H //. rewrite /OpModelModel.exec /lastState /=. apply: IH.
    case: e=> [k s|k|k q|s W] /=; rewrite ?H //.
    - rewrite eq_sym. by case: (k == i)%N.
    - by case: (w.2 k)=> [o|].
    - by case: (w.2 k)=> [o|]. }
  by move=> l w i; apply: G.
Qed.

Lemma regular_facts s : regular s -> let A := getJ s *m pMInverse (full s) *m (getJ s)^T in
  [/\ pMInverse (full s) *m pM (full s) = 1%:M, symmetric (pMInverse (full s)), symmetric A, posdef A & solve A = invmx A].
Proof.
  case=> S P I R A. have UM := posdef_unit P. have E : pMInverse (full s) = invmx (pM (full s)) by rewrite -[LHS](mulKmx UM) I mulmx1.
  have I' : pMInverse (full s) *m pM (full s) = 1%:M by rewrite E mulVmx. have SI : symmetric (pMInverse (full s)) by rewrite /symmetric E trmx_inv S.
  have SA : symmetric A by rewrite /symmetric /A !trmx_mul trmxK SI mulmxA.
  have PA : posdef A. { move=> v Hv. rewrite /A -!mulmxA dot_mulr. set y := (getJ s)^T *m v. have N : y != 0 by apply: contraNneq Hv=> /R ->.
    have -> : dot y (pMInverse (full s) *m y) = dot (pMInverse (full s) *m y) (pM (full s) *m (pMInverse (full s) *m y)) by rewrite [pM _ *m _]mulmxA I mul1mx dotC. apply: P.
    apply: contraNneq N=> Z. by rewrite -[y]mul1mx -I -mulmxA Z mulmx0. }
  split=> //. exact: solve_ok.
Qed.
Lemma model_facts s : regular s -> let A := getJ s *m pMInverse (full s) *m (getJ s)^T in
  [/\ (Jd s)^T *m pM (full s) = invmx A *m getJ s, getJ s *m Jd s = 1%:M & m_M (modelAt s) = invmx A].
Proof.
  move=> R A. have [I' SI SA PA EA] := regular_facts R. have UA := posdef_unit PA. rewrite -/A in SA PA EA UA.
  have D : (Jd s)^T *m pM (full s) = invmx A *m getJ s. { rewrite /rightInverse -/A EA !trmx_mul trmxK trmx_inv SA SI -!mulmxA. by rewrite I' mulmx1. }
  have K : getJ s *m Jd s = 1%:M by rewrite /rightInverse -/A EA !mulmxA mulmxV.
  split=> //. by rewrite /= D -mulmxA K mulmx1.
Qed.

(** After every history of updates, queries and foreign uses of the shared Jacobian: if a model was last updated at a regular state,
    every motion of the robot satisfies the model's equations in the operational coordinates; its mass matrix is symmetric and
    positive definite, is the inverse of J M^-1 J^T, and comes with its inverse. *)
Theorem C101_dynamics (w : world F m n j c state) (l : seq (event F n state)) (i : nat) (s : state) : lastState i None l = Some s -> regular s ->
  exists o, (exec w l).2 i = Some o /\
    (forall qdd tau lambda, moves (pM (full s)) (pC (full s)) (pG (full s)) (pS (full s)) (pJc (full s)) qdd tau lambda ->
      moves (m_M o) (m_C o) (m_G o) (m_S o) (m_Jc o) (getJ s *m qdd + getdJ s *m vel s) tau lambda) /\
    [/\ symmetric (m_M o), posdef (m_M o), m_M o *m m_MInverse o = 1%:M & m_M o *m (getJ s *m pMInverse (full s) *m (getJ s)^T) = 1%:M].
Proof.
  move=> L R. rewrite (exec_models l w i) L. exists (modelAt s); split=> //.
  have [I' SI SA PA EA] := regular_facts R. have UA := posdef_unit PA. have [D K EM] := model_facts R. set A := getJ s *m pMInverse (full s) *m (getJ s)^T in SA PA EA UA D EM *.
  have SM : symmetric (m_M (modelAt s)) by rewrite /symmetric EM trmx_inv SA.
  have PM : posdef (m_M (modelAt s)).
  { move=> v Hv. rewrite EM. have -> : dot v (invmx A *m v) = dot (invmx A *m v) (A *m (invmx A *m v)) by rewrite mulKVmx // dotC. apply: PA. apply: contraNneq Hv=> Z. by rewrite -[v](mulKVmx UA) Z mulmx0. }
  split.
  - move=> qdd tau lambda H. rewrite /moves. rewrite mulmxDr EM mulmxA -D.
    have -> : m_C (modelAt s) = (Jd s)^T *m pC (full s) - m_M (modelAt s) *m getdJ s *m vel s by []. rewrite EM.
    have -> : m_G (modelAt s) = (Jd s)^T *m pG (full s) by [].
    have -> : (m_S (modelAt s))^T = (Jd s)^T *m (pS (full s))^T by rewrite /= trmx_mul.
    have -> : \sum_i0 (m_Jc (modelAt s) i0)^T *m lambda i0 = (Jd s)^T *m \sum_i0 (pJc (full s) i0)^T *m lambda i0.
    { rewrite mulmx_sumr. apply: eq_bigr=> k _. by rewrite /= trmx_mul mulmxA. }
    rewrite -[(Jd s)^T *m (pS _)^T *m tau]mulmxA -mulmxDr -H !mulmxDr -!mulmxA. move: ((Jd s)^T *m (pM (full s) *m qdd)) (invmx A *m (getdJ s *m vel s)) ((Jd s)^T *m pC (full s))=> a b d. by rewrite [a + b + _]addrACA subrr addr0.
  - split=> //; last by rewrite EM mulVmx. have -> : m_MInverse (modelAt s) = solve (m_M (modelAt s)) by []. rewrite solve_ok // mulmxV //. exact: posdef_unit.
Qed.
(** The kinetic energy of the operational coordinates is the least kinetic energy of all motions of the robot with that velocity of
    the coordinates. *)
Theorem C101_energy (w : world F m n j c state) (l : seq (event F n state)) (i : nat) (s : state) : lastState i None l = Some s -> regular s ->
  exists o, (exec w l).2 i = Some o /\ forall x : 'cV[F]_m,
    (forall qd, getJ s *m qd = x -> dot x (m_M o *m x) <= dot qd (pM (full s) *m qd)) /\ (exists qd, getJ s *m qd = x /\ dot x (m_M o *m x) = dot qd (pM (full s) *m qd)).
Proof.
  move=> L R. rewrite (exec_models l w i) L. exists (modelAt s); split=> // x.
  have [D K EM] := model_facts R. have [S P _ _] := R. set A := getJ s *m _ *m _ in D EM.
  have EE : dot x (m_M (modelAt s) *m x) = dot (Jd s *m x) (pM (full s) *m (Jd s *m x)) by rewrite [m_M _](_ : _ = (Jd s)^T *m pM (full s) *m Jd s) // -[_ *m _ *m _ *m x]mulmxA -[_ *m pM _ *m _]mulmxA dot_mulr trmxK.
  split; last by exists (Jd s *m x); split; [rewrite (mulmxA (getJ s) (Jd s) x) K mul1mx|exact: EE].
  move=> qd Hx. rewrite EE. set a := Jd s *m x. set b := qd - a.
  have -> : qd = a + b by rewrite /b addrC subrK. have Jb : getJ s *m b = 0 by rewrite /b mulmxBr Hx /a mulmxA K mul1mx subrr.
  have ab : dot a (pM (full s) *m b) = 0. { rewrite dot_mulr S. rewrite /a mulmxA -[pM _ *m _]trmxK trmx_mul S D dot_mull trmxK -mulmxA Jb mulmx0. exact: dot0r. }
  rewrite mulmxDr dotDl !dotDr ab (sym_swap b a S) ab addr0 add0r ler_addl. exact: posdef_semi P b.
Qed.

Lemma velocities_good s W (o : opmodel F m j c state) (w : shared F m n state) : good getJ getdJ (@solve m) s W (jac w) -> (getVelocities vel getJ o w).1 = getJ s *m vel (m_state o) /\ good getJ getdJ (@solve m) s W (jac (getVelocities vel getJ o w).2).
Proof. move=> G. rewrite /getVelocities. have := J_good G. by case: (J _ _)=> [v o1] /= [-> G1]. Qed.
Lemma accelerations_good s W q (o : opmodel F m j c state) (w : shared F m n state) : good getJ getdJ (@solve m) s W (jac w) -> (getAccelerations vel getJ getdJ q o w).1 = getJ s *m q + getdJ s *m vel (m_state o) /\
  good getJ getdJ (@solve m) s W (jac (getAccelerations vel getJ getdJ q o w).2).
Proof. move=> G. rewrite /getAccelerations. have := J_good G. case: (J _ _)=> [v o1] /= [-> G1]. have := dJ_good G1. by case: (dJdt _ _)=> [d o2] /= [-> G2]. Qed.
(** Queries only. *)
Definition query_only (e : event F n state) : bool := match e with Velocities _ | Accelerations _ _ => true | _ => false end.
(** Whatever happened before: from an update of a model to the next update of anything, its velocities and accelerations are those of
    the operational coordinates. *)
Theorem C101_velocities (w : world F m n j c state) (l l' : seq (event F n state)) (i : nat) (s : state) (qdd : 'cV[F]_n) : all query_only l' ->
  exists o, (exec w (l ++ Update F n i s :: l')).2 i = Some o /\ let h := (exec w (l ++ Update F n i s :: l')).1 in
    (getVelocities vel getJ o h).1 = getJ s *m vel s /\ (getAccelerations vel getJ getdJ qdd o h).1 = getJ s *m qdd + getdJ s *m vel s.
Proof.
  move=> Q. exists (modelAt s). split.
  - rewrite exec_models /lastState foldl_cat /= eqxx. suff -> : foldl (fun a e => if e is Update k s' then if (k == i)%N then Some s' else a else a) (Some s) l' = Some s by [].
    elim: l' Q=> [//|e l' IH] /= /andP [q Q]. case: e q=> //= *; exact: IH.
  - cbv zeta. rewrite /OpModelModel.exec foldl_cat. set w1 := foldl _ w l. rewrite [foldl _ w1 _](_ : _ = foldl step (step w1 (Update F n i s)) l') //.
    have G2 := update_step i s w1. move: (step w1 _) G2=> w2 G2. suff G3 : good getJ getdJ (@solve m) s (pMInverse (full s)) (jac (foldl step w2 l').1).
    { have [-> _] := velocities_good (modelAt s) G3. by have [-> _] := accelerations_good qdd (modelAt s) G3. }
    elim: l' Q w2 G2=> [//|e l' IH] /= /andP [q Q] w2 G2. apply: IH=> //. case: e q=> //= [k|k q'] _.
    + case: (w2.2 k)=> [o'|//]. by have [] := velocities_good o' G2.
    + case: (w2.2 k)=> [o'|//]. by have [] := accelerations_good q' o' G2.
Qed.
(** Refuted for models that share a Jacobian: once another is updated, the velocities of the first are those of its state in the
    coordinates of the other's. *)
Theorem C101_shared_refuted (w : world F m n j c state) (s1 s2 : state) : exists o, (exec w [:: Update F n 0 s1; Update F n 1 s2]).2 0%N = Some o /\
  (getVelocities vel getJ o (exec w [:: Update F n 0 s1; Update F n 1 s2]).1).1 = getJ s2 *m vel s1.
Proof.
  exists (modelAt s1). split; first by rewrite exec_models.
  rewrite /OpModelModel.exec. rewrite [foldl _ w _](_ : _ = step (step w (Update F n 0 s1)) (Update F n 1 s2)); last by []. have G := update_step 1 s2 (step w (Update F n 0 s1)). by have [-> _] := velocities_good (modelAt s1) G.
Qed.

(** ** Torques for operational forces *)
Lemma unit_gram k p (B : 'M[F]_(p, k)) : (forall y : 'cV[F]_k, B *m y = 0 -> y = 0) -> symmetric (B^T *m B) /\ posdef (B^T *m B).
Proof.
  move=> H. split; first by rewrite /symmetric trmx_mul trmxK.
  move=> v Hv. rewrite -mulmxA dot_mulr trmxK lt_neqAle dot_ge0 andbT eq_sym. apply: contraNneq Hv=> Z. apply/eqP. apply: H. exact: dot_eq0.
Qed.
(** For independent columns O and if no operational force but zero acts through O alone: the torques S^T^+ f produce the operational
    force f, are orthogonal to O, and are the smallest torques that are and do. *)
Theorem C101_torques k (O : 'M[F]_(j, k)) (o : opmodel F m j c state) : (forall y : 'cV[F]_k, O *m y = 0 -> y = 0) ->
  (forall y (z : 'cV[F]_k), m_S o *m y = O *m z -> y = 0) ->
  let D := STransposeDager solve O o in
  [/\ (m_S o)^T *m D = 1%:M, O^T *m D = 0 & forall f tau, (m_S o)^T *m tau = f -> O^T *m tau = 0 -> dot (D *m f) (D *m f) <= dot tau tau].
Proof.
  move=> HO HS D. have [SG PG] := unit_gram HO. have UG := posdef_unit PG.
  pose W : 'M[F]_j := 1%:M - O *m invmx (O^T *m O) *m O^T.
  have SW : W^T = W by rewrite /W linearB /= trmx1 !trmx_mul trmxK trmx_inv SG mulmxA.
  have OW : O^T *m W = 0 by rewrite /W mulmxBr mulmx1 !mulmxA mulmxV // mul1mx subrr.
  have WO : W *m O = 0 by rewrite -SW -[O]trmxK -trmx_mul OW trmx0.
  have WW : W *m W = W. { by rewrite {2}/W mulmxBr mulmx1 !mulmxA WO !mul0mx subr0. }
  pose B := W *m m_S o.
  have HB : forall y : 'cV[F]_m, B *m y = 0 -> y = 0.
  { move=> y. rewrite /B -mulmxA {1}/W mulmxBl mul1mx => /eqP. rewrite subr_eq0 => /eqP E. apply: (HS y (invmx (O^T *m O) *m (O^T *m (m_S o *m y)))). by rewrite {1}E !mulmxA. }
  have [SB PB] := unit_gram HB. have UB := posdef_unit PB.
  have EB : (m_S o)^T *m W *m m_S o = B^T *m B by rewrite /B trmx_mul SW mulmxA -[_ *m W *m W]mulmxA WW.
  have ED : D = B *m invmx (B^T *m B).
  { rewrite /D /STransposeDager. have -> : (if (k == 0)%N then 1%:M else 1%:M - 1%:M *m O *m solve (O^T *m 1%:M *m O) *m O^T *m 1%:M) = W.
    { rewrite mulmx1 mul1mx mulmx1 solve_ok //. case: eqP=> // K. rewrite /W. move: (O *m invmx _) => X. subst k. have -> : X *m O^T = 0 by apply/matrixP=> a b; rewrite !mxE big_ord0. by rewrite subr0. }
    by rewrite EB solve_ok. }
  have SD : (m_S o)^T *m D = 1%:M. { have SB' : (m_S o)^T *m B = B^T *m B by rewrite -EB /B mulmxA. by rewrite ED mulmxA SB' mulmxV. }
  have OD : O^T *m D = 0 by rewrite ED /B !mulmxA OW !mul0mx.
  split=> // f tau Hf HO0. set a := D *m f. set b := tau - a. have E : tau = a + b by rewrite /b addrC subrK.
  have Sb : (m_S o)^T *m b = 0 by rewrite /b mulmxBr Hf /a mulmxA SD mul1mx subrr. have Ob : O^T *m b = 0 by rewrite /b mulmxBr HO0 /a mulmxA OD mul0mx subrr.
  have Wb : W *m b = b by rewrite /W mulmxBl mul1mx -!mulmxA Ob !mulmx0 subr0. have Bb : B^T *m b = 0 by rewrite /B trmx_mul SW -mulmxA Wb Sb.
  have ab : dot a b = 0. { rewrite /a ED -mulmxA dot_mull Bb. exact: dot0r. }
  rewrite E. clearbody b. clearbody a. rewrite dotDl !dotDr ab (dotC b a) ab addr0 add0r ler_addl. exact: dot_ge0.
Qed.
End OpModelProps.
(** Refuted: the selection matrix of the full body model is there for twelve joints only, where it selects the joints. *)
Theorem C101_joints_refuted (F : fieldType) (NUM_JOINTS : nat) : (NUM_JOINTS <> 12%N -> selection F NUM_JOINTS = UB) /\
  (NUM_JOINTS = 12%N -> exists S, selection F NUM_JOINTS = Ok S /\ forall r k, (r < 12)%N -> (k < 18)%N -> S r k = if (k == 6 + r)%N then 1 else 0).
Proof.
  split; first by rewrite /selection=> /eqP /negbTE ->. move=> ->. eexists; split; first by reflexivity.
  move=> r k Hr Hk. rewrite /=. case: (ltnP k 6)=> H; first by case: eqP=> // E; rewrite E in H.
  by rewrite -(eqn_add2l 6) subnKC.
Qed.
Print Assumptions C101_dynamics.
Print Assumptions C101_energy.
Print Assumptions C101_velocities.
Print Assumptions C101_shared_refuted.
Print Assumptions C101_torques.
Print Assumptions C101_joints_refuted.

(** *** The hypotheses are met: mass two in two coordinates, the task is the first or the second of them *)
Section Example.
Variable F : realFieldType.
Definition exFull (b : bool) : params F 2 1 1 := mkPar 2%:R%:M (2%:R^-1)%:M (delta_mx 0 0) (delta_mx 1 0) (delta_mx 0 0) (fun _ => delta_mx 0 1).
Definition exJ (b : bool) : 'M[F]_(1, 2) := if b then delta_mx 0 0 else delta_mx 0 1.
Definition exVel (b : bool) : 'cV[F]_2 := delta_mx 0 0.
Lemma scalar_mul k (a : F) (v : 'cV[F]_k) : a%:M *m v = a *: v.
Proof. exact: mul_scalar_mx. Qed.
Lemma delta_free (i : 'I_2) (y : 'cV[F]_1) : (delta_mx 0 i : 'M[F]_(1, 2))^T *m y = 0 -> y = 0.
Proof.
  move=> H. have := congr1 (mulmx (delta_mx 0 i : 'M[F]_(1, 2))) H. rewrite mulmxA trmx_delta mul_delta_mx mulmx0.
  have -> : delta_mx 0 0 = 1%:M :> 'M[F]_1 by apply/matrixP=> a b; rewrite !mxE !ord1. by rewrite mul1mx.
Qed.
Example op_case (b : bool) : regular exFull exJ b /\ lastState 0 None [:: Update F 2 0 true; Update F 2 1 b; Velocities F 2 bool 0] = Some true /\
  exJ false *m exVel true <> exJ true *m exVel true.
Proof.
  split; [split=> /=|split=> //].
  - by rewrite /symmetric tr_scalar_mx.
  - move=> v Hv. rewrite scalar_mul dotZr pmulr_rgt0 ?ltr0n // lt_neqAle dot_ge0 andbT eq_sym. apply: contraNneq Hv=> Z. apply/eqP. exact: dot_eq0.
  - by rewrite -scalar_mxM mulfV // pnatr_eq0.
  - case: b=> y; exact: delta_free.
  - rewrite /exJ /exVel !mul_delta_mx_cond /= mulr0n mulr1n => /matrixP /(_ 0 0). rewrite !mxE eqxx /=. move/eqP. by rewrite eq_sym oner_eq0.
Qed.
Example torque_case (o : opmodel F 1 2 1 bool) : m_S o = delta_mx 0 0 -> let O := delta_mx 1 0 : 'M[F]_(2, 1) in
  (forall y : 'cV[F]_1, O *m y = 0 -> y = 0) /\ (forall y (z : 'cV[F]_1), m_S o *m y = O *m z -> y = 0).
Proof.
  move=> -> O. have E : delta_mx 0 0 = 1%:M :> 'M[F]_1 by apply/matrixP=> a b; rewrite !mxE !ord1.
  split=> [y|y z] H.
  - have := congr1 (mulmx (delta_mx 0 1 : 'M[F]_(1, 2))) H. by rewrite mulmxA mul_delta_mx mulmx0 E mul1mx.
  - have := congr1 (mulmx (delta_mx 0 0 : 'M[F]_(1, 2))) H. by rewrite !mulmxA mul_delta_mx mul_delta_mx_0 // mul0mx E mul1mx.
Qed.
End Example.
