(** Proofs about the discrete-time LQR designs (LqrModel.v). *)
From mathcomp Require Import all_ssreflect all_algebra.
From mathcomp Require Import ring.
From Verif Require Import Base.Outcome Base.Mx Optcon.LQSpec Optcon.LQModel Optcon.LQProofs
  Optcon.LqrSpec Optcon.LqrModel.
Set Implicit Arguments. Unset Strict Implicit. Unset Printing Implicit Defensive.
Import GRing.Theory Num.Theory Order.TTheory.
Local Open Scope ring_scope.

Section LqrProofs.
Variable F : realFieldType.
Variables n m : nat.
Variable eig : 'M[F]_m -> 'M[F]_m * 'rV[F]_m.
Hypothesis Heig : forall M, symmetric M -> eigen_correct eig M.
Local Notation reps := (repsilon F).
Implicit Types (P : 'M[F]_n) (Q : 'M[F]_n) (R : 'M[F]_m) (A : 'M[F]_n) (B : 'M[F]_(n, m)).

Lemma reps_gt0 : 0 < reps.
Proof. by rewrite /repsilon invr_gt0 exprn_gt0 // ltr0n. Qed.

Lemma dot_gt0 d (v : 'cV[F]_d) : v != 0 -> 0 < dot v v.
Proof.
move=> Hv; rewrite lt_neqAle dot_ge0 andbT eq_sym; apply/eqP => E; move/eqP: Hv; apply; exact: dot_eq0.
Qed.

Lemma sym_scalar d (c : F) : symmetric (c%:M : 'M[F]_d).
Proof. by rewrite /symmetric tr_scalar_mx. Qed.

Lemma posdef_shift d (M : 'M[F]_d) : possemi M -> posdef (M + reps%:M).
Proof.
move=> H v Hv; rewrite mulmxDl dotDr mul_scalar_mx dotZr.
by apply: ltr_paddl; [exact: H | rewrite mulr_gt0 ?reps_gt0 // dot_gt0].
Qed.

Lemma sym_invmx d (M : 'M[F]_d) : symmetric M -> symmetric (invmx M).
Proof. by move=> H; rewrite /symmetric trmx_inv H. Qed.

(** The corrected Hessian is exactly H + epsilon I when H is positive semidefinite. *)
Lemma robust_hessian (H : 'M[F]_m) : symmetric H -> possemi H ->
  let V := (eig H).1 in
  let D := \row_j (Num.max ((eig H).2 0 j) 0 + reps) in
  V *m diag_mx D *m V^T = H + reps%:M /\
  V *m diag_mx (\row_j (D 0 j)^-1) *m V^T = invmx (H + reps%:M).
Proof.
move=> Hs Hp; have := Heig Hs; rewrite /eigen_correct; case: (eig H) => V lam /= Hd.
have Hlam j : 0 <= lam 0 j by have [<- _] := eig_value j Hd; exact: Hp.
set D := \row_j _.
have HDe j : D 0 j = lam 0 j + reps by rewrite mxE; congr (_ + _); apply/max_idPl.
have HDp j : D 0 j != 0 by rewrite HDe gt_eqF // ltr_paddl ?reps_gt0.
have HD : diag_mx D = diag_mx lam + reps%:M.
  by apply/matrixP => i j; rewrite [LHS]mxE HDe !mxE; case: eqP => _; rewrite ?mulr1n // !mulr0n addr0.
case: Hd => HV HM.
have HV' : V^T *m V = 1%:M by apply: mulmx1C.
have E1 : V *m diag_mx D *m V^T = H + reps%:M.
  by rewrite HD mulmxDr mulmxDl HM mul_mx_scalar -scalemxAl HV scalemx1.
split=> //.
have Hinv : diag_mx D *m diag_mx (\row_j (D 0 j)^-1) = 1%:M.
  rewrite mulmx_diag; apply/matrixP => i j; rewrite !mxE.
  case: eqP => [->|_]; last by rewrite !mulr0n.
  by rewrite !mulr1n mulfV //; have := HDp j; rewrite mxE.
have E2 : (H + reps%:M) *m (V *m diag_mx (\row_j (D 0 j)^-1) *m V^T) = 1%:M.
  by rewrite -E1 !mulmxA -(mulmxA _ V^T V) HV' mulmx1 -(mulmxA V) Hinv mulmx1.
have Hu : H + reps%:M \in unitmx by apply: posdef_unit; exact: posdef_shift.
by rewrite -[LHS](mulKmx Hu) E2 mulmx1.
Qed.

Lemma symmetriseE d (M : 'M[F]_d) : symmetrise M = 2%:R^-1 *: (M + M^T).
Proof. by []. Qed.

(** One robust iteration = one exact Riccati step with the input weight R + epsilon I. *)
Lemma robust_naive Q R A B P : symmetric P -> symmetric R -> possemi (R + B^T *m P *m B) ->
  iterateRobust eig Q R A B P = iterateNaive (n := n) Q (R + reps%:M) A B P.
Proof.
move=> HP HR Hp.
have Hs : symmetric (R + B^T *m P *m B) by apply: symD => //; exact: quad_sym.
have [E1 E2] := robust_hessian Hs Hp.
rewrite /iterateRobust /iterateNaive (symmetriseE (R + _)) (half_symE Hs) E1 E2.
have -> : R + reps%:M + B^T *m P *m B = R + B^T *m P *m B + reps%:M by rewrite addrAC.
by rewrite !mulmxA.
Qed.

Lemma naive_sym Q R A B P : symmetric (iterateNaive (F := F) (n := n) (m := m) Q R A B P).1.
Proof. exact: half_sym. Qed.

(** The step in textbook form. *)
Lemma naive_riccati Q R A B P : symmetric P -> symmetric R -> symmetric Q -> posdef (R + B^T *m P *m B) ->
  iterateNaive (n := n) Q R A B P
  = (riccati (m := m) Q R A B P, - (invmx (R + B^T *m P *m B) *m B^T *m P *m A)).
Proof.
move=> HP HR HQ Hp; rewrite /iterateNaive /riccati.
set H := R + _; set K := - (invmx H *m B^T *m P *m A).
have Hs : symmetric H by apply: symD => //; exact: quad_sym.
have Hu : H \in unitmx by exact: posdef_unit.
have E : K^T *m H *m K = A^T *m P *m B *m invmx H *m B^T *m P *m A.
  have -> : K^T *m H *m K = (invmx H *m B^T *m P *m A)^T *m H *m (invmx H *m B^T *m P *m A).
    rewrite /K; set X := invmx H *m B^T *m P *m A.
    have -> : (- X)^T = - X^T by apply/matrixP => i j; rewrite !mxE.
    by rewrite !mulNmx mulmxN opprK.
  rewrite !trmx_mul (sym_invmx Hs) trmxK HP.
  by rewrite !mulmxA -[_ *m invmx H *m H]mulmxA mulVmx // mulmx1.
congr (_, _); rewrite -E symmetriseE half_symE //.
by apply: symB; [apply: symD => //|]; exact: quad_sym.
Qed.

Lemma naive_gain Q R A B P : posdef (R + B^T *m P *m B) ->
  (R + B^T *m P *m B) *m (iterateNaive (n := n) (m := m) Q R A B P).2 = - (B^T *m P *m A).
Proof. by move=> Hp; rewrite /= mulmxN !mulmxA mulmxV ?mul1mx //; exact: posdef_unit. Qed.

Lemma quad_semi d e (B : 'M[F]_(d, e)) (P : 'M[F]_d) : possemi P -> possemi (B^T *m P *m B).
Proof. by move=> H v; rewrite -!mulmxA -dot_mull. Qed.
Lemma semiD d (M N : 'M[F]_d) : possemi M -> possemi N -> possemi (M + N).
Proof. by move=> H1 H2 v; rewrite mulmxDl dotDr addr_ge0. Qed.
Lemma posdef_semiD d (M N : 'M[F]_d) : posdef M -> possemi N -> posdef (M + N).
Proof. by move=> H1 H2 v Hv; rewrite mulmxDl dotDr ltr_paddr // H1. Qed.
Lemma semi_posdefD d (M N : 'M[F]_d) : possemi M -> posdef N -> posdef (M + N).
Proof. by move=> H1 H2; rewrite addrC; exact: posdef_semiD. Qed.

Lemma naive_psd Q R A B P : symmetric P -> possemi P -> symmetric Q -> possemi Q -> symmetric R -> posdef R ->
  possemi (iterateNaive (n := n) (m := m) Q R A B P).1.
Proof.
move=> HP HPp HQ HQp HR HRp x.
have Hp : posdef (R + B^T *m P *m B) by apply: posdef_semiD => //; exact: quad_semi.
have Hs : symmetric (R + B^T *m P *m B) by apply: symD => //; exact: quad_sym.
have HK := naive_gain Q A Hp; set K := (iterateNaive Q R A B P).2 in HK *.
rewrite /= symmetriseE -/K half_symE; last first.
  by apply: symB; [apply: symD => //|]; exact: quad_sym.
have Hg0 : (0 : 'cV[F]_m) = 0 + B^T *m 0 + B^T *m P *m 0 by rewrite !mulmx0 !addr0.
have HG : B^T *m P *m A = 0 + B^T *m P *m A by rewrite add0r.
have Hl0 : (R + B^T *m P *m B) *m 0 = - 0 :> 'cV[F]_m by rewrite mulmx0 oppr0.
have := bellman_step 0 Q x (K *m x) 0 HP Hs Hg0 HG erefl HK Hl0.
cbv zeta; rewrite subrr subr0 !mulmx0 !addr0 !dot0r !mul0r ?dot0l ?subr0 ?addr0 ?add0r ?mul0r ?oppr0 ?addr0.
rewrite mul0mx dot0r addr0 => HB.
have Hpos : 0 <= dot x ((Q + A^T *m P *m A - K^T *m (R + B^T *m P *m B) *m K) *m x) / 2%:R.
  rewrite -HB; set y := A *m x + _.
  have H1 := HQp x; have H2 := posdef_semi HRp (K *m x); have H3 := HPp y.
  by rewrite !addr_ge0 // divr_ge0 // ler0n.
by rewrite -(pmulr_lge0 _ (x := 2%:R^-1)) // invr_gt0 ltr0n.
Qed.

(** The loop of the finite-horizon design as a sequence of Riccati matrices. *)
Lemma fhLoop_spec cf x u (A : seq 'M[F]_n) (B : seq 'M[F]_(n, m)) dt checks c P K K' :
  fhLoop eig cf x u A B dt checks c P K = Ok K' ->
  exists Pf : nat -> 'M[F]_n, Pf c = P /\
    forall i, (i < c)%N ->
      (Pf i, K' i) = iterateRobust eig (dt *: d2x cf (nth 0 x i) (nth 0 u i) (i%:R * dt))
                       (dt *: d2u cf (nth 0 x i) (nth 0 u i) (i%:R * dt)) (nth 0 A i) (nth 0 B i) (Pf i.+1).
Proof.
suff H : fhLoop eig cf x u A B dt checks c P K = Ok K' ->
  (forall i, (c <= i)%N -> K' i = K i) /\
  exists Pf : nat -> 'M[F]_n, Pf c = P /\
    forall i, (i < c)%N ->
      (Pf i, K' i) = iterateRobust eig (dt *: d2x cf (nth 0 x i) (nth 0 u i) (i%:R * dt))
                       (dt *: d2u cf (nth 0 x i) (nth 0 u i) (i%:R * dt)) (nth 0 A i) (nth 0 B i) (Pf i.+1).
  by move=> /H [].
elim: c P K => [|c IH] P K; first by move=> [] <-; split=> //; exists (fun _ => P).
cbn [fhLoop]; cbv zeta; case: ifP => // _; set r := iterateRobust _ _ _ _ _ _.
move=> /IH [HK [Pf [HPf Hi]]]; split.
  move=> i Hci; rewrite HK; last exact: ltnW.
  by rewrite upd_other // => E; rewrite E ltnn in Hci.
exists (fun i => if i == c.+1 then P else Pf i); split; first by rewrite eqxx.
move=> i; rewrite ltnS => Hic.
have -> : (i == c.+1) = false by apply/negbTE; rewrite neq_ltn ltnS Hic.
rewrite eqSS; case: (eqVneq i c) => [->|Hne].
  by rewrite HPf HK // upd_same -/r; symmetry; exact: surjective_pairing.
by apply: Hi; rewrite ltn_neqAle Hne Hic.
Qed.

Definition exact_la : linalg F m := mk_linalg eig (fun M => invmx M).
Definition exact_se : settings F := mk_settings true 0.

Lemma regulator_optimal (N : nat) (A : nat -> 'M[F]_n) (B : nat -> 'M[F]_(n, m))
    (Q : nat -> 'M[F]_n) (R : nat -> 'M[F]_m) Qf
    (Pf : nat -> 'M[F]_n) (K : nat -> 'M[F]_(m, n)) :
  (0 < N)%N ->
  (forall k, (k < N)%N -> symmetric (Q k) /\ possemi (Q k)) ->
  (forall k, (k < N)%N -> symmetric (R k) /\ posdef (R k)) ->
  symmetric Qf -> possemi Qf -> Pf N = Qf ->
  (forall i, (i < N)%N -> (Pf i, K i) = iterateNaive (Q i) (R i) (A i) (B i) (Pf i.+1)) ->
  optimal_feedback (regulator N A B Q R Qf) K.
Proof.
move=> HN HQ HR HQf HQfp HPN Hit.
have HP c k : (k + c = N)%N -> symmetric (Pf k) /\ possemi (Pf k).
  elim: c k => [|c IH] k Hk; first by rewrite addn0 in Hk; rewrite Hk HPN.
  have Hlt : (k < N)%N by rewrite -Hk addnS ltnS leq_addr.
  have [|HP1 HP2] := IH k.+1; first by rewrite addSn -addnS.
  have := Hit k Hlt; rewrite [iterateNaive _ _ _ _ _]surjective_pairing => -[-> _].
  by split; [exact: naive_sym | apply: naive_psd; by [|exact: (HQ k Hlt).1 |exact: (HQ k Hlt).2|exact: (HR k Hlt).1|exact: (HR k Hlt).2]].
have HPk k : (k <= N)%N -> symmetric (Pf k) /\ possemi (Pf k) by move=> Hk; apply: (HP (N - k)%N); rewrite subnKC.
pose H k := R k + (B k)^T *m Pf k.+1 *m B k.
have HH k : (k < N)%N -> symmetric (H k) /\ posdef (H k).
  move=> Hk; have [H1 H2] := HPk k.+1 Hk; have [R1 R2] := HR k Hk.
  by split; [apply: symD => //; exact: quad_sym | apply: posdef_semiD => //; exact: quad_semi].
pose s : solver F n m := mk_solver Pf (fun _ => 0) (fun k => (B k)^T *m Pf k.+1 *m A k) (fun _ => 0) H H
  (fun k => low_sym (- invmx (low_sym (H k)))) K (fun _ => 0) (fun _ => 0) (fun _ => 0).
pose p := regulator N A B Q R Qf.
have HW : symmetric_weights p.
  split=> k Hk /=; last exact: (HR k Hk).1.
  case: (eqVneq k N) => // Hne; have Hlt : (k < N)%N by rewrite ltn_neqAle Hne Hk.
  exact: (HQ k Hlt).1.
have Htiny : tiny F < 0 = false.
  by apply/negbTE; rewrite -leNgt /tiny invr_ge0 exprn_ge0 // ler0n.
have HB : backward_eq exact_la exact_se p 0 s.
  split.
  - by split; rewrite /= ?eqxx.
  - move=> k Hk; rewrite /= in Hk; have [H1 H2] := HPk k.+1 Hk; have [H3 H4] := HH k Hk.
    have HKe : K k = - (invmx (H k) *m (B k)^T *m Pf k.+1 *m A k) by have [_] := Hit k Hk.
    split; rewrite /= /correctHessian /= ?Htiny ?mulmx0 ?addr0 ?(low_symE H1) ?add0r //.
    rewrite (low_symE H3) low_symE; last by rewrite /symmetric linearN /= (sym_invmx H3).
    by rewrite HKe !mulmxA !mulNmx.
  - move=> k Hk _; rewrite /= in Hk; split; rewrite /= ?mulmx0 ?addr0 //.
    have -> : (k == N) = false by apply/negbTE; rewrite neq_ltn Hk.
    by have := Hit k Hk; rewrite /iterateNaive => -[-> ->].
have HU k : (k < pN p)%N -> untouched exact_se (s_H s k) /\ factorised exact_la exact_se (s_H s k).
  move=> Hk; have [H3 H4] := HH k Hk; split.
    by split=> //=; rewrite invr_ge0 exprn_ge0 // ler0n.
  by move=> _ Hp; rewrite /= mulmxV //; exact: posdef_unit.
move=> j x Hj.
have HO := optimal HW HB HU x HN Hj.
have Heq : law p s j x =1 (fun k => K k *m closed_loop p K (fun _ => 0) j x (k - j)).
  by move=> k; rewrite /law /= add0r.
by apply: minimiser_ext HO => // k _; rewrite Heq.
Qed.

Lemma fh_optimal cf x u (A : seq 'M[F]_n) (B : seq 'M[F]_(n, m)) dt checks K0 K N :
  (0 < N)%N -> 0 <= dt ->
  (forall k, (k < N)%N -> symmetric (d2x cf (nth 0 x k) (nth 0 u k) (k%:R * dt)) /\
             possemi (d2x cf (nth 0 x k) (nth 0 u k) (k%:R * dt))) ->
  (forall k, (k < N)%N -> symmetric (d2u cf (nth 0 x k) (nth 0 u k) (k%:R * dt)) /\
             possemi (d2u cf (nth 0 x k) (nth 0 u k) (k%:R * dt))) ->
  symmetric (d2xf cf (nth 0 x N) 0 (dt * N%:R)) -> possemi (d2xf cf (nth 0 x N) 0 (dt * N%:R)) ->
  fhLoop eig cf x u A B dt checks N (d2xf cf (nth 0 x N) 0 (dt * N%:R)) K0 = Ok K ->
  optimal_feedback
    (regulator N (nth 0 A) (nth 0 B)
       (fun k => dt *: d2x cf (nth 0 x k) (nth 0 u k) (k%:R * dt))
       (fun k => dt *: d2u cf (nth 0 x k) (nth 0 u k) (k%:R * dt) + reps%:M)
       (d2xf cf (nth 0 x N) 0 (dt * N%:R))) K.
Proof.
move=> HN Hdt HQ HR Hf Hfp /fhLoop_spec [Pf [HPN Hit]].
have scale d (M : 'M[F]_d) : symmetric M /\ possemi M -> symmetric (dt *: M) /\ possemi (dt *: M).
  move=> [H1 H2]; split; first by rewrite /symmetric linearZ /= H1.
  by move=> v; rewrite -scalemxAl dotZr mulr_ge0.
have HQ' k Hk := scale _ _ (HQ k Hk); have HR' k Hk := scale _ _ (HR k Hk).
have HR2 k : (k < N)%N -> symmetric (dt *: d2u cf (nth 0 x k) (nth 0 u k) (k%:R * dt) + reps%:M) /\
             posdef (dt *: d2u cf (nth 0 x k) (nth 0 u k) (k%:R * dt) + reps%:M).
  by move=> Hk; have [H1 H2] := HR' k Hk; split; [apply: symD => //; exact: sym_scalar | exact: posdef_shift].
apply: (@regulator_optimal N _ _ _ _ _ Pf) => //.
have HP c k : (k + c = N)%N -> symmetric (Pf k) /\ possemi (Pf k) /\
  ((k < N)%N -> (Pf k, K k) = iterateNaive (dt *: d2x cf (nth 0 x k) (nth 0 u k) (k%:R * dt))
      (dt *: d2u cf (nth 0 x k) (nth 0 u k) (k%:R * dt) + reps%:M) (nth 0 A k) (nth 0 B k) (Pf k.+1)).
  elim: c k => [|c IH] k Hk; first by rewrite addn0 in Hk; rewrite Hk HPN ltnn.
  have Hlt : (k < N)%N by rewrite -Hk addnS ltnS leq_addr.
  have [|HP1 [HP2 _]] := IH k.+1; first by rewrite addSn -addnS.
  have E := Hit k Hlt; rewrite robust_naive // in E; last 2 first.
  - exact: (HR' k Hlt).1.
  - by apply: semiD; [exact: (HR' k Hlt).2 | exact: quad_semi].
  split; last split=> //; move: E; rewrite [iterateNaive _ _ _ _ _]surjective_pairing => -[-> _].
  - exact: naive_sym.
  - by apply: naive_psd; by [|exact: (HQ' k Hlt).1 |exact: (HQ' k Hlt).2|exact: (HR2 k Hlt).1|exact: (HR2 k Hlt).2].
by move=> i Hi; have [_ [_ H]] := HP (N - i)%N i (subnKC (ltnW Hi)); exact: H.
Qed.

(** The cost weights along the trajectories, as the design reads them. *)
Lemma designAB_ok (mineig : 'M[F]_n -> F) cf x u (A : seq 'M[F]_n) (B : seq 'M[F]_(n, m)) dt K0 checks K :
  designControllerAB eig mineig cf x u A B dt K0 checks = Ok K ->
  [/\ size x = (size u).+1, size A = size u & size B = size u] /\
  fhLoop eig cf x u A B dt checks (size u) (d2xf cf (nth 0 x (size u)) 0 (dt * (size u)%:R)) K0 = Ok K.
Proof.
rewrite /designControllerAB /fhSolve.
case: eqP => // Hx; case: eqP => // Hu; case: eqP => // HA; case: eqP => // HB /=.
case: ifP => // _ H; rewrite Hu HA HB; split=> //.
Qed.

Lemma map_iota_nth (T : zmodType) (f : nat -> T) N k : (k < N)%N -> nth 0 [seq f i | i <- iota 0 N] k = f k.
Proof. by move=> Hk; rewrite (nth_map 0%N) ?size_iota // nth_iota. Qed.

(** Two regulators with the same data on their stages have the same optimal feedbacks. *)
Lemma regulator_ext N (A A' : nat -> 'M[F]_n) (B B' : nat -> 'M[F]_(n, m))
    (Q : nat -> 'M[F]_n) (R : nat -> 'M[F]_m) Qf K :
  (forall k, (k < N)%N -> A k = A' k /\ B k = B' k) ->
  optimal_feedback (regulator N A B Q R Qf) K -> optimal_feedback (regulator N A' B' Q R Qf) K.
Proof.
move=> HE HO j x Hj.
have Hst u i : (j + i <= N)%N ->
  state_from (regulator N A B Q R Qf) j x u i = state_from (regulator N A' B' Q R Qf) j x u i.
  elim: i => [//|i IH]; rewrite addnS => Hi; have [EA EB] := HE _ Hi.
  by rewrite /= IH ?(ltnW Hi) // /next /= EA EB.
have Hcl i : (j + i <= N)%N ->
  closed_loop (regulator N A B Q R Qf) K (fun _ => 0) j x i
  = closed_loop (regulator N A' B' Q R Qf) K (fun _ => 0) j x i.
  elim: i => [//|i IH]; rewrite addnS => Hi; have [EA EB] := HE _ Hi.
  by rewrite /= IH ?(ltnW Hi) // /next /= EA EB.
have Hcost u : cost_from (regulator N A B Q R Qf) j x u = cost_from (regulator N A' B' Q R Qf) j x u.
  rewrite /cost_from; congr (_ + _); last by rewrite Hst // subnKC.
  apply: eq_bigr => i _; rewrite Hst //.
  by have := ltn_ord i; rewrite ltn_subRL => /ltnW.
have Hsame : same_controls (regulator N A' B' Q R Qf) j
   (fun k => K k *m closed_loop (regulator N A B Q R Qf) K (fun _ => 0) j x (k - j))
   (fun k => K k *m closed_loop (regulator N A' B' Q R Qf) K (fun _ => 0) j x (k - j)).
  by move=> k /andP [H1 H2]; rewrite Hcl // subnKC // ltnW.
apply: minimiser_ext Hsame _ => // u'; have [H1 H2] := HO j x Hj u'.
by rewrite -!Hcost; split.
Qed.

Lemma designLin_optimal (mineig : 'M[F]_n -> F) cf dA dB x u dt K0 checks K :
  (0 < size u)%N -> 0 <= dt ->
  (forall k, (k < size u)%N -> symmetric (d2x cf (nth 0 x k) (nth 0 u k) (k%:R * dt)) /\
             possemi (d2x cf (nth 0 x k) (nth 0 u k) (k%:R * dt))) ->
  (forall k, (k < size u)%N -> symmetric (d2u cf (nth 0 x k) (nth 0 u k) (k%:R * dt)) /\
             possemi (d2u cf (nth 0 x k) (nth 0 u k) (k%:R * dt))) ->
  symmetric (d2xf cf (nth 0 x (size u)) 0 (dt * (size u)%:R)) ->
  possemi (d2xf cf (nth 0 x (size u)) 0 (dt * (size u)%:R)) ->
  designControllerLin eig mineig cf dA dB x u dt K0 checks = Ok K ->
  optimal_feedback
    (regulator (size u) (fun k => 1%:M + dt *: dA (nth 0 x k) (nth 0 u k)) (fun k => dt *: dB (nth 0 x k) (nth 0 u k))
       (fun k => dt *: d2x cf (nth 0 x k) (nth 0 u k) (k%:R * dt))
       (fun k => dt *: d2u cf (nth 0 x k) (nth 0 u k) (k%:R * dt) + reps%:M)
       (d2xf cf (nth 0 x (size u)) 0 (dt * (size u)%:R))) K.
Proof.
move=> HN Hdt HQ HR Hf Hfp; rewrite /designControllerLin; case: ifP => // _; case: ifP => // _ H.
have [[Hx HA _] HL] := designAB_ok H.
rewrite !size_map size_iota in HA.
apply: regulator_ext (fh_optimal HN Hdt HQ HR Hf Hfp HL) => k Hk.
by rewrite !map_iota_nth ?HA.
Qed.

(** Steady state. *)
Lemma le_big_max (I : eqType) (r : seq I) (f : I -> F) i : i \in r -> f i <= \big[Num.max/0]_(k <- r) f k.
Proof.
elim: r => [//|a r IH]; rewrite inE big_cons le_maxr => /orP [/eqP -> |/IH ->]; first by rewrite lexx.
by rewrite orbT.
Qed.
Lemma maxAbs_lt d (M : 'M[F]_d) eps : maxAbs M < eps -> forall i j, `|M i j| < eps.
Proof.
move=> H i j; apply: le_lt_trans H; rewrite /maxAbs.
apply: le_trans (le_big_max (fun k => `|M i k|) (mem_index_enum j)) _.
exact: (le_big_max (fun i => \big[Num.max/0]_(j < d) `|M i j|) (mem_index_enum i)).
Qed.

Lemma dareLoop_spec Q R A B eps : symmetric Q -> possemi Q -> symmetric R -> possemi R ->
  forall f P K diff, symmetric P -> possemi P ->
  let r := dareLoop eig f Q R A B eps P K diff in
  symmetric r.1.1 /\ possemi r.1.1 /\
  ((r.1 = (P, K) /\ r.2 = diff) \/
   exists P0, [/\ symmetric P0, possemi P0, r.1 = iterateNaive Q (R + reps%:M) A B P0 & r.2 = maxAbs (r.1.1 - P0)]).
Proof.
move=> HQ HQp HR HRp; elim=> [|f IH] P K diff HP HPp /=; first by split=> //; split=> //; left.
case: ifP => _; first by split=> //; split=> //; left.
have HRN : iterateRobust eig Q R A B P = iterateNaive Q (R + reps%:M) A B P.
  by apply: robust_naive => //; apply: semiD => //; exact: quad_semi.
have HR2 : symmetric (R + reps%:M) by apply: symD => //; exact: sym_scalar.
have HRp2 : posdef (R + reps%:M) by exact: posdef_shift.
have H1 := naive_sym Q (R + reps%:M) A B P.
have H2 := naive_psd A B HP HPp HQ HQp HR2 HRp2.
set P1 := (iterateRobust eig Q R A B P).1; set K1 := (iterateRobust eig Q R A B P).2.
have := IH P1 K1 (maxAbs (P1 - P)); rewrite {1 2}/P1 HRN => /(_ H1 H2) [S1 [S2 S3]].
split=> //; split=> //; case: S3 => [[E1 E2]|]; last by right.
right; exists P; split=> //; rewrite E1; last by rewrite E2.
by rewrite /P1 /K1 HRN -surjective_pairing.
Qed.

Lemma dare_spec Q R A B P K eps maxIter P' K' :
  symmetric Q -> possemi Q -> symmetric R -> possemi R -> symmetric P -> possemi P -> eps <= 1 ->
  dare eig Q R A B P K eps maxIter = Ok (P', K') ->
  symmetric P' /\ possemi P' /\
  exists P0, [/\ P' = riccati Q (R + reps%:M) A B P0,
                 K' = - (invmx (R + reps%:M + B^T *m P0 *m B) *m B^T *m P0 *m A) &
                 forall i j, `|P' i j - P0 i j| < eps].
Proof.
move=> HQ HQp HR HRp HP HPp Heps; rewrite /dare.
have [S1 [S2 S3]] := @dareLoop_spec Q R A B eps HQ HQp HR HRp maxIter P K 1 HP HPp.
case: leP => // Hlt [] E; rewrite E /= in S1 S2 S3; split=> //; split=> //.
case: S3 => [[_ E2]|[P0 [H1 H2 H3 H4]]].
  by move: Hlt; rewrite E2 ltNge Heps.
exists P0; rewrite naive_riccati in H3 => //; last 2 first.
- by apply: symD => //; exact: sym_scalar.
- by apply: posdef_semiD; [exact: posdef_shift | exact: quad_semi].
have Hd i j : `|P' i j - P0 i j| < eps by move: Hlt; rewrite H4 => /maxAbs_lt /(_ i j); rewrite !mxE.
by case: H3 => E1 E2; split.
Qed.

Lemma dare_gives_up Q R A B P K eps : eps <= 1 -> dare eig Q R A B P K eps 0 = Throw.
Proof. by move=> H; rewrite /dare /= H. Qed.
End LqrProofs.
