(** The real numbers of the standard library as an ordered field of mathcomp, so that matrices over them can be used. *)
From mathcomp Require Import all_ssreflect all_algebra.
From Coq Require Import Reals Lra ClassicalEpsilon.
Set Implicit Arguments. Unset Strict Implicit. Unset Printing Implicit Defensive.
Import GRing.Theory Num.Theory Order.TTheory.
Local Open Scope R_scope.

Definition eqr (a b : R) : bool := if Req_EM_T a b then true else false.
Lemma eqrP : Equality.axiom eqr.
Proof. move=> a b; rewrite /eqr; case: Req_EM_T=> H; by constructor. Qed.
Definition R_eqMixin := EqMixin eqrP.
Canonical R_eqType := Eval hnf in EqType R R_eqMixin.

Definition pickR (P : pred R) (n : nat) : option R :=
  if excluded_middle_informative (exists x, P x) is left H then Some (proj1_sig (constructive_indefinite_description _ H)) else None.
Lemma pickR_some P n x : pickR P n = Some x -> P x.
Proof. rewrite /pickR; case: excluded_middle_informative=> // H [<-]; exact: (proj2_sig (constructive_indefinite_description _ H)). Qed.
Lemma pickR_ex (P : pred R) : (exists x, P x) -> exists n, pickR P n.
Proof. move=> H; exists 0%N; rewrite /pickR; by case: excluded_middle_informative. Qed.
Lemma pickR_ext (P Q : pred R) : P =1 Q -> pickR P =1 pickR Q.
Proof.
  move=> PEQ n; rewrite /pickR.
  have -> : P = Q by apply: FunctionalExtensionality.functional_extensionality=> x; exact: PEQ. done.
Qed.
Definition R_choiceMixin : choiceMixin R := Choice.Mixin pickR_some pickR_ex pickR_ext.
Canonical R_choiceType := Eval hnf in ChoiceType R R_choiceMixin.

Fact RplusA : associative Rplus. Proof. move=> *; by rewrite Rplus_assoc. Qed.
Definition R_zmodMixin := ZmodMixin RplusA Rplus_comm Rplus_0_l Rplus_opp_l.
Canonical R_zmodType := Eval hnf in ZmodType R R_zmodMixin.
Fact RmultA : associative Rmult. Proof. move=> *; by rewrite Rmult_assoc. Qed.
Fact R1_neq_0 : R1 != R0. Proof. apply/eqP; exact: R1_neq_R0. Qed.
Definition R_ringMixin := RingMixin RmultA Rmult_1_l Rmult_1_r Rmult_plus_distr_r Rmult_plus_distr_l R1_neq_0.
Canonical R_ringType := Eval hnf in RingType R R_ringMixin.
Canonical R_comRingType := Eval hnf in ComRingType R Rmult_comm.

Definition Rinvx (r : R) : R := if r == R0 then R0 else / r.
Definition unitR (r : R) : bool := r != R0.
Lemma RmultVx : {in unitR, left_inverse (1 : R)%R Rinvx Rmult}.
Proof. move=> r; rewrite -topredE /unitR /Rinvx /= => /eqP H; case: eqP=> // _; exact: Rinv_l. Qed.
Lemma RmultxV : {in unitR, right_inverse (1 : R)%R Rinvx Rmult}.
Proof. move=> r; rewrite -topredE /unitR /Rinvx /= => /eqP H; case: eqP=> // _; exact: Rinv_r. Qed.
Lemma intro_unitR x y : y * x = 1%R /\ x * y = 1%R -> unitR x.
Proof. move=> [H _]; apply/eqP=> E; move: H; rewrite E Rmult_0_r=> H; exact: R1_neq_R0. Qed.
Lemma Rinvx_out : {in predC unitR, Rinvx =1 id}.
Proof. move=> x; rewrite inE /= /unitR negbK /Rinvx => /eqP ->; by rewrite eqxx. Qed.
Definition R_unitRingMixin := UnitRingMixin RmultVx RmultxV intro_unitR Rinvx_out.
Canonical R_unitRing := Eval hnf in UnitRingType R R_unitRingMixin.
Canonical R_comUnitRingType := Eval hnf in [comUnitRingType of R].
Lemma R_idomainMixin x y : x * y = 0 -> (x == 0) || (y == 0).
Proof. move=> H; case: (Rmult_integral x y H)=> ->; by rewrite eqxx ?orbT. Qed.
Canonical R_idomainType := Eval hnf in IdomainType R R_idomainMixin.
Lemma R_field_mixin : GRing.Field.mixin_of [unitRingType of R]. Proof. done. Qed.
Definition R_fieldIdomainMixin := FieldIdomainMixin R_field_mixin.
Canonical R_fieldType := Eval hnf in FieldType R R_field_mixin.

Definition Rleb (a b : R) : bool := if Rle_dec a b then true else false.
Definition Rltb (a b : R) : bool := if Rlt_dec a b then true else false.
Lemma RlebP a b : reflect (a <= b) (Rleb a b). Proof. rewrite /Rleb; case: Rle_dec=> H; by constructor. Qed.
Lemma RltbP a b : reflect (a < b) (Rltb a b). Proof. rewrite /Rltb; case: Rlt_dec=> H; by constructor. Qed.
Lemma Rleb_norm_add x y : Rleb (Rabs (x + y)) (Rabs x + Rabs y). Proof. apply/RlebP; exact: Rabs_triang. Qed.
Lemma addr_Rgtb0 x y : Rltb 0 x -> Rltb 0 y -> Rltb 0 (x + y). Proof. move=> /RltbP A /RltbP B; apply/RltbP; lra. Qed.
Lemma Rnorm0_eq0 x : Rabs x = 0 -> x = 0. Proof. move=> H; case: (Req_dec x 0)=> // N; by case: (Rabs_no_R0 x N). Qed.
Lemma Rleb_leVge x y : Rleb 0 x -> Rleb 0 y -> (Rleb x y) || (Rleb y x).
Proof. move=> _ _; case: (Rle_dec x y)=> H; [apply/orP; left|apply/orP; right]; apply/RlebP; lra. Qed.
Lemma RnormM : {morph Rabs : x y / x * y}. Proof. exact: Rabs_mult. Qed.
Lemma Rleb_def x y : (Rleb x y) = (Rabs (y - x) == y - x).
Proof.
  apply/RlebP/eqP=> H; [apply: Rabs_pos_eq; lra|]. have := Rabs_pos (y - x). rewrite H; lra.
Qed.
Lemma Rltb_def x y : (Rltb x y) = (y != x) && (Rleb x y).
Proof.
  apply/RltbP/andP=> [H|[/eqP N /RlebP L]]; last by case: L=> // E; case: N.
  split; [apply/eqP; lra|apply/RlebP; lra].
Qed.
Definition R_numMixin := NumMixin Rleb_norm_add addr_Rgtb0 Rnorm0_eq0 Rleb_leVge RnormM Rleb_def Rltb_def.
Canonical R_porderType := Eval hnf in POrderType ring_display R R_numMixin.
Canonical R_numDomainType := Eval hnf in NumDomainType R R_numMixin.
Canonical R_normedZmodType := Eval hnf in NormedZmodType R R R_numMixin.
Canonical R_numFieldType := Eval hnf in [numFieldType of R].
Lemma R_total : totalPOrderMixin R_porderType.
Proof. move=> x y; case: (Rle_dec x y)=> H; apply/orP; [left|right]; apply/RlebP; lra. Qed.
Canonical R_latticeType := Eval hnf in LatticeType R R_total.
Canonical R_distrLatticeType := Eval hnf in DistrLatticeType R R_total.
Canonical R_orderType := Eval hnf in OrderType R R_total.
Canonical R_realDomainType := Eval hnf in [realDomainType of R].
Canonical R_realFieldType := Eval hnf in [realFieldType of R].
