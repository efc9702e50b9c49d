(** Properties of the singularity measures of a Jacobian. *)
From Coq Require Import Reals Lra.
From mathcomp Require Import all_ssreflect all_algebra.
From mathcomp Require Import ring.
From Verif Require Import Base.Outcome Base.Mx Base.RField Rbd.JacSingModel.
Set Implicit Arguments. Unset Strict Implicit. Unset Printing Implicit Defensive.
Import GRing.Theory Num.Theory Order.TTheory.
Local Open Scope ring_scope.

(** * Specification *)
Section Spec.
Variables (F : realFieldType) (r c d : nat).
(** A thin singular value decomposition *)
Definition isSvd (J : 'M[F]_(r, c)) (e : svd F r c d) : Prop :=
  (sU e)^T *m sU e = 1%:M /\ (sV e)^T *m sV e = 1%:M /\ J = sU e *m diag_mx (sS e)^T *m (sV e)^T /\ forall i, 0 <= sS e i 0.
(** The nonnegative square root *)
Definition isSqrt (sqrt : F -> F) : Prop := forall a, 0 <= a -> 0 <= sqrt a /\ sqrt a * sqrt a = a.
Definition norm2 n (v : 'cV[F]_n) : F := dot v v.
End Spec.

(** * Joint velocities *)
Section Vel.
Variables (F : realFieldType) (r c d : nat) (J : 'M[F]_(r, c)) (e : svd F r c d).
Hypothesis S : isSvd J e.
Let U := sU e. Let V := sV e. Let D := diag_mx (sS e)^T. Let P := diag_mx (reciprocal (sS e)).
Lemma diag_PD : D *m D *m P = D.
Proof.
  rewrite /D /P !mulmx_diag. congr diag_mx. apply/rowP=> i. rewrite !mxE. case: eqP=> [->|/eqP N]; first by rewrite !mul0r. by rewrite mulfK.
Qed.
Lemma diag_DPP : D *m P *m P = P.
Proof.
  rewrite /D /P !mulmx_diag. congr diag_mx. apply/rowP=> i. rewrite !mxE. case: eqP=> [->|/eqP N]; first by rewrite !mul0r. by rewrite mulfV // mul1r.
Qed.
Lemma JT : J^T = V *m D *m U^T.
Proof. case: S=> _ [_ [E _]]. rewrite {1}E !trmx_mul trmxK tr_diag_mx -/U -/V -/D. by rewrite mulmxA. Qed.
Lemma normal_eq (v : 'cV[F]_r) : J^T *m (J *m (V *m (P *m (U^T *m v)))) = J^T *m v.
Proof.
  case: S=> SU [SV [E _]]. rewrite JT {1}E -/U -/V -/D. rewrite -!mulmxA (mulmxA V^T V) SV mul1mx (mulmxA U^T U) SU mul1mx.
  by rewrite !mulmxA -(mulmxA V D D) -(mulmxA V (D *m D) P) diag_PD -!mulmxA.
Qed.
Lemma in_range (v : 'cV[F]_r) : V *m (P *m (U^T *m v)) = J^T *m (U *m (P *m (P *m (U^T *m v)))).
Proof.
  case: S=> SU [SV [E _]]. rewrite JT -!mulmxA (mulmxA U^T U) SU mul1mx. congr (V *m _).
  by rewrite !mulmxA diag_DPP.
Qed.
End Vel.

Section Props.
Variables (F : realFieldType) (r c d : nat) (jacobiSvd : 'M[F]_(r, c) -> svd F r c d).
Notation vel := (calc_joint_vel jacobiSvd).
Lemma pythagoras n (a b : 'cV[F]_n) : dot a b = 0 -> norm2 (a + b) = norm2 a + norm2 b.
Proof. move=> H. rewrite /norm2 dotDl !dotDr (dotC b a) H. ring. Qed.
Lemma residual J v q : isSvd J (jacobiSvd J) -> norm2 (J *m q - v) = norm2 (J *m (q - vel J v)) + norm2 (J *m vel J v - v).
Proof.
  move=> S. rewrite -pythagoras; last first.
  { rewrite dot_mull mulmxBr. have -> : J^T *m (J *m vel J v) = J^T *m v by exact: (normal_eq S v). by rewrite subrr dot0r. }
  congr norm2. rewrite mulmxBr. by rewrite addrA subrK.
Qed.
(** The joint velocity comes as close to the wanted end effector velocity as any does, and it is the only shortest one of those that
    come as close.  This holds for every Jacobian, also a singular one. *)
Theorem C106_joint_vel J v q : isSvd J (jacobiSvd J) ->
  norm2 (J *m vel J v - v) <= norm2 (J *m q - v) /\
  (norm2 (J *m q - v) = norm2 (J *m vel J v - v) -> norm2 (vel J v) <= norm2 q /\ (norm2 q = norm2 (vel J v) -> q = vel J v)).
Proof.
  move=> S. rewrite (residual v q S). split; first by rewrite ler_addr dot_ge0.
  move=> E. have Z : J *m (q - vel J v) = 0. { apply: dot_eq0. apply: (@addIr _ (norm2 (J *m vel J v - v))). by rewrite add0r. }
  have O : dot (vel J v) (q - vel J v) = 0.
  { have -> : vel J v = J^T *m (sU (jacobiSvd J) *m (diag_mx (reciprocal (sS (jacobiSvd J))) *m (diag_mx (reciprocal (sS (jacobiSvd J))) *m ((sU (jacobiSvd J))^T *m v)))) by exact: (in_range S v).
    rewrite dot_mull trmxK. rewrite -(in_range S v) -/(vel J v). by rewrite Z dot0r. }
  have N : norm2 q = norm2 (vel J v) + norm2 (q - vel J v). { rewrite -pythagoras //. by rewrite addrC subrK. }
  rewrite N. split; first by rewrite ler_addl dot_ge0.
  move=> E2. apply/eqP. rewrite -subr_eq0. apply/eqP. apply: dot_eq0. apply: (@addrI _ (norm2 (vel J v))). by rewrite addr0.
Qed.
Print Assumptions C106_joint_vel.
(** Where the Jacobian has full row rank the wanted velocity is reached, and the result is the pseudo inverse J' (J J')^-1 applied to
    it. *)
Theorem C106_pseudo J v : isSvd J (jacobiSvd J) -> J *m J^T \in unitmx ->
  J *m vel J v = v /\ vel J v = J^T *m invmx (J *m J^T) *m v.
Proof.
  move=> S I. set q := J^T *m invmx (J *m J^T) *m v.
  have Jq : J *m q = v by rewrite /q !mulmxA mulmxV // mul1mx.
  have L : norm2 (J *m vel J v - v) = 0.
  { apply/eqP. rewrite eq_le dot_ge0 andbT. case: (C106_joint_vel v q S)=> H _. move: H. by rewrite Jq subrr /norm2 dot0r. }
  have Jv : J *m vel J v = v. { apply/eqP. rewrite -subr_eq0. apply/eqP. exact: (dot_eq0 L). }
  split=> //. rewrite /vel. rewrite (in_range S v). set w := sU _ *m _. have Ew : J *m J^T *m w = v. { rewrite -mulmxA -(in_range S v). exact: Jv. }
  have -> : w = invmx (J *m J^T) *m v by rewrite -Ew mulmxA mulVmx // mul1mx. by rewrite mulmxA.
Qed.
Print Assumptions C106_pseudo.
End Props.

(** * Manipulability *)
Section Wide.
Variables (F : realFieldType) (r c : nat) (sqrt : F -> F) (jacobiSvd : 'M[F]_(r, c) -> svd F r c r).
Lemma wide_values J : calc_singular_values jacobiSvd J = Ok (sS (jacobiSvd J)).
Proof. rewrite /calc_singular_values. case: eqP=> // e. congr Ok. by rewrite castmx_id. Qed.
Lemma gram J : isSvd J (jacobiSvd J) -> J *m J^T = sU (jacobiSvd J) *m (diag_mx (sS (jacobiSvd J))^T *m diag_mx (sS (jacobiSvd J))^T) *m (sU (jacobiSvd J))^T.
Proof.
  move=> S. rewrite (JT S). case: S=> SU [SV [E _]]. rewrite {1}E -!mulmxA (mulmxA (sV _)^T) SV mul1mx. reflexivity.
Qed.
Lemma sqrt_square (x y : F) : isSqrt sqrt -> 0 <= x -> y = x * x -> sqrt y = x.
Proof.
  move=> Sq X ->. have [A B] := Sq (x * x) (mulr_ge0 X X). apply/eqP. rewrite -(@eqr_expn2 _ 2) //. by rewrite !expr2 B.
Qed.
Lemma det_gram J : isSvd J (jacobiSvd J) -> \det (J *m J^T) = (\prod_i sS (jacobiSvd J) i 0) * (\prod_i sS (jacobiSvd J) i 0).
Proof.
  move=> S. rewrite (gram S) !det_mulmx det_tr !det_diag. have SU := proj1 S.
  have D1 : \det (sU (jacobiSvd J)) * \det (sU (jacobiSvd J)) = 1 by rewrite -{1}det_tr -det_mulmx SU det1.
  have -> : \prod_i (sS (jacobiSvd J))^T 0 i = \prod_i sS (jacobiSvd J) i 0 by apply: eq_bigr=> i _; rewrite mxE.
  set p := \prod_i _. set u := \det _ in D1 *. by rewrite mulrC mulrA D1 mul1r.
Qed.
End Wide.

(** For a Jacobian with at least as many columns as rows both ways of computing the manipulability give the same number, whose
    square is the determinant of J J'; it is zero exactly for the singular Jacobians. *)
Theorem C106_manipulability (F : realFieldType) r c d (sqrt : F -> F) (jacobiSvd : 'M[F]_(r, c) -> svd F r c d) J :
  d = minn r c -> (r <= c)%N -> isSqrt sqrt -> isSvd J (jacobiSvd J) ->
  exists w, calc_manipulability sqrt jacobiSvd DIRECT J = Ok w /\ calc_manipulability sqrt jacobiSvd SINGULAR_VALUES J = Ok w /\
  0 <= w /\ w * w = \det (J *m J^T) /\ (w = 0 <-> ~~ (J *m J^T \in unitmx)).
Proof.
  move=> Hd /minn_idPl Hr. rewrite Hr in Hd. case: _ / (esym Hd) jacobiSvd=> jacobiSvd Sq S. exists (\prod_i sS (jacobiSvd J) i 0).
  have P : 0 <= \prod_i sS (jacobiSvd J) i 0. { apply: prodr_ge0=> i _. by case: S=> _ [_ [_ H]]. }
  rewrite /calc_manipulability wide_values /=. split; first by rewrite (sqrt_square Sq P (det_gram S)). split=> //. split=> //.
  split; first by rewrite (det_gram S). rewrite unitmxE unitfE (det_gram S) mulf_eq0 orbb negbK. split; by move=> /eqP.
Qed.
Print Assumptions C106_manipulability.

(** * Condition number *)
Section Extremes.
Variable F : realFieldType.
Lemma foldl_max (l : seq F) : forall x, (forall y, y \in x :: l -> y <= foldl Num.max x l) /\ foldl Num.max x l \in x :: l.
Proof.
  elim: l=> [|a l IH] x; first by split=> [y|]; rewrite inE // => /eqP ->. rewrite [foldl _ _ _]/=. have [H1 H2] := IH (Num.max x a). split.
  - move=> y. rewrite !inE=> /or3P [/eqP ->|/eqP ->|Hy].
    + apply: le_trans (H1 _ (mem_head _ _)). by rewrite le_maxr lexx.
    + apply: le_trans (H1 _ (mem_head _ _)). by rewrite le_maxr lexx orbT.
    + apply: H1. by rewrite inE Hy orbT.
  - move: H2. rewrite !inE=> /orP [/eqP ->|->]; last by rewrite !orbT. case: (leP x a)=> _; by rewrite eqxx ?orbT.
Qed.
Lemma foldl_min (l : seq F) : forall x, (forall y, y \in x :: l -> foldl Num.min x l <= y) /\ foldl Num.min x l \in x :: l.
Proof.
  elim: l=> [|a l IH] x; first by split=> [y|]; rewrite inE // => /eqP ->. rewrite [foldl _ _ _]/=. have [H1 H2] := IH (Num.min x a). split.
  - move=> y. rewrite !inE=> /or3P [/eqP ->|/eqP ->|Hy].
    + apply: le_trans (H1 _ (mem_head _ _)) _. by rewrite le_minl lexx.
    + apply: le_trans (H1 _ (mem_head _ _)) _. by rewrite le_minl lexx orbT.
    + apply: H1. by rewrite inE Hy orbT.
  - move: H2. rewrite !inE=> /orP [/eqP ->|->]; last by rewrite !orbT. case: (leP x a)=> _; by rewrite eqxx ?orbT.
Qed.
Lemma maxCoeff_spec n (v : 'cV[F]_n.+1) : exists k, maxCoeff v = Ok (v k 0) /\ forall i, v i 0 <= v k 0.
Proof.
  rewrite /maxCoeff. case E : (entries v)=> [|x l]; first by move: (f_equal size E); rewrite size_map size_enum_ord.
  have [H1 H2] := foldl_max l x. move: H2. rewrite -E=> /mapP [k _ Hk]. exists k. rewrite Hk. split=> // i. rewrite -Hk. apply: H1. rewrite -E. apply: map_f. by rewrite mem_enum.
Qed.
Lemma minCoeff_spec n (v : 'cV[F]_n.+1) : exists k, minCoeff v = Ok (v k 0) /\ forall i, v k 0 <= v i 0.
Proof.
  rewrite /minCoeff. case E : (entries v)=> [|x l]; first by move: (f_equal size E); rewrite size_map size_enum_ord.
  have [H1 H2] := foldl_min l x. move: H2. rewrite -E=> /mapP [k _ Hk]. exists k. rewrite Hk. split=> // i. rewrite -Hk. apply: H1. rewrite -E. apply: map_f. by rewrite mem_enum.
Qed.
End Extremes.
Section Gain.
Variables (F : realFieldType) (r c : nat) (J : 'M[F]_(r, c)) (e : svd F r c r).
Hypothesis S : isSvd J e.
Lemma square_orthogonal : sU e *m (sU e)^T = 1%:M.
Proof. exact: (mulmx1C (proj1 S)). Qed.
Lemma gain (w : 'cV[F]_r) : norm2 (J^T *m w) = \sum_i (sS e i 0 * ((sU e)^T *m w) i 0) ^+ 2 /\ norm2 w = \sum_i (((sU e)^T *m w) i 0) ^+ 2.
Proof.
  case: (S)=> SU [SV [E _]]. split.
  - rewrite /norm2 (JT S) -!mulmxA dot_mulr mulmxA SV mul1mx dotE. apply: eq_bigr=> i _. set y := (sU e)^T *m w.
    have -> : (diag_mx (sS e)^T *m y) i 0 = sS e i 0 * y i 0 by rewrite mul_diag_mx !mxE. by rewrite expr2.
  - rewrite /norm2 -{2}(mul1mx w) -square_orthogonal -mulmxA dot_mulr dotE. apply: eq_bigr=> i _. by rewrite expr2.
Qed.
Lemma gain_column i : norm2 (J^T *m col i (sU e)) = (sS e i 0) ^+ 2 /\ norm2 (col i (sU e)) = 1.
Proof.
  have [-> ->] := gain (col i (sU e)). have C j : ((sU e)^T *m col i (sU e)) j 0 = (j == i)%:R.
  { by rewrite colE mulmxA (proj1 S) mul1mx !mxE andbT. }
  split; rewrite (bigD1 i) //= C eqxx ?mulr1 ?expr1n big1 ?addr0 // => j /negbTE N; by rewrite C N ?mulr0 expr0n.
Qed.
End Gain.
(** The condition number is the ratio of the largest to the smallest factor by which the transposed Jacobian stretches a vector, and
    both factors are reached; it is at least one.  The Jacobian has at least as many columns as rows and is not singular. *)
Theorem C106_condition (F : realFieldType) r c d (jacobiSvd : 'M[F]_(r.+1, c) -> svd F r.+1 c d) J :
  d = minn r.+1 c -> (r.+1 <= c)%N -> isSvd J (jacobiSvd J) -> J *m J^T \in unitmx ->
  exists a b, calc_condition_number jacobiSvd J = Ok (a / b) /\ 0 < b /\ 1 <= a / b /\
  (forall w, b ^+ 2 * norm2 w <= norm2 (J^T *m w) <= a ^+ 2 * norm2 w) /\
  (exists w, norm2 w = 1 /\ norm2 (J^T *m w) = a ^+ 2) /\ (exists w, norm2 w = 1 /\ norm2 (J^T *m w) = b ^+ 2).
Proof.
  move=> Hd /minn_idPl Hr. rewrite Hr in Hd. case: _ / (esym Hd) jacobiSvd=> jacobiSvd S I.
  have [i [Ei Hi]] := maxCoeff_spec (sS (jacobiSvd J)). have [k [Ek Hk]] := minCoeff_spec (sS (jacobiSvd J)).
  have P j : 0 <= sS (jacobiSvd J) j 0 by case: S=> _ [_ [_ H]].
  have Pk : 0 < sS (jacobiSvd J) k 0.
  { rewrite lt_neqAle P andbT eq_sym. apply/eqP=> Z. move: I. rewrite unitmxE unitfE (det_gram S) (bigD1 k) //= Z !mul0r eqxx. by []. }
  exists (sS (jacobiSvd J) i 0), (sS (jacobiSvd J) k 0). rewrite /calc_condition_number wide_values /= Ei /= Ek /=. split=> //. split=> //.
  split; first by rewrite ler_pdivl_mulr // mul1r. split; [|split].
  - move=> w. have [-> ->] := gain S w. rewrite !mulr_sumr. apply/andP; split; apply: ler_sum=> j _; rewrite exprMn; apply: ler_wpmul2r; rewrite ?sqr_ge0 // ler_expn2r ?nnegrE //.
  - exists (col i (sU (jacobiSvd J))). by case: (gain_column S i).
  - exists (col k (sU (jacobiSvd J))). by case: (gain_column S k).
Qed.
Print Assumptions C106_condition.

(** * More rows than columns *)
(** The singular values are fewer than the entries of the vector they are assigned to: singular values, condition number and the
    manipulability computed from them are undefined. *)
Theorem C106_tall_refuted (F : realFieldType) r c d (sqrt : F -> F) (jacobiSvd : 'M[F]_(r, c) -> svd F r c d) J : d = minn r c -> (c < r)%N ->
  calc_singular_values jacobiSvd J = UB /\ calc_condition_number jacobiSvd J = UB /\ calc_manipulability sqrt jacobiSvd SINGULAR_VALUES J = UB.
Proof.
  move=> Hd L. have E : calc_singular_values jacobiSvd J = UB.
  { rewrite /calc_singular_values. case: eqP=> // e. exfalso. move: L. rewrite -e Hd leq_min ltnn andbF. by []. }
  by rewrite /calc_condition_number /calc_manipulability E.
Qed.
Print Assumptions C106_tall_refuted.

(** A Jacobian of two rows and three columns, with singular values 3 and 2, and the square root of the real numbers *)
Definition sampleSvd : svd R_realFieldType 2 3 2 := mkSvd 1%:M (\col_i (if i == 0 then 3%:R else 2%:R)) (pid_mx 2).
Definition sampleJ : 'M[R]_(2, 3) := sU sampleSvd *m diag_mx (sS sampleSvd)^T *m (sV sampleSvd)^T.
Example sample_svd : isSvd sampleJ sampleSvd /\ (2 = minn 2 3)%N /\ (2 <= 3)%N.
Proof.
  split=> //. split; first by rewrite trmx1 mul1mx. split; last first. { split=> // i. rewrite mxE. case: eqP=> _; exact: ler0n. }
  rewrite /sampleSvd /= tr_pid_mx pid_mx_id //. exact: pid_mx_1.
Qed.
Example real_sqrt : isSqrt (F := R_realFieldType) R_sqrt.sqrt.
Proof. move=> a /RlebP H. split; first by apply/RlebP; exact: sqrt_pos. exact: sqrt_sqrt. Qed.
Example sample_full : sampleJ *m sampleJ^T \in unitmx.
Proof.
  rewrite unitmxE unitfE (det_gram (jacobiSvd := fun _ => sampleSvd) (proj1 sample_svd)) mulf_eq0 orbb. apply/prodf_neq0=> i _.
  rewrite mxE. case: (i == 0); apply: (@lt0r_neq0 R_realFieldType); exact: (ltr0n R_realFieldType).
Qed.
