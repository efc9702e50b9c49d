(** Property C12: uniform grids.  [Qn] is the embedding of the naturals. *)
From Coq Require Import List ZArith QArith SpecFloat Lqa Lia.
From Verif Require Import Base.Outcome Base.Scalar Core.GridModel Core.GridProofs.
Import ListNotations.
Open Scope Q_scope.

(** C12. linspace(a,b,N): N values, the k-th is a + k (b-a)/(N-1); first a, last b. *)
Theorem C12_linspace_equally_spaced :
  forall a b N, (1 <= N)%nat ->
    exists l, linspace Qops Qn a b N = Ok l /\ length l = N /\
      forall k, (k < N)%nat -> exists x, nth_error l k = Some x /\
        ((2 <= N)%nat -> x == a + Qn k * ((b - a) / Qn (N - 1))) /\ (k = 0%nat -> x == a) /\
        ((2 <= N)%nat -> k = (N - 1)%nat -> x == b).
Proof. exact linspace_spec. Qed.
Print Assumptions C12_linspace_equally_spaced.

(** C12. TimeArray(dt,N,t0) is t0 + k dt. *)
Theorem C12_timearray_uniform :
  forall dt N t0, (1 <= N)%nat ->
    exists l, TimeArray_uniform Qops Qn dt N t0 = Ok l /\ length l = N /\
      forall k, (k < N)%nat -> exists x, nth_error l k = Some x /\ x == t0 + Qn k * dt.
Proof. exact timearray_spec. Qed.
Print Assumptions C12_timearray_uniform.

(** C12. N < 1 is rejected. *)
Theorem C12_empty_grid_rejected :
  forall S (ops : scalar_ops S) of_nat a b dt t0,
    linspace ops of_nat a b 0 = Throw /\ TimeArray_uniform ops of_nat dt 0 t0 = Throw.
Proof. exact (fun S ops of_nat a b dt t0 => conj eq_refl eq_refl). Qed.
Print Assumptions C12_empty_grid_rejected.

Example C12_example :
  omap (map Qred) (linspace Qops Qn (-1) 2 5) = Ok [-1; -1#4; 1#2; 5#4; 2] /\
  omap (map Qred) (TimeArray_uniform Qops Qn (1#10) 3 1) = Ok [1; 11#10; 6#5].
Proof. split; vm_compute; reflexivity. Qed.

(** C12, floating point: accumulating the increment in binary64 misses the end point:
    linspace(0,1,11) ends below 1. *)
Theorem C12_linspace_end_exact_in_double_refuted :
  exists l x, linspace Fops Fn (SFnum 0 0) (SFnum 1 0) 11 = Ok l /\
    nth_error l 10 = Some x /\ SFltb x (SFnum 1 0) = true.
Proof.
  exists (linspace_loop Fops 11 (SFnum 0 0) (SFdiv prec64 emax64 (SFsub prec64 emax64 (SFnum 1 0) (SFnum 0 0)) (Fn 10))).
  exists (S754_finite false 9007199254740991 (-53)).
  split; [vm_compute; reflexivity|]. split; vm_compute; reflexivity.
Qed.
Print Assumptions C12_linspace_end_exact_in_double_refuted.
