(** C29: Criterion B limits the step size.  False of the code: the exponent is computed in unsigned
    arithmetic. *)
From Coq Require Import List ZArith Reals Lra Lia.
From Verif Require Import Newton AmpCost AmpCostEx.
Local Open Scope Z_scope.

(** Where the precision suffices, the answer is the intended 10^((precision - digits_B)*newton/(order+1))
    rounded down to a power of ten, and equal to it when the division is exact. *)
Theorem C29_enough_precision_partial :
  forall precision digits_B newton order,
  0 <= digits_B <= precision -> precision < 2 ^ 32 -> 0 <= newton -> (precision - digits_B) * newton < 2 ^ 32 ->
  0 <= order < 2 ^ 32 - 1 ->
  let intended := Rpower 10 (- (IZR digits_B - IZR precision) * IZR newton / (IZR order + 1)) in
  (stepsize_criterion_B precision digits_B newton order <= intended < 10 * stepsize_criterion_B precision digits_B newton order)%R
  /\ (((precision - digits_B) * newton) mod (order + 1) = 0 ->
      stepsize_criterion_B precision digits_B newton order = intended).
Proof. exact stepsize_B_rounds. Qed.
Print Assumptions C29_enough_precision_partial.

(** Whatever the precision, the answer is at least 1: criterion B never limits steps below that. *)
Theorem C29_never_below_one :
  forall precision digits_B newton order, 0 <= order < 2 ^ 32 - 1 ->
  (1 <= stepsize_criterion_B precision digits_B newton order)%R.
Proof. exact stepsize_B_at_least_one. Qed.
Print Assumptions C29_never_below_one.

(** So the claim is false: double precision, 30 digits needed. *)
Theorem C29_criterion_B_refuted :
  let intended := Rpower 10 (- (30 - 16) * 2 / (1 + 1)) in
  stepsize_criterion_B 16 30 2 1 <> intended /\ (intended < 1 <= stepsize_criterion_B 16 30 2 1)%R.
Proof. exact stepsize_B_wrong. Qed.
Print Assumptions C29_criterion_B_refuted.

(** How large it gets: the exponent is the negative number taken modulo 2^32. *)
Theorem C29_too_little_precision :
  forall precision digits_B newton order,
  0 <= precision < digits_B -> digits_B < 2 ^ 32 -> 0 < newton -> (digits_B - precision) * newton < 2 ^ 32 ->
  0 <= order < 2 ^ 32 - 1 ->
  stepsize_criterion_B precision digits_B newton order
  = powerRZ 10 ((2 ^ 32 - (digits_B - precision) * newton) / (order + 1)).
Proof. exact stepsize_B_too_little_precision. Qed.
Print Assumptions C29_too_little_precision.

Example C29_exact_case : stepsize_criterion_B 30 20 2 4 = 10000%R /\ intended_stepsize_B 30 20 2 4 = 10000%R.
Proof. exact stepsize_B_example. Qed.
