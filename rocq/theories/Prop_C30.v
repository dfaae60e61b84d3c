(** C30: Newton correction success is what it claims. *)
From Coq Require Import List ZArith Reals.
From Verif Require Import Newton.
Import ListNotations.
Local Open Scope Z_scope.

(** Success is answered only after at least min and at most max iterations; the point handed back is
    reached from the base point by as many Newton steps, each the solution of the linear system at the
    point before it, and the last of them is shorter than the tolerance. *)
Theorem C30_success_means_converged :
  forall (P : Type) (add : P -> P -> P) (norm : P -> R) solve criteria tol min max,
  0 <= min < 2 ^ 32 -> 0 <= max < 2 ^ 32 -> forall x y k,
  newton add norm solve criteria tol min max x = (Success, y, k) ->
  min <= Z.of_nat k <= max /\
  exists ds d, newton_sequence add solve 0 x (ds ++ [d]) y /\ length (ds ++ [d]) = k /\ (norm d < tol)%R.
Proof. exact @newton_success. Qed.
Print Assumptions C30_success_means_converged.

(** Whatever the outcome, no more than max iterations are made. *)
Theorem C30_at_most_max :
  forall (P : Type) (add : P -> P -> P) (norm : P -> R) solve criteria tol min max x c y k,
  newton add norm solve criteria tol min max x = (c, y, k) ->
  (k <= Z.to_nat max)%nat /\ exists ds, newton_sequence add solve 0 x ds y /\ length ds = k.
Proof. exact @newton_any. Qed.
Print Assumptions C30_at_most_max.

(** Conversely (min at least 1) the first short enough step at which stopping is allowed gives
    Success, provided all solves so far succeeded and the precision criteria held. *)
Theorem C30_convergence_is_reported :
  forall (P : Type) (add : P -> P -> P) (norm : P -> R) solve criteria tol min max,
  1 <= min < 2 ^ 32 -> forall ds x z d,
  unfinished add norm solve criteria tol min 0 x ds z ->
  solve (length ds) z = Some d -> (norm d < tol)%R ->
  min <= Z.of_nat (length ds) + 1 <= max ->
  newton add norm solve criteria tol min max x = (Success, add z d, S (length ds)).
Proof. exact @newton_complete. Qed.
Print Assumptions C30_convergence_is_reported.

(** The bound 1 is needed: with min = 0 no call ever succeeds, however well it converges. *)
Theorem C30_minimum_zero_never_succeeds :
  forall (P : Type) (add : P -> P -> P) (norm : P -> R) solve criteria tol min max,
  min = 0 -> 0 <= max < 2 ^ 32 -> forall x y k,
  newton add norm solve criteria tol min max x <> (Success, y, k).
Proof. exact @newton_min_zero. Qed.
Print Assumptions C30_minimum_zero_never_succeeds.

(** Only four codes can come back; in particular never GoingToInfinity, which both trackers test. *)
Theorem C30_possible_codes :
  forall (P : Type) (add : P -> P -> P) (norm : P -> R) solve criteria tol min max x,
  In (fst (fst (newton add norm solve criteria tol min max x)))
     [Success; FailedToConverge; MatrixSolveFailure; HigherPrecisionNecessary].
Proof. exact @newton_codes. Qed.
Print Assumptions C30_possible_codes.

(** x^2 = 2 from 3/2: the first step is 1/12, the second 1/408. *)
Example C30_sqrt2 :
  newton Rplus Rabs sqrt2_step (fun _ _ => true) (1 / 10) 1 2 (3 / 2)%R = (Success, (17 / 12)%R, 1%nat)
  /\ newton Rplus Rabs sqrt2_step (fun _ _ => true) (1 / 100) 1 2 (3 / 2)%R = (Success, (577 / 408)%R, 2%nat).
Proof. exact (conj sqrt2_one sqrt2_two). Qed.
