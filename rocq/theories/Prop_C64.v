(** C64: what a tracker counts and how the adaptive precision tracker raises and lowers the precision.  The
    specification is at the top of Count.v: [verdicts] lists the steps taken, newest first, true for those that moved the
    time; [streak] counts how many of the newest are alike; [higher] is the next precision after a number of failures. *)
From Coq Require Import List ZArith Lia Reals Lra Bool Arith.
From Coquelicot Require Import Complex.
From Verif Require Import Newton Track AmpCost Amp TrackEx Count CountEx.
Import ListNotations.
Local Open Scope R_scope.

(** Fixed precision: at every moment the counters are the numbers of steps that moved the time and of those that did not,
    and the lengths of the present row of either. *)
Theorem C64_counters_fixed : forall (P : Type) cfg endt eps truncation going
    (predict : nat -> P -> C -> C -> code * P) correct,
  0 < min_step_size cfg -> forall fuel re h p start x0 before s after,
  fst (fixed_track cfg endt eps truncation going predict correct fuel re h p start x0) = before ++ s :: after ->
  nsucc s = count_occ bool_dec (verdicts (s :: rev before)) true /\
  nfail s = count_occ bool_dec (verdicts (s :: rev before)) false /\
  csucc s = streak true (verdicts (s :: rev before)) /\
  cfail s = streak false (verdicts (s :: rev before)).
Proof. intros P cfg endt eps truncation going predict correct. exact (fixed_counted cfg endt eps truncation going predict correct). Qed.
Print Assumptions C64_counters_fixed.

(** A run with one failure and two successes. *)
Example C64_counters_fixed_case : 0 < min_step_size demo /\
  fst (fixed_track demo 0 tiny_eps true never keep fail_once 4 true 0 16 1 0%nat) =
  [demo_at 1 0 1 0 0 0 0 0; demo_at 1 0 (1/2) (-1) 0 1 0 1; demo_at (1 - 1/2) 1 (1/2) (-(1/2)) 1 1 1 0]
  ++ demo_at (1 - 1/2 - 1/2) 2 (1/2) (-(1/2)) 2 1 2 0 :: [].
Proof. split; [cbn; lra|]. rewrite demo_run. reflexivity. Qed.

(** The same for adaptive precision. *)
Theorem C64_counters_amp : forall (P : Type) cfg amp endt eps truncation going
    (predict : nat -> P -> C -> C -> code * P) correct digits_B digits_C digits_interval convert refine,
  0 < min_step_size cfg -> forall fuel re h p0 start x0 before s after, (DoublePrecision <= p0)%Z ->
  fst (amp_track cfg amp endt eps truncation going predict correct digits_B digits_C digits_interval convert refine
         fuel re h p0 start x0) = before ++ s :: after ->
  nsucc s = count_occ bool_dec (verdicts (s :: rev before)) true /\
  nfail s = count_occ bool_dec (verdicts (s :: rev before)) false /\
  csucc s = streak true (verdicts (s :: rev before)) /\
  cfail s = streak false (verdicts (s :: rev before)).
Proof.
  intros P cfg amp endt eps truncation going predict correct digits_B digits_C digits_interval convert refine.
  exact (amp_counted cfg amp endt eps truncation going predict correct digits_B digits_C digits_interval convert refine).
Qed.
Print Assumptions C64_counters_amp.

(** Adaptive precision: when the first linear system of a prediction cannot be solved, the step size is kept and the
    precision becomes 20 digits (from double precision) or rises by one increment and one more for every failure just
    before. *)
Theorem C64_unsolvable_raises : forall (P : Type) cfg amp endt eps truncation going
    (predict : nat -> P -> C -> C -> code * P) correct digits_B digits_C digits_interval convert refine,
  0 < min_step_size cfg -> forall fuel re h p0 start x0 before a b after y, (DoublePrecision <= p0)%Z ->
  fst (amp_track cfg amp endt eps truncation going predict correct digits_B digits_C digits_interval convert refine
         fuel re h p0 start x0) = before ++ a :: b :: after ->
  predict (length before) (space a) (time a) (next_delta (time a) endt (step a)) = (MatrixSolveFailureFirstPartOfPrediction, y) ->
  prec b = higher (prec a) (streak false (verdicts (a :: rev before))) /\ step b = step a.
Proof.
  intros P cfg amp endt eps truncation going predict correct digits_B digits_C digits_interval convert refine.
  exact (track_first_solve cfg amp endt eps truncation going predict correct digits_B digits_C digits_interval convert refine).
Qed.
Print Assumptions C64_unsolvable_raises.

Example C64_unsolvable_case : exists a b c,
  fst (amp_track quarter easy_amp 0 tiny_eps true never no_tangent succeed no_digits no_digits no_interval same refined
         2 true 0 30 1 0%nat) = [a] ++ b :: c :: []
  /\ time a = 1 /\ time b = 1 /\ prec a = 30%Z /\ prec b = 40%Z /\ prec c = 60%Z.
Proof. exact no_tangent_run. Qed.

(** When a precision criterion fails, in the predictor or the corrector, the precision rises by at least as much, or above
    the maximum (and tracking then stops). *)
Theorem C64_criterion_raises : forall (P : Type) cfg amp endt eps truncation going
    (predict : nat -> P -> C -> C -> code * P) correct digits_B digits_C digits_interval convert refine,
  (LowestMultiplePrecision <= maximum_precision amp <= MaxPrecisionAllowed)%Z -> newton_codes_only correct ->
  0 < min_step_size cfg -> forall fuel re h p0 start x0 before a b after y, legal_precision p0 ->
  fst (amp_track cfg amp endt eps truncation going predict correct digits_B digits_C digits_interval convert refine
         fuel re h p0 start x0) = before ++ a :: b :: after ->
  (predict (length before) (space a) (time a) (next_delta (time a) endt (step a)) = (HigherPrecisionNecessary, y) \/
   exists z, predict (length before) (space a) (time a) (next_delta (time a) endt (step a)) = (Success, z) /\
             correct (length before) z (time a + next_delta (time a) endt (step a))%C = (HigherPrecisionNecessary, y)) ->
  (higher (prec a) (streak false (verdicts (a :: rev before))) <= prec b)%Z \/ (maximum_precision amp < prec b)%Z.
Proof.
  intros P cfg amp endt eps truncation going predict correct digits_B digits_C digits_interval convert refine.
  exact (track_criterion cfg amp endt eps truncation going predict correct digits_B digits_C digits_interval convert refine).
Qed.
Print Assumptions C64_criterion_raises.

Example C64_criterion_case : exists s s', 
  fst (amp_track small_max demo_amp 0 tiny_eps true never keep needs_precision no_digits no_digits
         no_interval same refined 1 true 0 16 1 0%nat) = [] ++ s :: s' :: [] /\ legal_precision 16 /\
  newton_codes_only needs_precision /\ 0 < min_step_size small_max.
Proof.
  destruct small_max_exceeded as [s [s' [E _]]]. exists s, s'. split; [exact E|]. split; [left; reflexivity|].
  split; [intros n y t; right; right; right; left; reflexivity|]. apply ten_pow_pos.
Qed.

(** Precision is lowered only by a step that moves the time, only after the set number of such steps in a row none of
    which lowered it, and at most as often as allowed. *)
Theorem C64_lowering : forall (P : Type) cfg amp endt eps truncation going
    (predict : nat -> P -> C -> C -> code * P) correct digits_B digits_C digits_interval convert refine,
  (LowestMultiplePrecision <= maximum_precision amp <= MaxPrecisionAllowed)%Z -> newton_codes_only correct ->
  0 < min_step_size cfg -> forall fuel re h p0 start x0 before a b after, legal_precision p0 ->
  fst (amp_track cfg amp endt eps truncation going predict correct digits_B digits_C digits_interval convert refine
         fuel re h p0 start x0) = before ++ a :: b :: after ->
  (drops (b :: a :: rev before) <= max_num_decreases amp)%nat /\
  ((prec b < prec a)%Z -> moved a b = true /\ steady (consecutive_before_decrease amp) (a :: rev before)).
Proof.
  intros P cfg amp endt eps truncation going predict correct digits_B digits_C digits_interval convert refine.
  exact (track_drops cfg amp endt eps truncation going predict correct digits_B digits_C digits_interval convert refine).
Qed.
Print Assumptions C64_lowering.

Example C64_lowering_case : exists a b c,
  fst (amp_track quarter easy_amp 0 tiny_eps true never keep succeed no_digits no_digits no_interval same refined
         2 true 0 30 1 0%nat) = [a] ++ b :: c :: []
  /\ time a = 1 /\ prec a = 30%Z /\ time b = RtoC (1 - 1/4) /\ prec b = 30%Z /\ time c = RtoC (1 - 1/4 - 1/4) /\ prec c = 16%Z.
Proof. exact quarter_run. Qed.

(** The start point is refined at its own precision and then at higher and higher ones ([rung]), always starting from the
    given point ([carried_point]: the given point converted to those precisions; what a failed refinement computed is not
    used).  Tracking begins with the point of the first refinement that succeeds, at that precision, with all counters
    zero; if none succeeds until the maximum precision is passed, the answer is SingularStartPoint. *)
Theorem C64_start_point : forall (P : Type) cfg amp endt eps truncation going
    (predict : nat -> P -> C -> C -> code * P) correct digits_B digits_C digits_interval convert refine
    fuel re h p0 start x0, (DoublePrecision <= p0)%Z ->
  exists m,
  (forall i, (i < m)%nat -> (rung p0 i <= maximum_precision amp)%Z /\
     fst (refine i (carried_point convert p0 x0 i) start) <> Success) /\
  ((exists s l o, refine m (carried_point convert p0 x0 m) start = (Success, space s) /\
      amp_track cfg amp endt eps truncation going predict correct digits_B digits_C digits_interval convert refine
         fuel re h p0 start x0 = (s :: l, o) /\
      time s = start /\ prec s = rung p0 m /\ step s = first_step cfg re h start endt /\
      counters s = (0, 0, 0, 0)%nat /\ ndecr s = 0%nat /\ since_decr s = 0%nat) \/
   (exists s, fst (refine m (carried_point convert p0 x0 m) start) <> Success /\ (maximum_precision amp < rung p0 m)%Z /\
      amp_track cfg amp endt eps truncation going predict correct digits_B digits_C digits_interval convert refine
         fuel re h p0 start x0 = ([], Finished SingularStartPoint s))).
Proof.
  intros P cfg amp endt eps truncation going predict correct digits_B digits_C digits_interval convert refine.
  exact (track_start cfg amp endt eps truncation going predict correct digits_B digits_C digits_interval convert refine).
Qed.
Print Assumptions C64_start_point.

(** The third refinement, with 30 digits, is the first to succeed. *)
Example C64_start_point_case : exists s,
  fst (amp_track quarter easy_amp 0 tiny_eps true never keep succeed no_digits no_digits no_interval same fussy
         0 true 0 16 1 0%nat) = [s] /\ space s = 1%nat /\ prec s = 30%Z.
Proof. exact fussy_run. Qed.
