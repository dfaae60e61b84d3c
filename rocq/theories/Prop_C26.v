(** C26: Step size adapts.  The claim holds for the adaptive precision tracker with the exceptions
    below; the fixed precision tracker never lets the step size grow. *)
From Coq Require Import List ZArith Reals Lra Lia.
From Coquelicot Require Import Complex.
From Verif Require Import Newton Track AmpCost Amp TrackEx CountEx AmpGrow AmpGrowEx.
Import ListNotations.
Local Open Scope R_scope.

(** Adaptive precision: if more than [consecutive_before_increase] steps in a row succeed, and the
    precision did not drop and the step did not grow before the last of them, then the last one
    multiplies the step size by the success factor, up to the maximum. *)
Theorem C26_grows_after_successes_amp_partial :
  forall (P : Type) cfg amp endt eps truncation going (predict : nat -> P -> C -> C -> code * P) correct
    digits_B digits_C digits_interval convert refine,
  (0 <= predictor_order amp < 2 ^ 32 - 1)%Z -> newton_codes_only correct ->
  0 < fail_factor cfg < 1 -> 0 < min_step_size cfg -> 0 < success_factor cfg -> 0 < max_step_size cfg <= 1 ->
  (DoublePrecision <= maximum_precision amp <= MaxPrecisionAllowed)%Z ->
  forall fuel re h p start x0, (DoublePrecision <= p)%Z ->
  max_step_usable cfg endt start -> first_step cfg re h start endt <= max_step_size cfg ->
  forall before w a b after,
  fst (amp_track cfg amp endt eps truncation going predict correct digits_B digits_C digits_interval convert refine
                 fuel re h p start x0) = before ++ (w ++ [a; b]) ++ after ->
  chain (fun s s' => nsucc s' = S (nsucc s)) (w ++ [a; b]) ->
  chain (fun s s' => step s' <= step s /\ (prec s <= prec s')%Z) (w ++ [a]) ->
  (consecutive_before_increase cfg <= length w)%nat ->
  step b = Rmin (step a * success_factor cfg) (max_step_size cfg).
Proof.
  intros P cfg amp endt eps truncation going predict correct digits_B digits_C digits_interval convert refine
    H1 H2 H3 H4 H5 H6 H7 fuel re h p start x0 H8 H9 H10 before w a b after E C1 C2 L.
  pose proof (amp_track_steps cfg amp endt eps truncation going predict correct digits_B digits_C digits_interval
                convert refine H1 H2 H3 H4 H5 H6 H7 fuel re h p start x0 H8 H9 H10) as [_ R].
  rewrite E in R. apply chain_middle in R.
  exact (rule_window cfg amp endt H1 H3 H6 H7 w a b R C1 C2 L).
Qed.
Print Assumptions C26_grows_after_successes_amp_partial.

(** And the step size grows at no other success: before a success that lets it grow there were
    [consecutive_before_increase] successes in a row with no growth of the step and no drop of the precision. *)
Theorem C26_growth_earned_amp_partial :
  forall (P : Type) cfg amp endt eps truncation going (predict : nat -> P -> C -> C -> code * P) correct
    digits_B digits_C digits_interval convert refine,
  newton_codes_only correct -> (0 <= predictor_order amp < 2 ^ 32 - 1)%Z ->
  0 < fail_factor cfg < 1 -> 0 < min_step_size cfg -> 0 < success_factor cfg -> 0 < max_step_size cfg <= 1 ->
  (DoublePrecision <= maximum_precision amp <= MaxPrecisionAllowed)%Z ->
  forall fuel re h p start x0, (DoublePrecision <= p)%Z ->
  max_step_usable cfg endt start -> first_step cfg re h start endt <= max_step_size cfg ->
  forall before a b after,
  fst (amp_track cfg amp endt eps truncation going predict correct digits_B digits_C digits_interval convert refine
                 fuel re h p start x0) = before ++ [a; b] ++ after ->
  nsucc b = S (nsucc a) -> step a < step b ->
  step b = Rmin (step a * success_factor cfg) (max_step_size cfg) /\
  exists earlier w, before = earlier ++ w /\ length w = consecutive_before_increase cfg /\
    chain (fun s s' => nsucc s' = S (nsucc s) /\ step s' <= step s /\ (prec s <= prec s')%Z) (w ++ [a]).
Proof.
  intros P cfg amp endt eps truncation going predict correct digits_B digits_C digits_interval convert refine.
  exact (growth_earned cfg amp endt eps truncation going predict correct digits_B digits_C digits_interval convert refine).
Qed.
Print Assumptions C26_growth_earned_amp_partial.

(** A track whose second success lets the step grow. *)
Example C26_growth_case :
  (exists a b c,
   fst (amp_track eager easy_amp 0 tiny_eps true never keep succeed no_digits no_digits no_interval same refined
         2 true 0 16 1 0%nat) = [a] ++ [b; c] ++ []
   /\ step a = 1/8 /\ step b = 1/8 /\ step c = 1/4 /\ nsucc b = 1%nat /\ nsucc c = 2%nat) /\
  (0 < fail_factor eager < 1 /\ 0 < min_step_size eager /\ 0 < success_factor eager
  /\ 0 < max_step_size eager <= 1 /\ max_step_usable eager 0 1 /\ first_step eager true 0 1 0 <= max_step_size eager
  /\ (0 <= predictor_order easy_amp < 2 ^ 32 - 1)%Z
  /\ (DoublePrecision <= maximum_precision easy_amp <= MaxPrecisionAllowed)%Z /\ newton_codes_only succeed).
Proof. exact (conj eager_run eager_settings). Qed.

(** Adaptive precision: after a failure the step size is multiplied by the failure factor, or kept
    while the precision rises, or (the precision being too low for the step) reduced only half way or
    to the smallest usable step while the precision rises, or the precision has passed the cap. *)
Theorem C26_shrinks_after_failure_amp_partial :
  forall (P : Type) cfg amp endt eps truncation going (predict : nat -> P -> C -> C -> code * P) correct
    digits_B digits_C digits_interval convert refine,
  (0 <= predictor_order amp < 2 ^ 32 - 1)%Z -> newton_codes_only correct ->
  0 < fail_factor cfg < 1 -> 0 < min_step_size cfg -> 0 < success_factor cfg -> 0 < max_step_size cfg <= 1 ->
  (DoublePrecision <= maximum_precision amp <= MaxPrecisionAllowed)%Z ->
  forall fuel re h p start x0, (DoublePrecision <= p)%Z ->
  max_step_usable cfg endt start -> first_step cfg re h start endt <= max_step_size cfg ->
  chain (fun s s' => nsucc s' <> S (nsucc s) ->
           step s' = step s /\ (prec s < prec s')%Z
           \/ step s' = fail_factor cfg * step s
           \/ (prec s < prec s')%Z
              /\ step s' = Rmax (step s * (1 + fail_factor cfg) / 2)
                                (min_step_for_precision (prec s) (Cmod (time s - endt)%C))
           \/ (maximum_precision amp < prec s')%Z)
        (fst (amp_track cfg amp endt eps truncation going predict correct digits_B digits_C digits_interval
                        convert refine fuel re h p start x0)).
Proof.
  intros P cfg amp endt eps truncation going predict correct digits_B digits_C digits_interval convert refine
    H1 H2 H3 H4 H5 H6 H7 fuel re h p start x0 H8 H9 H10.
  pose proof (amp_track_steps cfg amp endt eps truncation going predict correct digits_B digits_C digits_interval
                convert refine H1 H2 H3 H4 H5 H6 H7 fuel re h p start x0 H8 H9 H10) as [_ R].
  revert R. apply chain_impl. intros s s' [_ R]. exact R.
Qed.
Print Assumptions C26_shrinks_after_failure_amp_partial.

(** Adaptive precision: no step exceeds the maximum, if the maximum is usable at all: at most 1, and
    not below the smallest step double precision can take from the start. *)
Theorem C26_maximum_amp_partial :
  forall (P : Type) cfg amp endt eps truncation going (predict : nat -> P -> C -> C -> code * P) correct
    digits_B digits_C digits_interval convert refine,
  (0 <= predictor_order amp < 2 ^ 32 - 1)%Z -> newton_codes_only correct ->
  0 < fail_factor cfg < 1 -> 0 < min_step_size cfg -> 0 < success_factor cfg -> 0 < max_step_size cfg <= 1 ->
  (DoublePrecision <= maximum_precision amp <= MaxPrecisionAllowed)%Z ->
  forall fuel re h p start x0, (DoublePrecision <= p)%Z ->
  powerRZ 10 (3 - DoublePrecision) * Cmod (start - endt)%C <= max_step_size cfg
    /\ powerRZ 10 (-150) <= max_step_size cfg ->
  first_step cfg re h start endt <= max_step_size cfg ->
  Forall (fun s => step s <= max_step_size cfg)
         (fst (amp_track cfg amp endt eps truncation going predict correct digits_B digits_C digits_interval
                         convert refine fuel re h p start x0)).
Proof.
  intros P cfg amp endt eps truncation going predict correct digits_B digits_C digits_interval convert refine
    H1 H2 H3 H4 H5 H6 H7 fuel re h p start x0 H8 H9 H10.
  exact (proj1 (amp_track_steps cfg amp endt eps truncation going predict correct digits_B digits_C digits_interval
                convert refine H1 H2 H3 H4 H5 H6 H7 fuel re h p start x0 H8 H9 H10)).
Qed.
Print Assumptions C26_maximum_amp_partial.

(** That the maximum be usable is needed: with a largest step of 10^-14 the tracker makes steps of
    10^-13. *)
Theorem C26_maximum_amp_refuted :
  exists s s', fst (amp_track small_max demo_amp 0 tiny_eps true never keep needs_precision no_digits no_digits
                     no_interval same refined 1 true 0 16 1 0%nat) = [s; s']
             /\ max_step_size small_max < step s'.
Proof. exact small_max_exceeded. Qed.
Print Assumptions C26_maximum_amp_refuted.

(** A failed step need not shrink the step size. *)
Theorem C26_shrinks_amp_refuted :
  exists s s', fst (amp_track demo demo_amp 0 tiny_eps true never no_tangent succeed no_digits no_digits
                     no_interval same refined 1 true 0 16 1 0%nat) = [s; s']
             /\ nfail s' = 1%nat /\ step s' = step s.
Proof. exact demo_not_shrunk. Qed.
Print Assumptions C26_shrinks_amp_refuted.

(** Fixed precision: after each failure the step size is multiplied by the failure factor, otherwise
    it is unchanged; it never grows, whatever the success factor. *)
Theorem C26_fixed_shrinks_partial :
  forall (P : Type) cfg endt eps truncation going (predict : nat -> P -> C -> C -> code * P)
     add norm solve criteria tol min max, 0 <= fail_factor cfg <= 1 ->
  forall fuel re h p start x0,
  Forall (fun s => step s = first_step cfg re h start endt * fail_factor cfg ^ nfail s)
         (fst (fixed_track cfg endt eps truncation going predict
                 (newton_corrector add norm solve criteria tol min max) fuel re h p start x0)).
Proof.
  intros. eapply Forall_impl; [|apply fixed_steps; [|assumption]].
  - intros s [E _]. exact E.
  - intros. apply newton_corrector_no_infinity.
Qed.
Print Assumptions C26_fixed_shrinks_partial.

Theorem C26_fixed_grows_refuted :
  forall (P : Type) cfg endt eps truncation going (predict : nat -> P -> C -> C -> code * P)
     add norm solve criteria tol min max, 0 <= fail_factor cfg <= 1 -> 0 <= min_step_size cfg ->
  forall fuel re h p start x0,
  chain (fun s s' => step s' <= step s)
        (fst (fixed_track cfg endt eps truncation going predict
                 (newton_corrector add norm solve criteria tol min max) fuel re h p start x0)).
Proof. intros. apply fixed_never_grows; try assumption. intros. apply newton_corrector_no_infinity. Qed.
Print Assumptions C26_fixed_grows_refuted.

Example C26_settings : 0 < fail_factor demo < 1 /\ 0 < min_step_size demo /\ 0 < success_factor demo
  /\ 0 < max_step_size demo <= 1 /\ max_step_usable demo 0 1 /\ first_step demo true 0 1 0 <= max_step_size demo
  /\ (0 <= predictor_order demo_amp < 2 ^ 32 - 1)%Z
  /\ (DoublePrecision <= maximum_precision demo_amp <= MaxPrecisionAllowed)%Z
  /\ newton_codes_only succeed.
Proof. exact demo_settings. Qed.
