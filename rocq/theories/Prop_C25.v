(** C25: Fixed-precision tracking terminates. *)
From Coq Require Import List ZArith Reals Lra.
From Coquelicot Require Import Complex.
From Verif Require Import Newton Track TrackEx.
Import ListNotations.
Local Open Scope R_scope.

(** For given settings there is one bound on the number of rounds, for all systems, paths, predictors
    and Newton correctors. *)
Theorem C25_terminates :
  forall cfg, 0 <= fail_factor cfg < 1 -> 0 < min_step_size cfg -> 0 <= initial_step_size cfg ->
  exists N, forall (P : Type) endt eps truncation going (predict : nat -> P -> C -> C -> code * P)
     add norm solve criteria tol min max p start x0,
  exists c s, snd (fixed_track cfg endt eps truncation going predict
                     (newton_corrector add norm solve criteria tol min max) N true 0 p start x0) = Finished c s.
Proof.
  intros cfg H1 H2 H3. destruct (fixed_terminates cfg H1 H2 H3) as [N H]. exists N. intros.
  apply H. intros. apply newton_corrector_no_infinity.
Qed.
Print Assumptions C25_terminates.

(** The same when the step size of an earlier path is carried over. *)
Theorem C25_terminates_carried :
  forall cfg h, 0 <= fail_factor cfg < 1 -> 0 < min_step_size cfg -> 0 <= h ->
  exists N, forall (P : Type) endt eps truncation going (predict : nat -> P -> C -> C -> code * P)
     add norm solve criteria tol min max p start x0,
  exists c s, snd (fixed_track cfg endt eps truncation going predict
                     (newton_corrector add norm solve criteria tol min max) N false h p start x0) = Finished c s.
Proof.
  intros cfg h H1 H2 H3. destruct (fixed_terminates_carried cfg h H1 H2 H3) as [N H]. exists N. intros.
  apply H. intros. apply newton_corrector_no_infinity.
Qed.
Print Assumptions C25_terminates_carried.

(** The step size is the first one times the failure factor for each failure so far, and never falls
    below the minimum by more than one failure factor (unless it started there). *)
Theorem C25_step_not_far_below_minimum :
  forall (P : Type) cfg endt eps truncation going (predict : nat -> P -> C -> C -> code * P)
     add norm solve criteria tol min max, 0 <= fail_factor cfg <= 1 ->
  forall fuel re h p start x0,
  let h0 := first_step cfg re h start endt in
  Forall (fun s => step s = h0 * fail_factor cfg ^ nfail s
                   /\ Rmin h0 (fail_factor cfg * min_step_size cfg) <= step s)
         (fst (fixed_track cfg endt eps truncation going predict
                 (newton_corrector add norm solve criteria tol min max) fuel re h p start x0)).
Proof.
  intros. apply fixed_steps; [|assumption]. intros. apply newton_corrector_no_infinity.
Qed.
Print Assumptions C25_step_not_far_below_minimum.

(** Both restrictions on the settings are needed: with a failure factor of one, or no positive minimum
    step size, there are paths on which the tracker runs for ever (the limit on the number of steps
    counts only successful ones). *)
Theorem C25_any_settings_refuted :
  (exists cfg, fail_factor cfg = 1 /\ 0 < min_step_size cfg /\ max_num_steps cfg = 100%nat /\
     forall fuel, exists s,
       snd (fixed_track cfg 0 tiny_eps true never keep fail_always fuel true 0 16 1 0%nat) = Running s)
  /\ (exists cfg, fail_factor cfg = 1/2 /\ min_step_size cfg = 0 /\ max_num_steps cfg = 100%nat /\
     forall fuel, exists s,
       snd (fixed_track cfg 0 tiny_eps true never keep fail_always fuel true 0 16 1 0%nat) = Running s).
Proof.
  split.
  - exists no_shrink. split; [reflexivity|]. split; [cbn; lra|]. split; [reflexivity|exact no_shrink_forever].
  - exists no_minimum. split; [reflexivity|]. split; [reflexivity|]. split; [reflexivity|exact no_minimum_forever].
Qed.
Print Assumptions C25_any_settings_refuted.

Example C25_settings : 0 <= fail_factor demo < 1 /\ 0 < min_step_size demo /\ 0 <= initial_step_size demo.
Proof. cbn. lra. Qed.
