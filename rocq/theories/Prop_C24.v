(** C24: A successful track ends at the requested time. *)
From Coq Require Import List ZArith Reals.
From Coquelicot Require Import Complex.
From Verif Require Import Newton Track AmpCost Amp TrackEx.
Import ListNotations.
Local Open Scope R_scope.

(** Whatever predictor, corrector and divergence test answer, all times at which the tracker stands
    lie on the segment from start to end, and the distance to the end never grows. *)
Theorem C24_times_on_segment_fixed :
  forall (P : Type) cfg endt eps truncation going (predict : nat -> P -> C -> C -> code * P) correct,
  0 <= min_step_size cfg -> forall fuel re h p start x0,
  let visited := fst (fixed_track cfg endt eps truncation going predict correct fuel re h p start x0) in
  Forall (fun s => on_segment start endt (time s)) visited
  /\ chain (fun s s' => Cmod (endt - time s')%C <= Cmod (endt - time s)%C) visited.
Proof. exact @fixed_track_times. Qed.
Print Assumptions C24_times_on_segment_fixed.

Theorem C24_times_on_segment_amp :
  forall (P : Type) cfg amp endt eps truncation going (predict : nat -> P -> C -> C -> code * P) correct
    digits_B digits_C digits_interval convert refine,
  0 <= min_step_size cfg -> forall fuel re h p start x0,
  let visited := fst (amp_track cfg amp endt eps truncation going predict correct digits_B digits_C
                                digits_interval convert refine fuel re h p start x0) in
  Forall (fun s => on_segment start endt (time s)) visited
  /\ chain (fun s s' => Cmod (endt - time s')%C <= Cmod (endt - time s)%C) visited.
Proof. exact @amp_track_times. Qed.
Print Assumptions C24_times_on_segment_amp.

(** Success means: the time is the end time up to the relative tolerance, and the point is the start
    point (when no step was needed) or what the corrector answered, with Success, at that time. *)
Theorem C24_success_at_end_fixed :
  forall (P : Type) cfg endt eps truncation going (predict : nat -> P -> C -> C -> code * P) correct
    fuel re h p start x0 visited s,
  fixed_track cfg endt eps truncation going predict correct fuel re h p start x0 = (visited, Finished Success s) ->
  within (time s) endt (eps (prec s))
  /\ ((time s = start /\ space s = x0) \/ exists n y, correct n y (time s) = (Success, space s)).
Proof. exact @fixed_track_success. Qed.
Print Assumptions C24_success_at_end_fixed.

(** With adaptive precision the same holds up to changes of the precision of the point; the start
    point is the refined one. *)
Theorem C24_success_at_end_amp :
  forall (P : Type) cfg amp endt eps truncation going (predict : nat -> P -> C -> C -> code * P) correct
    digits_B digits_C digits_interval convert refine,
  newton_codes_only correct -> forall fuel re h p start x0 visited s,
  amp_track cfg amp endt eps truncation going predict correct digits_B digits_C digits_interval convert refine
            fuel re h p start x0 = (visited, Finished Success s) ->
  within (time s) endt (eps (prec s))
  /\ ((time s = start /\ exists s0, initial_refinement amp convert refine
          (mkSt start x0 (first_step cfg re h start endt) 0 0 0 0 0 0 p 0 0) = Some (Success, s0)
          /\ converted convert (space s0) (space s))
      \/ exists n y x, correct n y (time s) = (Success, x) /\ converted convert x (space s)).
Proof. exact @amp_track_success. Qed.
Print Assumptions C24_success_at_end_amp.

(** A track from 1 to 0 with one failed and two successful steps. *)
Example C24_runs_fixed :
  exists visited s, fixed_track demo 0 tiny_eps true never keep fail_once 4 true 0 16 1 0%nat = (visited, Finished Success s)
  /\ length visited = 4%nat /\ space s = 2%nat.
Proof. rewrite demo_run. eexists. eexists. split; [reflexivity|]. split; reflexivity. Qed.

Example C24_runs_amp : exists s s',
  amp_track demo demo_amp 0 tiny_eps true never keep succeed no_digits no_digits no_interval same refined
            2 true 0 16 1 0%nat = ([s; s'], Finished Success s')
  /\ time s = 1 /\ time s' = 0 /\ space s' = 1%nat.
Proof. exact demo_amp_run. Qed.
