(** C99: what the power series endgame tells its observers. *)
From Coq Require Import List ZArith Reals Bool Arith.
From Coquelicot Require Import Complex.
From Verif Require Import Base ComplexField Newton Endgame EndgameEx EgEvents EgEventsProof EgEventsWhy EgEventsEx.
Import ListNotations.
Local Open Scope R_scope.

(** The run with its events answers what the run without answers. *)
Theorem C99_same_answer :
  forall cfg target track refine dehom extrapolate old fuel start x,
  snd (emit_ps_run cfg target track refine dehom extrapolate old fuel start x) =
  ps_run cfg target track refine dehom extrapolate fuel start x.
Proof. exact run_same. Qed.
Print Assumptions C99_same_answer.

(** Whatever the tracker, the refinement and the extrapolation answer.  A run which returns ends with
    an event: Converged if it returns Success, and then no failure was told; otherwise a failure, and
    Converged was never told.  MinTrackTimeReached and SecurityMaxNormReached are told only if that
    code is returned.  ApproximatedRoot is told once for each approximation but the first of the run,
    and FinalApproximation() is then that approximation.  At the last event it is the last
    approximation of the run, or, when the run made none, what was there before ([old]).  While a run
    goes on neither success nor failure has been told. *)
Theorem C99_events :
  forall cfg target track refine dehom extrapolate old fuel start x,
  let told_run := emit_ps_run cfg target track refine dehom extrapolate old fuel start x in
  let l := fst told_run in
  match snd told_run with
  | Ok (c, s) =>
      told EApproximatedRoot l = tl (hist s) /\
      exists body e, l = body ++ [(e, last (hist s) old)] /\
        (c = Success -> e = EConverged /\ Forall neutral body) /\
        (c <> Success -> tells_failure e /\ Forall (fun q => fst q <> EConverged) body) /\
        (told EMinTrackTimeReached l <> [] -> c = MinTrackTimeReached) /\
        (told ESecurityMaxNormReached l <> [] -> c = SecurityMaxNormReached)
  | More s => told EApproximatedRoot l = tl (hist s) /\ Forall neutral l
  | _ => True
  end.
Proof. exact run_good. Qed.
Print Assumptions C99_events.

(** Conversely, if the tracker and the refinement do not themselves answer with these two codes, then a
    run which returns one of them has told so. *)
Theorem C99_reasons :
  forall cfg target track refine dehom extrapolate,
  (forall k t t' y, ~ In (fst (track k t t' y)) [MinTrackTimeReached; SecurityMaxNormReached]) ->
  (forall k y t, ~ In (fst (refine k y t)) [MinTrackTimeReached; SecurityMaxNormReached]) ->
  forall old fuel start x,
  let told_run := emit_ps_run cfg target track refine dehom extrapolate old fuel start x in
  match snd told_run with
  | Ok (c, _) =>
      (c = MinTrackTimeReached -> told EMinTrackTimeReached (fst told_run) <> []) /\
      (c = SecurityMaxNormReached -> told ESecurityMaxNormReached (fst told_run) <> [])
  | _ => True
  end.
Proof. exact run_reasons. Qed.
Print Assumptions C99_reasons.

(** If tracking and refining succeed, an observer can count them: every refinement is told, and every
    tracked piece after the initial samples is told as InEGOperatingZone. *)
Theorem C99_counts :
  forall cfg target track refine dehom extrapolate,
  (forall k t t' y, fst (track k t t' y) = Success) ->
  (forall k y t, fst (refine k y t) = Success) ->
  forall old fuel start x,
  let told_run := emit_ps_run cfg target track refine dehom extrapolate old fuel start x in
  let l := fst told_run in
  match snd told_run with
  | Ok (_, s) | More s =>
      ntrack s = (length (told EInEGOperatingZone l) + (num_sample_points cfg - 1))%nat /\
      nrefine s = length (told ESampleRefined l)
  | _ => True
  end.
Proof. exact run_count. Qed.
Print Assumptions C99_counts.

(** A run which converges, one which fails at once, one which comes too near to the target, and a tracker and a refinement as in C99_counts and
    C99_reasons. *)
Example C99_met :
  (exists s, snd told_run = Ok (Success, s) /\
     told EApproximatedRoot (fst told_run) = [[RtoC 5]] /\
     length (told ESampleRefined (fst told_run)) = 8%nat /\
     length (told EInEGOperatingZone (fst told_run)) = 1%nat) /\
  (forall old, exists s, lost_run old = ([(EEndgameFailure, old)], Ok (FailedToConverge, s))) /\
  (exists s, snd near_run = Ok (MinTrackTimeReached, s) /\ told EMinTrackTimeReached (fst near_run) = [[RtoC 5]]) /\
  (forall k t t' y, fst (scripted (fun _ => 1) k t t' y) = Success) /\
  (forall k y t, fst (no_refine k y t) = Success).
Proof.
  split; [|split; [exact lost_run_events|split; [exact near_run_events|split; reflexivity]]].
  destruct told_run_events as (s & ->). exists s. repeat split; reflexivity.
Qed.
