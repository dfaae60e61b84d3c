(** C35: the sample times approach the target geometrically. *)
From Coq Require Import List ZArith Lia Reals Lra Bool Arith.
From Coquelicot Require Import Complex.
From Verif Require Import Base Poly ComplexField Newton Endgame EndgameProof EndgamePs EndgameEx EgMean EgClaims.
Import ListNotations.
Local Open Scope R_scope.

(** Cauchy endgame, time advance: for every target and start the distance is multiplied by 1 - factor. *)
Theorem C35_cauchy_geometric :
  forall cfg target t k,
  (Nat.iter k (cauchy_time cfg target) t - target = RtoC ((1 - sample_factor cfg) ^ k) * (t - target))%C.
Proof. exact cauchy_times_geometric. Qed.
Print Assumptions C35_cauchy_geometric.

(** Hence the Cauchy endgame stops: a bound on the number of rounds depends on the configuration, the
    target and the start time only, not on what the tracker, the refinement and the estimate answer. *)
Theorem C35_cauchy_stops :
  forall cfg target start,
  (3 <= num_sample_points cfg)%nat -> 0 < sample_factor cfg < 1 -> 0 < min_track_time cfg ->
  exists N, forall track refine estimate nv dehom fresh x fuel, (N <= fuel)%nat ->
    forall s, cauchy_run cfg target track refine estimate nv dehom fresh fuel start x <> More s.
Proof. exact cauchy_stops. Qed.
Print Assumptions C35_cauchy_stops.

(** The first samples of both endgames are taken at the iterates of one map from the start time. *)
Theorem C35_initial_times :
  forall cfg target track start x c s, (1 <= num_sample_points cfg)%nat ->
  initial_samples cfg target track start x empty = Ok (c, s) -> c = Success ->
  ps_t s = map (fun i => Nat.iter i (midpoint_time cfg target) start) (seq 0 (num_sample_points cfg)).
Proof. exact initial_times. Qed.
Print Assumptions C35_initial_times.

(** That map (also the time advance of the power series endgame) multiplies the distance by the factor
    when the target is 0 or the factor 1/2.  Missing: other targets and factors, where it does not. *)
Theorem C35_power_series_geometric_partial :
  forall cfg target t k, (target = RtoC 0 \/ sample_factor cfg = 1 / 2) ->
  (Nat.iter k (midpoint_time cfg target) t - target = RtoC (sample_factor cfg ^ k) * (t - target))%C.
Proof. exact midpoint_times_geometric. Qed.
Print Assumptions C35_power_series_geometric_partial.

Theorem C35_power_series_stops_partial :
  forall cfg target start, (1 <= num_sample_points cfg)%nat ->
  (target = RtoC 0 \/ sample_factor cfg = 1 / 2) -> 0 < sample_factor cfg < 1 -> 0 < min_track_time cfg ->
  exists N, forall track refine dehom extrapolate x fuel, (N <= fuel)%nat ->
    forall s, ps_run cfg target track refine dehom extrapolate fuel start x <> More s.
Proof. exact power_series_stops. Qed.
Print Assumptions C35_power_series_stops_partial.

(** For every other target and factor the map moves even the target itself. *)
Theorem C35_power_series_target_refuted :
  forall cfg target, target <> RtoC 0 -> sample_factor cfg <> 1 / 2 -> midpoint_time cfg target target <> target.
Proof. exact midpoint_leaves. Qed.
Print Assumptions C35_power_series_target_refuted.

(** And a power series endgame from time 2 to time 1 with factor 1/4 never ends, although every tracking
    and every refinement succeeds. *)
Theorem C35_power_series_endless_refuted :
  0 < sample_factor (far 1) < 1 /\ 0 < min_track_time (far 1) /\
  forall fuel, exists s,
    ps_run (far 1) (RtoC 1) (scripted (fun _ => 1)) no_refine (fun x => x) counting fuel (RtoC 2) [RtoC 1] = More s.
Proof. exact far_endless. Qed.
Print Assumptions C35_power_series_endless_refuted.

(** The default configuration has factor 1/2: both endgames stop for every target. *)
Example C35_defaults :
  let cfg := demo 0 5 in
  (3 <= num_sample_points cfg)%nat /\ sample_factor cfg = 1 / 2 /\ 0 < sample_factor cfg < 1 /\ 0 < min_track_time cfg.
Proof. cbn. repeat split; try lia; lra. Qed.

Example C35_third_sample :
  (Nat.iter 2 (cauchy_time (demo 0 5) (RtoC 1)) (RtoC 3) - RtoC 1 = RtoC (1 / 2))%C.
Proof. rewrite C35_cauchy_geometric. cbn [sample_factor demo]. rewrite <- RtoC_minus', <- RtoC_mult'. f_equal. field. Qed.
