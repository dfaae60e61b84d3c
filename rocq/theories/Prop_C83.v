(** C83: when the Cauchy endgame considers itself close enough to the target. *)
From Coq Require Import List ZArith Lia Reals Lra Bool Arith.
From Coquelicot Require Import Complex.
From Verif Require Import Base ComplexField Newton Track Endgame EgSeries EgGeo EgZone EgZoneEx.
Import ListNotations.
Local Open Scope R_scope.

(** When the first part of a run succeeds, estimates of c/k were made at a list of moments [log], more than
    num_needed_for_stabilization of them; the last moment is the state that is left.  From one moment to the next the
    endgame moved towards the target.  The num_needed_for_stabilization estimates before the newest one are close to
    their neighbours, or the cutoff time has been reached; and this was not so at any earlier moment at which there
    were enough estimates. *)
Theorem C83_zone_partial :
  forall cfg target track estimate fuel start x s,
  get_into_zone cfg target track estimate fuel start x empty = Ok (Success, s) ->
  exists log : list moment,
    nck s = length log /\ (num_needed cfg < length log)%nat /\
    chain (next_moment track (sample_factor cfg) target) log /\
    (exists earlier t, log = earlier ++ [(t, ps_x s)] /\ back (ps_t s) = Some t) /\
    (settled (min_stabilization cfg) (before_last (num_needed cfg) (estimates estimate 0 log)) \/
     exists t, time_of log = Some t /\ Cmod (t - target)%C <= cycle_cutoff_time cfg) /\
    (forall l1 l2, log = l1 ++ l2 -> l2 <> [] -> (num_needed cfg < length l1)%nat ->
       ~ settled (min_stabilization cfg) (before_last (num_needed cfg) (estimates estimate 0 l1)) /\
       exists t, time_of l1 = Some t /\ cycle_cutoff_time cfg < Cmod (t - target)%C).
Proof.
  intros cfg target track estimate fuel start x s E.
  destruct (zone_run cfg target track estimate fuel start x s E) as [log [[A [B C1]] [D [F G]]]].
  exists log. split; [exact A|]. split; [exact D|]. split; [exact B|]. split; [exact C1|]. split; [exact F|exact G].
Qed.
Print Assumptions C83_zone_partial.

(** The newest estimate is not looked at: with the estimates 1, 1, 1000 the endgame believes, at distance 1/16 and with a
    cutoff of 1/1000, that two estimates with a ratio of at least 3/4 are the latest. *)
Theorem C83_newest_refuted : forall fuel x, exists s,
  get_into_zone zone_cfg (RtoC 0) stay spike fuel (RtoC 1) x empty = Ok (Success, s) /\ nck s = 3%nat /\
  spike 1 (ps_x s) = 1 /\ spike 2 (ps_x s) = 1000 /\ num_needed zone_cfg = 2%nat /\ min_stabilization zone_cfg = 3/4 /\
  exists t, back (ps_t s) = Some t /\ Cmod (t - RtoC 0)%C = 1/16 /\ cycle_cutoff_time zone_cfg = 1/1000.
Proof.
  intros fuel x. destruct (spike_run fuel x) as [s [A [B [t [C1 D]]]]]. exists s. 
  split; [exact A|]. split; [exact B|]. split; [reflexivity|]. split; [reflexivity|]. split; [reflexivity|]. split; [reflexivity|].
  exists t. auto.
Qed.
Print Assumptions C83_newest_refuted.

(** The samples on the circle are rejected if and only if the square of the distance is at least the cutoff time, all are
    larger than the final tolerance, the smallest is smaller than the largest by the given ratio, and by more than the
    final tolerance. *)
Theorem C83_ratio_partial :
  forall cfg target s t, front (ca_t s) = Some t ->
  (num_sample_points cfg <= length (ca_x s))%nat -> (0 < num_sample_points cfg)%nat ->
  0 <= final_tolerance cfg ->
  (forall x, In x (firstn (num_sample_points cfg) (ca_x s)) -> linf x < 10 ^ 300) ->
  exists b, ratio_test cfg target s = Ok b /\
  (b = false <->
   ratio_cutoff_time cfg <= Cmod (t - target)%C ^ 2 /\
   exists x y, In x (firstn (num_sample_points cfg) (ca_x s)) /\ In y (firstn (num_sample_points cfg) (ca_x s)) /\
     (forall z, In z (firstn (num_sample_points cfg) (ca_x s)) -> linf x <= linf z <= linf y) /\
     final_tolerance cfg < linf x /\ linf x / linf y < max_cauchy_ratio cfg /\ final_tolerance cfg < linf y - linf x).
Proof. exact ratio_test_spec. Qed.
Print Assumptions C83_ratio_partial.

(** Samples of sizes 1, 100 and 1 at distance 1/2, rejected with a cutoff time of 1/5. *)
Example C83_ratio_case :
  (front (ca_t uneven) = Some (RtoC (1/2)) /\
   (num_sample_points strict_cfg <= length (ca_x uneven))%nat /\ (0 < num_sample_points strict_cfg)%nat /\
   0 <= final_tolerance strict_cfg /\
   (forall x, In x (firstn (num_sample_points strict_cfg) (ca_x uneven)) -> linf x < 10 ^ 300)) /\
  ratio_test strict_cfg (RtoC 0) uneven = Ok false.
Proof. exact (conj uneven_hyps uneven_rejected). Qed.

(** The cutoff time is compared with the square of the distance: at distance 1/2 with a cutoff time of 1/3 those samples
    are accepted. *)
Theorem C83_cutoff_refuted :
  front (ca_t uneven) = Some (RtoC (1/2)) /\ ratio_cutoff_time zone_cfg = 1/3 /\
  1/3 < Cmod (RtoC (1/2) - RtoC 0)%C /\ ratio_test zone_cfg (RtoC 0) uneven = Ok true.
Proof. rewrite half_dist. split; [reflexivity|]. split; [reflexivity|]. split; [lra|exact uneven_accepted]. Qed.
Print Assumptions C83_cutoff_refuted.

(** The estimate: for three samples p + v t^e whose times are multiplied by the sample factor, and a random vector that
    does not annihilate v, it is 1/e (or 1 if that is less than 1); so it is c for a path in t^(1/c). *)
Theorem C83_estimate_partial :
  forall nv rand factor p v e t x0 x1 x2, 0 < factor < 1 -> 0 < t -> 0 < e ->
  on_path nv p v e t factor x0 x1 x2 -> pairing nv rand v <> RtoC 0 ->
  c_over_k_of nv rand factor x0 x1 x2 = Num (Rmax 1 (/ e)).
Proof.
  intros nv rand f p v e t x0 x1 x2 Hf Ht He O Hv.
  rewrite (c_over_k_path nv rand f p v e t f x0 x1 x2 Hf Ht Hf He O Hv). do 2 f_equal.
  assert (ln f < 0) by (rewrite <- ln_1; apply ln_increasing; lra). field. split; lra.
Qed.
Print Assumptions C83_estimate_partial.

Example C83_estimate_case :
  on_path 1 (fun _ => RtoC 0) (fun _ => RtoC 1) 1 1 (1/2) (line (1/2) 0) (line (1/2) 1) (line (1/2) 2) /\
  pairing 1 unit_rand (fun _ => RtoC 1) <> RtoC 0.
Proof. split; [apply line_path; lra|exact line_pairing]. Qed.

(** But the endgame multiplies its times by 1 - factor: with factor 1/4, for the straight path x = t at the times 1, 3/4,
    9/16 that it takes, the estimate of c/k = 1 is above 4. *)
Theorem C83_estimate_refuted :
  exists r, c_over_k_of 1 unit_rand (1/4) (fun _ => RtoC 1) (fun _ => RtoC (3/4)) (fun _ => RtoC (9/16)) = Num r /\ 4 < r.
Proof.
  destruct line_estimate as [E L]. exists (ln (1/4) / ln (3/4)). split; [|exact L].
  rewrite <- E. unfold line. 
  replace ((3/4) ^ 0) with 1 by reflexivity. replace ((3/4) ^ 1) with (3/4) by ring. replace ((3/4) ^ 2) with (9/16) by field.
  reflexivity.
Qed.
Print Assumptions C83_estimate_refuted.

(** A path that does not move at all gives no number. *)
Theorem C83_constant_refuted : forall nv rand factor x, c_over_k_of nv rand factor x x x = NotANumber.
Proof.
  intros nv rand factor x. unfold c_over_k_of.
  assert (Z : rand_sum nv rand x x = RtoC 0).
  { unfold rand_sum. induction (seq 0 nv) as [|j l IH]; cbn; [reflexivity|].
    rewrite IH. apply injective_projections; cbn; ring. }
  rewrite Z, Cmod_0. destruct (Req_EM_T 0 0); [reflexivity|contradiction].
Qed.
Print Assumptions C83_constant_refuted.
