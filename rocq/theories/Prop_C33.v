(** C33: the Cauchy average is exact for truncated Puiseux series. *)
From Coq Require Import List ZArith Lia Reals Lra Bool Arith.
From Coquelicot Require Import Complex.
From Verif Require Import Base Poly ComplexField Newton Endgame EndgameProof EndgamePs EndgameEx EgMean EgClaims.
Import ListNotations.
Local Open Scope R_scope.

(** Let the path be x = p(s), with s^c = t - target and every coordinate of p of degree below c n, where n
    is the number of points on a loop.  After k steps around the target from s = rho the local parameter
    is [local k] = rho omega^k (omega a primitive (c n)-th root of unity), the time [time_at k] = target +
    (local k)^c and the point [point k] = p(local k).  If the tracker follows the path along these
    steps, refining leaves points of the path unchanged and the path does not come back to its first
    point before c loops, then the code collects c loops, reports cycle number c, and its average is
    the value p(0) at the target. *)
Theorem C33_mean_exact :
  forall (cfg : config) (target : C), (3 <= num_sample_points cfg)%nat ->
  forall c : nat, (1 <= c)%nat ->
  forall (rho : C) (p : list (list C)) (track : nat -> C -> C -> vec -> code * vec)
    (refine : nat -> vec -> C -> code * vec) (first : nat),
  (forall k, track (first + k)%nat (time_at cfg target c rho k) (time_at cfg target c rho (S k)) (point cfg c rho p k)
             = (Success, point cfg c rho p (S k))) ->
  (forall i k, refine i (point cfg c rho p k) (time_at cfg target c rho k) = (Success, point cfg c rho p k)) ->
  0 < tracking_tolerance cfg ->
  (forall m, (1 <= m < c)%nat ->
     tracking_tolerance cfg <= dist (point cfg c rho p 0) (point cfg c rho p (m * num_sample_points cfg))) ->
  (forall q, In q p -> (length q <= c * num_sample_points cfg)%nat) ->
  forall (fuel : nat) (s : est),
  back (ps_t s) = Some (time_at cfg target c rho 0) -> back (ps_x s) = Some (point cfg c rho p 0) ->
  ntrack s = first -> (c <= fail_safe cfg)%nat -> (c <= fuel)%nat ->
  exists s1 s2,
    cauchy_samples cfg target track refine fuel s = Ok (Success, s1) /\ cyc s1 = c /\
    cauchy_approximation cfg refine (length p) s1 = Ok (map (fun q => @peval CF q (RtoC 0)) p, s2).
Proof. exact cauchy_exact. Qed.
Print Assumptions C33_mean_exact.

(** The same for the first loops of a run, provided the first loop passes the test of the operating zone. *)
Theorem C33_first_mean_exact :
  forall (cfg : config) (target : C), (3 <= num_sample_points cfg)%nat ->
  forall c : nat, (1 <= c)%nat ->
  forall (rho : C) (p : list (list C)) (track : nat -> C -> C -> vec -> code * vec)
    (refine : nat -> vec -> C -> code * vec) (first : nat),
  (forall k, track (first + k)%nat (time_at cfg target c rho k) (time_at cfg target c rho (S k)) (point cfg c rho p k)
             = (Success, point cfg c rho p (S k))) ->
  (forall i k, refine i (point cfg c rho p k) (time_at cfg target c rho k) = (Success, point cfg c rho p k)) ->
  0 < tracking_tolerance cfg ->
  (forall m, (1 <= m < c)%nat ->
     tracking_tolerance cfg <= dist (point cfg c rho p 0) (point cfg c rho p (m * num_sample_points cfg))) ->
  (forall q, In q p -> (length q <= c * num_sample_points cfg)%nat) ->
  forall (fuel : nat) (s : est),
  back (ps_t s) = Some (time_at cfg target c rho 0) -> back (ps_x s) = Some (point cfg c rho p 0) ->
  ntrack s = first -> (c <= S (fail_safe cfg))%nat -> (c <= fuel)%nat ->
  (forall s', ca_x s' = map (point cfg c rho p) (seq 0 (S (num_sample_points cfg))) ->
              ca_t s' = map (time_at cfg target c rho) (seq 0 (S (num_sample_points cfg))) ->
              ratio_test cfg target s' = Ok true) ->
  exists s1 s2,
    initial_loops cfg target track refine fuel s = Ok (Success, s1) /\ cyc s1 = c /\
    cauchy_approximation cfg refine (length p) s1 = Ok (map (fun q => @peval CF q (RtoC 0)) p, s2).
Proof. exact initial_exact. Qed.
Print Assumptions C33_first_mean_exact.

(** The bound on the degree cannot be raised: the sum over the loops of the power c n does not vanish. *)
Theorem C33_degree_sharp :
  forall (cfg : config) (c : nat) (rho : C), (3 <= num_sample_points cfg)%nat -> (1 <= c)%nat -> rho <> RtoC 0 ->
  let N := (c * num_sample_points cfg)%nat in
  @fsum CF (map (fun k => fpow (local cfg c rho k) N) (seq 0 N)) <> RtoC 0.
Proof. exact power_not_averaged. Qed.
Print Assumptions C33_degree_sharp.

(** The square root x^2 = t, followed twice around 0 with three points on each loop. *)
Example C33_square_root :
  exists s1 s2,
    cauchy_samples (demo 0 2) (RtoC 0) root_track no_refine 2 root_state = Ok (Success, s1) /\ cyc s1 = 2%nat /\
    cauchy_approximation (demo 0 2) no_refine 1 s1 = Ok ([RtoC 0], s2).
Proof.
  destruct (C33_mean_exact (demo 0 2) (RtoC 0) ltac:(cbn; lia) 2 ltac:(lia) (RtoC 1) root_path root_track no_refine 0
    ltac:(reflexivity) ltac:(reflexivity) ltac:(cbn; lra) root_open) with (fuel := 2%nat) (s := root_state)
    as (s1 & s2 & E1 & E2 & E3); try reflexivity; try (cbn; lia).
  - intros q [<-|[]]. cbn. lia.
  - exists s1, s2. split; [exact E1|split; [exact E2|]]. cbn [length root_path] in E3. rewrite E3. cbn [map root_path peval].
    repeat f_equal. cbn. ring.
Qed.
