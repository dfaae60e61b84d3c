(** Consequences of the endgame invariants in the form used by the property files. *)
From Coq Require Import List ZArith Lia Reals Lra Bool Arith.
From Coquelicot Require Import Complex.
From Verif Require Import Base Poly ComplexField Newton Endgame EndgameProof EndgamePs EndgameEx EgMean.
Import ListNotations.
Local Open Scope R_scope.

(** ** C33 *)

(** The polynomial x^N in the local parameter, the first one that is not averaged to its value at the target. *)
Lemma power_not_averaged : forall (cfg : config) (c : nat) (rho : C), (3 <= num_sample_points cfg)%nat -> (1 <= c)%nat -> rho <> RtoC 0 ->
  let N := (c * num_sample_points cfg)%nat in
  @fsum CF (map (fun k => fpow (local cfg c rho k) N) (seq 0 N)) <> RtoC 0.
Proof.
  intros cfg c rho Hn Hc Hr N E.
  rewrite (map_ext _ (fun _ => fpow (rho : CF) N)) in E.
  2:{ intro k. unfold local. rewrite fpow_mul_base, <- fpow_mul, Nat.mul_comm, fpow_mul. fold N. unfold N.
      rewrite (omega_N cfg Hn c Hc), fpow_1_l. cbn. ring. }
  rewrite fsum_const, seq_length, fnat_C in E.
  assert (Z1 : RtoC (INR N) <> RtoC 0).
  { intro Z. apply RtoC_inj in Z. revert Z. apply not_0_INR. unfold N. nia. }
  assert (Z2 : fpow (rho : CF) N <> f0) by (apply fpow_neq0; exact Hr).
  revert E. apply Cmult_neq_0; assumption.
Qed.

(** a path in one coordinate, x = s where s^2 = t, and a tracker following it *)
Definition root_path : list (list C) := [[RtoC 0; RtoC 1]].
Definition root_track : nat -> C -> C -> vec -> code * vec :=
  fun k _ _ _ => (Success, point (demo 0 2) 2 (RtoC 1) root_path (S k)).
Definition root_state : est :=
  mkEst [time_at (demo 0 2) (RtoC 0) 2 (RtoC 1) 0] [point (demo 0 2) 2 (RtoC 1) root_path 0] [] [] 0 [] 0 0 0.

Lemma root_open : forall m, (1 <= m < 2)%nat ->
  tracking_tolerance (demo 0 2) <= dist (point (demo 0 2) 2 (RtoC 1) root_path 0) (point (demo 0 2) 2 (RtoC 1) root_path (m * 3)).
Proof.
  intros m Hm. assert (E : m = 1%nat) by lia. subst m. cbn [tracking_tolerance demo Nat.mul Nat.add].
  assert (E0 : point (demo 0 2) 2 (RtoC 1) root_path 0 = [RtoC 1]).
  { unfold point, root_path, local, local. cbn [map peval fpow]. f_equal. cbn. ring. }
  assert (E3 : point (demo 0 2) 2 (RtoC 1) root_path 3 = [RtoC (-1)]).
  { unfold point, root_path, local, omega. cbn [map]. f_equal. rewrite cis_pow.
    replace (INR 3 * (2 * PI / INR (2 * num_sample_points (demo 0 2)))) with PI by (cbn; field).
    cbn [peval]. unfold cis. rewrite cos_PI, sin_PI. cbn. unfold RtoC, Cmult, Cplus; cbn. f_equal; ring. }
  rewrite E0, E3, dist_R. rewrite Rabs_pos_eq; lra.
Qed.

(** ** C34 *)

Lemma cauchy_bookkeeping : forall cfg target track refine estimate nv dehom fresh fuel start x,
  (3 <= num_sample_points cfg)%nat -> ((security_level cfg <= 0)%Z \/ fresh <> None) ->
  match cauchy_run cfg target track refine estimate nv dehom fresh fuel start x with
  | Ok (c, s) =>
      c = Success -> (1 <= cyc s <= fail_safe cfg + 1)%nat /\ (2 <= length (hist s) -> cyc s <= fail_safe cfg)%nat
  | More _ => True
  | BadConfig | BadSize | Undef => False
  end.
Proof.
  intros cfg target track refine estimate nv dehom fresh fuel start x Hn Hl.
  pose proof (cauchy_run_post cfg target track refine estimate nv dehom Hn True (or_introl I) fresh fuel start x 0 Hl (or_introl I) (or_introl I)) as P.
  destruct (cauchy_run _ _ _ _ _ _ _ _ _ _ _) as [[c s]| | | |s]; cbn in P; try exact P; auto.
  intros ->. destruct P as [_ P]. cbn in P. destruct (P eq_refl) as (A & _ & B). auto.
Qed.

Lemma cauchy_sample_count : forall cfg target track refine fuel s c s',
  (3 <= num_sample_points cfg)%nat -> length (ps_t s) = num_sample_points cfg -> length (ps_x s) = num_sample_points cfg ->
  (cauchy_samples cfg target track refine fuel s = Ok (c, s') \/ initial_loops cfg target track refine fuel s = Ok (c, s')) ->
  c = Success -> length (ca_x s') = (cyc s' * num_sample_points cfg + 1)%nat /\ (1 <= cyc s')%nat.
Proof.
  intros cfg target track refine fuel s c s' Hn H1 H2 [E|E] ->.
  - pose proof (cauchy_samples_post cfg target track refine Hn True fuel s 0 (conj H1 H2) (or_introl I) (or_introl I)) as P.
    rewrite E in P. cbn in P. destruct P as (_ & _ & K). destruct (K eq_refl) as (_ & _ & R & _). destruct R as [R1 [_ R2]]. auto.
  - pose proof (initial_loops_post cfg target track refine Hn True (or_introl I) fuel s 0 (conj H1 H2) (or_introl I) (or_introl I)) as P.
    rewrite E in P. cbn in P. destruct P as (_ & _ & K). destruct (K eq_refl) as (_ & _ & R & _). destruct R as [R1 [_ R2]]. auto.
Qed.

(** ** C35 *)

Lemma cauchy_times_geometric : forall cfg target t k,
  (Nat.iter k (cauchy_time cfg target) t - target = RtoC ((1 - sample_factor cfg) ^ k) * (t - target))%C.
Proof.
  intros cfg target t k. induction k as [|k IH].
  - cbn. ring.
  - cbn [Nat.iter nat_rect]. rewrite cauchy_time_ratio.
    change (nat_rect (fun _ => C) t (fun _ => cauchy_time cfg target) k) with (Nat.iter k (cauchy_time cfg target) t).
    rewrite IH. cbn [pow]. rewrite RtoC_mult'. ring.
Qed.

Lemma cauchy_stops : forall cfg target start,
  (3 <= num_sample_points cfg)%nat -> 0 < sample_factor cfg < 1 -> 0 < min_track_time cfg ->
  exists N, forall track refine estimate nv dehom fresh x fuel, (N <= fuel)%nat ->
    forall s, cauchy_run cfg target track refine estimate nv dehom fresh fuel start x <> More s.
Proof.
  intros cfg target start Hn Hf Hm.
  destruct (shrinks (1 - sample_factor cfg)
    (Cmod (Nat.iter (num_sample_points cfg - 1) (midpoint_time cfg target) start - target)%C) (min_track_time cfg) ltac:(lra) Hm) as [k Hk].
  exists (k + fail_safe cfg + 1)%nat. intros track refine estimate nv dehom fresh x fuel HF s E.
  (* an undefined comparison ends the run as well: give the variable a value *)
  assert (U : forall v fu prev np s0 s1, cauchy_loop cfg target track refine nv dehom fu prev np s0 = More s1 ->
              cauchy_loop cfg target track refine nv dehom fu prev (match np with Some p => Some p | None => Some v end) s0 = More s1
              \/ exists v', cauchy_loop cfg target track refine nv dehom fu prev (Some v') s0 = More s1).
  { intros v fu prev [p|] s0 s1 E1; [auto|]. destruct fu as [|fu]; cbn [cauchy_loop] in *;
      destruct (cauchy_approximation _ _ _ _) as [a| | | |s2]; cbn [bind] in *; auto;
      destruct (lt_b _ _); auto; destruct (Z.eqb _ _); auto; discriminate. }
  assert (exists fr, fr <> None /\ cauchy_run cfg target track refine estimate nv dehom fr fuel start x = More s) as (fr & Hfr & E').
  { destruct fresh as [v|]; [exists (Some v); split; [discriminate|exact E]|].
    unfold cauchy_run in *. destruct (get_into_zone _ _ _ _ _ _ _ _) as [[c1 s1]| | | |s1]; cbn [when_ok bind fst snd] in *;
      [|exists (Some 0); split; [discriminate|exact E]..].
    destruct (is_success c1); [|exists (Some 0); split; [discriminate|exact E]].
    destruct (initial_loops _ _ _ _ _ _) as [[c2 s2]| | | |s2]; cbn [when_ok bind fst snd] in *;
      [|exists (Some 0); split; [discriminate|exact E]..].
    destruct (is_success c2); [|exists (Some 0); split; [discriminate|exact E]].
    destruct (Z.leb _ _); [exists (Some 0); split; [discriminate|exact E]|].
    destruct (U 0 _ _ _ _ _ E) as [E2|[v E2]]; [exists (Some 0)|exists (Some v)]; (split; [discriminate|exact E2]). }
  pose proof (cauchy_run_post cfg target track refine estimate nv dehom Hn False (or_intror Hf) fr fuel start x k
                (or_intror Hfr) (or_intror Hk) ltac:(right; lia)) as P.
  rewrite E' in P. exact P.
Qed.

Lemma initial_times : forall cfg target track start x c s, (1 <= num_sample_points cfg)%nat ->
  initial_samples cfg target track start x empty = Ok (c, s) -> c = Success ->
  ps_t s = map (fun i => Nat.iter i (midpoint_time cfg target) start) (seq 0 (num_sample_points cfg)).
Proof.
  intros cfg target track start x c s Hn E ->.
  unfold initial_samples in E.
  pose proof (initial_loop_post cfg target track True (num_sample_points cfg - 1) (with_ps empty [start] [x]) start 1
                eq_refl (conj eq_refl eq_refl) (le_n 1) eq_refl) as P.
  rewrite E in P. cbn in P. destruct P as (_ & _ & K). destruct (K eq_refl) as [_ Q]. cbn in Q. rewrite Q.
  destruct (num_sample_points cfg) as [|m]; [lia|]. cbn [seq map Nat.sub]. rewrite Nat.sub_0_r. reflexivity.
Qed.

Lemma midpoint_times_geometric : forall cfg target t k, (target = RtoC 0 \/ sample_factor cfg = 1 / 2) ->
  (Nat.iter k (midpoint_time cfg target) t - target = RtoC (sample_factor cfg ^ k) * (t - target))%C.
Proof. intros cfg target t k H. apply midpoint_iter. exact H. Qed.

Lemma power_series_stops : forall cfg target start, (1 <= num_sample_points cfg)%nat ->
  (target = RtoC 0 \/ sample_factor cfg = 1 / 2) -> 0 < sample_factor cfg < 1 -> 0 < min_track_time cfg ->
  exists N, forall track refine dehom extrapolate x fuel, (N <= fuel)%nat ->
    forall s, ps_run cfg target track refine dehom extrapolate fuel start x <> More s.
Proof.
  intros cfg target start Hn Ht Hf Hm.
  destruct (shrinks (sample_factor cfg)
    (Cmod (Nat.iter (num_sample_points cfg - 1) (midpoint_time cfg target) start - target)%C) (min_track_time cfg) Hf Hm) as [k Hk].
  exists (S k). intros track refine dehom extrapolate x fuel HF s E.
  pose proof (ps_run_post cfg target track refine dehom extrapolate Hn False (or_intror (conj Hf Ht)) fuel start x k (or_intror Hk) ltac:(right; lia)) as P.
  rewrite E in P. exact P.
Qed.

(** every start at the target itself is moved away when neither condition holds *)
Lemma midpoint_leaves : forall cfg target, target <> RtoC 0 -> sample_factor cfg <> 1 / 2 -> midpoint_time cfg target target <> target.
Proof.
  intros cfg target Ht Hf E. unfold midpoint_time in E.
  assert (Z : (target * RtoC (2 * sample_factor cfg - 1))%C = RtoC 0).
  { rewrite RtoC_minus', RtoC_mult'. transitivity ((target + target) * RtoC (sample_factor cfg) - target)%C; [|rewrite E; ring].
    replace (RtoC 2) with (RtoC 1 + RtoC 1)%C by (rewrite <- RtoC_plus'; f_equal; ring). ring. }
  revert Z. apply Cmult_neq_0; [exact Ht|]. intro Z. apply RtoC_inj in Z. lra.
Qed.

(** ** C37 *)

Lemma cauchy_level_zero : forall cfg target track refine estimate nv dehom fresh fuel start x,
  (3 <= num_sample_points cfg)%nat -> security_level cfg = 0%Z ->
  (forall k t t' y, fst (track k t t' y) <> SecurityMaxNormReached) ->
  forall s, cauchy_run cfg target track refine estimate nv dehom fresh fuel start x <> Ok (SecurityMaxNormReached, s).
Proof.
  intros cfg target track refine estimate nv dehom fresh fuel start x Hn Hl Ht s E.
  pose proof (cauchy_run_post cfg target track refine estimate nv dehom Hn True (or_introl I) fresh fuel start x 0
                ltac:(left; lia) (or_introl I) (or_introl I)) as P.
  rewrite E in P. cbn in P. destruct P as [[U|[_ L]] _]; [|contradiction].
  cbn in U. destruct U as [U|[U|[U|(k & t & t' & y & U)]]]; try discriminate. exact (Ht k t t' y (eq_sym U)).
Qed.

Lemma cauchy_run_security' : forall cfg target track refine estimate nv dehom,
  (3 <= num_sample_points cfg)%nat ->
  (forall k t t' x, fst (track k t t' x) <> SecurityMaxNormReached) ->
  (1 <= security_level cfg)%Z ->
  forall fuel start x p0, p0 <= security_max_norm cfg ->
  match cauchy_run cfg target track refine estimate nv dehom (Some p0) fuel start x with
  | Ok (c, s) =>
      (c = SecurityMaxNormReached -> truncated cfg dehom (hist s)) /\
      (c = Success -> ~ big_pair cfg dehom (removelast (hist s))) /\
      (c <> SecurityMaxNormReached -> c <> Success -> ~ big_pair cfg dehom (hist s))
  | More _ => True
  | BadConfig | BadSize | Undef => False
  end.
Proof.
  intros cfg target track refine estimate nv dehom Hn Ht Hl fuel start x p0 H0.
  pose proof (cauchy_run_security cfg target track refine estimate nv dehom Hn Ht Hl fuel start x p0 H0) as P.
  destruct (cauchy_run _ _ _ _ _ _ _ _ _ _ _) as [[c s]| | | |s]; exact P.
Qed.

Lemma far_endless : 0 < sample_factor (far 1) < 1 /\ 0 < min_track_time (far 1) /\ forall fuel, exists s,
  ps_run (far 1) (RtoC 1) (scripted (fun _ => 1)) no_refine (fun x => x) counting fuel (RtoC 2) [RtoC 1] = More s.
Proof. cbn [sample_factor min_track_time far]. split; [lra|split; [lra|exact far_never_ends]]. Qed.
