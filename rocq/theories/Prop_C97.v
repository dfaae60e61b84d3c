(** C97: What a tracker tells its observers is enough to write down the path it tracked. *)
From Coq Require Import List ZArith Lia Reals Lra Bool Arith.
From Coquelicot Require Import Complex.
From Verif Require Import Newton Track TrackEx Events EventsEx.
Import ListNotations.

(** Being watched changes nothing about the outcome.  The events of a path are: one announcement of start and end, then round by round the events of a failed or of a
    successful step, then the end of tracking, and nothing after it; the path was given up as going to infinity exactly if that was announced. *)
Theorem C97_events : forall P cfg endt eps truncation going predict correct (old : st P) fuel re carried p start x0 l o,
  emit_track cfg endt eps truncation going predict correct old fuel re carried p start x0 = (l, o) ->
  o = snd (fixed_track cfg endt eps truncation going predict correct fuel re carried p start x0) /\
  exists rounds last, map fst l = Initializing start endt x0 :: concat rounds ++ last /\ Forall round rounds /\
    match o with Finished c _ => ending c last | Running _ => last = [] | Hung => False end.
Proof.
  intros P cfg endt eps truncation going predict correct old fuel re carried p start x0 l o E. unfold emit_track in E.
  destruct (emit_run _ _ _ _ _ _ _ _ _ _) as [l1 o1] eqn:Er. injection E as <- <-. split.
  - unfold fixed_track. rewrite run_same, Er. reflexivity.
  - destruct (run_events _ _ _ _ _ _ _ _ _ _ _ _ Er) as (rs & last & M & F & L). exists rs, last. split; [cbn [map fst]; f_equal; exact M|]. split; assumption.
Qed.
Print Assumptions C97_events.

(** Once tracking has ended, this is the last event, and no earlier one says so. *)
Theorem C97_ended_once : forall P cfg endt eps truncation going predict correct (old : st P) fuel re carried p start x0 l c s,
  emit_track cfg endt eps truncation going predict correct old fuel re carried p start x0 = (l, Finished c s) ->
  exists before, map fst l = before ++ [TrackingEnded] /\ ~ In TrackingEnded before /\ (In InfinitePathTruncation before <-> c = GoingToInfinity).
Proof.
  intros P cfg endt eps truncation going predict correct old fuel re carried p start x0 l c s E.
  destruct (C97_events _ _ _ _ _ _ _ _ _ _ _ _ _ _ _ _ _ E) as (_ & rs & last & M & F & L).
  assert (R : forall r : list (event P), round r -> ~ In TrackingEnded r /\ ~ In InfinitePathTruncation r) by (intros r H; destruct H; cbn; intuition discriminate).
  assert (N : forall e, (forall r : list (event P), round r -> ~ In e r) -> ~ In e (concat rs)).
  { intros e He K. apply in_concat in K. destruct K as (r & Hr & K). rewrite Forall_forall in F. exact (He r (F r Hr) K). }
  pose proof (N TrackingEnded (fun r H => proj1 (R r H))) as N1. pose proof (N InfinitePathTruncation (fun r H => proj2 (R r H))) as N2.
  destruct L as [c Hc|q [k Hk]].
  - exists (Initializing start endt x0 :: concat rs). split; [exact M|]. split; [intros [K|K]; [discriminate|tauto]|]. split; [intros [K|K]; [discriminate|tauto]|congruence].
  - exists (Initializing start endt x0 :: concat rs ++ q ++ [InfinitePathTruncation]). destruct (R _ Hk) as [R1 R2]. split.
    { rewrite M. cbn [app]. rewrite <- !app_assoc. reflexivity. }
    split; [|split; [reflexivity|intros _; right; apply in_or_app; right; apply in_or_app; right; left; reflexivity]].
    intros [K|K]; [discriminate|]. apply in_app_or in K. destruct K as [K|K]; [tauto|]. apply in_app_or in K. destruct K as [K|[K|[]]]; [|discriminate].
    apply R1. apply in_or_app. left. exact K.
Qed.
Print Assumptions C97_ended_once.

(** Every event is true of the state the tracker shows while it is told: predictions, corrections, failures, divergence, and that a step is only begun before the end time
    and within the limits. *)
Theorem C97_truthful : forall P cfg endt eps truncation going predict correct (old : st P) fuel re carried p start x0 l o,
  emit_track cfg endt eps truncation going predict correct old fuel re carried p start x0 = (l, o) ->
  Forall (truthful cfg endt eps truncation going predict correct) l.
Proof.
  intros P cfg endt eps truncation going predict correct old fuel re carried p start x0 l o E. unfold emit_track in E.
  destruct (emit_run _ _ _ _ _ _ _ _ _ _) as [l1 o1] eqn:Er. injection E as <- <-. constructor; [exact I|]. eapply run_truthful. exact Er.
Qed.
Print Assumptions C97_truthful.

(** An observer which asks for time and point at every successful step has the path: each point is what the corrector made of a prediction from the one before, beginning
    at the start point; at the end it has the tracker's time and the numbers of steps, and its last point is the tracker's, unless the path was truncated. *)
Theorem C97_path_recorded_partial : forall P cfg endt eps truncation going predict correct (old : st P) fuel re carried p start x0 l o,
  emit_track cfg endt eps truncation going predict correct old fuel re carried p start x0 = (l, o) ->
  follows predict correct start x0 (path_recorded l) /\
  match o with
  | Finished c s => time s = fst (last (path_recorded l) (start, x0)) /\ nsucc s = length (path_recorded l) /\ nfail s = failures l /\
      (c <> GoingToInfinity -> space s = snd (last (path_recorded l) (start, x0)) /\ announced l = map snd (path_recorded l))
  | Running s => (time s, space s) = last (path_recorded l) (start, x0) /\ nsucc s = length (path_recorded l) /\ nfail s = failures l
  | Hung => False
  end.
Proof.
  intros P cfg endt eps truncation going predict correct old fuel re carried p start x0 l o E. unfold emit_track in E.
  destruct (emit_run _ _ _ _ _ _ _ _ _ _) as [l1 o1] eqn:Er. injection E as <- <-.
  destruct (run_path _ _ _ _ _ _ _ _ _ _ _ _ Er) as [Fo R]. pose proof (run_announced _ _ _ _ _ _ _ _ _ _ _ _ Er) as A. cbn in Fo, R.
  change (path_recorded ((Initializing start endt x0, old) :: l1)) with (path_recorded l1).
  change (failures ((Initializing start endt x0, old) :: l1)) with (failures l1).
  change (announced ((Initializing start endt x0, old) :: l1)) with (announced l1).
  split; [exact Fo|]. destruct o1 as [c s| |s]; [|exact R|exact R]. destruct R as (R1 & R2 & R3 & R4).
  split; [exact R1|]. split; [exact R3|]. split; [exact R4|]. intros Hc. split; [exact (R2 Hc)|]. destruct c; try exact A. congruence.
Qed.
Print Assumptions C97_path_recorded_partial.

(** On a truncated path the tracker ends at a point no successful step has announced, while its time is still that of the point before. *)
Theorem C97_truncated_refuted : exists cfg endt eps going predict correct (old : st nat) fuel carried p l s,
  emit_track cfg endt eps true going predict correct old fuel true carried p (RtoC 1) 0%nat = (l, Finished GoingToInfinity s) /\
  path_recorded l = [] /\ announced l = [1%nat] /\ space s = 1%nat /\ time s = RtoC 1.
Proof.
  destruct truncated_run as (l & s & H). exists demo, (RtoC 0), tiny_eps, one_diverges, keep, to_one, (demo_at 0%R 7 1%R 0%R 0 0 0 0), 1%nat, 0%R, 16%Z, l, s. exact H.
Qed.
Print Assumptions C97_truncated_refuted.

(** Observers glued into one gather what each of them would gather alone. *)
Theorem C97_glued : forall N (os : list (@observer N)) l d, gathers (multi os) l d = each_alone os l d.
Proof. intros N os l d. apply multi_alone. Qed.
Print Assumptions C97_glued.

(** A path with one failed and two successful steps. *)
Example C97_met : exists l s, emit_track demo (RtoC 0) tiny_eps true never keep fail_once (demo_at 0%R 7 1%R 0%R 0 0 0 0) 4 true 0%R 16%Z (RtoC 1) 0%nat = (l, Finished Success s) /\
  length (path_recorded l) = 2%nat /\ failures l = 1%nat /\ space s = 2%nat.
Proof. destruct demo_emits as (l & E & A & B). exists l. eexists. split; [exact E|]. split; [exact A|]. split; [exact B|reflexivity]. Qed.
