(** C98: The adaptive precision tracker tells its observers the path and every change of precision on it. *)
From Coq Require Import List ZArith Lia Reals Lra Bool Arith.
From Coquelicot Require Import Complex.
From Verif Require Import Newton Track AmpCost Amp TrackEx AmpEvents AmpEventsEx.
Import ListNotations.

(** Being watched changes nothing about the outcome.  The events of a path are: start and end are announced; changes of precision while the start point is refined, and possibly
    that it is singular; then, round by round, the events of a failed or successful step, with at most one change of precision; then the end of tracking and nothing after it. *)
Theorem C98_events : forall P cfg amp endt eps truncation going predict correct digits_B digits_C digits_interval convert refine (old : st P) preserve fuel re carried p0 start x0 l o,
  (DoublePrecision <= p0)%Z ->
  amp_emit_track cfg amp endt eps truncation going predict correct digits_B digits_C digits_interval convert refine old preserve fuel re carried p0 start x0 = (l, o) ->
  o = snd (amp_track cfg amp endt eps truncation going predict correct digits_B digits_C digits_interval convert refine fuel re carried p0 start x0) /\
  exists c refinement rest, map fst l = AInitializing start endt x0 :: refinement ++ rest /\ refinement_events c refinement /\
    (c = Success /\ (exists rounds last, rest = concat rounds ++ last /\ Forall amp_round rounds /\
        match o with Finished c _ => amp_ending c last | Running _ => last = [] | Hung => attempt last false end)
     \/ c = SingularStartPoint /\ amp_ending c rest /\ exists s, o = Finished c s).
Proof.
  intros P cfg amp endt eps truncation going predict correct digits_B digits_C digits_interval convert refine old preserve fuel re carried p0 start x0 l o Hp E.
  unfold amp_emit_track in E. unfold amp_track. rewrite refinement_same.
  pose proof (initial_refinement_ends amp convert refine (mkSt start x0 (first_step cfg re carried start endt) (RtoC 0) 0 0 0 0 0 p0 0 0) Hp) as (c & s & Hi & _). rewrite refinement_same in Hi.
  destruct (emit_refinement _ _ _ _) as [l0 r] eqn:Er. cbn [snd] in Hi |- *. subst r.
  pose proof (refinement_told _ eps _ _ _ _ _ _ Er) as (Re & _).
  destruct (is_success c) eqn:Hc.
  - assert (c = Success) as -> by (destruct c; cbn in Hc; congruence).
    destruct (amp_emit_run _ _ _ _ _ _ _ _ _ _ _ _ _ _ _ _) as [l' o'] eqn:E'. injection E as <- <-. split.
    + rewrite (amp_run_same _ _ _ _ _ _ _ _ _ _ _ _ (if preserve then Some p0 else None)), E'. reflexivity.
    + exists Success, (map fst l0), (map fst l'). split; [cbn [map fst]; f_equal; apply map_app|]. split; [exact Re|]. left. split; [reflexivity|].
      eapply amp_run_events. exact E'.
  - injection E as <- <-. split; [reflexivity|].
    assert (c = SingularStartPoint) as -> by (clear - Re Hc; induction Re; [discriminate|reflexivity|auto]).
    exists SingularStartPoint, (map fst l0), (map fst (emit_cleanup convert (if preserve then Some p0 else None) s)). split; [cbn [map fst]; f_equal; apply map_app|].
    split; [exact Re|]. right. split; [reflexivity|]. split; [|eexists; reflexivity].
    destruct (cleanup_events convert (if preserve then Some p0 else None) s) as (k & Ek & Hk). rewrite Ek. apply amp_ends; [discriminate|exact Hk].
Qed.
Print Assumptions C98_events.

(** An observer which knows the precision of the start point and listens to the changes of precision knows the tracker's precision at every event after the announcement of the path;
    in the end it is that of the start point, if precision is preserved, and otherwise that of the tracker. *)
Theorem C98_precision_known : forall P cfg amp endt eps truncation going predict correct digits_B digits_C digits_interval convert refine (old : st P) preserve fuel re carried p0 start x0 l o,
  (DoublePrecision <= p0)%Z ->
  amp_emit_track cfg amp endt eps truncation going predict correct digits_B digits_C digits_interval convert refine old preserve fuel re carried p0 start x0 = (l, o) ->
  knows p0 (tl l) /\
  match o with
  | Finished _ s => believes p0 l = if preserve then p0 else prec s
  | Running s => believes p0 l = prec s
  | Hung => True
  end.
Proof.
  intros P cfg amp endt eps truncation going predict correct digits_B digits_C digits_interval convert refine old preserve fuel re carried p0 start x0 l o Hp E.
  unfold amp_emit_track in E.
  pose proof (initial_refinement_ends amp convert refine (mkSt start x0 (first_step cfg re carried start endt) (RtoC 0) 0 0 0 0 0 p0 0 0) Hp) as (c & s & Hi & _). rewrite refinement_same in Hi.
  destruct (emit_refinement _ _ _ _) as [l0 r] eqn:Er. cbn [snd] in Hi. subst r.
  pose proof (refinement_told _ eps _ _ _ _ _ _ Er) as (_ & K & B & _). cbn [prec] in K, B.
  destruct (is_success c) eqn:Hc.
  - destruct (amp_emit_run _ _ _ _ _ _ _ _ _ _ _ _ _ _ _ _) as [l' o'] eqn:E'. injection E as <- <-.
    pose proof (amp_run_knows _ _ _ _ _ _ _ _ _ _ _ _ _ _ _ _ _ _ E') as [K' B']. cbn [tl believes]. rewrite (knows_app eps convert), believes_app, B.
    split; [split; assumption|]. destruct o'; [|exact I|exact B']. rewrite B'. destruct preserve; reflexivity.
  - injection E as <- <-. cbn [tl believes]. rewrite (knows_app eps convert), believes_app, B. destruct (cleanup_knows eps convert (if preserve then Some p0 else None) s) as [A D].
    split; [split; assumption|]. rewrite D. destruct preserve; reflexivity.
Qed.
Print Assumptions C98_precision_known.

(** Every event is true of the state the tracker shows while it is told: predictions, corrections, the kinds of failure, divergence, a singular start point, and that a step is only
    begun before the end time and within the limits on steps, step size and precision. *)
Theorem C98_truthful : forall P cfg amp endt eps truncation going predict correct digits_B digits_C digits_interval convert refine (old : st P) preserve fuel re carried p0 start x0 l o,
  amp_emit_track cfg amp endt eps truncation going predict correct digits_B digits_C digits_interval convert refine old preserve fuel re carried p0 start x0 = (l, o) ->
  Forall (amp_truthful cfg amp endt eps truncation going predict correct) l.
Proof.
  intros P cfg amp endt eps truncation going predict correct digits_B digits_C digits_interval convert refine old preserve fuel re carried p0 start x0 l o E.
  unfold amp_emit_track in E. destruct (emit_refinement _ _ _ _) as [l0 r] eqn:Er.
  assert (T : Forall (amp_truthful cfg amp endt eps truncation going predict correct) l0) by (eapply refinement_truthful; exact Er).
  destruct r as [[c s]|]; [|injection E as <- <-; constructor; [exact I|exact T]]. destruct (is_success c).
  - destruct (amp_emit_run _ _ _ _ _ _ _ _ _ _ _ _ _ _ _ _) as [l' o'] eqn:E'. injection E as <- <-. constructor; [exact I|]. apply Forall_app. split; [exact T|]. eapply amp_run_truthful; [exact refine|exact E'].
  - injection E as <- <-. constructor; [exact I|]. apply Forall_app. split; [exact T|]. apply cleanup_truthful.
Qed.
Print Assumptions C98_truthful.

(** An observer which asks for time and point at every successful step has the path: it begins at a refined start point, and but for changes of precision each point is what the
    corrector made, at its time, of a prediction from the one before; at the end it has the tracker's time and the numbers of steps, and its last point is the tracker's, but for
    changes of precision, unless the path was truncated. *)
Theorem C98_path_recorded_partial : forall P cfg amp endt eps truncation going predict correct digits_B digits_C digits_interval convert refine (old : st P) preserve fuel re carried p0 start x0 l o,
  amp_emit_track cfg amp endt eps truncation going predict correct digits_B digits_C digits_interval convert refine old preserve fuel re carried p0 start x0 = (l, o) ->
  match o with
  | Finished SingularStartPoint s => amp_path l = []
  | Hung => True
  | Finished c s => exists k y x, refine k y start = (Success, x) /\ amp_follows predict correct convert start x (amp_path l) /\
      time s = fst (last (amp_path l) (start, x)) /\ nsucc s = length (amp_path l) /\ nfail s = amp_failures l /\
      (c <> GoingToInfinity -> converted convert (snd (last (amp_path l) (start, x))) (space s))
  | Running s => exists k y x, refine k y start = (Success, x) /\ amp_follows predict correct convert start x (amp_path l) /\
      time s = fst (last (amp_path l) (start, x)) /\ nsucc s = length (amp_path l) /\ nfail s = amp_failures l /\
      converted convert (snd (last (amp_path l) (start, x))) (space s)
  end.
Proof.
  intros P cfg amp endt eps truncation going predict correct digits_B digits_C digits_interval convert refine old preserve fuel re carried p0 start x0 l o E.
  unfold amp_emit_track in E. destruct (emit_refinement _ _ _ _) as [l0 r] eqn:Er. destruct r as [[c s]|]; [|injection E as <- <-; exact I].
  pose proof (refinement_told _ eps _ _ _ _ _ _ Er) as (Re & _ & _ & Ti & Ns & Nf & Pa & Fa & Su). cbn [time nsucc nfail] in Ti, Ns, Nf, Su.
  destruct (is_success c) eqn:Hc.
  - destruct (amp_emit_run _ _ _ _ _ _ _ _ _ _ _ _ _ _ _ _) as [l' o'] eqn:E'. injection E as <- <-. destruct (Su eq_refl) as (k & y & R).
    pose proof (amp_run_path _ _ _ _ _ _ _ _ _ _ _ _ _ _ _ _ _ _ E') as [Fo Q]. rewrite Ti in Fo, Q. rewrite Ns, Nf in Q. cbn [Nat.add] in Q.
    assert (L : amp_path ((AInitializing start endt x0, old) :: l0 ++ l') = amp_path l') by (change (amp_path (l0 ++ l') = amp_path l'); rewrite amp_path_app, Pa; reflexivity).
    assert (M : amp_failures ((AInitializing start endt x0, old) :: l0 ++ l') = amp_failures l') by (change (amp_failures (l0 ++ l') = amp_failures l'); rewrite amp_failures_app, Fa; reflexivity).
    rewrite L, M. destruct o' as [c' s'| |s']; [|exact I|].
    + destruct Q as (Q1 & Q2 & Q3 & Q4).
      assert (G : exists k0 y0 x, refine k0 y0 start = (Success, x) /\ amp_follows predict correct convert start x (amp_path l') /\
        time s' = fst (last (amp_path l') (start, x)) /\ nsucc s' = length (amp_path l') /\ nfail s' = amp_failures l' /\
        (c' <> GoingToInfinity -> converted convert (snd (last (amp_path l') (start, x))) (space s'))) by (exists k, y, (space s); repeat split; assumption).

      destruct c'; try exact G. exfalso. clear - E'. 
      assert (N : forall fuel n s l s', amp_emit_run cfg amp endt eps truncation going predict correct digits_B digits_C digits_interval convert (if preserve then Some p0 else None) fuel n s = (l, Finished SingularStartPoint s') -> False).
      { clear. induction fuel as [|fuel IH]; intros n s l s' E; cbn [amp_emit_run] in E; [discriminate|]. destruct (amp_emit_turn _ _ _ _ _ _ _ _ _ _ _ _ _ _ _) as [l1 m] eqn:Et.
        destruct m as [c s1|s1|]; [|destruct (amp_emit_run _ _ _ _ _ _ _ _ _ _ _ _ _ fuel (S n) s1) as [l2 o2] eqn:Er; injection E as _ ->; eapply IH; exact Er|discriminate].
        injection E as _ -> _. unfold amp_emit_turn in Et. destruct (close _ _ _); [discriminate|]. destruct (is_success (amp_pre cfg amp s)).
        - destruct (amp_emit_iterate _ _ _ _ _ _ _ _ _ _ _) as [l2 [[c2 s2]|]]; [|discriminate]. destruct (_ && _); [discriminate|]. destruct (is_success c2); discriminate.
        - injection Et as _ Ep _. unfold amp_pre in Ep. destruct (_ <=? _)%nat; [discriminate|]. destruct (Rlt_dec _ _); [discriminate|]. destruct (_ <? _)%Z; discriminate. }
      eapply N. exact E'.
    + destruct Q as (Q1 & Q2 & Q3 & Q4). exists k, y, (space s). repeat split; assumption.
  - injection E as <- <-. assert (c = SingularStartPoint) as -> by (clear - Re Hc; induction Re; [discriminate|reflexivity|auto]).
    change (amp_path (l0 ++ emit_cleanup convert (if preserve then Some p0 else None) s) = []). rewrite amp_path_app, Pa. apply cleanup_silent.
Qed.
Print Assumptions C98_path_recorded_partial.

(** From one path to the next the precision may change without an event: after a path which ended in 50 digits, the next one begins with a start point in 16 digits, and no
    observer is told, so that nobody who only listens to the changes is right all the time. *)
Theorem C98_between_paths_refuted : exists cfg amp endt eps going predict correct digits_B digits_C digits_interval convert refine (old : st nat) l s,
  amp_emit_track cfg amp endt eps true going predict correct digits_B digits_C digits_interval convert refine old true 1 true 0%R 16%Z endt 0%nat = (l, Finished Success s) /\
  prec old = 50%Z /\ (forall q, In q l -> forall a b, fst q <> APrecisionChanged a b) /\ forall p, ~ knows p l.
Proof.
  destruct nothing_told as (s & s' & E & Hs).
  exists demo, demo_amp, (RtoC 0), tiny_eps, never, keep, succeed, no_digits, no_digits, no_interval, same, TrackEx.refined, left_over. eexists. exists s'. split; [exact E|].
  split; [reflexivity|]. split; [intros q [<-|[<-|[]]] a b; discriminate|]. intros p (A & B & _). cbn in A. lia.
Qed.
Print Assumptions C98_between_paths_refuted.

(** A start point refined in higher precision, and a path with a step. *)
Example C98_met : (exists l s, amp_emit_track demo demo_amp (RtoC 0) tiny_eps true never keep succeed no_digits no_digits no_interval same refined_later
    left_over true 1 true 0%R 16%Z (RtoC 0) 0%nat = (l, Finished Success s) /\
  map fst l = [AInitializing (RtoC 0) (RtoC 0) 0%nat; APrecisionChanged 16 LowestMultiplePrecision; APrecisionChanged LowestMultiplePrecision 16; ATrackingEnded] /\
  prec s = LowestMultiplePrecision) /\
  exists l s, amp_emit_track demo demo_amp (RtoC 0) tiny_eps true never keep succeed no_digits no_digits no_interval same TrackEx.refined
    left_over true 2 true 0%R 16%Z (RtoC 1) 0%nat = (l, Finished Success s) /\ length (amp_path l) = 1%nat.
Proof. split; [exact refined_run|exact amp_demo_emits]. Qed.
