(** What a fixed precision tracker tells its observers while it tracks a path, and observers which record it.

    Models core/include/bertini2/trackers/base_tracker.hpp:232-286 (TrackPath) and fixed_precision_tracker.hpp:129-132, 165-222, 259-280, 451-467 with
    their calls of NotifyObservers, trackers/observers.hpp:196-222 (AMPPathAccumulator) and detail/observer.hpp:99-118 (MultiObserver).
    Predictor, corrector and the test for divergence are arbitrary, as in Track.v.  Observers only look: they do not change the tracker
    (changes of the list of observers are the subject of C42).  Left out: the exception for a start point of the wrong size, which comes before any event, and
    the adaptive precision tracker (AmpEvents.v). *)
From Coq Require Import List ZArith Lia Reals Lra Bool Arith.
From Coquelicot Require Import Complex.
From Verif Require Import Newton Track.
Import ListNotations.

(** trackers/events.hpp:47-323: the events this tracker emits, with their data *)
Inductive event (P : Type) :=
| Initializing (start stop : C) (x : P)
| NewStep
| FirstStepPredictorMatrixSolveFailure
| SuccessfulPredict (x : P)
| CorrectorMatrixSolveFailure
| SuccessfulCorrect (x : P)
| SuccessfulStep
| FailedStep
| InfinitePathTruncation
| TrackingEnded.
Arguments Initializing {P}. Arguments NewStep {P}. Arguments FirstStepPredictorMatrixSolveFailure {P}. Arguments SuccessfulPredict {P}. Arguments CorrectorMatrixSolveFailure {P}.
Arguments SuccessfulCorrect {P}. Arguments SuccessfulStep {P}. Arguments FailedStep {P}. Arguments InfinitePathTruncation {P}. Arguments TrackingEnded {P}.

(** an event and the state of the tracker while the observers are told: CurrentTime(), CurrentPoint() etc. answer from it *)
Definition notification (P : Type) := (event P * st P)%type.

Section Emit.
  Context {P : Type}.
  Variable cfg : stepping.
  Variable endt : C.
  Variable eps : Z -> R.
  Variable truncation : bool.
  Variable going : nat -> P -> bool.
  Variable predict : nat -> P -> C -> C -> code * P.
  Variable correct : nat -> P -> C -> code * P.

  (** fixed_precision_tracker.hpp:165-222 TrackerIteration *)
  Definition emit_iterate (n : nat) (s : st P) : list (notification P) * (code * st P) :=
    let (pc, predicted) := predict n (space s) (time s) (delta s) in
    if negb (is_success pc) then ([(NewStep, s); (FirstStepPredictorMatrixSolveFailure, s)], (pc, set_step s (fail_factor cfg * step s)%R))
    else
      let (cc, corrected) := correct n predicted (time s + delta s)%C in
      match cc with
      | GoingToInfinity => ([(NewStep, s); (SuccessfulPredict predicted, s)], (cc, s))
      | Success => ([(NewStep, s); (SuccessfulPredict predicted, s); (SuccessfulCorrect corrected, s)], (Success, set_space s corrected))
      | _ => ([(NewStep, s); (SuccessfulPredict predicted, s); (CorrectorMatrixSolveFailure, s)], (cc, set_step s (fail_factor cfg * step s)%R))
      end.

  (** base_tracker.hpp:250-286, one round of the loop and what comes after it; fixed_precision_tracker.hpp:259-280 OnStepSuccess, OnStepFail, OnInfiniteTruncation, 129-132
      PostTrackCleanup *)
  Definition emit_turn (n : nat) (s : st P) : list (notification P) * move P :=
    if close (time s) endt (eps (prec s)) then ([(TrackingEnded, s)], Stop Success s)
    else if is_success (fixed_pre cfg s) then
      let (l, r) := emit_iterate n (set_delta s (next_delta (time s) endt (step s))) in
      let (c, s2) := r in
      if truncation && going n (space s2) then (l ++ [(InfinitePathTruncation, s2); (TrackingEnded, s2)], Stop GoingToInfinity s2)
      else if is_success c then (l ++ [(SuccessfulStep, on_success s2)], Go (on_success s2))
      else (l ++ [(FailedStep, fixed_on_fail s2)], Go (fixed_on_fail s2))
    else ([(TrackingEnded, s)], Stop (fixed_pre cfg s) s).

  Fixpoint emit_run (fuel n : nat) (s : st P) : list (notification P) * outcome P :=
    match fuel with
    | O => ([], Running s)
    | S fuel' =>
        let (l, m) := emit_turn n s in
        match m with
        | Stop c s' => (l, Finished c s')
        | Hang => (l, Hung)
        | Go s' => let (l', o) := emit_run fuel' (S n) s' in (l ++ l', o)
        end
    end.

  (** base_tracker.hpp:242 and fixed_precision_tracker.hpp:455: the first event is emitted while the tracker is still in the state [old] left by an earlier path *)
  Definition emit_track (old : st P) (fuel : nat) (reinitialize : bool) (carried : R) (p : Z) (start : C) (x0 : P) : list (notification P) * outcome P :=
    let (l, o) := emit_run fuel 0 (fixed_init cfg endt reinitialize carried p start x0) in ((Initializing start endt x0, old) :: l, o).

  (** ** Specification *)

  (** the events of one round of the loop which is followed by another one, *)
  Inductive round : list (event P) -> Prop :=
  | prediction_failed : round [NewStep; FirstStepPredictorMatrixSolveFailure; FailedStep]
  | correction_failed : forall y, round [NewStep; SuccessfulPredict y; CorrectorMatrixSolveFailure; FailedStep]
  | correction_diverged : forall y, round [NewStep; SuccessfulPredict y; FailedStep]
  | step_made : forall y x, round [NewStep; SuccessfulPredict y; SuccessfulCorrect x; SuccessfulStep].
  (** and of the last one, with the code the tracker returns *)
  Inductive ending : code -> list (event P) -> Prop :=
  | ends : forall c, c <> GoingToInfinity -> ending c [TrackingEnded]
  | truncated : forall l, (exists k, round (l ++ [k])) -> ending GoingToInfinity (l ++ [InfinitePathTruncation; TrackingEnded]).

  (** what is written down by an observer which asks for time and point whenever a step was successful: observers.hpp:202-209, which writes down the point only *)
  Definition path_recorded (l : list (notification P)) : list (C * P) :=
    flat_map (fun q => match fst q with SuccessfulStep => [(time (snd q), space (snd q))] | _ => [] end) l.
  Definition failures (l : list (notification P)) : nat := length (filter (fun q => match fst q with FailedStep => true | _ => false end) l).

  (** each point is what the corrector made, at its time, of a prediction from the point before *)
  Inductive follows : C -> P -> list (C * P) -> Prop :=
  | at_end : forall t x, follows t x []
  | one_more : forall t x d n y x' l, predict n x t d = (Success, y) -> correct n y (t + d)%C = (Success, x') ->
      follows (t + d)%C x' l -> follows t x (((t + d)%C, x') :: l).

  (** what an event says is so while it is told *)
  Definition truthful (q : notification P) : Prop :=
    let s := snd q in
    match fst q with
    | SuccessfulPredict y => exists n, predict n (space s) (time s) (delta s) = (Success, y)
    | FirstStepPredictorMatrixSolveFailure => exists n, fst (predict n (space s) (time s) (delta s)) <> Success
    | SuccessfulCorrect x => exists n y, predict n (space s) (time s) (delta s) = (Success, y) /\ correct n y (time s + delta s)%C = (Success, x)
    | CorrectorMatrixSolveFailure => exists n y, predict n (space s) (time s) (delta s) = (Success, y) /\
        fst (correct n y (time s + delta s)%C) <> Success /\ fst (correct n y (time s + delta s)%C) <> GoingToInfinity
    | InfinitePathTruncation => truncation = true /\ exists n, going n (space s) = true
    | NewStep => close (time s) endt (eps (prec s)) = false /\ delta s = next_delta (time s) endt (step s) /\ nsucc s < max_num_steps cfg /\ (min_step_size cfg <= step s)%R
    | _ => True
    end.
  (** the points announced by the corrector *)
  Definition announced (l : list (notification P)) : list P := flat_map (fun q => match fst q with SuccessfulCorrect x => [x] | _ => [] end) l.

  (** ** Proofs *)
  Lemma iterate_same : forall n s, fixed_iterate cfg predict correct n s = Some (snd (emit_iterate n s)).
  Proof.
    intros n s. unfold fixed_iterate, emit_iterate. destruct (predict n (space s) (time s) (delta s)) as [pc y]. destruct (negb (is_success pc)); [reflexivity|].
    destruct (correct n y (time s + delta s)%C) as [cc x]. destruct cc; reflexivity.
  Qed.

  Lemma turn_same : forall n s, turn endt eps truncation going (fixed_pre cfg) (fixed_iterate cfg predict correct) fixed_on_fail n s = snd (emit_turn n s).
  Proof.
    intros n s. unfold turn, emit_turn. destruct (close _ _ _); [reflexivity|]. destruct (is_success (fixed_pre cfg s)); [|reflexivity].
    rewrite iterate_same. destruct (emit_iterate _ _) as [l [c s2]]. cbn [snd]. destruct (truncation && going n (space s2)); [reflexivity|]. destruct (is_success c); reflexivity.
  Qed.

  Lemma run_same : forall fuel n s, snd (run endt eps truncation going (fixed_pre cfg) (fixed_iterate cfg predict correct) fixed_on_fail fuel n s) = snd (emit_run fuel n s).
  Proof.
    induction fuel as [|fuel IH]; intros n s; [reflexivity|]. cbn [run emit_run]. rewrite turn_same. destruct (emit_turn n s) as [l m]. cbn [snd]. destruct m as [c s'|s'|]; try reflexivity.
    specialize (IH (S n) s'). destruct (run _ _ _ _ _ _ _ fuel (S n) s') as [l1 o1]. destruct (emit_run fuel (S n) s') as [l2 o2]. exact IH.
  Qed.

  Lemma iterate_round : forall n s l c s2, emit_iterate n s = (l, (c, s2)) ->
    (is_success c = true -> round (map fst l ++ [SuccessfulStep])) /\ (is_success c = false -> round (map fst l ++ [FailedStep])).
  Proof.
    intros n s l c s2 E. unfold emit_iterate in E. destruct (predict n (space s) (time s) (delta s)) as [pc y]. destruct (is_success pc) eqn:Hp; cbn [negb] in E.
    - destruct (correct n y (time s + delta s)%C) as [cc x]. destruct cc; injection E as <- <- <-; cbn; (split; [try discriminate; intros _|try discriminate; intros _]); constructor.
    - injection E as <- <- <-. split; [congruence|]. intros _. constructor.
  Qed.

  Lemma turn_events : forall n s l m, emit_turn n s = (l, m) ->
    match m with Stop c _ => ending c (map fst l) | Go _ => round (map fst l) | Hang => False end.
  Proof.
    intros n s l m E. unfold emit_turn in E. destruct (close _ _ _); [injection E as <- <-; apply ends; discriminate|]. destruct (is_success (fixed_pre cfg s)); [|injection E as <- <-; apply ends; unfold fixed_pre; destruct (_ <=? _)%nat; [discriminate|destruct (Rlt_dec _ _); discriminate]].
    destruct (emit_iterate _ _) as [l1 [c s2]] eqn:Ei. destruct (iterate_round _ _ _ _ _ Ei) as [A B].
    destruct (truncation && going n (space s2)).
    - injection E as <- <-. rewrite map_app. cbn [map fst]. apply truncated. destruct (is_success c) eqn:Hc; eexists; [apply A|apply B]; reflexivity.
    - destruct (is_success c) eqn:Hc; injection E as <- <-; rewrite map_app; cbn [map fst]; [apply A|apply B]; reflexivity.
  Qed.

  Lemma run_events : forall fuel n s l o, emit_run fuel n s = (l, o) ->
    exists rounds last, map fst l = concat rounds ++ last /\ Forall round rounds /\
      match o with Finished c _ => ending c last | Running _ => last = [] | Hung => False end.
  Proof.
    induction fuel as [|fuel IH]; intros n s l o E; cbn [emit_run] in E.
    - injection E as <- <-. exists [], []. split; [reflexivity|]. split; [constructor|reflexivity].
    - destruct (emit_turn n s) as [l1 m] eqn:Et. pose proof (turn_events _ _ _ _ Et) as T. destruct m as [c s'|s'|].
      + injection E as <- <-. exists [], (map fst l1). split; [reflexivity|]. split; [constructor|exact T].
      + destruct (emit_run fuel (S n) s') as [l2 o2] eqn:Er. injection E as <- <-. destruct (IH _ _ _ _ Er) as (rs & last & E & F & L).
        exists (map fst l1 :: rs), last. split; [rewrite map_app; cbn [concat]; rewrite <- app_assoc; f_equal; exact E|]. split; [constructor; assumption|exact L].
      + destruct T.
  Qed.

  Lemma recorded_app : forall a b, path_recorded (a ++ b) = path_recorded a ++ path_recorded b.
  Proof. intros a b. unfold path_recorded. apply flat_map_app. Qed.
  Lemma failures_app : forall a b, failures (a ++ b) = failures a + failures b.
  Proof. intros a b. unfold failures. rewrite filter_app, app_length. reflexivity. Qed.

  Lemma iterate_step : forall n s l c s2, emit_iterate n s = (l, (c, s2)) ->
    path_recorded l = [] /\ failures l = 0%nat /\ time s2 = time s /\ delta s2 = delta s /\ nsucc s2 = nsucc s /\ nfail s2 = nfail s /\
    (is_success c = true -> exists y, predict n (space s) (time s) (delta s) = (Success, y) /\ correct n y (time s + delta s)%C = (Success, space s2)) /\
    (is_success c = false -> space s2 = space s).
  Proof.
    intros n s l c s2 E. unfold emit_iterate in E. destruct (predict n (space s) (time s) (delta s)) as [pc y] eqn:Hp. destruct (is_success pc) eqn:Hs; cbn [negb] in E.
    - assert (pc = Success) as -> by (destruct pc; cbn in Hs; congruence).
      destruct (correct n y (time s + delta s)%C) as [cc x] eqn:Hc.
      destruct cc; injection E as <- <- <-; repeat split; try discriminate; intros _; exists y; split; [reflexivity|exact Hc].
    - injection E as <- <- <-. repeat split; congruence.
  Qed.

  Lemma run_path : forall fuel n s l o, emit_run fuel n s = (l, o) ->
    follows (time s) (space s) (path_recorded l) /\
    match o with
    | Finished c s' => time s' = fst (last (path_recorded l) (time s, space s)) /\
        (c <> GoingToInfinity -> space s' = snd (last (path_recorded l) (time s, space s))) /\
        nsucc s' = nsucc s + length (path_recorded l) /\ nfail s' = nfail s + failures l
    | Running s' => (time s', space s') = last (path_recorded l) (time s, space s) /\
        nsucc s' = nsucc s + length (path_recorded l) /\ nfail s' = nfail s + failures l
    | Hung => False
    end.
  Proof.
    induction fuel as [|fuel IH]; intros n s l o E; cbn [emit_run] in E.
    - injection E as <- <-. cbn. split; [constructor|]. repeat split; lia.
    - destruct (emit_turn n s) as [l1 m] eqn:Et. unfold emit_turn in Et.
      destruct (close _ _ _). { injection Et as <- <-. injection E as <- <-. cbn. split; [constructor|]. repeat split; lia. }
      destruct (is_success (fixed_pre cfg s)) eqn:Hpre. 2:{ injection Et as <- <-. injection E as <- <-. cbn. split; [constructor|]. repeat split; lia. }
      destruct (emit_iterate _ _) as [le [c s2]] eqn:Ei. destruct (iterate_step _ _ _ _ _ Ei) as (Pl & Fl & Ti & De & Ns & Nf & Su & Fa). cbn in Ti, De, Ns, Nf, Su, Fa.
      destruct (truncation && going n (space s2)).
      + injection Et as <- <-. injection E as <- <-. rewrite recorded_app, failures_app, Pl, Fl. cbn. split; [constructor|]. rewrite Ti, Ns, Nf. repeat split; try lia; congruence.
      + destruct (is_success c) eqn:Hc; injection Et as <- <-.
        * destruct (emit_run fuel (S n) (on_success s2)) as [l2 o2] eqn:Er. injection E as <- <-. destruct (Su eq_refl) as (y & Hp & Hcor).
          rewrite !recorded_app, !failures_app, Pl, Fl, ?app_length. destruct (IH _ _ _ _ Er) as [Fo R]. cbn [on_success time space nsucc nfail] in Fo, R.
          cbn [path_recorded flat_map app fst snd]. rewrite Ti, De in Fo, R. cbn [on_success time space]. rewrite Ti, De.
          split; [eapply one_more; [exact Hp|exact Hcor|exact Fo]|].
          assert (L : forall (a d d' : C * P) (q : list (C * P)), last (a :: q) d = last q a) by (clear; intros a d d' q; revert a d; induction q as [|b q IHq]; intros a d; [reflexivity|]; change (last (a :: b :: q) d) with (last (b :: q) d); rewrite (IHq b d), (IHq b a); reflexivity).
          rewrite (L _ _ (time s, space s)). cbn [length failures filter]. change (failures [(SuccessfulStep, on_success s2)]) with 0%nat.
          destruct o2 as [c' s'| |s']; [|exact R|].
          -- destruct R as (R1 & R2 & R3 & R4). split; [exact R1|]. split; [exact R2|]. split; [rewrite R3|rewrite R4]; rewrite ?Ns, ?Nf; cbn; lia.
          -- destruct R as (R1 & R3 & R4). split; [exact R1|]. split; [rewrite R3|rewrite R4]; rewrite ?Ns, ?Nf; cbn; lia.
        * destruct (emit_run fuel (S n) (fixed_on_fail s2)) as [l2 o2] eqn:Er. injection E as <- <-.
          rewrite !recorded_app, !failures_app, Pl, Fl, ?app_length. destruct (IH _ _ _ _ Er) as [Fo R]. cbn [fixed_on_fail base_fail time space nsucc nfail] in Fo, R.
          rewrite Ti, (Fa eq_refl) in Fo, R. cbn [app]. change (path_recorded [(FailedStep, fixed_on_fail s2)]) with (@nil (C * P)). cbn [app].
          change (failures [(FailedStep, fixed_on_fail s2)]) with 1%nat. split; [exact Fo|].
          destruct o2 as [c' s'| |s']; [|exact R|].
          -- destruct R as (R1 & R2 & R3 & R4). split; [exact R1|]. split; [exact R2|]. split; [rewrite R3|rewrite R4]; rewrite ?Ns, ?Nf; cbn; lia.
          -- destruct R as (R1 & R3 & R4). split; [exact R1|]. split; [rewrite R3|rewrite R4]; rewrite ?Ns, ?Nf; cbn; lia.
  Qed.

  Lemma pre_success : forall s : st P, is_success (fixed_pre cfg s) = true -> nsucc s < max_num_steps cfg /\ (min_step_size cfg <= step s)%R.
  Proof.
    intros s. unfold fixed_pre. destruct (Nat.leb_spec (max_num_steps cfg) (nsucc s)); [discriminate|]. destruct (Rlt_dec (step s) (min_step_size cfg)); [discriminate|]. intros _. split; [assumption|lra].
  Qed.

  Lemma turn_truthful : forall n s l m, emit_turn n s = (l, m) -> Forall truthful l.
  Proof.
    intros n s l m E. unfold emit_turn in E. destruct (close _ _ _) eqn:Hcl; [injection E as <- <-; repeat constructor|].
    destruct (is_success (fixed_pre cfg s)) eqn:Hpre; [|injection E as <- <-; repeat constructor]. apply pre_success in Hpre.
    destruct (emit_iterate _ _) as [l1 [c s2]] eqn:Ei. unfold emit_iterate in Ei. set (s1 := set_delta s _) in Ei.
    assert (T0 : truthful (NewStep, s1)) by (cbn; tauto).
    assert (Hl : Forall truthful l1).
    { destruct (predict n (space s1) (time s1) (delta s1)) as [pc y] eqn:Hp. destruct (is_success pc) eqn:Hs; cbn [negb] in Ei.
      - assert (pc = Success) as -> by (destruct pc; cbn in Hs; congruence).
        assert (T1 : truthful (SuccessfulPredict y, s1)) by (exists n; exact Hp).
        assert (T2 : forall cc x, correct n y (time s1 + delta s1)%C = (cc, x) -> cc <> Success -> cc <> GoingToInfinity -> truthful (CorrectorMatrixSolveFailure, s1)) by (intros cc x E' A B; exists n, y; cbn [snd]; rewrite E'; auto).
        destruct (correct n y (time s1 + delta s1)%C) as [cc x] eqn:Hc.
        assert (T3 : cc = Success -> truthful (SuccessfulCorrect x, s1)) by (intros ->; exists n, y; auto).
        destruct cc; injection Ei as <- <- <-; repeat (constructor; [first [assumption|apply T3; reflexivity|eapply T2; [reflexivity|discriminate|discriminate]]|]); constructor.
      - injection Ei as <- <- <-. repeat (constructor; [first [assumption|exists n; cbn [snd]; rewrite Hp; cbn; intros ->; discriminate]|]). constructor. }
    destruct (truncation && going n (space s2)) eqn:Hg.
    - injection E as <- <-. apply Forall_app. split; [exact Hl|]. apply andb_prop in Hg. destruct Hg as [Ht Hg]. constructor; [split; [exact Ht|exists n; exact Hg]|repeat constructor].
    - destruct (is_success c); injection E as <- <-; apply Forall_app; (split; [exact Hl|repeat constructor]).
  Qed.

  Lemma run_truthful : forall fuel n s l o, emit_run fuel n s = (l, o) -> Forall truthful l.
  Proof.
    induction fuel as [|fuel IH]; intros n s l o E; cbn [emit_run] in E; [injection E as <- <-; constructor|].
    destruct (emit_turn n s) as [l1 m] eqn:Et. pose proof (turn_truthful _ _ _ _ Et) as T. destruct m as [c s'|s'|]; try (injection E as <- <-; exact T).
    destruct (emit_run fuel (S n) s') as [l2 o2] eqn:Er. injection E as <- <-. apply Forall_app. split; [exact T|]. eapply IH. exact Er.
  Qed.

  Lemma announced_app : forall a b, announced (a ++ b) = announced a ++ announced b.
  Proof. intros a b. unfold announced. apply flat_map_app. Qed.

  Lemma iterate_announced : forall n s l c s2, emit_iterate n s = (l, (c, s2)) -> announced l = if is_success c then [space s2] else [].
  Proof.
    intros n s l c s2 E. unfold emit_iterate in E. destruct (predict n (space s) (time s) (delta s)) as [pc y]. destruct (is_success pc) eqn:Hs; cbn [negb] in E.
    - destruct (correct n y (time s + delta s)%C) as [cc x]. destruct cc; injection E as <- <- <-; reflexivity.
    - injection E as <- <- <-. rewrite Hs. reflexivity.
  Qed.

  Lemma run_announced : forall fuel n s l o, emit_run fuel n s = (l, o) ->
    match o with
    | Finished GoingToInfinity s' => announced l = map snd (path_recorded l) \/ announced l = map snd (path_recorded l) ++ [space s']
    | _ => announced l = map snd (path_recorded l)
    end.
  Proof.
    induction fuel as [|fuel IH]; intros n s l o E; cbn [emit_run] in E; [injection E as <- <-; reflexivity|].
    destruct (emit_turn n s) as [l1 m] eqn:Et. unfold emit_turn in Et.
    destruct (close _ _ _). { injection Et as <- <-. injection E as <- <-. reflexivity. }
    destruct (is_success (fixed_pre cfg s)) eqn:Hpre. 2:{ injection Et as <- <-. injection E as <- <-. destruct (fixed_pre cfg s); try reflexivity. left. reflexivity. }
    destruct (emit_iterate _ _) as [le [c s2]] eqn:Ei. pose proof (iterate_announced _ _ _ _ _ Ei) as A. destruct (iterate_step _ _ _ _ _ Ei) as (Pl & _).
    destruct (truncation && going n (space s2)).
    - injection Et as <- <-. injection E as <- <-. rewrite announced_app, recorded_app, A, Pl. destruct (is_success c); [right|left]; reflexivity.
    - assert (G : announced l1 = map snd (path_recorded l1) /\ exists s', m = Go s').
      { destruct (is_success c); injection Et as <- <-; rewrite announced_app, recorded_app, A, Pl; (split; [reflexivity|eexists; reflexivity]). }
      destruct G as [G [s' ->]]. clear Et. destruct (emit_run fuel (S n) s') as [l2 o2] eqn:Er. injection E as <- <-. pose proof (IH _ _ _ _ Er) as R.
      rewrite announced_app, recorded_app, map_app, G. destruct o2 as [[] s3| |s3]; try (rewrite R; reflexivity). destruct R as [R|R]; rewrite R; [left; reflexivity|right; apply app_assoc].
  Qed.
End Emit.

(** ** Observers glued together *)
Section Multi.
  Context {N : Type}.
  (** an observer with the data it has gathered: Observe gets one notification *)
  Record observer := Obs { data : Type; observe : data -> N -> data }.
  (** the data of every one of these observers *)
  Fixpoint all_data (os : list observer) : Type := match os with [] => unit | o :: r => (data o * all_data r)%type end.
  (** detail/observer.hpp:109-114: every part gets the event, in order *)
  Fixpoint multi_observe (os : list observer) : all_data os -> N -> all_data os :=
    match os with [] => fun u _ => u | o :: r => fun d e => (observe o (fst d) e, multi_observe r (snd d) e) end.
  Definition multi (os : list observer) : observer := Obs (all_data os) (multi_observe os).
  Definition gathers (o : observer) (l : list N) (d : data o) : data o := fold_left (observe o) l d.
  (** what each one gathers alone *)
  Fixpoint each_alone (os : list observer) (l : list N) : all_data os -> all_data os :=
    match os with [] => fun u => u | o :: r => fun d => (gathers o l (fst d), each_alone r l (snd d)) end.

  Lemma multi_alone : forall os l d, gathers (multi os) l d = each_alone os l d.
  Proof.
    induction os as [|o os IH]; intros l d.
    - unfold gathers. induction l as [|e l IHl]; [reflexivity|]. cbn [fold_left]. exact IHl.
    - cbn [each_alone]. rewrite <- (IH l (snd d)). unfold gathers. cbn. revert d. induction l as [|e l IHl]; intros [d1 d2]; [reflexivity|]. cbn [fold_left]. apply (IHl (observe o d1 e, multi_observe os d2 e)).
  Qed.
End Multi.
