(** What the adaptive precision tracker tells its observers while it tracks a path.

    Models core/include/bertini2/trackers/base_tracker.hpp:232-286 (TrackPath) and amp_tracker.hpp:427-487, 509-529, 557-562, 621-700, 1020-1042, 1302-1340 with their calls
    of NotifyObservers, over the tracker of Amp.v.  Predictor, corrector, refinement and the precision criteria are arbitrary, as there.  Observers only look. *)
From Coq Require Import List ZArith Lia Reals Lra Bool Arith.
From Coquelicot Require Import Complex.
From Verif Require Import Newton Track AmpCost Amp.
Import ListNotations.

(** trackers/events.hpp:47-323: the events this tracker emits, with their data *)
Inductive amp_event (P : Type) :=
| AInitializing (start stop : C) (x : P)
| ASingularStartPoint
| ANewStep
| AFirstStepPredictorMatrixSolveFailure
| APredictorMatrixSolveFailure
| APredictorHigherPrecisionNecessary
| ASuccessfulPredict (x : P)
| ACorrectorMatrixSolveFailure
| ACorrectorHigherPrecisionNecessary
| ASuccessfulCorrect (x : P)
| APrecisionChanged (previous next : Z)
| ASuccessfulStep
| AFailedStep
| AInfinitePathTruncation
| ATrackingEnded.
Arguments AInitializing {P}. Arguments ASingularStartPoint {P}. Arguments ANewStep {P}. Arguments AFirstStepPredictorMatrixSolveFailure {P}. Arguments APredictorMatrixSolveFailure {P}.
Arguments APredictorHigherPrecisionNecessary {P}. Arguments ASuccessfulPredict {P}. Arguments ACorrectorMatrixSolveFailure {P}. Arguments ACorrectorHigherPrecisionNecessary {P}.
Arguments ASuccessfulCorrect {P}. Arguments APrecisionChanged {P}. Arguments ASuccessfulStep {P}. Arguments AFailedStep {P}. Arguments AInfinitePathTruncation {P}. Arguments ATrackingEnded {P}.

(** an event and the state of the tracker while the observers are told *)
Definition amp_notification (P : Type) := (amp_event P * st P)%type.

(** Closes goals of the form ~ In c [...] for distinct constants. *)
Ltac not_listed := let H := fresh in intros H; cbn [In] in H; repeat (destruct H as [H|H]; [discriminate H|]); exact H.

Section Emit.
  Context {P : Type}.
  Variable cfg : stepping.
  Variable amp : amp_config.
  Variable endt : C.
  Variable eps : Z -> R.
  Variable truncation : bool.
  Variable going : nat -> P -> bool.
  Variable predict : nat -> P -> C -> C -> code * P.
  Variable correct : nat -> P -> C -> code * P.
  Variables digits_B digits_C : nat -> Z.
  Variable digits_interval : nat -> R -> R -> R -> Z.
  Variable convert : Z -> P -> P.
  Variable refine : nat -> P -> C -> code * P.
  Local Notation change := (change_precision convert).
  Local Notation adjust := (adjust_success cfg amp digits_B digits_C convert).
  Local Notation criterion := (amp_criterion_error cfg amp endt digits_B digits_C digits_interval convert).
  Local Notation newton_error := (newton_convergence_error cfg endt convert).
  Local Notation initial_error := (initial_matrix_solve_error convert).
  Local Notation aiterate := (amp_iterate cfg amp endt predict correct digits_B digits_C digits_interval convert).

  (** amp_tracker.hpp:1302-1308 ChangePrecision: observers are told before the change, and only if there is one *)
  Definition emit_change (s : st P) (p : Z) : list (amp_notification P) := if (p =? prec s)%Z then [] else [(APrecisionChanged (prec s) p, s)].

  (** The four reactions to an iteration (amp_tracker.hpp:744-787, 791-801, 814-828, 846-895) end with UpdatePrecisionAndStepsize (720-725), which sets the step size and calls
      ChangePrecision: given the states [s] before and [s'] after a reaction, observers are told in the state with everything of [s'] but precision and point. *)
  Definition before_change (s s' : st P) : st P :=
    mkSt (time s') (space s) (step s') (delta s') (nsucc s') (nfail s') (csucc s') (cfail s') (since_inc s') (prec s) (since_decr s') (ndecr s').
  Definition emit_reaction (s s' : st P) : list (amp_notification P) := emit_change (before_change s s') (prec s').

  (** amp_tracker.hpp:621-700 TrackerIteration *)
  Definition amp_emit_iterate (n : nat) (s : st P) : list (amp_notification P) * option (code * st P) :=
    let (pc, predicted) := predict n (space s) (time s) (delta s) in
    let react e (c : code) s' := (e ++ emit_reaction s s', Some (c, s')) in
    let newton_react e (c : code) := match newton_error s with None => (e, None) | Some s' => react e c s' end in
    match pc with
    | MatrixSolveFailureFirstPartOfPrediction => react [(ANewStep, s); (AFirstStepPredictorMatrixSolveFailure, s)] pc (initial_error s)
    | MatrixSolveFailure => newton_react [(ANewStep, s); (APredictorMatrixSolveFailure, s)] pc
    | HigherPrecisionNecessary => react [(ANewStep, s); (APredictorHigherPrecisionNecessary, s)] pc (criterion n s)
    | _ =>
        let (cc, corrected) := correct n predicted (time s + delta s)%C in
        match cc with
        | MatrixSolveFailure | FailedToConverge => newton_react [(ANewStep, s); (ASuccessfulPredict predicted, s); (ACorrectorMatrixSolveFailure, s)] cc
        | HigherPrecisionNecessary => react [(ANewStep, s); (ASuccessfulPredict predicted, s); (ACorrectorHigherPrecisionNecessary, s)] cc (criterion n s)
        | GoingToInfinity => ([(ANewStep, s); (ASuccessfulPredict predicted, s)], Some (cc, s))
        | _ => let s' := adjust n (set_space s corrected) in
               ([(ANewStep, s); (ASuccessfulPredict predicted, s); (ASuccessfulCorrect corrected, s)] ++ emit_reaction (set_space s corrected) s', Some (Success, s'))
        end
    end.

  (** amp_tracker.hpp:557-562 PostTrackCleanup; [back] is the precision of the start point if it is to be preserved *)
  Definition emit_cleanup (back : option Z) (s : st P) : list (amp_notification P) :=
    match back with None => [(ATrackingEnded, s)] | Some p => emit_change s p ++ [(ATrackingEnded, change s p)] end.

  (** base_tracker.hpp:250-286, one round of the loop and what comes after it; amp_tracker.hpp:1020-1042 *)
  Definition amp_emit_turn (back : option Z) (n : nat) (s : st P) : list (amp_notification P) * move P :=
    if close (time s) endt (eps (prec s)) then (emit_cleanup back s, Stop Success s)
    else if is_success (amp_pre cfg amp s) then
      let (l, r) := amp_emit_iterate n (set_delta s (next_delta (time s) endt (step s))) in
      match r with
      | None => (l, Hang)
      | Some (c, s2) =>
          if truncation && going n (space s2) then (l ++ [(AInfinitePathTruncation, s2)] ++ emit_cleanup back s2, Stop GoingToInfinity s2)
          else if is_success c then (l ++ [(ASuccessfulStep, on_success s2)], Go (on_success s2))
          else (l ++ [(AFailedStep, amp_on_fail s2)], Go (amp_on_fail s2))
      end
    else (emit_cleanup back s, Stop (amp_pre cfg amp s) s).

  Fixpoint amp_emit_run (back : option Z) (fuel n : nat) (s : st P) : list (amp_notification P) * outcome P :=
    match fuel with
    | O => ([], Running s)
    | S fuel' =>
        let (l, m) := amp_emit_turn back n s in
        match m with
        | Stop c s' => (l, Finished c s')
        | Hang => (l, Hung)
        | Go s' => let (l', o) := amp_emit_run back fuel' (S n) s' in (l ++ l', o)
        end
    end.

  (** amp_tracker.hpp:509-529 InitialRefinement *)
  Fixpoint emit_refinement_loop (fuel k : nat) (s : st P) : list (amp_notification P) * option (code * st P) :=
    match fuel with
    | O => ([], None)
    | S fuel' =>
        if (maximum_precision amp <? prec s)%Z then ([(ASingularStartPoint, s)], Some (SingularStartPoint, s))
        else
          let p := (if (prec s =? DoublePrecision)%Z then LowestMultiplePrecision else prec s + PrecisionIncrement)%Z in
          let (c, s') := refine_stored refine k (change s p) in
          if is_success c then (emit_change s p, Some (Success, s'))
          else let (l, r) := emit_refinement_loop fuel' (S k) s' in (emit_change s p ++ l, r)
    end.
  Definition emit_refinement (s : st P) : list (amp_notification P) * option (code * st P) :=
    let (c, s') := refine_stored refine 0 s in
    if is_success c then ([], Some (Success, s'))
    else emit_refinement_loop (S (S (Z.to_nat (maximum_precision amp - prec s)))) 1 s'.

  (** amp_tracker.hpp:427-487 and base_tracker.hpp:232-286: the first event is told while the tracker is still in the state [old] left by an earlier path; the change from the
      precision of [old] to that of the start point (lines 464-467) is made without ChangePrecision, and not told *)
  Definition amp_emit_track (old : st P) (preserve : bool) (fuel : nat) (reinitialize : bool) (carried : R) (p0 : Z) (start : C) (x0 : P)
    : list (amp_notification P) * outcome P :=
    let back := if preserve then Some p0 else None in
    let (l, r) := emit_refinement (mkSt start x0 (first_step cfg reinitialize carried start endt) (RtoC 0) 0 0 0 0 0 p0 0 0) in
    match r with
    | None => ((AInitializing start endt x0, old) :: l, Hung)
    | Some (c, s) =>
        if is_success c then let (l', o) := amp_emit_run back fuel 0 s in ((AInitializing start endt x0, old) :: l ++ l', o)
        else ((AInitializing start endt x0, old) :: l ++ emit_cleanup back s, Finished c s)
    end.

  (** ** Specification *)

  (** at most one change of precision *)
  Inductive change_or_not : list (amp_event P) -> Prop :=
  | no_change : change_or_not []
  | one_change : forall p q, p <> q -> change_or_not [APrecisionChanged p q].

  (** the events of one round of the loop before the one saying how it ended, and whether this is success *)
  Inductive attempt : list (amp_event P) -> bool -> Prop :=
  | tangent_failed : forall c, change_or_not c -> attempt ([ANewStep; AFirstStepPredictorMatrixSolveFailure] ++ c) false
  | no_prediction : forall c, change_or_not c -> attempt ([ANewStep; APredictorMatrixSolveFailure] ++ c) false
  | prediction_imprecise : forall c, change_or_not c -> attempt ([ANewStep; APredictorHigherPrecisionNecessary] ++ c) false
  | no_correction : forall y c, change_or_not c -> attempt ([ANewStep; ASuccessfulPredict y; ACorrectorMatrixSolveFailure] ++ c) false
  | correction_imprecise : forall y c, change_or_not c -> attempt ([ANewStep; ASuccessfulPredict y; ACorrectorHigherPrecisionNecessary] ++ c) false
  | correction_infinite : forall y, attempt [ANewStep; ASuccessfulPredict y] false
  | corrected : forall y x c, change_or_not c -> attempt ([ANewStep; ASuccessfulPredict y; ASuccessfulCorrect x] ++ c) true.
  Inductive amp_round : list (amp_event P) -> Prop :=
  | failed : forall l, attempt l false -> amp_round (l ++ [AFailedStep])
  | succeeded : forall l, attempt l true -> amp_round (l ++ [ASuccessfulStep]).
  (** the end, with the code the tracker returns *)
  Inductive amp_ending : code -> list (amp_event P) -> Prop :=
  | amp_ends : forall c l, c <> GoingToInfinity -> change_or_not l -> amp_ending c (l ++ [ATrackingEnded])
  | amp_truncated : forall a b l, attempt a b -> change_or_not l -> amp_ending GoingToInfinity (a ++ [AInfinitePathTruncation] ++ l ++ [ATrackingEnded]).

  (** an observer which believes the precision is [p] and listens to the changes is right about the tracker's precision at every event *)
  Fixpoint knows (p : Z) (l : list (amp_notification P)) : Prop :=
    match l with
    | [] => True
    | (e, s) :: r => prec s = p /\ match e with APrecisionChanged a b => a = p /\ b <> p /\ knows b r | _ => knows p r end
    end.
  (** what it believes in the end *)
  Fixpoint believes (p : Z) (l : list (amp_notification P)) : Z :=
    match l with [] => p | (APrecisionChanged _ b, _) :: r => believes b r | _ :: r => believes p r end.

  Definition amp_path (l : list (amp_notification P)) : list (C * P) :=
    flat_map (fun q => match fst q with ASuccessfulStep => [(time (snd q), space (snd q))] | _ => [] end) l.
  Definition amp_failures (l : list (amp_notification P)) : nat := length (filter (fun q => match fst q with AFailedStep => true | _ => false end) l).

  (** each point is, but for changes of precision, what the corrector made, at its time, of a prediction from the point before *)
  Inductive amp_follows : C -> P -> list (C * P) -> Prop :=
  | amp_at_end : forall t x, amp_follows t x []
  | amp_one_more : forall t x d n z pc y cc w x' l, converted convert x z ->
      predict n z t d = (pc, y) -> ~ In pc [MatrixSolveFailureFirstPartOfPrediction; MatrixSolveFailure; HigherPrecisionNecessary] ->
      correct n y (t + d)%C = (cc, w) -> ~ In cc [MatrixSolveFailure; FailedToConverge; HigherPrecisionNecessary; GoingToInfinity] -> converted convert w x' ->
      amp_follows (t + d)%C x' l -> amp_follows t x (((t + d)%C, x') :: l).

  (** what an event says is so while it is told *)
  Definition amp_truthful (q : amp_notification P) : Prop :=
    let s := snd q in
    let predicted n pc y := predict n (space s) (time s) (delta s) = (pc, y) in
    let good_prediction n y := exists pc, predicted n pc y /\ ~ In pc [MatrixSolveFailureFirstPartOfPrediction; MatrixSolveFailure; HigherPrecisionNecessary] in
    match fst q with
    | AFirstStepPredictorMatrixSolveFailure => exists n y, predicted n MatrixSolveFailureFirstPartOfPrediction y
    | APredictorMatrixSolveFailure => exists n y, predicted n MatrixSolveFailure y
    | APredictorHigherPrecisionNecessary => exists n y, predicted n HigherPrecisionNecessary y
    | ASuccessfulPredict y => exists n, good_prediction n y
    | ACorrectorMatrixSolveFailure => exists n y, good_prediction n y /\ In (fst (correct n y (time s + delta s)%C)) [MatrixSolveFailure; FailedToConverge]
    | ACorrectorHigherPrecisionNecessary => exists n y, good_prediction n y /\ fst (correct n y (time s + delta s)%C) = HigherPrecisionNecessary
    | ASuccessfulCorrect x => exists n y cc, good_prediction n y /\ correct n y (time s + delta s)%C = (cc, x) /\
        ~ In cc [MatrixSolveFailure; FailedToConverge; HigherPrecisionNecessary; GoingToInfinity]
    | AInfinitePathTruncation => truncation = true /\ exists n, going n (space s) = true
    | ANewStep => close (time s) endt (eps (prec s)) = false /\ delta s = next_delta (time s) endt (step s) /\ nsucc s < max_num_steps cfg /\ (min_step_size cfg <= step s)%R /\
        (prec s <= maximum_precision amp)%Z
    | ASingularStartPoint => (maximum_precision amp < prec s)%Z
    | _ => True
    end.

  (** ** Proofs *)
  Lemma amp_iterate_same : forall n s, aiterate n s = snd (amp_emit_iterate n s).
  Proof.
    intros n s. unfold amp_iterate, amp_emit_iterate. destruct (predict n (space s) (time s) (delta s)) as [pc y].
    destruct (correct n y (time s + delta s)%C) as [cc x]. destruct pc; try reflexivity; try (destruct (newton_error s); reflexivity);
      (destruct cc; try reflexivity; destruct (newton_error s); reflexivity).
  Qed.

  Lemma amp_turn_same : forall back n s, turn endt eps truncation going (amp_pre cfg amp) aiterate amp_on_fail n s = snd (amp_emit_turn back n s).
  Proof.
    intros back n s. unfold turn, amp_emit_turn. destruct (close _ _ _); [reflexivity|]. destruct (is_success (amp_pre cfg amp s)); [|reflexivity].
    rewrite amp_iterate_same. destruct (amp_emit_iterate _ _) as [l [[c s2]|]]; cbn [snd]; [|reflexivity]. destruct (truncation && going n (space s2)); [reflexivity|]. destruct (is_success c); reflexivity.
  Qed.

  Lemma amp_run_same : forall back fuel n s, snd (run endt eps truncation going (amp_pre cfg amp) aiterate amp_on_fail fuel n s) = snd (amp_emit_run back fuel n s).
  Proof.
    intros back. induction fuel as [|fuel IH]; intros n s; [reflexivity|]. cbn [run amp_emit_run]. rewrite (amp_turn_same back). destruct (amp_emit_turn back n s) as [l m]. cbn [snd]. destruct m as [c s'|s'|]; try reflexivity.
    specialize (IH (S n) s'). destruct (run _ _ _ _ _ _ _ fuel (S n) s') as [l1 o1]. destruct (amp_emit_run back fuel (S n) s') as [l2 o2]. exact IH.
  Qed.

  Lemma refinement_same : forall s, initial_refinement amp convert refine s = snd (emit_refinement s).
  Proof.
    assert (L : forall fuel k s, initial_refinement_loop amp convert refine fuel k s = snd (emit_refinement_loop fuel k s)).
    { induction fuel as [|fuel IH]; intros k s; [reflexivity|]. cbn [initial_refinement_loop emit_refinement_loop]. destruct (_ <? _)%Z; [reflexivity|].
      destruct (refine_stored _ _ _) as [c s']. destruct (is_success c); [reflexivity|]. rewrite IH. destruct (emit_refinement_loop fuel (S k) s'). reflexivity. }
    intros s. unfold initial_refinement, emit_refinement. destruct (refine_stored _ _ _) as [c s']. destruct (is_success c); [reflexivity|]. apply L.
  Qed.

  (** *** what a reaction keeps *)
  Definition kept (s s' : st P) : Prop := time s' = time s /\ delta s' = delta s /\ nsucc s' = nsucc s /\ nfail s' = nfail s /\ converted convert (space s) (space s').
  Lemma kept_refl : forall s, kept s s.
  Proof. intros s. repeat split. constructor. Qed.
  Lemma kept_update : forall s p h, kept s (update convert s p h).
  Proof. intros s p h. unfold update, change_precision. destruct (_ =? _)%Z; repeat split; cbn; repeat constructor. Qed.
  Lemma kept_adjust : forall n s, kept s (adjust n s).
  Proof. intros n s. unfold adjust_success. cbv zeta. destruct (minimize _ _ _ _ _ _ _) as [p h]. apply (kept_update (mkSt _ _ _ _ _ _ _ _ _ _ _ _) p h). Qed.
  Lemma kept_criterion : forall n s, kept s (criterion n s).
  Proof. intros n s. unfold amp_criterion_error. cbv zeta. destruct (Rlt_dec _ _); [apply kept_update|]. destruct (minimize _ _ _ _ _ _ _) as [p h]. apply kept_update. Qed.
  Lemma kept_newton : forall s s', newton_error s = Some s' -> kept s s'.
  Proof. intros s s' E. unfold newton_convergence_error in E. cbv zeta in E. destruct (raise_precision _ _ _ _); [|discriminate]. injection E as <-. apply kept_update. Qed.
  Lemma kept_initial : forall s, kept s (initial_error s).
  Proof. intros s. apply kept_update. Qed.

  Lemma change_emits : forall s p, change_or_not (map fst (emit_change s p)).
  Proof. intros s p. unfold emit_change. destruct (Z.eqb_spec p (prec s)); constructor. congruence. Qed.
  Lemma reaction_emits : forall s s', change_or_not (map fst (emit_reaction s s')).
  Proof. intros s s'. apply change_emits. Qed.

  Lemma iterate_attempt : forall n s l r, amp_emit_iterate n s = (l, r) ->
    match r with Some (c, _) => attempt (map fst l) (is_success c) | None => attempt (map fst l) false end.
  Proof.
    intros n s l r E. unfold amp_emit_iterate in E. destruct (predict n (space s) (time s) (delta s)) as [pc y]. destruct (correct n y (time s + delta s)%C) as [cc x].
    assert (N1 : attempt ([ANewStep; APredictorMatrixSolveFailure]) false) by (apply (no_prediction []); constructor).
    assert (N2 : attempt ([ANewStep; ASuccessfulPredict y; ACorrectorMatrixSolveFailure]) false) by (apply (no_correction y []); constructor).
    destruct (newton_error s) as [s1|]; destruct pc; try (injection E as <- <-; rewrite ?map_app; cbn [map fst is_success];
      first [exact N1 | apply tangent_failed; apply reaction_emits | apply no_prediction; apply reaction_emits | apply prediction_imprecise; apply reaction_emits]);
    (destruct cc; injection E as <- <-; rewrite ?map_app; cbn [map fst is_success];
      first [exact N2 | apply no_correction; apply reaction_emits | apply correction_imprecise; apply reaction_emits | apply correction_infinite | apply corrected; apply reaction_emits]).
  Qed.

  Lemma cleanup_events : forall back s, exists c, map fst (emit_cleanup back s) = c ++ [ATrackingEnded] /\ change_or_not c.
  Proof.
    intros [p|] s; cbn [emit_cleanup].
    - exists (map fst (emit_change s p)). rewrite map_app. split; [reflexivity|apply change_emits].
    - exists []. split; [reflexivity|constructor].
  Qed.

  Lemma amp_pre_finite : forall s : st P, amp_pre cfg amp s <> GoingToInfinity.
  Proof. intros s. unfold amp_pre. destruct (_ <=? _)%nat; [discriminate|]. destruct (Rlt_dec _ _); [discriminate|]. destruct (_ <? _)%Z; discriminate. Qed.

  Lemma amp_turn_events : forall back n s l m, amp_emit_turn back n s = (l, m) ->
    match m with Stop c _ => amp_ending c (map fst l) | Go _ => amp_round (map fst l) | Hang => attempt (map fst l) false end.
  Proof.
    intros back n s l m E. unfold amp_emit_turn in E. destruct (close _ _ _).
    { injection E as <- <-. destruct (cleanup_events back s) as (c & -> & H). apply amp_ends; [discriminate|exact H]. }
    destruct (is_success (amp_pre cfg amp s)). 2:{ injection E as <- <-. destruct (cleanup_events back s) as (c & -> & H). apply amp_ends; [apply amp_pre_finite|exact H]. }
    destruct (amp_emit_iterate _ _) as [l1 r] eqn:Ei. pose proof (iterate_attempt _ _ _ _ Ei) as A. destruct r as [[c s2]|]; [|injection E as <- <-; exact A].
    destruct (truncation && going n (space s2)).
    - injection E as <- <-. rewrite map_app. destruct (cleanup_events back s2) as (d & Ed & H). match goal with |- amp_ending _ ?x => replace x with (map fst l1 ++ [AInfinitePathTruncation] ++ d ++ [ATrackingEnded]) by (cbn [app map fst]; do 2 f_equal; symmetry; exact Ed) end. eapply amp_truncated; [exact A|exact H].
    - destruct (is_success c); injection E as <- <-; rewrite map_app; cbn [map fst]; [apply succeeded|apply failed]; exact A.
  Qed.

  Lemma amp_run_events : forall back fuel n s l o, amp_emit_run back fuel n s = (l, o) ->
    exists rounds last, map fst l = concat rounds ++ last /\ Forall amp_round rounds /\
      match o with Finished c _ => amp_ending c last | Running _ => last = [] | Hung => attempt last false end.
  Proof.
    intros back. induction fuel as [|fuel IH]; intros n s l o E; cbn [amp_emit_run] in E.
    - injection E as <- <-. exists [], []. split; [reflexivity|]. split; [constructor|reflexivity].
    - destruct (amp_emit_turn back n s) as [l1 m] eqn:Et. pose proof (amp_turn_events _ _ _ _ _ Et) as T. destruct m as [c s'|s'|].
      + injection E as <- <-. exists [], (map fst l1). split; [reflexivity|]. split; [constructor|exact T].
      + destruct (amp_emit_run back fuel (S n) s') as [l2 o2] eqn:Er. injection E as <- <-. destruct (IH _ _ _ _ Er) as (rs & last & E & F & L).
        exists (map fst l1 :: rs), last. split; [rewrite map_app; cbn [concat]; rewrite <- app_assoc; f_equal; exact E|]. split; [constructor; assumption|exact L].
      + injection E as <- <-. exists [], (map fst l1). split; [reflexivity|]. split; [constructor|exact T].
  Qed.

  (** *** the precision is known *)
  Lemma knows_app : forall a b p, knows p (a ++ b) <-> knows p a /\ knows (believes p a) b.
  Proof.
    induction a as [|[e s] a IH]; intros b p; cbn [app knows believes]; [tauto|]. destruct e; rewrite IH; tauto.
  Qed.
  Lemma believes_app : forall a b p, believes p (a ++ b) = believes (believes p a) b.
  Proof. induction a as [|[e s] a IH]; intros b p; cbn [app believes]; [reflexivity|]. destruct e; apply IH. Qed.

  Lemma change_knows : forall s p, knows (prec s) (emit_change s p) /\ believes (prec s) (emit_change s p) = p.
  Proof. intros s p. unfold emit_change. destruct (Z.eqb_spec p (prec s)) as [E|E]; cbn; [auto|]. repeat split; auto. Qed.
  Lemma change_prec : forall s p, prec (change s p) = p.
  Proof. intros s p. unfold change_precision. destruct (Z.eqb_spec p (prec s)) as [E|E]; [auto|reflexivity]. Qed.
  Lemma reaction_knows : forall s s', knows (prec s) (emit_reaction s s') /\ believes (prec s) (emit_reaction s s') = prec s'.
  Proof. intros s s'. exact (change_knows (before_change s s') (prec s')). Qed.

  Lemma iterate_knows : forall n s l r, amp_emit_iterate n s = (l, r) ->
    knows (prec s) l /\ match r with Some (_, s') => believes (prec s) l = prec s' | None => True end.
  Proof.
    intros n s l r E. unfold amp_emit_iterate in E. destruct (predict n (space s) (time s) (delta s)) as [pc y]. destruct (correct n y (time s + delta s)%C) as [cc x].
    pose proof (reaction_knows s) as R. pose proof (reaction_knows (set_space s x) (adjust n (set_space s x))) as R'. change (prec (set_space s x)) with (prec s) in R'.
    destruct (newton_error s) as [s1|]; destruct pc;
      try (injection E as <- <-; cbn [app knows believes]; repeat split; first [apply R | exact I]);
      (destruct cc; injection E as <- <-; cbn [app knows believes]; repeat split; first [apply R | apply R' | exact I]).
  Qed.

  Lemma cleanup_knows : forall back s, knows (prec s) (emit_cleanup back s) /\ believes (prec s) (emit_cleanup back s) = match back with Some p => p | None => prec s end.
  Proof.
    intros [p|] s; cbn [emit_cleanup].
    - destruct (change_knows s p) as [A B]. rewrite knows_app, believes_app, B. cbn [knows believes]. rewrite change_prec. auto.
    - cbn. auto.
  Qed.

  Lemma amp_run_knows : forall back fuel n s l o, amp_emit_run back fuel n s = (l, o) ->
    knows (prec s) l /\
    match o with Finished _ s' => believes (prec s) l = match back with Some p => p | None => prec s' end | Running s' => believes (prec s) l = prec s' | Hung => True end.
  Proof.
    intros back. induction fuel as [|fuel IH]; intros n s l o E; cbn [amp_emit_run] in E.
    - injection E as <- <-. cbn. auto.
    - destruct (amp_emit_turn back n s) as [l1 m] eqn:Et. unfold amp_emit_turn in Et.
      destruct (close _ _ _). { injection Et as <- <-. injection E as <- <-. apply cleanup_knows. }
      destruct (is_success (amp_pre cfg amp s)). 2:{ injection Et as <- <-. injection E as <- <-. apply cleanup_knows. }
      destruct (amp_emit_iterate _ _) as [le r] eqn:Ei. destruct (iterate_knows _ _ _ _ Ei) as [K B]. change (prec (set_delta s _)) with (prec s) in K, B.
      destruct r as [[c s2]|]. 2:{ injection Et as <- <-. injection E as <- <-. split; [exact K|exact I]. }
      destruct (truncation && going n (space s2)).
      + injection Et as <- <-. injection E as <- <-. rewrite knows_app, believes_app, B. destruct (cleanup_knows back s2) as [A D]. cbn [app knows believes]. repeat split; assumption.
      + assert (G : exists s', m = Go s' /\ prec s' = prec s2 /\ knows (prec s) l1 /\ believes (prec s) l1 = prec s2).
        { destruct (is_success c); injection Et as <- <-; (eexists; split; [reflexivity|]; split; [reflexivity|]; rewrite knows_app, believes_app, B; cbn; auto). }
        destruct G as (s' & -> & Q & K1 & B1). clear Et. destruct (amp_emit_run back fuel (S n) s') as [l2 o2] eqn:Er. injection E as <- <-.
        destruct (IH _ _ _ _ Er) as [K2 B2]. rewrite Q in K2, B2. rewrite knows_app, believes_app, B1. repeat split; assumption.
  Qed.

  Lemma amp_path_app : forall a b, amp_path (a ++ b) = amp_path a ++ amp_path b.
  Proof. intros a b. unfold amp_path. apply flat_map_app. Qed.
  Lemma amp_failures_app : forall a b, amp_failures (a ++ b) = amp_failures a + amp_failures b.
  Proof. intros a b. unfold amp_failures. rewrite filter_app, app_length. reflexivity. Qed.
  Lemma refine_prec : forall k s c s', refine_stored refine k s = (c, s') -> prec s' = prec s /\ time s' = time s /\ nsucc s' = nsucc s /\ nfail s' = nfail s /\
    (is_success c = true -> exists y, refine k y (time s) = (Success, space s')).
  Proof.
    intros k s c s' E. unfold refine_stored in E. destruct (refine k (space s) (time s)) as [c1 x] eqn:Er. injection E as <- <-. destruct (is_success c1) eqn:Hc; cbn; repeat split; try discriminate.
    intros _. exists (space s). assert (c1 = Success) as -> by (destruct c1; cbn in Hc; congruence). exact Er.
  Qed.

  (** the events of the initial refinement: changes of precision, and that the start point is singular *)
  Inductive refinement_events : code -> list (amp_event P) -> Prop :=
  | refined_start : refinement_events Success []
  | singular_start : refinement_events SingularStartPoint [ASingularStartPoint]
  | raised : forall p q c l, p <> q -> refinement_events c l -> refinement_events c (APrecisionChanged p q :: l).

  Lemma raised_or_not : forall c l k, change_or_not k -> refinement_events c l -> refinement_events c (k ++ l).
  Proof. intros c l k [|p q H] R; [exact R|]. cbn. constructor; assumption. Qed.

  Lemma refinement_loop_told : forall fuel k s l c s', emit_refinement_loop fuel k s = (l, Some (c, s')) ->
    refinement_events c (map fst l) /\ knows (prec s) l /\ believes (prec s) l = prec s' /\ time s' = time s /\ nsucc s' = nsucc s /\ nfail s' = nfail s /\
    amp_path l = [] /\ amp_failures l = 0%nat /\ (is_success c = true -> exists i y, refine i y (time s) = (Success, space s')).
  Proof.
    induction fuel as [|fuel IH]; intros k s l c s' E; cbn [emit_refinement_loop] in E; [discriminate|].
    destruct (_ <? _)%Z. { injection E as <- <- <-. cbn. repeat split; try constructor. discriminate. }
    set (p := if (prec s =? DoublePrecision)%Z then _ else _) in E.
    destruct (change_knows s p) as [A B]. pose proof (change_emits s p) as Ch. pose proof (change_prec s p) as Pr.
    assert (Ot : time (change s p) = time s /\ nsucc (change s p) = nsucc s /\ nfail (change s p) = nfail s) by (unfold change_precision; destruct (p =? prec s)%Z; repeat split).
    assert (Em : amp_path (emit_change s p) = [] /\ amp_failures (emit_change s p) = 0%nat) by (unfold emit_change; destruct (p =? prec s)%Z; split; reflexivity).
    destruct (refine_stored _ _ _) as [c1 s1] eqn:Er. destruct (refine_prec _ _ _ _ Er) as (R1 & R2 & R3 & R4 & R5). destruct Ot as (O1 & O2 & O3). destruct Em as [Em1 Em2].
    destruct (is_success c1) eqn:Hc.
    - injection E as <- <- <-. rewrite B, R1, Pr, R2, R3, R4, O1, O2, O3. repeat split; auto.
      + rewrite <- (app_nil_r (map fst _)). apply raised_or_not; [exact Ch|constructor].
      + intros _. destruct (R5 eq_refl) as [y R6]. exists k, y. rewrite <- O1. exact R6.
    - destruct (emit_refinement_loop fuel (S k) s1) as [l2 r2] eqn:El. injection E as <- ->. destruct (IH _ _ _ _ _ El) as (I1 & I2 & I3 & I4 & I5 & I6 & I7 & I8 & I9).
      rewrite R1, Pr in I2, I3. rewrite R2, O1 in I4, I9. rewrite R3, O2 in I5. rewrite R4, O3 in I6.
      split; [rewrite map_app; apply raised_or_not; assumption|]. rewrite knows_app, believes_app, B.
      repeat split; try assumption.
      + rewrite amp_path_app, Em1. exact I7.
      + rewrite amp_failures_app, Em2. exact I8.
  Qed.

  Lemma refinement_told : forall s l c s', emit_refinement s = (l, Some (c, s')) ->
    refinement_events c (map fst l) /\ knows (prec s) l /\ believes (prec s) l = prec s' /\ time s' = time s /\ nsucc s' = nsucc s /\ nfail s' = nfail s /\
    amp_path l = [] /\ amp_failures l = 0%nat /\ (is_success c = true -> exists i y, refine i y (time s) = (Success, space s')).
  Proof.
    intros s l c s' E. unfold emit_refinement in E. destruct (refine_stored _ _ _) as [c1 s1] eqn:Er. destruct (refine_prec _ _ _ _ Er) as (R1 & R2 & R3 & R4 & R5).
    destruct (is_success c1) eqn:Hc.
    - injection E as <- <- <-. cbn [map knows believes]. repeat split; try assumption; try constructor; try congruence. intros _. destruct (R5 eq_refl) as [y R6]. exists 0%nat, y. exact R6.
    - apply refinement_loop_told in E. rewrite R1, R2, R3, R4 in E. exact E.
  Qed.

  (** *** the path *)
  Lemma converted_trans : forall x y z, converted convert x y -> converted convert y z -> converted convert x z.
  Proof. intros x y z A B. induction B; [exact A|]. constructor. apply IHB. exact A. Qed.
  Lemma change_silent : forall s p, amp_path (emit_change s p) = [] /\ amp_failures (emit_change s p) = 0%nat.
  Proof. intros s p. unfold emit_change. destruct (_ =? _)%Z; split; reflexivity. Qed.
  Lemma cleanup_silent : forall back s, amp_path (emit_cleanup back s) = [] /\ amp_failures (emit_cleanup back s) = 0%nat.
  Proof.
    intros [p|] s; cbn [emit_cleanup]; [|split; reflexivity]. rewrite amp_path_app, amp_failures_app. destruct (change_silent s p) as [-> ->]. split; reflexivity.
  Qed.

  Lemma amp_iterate_step : forall n s l r, amp_emit_iterate n s = (l, r) ->
    amp_path l = [] /\ amp_failures l = 0%nat /\
    match r with
    | None => True
    | Some (c, s2) => time s2 = time s /\ delta s2 = delta s /\ nsucc s2 = nsucc s /\ nfail s2 = nfail s /\
        (is_success c = false -> converted convert (space s) (space s2)) /\
        (is_success c = true -> exists pc y cc w, predict n (space s) (time s) (delta s) = (pc, y) /\ ~ In pc [MatrixSolveFailureFirstPartOfPrediction; MatrixSolveFailure; HigherPrecisionNecessary] /\
           correct n y (time s + delta s)%C = (cc, w) /\ ~ In cc [MatrixSolveFailure; FailedToConverge; HigherPrecisionNecessary; GoingToInfinity] /\ converted convert w (space s2))
    end.
  Proof.
    intros n s l r E.
    assert (Si : forall e s1 s2, amp_path e = [] -> amp_failures e = 0%nat -> amp_path (e ++ emit_reaction s1 s2) = [] /\ amp_failures (e ++ emit_reaction s1 s2) = 0%nat).
    { intros e s1 s2 A B. rewrite amp_path_app, amp_failures_app, A, B. unfold emit_reaction. destruct (change_silent (before_change s1 s2) (prec s2)) as [-> ->]. split; reflexivity. }
    assert (Re : forall e s' c, amp_path e = [] -> amp_failures e = 0%nat -> kept s s' -> is_success c = false -> (l, r) = (e ++ emit_reaction s s', Some (c, s')) ->
      amp_path l = [] /\ amp_failures l = 0%nat /\ match r with None => True | Some (c, s2) => time s2 = time s /\ delta s2 = delta s /\ nsucc s2 = nsucc s /\ nfail s2 = nfail s /\
        (is_success c = false -> converted convert (space s) (space s2)) /\
        (is_success c = true -> exists pc y cc w, predict n (space s) (time s) (delta s) = (pc, y) /\ ~ In pc [MatrixSolveFailureFirstPartOfPrediction; MatrixSolveFailure; HigherPrecisionNecessary] /\
           correct n y (time s + delta s)%C = (cc, w) /\ ~ In cc [MatrixSolveFailure; FailedToConverge; HigherPrecisionNecessary; GoingToInfinity] /\ converted convert w (space s2)) end).
    { intros e s' c A B (K1 & K2 & K3 & K4 & K5) Hc Q. injection Q as -> ->. destruct (Si e s s' A B) as [S1 S2]. rewrite Hc. repeat split; auto; discriminate. }
    unfold amp_emit_iterate in E. destruct (predict n (space s) (time s) (delta s)) as [pc y] eqn:Hp. destruct (correct n y (time s + delta s)%C) as [cc x] eqn:Hcor.
    assert (Ok : ~ In pc [MatrixSolveFailureFirstPartOfPrediction; MatrixSolveFailure; HigherPrecisionNecessary] -> ~ In cc [MatrixSolveFailure; FailedToConverge; HigherPrecisionNecessary; GoingToInfinity] ->
      forall l' r', (l', r') = ([(ANewStep, s); (ASuccessfulPredict y, s); (ASuccessfulCorrect x, s)] ++ emit_reaction (set_space s x) (adjust n (set_space s x)), Some (Success, adjust n (set_space s x))) ->
      amp_path l' = [] /\ amp_failures l' = 0%nat /\ match r' with None => True | Some (c, s2) => time s2 = time s /\ delta s2 = delta s /\ nsucc s2 = nsucc s /\ nfail s2 = nfail s /\
        (is_success c = false -> converted convert (space s) (space s2)) /\
        (is_success c = true -> exists pc0 y0 cc0 w, (pc, y) = (pc0, y0) /\ ~ In pc0 [MatrixSolveFailureFirstPartOfPrediction; MatrixSolveFailure; HigherPrecisionNecessary] /\
           correct n y0 (time s + delta s)%C = (cc0, w) /\ ~ In cc0 [MatrixSolveFailure; FailedToConverge; HigherPrecisionNecessary; GoingToInfinity] /\ converted convert w (space s2)) end).
    { intros Hpc Hcc l' r' Q. injection Q as -> ->. destruct (kept_adjust n (set_space s x)) as (K1 & K2 & K3 & K4 & K5).
      destruct (Si [(ANewStep, s); (ASuccessfulPredict y, s); (ASuccessfulCorrect x, s)] (set_space s x) (adjust n (set_space s x)) eq_refl eq_refl) as [S1 S2].
      split; [exact S1|]. split; [exact S2|]. split; [exact K1|]. split; [exact K2|]. split; [exact K3|]. split; [exact K4|]. split; [discriminate|]. intros _.
      exists pc, y, cc, x. repeat split; assumption. }
    pose proof (kept_newton s) as Kn. pose proof (kept_criterion n s) as Kc. pose proof (kept_initial s) as Ki.
    destruct (newton_error s) as [s1|]; [specialize (Kn s1 eq_refl)|clear Kn]; destruct pc;
      try (eapply Re; [| | | |symmetry; exact E]; [reflexivity|reflexivity|assumption|reflexivity]);
      try (injection E as <- <-; split; [reflexivity|split; [reflexivity|exact I]]);
      (destruct cc;
        try (eapply Re; [| | | |symmetry; exact E]; [reflexivity|reflexivity|assumption|reflexivity]);
        try (injection E as <- <-; split; [reflexivity|split; [reflexivity|exact I]]);
        try (injection E as <- <-; repeat split; [intros _; constructor|discriminate]);
        (apply Ok; [not_listed|not_listed|symmetry; exact E])).
  Qed.

  (** *** what is told is true *)
  Lemma change_truthful : forall s p, Forall amp_truthful (emit_change s p).
  Proof. intros s p. unfold emit_change. destruct (_ =? _)%Z; repeat constructor. Qed.
  Lemma cleanup_truthful : forall back s, Forall amp_truthful (emit_cleanup back s).
  Proof. intros [p|] s; cbn [emit_cleanup]; [apply Forall_app; split; [apply change_truthful|]|]; repeat constructor. Qed.

  Lemma iterate_truthful : forall n s l r, amp_truthful (ANewStep, s) -> amp_emit_iterate n s = (l, r) -> Forall amp_truthful l.
  Proof.
    intros n s l r T0 E. unfold amp_emit_iterate in E. destruct (predict n (space s) (time s) (delta s)) as [pc y] eqn:Hp. destruct (correct n y (time s + delta s)%C) as [cc x] eqn:Hc.
    assert (R : forall e s1 s2, Forall amp_truthful e -> Forall amp_truthful (e ++ emit_reaction s1 s2)) by (intros e s1 s2 H; apply Forall_app; split; [exact H|apply change_truthful]).
    assert (T1 : pc = MatrixSolveFailureFirstPartOfPrediction -> amp_truthful (AFirstStepPredictorMatrixSolveFailure, s)) by (intros ->; exists n, y; exact Hp).
    assert (T2 : pc = MatrixSolveFailure -> amp_truthful (APredictorMatrixSolveFailure, s)) by (intros ->; exists n, y; exact Hp).
    assert (T3 : pc = HigherPrecisionNecessary -> amp_truthful (APredictorHigherPrecisionNecessary, s)) by (intros ->; exists n, y; exact Hp).
    assert (T4 : ~ In pc [MatrixSolveFailureFirstPartOfPrediction; MatrixSolveFailure; HigherPrecisionNecessary] ->
      amp_truthful (ASuccessfulPredict y, s) /\ (In cc [MatrixSolveFailure; FailedToConverge] -> amp_truthful (ACorrectorMatrixSolveFailure, s)) /\
      (cc = HigherPrecisionNecessary -> amp_truthful (ACorrectorHigherPrecisionNecessary, s)) /\
      (~ In cc [MatrixSolveFailure; FailedToConverge; HigherPrecisionNecessary; GoingToInfinity] -> amp_truthful (ASuccessfulCorrect x, s))).
    { intros Hn. assert (G : exists pc0, predict n (space s) (time s) (delta s) = (pc0, y) /\ ~ In pc0 [MatrixSolveFailureFirstPartOfPrediction; MatrixSolveFailure; HigherPrecisionNecessary])
        by (exists pc; split; assumption).
      split; [exists n; exact G|]. split; [|split].
      - intros K. exists n, y. split; [exact G|]. cbn [snd]. rewrite Hc. exact K.
      - intros K. exists n, y. split; [exact G|]. cbn [snd]. rewrite Hc. exact K.
      - intros K. exists n, y, cc. split; [exact G|]. split; [exact Hc|exact K]. }
    clear Hp Hc.
    assert (N : forall s1 s2, Forall amp_truthful (emit_reaction s1 s2)) by (intros; apply change_truthful).
    destruct (newton_error s) as [s1|]; destruct pc;
      try (injection E as <- <-; cbn [app]; repeat (apply Forall_cons; [first [exact T0|apply T1; reflexivity|apply T2; reflexivity|apply T3; reflexivity]|]); first [apply Forall_nil|apply N]; fail);
      (destruct T4 as (T4 & T5 & T6 & T7); [not_listed|];
       destruct cc; injection E as <- <-; cbn [app];
       repeat (apply Forall_cons; [first [exact T0|exact T4|apply T5; cbn; tauto|apply T6; reflexivity|apply T7; not_listed]|]); first [apply Forall_nil|apply N]).
  Qed.

  Lemma amp_run_truthful : forall back fuel n s l o, amp_emit_run back fuel n s = (l, o) -> Forall amp_truthful l.
  Proof.
    intros back. induction fuel as [|fuel IH]; intros n s l o E; cbn [amp_emit_run] in E; [injection E as <- <-; constructor|].
    destruct (amp_emit_turn back n s) as [l1 m] eqn:Et.
    assert (T : Forall amp_truthful l1).
    { unfold amp_emit_turn in Et. destruct (close _ _ _) eqn:Hcl; [injection Et as <- <-; apply cleanup_truthful|].
      destruct (is_success (amp_pre cfg amp s)) eqn:Hpre; [|injection Et as <- <-; apply cleanup_truthful]. apply is_success_true in Hpre. apply amp_pre_success in Hpre.
      destruct (amp_emit_iterate _ _) as [le r] eqn:Ei. apply iterate_truthful in Ei; [|cbn; tauto].
      destruct r as [[c s2]|]; [|injection Et as <- <-; exact Ei].
      destruct (truncation && going n (space s2)) eqn:Hg.
      - injection Et as <- <-. apply Forall_app. split; [exact Ei|]. apply andb_prop in Hg. destruct Hg as [Ht Hg]. constructor; [split; [exact Ht|exists n; exact Hg]|apply cleanup_truthful].
      - destruct (is_success c); injection Et as <- <-; apply Forall_app; (split; [exact Ei|repeat constructor]). }
    destruct m as [c s'|s'|]; try (injection E as <- <-; exact T).
    destruct (amp_emit_run back fuel (S n) s') as [l2 o2] eqn:Er. injection E as <- <-. apply Forall_app. split; [exact T|]. eapply IH. exact Er.
  Qed.

  Lemma refinement_truthful : forall s l r, emit_refinement s = (l, r) -> Forall amp_truthful l.
  Proof.
    assert (L : forall fuel k s l r, emit_refinement_loop fuel k s = (l, r) -> Forall amp_truthful l).
    { induction fuel as [|fuel IH]; intros k s l r E; cbn [emit_refinement_loop] in E; [injection E as <- <-; constructor|].
      destruct (Z.ltb_spec (maximum_precision amp) (prec s)) as [H|H]; [injection E as <- <-; constructor; [exact H|constructor]|].
      destruct (refine_stored _ _ _) as [c s']. destruct (is_success c); [injection E as <- <-; apply change_truthful|].
      destruct (emit_refinement_loop fuel (S k) s') as [l2 r2] eqn:El. injection E as <- <-. apply Forall_app. split; [apply change_truthful|]. eapply IH. exact El. }
    intros s l r E. unfold emit_refinement in E. destruct (refine_stored _ _ _) as [c s']. destruct (is_success c); [injection E as <- <-; constructor|]. eapply L. exact E.
  Qed.

  Lemma last_cons : forall (a d : C * P) q, last (a :: q) d = last q a.
  Proof. intros a d q. revert a d. induction q as [|b q IHq]; intros a d; [reflexivity|]. change (last (a :: b :: q) d) with (last (b :: q) d). rewrite (IHq b d), (IHq b a). reflexivity. Qed.

  Lemma follows_from : forall t x z l, converted convert x z -> amp_follows t z l -> amp_follows t x l.
  Proof. intros t x z l H F. destruct F as [t z|t z d n z0 pc y cc w x' l A B D E G K M]; [constructor|].
    exact (amp_one_more t x d n z0 pc y cc w x' l (converted_trans _ _ _ H A) B D E G K M). Qed.

  Lemma amp_run_path : forall back fuel n s l o, amp_emit_run back fuel n s = (l, o) ->
    amp_follows (time s) (space s) (amp_path l) /\
    match o with
    | Finished c s' => time s' = fst (last (amp_path l) (time s, space s)) /\ nsucc s' = nsucc s + length (amp_path l) /\ nfail s' = nfail s + amp_failures l /\
        (c <> GoingToInfinity -> converted convert (snd (last (amp_path l) (time s, space s))) (space s'))
    | Running s' => time s' = fst (last (amp_path l) (time s, space s)) /\ nsucc s' = nsucc s + length (amp_path l) /\ nfail s' = nfail s + amp_failures l /\
        converted convert (snd (last (amp_path l) (time s, space s))) (space s')
    | Hung => True
    end.
  Proof.
    intros back. induction fuel as [|fuel IH]; intros n s l o E; cbn [amp_emit_run] in E.
    - injection E as <- <-. cbn. split; [constructor|]. repeat split; try lia. constructor.
    - destruct (amp_emit_turn back n s) as [l1 m] eqn:Et. unfold amp_emit_turn in Et. destruct (cleanup_silent back s) as [Cs1 Cs2].
      destruct (close _ _ _). { injection Et as <- <-. injection E as <- <-. rewrite Cs1, Cs2. cbn. split; [constructor|]. repeat split; try lia. constructor. }
      destruct (is_success (amp_pre cfg amp s)). 2:{ injection Et as <- <-. injection E as <- <-. rewrite Cs1, Cs2. cbn. split; [constructor|]. repeat split; try lia. constructor. }
      destruct (amp_emit_iterate _ _) as [le r] eqn:Ei. destruct (amp_iterate_step _ _ _ _ Ei) as (Pl & Fl & R).
      destruct r as [[c s2]|]. 2:{ injection Et as <- <-. injection E as <- <-. rewrite Pl. split; [constructor|exact I]. }
      destruct R as (Ti & De & Ns & Nf & Fa & Su). cbn [time delta nsucc nfail space set_delta] in Ti, De, Ns, Nf, Fa, Su.
      destruct (truncation && going n (space s2)).
      + injection Et as <- <-. injection E as <- <-. destruct (cleanup_silent back s2) as [D1 D2]. assert (L : forall t, amp_path (le ++ t) = amp_path t /\ amp_failures (le ++ t) = amp_failures t) by (intros t; rewrite amp_path_app, amp_failures_app, Pl, Fl; split; reflexivity).
        destruct (L ((AInfinitePathTruncation, s2) :: emit_cleanup back s2)) as [L1 L2].
        change (amp_path ((AInfinitePathTruncation, s2) :: emit_cleanup back s2)) with (amp_path (emit_cleanup back s2)) in L1.
        change (amp_failures ((AInfinitePathTruncation, s2) :: emit_cleanup back s2)) with (amp_failures (emit_cleanup back s2)) in L2.
        cbn [app]. rewrite L1, L2, D1, D2. cbn. split; [constructor|].
        rewrite Ti, Ns, Nf. repeat split; try lia. congruence.
      + destruct (is_success c) eqn:Hc; injection Et as <- <-.
        * destruct (amp_emit_run back fuel (S n) (on_success s2)) as [l2 o2] eqn:Er. injection E as <- <-. destruct (Su eq_refl) as (pc & y & cc & w & Hp & Hpc & Hcor & Hcc & Cv).
          destruct (IH _ _ _ _ Er) as [Fo R]. cbn [on_success time space nsucc nfail] in Fo, R. rewrite Ti, De in Fo, R.
          assert (L : amp_path ((le ++ [(ASuccessfulStep, on_success s2)]) ++ l2) = ((time s + next_delta (time s) endt (step s))%C, space s2) :: amp_path l2)
            by (rewrite !amp_path_app, Pl; cbn; rewrite Ti, De; reflexivity).
          assert (L' : amp_failures ((le ++ [(ASuccessfulStep, on_success s2)]) ++ l2) = amp_failures l2) by (rewrite !amp_failures_app, Fl; reflexivity).
          rewrite L, L', last_cons. split; [eapply amp_one_more; [constructor|exact Hp|exact Hpc|exact Hcor|exact Hcc|exact Cv|exact Fo]|].
          cbn [length]. destruct o2 as [c' s'| |s']; [|exact I|]; destruct R as (R1 & R2 & R3 & R4); (split; [exact R1|]; split; [rewrite R2, Ns; lia|]; split; [rewrite R3, Nf; lia|exact R4]).
        * destruct (amp_emit_run back fuel (S n) (amp_on_fail s2)) as [l2 o2] eqn:Er. injection E as <- <-.
          destruct (IH _ _ _ _ Er) as [Fo R]. cbn [amp_on_fail base_fail time space nsucc nfail] in Fo, R. rewrite Ti in Fo, R.
          assert (L : amp_path ((le ++ [(AFailedStep, amp_on_fail s2)]) ++ l2) = amp_path l2) by (rewrite !amp_path_app, Pl; reflexivity).
          assert (L' : amp_failures ((le ++ [(AFailedStep, amp_on_fail s2)]) ++ l2) = S (amp_failures l2)) by (rewrite !amp_failures_app, Fl; reflexivity).
          rewrite L, L'. split; [eapply follows_from; [exact (Fa eq_refl)|exact Fo]|].
          assert (LT : fst (last (amp_path l2) (time s, space s)) = fst (last (amp_path l2) (time s, space s2)) /\ converted convert (snd (last (amp_path l2) (time s, space s))) (snd (last (amp_path l2) (time s, space s2)))).
          { destruct (amp_path l2) as [|a q]; [cbn; split; [reflexivity|exact (Fa eq_refl)]|]. rewrite !last_cons. split; [reflexivity|constructor]. }
          destruct LT as [LT1 LT2]. rewrite LT1.
          destruct o2 as [c' s'| |s']; [|exact I|]; destruct R as (R1 & R2 & R3 & R4); (split; [exact R1|]; split; [rewrite R2, Ns; lia|]; split; [rewrite R3, Nf; lia|]).
          -- intros Hn. eapply converted_trans; [exact LT2|exact (R4 Hn)].
          -- eapply converted_trans; [exact LT2|exact R4].
  Qed.
End Emit.
