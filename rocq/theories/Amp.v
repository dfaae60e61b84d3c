(** The adaptive precision tracker, core/include/bertini2/trackers/amp_tracker.hpp.

    As in Track.v the numerics are arbitrary functions of the round: the predictor, the corrector, the
    digits asked for by criteria B and C, the digits asked for by an interval of step sizes, and the
    change a point undergoes when its precision is changed.  Precisions are unbounded integers. *)
From Coq Require Import List ZArith Lia Reals Lra Bool Arith.
From Coquelicot Require Import Complex.
From Verif Require Import Newton Track AmpCost.
Import ListNotations.
Local Open Scope R_scope.

(** AdaptiveMultiplePrecisionConfig, trackers/config.hpp:153-221 (the fields the control flow uses),
    with NewtonConfig::max_num_newton_iterations, the order of the predictor, the digits of the
    tracking tolerance and of the final tolerance. *)
Record amp_config := mkAmp {
  maximum_precision : Z;
  consecutive_before_decrease : nat;
  max_num_decreases : nat;
  newton_its : Z; predictor_order : Z; digits_tolerance : Z; digits_final : Z }.

Section Amp.
Context {P : Type}.
Variable cfg : stepping.
Variable amp : amp_config.
Variable endt : C.
Variable eps : Z -> R.
Variable truncation : bool.
Variable going : nat -> P -> bool.
Variable predict : nat -> P -> C -> C -> code * P.
Variable correct : nat -> P -> C -> code * P.
Variables digits_B digits_C : nat -> Z.               (* DigitsB(), DigitsC() in round n *)
Variable digits_interval : nat -> R -> R -> R -> Z.   (* MinDigitsForStepsizeInterval *)
Variable convert : Z -> P -> P.                       (* a point at another precision *)
Variable refine : nat -> P -> C -> code * P.          (* Newton refinement of the start point *)

(** PreIterationCheck, amp_tracker.hpp:539-549. *)
Definition amp_pre (s : st P) : code :=
  if (max_num_steps cfg <=? nsucc s)%nat then MaxNumStepsTaken
  else if Rlt_dec (step s) (min_step_size cfg) then MinStepSizeReached
  else if (maximum_precision amp <? prec s)%Z then MaxPrecisionReached
  else Success.

(** SetStepSize(next_stepsize_) and ChangePrecision(next_precision_) without refinement:
    UpdatePrecisionAndStepsize, amp_tracker.hpp:720-725 and ChangePrecision, amp_tracker.hpp:1302-1340. *)
Definition change_precision (s : st P) (p : Z) : st P :=
  if (p =? prec s)%Z then s
  else mkSt (time s) (convert p (space s)) (step s) (delta s) (nsucc s) (nfail s) (csucc s) (cfail s)
            (since_inc s) p (since_decr s) (ndecr s).
Definition update (s : st P) (p : Z) (h : R) : st P := change_precision (set_step s h) p.

(** distance in time still to go: abs(current_time_ - endtime_) *)
Definition togo (s : st P) : R := Cmod (time s - endt)%C.

(** AdjustAMPStepSuccess, amp_tracker.hpp:744-787. *)
Definition adjust_success (n : nat) (s : st P) : st P :=
  let min_stepsize := step s * fail_factor cfg in
  let max_stepsize := Rmin (step s * success_factor cfg) (max_step_size cfg) in
  let min_precision := Z.max (Z.max (digits_B n) (digits_C n)) (Z.max (digits_tolerance amp) DoublePrecision) in
  let max_precision := Z.max min_precision (prec s) in
  let max_stepsize := if (since_inc s <? consecutive_before_increase cfg)%nat then step s else max_stepsize in
  let min_precision :=
    if (since_decr s <? consecutive_before_decrease amp)%nat || (max_num_decreases amp <=? ndecr s)%nat
    then Z.max min_precision (prec s) else min_precision in
  let (p, h) := minimize (digits_B n) (newton_its amp) (predictor_order amp) max_stepsize
                         min_precision min_stepsize max_precision in
  let since_inc' := if (if Rlt_dec (step s) h then true else false) || (p <? prec s)%Z then 0%nat else S (since_inc s) in
  let lower := (p <? prec s)%Z in
  update (mkSt (time s) (space s) (step s) (delta s) (nsucc s) (nfail s) (csucc s) (cfail s)
               since_inc' (prec s)
               (if lower then 0%nat else S (since_decr s)) (if lower then S (ndecr s) else ndecr s)) p h.

(** InitialMatrixSolveError, amp_tracker.hpp:791-801. *)
Definition initial_matrix_solve_error (s : st P) : st P :=
  update s (if (prec s =? DoublePrecision)%Z then LowestMultiplePrecision
            else prec s + (1 + Z.of_nat (cfail s)) * PrecisionIncrement)%Z (step s).

(** The while loop of NewtonConvergenceError, amp_tracker.hpp:818-825. *)
Fixpoint raise_precision (fuel : nat) (p : Z) (h to : R) : option Z :=
  match fuel with
  | O => None
  | S fuel' =>
      if Rlt_dec h (min_step_for_precision p to)
      then raise_precision fuel' (if (p =? DoublePrecision)%Z then LowestMultiplePrecision else p + PrecisionIncrement)%Z h to
      else Some p
  end.
(** A number of turns after which that loop has ended, if it ends (see raise_precision_ends). *)
Definition raise_fuel (h to : R) : nat := (2 + Z.to_nat (up (1000 * to / h)))%nat.

(** NewtonConvergenceError, amp_tracker.hpp:814-828; None when the loop does not end. *)
Definition newton_convergence_error (s : st P) : option (st P) :=
  let h := fail_factor cfg * step s in
  match raise_precision (raise_fuel h (togo s)) (prec s) h (togo s) with
  | None => None
  | Some p => Some (update s p h)
  end.

(** AMPCriterionError, amp_tracker.hpp:846-895.  (max_precision, line 881-883, is computed but not
    used: the configured maximum is passed on.) *)
Definition amp_criterion_error (n : nat) (s : st P) : st P :=
  let min_next_precision :=
    (if (prec s =? DoublePrecision)%Z then LowestMultiplePrecision
     else prec s + (1 + Z.of_nat (cfail s)) * PrecisionIncrement)%Z in
  let min_stepsize := min_step_for_precision (prec s) (togo s) in
  let max_stepsize := step s * fail_factor cfg in
  if Rlt_dec max_stepsize min_stepsize
  then update s min_next_precision (Rmax (step s * (1 + fail_factor cfg) / 2) min_stepsize)
  else
    let min_precision :=
      Z.max (Z.max min_next_precision (digits_B n))
            (Z.max (Z.max (digits_C n) (digits_interval n min_stepsize max_stepsize (togo s))) (digits_final amp)) in
    let (p, h) := minimize (digits_B n) (newton_its amp) (predictor_order amp) max_stepsize
                           min_precision min_stepsize (maximum_precision amp) in
    update s p h.

(** TrackerIteration, amp_tracker.hpp:621-700. *)
Definition amp_iterate (n : nat) (s : st P) : option (code * st P) :=
  let (pc, predicted) := predict n (space s) (time s) (delta s) in
  match pc with
  | MatrixSolveFailureFirstPartOfPrediction => Some (pc, initial_matrix_solve_error s)
  | MatrixSolveFailure => option_map (pair pc) (newton_convergence_error s)
  | HigherPrecisionNecessary => Some (pc, amp_criterion_error n s)
  | _ =>
      let (cc, corrected) := correct n predicted (time s + delta s)%C in
      match cc with
      | MatrixSolveFailure | FailedToConverge => option_map (pair cc) (newton_convergence_error s)
      | HigherPrecisionNecessary => Some (cc, amp_criterion_error n s)
      | GoingToInfinity => Some (cc, s)
      | _ => Some (Success, adjust_success n (set_space s corrected))
      end
  end.

(** OnStepFail, amp_tracker.hpp:1029-1035. *)
Definition amp_on_fail (s : st P) : st P :=
  let s := base_fail s in
  mkSt (time s) (space s) (step s) (delta s) (nsucc s) (nfail s) (csucc s) (cfail s)
       0 (prec s) 0 (ndecr s).

(** RefineStoredPoint, amp_tracker.hpp:1164-1180, the k-th time. *)
Definition refine_stored (k : nat) (s : st P) : code * st P :=
  let (c, x) := refine k (space s) (time s) in
  (c, if is_success c then set_space s x else s).

(** InitialRefinement, amp_tracker.hpp:509-529: None when the fuel is used up. *)
Fixpoint initial_refinement_loop (fuel k : nat) (s : st P) : option (code * st P) :=
  match fuel with
  | O => None
  | S fuel' =>
      if (maximum_precision amp <? prec s)%Z then Some (SingularStartPoint, s)
      else
        let (c, s') := refine_stored k (change_precision s
                         (if (prec s =? DoublePrecision)%Z then LowestMultiplePrecision else prec s + PrecisionIncrement)%Z) in
        if is_success c then Some (Success, s') else initial_refinement_loop fuel' (S k) s'
  end.
Definition initial_refinement (s : st P) : option (code * st P) :=
  let (c, s') := refine_stored 0 s in
  if is_success c then Some (Success, s')
  else initial_refinement_loop (S (S (Z.to_nat (maximum_precision amp - prec s)))) 1 s'.

(** TrackPath of an adaptive precision tracker; p0 is the precision of the start point
    (TrackerLoopInitialization, amp_tracker.hpp:427-487). *)
Definition amp_track (fuel : nat) (reinitialize : bool) (carried : R) (p0 : Z) (start : C) (x0 : P)
  : list (st P) * outcome P :=
  match initial_refinement (mkSt start x0 (first_step cfg reinitialize carried start endt) 0 0 0 0 0 0 p0 0 0) with
  | None => ([], Hung)
  | Some (c, s) =>
      if is_success c
      then run endt eps truncation going amp_pre amp_iterate amp_on_fail fuel 0 s
      else ([], Finished c s)
  end.

Local Notation aturn := (turn endt eps truncation going amp_pre amp_iterate amp_on_fail).
Local Notation arun := (run endt eps truncation going amp_pre amp_iterate amp_on_fail).

(* ------------------------------------------------------------------ frames *)

Lemma update_frame : forall s p h,
  time (update s p h) = time s /\ delta (update s p h) = delta s /\ nsucc (update s p h) = nsucc s
  /\ cfail (update s p h) = cfail s
  /\ step (update s p h) = h /\ prec (update s p h) = p
  /\ since_inc (update s p h) = since_inc s
  /\ (space (update s p h) = space s \/ space (update s p h) = convert p (space s)).
Proof.
  intros s p h. unfold update, change_precision. destruct (Z.eqb_spec p (prec (set_step s h))) as [E|E];
    cbn; repeat match goal with |- _ /\ _ => split end; try reflexivity; auto.
Qed.

(** What a point can become by changes of precision. *)
Inductive converted : P -> P -> Prop :=
| cv_same : forall x, converted x x
| cv_step : forall p x y, converted x y -> converted x (convert p y).

Lemma update_converted : forall s p h x, converted x (space s) -> converted x (space (update s p h)).
Proof.
  intros s p h x H. destruct (update_frame s p h) as [_ [_ [_ [_ [_ [_ [_ [->| ->]]]]]]]]; [exact H|].
  constructor; exact H.
Qed.

Definition newton_codes_only : Prop := forall n y t,
  In (fst (correct n y t)) [Success; FailedToConverge; MatrixSolveFailure; HigherPrecisionNecessary].

Lemma adjust_frame : forall n s,
  time (adjust_success n s) = time s /\ delta (adjust_success n s) = delta s
  /\ nsucc (adjust_success n s) = nsucc s /\ converted (space s) (space (adjust_success n s)).
Proof.
  intros n s. unfold adjust_success. cbv zeta. destruct (minimize _ _ _ _ _ _ _) as [p h].
  match goal with |- context [update ?x p h] => destruct (update_frame x p h) as [A [B [D _]]];
     pose proof (update_converted x p h (space s) (cv_same _)) as Q end.
  repeat split; assumption.
Qed.

Lemma criterion_frame : forall n s,
  time (amp_criterion_error n s) = time s /\ delta (amp_criterion_error n s) = delta s
  /\ nsucc (amp_criterion_error n s) = nsucc s /\ converted (space s) (space (amp_criterion_error n s)).
Proof.
  intros n s. unfold amp_criterion_error. cbv zeta.
  destruct (Rlt_dec _ _).
  - match goal with |- context [update ?x ?p ?h] => destruct (update_frame x p h) as [A [B [D _]]];
     pose proof (update_converted x p h (space s) (cv_same _)) as Q end. repeat split; assumption.
  - destruct (minimize _ _ _ _ _ _ _) as [p h].
    match goal with |- context [update ?x ?p ?h] => destruct (update_frame x p h) as [A [B [D _]]];
     pose proof (update_converted x p h (space s) (cv_same _)) as Q end. repeat split; assumption.
Qed.

Lemma newton_error_frame : forall s s', newton_convergence_error s = Some s' ->
  time s' = time s /\ delta s' = delta s /\ nsucc s' = nsucc s /\ converted (space s) (space s').
Proof.
  intros s s' E. unfold newton_convergence_error in E. cbv zeta in E.
  destruct (raise_precision _ _ _ _) as [p|]; [|discriminate]. injection E as <-.
  match goal with |- context [update ?x ?p ?h] => destruct (update_frame x p h) as [A [B [D _]]];
     pose proof (update_converted x p h (space s) (cv_same _)) as Q end. repeat split; assumption.
Qed.

Lemma initial_error_frame : forall s,
  time (initial_matrix_solve_error s) = time s /\ delta (initial_matrix_solve_error s) = delta s
  /\ nsucc (initial_matrix_solve_error s) = nsucc s
  /\ converted (space s) (space (initial_matrix_solve_error s)).
Proof.
  intro s. unfold initial_matrix_solve_error.
  match goal with |- context [update ?x ?p ?h] => destruct (update_frame x p h) as [A [B [D _]]];
     pose proof (update_converted x p h (space s) (cv_same _)) as Q end. repeat split; assumption.
Qed.

Lemma fst_pair : forall {A B} (x : A * B) a b, x = (a, b) -> fst x = a.
Proof. intros A B x a b ->. reflexivity. Qed.

(** The four things an iteration can do. *)
Lemma amp_iterate_cases : newton_codes_only -> forall n s c s', amp_iterate n s = Some (c, s') ->
  (c = Success /\ exists x y, correct n y (time s + delta s)%C = (Success, x)
                              /\ s' = adjust_success n (set_space s x))
  \/ (c <> Success /\ (s' = initial_matrix_solve_error s \/ newton_convergence_error s = Some s'
                       \/ s' = amp_criterion_error n s)).
Proof.
  intros Hc n s c s' E. unfold amp_iterate in E.
  destruct (predict n (space s) (time s) (delta s)) as [pc y].
  assert (X : forall (E : (let (cc, corrected) := correct n y (time s + delta s)%C in
      match cc with
      | MatrixSolveFailure | FailedToConverge => option_map (pair cc) (newton_convergence_error s)
      | HigherPrecisionNecessary => Some (cc, amp_criterion_error n s)
      | GoingToInfinity => Some (cc, s)
      | _ => Some (Success, adjust_success n (set_space s corrected))
      end) = Some (c, s')),
   (c = Success /\ exists x y, correct n y (time s + delta s)%C = (Success, x)
                              /\ s' = adjust_success n (set_space s x))
   \/ (c <> Success /\ (s' = initial_matrix_solve_error s \/ newton_convergence_error s = Some s'
                       \/ s' = amp_criterion_error n s))).
  { clear E. intro E. specialize (Hc n y (time s + delta s)%C).
    destruct (correct n y (time s + delta s)%C) as [cc x] eqn:Ec. cbn [fst] in Hc.
    destruct Hc as [<-|[<-|[<-|[<-|[]]]]].
    - injection E as <- <-. left. split; [reflexivity|]. exists x, y. split; [exact Ec|reflexivity].
    - destruct (newton_convergence_error s) as [s2|]; [|discriminate]. injection E as <- <-.
      right. split; [discriminate|]. auto.
    - destruct (newton_convergence_error s) as [s2|]; [|discriminate]. injection E as <- <-.
      right. split; [discriminate|]. auto.
    - injection E as <- <-. right. split; [discriminate|]. auto. }
  destruct pc; try (apply X; exact E).
  - injection E as <- <-. right. split; [discriminate|]. auto.
  - destruct (newton_convergence_error s) as [s2|]; [|discriminate]. injection E as <- <-.
    right. split; [discriminate|]. auto.
  - injection E as <- <-. right. split; [discriminate|]. auto.
Qed.

Lemma amp_frame : forall n s c s', amp_iterate n s = Some (c, s') -> time s' = time s /\ delta s' = delta s.
Proof.
  intros n s c s' E. unfold amp_iterate in E.
  destruct (predict n (space s) (time s) (delta s)) as [pc y].
  assert (N : forall c0, option_map (pair c0) (newton_convergence_error s) = Some (c, s') ->
              time s' = time s /\ delta s' = delta s).
  { intros c0 E0. destruct (newton_convergence_error s) as [s2|] eqn:En; [|discriminate].
    cbn in E0. injection E0 as _ <-. apply newton_error_frame in En. tauto. }
  pose proof (initial_error_frame s) as I1. pose proof (criterion_frame n s) as I2.
  assert (X : (let (cc, corrected) := correct n y (time s + delta s)%C in
      match cc with
      | MatrixSolveFailure | FailedToConverge => option_map (pair cc) (newton_convergence_error s)
      | HigherPrecisionNecessary => Some (cc, amp_criterion_error n s)
      | GoingToInfinity => Some (cc, s)
      | _ => Some (Success, adjust_success n (set_space s corrected))
      end) = Some (c, s') -> time s' = time s /\ delta s' = delta s).
  { clear E. intro E. destruct (correct n y (time s + delta s)%C) as [cc x].
    pose proof (adjust_frame n (set_space s x)) as I3. cbn [time delta set_space] in I3.
    destruct cc; try (apply N with (1 := E)); injection E as _ <-; tauto. }
  destruct pc; try (apply X; exact E); try (apply N with (1 := E)); injection E as _ <-; tauto.
Qed.

Lemma amp_pre_success : forall s, amp_pre s = Success ->
  (nsucc s < max_num_steps cfg)%nat /\ min_step_size cfg <= step s /\ (prec s <= maximum_precision amp)%Z.
Proof.
  intros s E. unfold amp_pre in E. destruct (Nat.leb_spec (max_num_steps cfg) (nsucc s)); [discriminate|].
  destruct (Rlt_dec (step s) (min_step_size cfg)); [discriminate|].
  destruct (Z.ltb_spec (maximum_precision amp) (prec s)); [discriminate|].
  split; [assumption|]. split; [lra|assumption].
Qed.

Lemma amp_hyps : 0 <= min_step_size cfg ->
  (forall s : st P, time (amp_on_fail s) = time s /\ space (amp_on_fail s) = space s)
  /\ (forall s : st P, amp_pre s = Success -> 0 <= step s).
Proof.
  intro Hm. split; [intro s; split; reflexivity|].
  intros s E. destruct (amp_pre_success s E) as [_ [H _]]. lra.
Qed.

(* ------------------------------------------------------------------ times *)

Lemma initial_refinement_loop_frame : forall fuel k s c s',
  initial_refinement_loop fuel k s = Some (c, s') -> time s' = time s /\ nsucc s' = nsucc s /\ step s' = step s.
Proof.
  induction fuel as [|fuel IH]; intros k s c s' E; cbn in E; [discriminate|].
  destruct (Z.ltb_spec (maximum_precision amp) (prec s)); [injection E as <- <-; auto|].
  match type of E with context [refine_stored k ?x] => set (s1 := x) in * end.
  assert (F1 : time s1 = time s /\ nsucc s1 = nsucc s /\ step s1 = step s).
  { unfold s1, change_precision. destruct (_ =? prec s)%Z; cbn; auto. }
  assert (F2 : forall c2 s2, refine_stored k s1 = (c2, s2) -> time s2 = time s /\ nsucc s2 = nsucc s /\ step s2 = step s).
  { intros c2 s2 E2. unfold refine_stored in E2. destruct (refine k (space s1) (time s1)) as [c3 x].
    injection E2 as _ <-. destruct (is_success c3); cbn; exact F1. }
  destruct (refine_stored k s1) as [c2 s2] eqn:E2. destruct (F2 _ _ eq_refl) as [G1 [G2 G3]].
  destruct (is_success c2); [injection E as <- <-; auto|].
  apply IH in E. destruct E as [H1 [H2 H3]]. rewrite H1, H2, H3. auto.
Qed.

Lemma initial_refinement_frame : forall s c s',
  initial_refinement s = Some (c, s') -> time s' = time s /\ nsucc s' = nsucc s /\ step s' = step s.
Proof.
  intros s c s' E. unfold initial_refinement in E.
  destruct (refine_stored 0 s) as [c1 s1] eqn:E1.
  assert (F1 : time s1 = time s /\ nsucc s1 = nsucc s /\ step s1 = step s).
  { unfold refine_stored in E1. destruct (refine 0 (space s) (time s)) as [c3 x].
    injection E1 as _ <-. destruct (is_success c3); cbn; auto. }
  destruct (is_success c1); [injection E as <- <-; exact F1|].
  apply initial_refinement_loop_frame in E. destruct E as [H1 [H2 H3]]. rewrite H1, H2, H3. exact F1.
Qed.

Lemma amp_track_times : 0 <= min_step_size cfg -> forall fuel re h p start x0,
  Forall (fun s => on_segment start endt (time s)) (fst (amp_track fuel re h p start x0))
  /\ chain (closer endt) (fst (amp_track fuel re h p start x0)).
Proof.
  intros Hm fuel re h p start x0. unfold amp_track.
  destruct (initial_refinement _) as [[c s]|] eqn:E; [|split; [constructor|exact I]].
  apply initial_refinement_frame in E. cbn in E. destruct E as [Et _].
  destruct (is_success c); [|split; [constructor|exact I]].
  destruct (amp_hyps Hm) as [A B]. apply run_times; try assumption.
  - exact amp_frame.
  - rewrite Et. apply on_segment_start.
Qed.

Lemma amp_turn_point : newton_codes_only -> forall (Q : P -> Prop),
  (forall p x, Q x -> Q (convert p x)) -> forall start n s s',
  (time s = start /\ Q (space s) \/ exists n y x, correct n y (time s) = (Success, x) /\ converted x (space s)) ->
  aturn n s = Go s' ->
  (time s' = start /\ Q (space s') \/ exists n y x, correct n y (time s') = (Success, x) /\ converted x (space s')).
Proof.
  intros Hc Q HQ start n s s' H E.
  assert (HQ' : forall x y, converted x y -> Q x -> Q y) by (intros x y Cv; induction Cv; auto).
  assert (Ct : forall x y z, converted x y -> converted y z -> converted x z).
  { intros x y z C1 C2. induction C2; [exact C1|constructor; auto]. }
  unfold turn in E.
  destruct (close _ _ _); [discriminate|]. destruct (is_success (amp_pre s)); [|discriminate].
  destruct (amp_iterate n _) as [[c s2]|] eqn:It; [|discriminate].
  pose proof (amp_frame _ _ _ _ It) as [T D]. cbn [time delta set_delta] in T, D.
  destruct (truncation && going n (space s2)); [discriminate|].
  destruct (amp_iterate_cases Hc _ _ _ _ It) as [[-> [x [y [Ec Es]]]]|[Nc R]].
  - cbn [is_success] in E. injection E as <-. right. exists n, y, x.
    cbn [on_success time space]. rewrite T, D. split; [exact Ec|].
    subst s2. exact (proj2 (proj2 (proj2 (adjust_frame n (set_space (set_delta s (next_delta (time s) endt (step s))) x))))).
  - destruct (is_success c) eqn:Ic; [apply is_success_true in Ic; contradiction|].
    injection E as <-. change (time (amp_on_fail s2)) with (time s2). change (space (amp_on_fail s2)) with (space s2).
    assert (Cv : converted (space s) (space s2)).
    { destruct R as [->|[R| ->]]; [|apply newton_error_frame in R; apply R|].
      - exact (proj2 (proj2 (proj2 (initial_error_frame (set_delta s (next_delta (time s) endt (step s))))))).
      - exact (proj2 (proj2 (proj2 (criterion_frame n (set_delta s (next_delta (time s) endt (step s))))))). }
    rewrite T. destruct H as [[H1 H2]|[n0 [y0 [x [H1 H2]]]]].
    + left. split; [exact H1|]. eapply HQ'; eassumption.
    + right. exists n0, y0, x. split; [exact H1|]. eapply Ct; eassumption.
Qed.

Lemma amp_track_success : newton_codes_only -> forall fuel re h p start x0 l s,
  amp_track fuel re h p start x0 = (l, Finished Success s) ->
  within (time s) endt (eps (prec s)) /\
  ((time s = start /\ exists s0,
      initial_refinement (mkSt start x0 (first_step cfg re h start endt) 0 0 0 0 0 0 p 0 0) = Some (Success, s0)
      /\ converted (space s0) (space s))
   \/ exists n y x, correct n y (time s) = (Success, x) /\ converted x (space s)).
Proof.
  intros Hc fuel re h p start x0 l s E. unfold amp_track in E.
  destruct (initial_refinement _) as [[c s0]|] eqn:Ei; [|discriminate].
  destruct (is_success c) eqn:Ic; [|injection E as _ -> _; discriminate].
  apply is_success_true in Ic. subst c.
  pose proof (run_success _ _ _ _ _ _ _ _ _ _ _ _ E) as [[l' El] W]. split; [exact W|].
  pose proof (run_invariant endt eps truncation going amp_pre amp_iterate amp_on_fail
                (fun s => time s = start /\ converted (space s0) (space s)
                          \/ exists n y x, correct n y (time s) = (Success, x) /\ converted x (space s))
                (amp_turn_point Hc (converted (space s0)) (fun p x H => cv_step p _ _ H) start) fuel 0 s0) as I.
  rewrite E in I. cbn [fst] in I. rewrite El in I.
  apply initial_refinement_frame in Ei as Et. cbn in Et.
  apply Forall_app in I; [|left; split; [apply Et|constructor]].
  destruct I as [_ I]. inversion I as [|a b [[H1 H2]|H] _]; subst.
  - left. split; [reflexivity|]. exists s0. split; [reflexivity|exact H2].
  - right. exact H.
Qed.

(* ------------------------------------------------------------------ termination *)

Lemma min_step_positive : forall p t, 0 <= t -> 0 <= min_step_for_precision p t.
Proof.
  intros p t Ht. unfold min_step_for_precision. cbv zeta.
  destruct (_ && _); [apply powerRZ_le; lra|]. apply Rmult_le_pos; [apply powerRZ_le; lra|exact Ht].
Qed.

Lemma pow10_ge : forall k, INR k <= 10 ^ k.
Proof.
  induction k as [|k IH]; [cbn; lra|]. rewrite S_INR. cbn [pow].
  assert (1 <= 10 ^ k) by (apply pow_R1_Rle; lra). lra.
Qed.

(** Raising the precision brings the smallest usable step below any positive number. *)
Lemma raise_precision_high : forall h t, 0 < h -> 0 <= t -> forall fuel (j : nat) p,
  (DoublePrecision < p)%Z -> (Z.of_nat j <= p)%Z -> (0 < fuel)%nat -> 1000 * t / h <= INR (fuel - 1 + j) ->
  exists q, raise_precision fuel p h t = Some q /\ (p <= q)%Z /\ min_step_for_precision q t <= h.
Proof.
  intros h t Hh Ht.
  induction fuel as [|fuel IH]; intros j p Np Hj F B; [lia|]. cbn [raise_precision].
  destruct (Rlt_dec h (min_step_for_precision p t)) as [L|L].
  - destruct (Z.eqb_spec p DoublePrecision); [lia|].
    destruct fuel as [|fuel].
    + exfalso. unfold min_step_for_precision in L. cbv zeta in L.
      destruct (Z.eqb_spec p DoublePrecision); [contradiction|]. cbn [andb] in L.
      replace (1 - 1 + j)%nat with j in B by lia.
      assert (T : 1000 * t <= 10 ^ j * h).
      { apply Rmult_le_reg_r with (/ h); [apply Rinv_0_lt_compat; lra|].
        replace (10 ^ j * h * / h) with (10 ^ j) by (field; lra).
        apply Rle_trans with (INR j); [exact B|apply pow10_ge]. }
      assert (Pw : powerRZ 10 (3 - p) * (10 ^ j) <= 1000).
      { rewrite pow_powerRZ, <- powerRZ_add by lra.
        assert (E3 : 1000 = powerRZ 10 (3 - p + Z.of_nat j) * 10 ^ Z.to_nat (p - Z.of_nat j)).
        { rewrite (pow_powerRZ 10 (Z.to_nat (p - Z.of_nat j))), <- powerRZ_add by lra.
          replace (3 - p + Z.of_nat j + Z.of_nat (Z.to_nat (p - Z.of_nat j)))%Z with 3%Z by lia.
          unfold powerRZ. change (Pos.to_nat 3) with 3%nat. ring. }
        rewrite E3.
        assert (1 <= 10 ^ Z.to_nat (p - Z.of_nat j)) by (apply pow_R1_Rle; lra).
        assert (0 < powerRZ 10 (3 - p + Z.of_nat j)) by (apply powerRZ_lt; lra). nra. }
      assert (Pp : 0 < powerRZ 10 (3 - p)) by (apply powerRZ_lt; lra).
      assert (Pt : 0 < t). { destruct (Rle_lt_or_eq_dec 0 t Ht) as [X| <-]; [exact X|]. rewrite Rmult_0_r in L. lra. }
      assert (Q : h * (1000 * t) < powerRZ 10 (3 - p) * t * (10 ^ j * h)).
      { apply Rlt_le_trans with (powerRZ 10 (3 - p) * t * (1000 * t)); [apply Rmult_lt_compat_r; lra|].
        apply Rmult_le_compat_l; [|exact T]. apply Rmult_le_pos; lra. }
      assert (Q2 : powerRZ 10 (3 - p) * t * (10 ^ j * h) <= 1000 * (t * h)).
      { replace (powerRZ 10 (3 - p) * t * (10 ^ j * h)) with ((powerRZ 10 (3 - p) * 10 ^ j) * (t * h)) by ring.
        apply Rmult_le_compat_r; [apply Rmult_le_pos; lra|exact Pw]. }
      lra.
    + destruct (IH (S j) (p + PrecisionIncrement)%Z) as [q [E [Lq M]]].
      * unfold PrecisionIncrement. lia.
      * unfold PrecisionIncrement. lia.
      * lia.
      * replace (S fuel - 1 + S j)%nat with (S (S fuel) - 1 + j)%nat by lia. exact B.
      * exists q. split; [exact E|]. split; [unfold PrecisionIncrement in Lq; lia|exact M].
  - exists p. split; [reflexivity|]. split; [lia|lra].
Qed.

Lemma up_INR : forall x, x <= INR (Z.to_nat (up x)).
Proof.
  intro x. destruct (archimed x) as [A _]. destruct (Z_le_gt_dec 0 (up x)) as [L|L].
  - rewrite INR_IZR_INZ, Z2Nat.id by exact L. lra.
  - replace (Z.to_nat (up x)) with 0%nat by lia. assert (IZR (up x) <= 0) by (apply IZR_le; lia). cbn. lra.
Qed.

Lemma raise_precision_ends : forall h t p, 0 < h -> 0 <= t -> (DoublePrecision <= p)%Z ->
  exists q, raise_precision (raise_fuel h t) p h t = Some q /\ (p <= q)%Z /\ min_step_for_precision q t <= h.
Proof.
  intros h t p Hh Ht Hp. unfold raise_fuel. set (k := Z.to_nat (up (1000 * t / h))).
  assert (Hk : 1000 * t / h <= INR k) by apply up_INR.
  destruct (Z.eq_dec p DoublePrecision) as [->|N].
  - change (2 + k)%nat with (S (S k)). set (f := S k). cbn [raise_precision].
    destruct (Rlt_dec h (min_step_for_precision DoublePrecision t)) as [L|L].
    + cbn [Z.eqb DoublePrecision]. destruct (raise_precision_high h t Hh Ht f 0 LowestMultiplePrecision) as [q [E [Lq M]]];
        try (unfold f, DoublePrecision, LowestMultiplePrecision; lia).
      * unfold f. replace (S k - 1 + 0)%nat with k by lia. exact Hk.
      * exists q. split; [exact E|]. split; [unfold LowestMultiplePrecision, DoublePrecision in *; lia|exact M].
    + exists DoublePrecision. split; [reflexivity|]. split; [lia|lra].
  - apply (raise_precision_high h t Hh Ht (2 + k) 0 p); try (unfold DoublePrecision in *; lia).
    apply Rle_trans with (INR k); [exact Hk|]. apply le_INR. lia.
Qed.

(** A failed round keeps the number of successes and raises the precision, or keeps it and shrinks
    the step by the failure factor. *)
Lemma criterion_raises : (maximum_precision amp <= MaxPrecisionAllowed)%Z -> (0 <= maximum_precision amp)%Z ->
  forall n s, (DoublePrecision <= prec s <= maximum_precision amp)%Z ->
  (prec s < prec (amp_criterion_error n s))%Z.
Proof.
  intros Hmax Hmax0 n s Hp. unfold amp_criterion_error. cbv zeta.
  set (mn := (if (prec s =? DoublePrecision)%Z then LowestMultiplePrecision
              else prec s + (1 + Z.of_nat (cfail s)) * PrecisionIncrement)%Z).
  assert (Hmn : (prec s < mn)%Z /\ (prec s <> DoublePrecision -> prec s + PrecisionIncrement <= mn)%Z
                /\ (LowestMultiplePrecision <= mn)%Z).
  { unfold mn, DoublePrecision, LowestMultiplePrecision, PrecisionIncrement in *.
    destruct (Z.eqb_spec (prec s) 16); lia. }
  destruct Hmn as [M1 [M2 M3]].
  destruct (Rlt_dec _ _).
  - rewrite (proj1 (proj2 (proj2 (proj2 (proj2 (proj2 (update_frame _ _ _))))))). exact M1.
  - set (mp := Z.max (Z.max mn (digits_B n)) _).
    assert (Hmp : (mn <= mp)%Z) by (unfold mp; lia).
    match goal with |- context [minimize ?a ?b ?c ?d ?e ?f ?g] =>
      destruct (minimize_spec a b c d e f g) as [[_ ->]|[p [-> [I _]]]] end;
      rewrite (proj1 (proj2 (proj2 (proj2 (proj2 (proj2 (update_frame _ _ _))))))).
    + lia.
    + apply in_tested in I; [|unfold LowestMultiplePrecision in *; lia|lia].
      unfold DoublePrecision, LowestMultiplePrecision, PrecisionIncrement in *.
      destruct I as [[_ I]|[[I _] _]]; [lia|].
      destruct (round_precision_spec mp ltac:(lia)) as [R1 [_ R2]].
      unfold LowestMultiplePrecision, PrecisionIncrement in *. specialize (R2 ltac:(lia)).
      destruct (Z.eq_dec (prec s) 16) as [E|E]; [lia|]. specialize (M2 E). lia.
Qed.

Hypothesis Hf : 0 < fail_factor cfg < 1.
Hypothesis Hm : 0 < min_step_size cfg.
Hypothesis Hmax : (DoublePrecision <= maximum_precision amp <= MaxPrecisionAllowed)%Z.
Hypothesis Hcodes : newton_codes_only.

(** Precision never drops below double precision. *)
Lemma adjust_prec : forall n s, (DoublePrecision <= prec s)%Z -> (DoublePrecision <= prec (adjust_success n s))%Z.
Proof.
  intros n s Hp. unfold adjust_success. cbv zeta.
  match goal with |- context [minimize ?a ?b ?c ?d ?e ?f ?g] =>
    assert (He : (DoublePrecision <= e)%Z) by (destruct (_ || _); unfold DoublePrecision; lia);
    destruct (minimize_spec a b c d e f g) as [[_ ->]|[p [-> [I _]]]] end;
    rewrite (proj1 (proj2 (proj2 (proj2 (proj2 (proj2 (update_frame _ _ _))))))).
  - unfold DoublePrecision, MaxPrecisionAllowed. lia.
  - apply in_tested in I.
    + unfold DoublePrecision in *. destruct I as [[-> _]|[[I _] _]]; [lia|].
      match type of I with (round_precision ?e <= _)%Z => destruct (round_precision_spec e ltac:(lia)) as [R1 _] end.
      unfold LowestMultiplePrecision in R1. lia.
    + unfold DoublePrecision in *; lia.
    + unfold DoublePrecision in *; lia.
Qed.

Lemma amp_turn_cases : forall n s s', (DoublePrecision <= prec s)%Z -> aturn n s = Go s' ->
  amp_pre s = Success /\ (DoublePrecision <= prec s')%Z /\
  (nsucc s' = S (nsucc s)
   \/ nsucc s' = nsucc s /\ ((prec s < prec s')%Z \/ prec s' = prec s /\ step s' = fail_factor cfg * step s)).
Proof.
  intros n s s' Hp E. unfold turn in E.
  destruct (close _ _ _); [discriminate|]. destruct (is_success (amp_pre s)) eqn:Ip; [|discriminate].
  apply is_success_true in Ip. split; [exact Ip|]. apply amp_pre_success in Ip. destruct Ip as [_ [Ph Pp]].
  destruct (amp_iterate n _) as [[c s2]|] eqn:It; [|discriminate].
  destruct (truncation && going n (space s2)); [discriminate|].
  destruct (amp_iterate_cases Hcodes _ _ _ _ It) as [[-> [x [y [Ec Es]]]]|[Nc R]].
  - cbn [is_success] in E. injection E as <-. cbn [on_success prec nsucc]. subst s2. split.
    + apply adjust_prec. exact Hp.
    + left. rewrite (proj1 (proj2 (proj2 (adjust_frame n _)))). reflexivity.
  - destruct (is_success c) eqn:Ic; [apply is_success_true in Ic; contradiction|].
    injection E as <-. change (prec (amp_on_fail s2)) with (prec s2). change (nsucc (amp_on_fail s2)) with (nsucc s2).
    change (step (amp_on_fail s2)) with (step s2). clear It Ic Nc c.
    set (s1 := set_delta s (next_delta (time s) endt (step s))) in *.
    assert (F1 : prec s1 = prec s /\ step s1 = step s /\ nsucc s1 = nsucc s) by (repeat split; reflexivity).
    destruct F1 as [F1 [F2 F3]]. clearbody s1.
    destruct R as [->|[R| ->]].
    + unfold initial_matrix_solve_error.
      match goal with |- context [update s1 ?p ?h] => destruct (update_frame s1 p h) as [_ [_ [D [_ [_ [G _]]]]]] end.
      rewrite D, G, F1. unfold DoublePrecision, LowestMultiplePrecision, PrecisionIncrement in *.
      destruct (Z.eqb_spec (prec s) 16); (split; [lia|]); right; (split; [exact F3|]); left; lia.
    + unfold newton_convergence_error in R. cbv zeta in R.
      assert (Hh : 0 < fail_factor cfg * step s1) by (rewrite F2; apply Rmult_lt_0_compat; lra).
      destruct (raise_precision_ends (fail_factor cfg * step s1) (togo s1) (prec s1) Hh (Cmod_ge_0 _)) as [q [Eq [Lq _]]].
      { rewrite F1. exact Hp. }
      rewrite Eq in R. injection R as <-.
      destruct (update_frame s1 q (fail_factor cfg * step s1)) as [_ [_ [D [_ [G2 [G _]]]]]].
      rewrite D, G, G2, F1, F2 in *. split; [lia|]. right. split; [exact F3|].
      destruct (Z.eq_dec q (prec s)) as [Qe|Qe]; [right; split; [exact Qe|reflexivity]|left; lia].
    + destruct (criterion_frame n s1) as [_ [_ [D _]]]. rewrite D, F3.
      pose proof (criterion_raises ltac:(lia) ltac:(unfold DoublePrecision in *; lia) n s1 ltac:(rewrite F1; lia)) as G.
      rewrite F1 in G. split; [lia|]. right. split; [reflexivity|]. left. exact G.
Qed.

Lemma amp_turn_no_hang : forall n s, (DoublePrecision <= prec s)%Z -> aturn n s <> Hang.
Proof.
  intros n s Hp E. unfold turn in E.
  destruct (close _ _ _); [discriminate|]. destruct (is_success (amp_pre s)) eqn:Ip; [|discriminate].
  apply is_success_true in Ip. apply amp_pre_success in Ip. destruct Ip as [_ [Ph Pp]].
  destruct (amp_iterate n _) as [[c s2]|] eqn:It.
  { destruct (truncation && going n (space s2)); [discriminate|]. destruct (is_success c); discriminate. }
  set (s1 := set_delta s (next_delta (time s) endt (step s))) in *.
  assert (Nn : newton_convergence_error s1 <> None).
  { unfold newton_convergence_error. cbv zeta.
    destruct (raise_precision_ends (fail_factor cfg * step s1) (togo s1) (prec s1)) as [q [Eq _]];
      [change (step s1) with (step s); apply Rmult_lt_0_compat; lra|apply Cmod_ge_0|exact Hp|].
    rewrite Eq. discriminate. }
  unfold amp_iterate in It. destruct (predict n (space s1) (time s1) (delta s1)) as [pc y].
  destruct (correct n y (time s1 + delta s1)%C) as [cc x].
  destruct (newton_convergence_error s1); [|contradiction].
  destruct pc; cbn in It; try discriminate; destruct cc; discriminate.
Qed.

Lemma amp_terminates_from : forall a b K n s, (DoublePrecision <= prec s)%Z ->
  (max_num_steps cfg - nsucc s <= a)%nat -> (Z.to_nat (maximum_precision amp + 1 - prec s) <= b)%nat ->
  step s * fail_factor cfg ^ K < min_step_size cfg ->
  exists N c s', snd (arun N n s) = Finished c s'.
Proof.
  assert (Lift : forall n s s', aturn n s = Go s' ->
            (exists N c s'', snd (arun N (S n) s') = Finished c s'') ->
            exists N c s'', snd (arun N n s) = Finished c s'').
  { intros n s s' E [N [c [s'' F]]]. exists (S N). cbn [run]. rewrite E.
    destruct (arun N (S n) s') as [l o]. cbn [snd] in *. eauto. }
  induction a as [|a IHa]; intro b; induction b as [b IHb] using lt_wf_ind; intro K; induction K as [|K IHK];
    intros n s Hp Ha Hb HK;
    (destruct (aturn n s) as [c s'|s'|] eqn:E;
     [exists 1%nat, c, s'; cbn [run]; rewrite E; reflexivity| |exfalso; exact (amp_turn_no_hang n s Hp E)]);
    apply (Lift n s s' E);
    pose proof (amp_turn_cases n s s' Hp E) as [Pr [Hp' R]]; apply amp_pre_success in Pr; destruct Pr as [P1 [P2 P3]].
  1,2: exfalso; lia.
  - destruct R as [R|[R [Q|[Q1 Q2]]]].
    + destruct (geometric_below (step s') (fail_factor cfg) (min_step_size cfg) ltac:(lra) Hm) as [K' HK'].
      apply (IHa (Z.to_nat (maximum_precision amp + 1 - prec s')) K' (S n) s' Hp'); [lia|apply Nat.le_refl|exact HK'].
    + destruct (geometric_below (step s') (fail_factor cfg) (min_step_size cfg) ltac:(lra) Hm) as [K' HK'].
      apply (IHb (Z.to_nat (maximum_precision amp + 1 - prec s')) ltac:(lia) K' (S n) s' Hp'); [lia|lia|exact HK'].
    + cbn in HK. exfalso. lra.
  - destruct R as [R|[R [Q|[Q1 Q2]]]].
    + destruct (geometric_below (step s') (fail_factor cfg) (min_step_size cfg) ltac:(lra) Hm) as [K' HK'].
      apply (IHa (Z.to_nat (maximum_precision amp + 1 - prec s')) K' (S n) s' Hp'); [lia|apply Nat.le_refl|exact HK'].
    + destruct (geometric_below (step s') (fail_factor cfg) (min_step_size cfg) ltac:(lra) Hm) as [K' HK'].
      apply (IHb (Z.to_nat (maximum_precision amp + 1 - prec s')) ltac:(lia) K' (S n) s' Hp'); [lia|lia|exact HK'].
    + apply (IHK (S n) s' Hp'); [lia|lia|]. rewrite Q2. cbn in HK. lra.
Qed.

Lemma refine_stored_prec : forall k s c s', refine_stored k s = (c, s') -> prec s' = prec s.
Proof.
  intros k s c s' E. unfold refine_stored in E. destruct (refine k (space s) (time s)) as [c0 x].
  injection E as _ <-. destruct (is_success c0); reflexivity.
Qed.

Lemma change_precision_prec : forall s p, prec (change_precision s p) = p.
Proof. intros s p. unfold change_precision. destruct (Z.eqb_spec p (prec s)); [congruence|reflexivity]. Qed.

Lemma initial_refinement_ends : forall s, (DoublePrecision <= prec s)%Z ->
  exists c s', initial_refinement s = Some (c, s') /\ (DoublePrecision <= prec s')%Z.
Proof.
  assert (L : forall fuel k s, (DoublePrecision <= prec s)%Z ->
            (Z.to_nat (maximum_precision amp + 1 - prec s) < fuel)%nat ->
            exists c s', initial_refinement_loop fuel k s = Some (c, s') /\ (DoublePrecision <= prec s')%Z).
  { induction fuel as [|fuel IH]; intros k s Hp F; [lia|]. cbn.
    destruct (Z.ltb_spec (maximum_precision amp) (prec s)) as [X|X]; [eauto|].
    match goal with |- context [refine_stored k ?x] => destruct (refine_stored k x) as [c s'] eqn:E end.
    apply refine_stored_prec in E. rewrite change_precision_prec in E.
    assert (B : (DoublePrecision <= prec s' /\ prec s < prec s')%Z).
    { rewrite E. unfold DoublePrecision, LowestMultiplePrecision, PrecisionIncrement in *. destruct (Z.eqb_spec (prec s) 16); lia. }
    destruct (is_success c); [exists Success, s'; split; [reflexivity|lia]|].
    apply IH; lia. }
  intros s Hp. unfold initial_refinement. destruct (refine_stored 0 s) as [c s'] eqn:E.
  apply refine_stored_prec in E.
  destruct (is_success c); [exists Success, s'; split; [reflexivity|lia]|].
  apply L; lia.
Qed.

Lemma amp_track_terminates : forall re h p start x0, (DoublePrecision <= p)%Z ->
  exists N c s, snd (amp_track N re h p start x0) = Finished c s.
Proof.
  intros re h p start x0 Hp. unfold amp_track.
  match goal with |- context [initial_refinement ?x] =>
    destruct (initial_refinement_ends x Hp) as [c [s [E Hps]]] end.
  rewrite E. destruct (is_success c).
  - destruct (geometric_below (step s) (fail_factor cfg) (min_step_size cfg) ltac:(lra) Hm) as [K HK].
    eapply amp_terminates_from; [exact Hps|apply Nat.le_refl|apply Nat.le_refl|exact HK].
  - exists 0%nat, c, s. reflexivity.
Qed.
End Amp.

(* ------------------------------------------------------------------ step sizes *)
Section AmpSteps.
Context {P : Type}.
Variable cfg : stepping.
Variable amp : amp_config.
Variable endt : C.
Variables digits_B digits_C : nat -> Z.
Variable digits_interval : nat -> R -> R -> R -> Z.
Variable convert : Z -> P -> P.

Hypothesis order_ok : (0 <= predictor_order amp < 2 ^ 32 - 1)%Z.

Lemma tested_nonempty : forall a b, (0 <= a <= b)%Z -> tested a b <> [].
Proof.
  intros a b H E. assert (X : In (round_precision a) (tested a b)).
  { apply in_tested; [lia|lia|]. right. destruct (round_precision_spec a ltac:(lia)) as [L [K _]].
    split; [|exact K]. split; [lia|]. unfold round_precision, LowestMultiplePrecision, PrecisionIncrement.
    destruct (Z.ltb_spec a 20); destruct (Z.ltb_spec b 20); try lia.
    - assert (2 <= b / 10)%Z by (apply Z.div_le_lower_bound; lia). lia.
    - assert (a / 10 <= b / 10)%Z by (apply Z.div_le_mono; lia). lia. }
  rewrite E in X. exact X.
Qed.

(** After a successful step the step size becomes exactly: the old one, until enough successes have
    been counted; then the old one times the success factor, limited by the largest allowed one. *)
Lemma adjust_step : forall n (s : st P), 0 < step s <= 1 -> 0 < success_factor cfg ->
  0 < max_step_size cfg <= 1 -> (0 <= prec s)%Z ->
  step (adjust_success cfg amp digits_B digits_C convert n s)
  = if (since_inc s <? consecutive_before_increase cfg)%nat then step s
    else Rmin (step s * success_factor cfg) (max_step_size cfg).
Proof.
  intros n s Hs Hsf Hms Hp. unfold adjust_success. cbv zeta.
  set (mx := if (since_inc s <? consecutive_before_increase cfg)%nat then step s
             else Rmin (step s * success_factor cfg) (max_step_size cfg)).
  assert (Hmx : 0 < mx <= 1).
  { unfold mx. destruct (_ <? _)%nat; [exact Hs|]. split.
    - apply Rmin_glb_lt; [apply Rmult_lt_0_compat; lra|lra].
    - apply Rle_trans with (max_step_size cfg); [apply Rmin_r|lra]. }
  match goal with |- context [minimize ?a ?b ?c ?d ?e ?f ?g] =>
    destruct (minimize_small_steps a b c d e f g) as [p [E _]];
      [exact order_ok|exact Hmx| | |apply tested_nonempty|] end;
    try (destruct (_ || _); unfold DoublePrecision; lia).
  - unfold DoublePrecision; lia.
  - rewrite E. rewrite (proj1 (proj2 (proj2 (proj2 (proj2 (update_frame convert _ _ _)))))). reflexivity.
Qed.

(** The counter which decides about growing is reset when the step size has grown (or the precision
    dropped), and counts on otherwise. *)
Lemma adjust_counter : forall n (s : st P), 
  since_inc (adjust_success cfg amp digits_B digits_C convert n s) = 0%nat
  \/ since_inc (adjust_success cfg amp digits_B digits_C convert n s) = S (since_inc s).
Proof.
  intros n s. unfold adjust_success. cbv zeta. destruct (minimize _ _ _ _ _ _ _) as [p h].
  rewrite (proj1 (proj2 (proj2 (proj2 (proj2 (proj2 (proj2 (update_frame convert _ _ _)))))))). cbn [since_inc].
  destruct (_ || _); auto.
Qed.

(** Failures: a failed linear solve at the first predictor stage keeps the step size, a failed
    Newton iteration multiplies it by the failure factor. *)
Lemma initial_error_step : forall s : st P, step (initial_matrix_solve_error convert s) = step s.
Proof.
  intro s. unfold initial_matrix_solve_error.
  rewrite (proj1 (proj2 (proj2 (proj2 (proj2 (update_frame convert _ _ _)))))). reflexivity.
Qed.

Lemma newton_error_step : forall s s' : st P, newton_convergence_error cfg endt convert s = Some s' ->
  step s' = fail_factor cfg * step s.
Proof.
  intros s s' E. unfold newton_convergence_error in E. cbv zeta in E.
  destruct (raise_precision _ _ _ _) as [p|]; [|discriminate]. injection E as <-.
  apply (proj1 (proj2 (proj2 (proj2 (proj2 (update_frame convert _ _ _)))))).
Qed.

(** ... and a violated precision criterion multiplies it by the failure factor when that is still a
    usable step at the present precision; otherwise it is set, with a higher precision, to the larger
    of (1+f)/2 times the old one and the smallest usable step. *)
Lemma criterion_step : forall n (s : st P), (DoublePrecision <= prec s <= maximum_precision amp)%Z ->
  0 < step s -> 0 < fail_factor cfg <= 1 -> step s * fail_factor cfg <= 1 ->
  let low := min_step_for_precision (prec s) (togo endt s) in
  let s' := amp_criterion_error cfg amp endt digits_B digits_C digits_interval convert n s in
  (low <= step s * fail_factor cfg -> step s' = step s * fail_factor cfg \/ prec s' = (MaxPrecisionAllowed + 1)%Z)
  /\ (step s * fail_factor cfg < low -> step s' = Rmax (step s * (1 + fail_factor cfg) / 2) low).
Proof.
  intros n s Hp Hs Hf H1 low s'. unfold s', amp_criterion_error. cbv zeta. fold low.
  destruct (Rlt_dec (step s * fail_factor cfg) low) as [L|L].
  - split; [intro; lra|]. intros _.
    rewrite (proj1 (proj2 (proj2 (proj2 (proj2 (update_frame convert _ _ _)))))). reflexivity.
  - split; [|intro; lra]. intros _.
    set (mn := (if (prec s =? DoublePrecision)%Z then LowestMultiplePrecision else _)).
    set (mp := Z.max (Z.max mn (digits_B n)) _).
    destruct (minimize_spec (digits_B n) (newton_its amp) (predictor_order amp) (step s * fail_factor cfg)
                mp low (maximum_precision amp)) as [[_ E]|[p [E [I _]]]]; rewrite E.
    + right. apply (proj1 (proj2 (proj2 (proj2 (proj2 (proj2 (update_frame convert _ _ _))))))).
    + left. rewrite (proj1 (proj2 (proj2 (proj2 (proj2 (update_frame convert _ _ _)))))).
      unfold candidate. apply Rmin_right.
      pose proof (stepsize_B_at_least_one p (digits_B n) (newton_its amp) (predictor_order amp) order_ok). lra.
Qed.
End AmpSteps.

(* ------------------------------------------------------------------ step sizes over a whole track *)
Section AmpWhole.
Context {P : Type}.
Variable cfg : stepping.
Variable amp : amp_config.
Variable endt : C.
Variable eps : Z -> R.
Variable truncation : bool.
Variable going : nat -> P -> bool.
Variable predict : nat -> P -> C -> C -> code * P.
Variable correct : nat -> P -> C -> code * P.
Variables digits_B digits_C : nat -> Z.
Variable digits_interval : nat -> R -> R -> R -> Z.
Variable convert : Z -> P -> P.
Variable refine : nat -> P -> C -> code * P.

Hypothesis order_ok : (0 <= predictor_order amp < 2 ^ 32 - 1)%Z.
Hypothesis Hcodes : newton_codes_only correct.
Hypothesis Hf : 0 < fail_factor cfg < 1.
Hypothesis Hm : 0 < min_step_size cfg.
Hypothesis Hsf : 0 < success_factor cfg.
Hypothesis Hms : 0 < max_step_size cfg <= 1.
Hypothesis Hmax : (DoublePrecision <= maximum_precision amp <= MaxPrecisionAllowed)%Z.

Local Notation aiter := (amp_iterate cfg amp endt predict correct digits_B digits_C digits_interval convert).
Local Notation aturn := (turn endt eps truncation going (amp_pre cfg amp) aiter amp_on_fail).
Local Notation atrack := (amp_track cfg amp endt eps truncation going predict correct digits_B digits_C
                                    digits_interval convert refine).

(** Successful and failed steps, told apart by the counter of successful steps. *)
Definition step_succeeded (s s' : st P) : Prop := nsucc s' = S (nsucc s).

Definition step_rule (s s' : st P) : Prop :=
  (step_succeeded s s' ->
     step s' = (if (since_inc s <? consecutive_before_increase cfg)%nat then step s
                else Rmin (step s * success_factor cfg) (max_step_size cfg))
     /\ (step s' <= step s -> (prec s <= prec s')%Z -> since_inc s' = S (since_inc s)))
  /\ (~ step_succeeded s s' ->
     step s' = step s /\ (prec s < prec s')%Z
     \/ step s' = fail_factor cfg * step s
     \/ (prec s < prec s')%Z /\ step s' = Rmax (step s * (1 + fail_factor cfg) / 2) (min_step_for_precision (prec s) (Cmod (time s - endt)%C))
     \/ (maximum_precision amp < prec s')%Z).

(** The smallest usable steps, at the precisions that occur and for the distances that occur, are
    below the largest allowed step. *)
Definition max_step_usable (start : C) : Prop :=
  powerRZ 10 (3 - DoublePrecision) * Cmod (start - endt)%C <= max_step_size cfg
  /\ powerRZ 10 (-150) <= max_step_size cfg.

Lemma min_step_le : forall start p t, max_step_usable start -> (DoublePrecision <= p)%Z -> 0 <= t <= Cmod (start - endt)%C ->
  min_step_for_precision p t <= max_step_size cfg.
Proof.
  intros start p t [U1 U2] Hp Ht. unfold min_step_for_precision. cbv zeta.
  destruct (_ && _); [exact U2|]. apply Rle_trans with (2 := U1).
  assert (A : powerRZ 10 (3 - p) <= powerRZ 10 (3 - DoublePrecision)).
  { replace (3 - DoublePrecision)%Z with ((3 - p) + Z.of_nat (Z.to_nat (p - DoublePrecision)))%Z by lia.
    rewrite powerRZ_add, <- (pow_powerRZ 10 (Z.to_nat _)) by lra.
    assert (1 <= 10 ^ Z.to_nat (p - DoublePrecision)) by (apply pow_R1_Rle; lra).
    assert (0 < powerRZ 10 (3 - p)) by (apply powerRZ_lt; lra). nra. }
  assert (0 < powerRZ 10 (3 - p)) by (apply powerRZ_lt; lra).
  apply Rmult_le_compat; lra.
Qed.

Lemma amp_turn_rule : forall (inv_max : bool) start n s s',
  (inv_max = true -> max_step_usable start) ->
  (DoublePrecision <= prec s)%Z /\ (Cmod (time s - endt)%C <= Cmod (start - endt)%C)
    /\ (if inv_max then step s <= max_step_size cfg else step s <= 1) ->
  aturn n s = Go s' ->
  ((DoublePrecision <= prec s')%Z /\ (Cmod (time s' - endt)%C <= Cmod (start - endt)%C)
    /\ (inv_max = true -> step s' <= max_step_size cfg)) /\ step_rule s s'.
Proof.
  intros b start n s s' U [Hp [Hd Hs]] E.
  assert (Hs1 : step s <= 1) by (destruct b; lra).
  pose proof (amp_turn_cases cfg amp endt eps truncation going predict correct digits_B digits_C digits_interval convert
                Hf Hm Hmax Hcodes n s s' Hp E) as [Pr [Hp' _]].
  assert (Hd' : Cmod (time s' - endt)%C <= Cmod (start - endt)%C).
  { assert (Cl : closer endt s s').
    { eapply turn_closer; [| | |exact E]; [apply amp_frame; assumption|intro; split; reflexivity|].
      intros s0 E0. apply amp_pre_success in E0. destruct E0 as [_ [E0 _]]. lra. }
    unfold closer in Cl. rewrite <- (Cmod_opp (endt - time s')%C), <- (Cmod_opp (endt - time s)%C) in Cl.
    replace (- (endt - time s'))%C with (time s' - endt)%C in Cl by ring.
    replace (- (endt - time s))%C with (time s - endt)%C in Cl by ring. lra. }
  apply amp_pre_success in Pr. destruct Pr as [P1 [P2 P3]].
  assert (G : step_rule s s' /\ (b = true -> step s' <= max_step_size cfg)).
  { unfold turn in E. destruct (close _ _ _); [discriminate|].
    destruct (is_success (amp_pre cfg amp s)); [|discriminate].
    destruct (aiter n _) as [[c s2]|] eqn:It; [|discriminate].
    destruct (truncation && going n (space s2)); [discriminate|].
    set (s1 := set_delta s (next_delta (time s) endt (step s))) in *.
    assert (F : prec s1 = prec s /\ step s1 = step s /\ nsucc s1 = nsucc s /\ time s1 = time s /\ since_inc s1 = since_inc s)
      by (repeat split; reflexivity).
    destruct F as [F1 [F2 [F3 [F4 F5]]]].
    destruct (amp_iterate_cases _ _ _ _ _ _ _ _ _ Hcodes _ _ _ _ It) as [[-> [x [y [Ec Es]]]]|[Nc R]].
    - cbn [is_success] in E. injection E as <-.
      pose proof (adjust_step cfg amp digits_B digits_C convert order_ok n (set_space s1 x)) as A.
      change (step (set_space s1 x)) with (step s) in A. change (prec (set_space s1 x)) with (prec s) in A.
      change (since_inc (set_space s1 x)) with (since_inc s) in A.
      specialize (A ltac:(lra) Hsf Hms ltac:(unfold DoublePrecision in Hp; lia)). rewrite <- Es in A.
      split.
      + split.
        * intros _. change (step (on_success s2)) with (step s2). change (prec (on_success s2)) with (prec s2).
          change (since_inc (on_success s2)) with (since_inc s2). split; [exact A|].
          intros NoGrow NoDrop. rewrite Es in *. clear Es It A. revert NoGrow NoDrop.
          unfold adjust_success. cbv zeta. destruct (minimize _ _ _ _ _ _ _) as [p h].
          match goal with |- context [update convert ?x p h] =>
             destruct (update_frame convert x p h) as [_ [_ [_ [_ [G1 [G2 [G3 _]]]]]]] end.
          rewrite G1, G2, G3. cbn [step prec since_inc set_space]. rewrite F1, F2, F5.
          intros NoGrow NoDrop. destruct (Rlt_dec (step s) h); [lra|]. destruct (Z.ltb_spec p (prec s)); [lia|]. reflexivity.
        * intro X. exfalso. apply X. unfold step_succeeded. cbn [on_success nsucc].
          rewrite Es. rewrite (proj1 (proj2 (proj2 (adjust_frame cfg amp digits_B digits_C convert n _)))). reflexivity.
      + intros ->. change (step (on_success s2)) with (step s2). rewrite A.
        destruct (_ <? _)%nat; [exact Hs|apply Rmin_r].
    - destruct (is_success c) eqn:Ic; [apply is_success_true in Ic; contradiction|].
      injection E as <-.
      change (prec (amp_on_fail s2)) with (prec s2) in Hp'.
      assert (Nsame : nsucc s2 = nsucc s).
      { destruct R as [->|[R| ->]]; [|apply newton_error_frame in R; rewrite <- F3; apply R|].
        - rewrite <- F3. apply initial_error_frame.
        - rewrite <- F3. apply criterion_frame. }
      assert (Fail : step s2 = step s /\ (prec s < prec s2)%Z
     \/ step s2 = fail_factor cfg * step s
     \/ (prec s < prec s2)%Z /\ step s2 = Rmax (step s * (1 + fail_factor cfg) / 2) (min_step_for_precision (prec s) (Cmod (time s - endt)%C))
     \/ ((maximum_precision amp < prec s2)%Z /\ step s2 <= fail_factor cfg * step s)).
      { destruct R as [->|[R| ->]].
        - left. rewrite initial_error_step. split; [exact F2|].
          unfold initial_matrix_solve_error.
          rewrite (proj1 (proj2 (proj2 (proj2 (proj2 (proj2 (update_frame convert _ _ _))))))). rewrite F1.
          unfold DoublePrecision, LowestMultiplePrecision, PrecisionIncrement in *. destruct (Z.eqb_spec (prec s) 16); lia.
        - right. left. apply newton_error_step in R. rewrite R, F2. reflexivity.
        - right.
          pose proof (criterion_raises cfg amp endt digits_B digits_C digits_interval convert ltac:(lia)
                        ltac:(unfold DoublePrecision in Hmax; lia) n s1 ltac:(rewrite F1; lia)) as Cr.
          rewrite F1 in Cr.
          destruct (Rlt_dec (step s1 * fail_factor cfg) (min_step_for_precision (prec s1) (togo endt s1))) as [L|L].
          + right. left. split; [exact Cr|].
            unfold amp_criterion_error. cbv zeta.
            destruct (Rlt_dec (step s1 * fail_factor cfg) (min_step_for_precision (prec s1) (togo endt s1))); [|contradiction].
            rewrite (proj1 (proj2 (proj2 (proj2 (proj2 (update_frame convert _ _ _)))))).
            unfold togo. rewrite F1, F2, F4. reflexivity.
          + revert Cr. unfold amp_criterion_error. cbv zeta.
            destruct (Rlt_dec (step s1 * fail_factor cfg) (min_step_for_precision (prec s1) (togo endt s1))); [contradiction|].
            match goal with |- context [minimize ?a ?b ?c ?d ?e ?f ?g] =>
              destruct (minimize_spec a b c d e f g) as [[_ ->]|[p [-> [I _]]]] end; intro Cr.
            * right. right.
              rewrite (proj1 (proj2 (proj2 (proj2 (proj2 (proj2 (update_frame convert _ _ _))))))).
              rewrite (proj1 (proj2 (proj2 (proj2 (proj2 (update_frame convert _ _ _)))))).
              split; [unfold MaxPrecisionAllowed in *; lia|]. rewrite F2 in *. lra.
            * left. rewrite (proj1 (proj2 (proj2 (proj2 (proj2 (update_frame convert _ _ _)))))).
              unfold candidate. rewrite Rmin_right; [rewrite F2; ring|].
              pose proof (stepsize_B_at_least_one p (digits_B n) (newton_its amp) (predictor_order amp) order_ok).
              rewrite F2. nra. }
      split.
      + split.
        * intro X. exfalso. unfold step_succeeded in X. cbn [amp_on_fail base_fail nsucc] in X. rewrite Nsame in X. lia.
        * intros _. change (step (amp_on_fail s2)) with (step s2). change (prec (amp_on_fail s2)) with (prec s2).
          destruct Fail as [X|[X|[X|[X _]]]]; auto.
      + intros ->. change (step (amp_on_fail s2)) with (step s2).
        destruct Fail as [[X _]|[X|[[_ X]|[_ X]]]]; [lra|nra| |nra].
        rewrite X. apply Rmax_lub; [nra|]. apply min_step_le with start; [exact (U eq_refl)|exact Hp|].
        split; [apply Cmod_ge_0|exact Hd]. }
  destruct G as [G1 G2]. split; [|exact G1]. split; [exact Hp'|]. split; [exact Hd'|exact G2].
Qed.

(** If the first step size is allowed and the largest step is usable, every step size is allowed, and
    every step follows the rule. *)
Lemma amp_track_steps : forall fuel re h p start x0, (DoublePrecision <= p)%Z ->
  max_step_usable start -> first_step cfg re h start endt <= max_step_size cfg ->
  Forall (fun s => step s <= max_step_size cfg) (fst (atrack fuel re h p start x0))
  /\ chain step_rule (fst (atrack fuel re h p start x0)).
Proof.
  intros fuel re h p start x0 Hp U Hh. unfold amp_track.
  match goal with |- context [initial_refinement ?a ?b ?c ?x] =>
    destruct (initial_refinement_ends a b c x Hp) as [c0 [s [E Hps]]]; pose proof E as E' end.
  rewrite E. apply initial_refinement_frame in E'. cbn in E'. destruct E' as [Et [_ Es]].
  destruct (is_success c0); [|split; [constructor|exact I]].
  set (inv := fun s : st P => (DoublePrecision <= prec s)%Z /\ (Cmod (time s - endt)%C <= Cmod (start - endt)%C)
                     /\ step s <= max_step_size cfg).
  assert (I0 : inv s). { split; [exact Hps|]. rewrite Et, Es. split; [lra|exact Hh]. }
  assert (St : forall n s s', inv s -> aturn n s = Go s' -> inv s' /\ step_rule s s').
  { intros n s0 s' Iv Tn. destruct (amp_turn_rule true start n s0 s' (fun _ => U) Iv Tn) as [[A [B D]] R].
    split; [|exact R]. split; [exact A|]. split; [exact B|exact (D eq_refl)]. }
  split.
  - eapply Forall_impl; [|eapply run_invariant with (inv := inv); [|exact I0]].
    + intros a [_ [_ Ha]]. exact Ha.
    + intros n s0 s' Iv Tn. apply (St n s0 s' Iv Tn).
  - eapply run_chain_inv with (inv := inv); [exact St|exact I0].
Qed.

(** In a run of successes without a drop of precision or growth of the step, the step after more than
    consecutive_before_increase of them grows by the success factor. *)
Lemma rule_window : forall w a b, chain step_rule (w ++ [a; b]) ->
  chain step_succeeded (w ++ [a; b]) ->
  chain (fun s s' => step s' <= step s /\ (prec s <= prec s')%Z) (w ++ [a]) ->
  (consecutive_before_increase cfg <= length w)%nat ->
  step b = Rmin (step a * success_factor cfg) (max_step_size cfg).
Proof.
  assert (L : forall w a, chain step_rule (w ++ [a]) -> chain step_succeeded (w ++ [a]) ->
            chain (fun s s' => step s' <= step s /\ (prec s <= prec s')%Z) (w ++ [a]) ->
            (length w <= since_inc a)%nat).
  { intro w. 
    assert (K : forall w k x a, chain step_rule (x :: w ++ [a]) -> chain step_succeeded (x :: w ++ [a]) ->
              chain (fun s s' => step s' <= step s /\ (prec s <= prec s')%Z) (x :: w ++ [a]) ->
              (k <= since_inc x)%nat -> (k + S (length w) <= since_inc a)%nat).
    { clear w. induction w as [|y w IH]; intros k x a C1 C2 C3 Hk; cbn [app] in *.
      - destruct C1 as [[R _] _]. destruct C2 as [S1 _]. destruct C3 as [[G1 G2] _].
        rewrite (proj2 (R S1) G1 G2). cbn. lia.
      - destruct C1 as [[R _] C1]. destruct C2 as [S1 C2]. destruct C3 as [[G1 G2] C3].
        specialize (IH (S k) y a C1 C2 C3). cbn [length]. 
        pose proof (proj2 (R S1) G1 G2) as E. specialize (IH ltac:(lia)). lia. }
    intros a C1 C2 C3. destruct w as [|x w]; [cbn; lia|]. cbn [app length] in *.
    specialize (K w 0%nat x a C1 C2 C3 ltac:(lia)). lia. }
  intros w a b C1 C2 C3 Hl.
  assert (Sub : forall (rel : st P -> st P -> Prop) l, chain rel (l ++ [a; b]) -> chain rel (l ++ [a]) /\ rel a b).
  { intros rel. induction l as [|x l IH]; cbn; [tauto|]. intro H.
    destruct l as [|y l]; cbn in *; [tauto|]. destruct H as [H1 H2]. destruct (IH H2) as [H3 H4]. tauto. }
  destruct (Sub _ _ C1) as [C1' [R _]]. destruct (Sub _ _ C2) as [C2' S1].
  specialize (L w a C1' C2' C3). destruct (R S1) as [E _]. rewrite E.
  destruct (Nat.ltb_spec (since_inc a) (consecutive_before_increase cfg)); [lia|reflexivity].
Qed.
End AmpWhole.
