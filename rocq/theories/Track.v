(** The path tracker loop, core/include/bertini2/trackers/base_tracker.hpp, and the fixed precision
    tracker, core/include/bertini2/trackers/fixed_precision_tracker.hpp.

    Times are complex numbers and step sizes real numbers, in exact arithmetic (rounding of times is
    not modelled).  Space points live in an arbitrary type P, and what the predictor, the corrector
    and the test for divergence answer is arbitrary, and may differ from one iteration to the next. *)
From Coq Require Import List ZArith Lia Reals Lra Bool Arith.
From Coquelicot Require Import Complex.
From Verif Require Import Newton.
Import ListNotations.
Local Open Scope R_scope.

(** SteppingConfig, trackers/config.hpp:74-92. *)
Record stepping := mkStepping {
  initial_step_size : R; max_step_size : R; min_step_size : R;
  success_factor : R; fail_factor : R;
  consecutive_before_increase : nat;
  min_num_steps : nat; max_num_steps : nat }.

(** The mutable state of a tracker: base_tracker.hpp:585-606 and (the last three fields)
    amp_tracker.hpp:1622-1627.  Counters are unbounded (the code's are "unsigned"). *)
Record st (P : Type) := mkSt {
  time : C; space : P; step : R; delta : C;
  nsucc : nat;      (* num_successful_steps_taken_ *)
  nfail : nat;      (* num_failed_steps_taken_ *)
  csucc : nat;      (* num_consecutive_successful_steps_ *)
  cfail : nat;      (* num_consecutive_failed_steps_ *)
  since_inc : nat;  (* num_successful_steps_since_stepsize_increase_ *)
  prec : Z;         (* current_precision_ *)
  since_decr : nat; (* num_successful_steps_since_precision_decrease_ *)
  ndecr : nat       (* num_precision_decreases_ *) }.
Arguments mkSt {P}. Arguments time {P}. Arguments space {P}. Arguments step {P}. Arguments delta {P}.
Arguments nsucc {P}. Arguments nfail {P}. Arguments csucc {P}. Arguments cfail {P}.
Arguments since_inc {P}. Arguments prec {P}. Arguments since_decr {P}. Arguments ndecr {P}.

(** IsSymmRelDiffSmall, eigen_extensions.hpp:367-377.  Dividing by zero gives an infinity, which is
    not at most e. *)
Definition close (a b : C) (e : R) : bool :=
  if Ceq_dec a b then true
  else (if Ceq_dec a 0 then false else if Rle_dec (Cmod (a - b)%C / Cmod a) e then true else false)
       || (if Ceq_dec b 0 then false else if Rle_dec (Cmod (a - b)%C / Cmod b) e then true else false).

(** base_tracker.hpp:260-264: the next delta_t. *)
Definition next_delta (t e : C) (h : R) : C :=
  if Rlt_dec (Cmod (e - t)%C) (Rabs h) then (e - t)%C
  else (RtoC h * (e - t) / RtoC (Cmod (e - t)%C))%C.

(** The step size at the start of tracking: amp_tracker.hpp:457-461, fixed_precision_tracker.hpp:461
    and 546.  With min_num_steps = 0 the quotient is infinite or not a number and min returns its
    first argument.  [carried] is the step size left by an earlier path; it is used when
    ReinitializeInitialStepSize was turned off. *)
Definition first_step (cfg : stepping) (reinitialize : bool) (carried : R) (t0 e : C) : R :=
  if reinitialize
  then if min_num_steps cfg =? 0 then initial_step_size cfg
       else Rmin (initial_step_size cfg) (Cmod (t0 - e)%C / INR (min_num_steps cfg))
  else carried.

Inductive move (P : Type) :=
| Stop (c : code) (s : st P)    (* TrackPath returns *)
| Go (s : st P)                 (* to the next iteration *)
| Hang.                         (* an inner loop does not return *)
Arguments Stop {P}. Arguments Go {P}. Arguments Hang {P}.

Inductive outcome (P : Type) :=
| Finished (c : code) (s : st P) | Hung | Running (s : st P).
Arguments Finished {P}. Arguments Hung {P}. Arguments Running {P}.

Section Loop.
Context {P : Type}.
Variable endt : C.
Variable eps : Z -> R.                     (* NumTraits<CT>::epsilon at a precision *)
Variable truncation : bool.                (* infinite_path_truncation_ *)
Variable going : nat -> P -> bool.         (* CheckGoingToInfinity, base_tracker.hpp:474-481 *)
Variable pre : st P -> code.               (* PreIterationCheck of the derived class *)
Variable iterate : nat -> st P -> option (code * st P).  (* TrackerIteration of the derived class *)
Variable on_fail : st P -> st P.           (* OnStepFail of the derived class *)

Definition set_delta (s : st P) (d : C) : st P :=
  mkSt (time s) (space s) (step s) d (nsucc s) (nfail s) (csucc s) (cfail s)
       (since_inc s) (prec s) (since_decr s) (ndecr s).

(** IncrementBaseCountersSuccess, base_tracker.hpp:519-525; OnStepSuccess of both trackers. *)
Definition on_success (s : st P) : st P :=
  mkSt (time s + delta s)%C (space s) (step s) (delta s) (S (nsucc s)) (nfail s) (S (csucc s)) 0
       (since_inc s) (prec s) (since_decr s) (ndecr s).

(** IncrementBaseCountersFail, base_tracker.hpp:536-541. *)
Definition base_fail (s : st P) : st P :=
  mkSt (time s) (space s) (step s) (delta s) (nsucc s) (S (nfail s)) 0 (S (cfail s))
       (since_inc s) (prec s) (since_decr s) (ndecr s).

(** One round of the loop of TrackPath, base_tracker.hpp:250-280; n counts the rounds. *)
Definition turn (n : nat) (s : st P) : move P :=
  if close (time s) endt (eps (prec s)) then Stop Success s
  else if is_success (pre s) then
    match iterate n (set_delta s (next_delta (time s) endt (step s))) with
    | None => Hang
    | Some (c, s2) =>
        if truncation && going n (space s2) then Stop GoingToInfinity s2
        else if is_success c then Go (on_success s2) else Go (on_fail s2)
    end
  else Stop (pre s) s.

(** The loop: the states at the loop head, in order, and how it ended; Running when the fuel is used
    up. *)
Fixpoint run (fuel n : nat) (s : st P) : list (st P) * outcome P :=
  match fuel with
  | O => ([s], Running s)
  | S fuel' =>
      match turn n s with
      | Stop c s' => ([s], Finished c s')
      | Hang => ([s], Hung)
      | Go s' => let (l, o) := run fuel' (S n) s' in (s :: l, o)
      end
  end.

(* ------------------------------------------------------------------ geometry of a step *)

(** The two endpoints are within relative distance e of each other, seen from one of them. *)
Definition within (a b : C) (e : R) : Prop :=
  a = b \/ (a <> 0 /\ Cmod (a - b)%C <= e * Cmod a) \/ (b <> 0 /\ Cmod (a - b)%C <= e * Cmod b).

Lemma close_within : forall a b e, close a b e = true <-> within a b e.
Proof.
  intros a b e. unfold close, within. destruct (Ceq_dec a b) as [E|E]; [tauto|].
  assert (Q : forall x : C, x <> 0 -> (Cmod (a - b)%C / Cmod x <= e <-> Cmod (a - b)%C <= e * Cmod x)).
  { intros x Nx. assert (Px : 0 < Cmod x) by (apply Cmod_gt_0; exact Nx). split; intro H.
    - apply Rmult_le_reg_r with (/ Cmod x); [apply Rinv_0_lt_compat; exact Px|].
      rewrite Rmult_assoc, Rinv_r, Rmult_1_r by lra. exact H.
    - apply Rmult_le_reg_r with (Cmod x); [exact Px|]. unfold Rdiv.
      rewrite Rmult_assoc, Rinv_l, Rmult_1_r by lra. exact H. }
  rewrite orb_true_iff. split.
  - intros [H|H]; right.
    + left. destruct (Ceq_dec a 0) as [Z|Z]; [discriminate|]. destruct (Rle_dec _ _) as [L|L] in H; [|discriminate].
      split; [exact Z|]. apply Q; assumption.
    + right. destruct (Ceq_dec b 0) as [Z|Z]; [discriminate|]. destruct (Rle_dec _ _) as [L|L] in H; [|discriminate].
      split; [exact Z|]. apply Q; assumption.
  - intros [H|[[Z H]|[Z H]]]; [contradiction| |].
    + left. destruct (Ceq_dec a 0); [contradiction|]. apply Q in H; [|exact Z].
      destruct (Rle_dec (Cmod (a - b)%C / Cmod a) e); [reflexivity|contradiction].
    + right. destruct (Ceq_dec b 0); [contradiction|]. apply Q in H; [|exact Z].
      destruct (Rle_dec (Cmod (a - b)%C / Cmod b) e); [reflexivity|contradiction].
Qed.

(** t lies on the segment from a to b. *)
Definition on_segment (a b t : C) : Prop := exists l, 0 <= l <= 1 /\ t = (a + RtoC l * (b - a))%C.

Lemma on_segment_start : forall a b, on_segment a b a.
Proof. intros. exists 0. split; [lra|]. ring. Qed.

Lemma Cmod_eq_0_iff : forall z, Cmod z = 0 <-> z = 0.
Proof. intro z. split; [apply Cmod_eq_0|intros ->; apply Cmod_0]. Qed.

(** The time reached by the chosen delta: the end time itself, or closer to it by the step size. *)
Lemma next_delta_spec : forall t e h, 0 <= h -> t <> e ->
  Cmod (e - (t + next_delta t e h))%C = Cmod (e - t)%C - Rmin h (Cmod (e - t)%C) /\
  exists l, 0 <= l <= 1 /\ (t + next_delta t e h)%C = (t + RtoC l * (e - t))%C.
Proof.
  intros t e h Hh Ne. unfold next_delta. rewrite (Rabs_pos_eq h Hh).
  assert (Nz : (e - t <> 0)%C). { intro H. apply Ne. apply Cmod_eq_0_iff in H. symmetry.
    replace e with ((e - t) + t)%C by ring. apply Cmod_eq_0_iff in H. rewrite H. ring. }
  assert (Pd : 0 < Cmod (e - t)%C) by (apply Cmod_gt_0; exact Nz).
  destruct (Rlt_dec (Cmod (e - t)%C) h) as [L|L].
  - split.
    + replace (e - (t + (e - t)))%C with (RtoC 0) by ring. rewrite Cmod_0, Rmin_right by lra. ring.
    + exists 1. split; [lra|]. ring.
  - assert (Q : (RtoC h * (e - t) / RtoC (Cmod (e - t)%C) = RtoC (h / Cmod (e - t)%C) * (e - t))%C).
    { rewrite RtoC_div by lra. field. intro H. apply RtoC_inj in H. lra. }
    rewrite Q. assert (B : 0 <= h / Cmod (e - t)%C <= 1).
    { split; [apply Rmult_le_pos; [exact Hh|left; apply Rinv_0_lt_compat; exact Pd]|].
      apply Rmult_le_reg_r with (Cmod (e - t)%C); [exact Pd|]. unfold Rdiv.
      rewrite Rmult_assoc, Rinv_l by lra. lra. }
    split.
    + replace (e - (t + RtoC (h / Cmod (e - t)%C) * (e - t)))%C with (RtoC (1 - h / Cmod (e - t)%C) * (e - t))%C
        by (rewrite RtoC_minus; ring).
      rewrite Cmod_mult, Cmod_R, Rabs_pos_eq by lra. rewrite Rmin_left by lra. field. lra.
    + exists (h / Cmod (e - t)%C). split; [exact B|reflexivity].
Qed.

Lemma on_segment_step : forall a e t h, 0 <= h -> t <> e -> on_segment a e t ->
  on_segment a e (t + next_delta t e h)%C.
Proof.
  intros a e t h Hh Ne [l [Bl El]]. destruct (next_delta_spec t e h Hh Ne) as [_ [m [Bm Em]]].
  rewrite Em. exists (l + m * (1 - l)). split; [split; nra|].
  rewrite El. rewrite RtoC_plus, RtoC_mult, RtoC_minus. ring.
Qed.

(* ------------------------------------------------------------------ what every tracker does *)

(** TrackerIteration leaves the time and delta_t alone; OnStepFail too, and the space point. *)
Hypothesis iterate_frame : forall n s c s', iterate n s = Some (c, s') ->
  time s' = time s /\ delta s' = delta s.
Hypothesis on_fail_frame : forall s, time (on_fail s) = time s /\ space (on_fail s) = space s.
(** iterations only start with a nonnegative step size *)
Hypothesis pre_step : forall s, pre s = Success -> 0 <= step s.

Lemma is_success_true : forall c, is_success c = true -> c = Success.
Proof. intros []; cbn; congruence. Qed.

(** A round either stays where it was (a failure), or moves towards the end by the smaller of the
    step size and the distance left. *)
Lemma turn_go : forall n s s', turn n s = Go s' ->
  pre s = Success /\ time s <> endt /\
  ((time s' = time s)
   \/ (time s' = (time s + next_delta (time s) endt (step s))%C
       /\ Cmod (endt - time s')%C = Cmod (endt - time s)%C - Rmin (step s) (Cmod (endt - time s)%C))).
Proof.
  intros n s s' E. unfold turn in E.
  destruct (close (time s) endt (eps (prec s))) eqn:Cl; [discriminate|].
  destruct (is_success (pre s)) eqn:Pr; [|discriminate]. apply is_success_true in Pr.
  assert (Ne : time s <> endt). { intro H. rewrite H in Cl. unfold close in Cl.
    destruct (Ceq_dec endt endt); [discriminate|contradiction]. }
  split; [exact Pr|]. split; [exact Ne|].
  destruct (iterate n _) as [[c s2]|] eqn:It; [|discriminate].
  destruct (iterate_frame _ _ _ _ It) as [T1 D1]. cbn in T1, D1.
  destruct (truncation && going n (space s2)); [discriminate|].
  destruct (is_success c).
  - injection E as <-. right. cbn. rewrite T1, D1. split; [reflexivity|].
    apply next_delta_spec; [apply pre_step; exact Pr|exact Ne].
  - injection E as <-. left. rewrite (proj1 (on_fail_frame s2)). exact T1.
Qed.

Definition closer (s s' : st P) : Prop := Cmod (endt - time s')%C <= Cmod (endt - time s)%C.

(** Consecutive members of a list are related. *)
Fixpoint chain {A : Type} (rel : A -> A -> Prop) (l : list A) : Prop :=
  match l with
  | a :: (b :: _) as tl => rel a b /\ chain rel tl
  | _ => True
  end.

Lemma run_head : forall fuel n s, exists l, fst (run fuel n s) = s :: l.
Proof.
  intros [|fuel] n s; cbn; [eauto|]. destruct (turn n s) as [c s'|s'|]; cbn; eauto.
  destruct (run fuel (S n) s'). cbn. eauto.
Qed.

Lemma turn_closer : forall n s s', turn n s = Go s' -> closer s s'.
Proof.
  intros n s s' E. apply turn_go in E. destruct E as [Pr [Ne [T|[Et Ed]]]]; unfold closer; [rewrite T; lra|].
  rewrite Ed. assert (0 <= Rmin (step s) (Cmod (endt - time s)%C)).
  { apply Rmin_glb; [apply pre_step; exact Pr|apply Cmod_ge_0]. }
  lra.
Qed.

(** All times at the loop head lie on the segment from the start to the end, and the distance to the
    end never grows. *)
Lemma run_times : forall start fuel n s, on_segment start endt (time s) ->
  Forall (fun s => on_segment start endt (time s)) (fst (run fuel n s))
  /\ chain closer (fst (run fuel n s)).
Proof.
  intro start. induction fuel as [|fuel IH]; intros n s Hs.
  - cbn. split; [constructor; [exact Hs|constructor]|exact I].
  - cbn. destruct (turn n s) as [c s'|s'|] eqn:E; cbn;
      try (split; [constructor; [exact Hs|constructor]|exact I]).
    assert (Hs' : on_segment start endt (time s')).
    { pose proof (turn_go _ _ _ E) as [Pr [Ne [T|[T _]]]]; rewrite T; [exact Hs|].
      apply on_segment_step; [apply pre_step; exact Pr|exact Ne|exact Hs]. }
    destruct (IH (S n) s' Hs') as [A B]. destruct (run_head fuel (S n) s') as [l El].
    destruct (run fuel (S n) s') as [l0 o]. cbn [fst] in *. subst l0.
    split; [constructor; assumption|]. split; [exact (turn_closer _ _ _ E)|exact B].
Qed.

(** Success is only reported close to the end time. *)
Lemma run_success : forall fuel n s l s', 
  run fuel n s = (l, Finished Success s') -> (exists l', l = l' ++ [s']) /\ within (time s') endt (eps (prec s')).
Proof.
  induction fuel as [|fuel IH]; intros n s l s' E; cbn in E; [discriminate|].
  unfold turn in E. destruct (close (time s) endt (eps (prec s))) eqn:Cl.
  { injection E as <- <-. split; [exists []; reflexivity|]. apply close_within; exact Cl. }
  destruct (is_success (pre s)) eqn:Pr.
  2:{ injection E as _ E _. rewrite E in Pr. discriminate. }
  destruct (iterate n _) as [[c s2]|] eqn:It; [|discriminate].
  destruct (truncation && going n (space s2)); [discriminate|].
  destruct (is_success c); (
    match type of E with context [run fuel (S n) ?x] => destruct (run fuel (S n) x) as [l0 o] eqn:R end;
    injection E as <- ->; apply IH in R; destruct R as [[l' ->] W]; split; [exists (s :: l'); reflexivity|exact W]).
Qed.

(** An invariant of single rounds holds at every loop head. *)
Lemma run_invariant : forall (inv : st P -> Prop), (forall n s s', inv s -> turn n s = Go s' -> inv s') ->
  forall fuel n s, inv s -> Forall inv (fst (run fuel n s)).
Proof.
  intros inv Hi. induction fuel as [|fuel IH]; intros n s Hs; cbn.
  - constructor; [exact Hs|constructor].
  - destruct (turn n s) as [c s'|s'|] eqn:E; cbn; try (constructor; [exact Hs|constructor]).
    specialize (IH (S n) s' (Hi _ _ _ Hs E)). destruct (run fuel (S n) s') as [l o]. constructor; assumption.
Qed.

Lemma run_chain : forall (rel : st P -> st P -> Prop),
  (forall n s s', turn n s = Go s' -> rel s s') ->
  forall fuel n s, chain rel (fst (run fuel n s)).
Proof.
  intros rel Hi. induction fuel as [|fuel IH]; intros n s; cbn; [exact I|].
  destruct (turn n s) as [c s'|s'|] eqn:E; cbn; try exact I.
  specialize (IH (S n) s'). destruct (run_head fuel (S n) s') as [l El].
  destruct (run fuel (S n) s') as [l0 o]. cbn [fst] in *. subst l0. split; [exact (Hi _ _ _ E)|exact IH].
Qed.

Lemma run_chain_inv : forall (inv : st P -> Prop) (rel : st P -> st P -> Prop),
  (forall n s s', inv s -> turn n s = Go s' -> inv s' /\ rel s s') ->
  forall fuel n s, inv s -> chain rel (fst (run fuel n s)).
Proof.
  intros inv rel Hi. induction fuel as [|fuel IH]; intros n s Hs; cbn; [exact I|].
  destruct (turn n s) as [c s'|s'|] eqn:E; cbn; try exact I.
  destruct (Hi _ _ _ Hs E) as [Hs' R]. specialize (IH (S n) s' Hs').
  destruct (run_head fuel (S n) s') as [l El].
  destruct (run fuel (S n) s') as [l0 o]. cbn [fst] in *. subst l0. split; [exact R|exact IH].
Qed.

(** More fuel does not change a finished run. *)
Lemma run_more : forall fuel n s l c s', run fuel n s = (l, Finished c s') ->
  forall fuel', (fuel <= fuel')%nat -> run fuel' n s = (l, Finished c s').
Proof.
  induction fuel as [|fuel IH]; intros n s l c s' E fuel' L; cbn in E; [discriminate|].
  destruct fuel' as [|fuel']; [lia|]. cbn. destruct (turn n s) as [c0 s0|s0|]; [exact E| |exact E].
  destruct (run fuel (S n) s0) as [l0 o] eqn:R. injection E as <- ->.
  rewrite (IH _ _ _ _ _ R fuel') by lia. reflexivity.
Qed.

End Loop.
Arguments chain {A}.

(* ================================================================== fixed precision *)

Section Fixed.
Context {P : Type}.
Variable cfg : stepping.
Variable endt : C.
Variable eps : Z -> R.
Variable truncation : bool.
Variable going : nat -> P -> bool.
(** predictor_->Predict(predicted, system, current_space, current_time, delta_t, ...) in round n *)
Variable predict : nat -> P -> C -> C -> code * P.
(** corrector_->Correct(corrected, system, predicted, time, ...) in round n *)
Variable correct : nat -> P -> C -> code * P.

(** PreIterationCheck, fixed_precision_tracker.hpp:110-118. *)
Definition fixed_pre (s : st P) : code :=
  if (max_num_steps cfg <=? nsucc s)%nat then MaxNumStepsTaken
  else if Rlt_dec (step s) (min_step_size cfg) then MinStepSizeReached
  else Success.

Definition set_step (s : st P) (h : R) : st P :=
  mkSt (time s) (space s) h (delta s) (nsucc s) (nfail s) (csucc s) (cfail s)
       (since_inc s) (prec s) (since_decr s) (ndecr s).
Definition set_space (s : st P) (x : P) : st P :=
  mkSt (time s) x (step s) (delta s) (nsucc s) (nfail s) (csucc s) (cfail s)
       (since_inc s) (prec s) (since_decr s) (ndecr s).

(** TrackerIteration, fixed_precision_tracker.hpp:165-222. *)
Definition fixed_iterate (n : nat) (s : st P) : option (code * st P) :=
  let (pc, predicted) := predict n (space s) (time s) (delta s) in
  if negb (is_success pc) then Some (pc, set_step s (fail_factor cfg * step s))
  else
    let (cc, corrected) := correct n predicted (time s + delta s)%C in
    match cc with
    | GoingToInfinity => Some (cc, s)
    | Success => Some (Success, set_space s corrected)
    | _ => Some (cc, set_step s (fail_factor cfg * step s))
    end.

(** OnStepFail, fixed_precision_tracker.hpp:268-273. *)
Definition fixed_on_fail (s : st P) : st P :=
  let s := base_fail s in
  mkSt (time s) (space s) (step s) (delta s) (nsucc s) (nfail s) (csucc s) (cfail s)
       0 (prec s) (since_decr s) (ndecr s).

(** TrackerLoopInitialization, fixed_precision_tracker.hpp:451-467 and 513-552 (the precision checks
    of the multiple precision variant, which throw, are left out). *)
Definition fixed_init (reinitialize : bool) (carried : R) (p : Z) (start : C) (x0 : P) : st P :=
  mkSt start x0 (first_step cfg reinitialize carried start endt) 0 0 0 0 0 0 p 0 0.

(** TrackPath, base_tracker.hpp:232-286, of a fixed precision tracker. *)
Definition fixed_track (fuel : nat) (reinitialize : bool) (carried : R) (p : Z) (start : C) (x0 : P)
  : list (st P) * outcome P :=
  run endt eps truncation going fixed_pre fixed_iterate fixed_on_fail fuel 0
      (fixed_init reinitialize carried p start x0).

Local Notation fturn := (turn endt eps truncation going fixed_pre fixed_iterate fixed_on_fail).
Local Notation frun := (run endt eps truncation going fixed_pre fixed_iterate fixed_on_fail).

Lemma fixed_frame : forall n s c s', fixed_iterate n s = Some (c, s') ->
  time s' = time s /\ delta s' = delta s /\ nsucc s' = nsucc s /\ nfail s' = nfail s
  /\ (c = Success /\ step s' = step s
         /\ (exists y, predict n (space s) (time s) (delta s) = (Success, y)
                       /\ correct n y (time s + delta s)%C = (Success, space s'))
      \/ c <> Success /\ space s' = space s /\
         (step s' = fail_factor cfg * step s
          \/ step s' = step s /\ exists y, fst (correct n y (time s + delta s)%C) = GoingToInfinity)).
Proof.
  intros n s c s' E. unfold fixed_iterate in E.
  destruct (predict n (space s) (time s) (delta s)) as [pc y] eqn:Ep.
  destruct (is_success pc) eqn:Ip; cbn [negb] in E.
  - apply is_success_true in Ip. subst pc. destruct (correct n y _) as [cc z] eqn:Ec.
    destruct cc; injection E as <- <-; cbn [time delta nsucc nfail step space set_step set_space];
      repeat match goal with |- _ /\ _ => split end; try reflexivity;
      try (right; split; [discriminate|]; split; [reflexivity|]; left; reflexivity).
    + left. split; [reflexivity|]. split; [reflexivity|]. exists y. split; [reflexivity|exact Ec].
    + right. split; [discriminate|]. split; [reflexivity|]. right. split; [reflexivity|]. exists y. rewrite Ec. reflexivity.
  - injection E as <- <-. cbn [time delta nsucc nfail step space set_step].
    repeat match goal with |- _ /\ _ => split end; try reflexivity.
    right. split; [intros ->; discriminate|]. split; [reflexivity|]. left. reflexivity.
Qed.

Lemma fixed_pre_success : forall s, fixed_pre s = Success ->
  (nsucc s < max_num_steps cfg)%nat /\ min_step_size cfg <= step s.
Proof.
  intros s E. unfold fixed_pre in E. destruct (Nat.leb_spec (max_num_steps cfg) (nsucc s)); [discriminate|].
  destruct (Rlt_dec (step s) (min_step_size cfg)); [discriminate|]. split; [assumption|lra].
Qed.

Lemma fixed_turn_frame_hyps : 0 <= min_step_size cfg ->
  (forall n s c s', fixed_iterate n s = Some (c, s') -> time s' = time s /\ delta s' = delta s)
  /\ (forall s : st P, time (fixed_on_fail s) = time s /\ space (fixed_on_fail s) = space s)
  /\ (forall s : st P, fixed_pre s = Success -> 0 <= step s).
Proof.
  intro Hm. split; [|split].
  - intros n s c s' E. destruct (fixed_frame _ _ _ _ E) as [A [B _]]. split; assumption.
  - intro s. split; reflexivity.
  - intros s E. destruct (fixed_pre_success s E). lra.
Qed.

(** Where the current point comes from: it is the start point at the start time, or the corrector
    answered it, with Success, at the current time. *)
Definition comes_from_corrector (start : C) (x0 : P) (s : st P) : Prop :=
  (time s = start /\ space s = x0) \/ exists n y, correct n y (time s) = (Success, space s).

Lemma fixed_turn_point : forall start x0 n s s', comes_from_corrector start x0 s ->
  fturn n s = Go s' -> comes_from_corrector start x0 s'.
Proof.
  intros start x0 n s s' H E. unfold turn in E.
  destruct (close _ _ _); [discriminate|]. destruct (is_success (fixed_pre s)); [|discriminate].
  destruct (fixed_iterate n _) as [[c s2]|] eqn:It; [|discriminate].
  destruct (fixed_frame _ _ _ _ It) as [T [D [_ [_ R]]]].
  destruct (truncation && going n (space s2)); [discriminate|].
  destruct (is_success c) eqn:Ic.
  - injection E as <-. destruct R as [[_ [_ [y [_ Hc]]]]|[N _]].
    + right. exists n, y. cbn [on_success time space]. rewrite T, D. exact Hc.
    + apply is_success_true in Ic. contradiction.
  - injection E as <-. destruct R as [[-> _]|[_ [Sp _]]]; [discriminate|].
    unfold comes_from_corrector. cbn [fixed_on_fail base_fail time space]. rewrite T, Sp. cbn. exact H.
Qed.

Lemma fixed_track_times : 0 <= min_step_size cfg -> forall fuel re h p start x0,
  Forall (fun s => on_segment start endt (time s)) (fst (fixed_track fuel re h p start x0))
  /\ chain (closer endt) (fst (fixed_track fuel re h p start x0)).
Proof.
  intros Hm fuel re h p start x0. destruct (fixed_turn_frame_hyps Hm) as [A [B D]].
  apply run_times; try assumption. apply on_segment_start.
Qed.

Lemma fixed_track_success : forall fuel re h p start x0 l s,
  fixed_track fuel re h p start x0 = (l, Finished Success s) ->
  within (time s) endt (eps (prec s)) /\ comes_from_corrector start x0 s.
Proof.
  intros fuel re h p start x0 l s E. unfold fixed_track in E.
  pose proof (run_success _ _ _ _ _ _ _ _ _ _ _ _ E) as [[l' El] W]. split; [exact W|].
  pose proof (run_invariant endt eps truncation going fixed_pre fixed_iterate fixed_on_fail
                (comes_from_corrector start x0) (fixed_turn_point start x0) fuel 0
                (fixed_init re h p start x0)) as I.
  rewrite E in I. cbn [fst] in I. rewrite El in I. apply Forall_app in I; [|left; split; reflexivity].
  destruct I as [_ I]. inversion I; assumption.
Qed.

(* ------------------------------------------------------------------ step size and termination *)

Hypothesis no_infinity : forall n y t, fst (correct n y t) <> GoingToInfinity.

(** In one round, the step size is kept by a success and multiplied by the failure factor by a
    failure. *)
Lemma fixed_turn_step : forall n s s', fturn n s = Go s' ->
  fixed_pre s = Success /\
  (nsucc s' = S (nsucc s) /\ nfail s' = nfail s /\ step s' = step s
   \/ nsucc s' = nsucc s /\ nfail s' = S (nfail s) /\ step s' = fail_factor cfg * step s).
Proof.
  intros n s s' E. unfold turn in E.
  destruct (close _ _ _); [discriminate|]. destruct (is_success (fixed_pre s)) eqn:Ip; [|discriminate].
  apply is_success_true in Ip. split; [exact Ip|].
  destruct (fixed_iterate n _) as [[c s2]|] eqn:It; [|discriminate].
  destruct (fixed_frame _ _ _ _ It) as [_ [_ [N1 [N2 R]]]].
  destruct (truncation && going n (space s2)); [discriminate|].
  destruct (is_success c) eqn:Ic; injection E as <-.
  - left. destruct R as [[_ [Hh _]]|[N _]]; [|apply is_success_true in Ic; contradiction].
    cbn in *. rewrite N1, N2, Hh. repeat split.
  - right. destruct R as [[-> _]|[_ [_ [Hh|[_ [y Hy]]]]]]; [discriminate| |].
    + cbn in *. rewrite N1, N2, Hh. repeat split.
    + exfalso. exact (no_infinity _ _ _ Hy).
Qed.

Lemma fixed_terminates_from : 0 <= fail_factor cfg <= 1 ->
  forall K M n s, 0 <= step s -> step s * fail_factor cfg ^ K < min_step_size cfg ->
  (max_num_steps cfg - nsucc s <= M)%nat ->
  exists c s', snd (frun (S (M + K)) n s) = Finished c s'.
Proof.
  intros Hf K M. remember (M + K)%nat as N eqn:EN. revert K M EN.
  induction N as [N IH] using lt_wf_ind. intros K M EN n s H0 HK HM.
  cbn [run]. destruct (fturn n s) as [c s'|s'|] eqn:E.
  - eexists _, _. reflexivity.
  - pose proof (fixed_turn_step _ _ _ E) as [Pr R]. apply fixed_pre_success in Pr. destruct Pr as [Ps Pm].
    destruct R as [[A [B D]]|[A [B D]]].
    + assert (M <> 0)%nat by lia. destruct N as [|N]; [lia|].
      destruct (IH N ltac:(lia) K (M - 1)%nat ltac:(lia) (S n) s') as [c [s'' F]]; [rewrite D; exact H0|rewrite D; exact HK|lia|].
      destruct (frun (S N) (S n) s') as [l o]. cbn [snd] in *. eauto.
    + destruct K as [|K]; [cbn in HK; lra|]. destruct N as [|N]; [lia|].
      destruct (IH N ltac:(lia) K M ltac:(lia) (S n) s') as [c [s'' F]].
      * rewrite D. apply Rmult_le_pos; lra.
      * rewrite D. cbn in HK. lra.
      * lia.
      * destruct (frun (S N) (S n) s') as [l o]. cbn [snd] in *. eauto.
  - exfalso. unfold turn in E. destruct (close _ _ _); [discriminate|].
    destruct (is_success (fixed_pre s)); [|discriminate].
    unfold fixed_iterate in E. destruct (predict _ _ _ _) as [pc y].
    destruct (is_success pc); cbn [negb] in E.
    + destruct (correct _ _ _) as [cc z]. destruct cc;
      match type of E with (if ?b then _ else _) = _ => destruct b end; try discriminate;
      match type of E with (if ?b then _ else _) = _ => destruct b end; discriminate.
    + match type of E with (if ?b then _ else _) = _ => destruct b end; try discriminate.
      match type of E with (if ?b then _ else _) = _ => destruct b end; discriminate.
Qed.

Lemma geometric_below : forall h f m, 0 <= f < 1 -> 0 < m -> exists K, h * f ^ K < m.
Proof.
  intros h f m Hf Hm. destruct (Rle_lt_dec h 0) as [L|L].
  - exists 0%nat. cbn. lra.
  - destruct (pow_lt_1_zero f ltac:(rewrite Rabs_pos_eq; lra) (m / h) ltac:(apply Rdiv_lt_0_compat; lra)) as [K HK].
    exists K. specialize (HK K (Nat.le_refl K)). rewrite Rabs_pos_eq in HK by (apply pow_le; lra).
    apply Rmult_lt_reg_r with (/ h); [apply Rinv_0_lt_compat; lra|].
    replace (h * f ^ K * / h) with (f ^ K) by (field; lra). exact HK.
Qed.

(** The step size at the loop head, before any round, is kept or shrunk: after k failures it is the
    first one times the k-th power of the failure factor; and it is at least one failure factor below
    the minimum (or the first one). *)
Lemma fixed_steps : 0 <= fail_factor cfg <= 1 -> forall fuel re h p start x0,
  let h0 := first_step cfg re h start endt in
  Forall (fun s => step s = h0 * fail_factor cfg ^ nfail s
                   /\ Rmin h0 (fail_factor cfg * min_step_size cfg) <= step s)
         (fst (fixed_track fuel re h p start x0)).
Proof.
  intros Hf fuel re h p start x0 h0.
  apply (run_invariant endt eps truncation going fixed_pre fixed_iterate fixed_on_fail
           (fun s => step s = h0 * fail_factor cfg ^ nfail s
                     /\ Rmin h0 (fail_factor cfg * min_step_size cfg) <= step s)).
  - intros n s s' [E B] G. apply fixed_turn_step in G. destruct G as [Pr R].
    apply fixed_pre_success in Pr. destruct Pr as [_ Pm].
    destruct R as [[_ [Nf D]]|[_ [Nf D]]]; rewrite D, Nf.
    + split; assumption.
    + split; [rewrite E; cbn; ring|]. apply Rle_trans with (fail_factor cfg * min_step_size cfg); [apply Rmin_r|].
      apply Rmult_le_compat_l; lra.
  - cbn. split; [unfold h0; ring|]. apply Rmin_l.
Qed.

(** In particular it never grows. *)
Lemma fixed_never_grows : 0 <= fail_factor cfg <= 1 -> 0 <= min_step_size cfg -> forall fuel re h p start x0,
  chain (fun s s' => step s' <= step s) (fst (fixed_track fuel re h p start x0)).
Proof.
  intros Hf Hm fuel re h p start x0. apply run_chain. intros n s s' G. apply fixed_turn_step in G.
  destruct G as [Pr R]. apply fixed_pre_success in Pr.
  destruct R as [[_ [_ D]]|[_ [_ D]]]; rewrite D; nra.
Qed.

End Fixed.

(** One bound on the number of rounds for all behaviours of predictor and corrector, all systems,
    points and times. *)
Lemma fixed_terminates : forall cfg, 0 <= fail_factor cfg < 1 -> 0 < min_step_size cfg ->
  0 <= initial_step_size cfg ->
  exists N, forall (P : Type) endt eps truncation going predict correct p start (x0 : P),
    (forall n y t, fst (correct n y t) <> GoingToInfinity) ->
    exists c s, snd (fixed_track cfg endt eps truncation going predict correct N true 0 p start x0) = Finished c s.
Proof.
  intros cfg Hf Hm Hi. destruct (geometric_below (initial_step_size cfg) (fail_factor cfg) (min_step_size cfg) Hf Hm) as [K HK].
  exists (S (max_num_steps cfg + K)). intros P endt eps truncation going predict correct p start x0 Hc.
  unfold fixed_track. apply fixed_terminates_from; [exact Hc|lra| | |cbn; lia].
  - cbn. unfold first_step. destruct (min_num_steps cfg =? 0)%nat eqn:E; [exact Hi|].
    apply Rmin_glb; [exact Hi|]. apply Rmult_le_pos; [apply Cmod_ge_0|].
    left. apply Rinv_0_lt_compat. apply lt_0_INR. apply Nat.eqb_neq in E. lia.
  - cbn. apply Rle_lt_trans with (2 := HK). apply Rmult_le_compat_r; [apply pow_le; lra|].
    unfold first_step. destruct (min_num_steps cfg =? 0)%nat; [lra|apply Rmin_l].
Qed.

(** With any carried over step size it terminates too, but the bound depends on it. *)
Lemma fixed_terminates_carried : forall cfg h, 0 <= fail_factor cfg < 1 -> 0 < min_step_size cfg -> 0 <= h ->
  exists N, forall (P : Type) endt eps truncation going predict correct p start (x0 : P),
    (forall n y t, fst (correct n y t) <> GoingToInfinity) ->
    exists c s, snd (fixed_track cfg endt eps truncation going predict correct N false h p start x0) = Finished c s.
Proof.
  intros cfg h Hf Hm Hi. destruct (geometric_below h (fail_factor cfg) (min_step_size cfg) Hf Hm) as [K HK].
  exists (S (max_num_steps cfg + K)). intros P endt eps truncation going predict correct p start x0 Hc.
  unfold fixed_track. apply fixed_terminates_from; [exact Hc|lra|exact Hi|exact HK|cbn; lia].
Qed.

(* ------------------------------------------------------------------ chains *)
Lemma chain_tail : forall {A} (rel : A -> A -> Prop) a l, chain rel (a :: l) -> chain rel l.
Proof. intros A rel a [|b l] H; [exact I|apply H]. Qed.

Lemma chain_middle : forall {A} (rel : A -> A -> Prop) l1 l2 l3, chain rel (l1 ++ l2 ++ l3) -> chain rel l2.
Proof.
  intros A rel l1 l2 l3. induction l1 as [|a l1 IH]; cbn [app].
  - induction l2 as [|b l2 IH2]; [intros; exact I|]. intro H.
    destruct l2 as [|b2 l2]; [exact I|]. cbn [app] in *. destruct H as [H1 H2]. split; [exact H1|exact (IH2 H2)].
  - intro H. apply IH. exact (chain_tail _ _ _ H).
Qed.

Lemma chain_impl : forall {A} (r1 r2 : A -> A -> Prop), (forall a b, r1 a b -> r2 a b) ->
  forall l, chain r1 l -> chain r2 l.
Proof.
  intros A r1 r2 H l. induction l as [|a l IH]; [intros; exact I|].
  destruct l as [|b l]; [intros; exact I|]. intros [R C]. split; [apply H; exact R|exact (IH C)].
Qed.
