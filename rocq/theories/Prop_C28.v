(** C28: MinimizeTrackingCost selects a feasible cheapest pair. *)
From Coq Require Import List ZArith Reals Lra Lia.
From Verif Require Import Newton AmpCost AmpCostEx.
Import ListNotations.
Local Open Scope Z_scope.

(** What is chosen is a precision among the candidates (double precision if the lower bound allows
    it, and the multiples of ten between the rounded bounds), with the step size the code computes for
    it, and no candidate has a lower cost per unit advance, where a step costs 1 in double precision and
    10.35 + 0.13 p with p digits; if there is no candidate, the impossible
    precision and the smallest step size come back. *)
Theorem C28_cheapest :
  forall digits_B iterations order max_stepsize pmin hmin pmax, 0 <= pmin -> 0 <= pmax ->
  let is_candidate p := (p = DoublePrecision /\ pmin <= DoublePrecision)
       \/ (round_precision pmin <= p <= round_precision pmax /\ exists k, p = PrecisionIncrement * k) in
  let step_for p := Rmin (stepsize_criterion_B p digits_B iterations order) max_stepsize in
  let work p := (if p =? DoublePrecision then 1 else 10.35 + 0.13 * IZR p)%R in
  let cost p := (work p / Rabs (step_for p))%R in
  ((forall p, ~ is_candidate p)
     /\ minimize digits_B iterations order max_stepsize pmin hmin pmax = (MaxPrecisionAllowed + 1, hmin))
  \/ exists p, minimize digits_B iterations order max_stepsize pmin hmin pmax = (p, step_for p)
       /\ is_candidate p /\ forall q, is_candidate q -> (cost p <= cost q)%R.
Proof.
  intros digits_B iterations order max_stepsize pmin hmin pmax H1 H2 is_candidate step_for work cost.
  assert (W : forall p, work p = arithmetic_cost p).
  { intro p. unfold work, arithmetic_cost. destruct (p =? DoublePrecision); [reflexivity|]. lra. }
  destruct (minimize_cheapest digits_B iterations order max_stepsize pmin hmin pmax H1 H2) as [L|[p [A [B D]]]];
    [left; exact L|right; exists p]. split; [exact A|]. split; [exact B|].
  intros q Hq. unfold cost. rewrite !W. exact (D q Hq).
Qed.
Print Assumptions C28_cheapest.

(** The step size never exceeds the given maximum (unless no candidate exists). *)
Theorem C28_step_within_maximum :
  forall digits_B iterations order max_stepsize pmin hmin pmax p h,
  minimize digits_B iterations order max_stepsize pmin hmin pmax = (p, h) ->
  (h <= max_stepsize)%R \/ (p = MaxPrecisionAllowed + 1 /\ h = hmin).
Proof. exact minimize_step_max. Qed.
Print Assumptions C28_step_within_maximum.

(** The precision lies within the bounds if the lower bound is at most double precision or a multiple
    of ten at least 20, and the upper bound at least 20. *)
Theorem C28_precision_within_bounds_partial :
  forall digits_B iterations order max_stepsize pmin hmin pmax p h,
  0 <= pmin <= pmax -> (pmin <= DoublePrecision \/ (LowestMultiplePrecision <= pmin /\ pmin mod PrecisionIncrement = 0)) ->
  LowestMultiplePrecision <= pmax ->
  minimize digits_B iterations order max_stepsize pmin hmin pmax = (p, h) -> pmin <= p <= pmax.
Proof. exact minimize_in_range. Qed.
Print Assumptions C28_precision_within_bounds_partial.

(** In general it does not: between 25 and 25 the choice is 20, between 17 and 18 it is 20. *)
Theorem C28_precision_within_bounds_refuted :
  fst (minimize 0 2 4 1 25 1 25) = 20 /\ fst (minimize 0 2 4 1 17 1 18) = 20.
Proof. exact minimize_out_of_range. Qed.
Print Assumptions C28_precision_within_bounds_refuted.

(** With steps of at most 1 the lowest candidate precision is always chosen, with the largest step
    allowed, even where criterion B asks for a smaller one (see C29). *)
Theorem C28_lowest_precision_wins :
  forall digits_B iterations order max_stepsize pmin hmin pmax,
  0 <= order < 2 ^ 32 - 1 -> (0 < max_stepsize <= 1)%R -> 0 <= pmin -> 0 <= pmax ->
  tested pmin pmax <> [] ->
  exists p, minimize digits_B iterations order max_stepsize pmin hmin pmax = (p, max_stepsize)
            /\ In p (tested pmin pmax) /\ forall q, In q (tested pmin pmax) -> p <= q.
Proof. exact minimize_small_steps. Qed.
Print Assumptions C28_lowest_precision_wins.

(** With 30 digits asked for, double precision and a step of 1 are chosen although the step size
    criterion B allows is 10^-14 there, and 30 digits would be in range. *)
Theorem C28_feasible_refuted :
  minimize 30 2 1 1 16 1 100 = (16, 1%R) /\ (intended_stepsize_B 16 30 2 1 < 1)%R.
Proof. exact minimize_infeasible. Qed.
Print Assumptions C28_feasible_refuted.

Example C28_choice : minimize 10 2 4 1 16 (1/1000) 100 = (16, 1%R) /\ minimize 10 2 4 (1/2) 30 (1/1000) 100 = (30, (1/2)%R).
Proof. exact minimize_examples. Qed.
