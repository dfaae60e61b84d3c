(** C36: the cycle number of the power series endgame. *)
From Coq Require Import List ZArith Lia Reals Lra Bool Arith.
From Coquelicot Require Import Complex.
From Verif Require Import Base Poly ComplexField StartIndex RKQuad Hermite Endgame EgSeries EgSeriesEx EgGeo EgZone EgZoneEx.
Import ListNotations.
Local Open Scope R_scope.

(** Let b be the bound computed from the samples and err k the distance between the newest sample and its
    prediction with cycle number k.  The search tries 1, ..., b.  Its answer is the first k with the
    smallest error, unless no error is below the largest representable number; then it is the
    number found before. *)
Theorem C36_minimises :
  forall (nv n : nat) (factor : R) (amplification max_cycle : Z) (rand : nat -> C) (highest : R)
    (t0 : C) (times : list C) (samples derivs : list (nat -> C)) (old c : nat) (b : Z),
  cycle_bound nv factor amplification max_cycle rand samples = Value b ->
  cycle_number nv n factor amplification max_cycle rand highest t0 times samples derivs old = Value c ->
  let err := prediction_error nv t0 (search_points n samples) times samples derivs in
  (forall k, (1 <= k <= Z.to_nat b)%nat -> exists e, err k = Value e) /\
  ((exists e, (1 <= c <= Z.to_nat b)%nat /\ err c = Value e /\ e < highest /\
      (forall k ek, (1 <= k <= Z.to_nat b)%nat -> err k = Value ek -> e <= ek) /\
      (forall k ek, (1 <= k < c)%nat -> err k = Value ek -> e < ek))
   \/ (c = old /\ forall k ek, (1 <= k <= Z.to_nat b)%nat -> err k = Value ek -> highest <= ek)).
Proof. exact cycle_number_min. Qed.
Print Assumptions C36_minimises.

(** The candidates contain the true cycle number: if the three newest samples are p + v t^(1/w) at times multiplied by the
    sample factor, and the random vector does not annihilate v, then 1, ..., max (w * amplification) max_cycle_number are
    tried. *)
Theorem C36_candidates :
  forall (nv : nat) (rand : nat -> C) (factor : R) (amplification max_cycle : Z) older p v t x0 x1 x2 (w : nat),
  0 < factor < 1 -> 0 < t -> (1 <= w)%nat -> (Z.of_nat w * amplification < 2 ^ 32)%Z ->
  on_path nv p v (/ INR w) t factor x0 x1 x2 -> pairing nv rand v <> RtoC 0 ->
  cycle_bound nv factor amplification max_cycle rand (older ++ [x0; x1; x2]) =
  Value (Z.max (Z.of_nat w * amplification) max_cycle).
Proof.
  intros nv rand factor amp mx older p v t x0 x1 x2 w Hf Ht Hw Ha O Hv.
  apply (bound_geometric nv rand factor amp mx older p v (Rpower t (/ INR w)) x0 x1 x2 w Hf Hw); auto.
  - apply exp_pos.
  - apply on_path_geometric; [exact Ht|lra|exact O].
Qed.
Print Assumptions C36_candidates.

(** max_cycle_number is no upper bound: the number of candidates is 1 or at least max_cycle_number. *)
Theorem C36_bound_is_lower_bound_refuted :
  forall (nv : nat) (factor : R) (amplification max_cycle : Z) (rand : nat -> C) (samples : list (nat -> C)) (b : Z),
  cycle_bound nv factor amplification max_cycle rand samples = Value b ->
  b = 1%Z \/ ((max_cycle <= b)%Z /\ exists e, 1 <= e /\ b = Z.max (round_half_up e * amplification) max_cycle).
Proof. exact bound_at_least. Qed.
Print Assumptions C36_bound_is_lower_bound_refuted.

(** The square root x = t^(1/2) at 1, 1/4, 1/16, factor 1/4.  With the default maximum 6 and amplification 5, ten
    candidates are tried; with maximum 1 and amplification 1 the reported cycle number is 2. *)
Theorem C36_maximum_refuted :
  cycle_bound 1 (1 / 4) 5 6 ones sq_samples = Value 10%Z /\
  cycle_bound 1 (1 / 4) 1 1 ones sq_samples = Value 2%Z /\
  cycle_number 1 3 (1 / 4) 1 1 ones 1 (RtoC 0) sq_times sq_samples sq_derivs 0 = Value 2%nat.
Proof. exact (conj sq_bound_default (conj sq_bound sq_cycle)). Qed.
Print Assumptions C36_maximum_refuted.

(** That run meets the hypotheses of the first theorem; the data are the values and derivatives of the root. *)
Example C36_data :
  (forall j, nth 1 sq_samples (fun _ => RtoC 0) j = RtoC (1 / 2)) /\
  (forall j, nth 1 sq_derivs (fun _ => RtoC 0) j = RtoC (1 / (2 * (1 / 2)))).
Proof.
  split; intro j; cbn [nth sq_samples sq_derivs sq_rs map].
  - rewrite sq_value, root2_4. reflexivity.
  - apply sq_slope; [exact root2_4|lra].
Qed.

Example C36_candidates_case :
  on_path 1 (fun _ => RtoC 0) (fun _ => RtoC 1) (/ INR 1) 1 (1/2) (line (1/2) 0) (line (1/2) 1) (line (1/2) 2) /\
  pairing 1 unit_rand (fun _ => RtoC 1) <> RtoC 0.
Proof. replace (/ INR 1) with 1 by (cbn; field). split; [apply line_path; lra|exact line_pairing]. Qed.
