(** C56: the extrapolation of the power series endgame is exact for paths quadratic in a root of the time. *)
From Coq Require Import List ZArith Lia Reals Lra Bool Arith.
From Coquelicot Require Import Complex.
From Verif Require Import Base Poly ComplexField StartIndex RKQuad Hermite Endgame EgSeries EgSeriesEx.
Import ListNotations.
Local Open Scope R_scope.

(** Samples at the times t0 + r u, r in a list of distinct positive numbers.  Every coordinate is a polynomial
    of degree at most two in rho = r^(1/c), and the derivatives are its derivatives with respect to time.
    If c is among the candidates and no smaller one predicts the newest sample exactly, the endgame
    reports cycle number c and its approximation is the value at rho = 0, the limit of the path. *)
Theorem C56_series_exact_partial :
  forall (nv n : nat) (factor : R) (amplification max_cycle : Z) (rand : nat -> C) (highest : R),
  (3 <= n)%nat -> 0 < highest ->
  forall c : nat, (1 <= c)%nat ->
  forall t0 u : C, u <> RtoC 0 ->
  forall q : nat -> list C, (forall j, (length (q j) <= 3)%nat) ->
  forall rs : list R, List.Forall (fun r => 0 < r) rs -> NoDup rs -> (n <= length rs)%nat ->
  let rho r := Rpower r (1 / INR c) in
  let times := map (fun r => (t0 + RtoC r * u)%C) rs in
  let samples := map (fun r j => @peval CF (q j) (RtoC (rho r))) rs in
  let derivs := map (fun r j =>
    (@peval CF (pderiv CF (q j)) (RtoC (rho r)) / (RtoC (INR c) * fpow (RtoC (rho r) : CF) (c - 1) * u))%C) rs in
  forall (b : Z) (old : nat),
  cycle_bound nv factor amplification max_cycle rand samples = Value b -> (c <= Z.to_nat b)%nat ->
  (forall k, (1 <= k < c)%nat ->
     prediction_error nv t0 (search_points n samples) times samples derivs k <> Value 0) ->
  exists x,
    approximation nv n factor amplification max_cycle rand highest t0 times samples derivs old = Value (c, x) /\
    forall j, x j = @peval CF (q j) (RtoC 0).
Proof. exact series_exact. Qed.
Print Assumptions C56_series_exact_partial.

(** The square root x = t^(1/2) at 1, 1/4, 1/16: cycle number 2, limit 0. *)
Example C56_square_root : exists x,
  approximation 1 3 (1 / 4) 1 1 ones 1 (RtoC 0) sq_times sq_samples sq_derivs 0 = Value (2%nat, x) /\ x 0%nat = RtoC 0.
Proof. exact (sq_run 0). Qed.

(** A coordinate which is a cubic in rho is not extrapolated to its limit: whatever the other coordinates are,
    and however many samples are used, the reported value is off by a3 newest^2 (before - newest), where newest and before
    are the values of rho at the last and the last but one sample.  A Hermite interpolation through n
    values and n derivatives reproduces polynomials up to degree 2n - 1, for n = 2 already the cubics. *)
Theorem C56_cubic_partial :
  forall (nv n : nat) (factor : R) (amplification max_cycle : Z) (rand : nat -> C) (highest : R) (c : nat) (t0 u : C)
    (q : nat -> list C) (rs : list R),
  (2 <= n)%nat -> (1 <= c)%nat -> u <> RtoC 0 ->
  List.Forall (fun r => 0 < r) rs -> NoDup rs -> (n <= length rs)%nat ->
  let rho r := Rpower r (1 / INR c) in
  let times := map (fun r => (t0 + RtoC r * u)%C) rs in
  let samples := map (fun r j => @peval CF (q j) (RtoC (rho r))) rs in
  let derivs := map (fun r j =>
    (@peval CF (pderiv CF (q j)) (RtoC (rho r)) / (RtoC (INR c) * fpow (RtoC (rho r) : CF) (c - 1) * u))%C) rs in
  forall old x,
  approximation nv n factor amplification max_cycle rand highest t0 times samples derivs old = Value (c, x) ->
  forall j a0 a1 a2 a3, q j = [a0; a1; a2; a3] ->
  let newest := rho (nth (length rs - 1) rs 0) in
  let before := rho (nth (length rs - 2) rs 0) in
  x j = (@peval CF (q j) (RtoC 0) + a3 * RtoC (newest * newest * (before - newest)))%C.
Proof.
  intros nv n factor amplification max_cycle rand highest c t0 u q rs Hn Hc Hu Hp Hd Hl rho times samples derivs old x E.
  exact (series_cubic nv n factor amplification max_cycle rand highest c t0 u q rs Hn Hc Hu Hp Hd Hl old x E).
Qed.
Print Assumptions C56_cubic_partial.

(** The path x = t^3 at 1, 1/4, 1/16, three samples: the cycle number 1 is found, the approximation is not the limit 0. *)
Theorem C56_cubic_refuted :
  ~ (forall (nv n : nat) (factor : R) (amplification max_cycle : Z) (rand : nat -> C) (highest : R) (c : nat) (t0 u : C)
       (q : nat -> list C) (rs : list R),
     (3 <= n)%nat -> (1 <= c)%nat -> u <> RtoC 0 -> (forall j, (length (q j) <= 2 * n)%nat) ->
     List.Forall (fun r => 0 < r) rs -> NoDup rs -> (n <= length rs)%nat ->
     let rho r := Rpower r (1 / INR c) in
     let times := map (fun r => (t0 + RtoC r * u)%C) rs in
     let samples := map (fun r j => @peval CF (q j) (RtoC (rho r))) rs in
     let derivs := map (fun r j =>
       (@peval CF (pderiv CF (q j)) (RtoC (rho r)) / (RtoC (INR c) * fpow (RtoC (rho r) : CF) (c - 1) * u))%C) rs in
     forall old x,
     approximation nv n factor amplification max_cycle rand highest t0 times samples derivs old = Value (c, x) ->
     forall j, (j < nv)%nat -> x j = @peval CF (q j) (RtoC 0)).
Proof.
  intro H. destruct cu_run as (x & E & N). apply N.
  rewrite (H 1%nat 3%nat (1 / 4) 1%Z 1%Z ones 1 1%nat (RtoC 0) (RtoC 1) cu_q sq_rs (le_n 3) (le_n 1)
    ltac:(intro Z; apply RtoC_inj in Z; lra) ltac:(intro j; cbn; lia) ltac:(unfold sq_rs; repeat constructor; lra)
    ltac:(unfold sq_rs; repeat constructor; cbn; intuition lra) ltac:(cbn; lia) 1%nat x E 0%nat ltac:(lia)).
  unfold cu_q. cbn. ring.
Qed.
Print Assumptions C56_cubic_refuted.

Example C56_cubic_met : exists x,
  approximation 1 3 (1 / 4) 1 1 ones 1 (RtoC 0) cu_times cu_samples cu_derivs 1 = Value (1%nat, x) /\ x 0%nat <> RtoC 0.
Proof. exact cu_run. Qed.
