(** The Newton corrector: core/include/bertini2/trackers/newton_corrector.hpp.

    The numerical work of one iteration (evaluating the system and its Jacobian, the LU factorization
    and the two AMP criteria) is a parameter: whatever it answers, the control flow below is the
    code's. *)
From Coq Require Import List ZArith Lia Reals Lra Bool.
Import ListNotations.
Local Open Scope Z_scope.

(** SuccessCode, common/config.hpp:45-65. *)
Inductive code : Set :=
| NeverStarted | Success | HigherPrecisionNecessary | ReduceStepSize | GoingToInfinity
| FailedToConverge | MatrixSolveFailure | MatrixSolveFailureFirstPartOfPrediction
| MaxNumStepsTaken | MaxPrecisionReached | MinStepSizeReached | Failure | SingularStartPoint
| ExternallyTerminated | MinTrackTimeReached | SecurityMaxNormReached | CycleNumTooHigh.

Definition code_eq_dec : forall a b : code, {a = b} + {a <> b}.
Proof. decide equality. Defined.

Definition is_success (c : code) : bool := match c with Success => true | _ => false end.

(** arithmetic of "unsigned" (32 bits) *)
Definition wrap32 (z : Z) : Z := z mod 2 ^ 32.

Section Newton.
Context {P : Type}.              (* vectors, Vec<ComplexType> *)
Variable add : P -> P -> P.      (* next_space += step_ref *)
Variable norm : P -> R.          (* lpNorm<Infinity> *)
(** EvalIterationStep, newton_corrector.hpp:340-362: at the ii-th iteration and point x, the step, or
    None when the LU decomposition is not successful. *)
Variable solve : nat -> P -> option P.
(** CriterionB and CriterionC after the ii-th iteration, at the updated point
    (newton_corrector.hpp:229-233 and 310-314); constantly true for the fixed precision overload. *)
Variable criteria : nat -> P -> bool.
Variables tol : R.
Variables min_iterations max_iterations : Z.   (* unsigned *)

(** The loop of the three overloads of Correct, newton_corrector.hpp:140-170, 193-236, 265-318.
    [min_num_newton_iterations-1] is unsigned arithmetic.  The result also counts the iterations
    made, which is not part of the C++ return value. *)
Fixpoint newton_loop (left ii : nat) (x : P) : code * P * nat :=
  match left with
  | O => (FailedToConverge, x, ii)
  | S left' =>
      match solve ii x with
      | None => (MatrixSolveFailure, x, ii)
      | Some d =>
          let x' := add x d in
          if (if Rlt_dec (norm d) tol then true else false) && (wrap32 (min_iterations - 1) <=? Z.of_nat ii)
          then (Success, x', S ii)
          else if criteria ii x' then newton_loop left' (S ii) x'
          else (HigherPrecisionNecessary, x', S ii)
      end
  end.

(** Correct: next_space starts as a copy of the base point. *)
Definition newton (x : P) : code * P * nat := newton_loop (Z.to_nat max_iterations) 0 x.

(* ------------------------------------------------------------------ specification *)

(** x_0, x_1, ... is the Newton sequence from x_0 with steps d_0, d_1, ...: each step is what the
    linear solve gave at the previous point, and is added to it. *)
Inductive newton_sequence : nat -> P -> list P -> P -> Prop :=
| ns_start : forall ii x, newton_sequence ii x [] x
| ns_step : forall ii x d ds y, solve ii x = Some d ->
    newton_sequence (S ii) (add x d) ds y -> newton_sequence ii x (d :: ds) y.

Lemma newton_loop_sound : forall left ii x c y k,
  newton_loop left ii x = (c, y, k) ->
  (ii <= k <= ii + left)%nat /\
  exists ds, newton_sequence ii x ds y /\ length ds = (k - ii)%nat /\
    (c = Success -> ds <> [] /\ (norm (last ds y) < tol)%R
                    /\ wrap32 (min_iterations - 1) <= Z.of_nat k - 1).
Proof.
  induction left as [|left IH]; intros ii x c y k E; cbn in E.
  - injection E as <- <- <-. split; [lia|]. exists []. split; [constructor|]. split; [cbn; lia|discriminate].
  - destruct (solve ii x) as [d|] eqn:S1.
    2:{ injection E as <- <- <-. split; [lia|]. exists []. split; [constructor|]. split; [cbn; lia|discriminate]. }
    destruct (Rlt_dec (norm d) tol) as [N|N]; cbn [andb] in E.
    + destruct (Z.leb_spec (wrap32 (min_iterations - 1)) (Z.of_nat ii)) as [L|L].
      * injection E as <- <- <-. split; [lia|]. exists [d]. split; [econstructor; [exact S1|constructor]|].
        split; [cbn [length]; lia|]. intros _. split; [discriminate|]. split; [exact N|]. lia.
      * destruct (criteria ii (add x d)).
        -- apply IH in E. destruct E as [B [ds [Q [Ln T]]]]. split; [lia|]. exists (d :: ds).
           split; [econstructor; eauto|]. split; [cbn [length]; lia|].
           intro Sx. destruct (T Sx) as [Ne [T1 T2]]. split; [discriminate|].
           destruct ds; [contradiction|]. split; [exact T1|exact T2].
        -- injection E as <- <- <-. split; [lia|]. exists [d].
           split; [econstructor; [exact S1|constructor]|]. split; [cbn [length]; lia|discriminate].
    + destruct (criteria ii (add x d)).
      * apply IH in E. destruct E as [B [ds [Q [Ln T]]]]. split; [lia|]. exists (d :: ds).
        split; [econstructor; eauto|]. split; [cbn [length]; lia|].
        intro Sx. destruct (T Sx) as [Ne [T1 T2]]. split; [discriminate|].
        destruct ds; [contradiction|]. split; [exact T1|exact T2].
      * injection E as <- <- <-. split; [lia|]. exists [d].
        split; [econstructor; [exact S1|constructor]|]. split; [cbn [length]; lia|discriminate].
Qed.

(** Success says what it should. *)
Lemma newton_success : 0 <= min_iterations < 2 ^ 32 -> 0 <= max_iterations < 2 ^ 32 -> forall x y k,
  newton x = (Success, y, k) ->
  min_iterations <= Z.of_nat k <= max_iterations /\
  exists ds d, newton_sequence 0 x (ds ++ [d]) y /\ length (ds ++ [d]) = k /\ (norm d < tol)%R.
Proof.
  intros Bmin Bmax x y k E. apply newton_loop_sound in E. destruct E as [B [ds [Q [Ln T]]]].
  destruct (T eq_refl) as [Ne [T1 T2]]. split.
  - split; [|lia]. unfold wrap32 in T2. destruct (Z.eq_dec min_iterations 0) as [->|N]; [lia|].
    rewrite Z.mod_small in T2 by lia. lia.
  - exists (removelast ds), (last ds y). rewrite <- app_removelast_last by exact Ne.
    split; [exact Q|]. split; [lia|exact T1].
Qed.

(** Whatever the answer, at most max_num_newton_iterations iterations are made, and the point handed
    back is the one reached by them. *)
Lemma newton_any : forall x c y k, newton x = (c, y, k) ->
  (k <= Z.to_nat max_iterations)%nat /\ exists ds, newton_sequence 0 x ds y /\ length ds = k.
Proof.
  intros x c y k E. apply newton_loop_sound in E. destruct E as [B [ds [Q [Ln T]]]].
  split; [lia|]. exists ds. split; [exact Q|lia].
Qed.

(** The codes which can come back. *)
Lemma newton_loop_codes : forall left ii x,
  In (fst (fst (newton_loop left ii x)))
     [Success; FailedToConverge; MatrixSolveFailure; HigherPrecisionNecessary].
Proof.
  induction left as [|left IH]; intros ii x; cbn [newton_loop].
  - cbn. tauto.
  - destruct (solve ii x) as [d|]; [|cbn; tauto].
    destruct ((if Rlt_dec (norm d) tol then true else false) && (wrap32 (min_iterations - 1) <=? Z.of_nat ii));
      [cbn; tauto|].
    destruct (criteria ii (add x d)); [apply IH|cbn; tauto].
Qed.

Lemma newton_codes : forall x,
  In (fst (fst (newton x))) [Success; FailedToConverge; MatrixSolveFailure; HigherPrecisionNecessary].
Proof. intro x. apply newton_loop_codes. Qed.

(** Convergence is recognised at the first opportunity: if the solves succeed for d_0 .. d_k-1, the
    last of them is short enough and none of the earlier ones was short enough at an index where
    stopping is allowed, and the criteria held at the points in between, Correct answers Success
    after exactly these iterations. *)
Inductive unfinished : nat -> P -> list P -> P -> Prop :=
| uf_start : forall ii x, unfinished ii x [] x
| uf_step : forall ii x d ds y, solve ii x = Some d ->
    ~ ((norm d < tol)%R /\ min_iterations <= Z.of_nat ii + 1) -> criteria ii (add x d) = true ->
    unfinished (S ii) (add x d) ds y -> unfinished ii x (d :: ds) y.

Lemma newton_loop_complete : 1 <= min_iterations < 2 ^ 32 -> forall ds left ii x z d,
  unfinished ii x ds z -> solve (ii + length ds) z = Some d -> (norm d < tol)%R ->
  min_iterations <= Z.of_nat (ii + length ds) + 1 -> (length ds < left)%nat ->
  newton_loop left ii x = (Success, add z d, S (ii + length ds)).
Proof.
  intro Bmin. assert (W : wrap32 (min_iterations - 1) = min_iterations - 1)
    by (unfold wrap32; rewrite Z.mod_small; lia).
  induction ds as [|d0 ds IH]; intros left ii x z d U S1 N M L; destruct left as [|left]; cbn [length] in *; try lia.
  - inversion U; subst. rewrite Nat.add_0_r in *. cbn. rewrite S1.
    destruct (Rlt_dec (norm d) tol); [|contradiction]. cbn [andb]. rewrite W.
    destruct (Z.leb_spec (min_iterations - 1) (Z.of_nat ii)); [reflexivity|lia].
  - inversion U as [|a b c e f S0 Nn Cr U']; subst. cbn. rewrite S0. rewrite W.
    assert (Q : (if Rlt_dec (norm d0) tol then true else false) && (min_iterations - 1 <=? Z.of_nat ii) = false).
    { destruct (Rlt_dec (norm d0) tol); [|reflexivity]. cbn. apply Z.leb_gt.
      destruct (Z_lt_le_dec (Z.of_nat ii) (min_iterations - 1)); [assumption|].
      exfalso; apply Nn; split; [assumption|lia]. }
    rewrite Q, Cr. rewrite (IH left (S ii) (add x d0) z d U'); [f_equal; lia| |exact N|lia|lia].
    replace (S ii + length ds)%nat with (ii + S (length ds))%nat by lia. exact S1.
Qed.

Lemma newton_complete : 1 <= min_iterations < 2 ^ 32 -> forall ds x z d,
  unfinished 0 x ds z -> solve (length ds) z = Some d -> (norm d < tol)%R ->
  min_iterations <= Z.of_nat (length ds) + 1 <= max_iterations ->
  newton x = (Success, add z d, S (length ds)).
Proof. intros B ds x z d U S1 N M. apply (newton_loop_complete B ds _ 0 x z d U S1 N); lia. Qed.

(** With a minimum of 0, Success is impossible: 0 - 1 is the largest unsigned number. *)
Lemma newton_min_zero : min_iterations = 0 -> 0 <= max_iterations < 2 ^ 32 -> forall x y k,
  newton x <> (Success, y, k).
Proof.
  intros Z0 B x y k E. apply newton_loop_sound in E. destruct E as [Bk [ds [Q [Ln T]]]].
  destruct (T eq_refl) as [Ne [T1 T2]]. rewrite Z0 in T2. unfold wrap32 in T2.
  replace ((0 - 1) mod 2 ^ 32) with (2 ^ 32 - 1) in T2 by reflexivity. lia.
Qed.

End Newton.

(** On a function of one real variable, x^2 - 2 from 3/2 with Newton steps: one iteration whose step
    is 1/12 succeeds for the tolerance 1/10; with tolerance 1/100 the second iteration does. *)
Definition sqrt2_step (_ : nat) (x : R) : option R := Some (- (x * x - 2) / (2 * x))%R.

Lemma sqrt2_one : newton Rplus Rabs sqrt2_step (fun _ _ => true) (1 / 10) 1 2 (3 / 2)%R
                  = (Success, (17 / 12)%R, 1%nat).
Proof.
  unfold newton. change (Z.to_nat 2) with 2%nat. cbn [newton_loop]. unfold sqrt2_step at 1.
  assert (E : (- (3 / 2 * (3 / 2) - 2) / (2 * (3 / 2)))%R = (- (1 / 12))%R) by field.
  rewrite E. destruct (Rlt_dec (Rabs (- (1 / 12))) (1 / 10)) as [L|L].
  - change (true && (wrap32 (1 - 1) <=? Z.of_nat 0)) with true. cbv iota.
    f_equal. f_equal. field.
  - exfalso. apply L. rewrite Rabs_Ropp, Rabs_pos_eq; lra.
Qed.

Lemma sqrt2_two : newton Rplus Rabs sqrt2_step (fun _ _ => true) (1 / 100) 1 2 (3 / 2)%R
                  = (Success, (577 / 408)%R, 2%nat).
Proof.
  unfold newton. change (Z.to_nat 2) with 2%nat. cbn [newton_loop]. unfold sqrt2_step at 1.
  assert (E : (- (3 / 2 * (3 / 2) - 2) / (2 * (3 / 2)))%R = (- (1 / 12))%R) by field.
  rewrite E. destruct (Rlt_dec (Rabs (- (1 / 12))) (1 / 100)) as [L|L].
  - exfalso. rewrite Rabs_Ropp, Rabs_pos_eq in L; lra.
  - cbn [andb]. assert (X : (3 / 2 + - (1 / 12))%R = (17 / 12)%R) by field. rewrite X.
    unfold sqrt2_step.
    assert (E2 : (- (17 / 12 * (17 / 12) - 2) / (2 * (17 / 12)))%R = (- (1 / 408))%R) by field.
    rewrite E2. destruct (Rlt_dec (Rabs (- (1 / 408))) (1 / 100)) as [L2|L2].
    + change (true && (wrap32 (1 - 1) <=? Z.of_nat 1)) with true. cbv iota. f_equal. f_equal. field.
    + exfalso. apply L2. rewrite Rabs_Ropp, Rabs_pos_eq; lra.
Qed.
