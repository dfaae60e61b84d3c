(** C76: the zero-dimensional solver uses the settings and is made of the parts its user asked for. *)
From Coq Require Import List ZArith Reals Lra Bool Arith Lia String.
From Coquelicot Require Import Complex.
From Verif Require Import Base Newton Endgame EgSeries EgSeriesEx Midpath ZeroDim Options.
Import ListNotations.
Local Open Scope R_scope.
Local Open Scope list_scope.

Section Settings.
Context {Tk Eg : Type}.
Variables (tk0 : Tk) (eg0 : Eg) (settings0 : settings).
Variable track : @trk Tk -> nat -> C -> C -> nat -> settings -> (nat -> C) -> (nat -> C) * code * R.
Variable endgame : @trk Tk -> Eg -> C -> C -> nat -> settings -> (nat -> C) -> (nat -> C) * code * R.
Variable nv n : nat.
Variable start_point : nat -> (nat -> C).
Notation orun := (orun tk0 eg0 settings0 track endgame nv n start_point).

(** After any history of settings, setups and calls of Solve, a call of Solve works with the tolerances before and in
    the endgame, the retrack factor, the tolerances for coinciding points, the number of attempts, the times, the
    precision and the endgame settings asked for last. *)
Theorem C76_settings_partial : forall l, core (orun (l ++ [Solve])) =
  solve nv n start_point
    (track (tr (orun l)) (z_precision (asked_zd l)) (z_start (asked_zd l)) (z_boundary (asked_zd l)))
    (endgame (tr (orun l)) (asked_eg eg0 l) (z_boundary (asked_zd l)) (z_target (asked_zd l)))
    (t_before (asked_tols l)) (t_during (asked_tols l)) (asked_factor l) (p_same (asked_post l)) (asked_mid l)
    (z_attempts (asked_zd l)) (core (orun l)).
Proof. apply solve_uses. Qed.

(** The other settings do not do this.  The final tolerance and the thresholds for real and finite solutions never have
    any effect: histories which differ only in them give the same results. *)
Theorem C76_unused_refuted : forall l l', Forall2 same_op l l' -> core (orun l) = core (orun l').
Proof. intros l l' H. apply (alike_run tk0 eg0 settings0 track endgame nv n start_point l l' H). Qed.

(** The truncation threshold and the name of the path variable have none either, unless the user sets up the tracker
    and the systems again: both were used when the solver was made. *)
Theorem C76_late_refuted : forall l l', Forall2 same_op' l l' ->
  core (orun l) = core (orun l') /\ tr (orun l) = tr (orun l').
Proof. intros l l' H. split; apply (alike_run' tk0 eg0 settings0 track endgame nv n start_point l l' H). Qed.

Theorem C76_late_witness : forall t p z,
  path_name (tr (orun [SetTolerances t; SetPost p; SetZeroDim z; Solve])) = "ZERO_DIM_PATH_VARIABLE"%string /\
  truncation (tr (orun [SetTolerances t; SetPost p; SetZeroDim z; Solve])) = 100000.
Proof. intros. split; reflexivity. Qed.

(** Setting up again makes them effective, but takes the other settings of the tracker back to their defaults. *)
Theorem C76_setup_again : forall l,
  truncation (tr (orun (l ++ [TrackerSetup]))) = t_truncation (asked_tols l) /\
  more (tr (orun (l ++ [TrackerSetup]))) = tk0 /\
  path_name (tr (orun (l ++ [SystemSetup]))) = z_name (asked_zd l).
Proof.
  intros l. destruct (settings_follow tk0 eg0 settings0 track endgame nv n start_point l) as (A & _ & B & _).
  unfold Options.orun in *. rewrite !fold_left_app. cbn [fold_left ostep tracker_setup system_setup tr truncation more path_name].
  now rewrite A, B.
Qed.
End Settings.
Print Assumptions C76_settings_partial.
Print Assumptions C76_unused_refuted.
Print Assumptions C76_late_refuted.
Print Assumptions C76_late_witness.
Print Assumptions C76_setup_again.

(** Choosing at run time: a solver is made exactly for the start systems the library forms itself, it has the start
    system and the tracker asked for, and stores a copy of the given system; *)
Theorem C76_choice_partial : forall rt,
  (make_zero_dim rt = None <-> c_start rt = User) /\
  forall m, make_zero_dim rt = Some m ->
    m_start m = c_start rt /\ m_tracker m = c_tracker rt /\ m_storage m = CloneGiven /\
    (c_endgame rt = Cauchy -> m_endgame m = c_endgame rt).
Proof.
  intros [s t e]. split.
  - destruct s; cbn; split; congruence.
  - intros m H. destruct s, t, e; cbn in H; try discriminate; injection H as <-; repeat split; cbn; congruence.
Qed.
Print Assumptions C76_choice_partial.

(** a solver for the user's homotopy refers to the given systems; *)
Theorem C76_user_partial : forall rt, let m := make_user_hom rt in
  m_start m = User /\ m_tracker m = c_tracker rt /\ m_storage m = RefToGiven /\
  (c_endgame rt = Cauchy -> m_endgame m = c_endgame rt).
Proof. intros [s t e]. destruct t, e; repeat split; cbn; congruence. Qed.
Print Assumptions C76_user_partial.

(** but whoever asks for the power series endgame gets the Cauchy endgame. *)
Theorem C76_endgame_refuted : forall s t,
  (forall m, make_zero_dim (Choice s t PowerSeries) = Some m -> m_endgame m = Cauchy) /\
  m_endgame (make_user_hom (Choice s t PowerSeries)) = Cauchy.
Proof. intros s t. split; [intros m H|]; destruct s, t; cbn in *; try discriminate; try injection H as <-; reflexivity. Qed.
Print Assumptions C76_endgame_refuted.

(** The constructor accepts exactly polynomial systems without path variable and with at least as many functions as
    variables. *)
Theorem C76_consistent : forall pv nvars nfuns poly,
  consistent pv nvars nfuns poly = true <-> pv = false /\ (nvars <= nfuns)%nat /\ poly = true.
Proof.
  intros pv nvars nfuns poly. unfold consistent. rewrite !andb_true_iff, !negb_true_iff, Nat.ltb_ge. tauto.
Qed.
Print Assumptions C76_consistent.

(** Histories that differ in ineffective settings only, and defaults *)
Example C76_example :
  Forall2 (same_op (Tk := unit) (Eg := unit))
    [SetTolerances (Tols 1 2 3 4); SetPost (Post 1 2 3); Solve] [SetTolerances (Tols 1 2 0 4); SetPost (Post 0 0 3); Solve] /\
  Forall2 (same_op' (Tk := unit) (Eg := unit))
    [SetZeroDim default_zd; Solve] [SetZeroDim (ZD 16 2 (RtoC 1) (RtoC (1 / 10)) (RtoC 0) "t"); Solve] /\
  asked_zd (Tk := unit) (Eg := unit) [SetZeroDim (ZD 30 1 (RtoC 1) (RtoC 0) (RtoC 0) "t"); Solve; SetRetrack 1]
    = ZD 30 1 (RtoC 1) (RtoC 0) (RtoC 0) "t" /\
  make_zero_dim default_choice = Some (Made TotalDegree Adaptive Cauchy CloneGiven).
Proof. repeat split; repeat constructor. Qed.
Print Assumptions C76_example.
