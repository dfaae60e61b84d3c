(** A track on which the step size grows, for AmpGrow.v. *)
From Coq Require Import List ZArith Lia Reals Lra Bool Arith.
From Coquelicot Require Import Complex.
From Verif Require Import Newton Track AmpCost Amp TrackEx Count CountEx AmpGrow.
Import ListNotations.
Local Open Scope R_scope.

(** Steps of an eighth at first, growing after one success in a row. *)
Definition eager : stepping := mkStepping (1/8) 1 (1/100) 2 (1/2) 1 1 100.

Lemma eager_first : first_step eager true 0 1 0 = 1/8.
Proof.
  unfold first_step. cbn [min_num_steps eager Nat.eqb initial_step_size].
  rewrite (togo_real 1) by lra. cbn [INR]. apply Rmin_left. lra.
Qed.

Lemma eager_turn : forall n t x h d ns nf cs cf si sd nd, 1/8 <= h <= 1/2 -> h <= t -> (ns < 100)%nat ->
  turn 0 tiny_eps true never (amp_pre eager easy_amp)
    (amp_iterate eager easy_amp 0 keep succeed no_digits no_digits no_interval same) amp_on_fail n
    (mkSt (RtoC t) x h d ns nf cs cf si 16 sd nd) =
  Go (mkSt (RtoC (t - h)) (S x) (if (si <? 1)%nat then h else h * 2) (RtoC (- h)) (S ns) nf (S cs) 0
           (if (si <? 1)%nat then S si else 0) 16 (S sd) nd)%nat.
Proof.
  intros n t x h d ns nf cs cf si sd nd Hh Ht Hns. unfold turn. cbn [time prec step].
  rewrite close_real by (unfold tiny_eps; lra).
  unfold amp_pre. cbn [max_num_steps eager nsucc step min_step_size prec maximum_precision easy_amp].
  destruct (Nat.leb_spec 100 ns); [lia|]. destruct (Rlt_dec h (1/100)); [lra|].
  change (300 <? 16)%Z with false. cbn [is_success].
  rewrite next_delta_real by lra. rewrite Rmin_left by lra.
  unfold amp_iterate, keep, succeed. cbn [is_success never andb space set_space set_delta].
  match goal with |- context [adjust_success ?c ?a ?b ?e ?f ?m ?s] =>
    assert (E : adjust_success c a b e f m s =
       mkSt (RtoC t) (S x) (if (si <? 1)%nat then h else h * 2) (RtoC (- h)) ns nf cs cf
           (if (si <? 1)%nat then S si else 0)%nat 16 (S sd) nd) end.
  { unfold adjust_success. cbv zeta.
    cbn [set_space set_delta time space step delta nsucc nfail csucc cfail since_inc prec since_decr ndecr
         consecutive_before_increase eager consecutive_before_decrease max_num_decreases easy_amp newton_its predictor_order
         digits_tolerance success_factor max_step_size fail_factor].
    unfold no_digits, DoublePrecision.
    change (Z.max (Z.max 0 0) (Z.max 6 16)) with 16%Z. change (Z.max 16 16) with 16%Z.
    replace (if ((sd <? 1)%nat || (1 <=? nd)%nat)%bool then 16%Z else 16%Z) with 16%Z by (destruct (_ || _); reflexivity).
    rewrite (Rmin_left (h * 2) 1) by lra.
    destruct (si <? 1)%nat.
    - rewrite minimize_low by (try lra; lia). change (16 <? 16)%Z with false.
      destruct (Rlt_dec h h); [lra|]. cbn [orb]. reflexivity.
    - rewrite minimize_low by (try lra; lia). change (16 <? 16)%Z with false.
      destruct (Rlt_dec h (h * 2)); [|lra]. cbn [orb]. reflexivity. }
  rewrite E. unfold on_success. cbn [time space step delta nsucc nfail csucc cfail since_inc prec since_decr ndecr].
  do 2 f_equal. rewrite <- RtoC_plus. f_equal.
Qed.

Lemma eager_run : exists a b c,
  fst (amp_track eager easy_amp 0 tiny_eps true never keep succeed no_digits no_digits no_interval same refined
         2 true 0 16 1 0%nat) = [a] ++ [b; c] ++ []
  /\ step a = 1/8 /\ step b = 1/8 /\ step c = 1/4 /\ nsucc b = 1%nat /\ nsucc c = 2%nat.
Proof.
  unfold amp_track. unfold initial_refinement, refine_stored, refined. cbn [is_success space].
  unfold set_space. cbn [time step delta nsucc nfail csucc cfail since_inc prec since_decr ndecr].
  cbn [is_success]. rewrite eager_first. cbn [run].
  rewrite eager_turn by (try lra; lia). cbv iota. change (0 <? 1)%nat with true. cbv iota.
  rewrite eager_turn by (try lra; lia). change (1 <? 1)%nat with false. cbv iota.
  cbn [fst]. eexists. eexists. eexists. split; [reflexivity|]. cbn [step nsucc]. repeat split; lra.
Qed.

Lemma eager_settings : 0 < fail_factor eager < 1 /\ 0 < min_step_size eager /\ 0 < success_factor eager
  /\ 0 < max_step_size eager <= 1 /\ max_step_usable eager 0 1 /\ first_step eager true 0 1 0 <= max_step_size eager
  /\ (0 <= predictor_order easy_amp < 2 ^ 32 - 1)%Z
  /\ (DoublePrecision <= maximum_precision easy_amp <= MaxPrecisionAllowed)%Z /\ newton_codes_only succeed.
Proof.
  rewrite eager_first. destruct demo_settings as (_ & _ & _ & _ & U & _ & _ & _ & N).
  repeat split; cbn; try lra; try lia; try exact N; try (unfold DoublePrecision, MaxPrecisionAllowed; lia).
  - exact (proj1 U).
  - exact (proj2 U).
Qed.
