(** C27: Adaptive-precision tracking terminates and respects the precision cap. *)
From Coq Require Import List ZArith Reals Lra Lia.
From Coquelicot Require Import Complex.
From Verif Require Import Newton Track AmpCost Amp TrackEx.
Import ListNotations.
Local Open Scope R_scope.

(** For settings with a failure factor strictly between 0 and 1, a positive smallest step size and a
    cap between double precision and the largest precision there is, tracking ends, whatever the
    predictor, the linear algebra, the precision criteria and the digit estimates answer. *)
Theorem C27_terminates :
  forall (P : Type) cfg amp endt eps truncation going (predict : nat -> P -> C -> C -> code * P)
    add norm solve criteria tol min max digits_B digits_C digits_interval convert refine,
  0 < fail_factor cfg < 1 -> 0 < min_step_size cfg ->
  (DoublePrecision <= maximum_precision amp <= MaxPrecisionAllowed)%Z ->
  forall re h p start x0, (DoublePrecision <= p)%Z ->
  exists N c s,
    snd (amp_track cfg amp endt eps truncation going predict (newton_corrector add norm solve criteria tol min max)
                   digits_B digits_C digits_interval convert refine N re h p start x0) = Finished c s.
Proof. intros. apply amp_track_terminates; try assumption. apply newton_corrector_codes. Qed.
Print Assumptions C27_terminates.

(** Each round of the loop that takes or tries a step starts at a precision within the cap. *)
Theorem C27_cap :
  forall (P : Type) cfg amp endt eps truncation going (predict : nat -> P -> C -> C -> code * P) correct
    digits_B digits_C digits_interval convert refine fuel re h p start x0,
  chain (fun s _ => (prec s <= maximum_precision amp)%Z)
        (fst (amp_track cfg amp endt eps truncation going predict correct digits_B digits_C digits_interval
                        convert refine fuel re h p start x0)).
Proof. exact @amp_track_cap. Qed.
Print Assumptions C27_cap.

(** A failure factor of zero makes an inner loop run for ever: the tracker looks for a precision at
    which a step of size zero is large enough. *)
Theorem C27_zero_factor_refuted :
  exists cfg, fail_factor cfg = 0 /\ 0 < min_step_size cfg /\
  snd (amp_track cfg demo_amp 0 tiny_eps true never keep fail_always no_digits no_digits
         no_interval same refined 1 true 0 16 1 0%nat) = Hung
  /\ forall turns, raise_precision turns 16 (fail_factor cfg) (Cmod (1 - 0)%C) = None.
Proof.
  exists zero_factor. split; [reflexivity|]. split; [cbn; lra|]. split; [exact zero_factor_hung|].
  intro k. rewrite togo_real by lra. apply zero_factor_hangs. lia.
Qed.
Print Assumptions C27_zero_factor_refuted.

Example C27_settings : 0 < fail_factor demo < 1 /\ 0 < min_step_size demo
  /\ (DoublePrecision <= maximum_precision demo_amp <= MaxPrecisionAllowed)%Z
  /\ exists s s', amp_track demo demo_amp 0 tiny_eps true never keep succeed no_digits no_digits no_interval same refined
            2 true 0 16 1 0%nat = ([s; s'], Finished Success s').
Proof.
  destruct demo_settings as [A [B [_ [_ [_ [_ [_ [D _]]]]]]]]. split; [exact A|]. split; [exact B|]. split; [exact D|].
  destruct demo_amp_run as [s [s' [E _]]]. eauto.
Qed.
