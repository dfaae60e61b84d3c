(** C34: bookkeeping of the Cauchy endgame. *)
From Coq Require Import List ZArith Lia Reals Lra Bool Arith.
From Coquelicot Require Import Complex.
From Verif Require Import Base Poly ComplexField Newton Endgame EndgameProof EndgamePs EndgameEx EgMean EgClaims.
Import ListNotations.
Local Open Scope R_scope.

(** Whatever the tracker, the refinement and the cycle number estimate answer, a run with at least three
    sample points never fails the size check of the average, rejects its configuration or reads an
    element that is not there.  A run that succeeds reports a cycle number of at least 1 and at most the
    fail-safe maximum plus one; at most the maximum itself once two approximations were made.
    Undefined comparisons at SecurityLevel 1 over doubles are the subject of C37: the level is at most
    0, or the variable has a value when it is created (as with multiple precision). *)
Theorem C34_bookkeeping_partial :
  forall cfg target track refine estimate nv dehom fresh fuel start x,
  (3 <= num_sample_points cfg)%nat -> ((security_level cfg <= 0)%Z \/ fresh <> None) ->
  match cauchy_run cfg target track refine estimate nv dehom fresh fuel start x with
  | Ok (c, s) =>
      c = Success -> (1 <= cyc s <= fail_safe cfg + 1)%nat /\ (2 <= length (hist s) -> cyc s <= fail_safe cfg)%nat
  | More _ => True
  | BadConfig | BadSize | Undef => False
  end.
Proof. exact cauchy_bookkeeping. Qed.
Print Assumptions C34_bookkeeping_partial.

(** Each time loops were collected, their number of samples is the one the average expects. *)
Theorem C34_sample_count :
  forall cfg target track refine fuel s c s',
  (3 <= num_sample_points cfg)%nat -> length (ps_t s) = num_sample_points cfg -> length (ps_x s) = num_sample_points cfg ->
  (cauchy_samples cfg target track refine fuel s = Ok (c, s') \/ initial_loops cfg target track refine fuel s = Ok (c, s')) ->
  c = Success -> length (ca_x s') = (cyc s' * num_sample_points cfg + 1)%nat /\ (1 <= cyc s')%nat.
Proof. exact cauchy_sample_count. Qed.
Print Assumptions C34_sample_count.

(** The fail-safe maximum is exceeded by one: a run with maximum 1 succeeds with cycle number 2. *)
Theorem C34_maximum_refuted :
  fail_safe (demo 0 1) = 1%nat /\
  exists s, demo_run 0 1 two_loops None 5 15 = Ok (Success, s) /\ cyc s = 2%nat.
Proof. exact (conj eq_refl cycle_too_high). Qed.
Print Assumptions C34_maximum_refuted.

(** The run above meets the hypotheses of the first theorem. *)
Example C34_hypotheses : (3 <= num_sample_points (demo 0 1))%nat /\ (security_level (demo 0 1) <= 0)%Z.
Proof. cbn. lia. Qed.
