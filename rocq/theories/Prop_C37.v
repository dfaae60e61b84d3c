(** C37: truncation by the security check. *)
From Coq Require Import List ZArith Lia Reals Lra Bool Arith.
From Coquelicot Require Import Complex.
From Verif Require Import Base Poly ComplexField Newton Endgame EndgameProof EndgamePs EndgameEx EgMean EgClaims.
Import ListNotations.
Local Open Scope R_scope.

(** Power series endgame, every sequence of approximations.  It returns SecurityMaxNormReached only at
    level 0 (or less), when the last two approximations are too large and no two successive ones were
    before; at level 0 it returns nothing else, and does not go on, after two successive ones that are
    too large.  The hypotheses say that the code is not produced by the tracker or the refinement. *)
Theorem C37_power_series :
  forall cfg target track refine dehom extrapolate,
  (1 <= num_sample_points cfg)%nat ->
  (forall k t t' x, fst (track k t t' x) <> SecurityMaxNormReached) ->
  (forall k x t, fst (refine k x t) <> SecurityMaxNormReached) ->
  forall fuel start x,
  let big y := security_max_norm cfg < linf (dehom y) in
  let pair l := exists h a b k, l = h ++ a :: b :: k /\ big a /\ big b in
  match ps_run cfg target track refine dehom extrapolate fuel start x with
  | Ok (c, s) =>
      (c = SecurityMaxNormReached -> (security_level cfg <= 0)%Z /\
         exists h a b, hist s = h ++ [a; b] /\ big a /\ big b /\ ~ pair (h ++ [a])) /\
      (c <> SecurityMaxNormReached -> (security_level cfg <= 0)%Z -> ~ pair (hist s))
  | More s => (security_level cfg <= 0)%Z -> ~ pair (hist s)
  | _ => True
  end.
Proof. exact ps_run_security. Qed.
Print Assumptions C37_power_series.

(** Cauchy endgame: the levels are exchanged.  At level 0 it never truncates. *)
Theorem C37_cauchy_level_zero_never_refuted :
  forall cfg target track refine estimate nv dehom fresh fuel start x,
  (3 <= num_sample_points cfg)%nat -> security_level cfg = 0%Z ->
  (forall k t t' y, fst (track k t t' y) <> SecurityMaxNormReached) ->
  forall s, cauchy_run cfg target track refine estimate nv dehom fresh fuel start x <> Ok (SecurityMaxNormReached, s).
Proof. exact cauchy_level_zero. Qed.
Print Assumptions C37_cauchy_level_zero_never_refuted.

(** At level 1 and above, in multiple precision, it truncates exactly at two successive approximations that
    are too large, unless the second one meets the final tolerance. *)
Theorem C37_cauchy_positive_level_partial :
  forall cfg target track refine estimate nv dehom,
  (3 <= num_sample_points cfg)%nat ->
  (forall k t t' x, fst (track k t t' x) <> SecurityMaxNormReached) ->
  (1 <= security_level cfg)%Z ->
  forall fuel start x p0, p0 <= security_max_norm cfg ->
  let big y := security_max_norm cfg < linf (dehom y) in
  let pair l := exists h a b k, l = h ++ a :: b :: k /\ big a /\ big b in
  match cauchy_run cfg target track refine estimate nv dehom (Some p0) fuel start x with
  | Ok (c, s) =>
      (c = SecurityMaxNormReached -> exists h a b, hist s = h ++ [a; b] /\ big a /\ big b /\ ~ pair (h ++ [a])) /\
      (c = Success -> ~ pair (removelast (hist s))) /\
      (c <> SecurityMaxNormReached -> c <> Success -> ~ pair (hist s))
  | More _ => True
  | BadConfig | BadSize | Undef => False
  end.
Proof. exact cauchy_run_security'. Qed.
Print Assumptions C37_cauchy_positive_level_partial.

(** One run of the Cauchy endgame, with three approximations 10, 20, 20 and the bound 1: at level 0 it
    succeeds after all three, at level 1 it is truncated after two. *)
Theorem C37_cauchy_levels_refuted :
  (exists s, demo_run 0 5 growing None 7 0 = Ok (Success, s) /\ hist s = [[RtoC 10]; [RtoC 20]; [RtoC 20]]) /\
  (exists s, demo_run 1 5 growing (Some 0) 7 0 = Ok (SecurityMaxNormReached, s) /\ hist s = [[RtoC 10]; [RtoC 20]]).
Proof. exact (conj level_zero_ignored level_one_truncates). Qed.
Print Assumptions C37_cauchy_levels_refuted.

(** Over doubles at level 1 the run compares a variable that has not been given a value. *)
Theorem C37_cauchy_undefined_refuted : demo_run 1 5 growing None 7 0 = Undef.
Proof. exact level_one_undefined. Qed.
Print Assumptions C37_cauchy_undefined_refuted.

(** The scripted trackers of these runs meet the hypotheses of the theorems. *)
Example C37_hypotheses : forall v k t t' x, fst (scripted v k t t' x) <> SecurityMaxNormReached.
Proof. intros v k t t' x. cbn. discriminate. Qed.
