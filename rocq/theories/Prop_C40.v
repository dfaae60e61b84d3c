(** C40: every start point is accounted for. *)
From Coq Require Import List ZArith Lia Reals Lra Bool Arith.
From Coquelicot Require Import Complex.
From Verif Require Import Base Newton Endgame EgSeries Midpath ZeroDim ZeroDimEx.
Import ListNotations.
Local Open Scope R_scope.

(** After the first call of Solve, for every tracker and endgame: path i has its record, with its own index, the code
    and point of a run of the tracker from start point i, and, exactly if that run succeeded, the code and
    point of a run of the endgame from there. *)
Theorem C40_first_solve :
  forall (nv n : nat) (start_point : nat -> nat -> C)
    (track endgame : nat -> settings -> (nat -> C) -> (nat -> C) * code * R)
    (newton_before newton_during factor same_final same_mid : R) (max_attempts : nat) (t : settings) (i : nat),
  (i < n)%nat ->
  let s' := solve nv n start_point track endgame newton_before newton_during factor same_final same_mid max_attempts (new_solver t) in
  undefined s' = false /\ length (meta s') = n /\
  exists m b, nth_error (meta s') i = Some m /\ nth_error (boundary s') i = Some b /\
    path_index m = Some i /\ solution_index m = Some i /\ pre_success m = success_code b /\
    (exists k1 t1 x h, track k1 t1 (start_point i) = (x, pre_success m, h) /\ path_point b = Some x) /\
    (pre_success m = Success -> exists k2 t2 x y h, path_point b = Some x /\ endgame k2 t2 x = (y, eg_success m, h) /\
        nth_error (final s') i = Some (Some y)) /\
    (pre_success m <> Success -> eg_success m = NeverStarted /\ nth_error (final s') i = Some None).
Proof. exact first_solve. Qed.
Print Assumptions C40_first_solve.

(** Any later call: the same, except that a path which failed before the endgame keeps its earlier endgame result. *)
Theorem C40_later_solves_partial :
  forall (nv n : nat) (start_point : nat -> nat -> C)
    (track endgame : nat -> settings -> (nat -> C) -> (nat -> C) * code * R)
    (newton_before newton_during factor same_final same_mid : R) (max_attempts : nat) (k : nat) (t : settings) (i : nat),
  (i < n)%nat ->
  let s := solves nv n start_point track endgame newton_before newton_during factor same_final same_mid max_attempts k (new_solver t) in
  let s' := solve nv n start_point track endgame newton_before newton_during factor same_final same_mid max_attempts s in
  undefined s' = false /\ length (meta s') = n /\
  exists m b, nth_error (meta s') i = Some m /\ nth_error (boundary s') i = Some b /\
    path_index m = Some i /\ solution_index m = Some i /\ pre_success m = success_code b /\
    (exists k1 t1 x h, track k1 t1 (start_point i) = (x, pre_success m, h) /\ path_point b = Some x) /\
    (pre_success m = Success -> exists k2 t2 x y h, path_point b = Some x /\ endgame k2 t2 x = (y, eg_success m, h) /\
        nth_error (final s') i = Some (Some y)) /\
    (pre_success m <> Success ->
        eg_success m = eg_success (nth i (meta s) new_meta) /\ nth_error (final s') i = Some (nth i (final s) None)).
Proof. exact any_solve. Qed.
Print Assumptions C40_later_solves_partial.

(** One path that succeeds in the first call and fails in the second: it is still reported as successful. *)
Theorem C40_later_solves_refuted : forall t,
  let s := solve 1 1 (fun _ => const1 1) flaky steady 1 1 1 1 1 2
          (solve 1 1 (fun _ => const1 1) flaky steady 1 1 1 1 1 2 (new_solver t)) in
  exists m, nth_error (meta s) 0 = Some m /\ pre_success m = FailedToConverge /\ eg_success m = Success /\
    nth_error (final s) 0 = Some (Some (const1 7)).
Proof. exact stale_result. Qed.
Print Assumptions C40_later_solves_refuted.

(** Two paths, the second of which fails before the endgame. *)
Example C40_two_paths :
  let s := solve 1 2 (fun i => const1 (INR i)) flaky steady 1 1 1 1 1 2 (new_solver (Settings 1 true 1)) in
  map pre_success (meta s) = [Success; FailedToConverge] /\ map eg_success (meta s) = [Success; NeverStarted] /\
  map path_index (meta s) = [Some 0%nat; Some 1%nat].
Proof. repeat split. Qed.
