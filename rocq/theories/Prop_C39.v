(** C39: crossed paths are tracked again. *)
From Coq Require Import List ZArith Lia Reals Lra Bool Arith.
From Coquelicot Require Import Complex.
From Verif Require Import Base Newton Endgame EgSeries Midpath ZeroDim ZeroDimEx.
Import ListNotations.
Local Open Scope R_scope.

(** All runs of the tracker before the endgame, as pairs (path, tolerance), in the first call of Solve, whatever the
    tracker does.  First every path with the tolerance newton_before; then batches, batch number k = 1, 2, ... with
    tolerance newton_before * factor^k.  There are none if no paths crossed, and max_attempts otherwise.  The
    first batch consists of the paths which crossed a path whose start point is within the tolerance. *)
Theorem C39_runs_partial :
  forall (nv n : nat) (start_point : nat -> nat -> C)
    (track endgame : nat -> settings -> (nat -> C) -> (nat -> C) * code * R)
    (newton_before newton_during factor same_final same_mid : R) (max_attempts : nat) (t : settings),
  let b := checked (boundary (before n start_point track newton_before (setup n newton_before (new_solver t)))) in
  let crosses i j := meets nv same_mid b i j \/ meets nv same_mid b j i in
  exists bs : list (list nat),
    runs (solve nv n start_point track endgame newton_before newton_during factor same_final same_mid max_attempts (new_solver t)) =
      map (fun i => (i, newton_before)) (seq 0 n) ++ batches factor newton_before bs /\
    (length bs <= max_attempts)%nat /\
    ((forall i j, ~ crosses i j) -> bs = []) /\
    (forall i j, crosses i j -> length bs = max_attempts) /\
    (forall l r, bs = l :: r -> NoDup l /\
       forall i, In i l <-> exists j, crosses i j /\ apart nv (start_point i) (start_point j) <= same_mid).
Proof. exact first_runs. Qed.
Print Assumptions C39_runs_partial.

(** If all start points are further apart than the tolerance, no path is ever tracked again. *)
Theorem C39_distinct_starts_refuted :
  forall (nv n : nat) (start_point : nat -> nat -> C)
    (track endgame : nat -> settings -> (nat -> C) -> (nat -> C) * code * R)
    (newton_before newton_during factor same_final same_mid : R) (max_attempts : nat) (t : settings),
  (forall i j, (i < j < n)%nat -> same_mid < apart nv (start_point i) (start_point j)) ->
  forall k, runs (solves nv n start_point track endgame newton_before newton_during factor same_final same_mid max_attempts k (new_solver t)) =
    concat (repeat (map (fun i => (i, newton_before)) (seq 0 n)) k).
Proof. exact distinct_runs. Qed.
Print Assumptions C39_distinct_starts_refuted.

(** Two paths from 0 and 1 which both arrive at 5: they cross at the boundary and the hypothesis above holds. *)
Example C39_crossing :
  let track := fun (_ : nat) (_ : settings) (_ : nat -> C) => (const1 5, Success, 1) in
  let start := fun i => const1 (INR i) in
  let b := checked (boundary (before 2 start track 1 (setup 2 1 (new_solver (Settings 1 true 1))))) in
  meets 1 (1 / 10) b 0 1 /\ (forall i j, (i < j < 2)%nat -> 1 / 10 < apart 1 (start i) (start j)).
Proof.
  cbv zeta. split.
  - split; [lia|]. exists (const1 5), (const1 5). split; [reflexivity|]. split; [reflexivity|].
    rewrite apart1, sup1. replace (5 - 5) with 0 by ring. rewrite Rabs_R0, Rabs_right by lra. lra.
  - intros i j H. assert (E : i = 0%nat /\ j = 1%nat) by lia. destruct E as [-> ->]. rewrite apart1. cbn.
    rewrite Rabs_left by lra. lra.
Qed.
