(** C41: multiplicities. *)
From Coq Require Import List ZArith Lia Reals Lra Bool Arith.
From Coquelicot Require Import Complex.
From Verif Require Import Base Newton Endgame EgSeries Midpath ZeroDim ZeroDimEx.
Import ListNotations.
Local Open Scope R_scope.

(** The multiplicity of path i after the call number k + 1 of Solve.  l lists the paths with a successful endgame
    whose end points are within the tolerance (Euclidean norm) of that of path i, path i among them. *)
Theorem C41_multiplicity_partial :
  forall (nv n : nat) (start_point : nat -> nat -> C)
    (track endgame : nat -> settings -> (nat -> C) -> (nat -> C) * code * R)
    (newton_before newton_during factor same_final same_mid : R) (max_attempts : nat) (k : nat) (t : settings) (i : nat),
  0 < same_final -> (i < n)%nat ->
  let s := solves nv n start_point track endgame newton_before newton_during factor same_final same_mid max_attempts k (new_solver t) in
  let s' := solve nv n start_point track endgame newton_before newton_during factor same_final same_mid max_attempts s in
  exists m l, nth_error (meta s') i = Some m /\ NoDup l /\
    (forall j, In j l <-> (j < n)%nat /\ exists mj x y, nth_error (meta s') j = Some mj /\ eg_success mj = Success /\
       nth_error (final s') i = Some (Some x) /\ nth_error (final s') j = Some (Some y) /\ distance nv x y < same_final) /\
    (eg_success m = Success -> multiplicity m = (multiplicity (nth i (meta s) new_meta) + (Z.of_nat (length l) - 1))%Z) /\
    (eg_success m <> Success -> multiplicity m = multiplicity (nth i (meta s) new_meta)).
Proof. exact any_multiplicity. Qed.
Print Assumptions C41_multiplicity_partial.

(** The first call: the multiplicity is the number of the coincident end points. *)
Theorem C41_first_solve :
  forall (nv n : nat) (start_point : nat -> nat -> C)
    (track endgame : nat -> settings -> (nat -> C) -> (nat -> C) * code * R)
    (newton_before newton_during factor same_final same_mid : R) (max_attempts : nat) (t : settings) (i : nat),
  0 < same_final -> (i < n)%nat ->
  let s' := solve nv n start_point track endgame newton_before newton_during factor same_final same_mid max_attempts (new_solver t) in
  exists m l, nth_error (meta s') i = Some m /\ NoDup l /\
    (forall j, In j l <-> (j < n)%nat /\ exists mj x y, nth_error (meta s') j = Some mj /\ eg_success mj = Success /\
       nth_error (final s') i = Some (Some x) /\ nth_error (final s') j = Some (Some y) /\ distance nv x y < same_final) /\
    (eg_success m = Success -> multiplicity m = Z.of_nat (length l)) /\
    (eg_success m <> Success -> multiplicity m = 1%Z).
Proof. exact first_multiplicity. Qed.
Print Assumptions C41_first_solve.

(** Repeating Solve: if all n paths end at the same point, k calls give every path the multiplicity 1 + k (n - 1). *)
Theorem C41_repeated_refuted :
  forall (nv n : nat) (start_point : nat -> nat -> C)
    (track endgame : nat -> settings -> (nat -> C) -> (nat -> C) * code * R)
    (newton_before newton_during factor same_final same_mid : R) (max_attempts : nat) (t : settings) (p : nat -> C),
  0 < same_final ->
  (forall k t x, exists y h, track k t x = (y, Success, h)) ->
  (forall k t x, exists h, endgame k t x = (p, Success, h)) ->
  forall k i, (1 <= k)%nat -> (i < n)%nat -> exists m,
    nth_error (meta (solves nv n start_point track endgame newton_before newton_during factor same_final same_mid max_attempts k (new_solver t))) i = Some m /\
    multiplicity m = (1 + Z.of_nat k * (Z.of_nat n - 1))%Z.
Proof. exact repeated_multiplicity. Qed.
Print Assumptions C41_repeated_refuted.

(** A double root: after one call of Solve both paths have multiplicity 2, after two calls 3. *)
Example C41_double_root : forall k i, (1 <= k)%nat -> (i < 2)%nat -> exists m,
  nth_error (meta (solves 1 2 (fun i => const1 (INR i)) (fun _ _ x => (x, Success, 1)) steady 1 1 1 1 1 2 k (new_solver (Settings 1 true 1)))) i = Some m /\
  multiplicity m = (1 + Z.of_nat k)%Z.
Proof.
  intros k i Hk Hi.
  destruct (C41_repeated_refuted 1 2 (fun i => const1 (INR i)) (fun _ _ x => (x, Success, 1)) steady 1 1 1 1 1 2 (Settings 1 true 1) (const1 7)) with (k := k) (i := i) as (m & E & M).
  - lra.
  - intros. exists x, 1. reflexivity.
  - intros. exists 1. reflexivity.
  - exact Hk.
  - exact Hi.
  - exists m. split; [exact E|]. rewrite M. lia.
Qed.
