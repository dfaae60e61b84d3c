(** C74: the solution lists and data files handed out after a zero dimensional solve. *)
From Coq Require Import List ZArith Lia Reals Lra Bool Arith Sorted.
From Coquelicot Require Import Complex.
From Verif Require Import Base Newton Endgame EgSeries Midpath ZeroDim ZeroDimEx Output.
Import ListNotations.
Local Open Scope R_scope.

(** The nonsingular solutions after one call of Solve: in the order of the paths, the dehomogenized end points of
    exactly the successful paths whose end point is further than the tolerance from that of every other successful path. *)
Theorem C74_nonsingular_partial : forall (V : Type) (dehom : (nat -> C) -> V) nv n start_point track endgame
    newton_before newton_during factor same_final same_mid max_attempts t, 0 < same_final ->
  let s := solve nv n start_point track endgame newton_before newton_during factor same_final same_mid max_attempts (new_solver t) in
  exists idx vs, nonsingular_solutions dehom s = Some vs /\ Sorted lt idx /\
    (forall i, In i idx <-> (i < n)%nat /\ exists m x, nth_error (meta s) i = Some m /\ eg_success m = Success /\
       nth_error (final s) i = Some (Some x) /\
       forall j mj y, j <> i -> nth_error (meta s) j = Some mj -> eg_success mj = Success ->
         nth_error (final s) j = Some (Some y) -> same_final <= distance nv x y) /\
    Forall2 (fun i v => exists x, nth_error (final s) i = Some (Some x) /\ v = dehom x) idx vs.
Proof.
  intros V dehom nv n start_point track endgame nb nd factor same_final same_mid ma t Pos s.
  destruct (nonsingular_spec dehom nv n start_point track endgame nb nd factor same_final same_mid ma t Pos)
    as (idx & vs & E & (P & HP) & I & F).
  exists idx, vs. split; [exact E|]. split; [rewrite HP; apply filtered_sorted|]. split; [exact I|exact F].
Qed.
Print Assumptions C74_nonsingular_partial.

(** A second call of Solve on the same object keeps counting: a path that alone succeeds is not listed. *)
Theorem C74_nonsingular_refuted : exists track endgame, forall (V : Type) (dehom : (nat -> C) -> V) t,
  let once := solve 1 2 (fun _ => const1 7) track endgame 1 1 1 1 1 0 in
  let s := once (once (new_solver t)) in
  map eg_success (meta s) = [Success; MinStepSizeReached] /\ nonsingular_solutions dehom s = Some [].
Proof.
  exists (same_point (const1 7)), (second_fails (const1 7)). intros V dehom t.
  destruct (twice (const1 7) t) as (A & B & C0). cbv zeta. split; [exact A|]. unfold nonsingular_solutions. rewrite C0.
  revert A B. generalize (meta (solve 1 2 (fun _ => const1 7) (same_point (const1 7)) (second_fails (const1 7)) 1 1 1 1 1 0
    (solve 1 2 (fun _ => const1 7) (same_point (const1 7)) (second_fails (const1 7)) 1 1 1 1 1 0 (new_solver t)))).
  intros [|m1 [|m2 [|]]] A B; try discriminate. cbn [map] in A, B. injection A as A1 A2. injection B as B1 B2.
  cbn [extract]. rewrite A1, A2, B1, B2. reflexivity.
Qed.
Print Assumptions C74_nonsingular_refuted.

(** All solutions: one for every path, if every path reaches the endgame; *)
Theorem C74_all_partial : forall (V : Type) (dehom : (nat -> C) -> V) nv n start_point track endgame
    newton_before newton_during factor same_final same_mid max_attempts t,
  (forall k u x, snd (fst (track k u x)) = Success) ->
  let s := solve nv n start_point track endgame newton_before newton_during factor same_final same_mid max_attempts (new_solver t) in
  exists vs, all_solutions dehom s = Some vs /\
    Forall2 (fun i v => exists x, nth_error (final s) i = Some (Some x) /\ v = dehom x) (seq 0 n) vs.
Proof. intros. now apply all_spec. Qed.
Print Assumptions C74_all_partial.

(** but nothing at all, only an exception, as soon as one path fails before the endgame. *)
Theorem C74_all_refuted : forall (V : Type) (dehom : (nat -> C) -> V) nv n start_point track endgame
    newton_before newton_during factor same_final same_mid max_attempts t i, (i < n)%nat ->
  (forall k u, snd (fst (track k u (start_point i))) <> Success) ->
  all_solutions dehom (solve nv n start_point track endgame newton_before newton_during factor same_final same_mid max_attempts
    (new_solver t)) = None.
Proof. intros. now apply (all_throws _ _ _ _ _ _ _ _ _ _ _ _ _ i). Qed.
Print Assumptions C74_all_refuted.

(** The data files list, in order, exactly the paths whose endgame was started, each with its own index, metadata and
    end point. *)
Theorem C74_files : forall nv n start_point track endgame
    newton_before newton_during factor same_final same_mid max_attempts t,
  let s := solve nv n start_point track endgame newton_before newton_during factor same_final same_mid max_attempts (new_solver t) in
  exists idx, Sorted lt idx /\ map (fun e => fst (fst e)) (written s) = idx /\
    (forall i, In i idx <-> (i < n)%nat /\ exists m, nth_error (meta s) i = Some m /\ eg_success m <> NeverStarted) /\
    (forall i m p, In (i, m, p) (written s) -> nth_error (meta s) i = Some m /\ path_index m = Some i /\
       exists x, p = Some x /\ nth_error (final s) i = Some (Some x)).
Proof.
  intros nv n start_point track endgame nb nd factor same_final same_mid ma t.
  destruct (written_spec nv n start_point track endgame nb nd factor same_final same_mid ma t) as (idx & (P & HP) & A & B & D).
  exists idx. split; [rewrite HP; apply filtered_sorted|]. auto.
Qed.
Print Assumptions C74_files.

(** Three paths, ending at 1, 2 and 2: the only nonsingular solution is 1. *)
Example C74_example : forall t, exists track endgame,
  nonsingular_solutions (fun x => x O) (solve 1 3 (fun _ => const1 1) track endgame 1 1 1 1 1 0 (new_solver t)) = Some [RtoC 1].
Proof.
  intros t. exists (same_point (const1 1)), (ends (const1 1) (const1 2)).
  apply (three (fun x => x O) (const1 1) (const1 2)). unfold distance. cbn [seq map fold_right].
  unfold const1. rewrite <- RtoC_minus, Cmod_R. replace (Rabs (1 - 2) ^ 2 + 0) with 1.
  - rewrite sqrt_1. lra.
  - rewrite Rabs_left by lra. ring.
Qed.
