(** C42: observers. *)
From Coq Require Import List Lia Bool Arith Sorted.
From Verif Require Import StartIndex Observers.
Import ListNotations.

(** After any history of additions and removals: everyone is registered at most once; registered are those added since
    their last removal; and they are in the order of those additions. *)
Theorem C42_registered : forall h : list op,
  NoDup (run h) /\ (forall o, In o (run h) <-> since o h <> None) /\ StronglySorted (before_in h) (run h).
Proof. exact run_spec. Qed.
Print Assumptions C42_registered.

(** If no observer changes the list while it is notified, everybody is told once, in order. *)
Theorem C42_delivery_partial : forall (react : nat -> nat -> list op) (w : list nat),
  (forall k o, nth_error w k = Some o -> fold_left apply_op (react k o) w = w) ->
  notify react w = Value (w, w).
Proof. exact notify_passive. Qed.
Print Assumptions C42_delivery_partial.

(** In all other cases the behaviour is undefined. *)
Theorem C42_reentrant_refuted : forall (react : nat -> nat -> list op) (w : list nat),
  ~ (forall k o, nth_error w k = Some o -> fold_left apply_op (react k o) w = w) ->
  notify react w = UB.
Proof. exact notify_active. Qed.
Print Assumptions C42_reentrant_refuted.

(** The recorder of the first rise in precision does this at every rise. *)
Theorem C42_recorder_refuted : forall (me previous next : nat) (w : list nat),
  In me w -> previous < next -> notify (first_precision_recorder me previous next) w = UB.
Proof. exact recorder_undefined. Qed.
Print Assumptions C42_recorder_refuted.

Theorem C42_recorder_partial : forall (me previous next : nat) (w : list nat),
  next <= previous \/ ~ In me w -> notify (first_precision_recorder me previous next) w = Value (w, w).
Proof. exact recorder_harmless. Qed.
Print Assumptions C42_recorder_partial.

(** What an implementation does that keeps reading the memory of the vector: the observer after the one which left is not
    told (unless it is the last), and the last one is told twice. *)
Theorem C42_self_removal_in_practice_refuted : forall (a : nat) (pre post : list nat), NoDup (pre ++ a :: post) ->
  notify_raw (Nat.eqb a) (pre ++ a :: post) = (pre ++ a :: tl (post ++ [last post a]), pre ++ post).
Proof. exact raw_leaves. Qed.
Print Assumptions C42_self_removal_in_practice_refuted.

(** A history: 7 is added twice, 8 leaves and returns. *)
Example C42_history : run [Add 7; Add 8; Add 7; Add 9; Remove 8; Add 8] = [7; 9; 8] /\
  since 8 [Add 7; Add 8; Add 7; Add 9; Remove 8; Add 8] = Some 5.
Proof. split; reflexivity. Qed.

(** Notification of three observers; the second adds one that is registered, which changes nothing. *)
Example C42_passive : notify (fun _ o => if Nat.eqb o 8 then [Add 9] else []) [7; 8; 9] = Value ([7; 8; 9], [7; 8; 9]) /\
  notify (first_precision_recorder 7 16 30) [7; 8; 9] = UB /\
  notify_raw (Nat.eqb 7) [7; 8; 9] = ([7; 9; 9], [8; 9]).
Proof. repeat split. Qed.
