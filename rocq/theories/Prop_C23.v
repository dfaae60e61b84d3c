(** C23: every index below NumStartPoints selects one multihomogeneous start point, and all of them
    are reached. *)
From Coq Require Import List ZArith Lia.
From Verif Require Import StartIndex MHom.
Import ListNotations.
Local Open Scope Z_scope.

(** Each index selects a partition from the list and a legal choice of one factor per function. *)
Theorem C23_in_range_selects : forall degs sizes ps index,
  degs <> [] -> (forall p, In p ps -> valid_partition degs sizes p) -> NoDup ps ->
  Forall (Forall (fun d => 0 <= d)) degs -> total_points degs ps < 2 ^ 31 ->
  0 <= index < total_points degs ps ->
  exists p sub, start_choice degs ps index = Value (p, sub) /\ legal_choice degs ps p sub
    /\ choice_number degs ps p sub = index.
Proof. exact start_choice_in_range. Qed.
Print Assumptions C23_in_range_selects.

(** Each legal choice is selected by exactly one index. *)
Theorem C23_each_choice_once : forall degs sizes ps p sub,
  degs <> [] -> (forall p, In p ps -> valid_partition degs sizes p) -> NoDup ps ->
  Forall (Forall (fun d => 0 <= d)) degs -> total_points degs ps < 2 ^ 31 ->
  legal_choice degs ps p sub ->
  exists index, 0 <= index < total_points degs ps /\ start_choice degs ps index = Value (p, sub) /\
    forall index', 0 <= index' < total_points degs ps ->
      start_choice degs ps index' = Value (p, sub) -> index' = index.
Proof. exact start_choice_onto. Qed.
Print Assumptions C23_each_choice_once.

(** An index at or beyond the number of start points throws. *)
Theorem C23_out_of_range_throws : forall degs sizes ps index,
  (forall p, In p ps -> valid_partition degs sizes p) -> Forall (Forall (fun d => 0 <= d)) degs ->
  total_points degs ps < 2 ^ 31 -> total_points degs ps <= index < 2 ^ 64 ->
  start_choice degs ps index = Throws.
Proof. exact start_choice_out_of_range. Qed.
Print Assumptions C23_out_of_range_throws.

(** The running count is kept in an int: beyond 2^31 start points a valid index can be rejected. *)
Theorem C23_large_count_refuted : exists degs sizes ps index,
  degs <> [] /\ (forall p, In p ps -> valid_partition degs sizes p) /\ NoDup ps
  /\ Forall (Forall (fun d => 0 <= d)) degs /\ 0 <= index < total_points degs ps
  /\ total_points degs ps < 2 ^ 32 /\ num_mhom_points degs ps = Some (total_points degs ps)
  /\ start_choice degs ps index = Throws.
Proof.
  exists [[2 ^ 16 ; 2 ^ 15]; [2 ^ 15; 2 ^ 15]], [1; 1], [[0; 1]; [1; 0]], (2 ^ 31 + 5).
  split; [discriminate|]. split.
  - intros p [<-|[<-|[]]].
    + apply enum_valid with (degs := [[2 ^ 16 ; 2 ^ 15]; [2 ^ 15; 2 ^ 15]]).
      * repeat (apply Forall_cons; [discriminate|]). apply Forall_nil.
      * repeat (apply Forall_cons; [reflexivity|]). apply Forall_nil.
      * vm_compute. left. reflexivity.
    + apply enum_valid with (degs := [[2 ^ 16 ; 2 ^ 15]; [2 ^ 15; 2 ^ 15]]).
      * repeat (apply Forall_cons; [discriminate|]). apply Forall_nil.
      * repeat (apply Forall_cons; [reflexivity|]). apply Forall_nil.
      * vm_compute. right. left. reflexivity.
  - split.
    + constructor; [intros [H|[]]; discriminate|]. constructor; [intros []|constructor].
    + split; [repeat (apply Forall_cons; [repeat (apply Forall_cons; [discriminate|]); apply Forall_nil|]); apply Forall_nil|].
      split; [split; vm_compute; [discriminate|reflexivity]|].
      split; [vm_compute; reflexivity|]. split; vm_compute; reflexivity.
Qed.
Print Assumptions C23_large_count_refuted.

Example C23_hypotheses_met :
  start_choice [[1; 2]; [0; 3]; [2; 1]] [[0; 1; 1]; [1; 1; 0]] 2 = Value ([0; 1; 1], [0; 2; 0])
  /\ start_choice [[1; 2]; [0; 3]; [2; 1]] [[0; 1; 1]; [1; 1; 0]] 14 = Value ([1; 1; 0], [1; 2; 1])
  /\ start_choice [[1; 2]; [0; 3]; [2; 1]] [[0; 1; 1]; [1; 1; 0]] 15 = Throws
  /\ total_points [[1; 2]; [0; 3]; [2; 1]] [[0; 1; 1]; [1; 1; 0]] = 15
  /\ NoDup [[0; 1; 1]; [1; 1; 0]]
  /\ (forall p, In p [[0; 1; 1]; [1; 1; 0]] -> valid_partition [[1; 2]; [0; 3]; [2; 1]] [1; 2] p).
Proof.
  split; [vm_compute; reflexivity|]. split; [vm_compute; reflexivity|].
  split; [vm_compute; reflexivity|]. split; [vm_compute; reflexivity|]. split.
  - constructor; [intros [H|[]]; discriminate|]. constructor; [intros []|constructor].
  - intros p Hp. apply enum_valid.
    + repeat (apply Forall_cons; [discriminate|]). apply Forall_nil.
    + repeat (apply Forall_cons; [reflexivity|]). apply Forall_nil.
    + vm_compute. vm_compute in Hp. exact Hp.
Qed.
