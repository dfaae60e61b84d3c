(** C20: IndexToSubscript numbers the cells of an array one-to-one. *)
From Coq Require Import List ZArith.
From Verif Require Import StartIndex.
Import ListNotations.
Local Open Scope Z_scope.

(** Every index below the number of cells gives a legal subscript, and the column-major position of
    that subscript is the index we started from. *)
Theorem C20_in_range_gives_its_cell : forall dims index,
  dims <> [] -> Forall (fun d => 1 <= d) dims -> num_cells dims < 2 ^ 64 ->
  0 <= index < num_cells dims ->
  exists sub, index_to_subscript index dims = Value sub
              /\ legal_subscript dims sub /\ cell_position dims sub = index.
Proof. exact index_to_subscript_in_range. Qed.
Print Assumptions C20_in_range_gives_its_cell.

(** Two different indices never give the same subscript. *)
Theorem C20_injective : forall dims i j sub,
  dims <> [] -> Forall (fun d => 1 <= d) dims -> num_cells dims < 2 ^ 64 ->
  0 <= i -> 0 <= j ->
  index_to_subscript i dims = Value sub -> index_to_subscript j dims = Value sub -> i = j.
Proof. exact index_to_subscript_injective. Qed.
Print Assumptions C20_injective.

(** Every legal subscript is produced by the index which is its position. *)
Theorem C20_onto : forall dims sub,
  dims <> [] -> num_cells dims < 2 ^ 64 -> legal_subscript dims sub ->
  index_to_subscript (cell_position dims sub) dims = Value sub.
Proof. exact index_to_subscript_onto. Qed.
Print Assumptions C20_onto.

(** An index at or beyond the number of cells throws. *)
Theorem C20_out_of_range_throws : forall dims index,
  dims <> [] -> Forall (fun d => 1 <= d) dims -> num_cells dims < 2 ^ 64 ->
  num_cells dims <= index -> index_to_subscript index dims = Throws.
Proof. exact index_to_subscript_out_of_range. Qed.
Print Assumptions C20_out_of_range_throws.

(** The bound 2^64 on the number of cells cannot be dropped: when it overflows, an index which names
    a cell is rejected. *)
Theorem C20_overflow_refuted : exists dims index,
  dims <> [] /\ Forall (fun d => 1 <= d < 2 ^ 64) dims /\ 0 <= index < num_cells dims
  /\ index_to_subscript index dims = Throws.
Proof. exact index_to_subscript_overflow. Qed.
Print Assumptions C20_overflow_refuted.

(** The hypotheses are met by a 3 x 4 x 2 array. *)
Example C20_hypotheses_met :
  [3; 4; 2] <> [] /\ Forall (fun d => 1 <= d) [3; 4; 2] /\ num_cells [3; 4; 2] < 2 ^ 64
  /\ 0 <= 17 < num_cells [3; 4; 2] /\ index_to_subscript 17 [3; 4; 2] = Value [2; 1; 1]
  /\ index_to_subscript 24 [3; 4; 2] = Throws.
Proof.
  split; [discriminate|]. split; [repeat (apply Forall_cons; [discriminate|]); apply Forall_nil|].
  split; [reflexivity|]. split; [split; [discriminate|reflexivity]|].
  split; vm_compute; reflexivity.
Qed.
