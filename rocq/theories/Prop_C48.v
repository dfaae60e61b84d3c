(** C48: a copied, moved or swapped system evaluates and differentiates like the original. *)
From Coq Require Import List ZArith.
From Verif Require Import Base Expr Diff StartIndex SysState SysArith SysEx.
Import ListNotations.

(** Copies made by construction or assignment and systems constructed by moving, in a world reached by any history
    observing [careful].  Missing: copies of a system already differentiated ([copyable]), for which the claim is
    false (below). *)
Theorem C48_copies_partial : forall (F : fld) (fs : funs F) simp mp w o d a w', simp_ok fs simp -> reached fs simp mp w ->
  self_contained w a -> In o [CopyConstruct d a; CopyAssign d a; MoveConstruct d a] -> copyable (sys w a) ->
  step fs simp mp w o = Value w' -> same_answers fs simp simp mp mp w w' a d.
Proof. exact @copies_ok. Qed.
Print Assumptions C48_copies_partial.

(** Moving by assignment is always right. *)
Theorem C48_move_assignment : forall (F : fld) (fs : funs F) simp mp w d a w', simp_ok fs simp -> reached fs simp mp w ->
  self_contained w a -> step fs simp mp w (MoveAssign d a) = Value w' -> same_answers fs simp simp mp mp w w' a d.
Proof. exact @move_assign_ok. Qed.
Print Assumptions C48_move_assignment.

(** Swapping two systems which were not yet differentiated. *)
Theorem C48_swap_partial : forall (F : fld) (fs : funs F) simp mp w a b w', simp_ok fs simp -> reached fs simp mp w ->
  self_contained w a -> self_contained w b -> a <> b -> careful mp w (Swap a b) -> step fs simp mp w (Swap a b) = Value w' ->
  same_answers fs simp simp mp mp w w' a b /\ same_answers fs simp simp mp mp w w' b a.
Proof. exact @swap_ok. Qed.
Print Assumptions C48_swap_partial.

(** The claim is false after an evaluation: the copy does not compute anything. *)
Theorem C48_copy_after_evaluation_refuted : exists (history : list op) (d a : nat),
  eval_after false history a three = Some (Value [known 9]) /\
  eval_after false (history ++ [CopyConstruct d a]) d three = Some (Value [Garbage]) /\
  eval_after false (history ++ [MoveConstruct d a]) d three = Some (Value [Garbage]).
Proof. exact (ex_intro _ (two_systems ++ [Eval 0 two None]) (ex_intro _ 3 (ex_intro _ 0 copy_garbage))). Qed.
Print Assumptions C48_copy_after_evaluation_refuted.

(** After a swap each system evaluates the functions it had before: 9 for x^2 though its function is now x. *)
Theorem C48_swap_after_evaluation_refuted : exists (history : list op) (a b : nat),
  eval_after false (history ++ [Swap a b]) a three = Some (Value [known 9]) /\
  values_after false (history ++ [Swap a b]) a three = Some [known 3].
Proof. exact (ex_intro _ (two_systems ++ [Eval 0 two None; Eval 1 two None]) (ex_intro _ 0 (ex_intro _ 1 swap_wrong))). Qed.
Print Assumptions C48_swap_after_evaluation_refuted.

(** The hypotheses are met by the systems x^2 and x. *)
Example C48_hypotheses_met : simp_ok qc_funs keep /\ reached qc_funs keep false ex_world /\
  self_contained ex_world 0 /\ self_contained ex_world 1 /\ careful false ex_world (Swap 0 1) /\ copyable (sys ex_world 0).
Proof.
  exact (conj keep_ok (conj ex_world_reached (conj (ex_world_self_contained 0 (or_introl eq_refl))
    (conj (ex_world_self_contained 1 (or_intror (or_introl eq_refl))) (proj2 (proj2 (proj2 sum_careful))))))).
Qed.
