(** C49: Eval and Jacobian give the same values whichever evaluation and derivative method is selected. *)
From Coq Require Import List ZArith.
From Verif Require Import Base Expr Diff StartIndex SysState SysArith SysEx.
Import ListNotations.

(** Two systems with the same functions and variables, in worlds reached by any two histories observing [careful], with
    any methods, number types and simplifications, give the same values.  Missing: methods selected after the system
    was differentiated (excluded by [careful]), for which the claim is false (below). *)
Theorem C49_methods_partial : forall (F : fld) (fs : funs F) simp simp' mp mp' w w' s s', simp_ok fs simp -> simp_ok fs simp' ->
  reached fs simp mp w -> reached fs simp' mp' w' -> self_contained w s -> same_functions w w' s s' ->
  same_answers fs simp simp' mp mp' w w' s s'.
Proof. exact @same_answers_ok. Qed.
Print Assumptions C49_methods_partial.

(** Trees selected after an evaluation by the program: the value (of x^2 at 3) is the one at the point used before. *)
Theorem C49_trees_after_program_refuted : exists (history : list op) (s : nat),
  eval_after false (history ++ [Eval s two None; SetEvalMethod s FunctionTree]) s three = Some (Value [known 4]) /\
  values_after false (history ++ [Eval s two None; SetEvalMethod s FunctionTree]) s three = Some [known 9].
Proof. exact (ex_intro _ two_systems (ex_intro _ 0 to_trees_stale)). Qed.
Print Assumptions C49_trees_after_program_refuted.

(** The program selected after an evaluation by trees: nothing is computed. *)
Theorem C49_program_after_trees_refuted : exists (history : list op) (s : nat),
  eval_after false (history ++ [SetEvalMethod s FunctionTree; Eval s two None; SetEvalMethod s SLP]) s three = Some (Value [Garbage]).
Proof. exact (ex_intro _ two_systems (ex_intro _ 0 to_program_garbage)). Qed.
Print Assumptions C49_program_after_trees_refuted.

(** Another derivative method selected after differentiation: the derivatives read do not exist. *)
Theorem C49_derivative_method_refuted : exists (history : list op) (s : nat),
  jacobian_after false (history ++ [SetEvalMethod s FunctionTree; Eval s two None; SetDerivMethod s JacobianNode]) s three = Some UB.
Proof. exact (ex_intro _ two_systems (ex_intro _ 0 deriv_method_undefined)). Qed.
Print Assumptions C49_derivative_method_refuted.

(** Evaluation by trees in multiple precision: memory is read which does not exist. *)
Theorem C49_trees_multiprecision_refuted : exists (history : list op) (s : nat),
  eval_after true (history ++ [SetEvalMethod s FunctionTree]) s three = Some UB.
Proof. exact (ex_intro _ two_systems (ex_intro _ 0 trees_mp_undefined)). Qed.
Print Assumptions C49_trees_multiprecision_refuted.

(** A history meeting the hypotheses, with evaluations, derivatives and methods of both kinds. *)
Example C49_hypotheses_met : simp_ok qc_funs keep /\ careful_run qc_funs keep false ex_start careful_ex /\
  jacobian_after false careful_ex 2 three = Some (Value [[known 6]; [known 5]; [known 1]]) /\
  eval_after false careful_ex 3 three = Some (Value [known 9]).
Proof. exact (conj keep_ok (conj careful_ex_ok careful_ex_values)). Qed.
