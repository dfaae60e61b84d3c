(** C50: after any sequence of modifications, Jacobian returns the derivative of the functions the system has now. *)
From Coq Require Import List ZArith.
From Verif Require Import Base Expr Diff StartIndex SysState SysArith SysEx.
Import ListNotations.

(** Histories observing [careful] are defined, and afterwards every system evaluates to its functions and their
    derivatives.  Missing: the modifications excluded by [careful], for which the claim is false (below).
    That [differentiate] gives the derivative is C06 and C07. *)
Theorem C50_current_derivatives_partial : forall (F : fld) (fs : funs F) simp mp h v l, simp_ok fs simp ->
  careful_run fs simp mp (start h v) l ->
  exists w, run fs simp mp (start h v) l = Some w /\ forall s, self_contained w s -> evaluates_right fs simp mp w s.
Proof. exact @careful_history. Qed.
Print Assumptions C50_current_derivatives_partial.

(** Adding a system to one which was evaluated: the derivative is that of the function before. *)
Theorem C50_plus_assign_refuted : exists (history : list op) (a b : nat),
  jacobian_after false (history ++ [Eval a two None; PlusAssign a b]) a three = Some (Value [[known 6]]) /\
  derivatives_after false (history ++ [Eval a two None; PlusAssign a b]) a three = Some [[known 7]].
Proof. exact (ex_intro _ two_systems (ex_intro _ 0 (ex_intro _ 1 plus_assign_stale))). Qed.
Print Assumptions C50_plus_assign_refuted.

Theorem C50_times_assign_refuted : exists (history : list op) (a : nat) n,
  jacobian_after false (history ++ [Eval a two None; TimesAssign a n]) a three = Some (Value [[known 6]]) /\
  derivatives_after false (history ++ [Eval a two None; TimesAssign a n]) a three = Some [[known 12]].
Proof. exact (ex_intro _ two_systems (ex_intro _ 0 (ex_intro _ _ times_assign_stale))). Qed.
Print Assumptions C50_times_assign_refuted.

(** Reordering the functions of a system which was evaluated: the rows of the Jacobian stay where they were. *)
Theorem C50_reorder_refuted : exists (history : list op) (s : nat),
  jacobian_after false history s three = Some (Value [[known 6]; [known 1]]) /\
  derivatives_after false history s three = Some [[known 1]; [known 6]].
Proof. exact (ex_intro _ to_reorder (ex_intro _ 2 reorder_stale)). Qed.
Print Assumptions C50_reorder_refuted.

(** Changing a function object of a system which was evaluated. *)
Theorem C50_set_root_refuted : exists (history : list op) (s k : nat) e,
  jacobian_after false (history ++ [Eval s two None; SetRoot k e]) s three = Some (Value [[known 6]]) /\
  derivatives_after false (history ++ [Eval s two None; SetRoot k e]) s three = Some [[known 1]].
Proof. exact (ex_intro _ two_systems (ex_intro _ 0 (ex_intro _ 0 (ex_intro _ _ set_root_stale)))). Qed.
Print Assumptions C50_set_root_refuted.

(** A history meeting the hypotheses: a function is added after an evaluation, systems are copied, moved, joined. *)
Example C50_hypotheses_met : simp_ok qc_funs keep /\ careful_run qc_funs keep false ex_start careful_ex /\
  jacobian_after false careful_ex 2 three = Some (Value [[known 6]; [known 5]; [known 1]]) /\
  eval_after false careful_ex 3 three = Some (Value [known 9]).
Proof. exact (conj keep_ok (conj careful_ex_ok careful_ex_values)). Qed.
