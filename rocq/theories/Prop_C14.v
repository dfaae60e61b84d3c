(** C14: a straight-line program returns values for the inputs which were set last. *)
From Coq Require Import List ZArith.
From Verif Require Import Base Expr Heap Slp SlpRun SlpEx.
Import ListNotations.

(** After any history of SetVariableValues, SetPathVariable and Eval in both number types, the values returned in type
    [T] are those at the inputs last set in type [T], unless the first evaluation since inputs were last set was in
    the other type ([evaluated_in]).  The inputs which were never set have the value [z] found in memory. *)
Theorem C14_last_inputs_partial : forall (F : fld) (fs : funs F) (G : list (gnode (F := F))) (S : sysdesc) p,
  well_founded_graph G -> compilable G S -> compile unused G S = Done p ->
  forall z h, Forall (valid_rop S) h -> exists r, rrun fs p (rt_init p z) h = Done r /\
    forall T, evaluated_in None h = None \/ evaluated_in None h = Some T ->
      returns_values fs G S p r T (input_env S (last_inputs (length (vars S)) T (z T) h)).
Proof. exact @slp_history. Qed.
Print Assumptions C14_last_inputs_partial.

(** A program used in one number type always returns the values for the inputs last set. *)
Theorem C14_one_number_type : forall (F : fld) (fs : funs F) (G : list (gnode (F := F))) (S : sysdesc) p,
  well_founded_graph G -> compilable G S -> compile unused G S = Done p ->
  forall z T h, Forall (valid_rop S) h -> Forall (of_type T) h -> exists r, rrun fs p (rt_init p z) h = Done r /\
    returns_values fs G S p r T (input_env S (last_inputs (length (vars S)) T (z T) h)).
Proof. exact @slp_one_type. Qed.
Print Assumptions C14_one_number_type.

(** With both number types the property is false: evaluating in double makes the multiple precision evaluation
    return what its memory contained before (0 instead of 2^3 = 8). *)
Theorem C14_two_number_types_refuted : exists (G : list (gnode (F := QcF))) (S : sysdesc),
  fun_values G S [SetVariableValues Mp [qc 2 1]; SetVariableValues Dbl [qc 3 1]; EvalSlp Dbl] Mp = Done [Some (qc 0 1)] /\
  fun_values G S [SetVariableValues Mp [qc 2 1]] Mp = Done [Some (qc 8 1)].
Proof. exact (ex_intro _ square_graph (ex_intro _ square_sys two_types_wrong)). Qed.
Print Assumptions C14_two_number_types_refuted.

(** A history meeting the hypotheses: evaluations at different points, in both types. *)
Example C14_hypotheses_met : well_founded_graph ex_graph /\ compilable ex_graph ex_sys /\
  Forall (valid_rop ex_sys) ex_history /\ evaluated_in None ex_history = Some Dbl /\
  ex_values ex_history Dbl =
  Done ([Some (qc 27 1); Some (qc (-27) 1)], (Some (qc 27 1), Some (qc (-54) 1)), [Some (qc 0 1); Some (qc (-108) 1)]).
Proof. exact (conj ex_wf (conj ex_compilable (conj ex_history_valid (conj eq_refl ex_history_run)))). Qed.
