(** C13: the straight-line program computes the same values as the function trees. *)
From Coq Require Import List ZArith.
From Verif Require Import Base Expr Heap Slp SlpRun SlpEx.
Import ListNotations.

(** [G] is any graph of nodes, [S] says which nodes are the variables, path variable, functions, space and time
    derivatives of the system.  If the system is [compilable] (see Slp.v), compilation with a new compiler succeeds,
    and after any history of assignments and evaluations in both number types, assigning the inputs [rho] in type [T]
    makes the program return, for every function, space derivative and time derivative, the value of its tree at [rho]
    (undefined when the tree's value is).  [z] is what the memory contained at first. *)
Theorem C13_slp_agrees_partial : forall (F : fld) (fs : funs F) (G : list (gnode (F := F))) (S : sysdesc),
  well_founded_graph G -> compilable G S ->
  exists p, compile unused G S = Done p /\
    forall z h T rho, Forall (valid_rop S) h ->
    exists r, rrun fs p (rt_init p z) (h ++ assign S T rho) = Done r /\ returns_values fs G S p r T rho.
Proof. exact @slp_agrees. Qed.
Print Assumptions C13_slp_agrees_partial.

(** Without [compilable] the property is false.  A function which uses a function added later reads a value which
    has not been computed yet, or which belongs to an earlier point. *)
Theorem C13_later_function_refuted : exists (G : list (gnode (F := QcF))) (S : sysdesc) n, well_founded_graph G /\
  nth_error (funcs S) 0 = Some n /\
  (forall e rho, unfolds G None n e -> rho 0 = qc 4 1 -> eval qc_funs rho e = Some (qc 10 1)) /\
  fun_values G S [SetVariableValues Dbl [qc 4 1]] Dbl = Done [Some (qc 0 1); Some (qc 5 1)] /\
  fun_values G S [SetVariableValues Dbl [qc 6 1]; EvalSlp Dbl; SetVariableValues Dbl [qc 4 1]] Dbl = Done [Some (qc 14 1); Some (qc 5 1)].
Proof. exact (ex_intro _ fwd_graph (ex_intro _ fwd_sys (ex_intro _ 5 (conj fwd_wf (conj eq_refl fwd_wrong))))). Qed.
Print Assumptions C13_later_function_refuted.

(** A variable which was not added to the system is silently read as the first variable. *)
Theorem C13_foreign_variable_refuted : exists (G : list (gnode (F := QcF))) (S : sysdesc) n, nth_error (funcs S) 0 = Some n /\
  fun_values G S [SetVariableValues Dbl [qc 4 1]] Dbl = Done [Some (qc 8 1)] /\
  forall e rho, unfolds G None n e -> rho 0 = qc 4 1 -> rho 1 = qc 1 1 -> eval qc_funs rho e = Some (qc 5 1).
Proof. exact (ex_intro _ foreign_graph (ex_intro _ foreign_sys (ex_intro _ 3 (conj eq_refl foreign_wrong)))). Qed.
Print Assumptions C13_foreign_variable_refuted.

(** If the system takes its derivatives with Jacobian nodes, the time derivatives visited are not the ones given a
    place in memory, and the program returns what the memory contained. *)
Theorem C13_jacobian_node_time_derivative_refuted : exists (G : list (gnode (F := QcF))) (S : sysdesc) n,
  nth_error (dt_first S) 0 = Some n /\
  bind (compile unused G S) (fun p =>
  bind (rrun qc_funs p (rt_init p zero_memory) [SetVariableValues Dbl [qc 4 1]; SetPathVariable Dbl (qc 3 1)]) (fun r =>
  get_dt qc_funs p r Dbl)) = Done [Some (qc 0 1)] /\
  forall e rho, unfolds G None n e -> rho 0 = qc 4 1 -> eval qc_funs rho e = Some (qc 4 1).
Proof. exact (ex_intro _ again_graph (ex_intro _ again_sys (ex_intro _ 5 (conj eq_refl again_wrong)))). Qed.
Print Assumptions C13_jacobian_node_time_derivative_refuted.

(** A compiler object used for a second system produces a program which reads outside of its table of integers. *)
Theorem C13_compiler_reuse_refuted : exists (G : list (gnode (F := QcF))) (S : sysdesc) p,
  compile (integers_left unused G S) G S = Done p /\
  forall z, rrun qc_funs p (rt_init p z) [SetVariableValues Dbl [qc 2 1]; EvalSlp Dbl] = Undefined.
Proof. exact (ex_intro _ square_graph (ex_intro _ square_sys (reused_undefined _ _ integers_left_square))). Qed.
Print Assumptions C13_compiler_reuse_refuted.

(** The hypotheses are met by g = (x+2)^3, f = g/t - g (x+2) with their derivatives, sharing subtrees. *)
Example C13_hypotheses_met : well_founded_graph ex_graph /\ compilable ex_graph ex_sys /\
  ex_values [SetVariableValues Dbl [qc 1 1]; SetPathVariable Dbl (qc 1 2)] Dbl =
  Done ([Some (qc 27 1); Some (qc (-27) 1)], (Some (qc 27 1), Some (qc (-54) 1)), [Some (qc 0 1); Some (qc (-108) 1)]).
Proof. exact (conj ex_wf (conj ex_compilable ex_run)). Qed.
