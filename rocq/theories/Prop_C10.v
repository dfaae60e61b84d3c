(** C10: evaluation reflects the current values of the variables, after any history, on shared graphs. *)
From Coq Require Import List ZArith.
From Verif Require Import Base Expr Heap.
Import ListNotations.

(** [G] is any graph of nodes (children before parents; sharing allowed).  After any history of assignments,
    resets and evaluations (of any nodes, in both number types) containing a Reset of [n] after which no value of
    type [T] was assigned and nothing was evaluated for another differentiation variable in that type, evaluating
    [n] gives the value of the expression it stands for, at the values last assigned. *)
Theorem C10_eval_current : forall (F : fld) (fs : funs F) (G : list (gnode (F := F))),
  well_founded_graph G -> plain_exponents G ->
  forall sigma h1 n h2 T dv e, Forall (valid_op G) (h1 ++ Reset n :: h2) -> Forall (quiet T dv) h2 -> unfolds G dv n e ->
  exists st, grun fs G (ginit sigma) (h1 ++ Reset n :: h2) = Some st /\
    eval_result fs G st T dv n = Some (eval fs (assigned sigma (h1 ++ h2) T) e).
Proof. exact @eval_after_reset. Qed.
Print Assumptions C10_eval_current.

(** A Jacobian node may be evaluated for one differentiation variable after the other, with other nodes of the
    graph evaluated in between, without a further Reset. *)
Theorem C10_evalJ_current : forall (F : fld) (fs : funs F) (G : list (gnode (F := F))),
  well_founded_graph G -> plain_exponents G ->
  forall sigma h1 j h2 T dv a e, nth_error G j = Some (GHandle a) -> no_parents G (eq j) ->
  Forall (valid_op G) (h1 ++ Reset j :: h2) -> Forall (leaves_jacobian T j) h2 -> unfolds G dv j e ->
  exists st, grun fs G (ginit sigma) (h1 ++ Reset j :: h2) = Some st /\
    evalJ_result fs G st T dv j = Some (eval fs (assigned sigma (h1 ++ h2) T) e).
Proof. exact @evalJ_after_reset. Qed.
Print Assumptions C10_evalJ_current.

(** Every node stands for an expression. *)
Theorem C10_nodes_have_meaning : forall (F : fld) (G : list (gnode (F := F))), well_founded_graph G ->
  forall dv n, n < length G -> exists e, unfolds G dv n e.
Proof. exact (fun F G H dv n Hn => match unfold_exists G H dv n Hn with ex_intro _ e E => ex_intro _ e (ex_intro _ (S n) E) end). Qed.
Print Assumptions C10_nodes_have_meaning.

(** The hypotheses are met by f = s * s and j = 2 s (dx + dy), which share s = x + y; set x = 1, y = 2, evaluate f,
    set x = 5 and reset: the new values are 49 and 14, and without the Reset f still gives 9. *)
Example C10_hypotheses_met : well_founded_graph shared_graph /\ plain_exponents shared_graph /\ no_parents shared_graph (eq 9) /\
  Forall (valid_op shared_graph) (shared_history ++ [Reset 3]) /\
  forall sigma,
  option_map (fun st => eval_result qc_funs shared_graph st Dbl None 3) (grun qc_funs shared_graph (ginit sigma) (shared_history ++ [Reset 3])) = Some (Some (Some (qc 49 1))) /\
  option_map (fun st => eval_result qc_funs shared_graph st Dbl None 3) (grun qc_funs shared_graph (ginit sigma) shared_history) = Some (Some (Some (qc 9 1))) /\
  option_map (fun st => evalJ_result qc_funs shared_graph st Dbl (Some 0) 9) (grun qc_funs shared_graph (ginit sigma) (shared_history ++ [Reset 9])) = Some (Some (Some (qc 14 1))).
Proof. exact (conj shared_wf (conj shared_plain (conj shared_no_parents (conj (shared_valid 3 ltac:(repeat constructor)) shared_values)))). Qed.
