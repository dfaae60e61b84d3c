(** C15: the ordering of the variables of a system. *)
From Coq Require Import List Permutation.
From Verif Require Import Base StartIndex SysVars.
Import ListNotations.

(** After any history of adding variables and groups, homogenizing, asking for the ordering and copying the structure
    of another such system, [Variables()] lists the blocks in the order added, each homogenizing variable right before
    its group, unless a group was added after homogenizing: then it throws. *)
Theorem C15_fifo_ordering : forall h, never_cleared h -> exists s, state_of h = Some s /\
  variables s = if half_homogenized (layout h) then Throws else Value (flat_map block_variables (layout h)).
Proof. exact ordering_of_history. Qed.
Print Assumptions C15_fifo_ordering.

(** It contains the variables given by the calls and those made by homogenizing, each as often as it was given. *)
Theorem C15_every_variable_once : forall h, never_cleared h -> forall s o, state_of h = Some s -> variables s = Value o ->
  Permutation o (given_variables h ++ made_variables (layout h)) /\
  (NoDup (given_variables h ++ made_variables (layout h)) -> NoDup o) /\
  length o = num_variables s.
Proof. exact ordering_complete. Qed.
Print Assumptions C15_every_variable_once.

(** After [ClearVariables] this fails: the old ordering is returned, and after adding a group an ordering is not
    found but a group which does not exist is read. *)
Theorem C15_cleared_variables_refuted : exists h1 h2,
  layout h1 = [] /\ option_map variables (state_of h1) = Some (Value [0; 1]) /\
  layout h2 = [AffineBlock None [2]] /\ option_map variables (state_of h2) = Some UB.
Proof.
  exact (ex_intro _ cleared_history (ex_intro _ refilled_history
    (match cleared_wrong with conj a (conj b (conj c d)) => conj b (conj a (conj d c)) end))).
Qed.
Print Assumptions C15_cleared_variables_refuted.

Example C15_hypotheses_met : never_cleared mixed_history /\ half_homogenized (layout mixed_history) = false /\
  flat_map block_variables (layout mixed_history) = [10; 0; 1; 3; 4; 5; 11; 2].
Proof. exact mixed_example. Qed.
