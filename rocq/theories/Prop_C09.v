(** C09: Simplify does not change the value of a function. *)
From Coq Require Import List ZArith.
From Verif Require Import Base Expr Diff Simplify SimpNormal.
Import ListNotations.

(** [rho0] holds the values of the variables when Simplify is called, [rho] those of a later evaluation.
    Proved part: every operand which is 0 (1) at [rho0] is also 0 (1) at [rho], and the tree has a value at
    [rho0].  Missing: points [rho] where an operand which happened to be 0 or 1 has another value; there the
    claim is false (below). *)
Theorem C09_simplify_preserves_partial : forall (F : fld) (fs : funs F) (rho0 rho : env F) fuel e e' y0 y,
  (forall s, subtree s e -> (eval fs rho0 s = Some f0 -> forall a, eval fs rho s = Some a -> a = f0) /\
                            (eval fs rho0 s = Some f1 -> forall a, eval fs rho s = Some a -> a = f1)) ->
  eval fs rho0 e = Some y0 -> eval fs rho e = Some y -> simplify fs rho0 fuel e = Some e' ->
  eval fs rho e' = Some y.
Proof. exact @simplify_preserves. Qed.
Print Assumptions C09_simplify_preserves_partial.

(** At the values held when Simplify was called the value never changes. *)
Theorem C09_simplify_same_point : forall (F : fld) (fs : funs F) (rho0 : env F) fuel e e' y,
  eval fs rho0 e = Some y -> simplify fs rho0 fuel e = Some e' -> eval fs rho0 e' = Some y.
Proof. exact @simplify_same_point. Qed.
Print Assumptions C09_simplify_same_point.

(** Simplify returns: the number of rounds is bounded by the weight of the tree. *)
Theorem C09_simplify_terminates : forall (F : fld) (fs : funs F) (rho0 : env F) fuel e,
  weight e < fuel -> exists e', simplify fs rho0 fuel e = Some e'.
Proof. exact @simplify_terminates. Qed.
Print Assumptions C09_simplify_terminates.

(** The full claim is false: x * y, simplified while x and y hold 0, is 0 everywhere. *)
Theorem C09_simplify_preserves_refuted : exists (rho0 rho : env QcF) fuel e e' y0 y,
  eval qc_funs rho0 e = Some y0 /\ eval qc_funs rho e = Some y /\ simplify qc_funs rho0 fuel e = Some e' /\
  eval qc_funs rho e' <> Some y.
Proof.
  exact (ex_intro _ (fun _ => qc 0 1) (ex_intro _ (fun _ => qc 2 1) (ex_intro _ 10 (ex_intro _ product_tree
    (ex_intro _ _ (ex_intro _ (qc 0 1) (ex_intro _ (qc 4 1) (conj simplify_product_0 (conj simplify_product_4
    (conj simplify_product simplify_product_wrong)))))))))).
Qed.
Print Assumptions C09_simplify_preserves_refuted.

(** The hypotheses are met: (x - (0 + y)) * (1 * z) with generic values is simplified to (x - y) * z. *)
Example C09_hypotheses_met : simplify qc_funs generic_env 20 nested_tree = Some (Mul [(true, Sum [(true, Var 0); (false, Var 1)]); (true, Var 2)])
  /\ eval qc_funs generic_env nested_tree = Some (qc (-14) 1)
  /\ (forall s, subtree s nested_tree -> (eval qc_funs generic_env s = Some f0 -> forall a, eval qc_funs later_env s = Some a -> a = f0) /\
                            (eval qc_funs generic_env s = Some f1 -> forall a, eval qc_funs later_env s = Some a -> a = f1))
  /\ eval qc_funs later_env nested_tree = Some (qc 0 1).
Proof. exact nested_simplified. Qed.

(** When Simplify returns there is nothing left to do: no sum is an operand of a sum, no product of a product, no operand is
    wrapped in a sum or product of one, and next to other operands no summand is 0 and no factor is 0 or 1 (at the values
    held when Simplify was called).  The code asserts that sums and products have operands. *)
Theorem C09_simplify_done : forall (F : fld) (fs : funs F) (rho0 : env F) fuel e e' y,
  operands_given e -> eval fs rho0 e = Some y -> simplify fs rho0 fuel e = Some e' -> irreducible fs rho0 e'.
Proof. intros F fs rho0 fuel e e' y N D E. exact (proj1 (simplify_done fs rho0 fuel e e' y (full_of e N) D E)). Qed.
Print Assumptions C09_simplify_done.

(** Hence simplifying again changes nothing. *)
Theorem C09_simplify_idempotent : forall (F : fld) (fs : funs F) (rho0 : env F) fuel e e' y,
  operands_given e -> eval fs rho0 e = Some y -> simplify fs rho0 fuel e = Some e' ->
  forall fuel', weight e' < fuel' -> simplify fs rho0 fuel' e' = Some e'.
Proof. intros F fs rho0 fuel e e' y N D E. exact (proj2 (simplify_done fs rho0 fuel e e' y (full_of e N) D E)). Qed.
Print Assumptions C09_simplify_idempotent.

(** [nested_tree], simplified above, has operands everywhere. *)
Example C09_done_met : operands_given nested_tree.
Proof. exact nested_given. Qed.
