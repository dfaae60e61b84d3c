(** C06: Differentiate of arithmetic trees is the partial derivative. *)
From Coq Require Import List ZArith.
From Verif Require Import Base Expr Degree Diff.
Import ListNotations.

(** For every field, every tree of numbers, variables, sums, products, quotients, negations and integer
    powers, every variable and every point where the tree has a value [y]: evaluating the tree in the dual
    numbers at the point moved by [eps] along [v] gives [y + y' eps], and the tree returned by
    Differentiate(v) evaluates to [y']. *)
Theorem C06_differentiate_arithmetic : forall (F : fld) (fs : funs F) (rho : env F) v e y,
  arith e -> eval fs rho e = Some y ->
  exists y', deval rho v e = Some (y, y') /\ eval fs rho (differentiate v e) = Some y'.
Proof. exact (fun F fs rho v e y Ha Hy => differentiate_arith fs rho v e Ha y Hy). Qed.
Print Assumptions C06_differentiate_arithmetic.

(** Division of dual numbers, the one operation of the specification which is not a polynomial, is the
    inverse of multiplication. *)
Theorem C06_dual_division : forall (F : fld) (x y z : dual F),
  ddiv x y = Some z <-> (fst y <> f0 /\ dmul z y = x).
Proof. exact @ddiv_spec. Qed.
Print Assumptions C06_dual_division.

(** The Float tests inside the product rule, one of which would drop a term, never fire: no derivative is
    a Float node. *)
Theorem C06_derivative_not_float : forall (F : fld) v (e : expr F) c, differentiate v e <> Num KFloat c.
Proof. exact @differentiate_not_float. Qed.
Print Assumptions C06_derivative_not_float.

(** (x^3 - 2 x y)^-2 / (x + y) at (2, 1), with respect to x *)
Definition quotient_tree : expr QcF :=
  Mul [(true, IPow (Sum [(true, IPow (Var 0) 3); (false, Mul [(true, Num KInteger (qc 2 1)); (true, Var 0); (true, Var 1)])]) (-2));
       (false, Sum [(true, Var 0); (true, Var 1)])].
Example C06_hypotheses_met : arith quotient_tree
  /\ eval qc_funs (fun x => qc (if Nat.eqb x 0 then 2 else 1) 1) quotient_tree = Some (qc 1 48)
  /\ eval qc_funs (fun x => qc (if Nat.eqb x 0 then 2 else 1) 1) (differentiate 0 quotient_tree) = Some (qc (-1) 9)
  /\ eval qc_funs (fun x => qc (if Nat.eqb x 0 then 2 else 1) 1) (differentiate 1 quotient_tree) = Some (qc 5 144).
Proof.
  split.
  - unfold quotient_tree.
    repeat match goal with
    | |- arith _ => constructor
    | |- forall s e, In (s, e) _ -> _ => intros s e H; cbn [In] in H
    | H : _ \/ _ |- _ => destruct H as [H|H]
    | H : False |- _ => destruct H
    | H : (_, _) = (_, _) |- _ => injection H as <- <-
    end.
  - repeat split; vm_compute; reflexivity.
Qed.
