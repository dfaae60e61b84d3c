(** C54: Differentiate() without a variable, evaluated for a variable, agrees with Differentiate of that variable. *)
From Coq Require Import List ZArith Arith.
From Verif Require Import Base Expr Diff Differential.
Import ListNotations.
Local Open Scope fld_scope.

(** [rho'] gives the variables of the tree their values, and each Differential 1 if it is the one of [v], else 0.
    Both trees have the same value, or none. *)
Theorem C54_differentials_agree : forall (F : fld) (fs : funs F) d v (rho rho' : env F) e,
  (forall x, occurs x e -> rho' x = rho x /\ rho' (d x) = if Nat.eqb x v then 1 else 0) ->
  eval fs rho' (differentials d e) = eval fs rho (differentiate v e).
Proof. exact @differentials_agree. Qed.
Print Assumptions C54_differentials_agree.

(** So for arithmetic trees it is the derivative (by dual numbers, see C06). *)
Theorem C54_derivative : forall (F : fld) (fs : funs F) d v (rho rho' : env F) e y,
  (forall x, occurs x e -> rho' x = rho x /\ rho' (d x) = if Nat.eqb x v then 1 else 0) ->
  arith e -> eval fs rho e = Some y ->
  exists y', deval rho v e = Some (y, y') /\ eval fs rho' (differentials d e) = Some y'.
Proof. exact @differentials_derivative. Qed.
Print Assumptions C54_derivative.
Local Close Scope fld_scope.

(** The tree x^2 y + y / x at x = 2, y = 3 has the derivatives 2 x y - y / x^2 = 45/4 and
    x^2 + 1/x = 9/2. *)
Example C54_hypotheses_met :
  (forall v x, In x [0; 1] -> two_env v x = (if Nat.eqb x 0 then qc 2 1 else qc 3 1) /\
     two_env v (x + 2) = if Nat.eqb x v then qc 1 1 else qc 0 1) /\
  eval qc_funs (two_env 0) (differentials (fun x => x + 2) two_tree) = Some (qc 45 4) /\
  eval qc_funs (two_env 1) (differentials (fun x => x + 2) two_tree) = Some (qc 9 2).
Proof. exact (conj two_env_ok two_tree_values). Qed.
