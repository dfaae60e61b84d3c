(** C08: Differentiate of a general power. *)
From Coq Require Import List Reals.
From Coquelicot Require Import Coquelicot.
From Verif Require Import Base Expr Diff DiffR.
Import ListNotations.

(** Proved part: the exponent does not contain [v] and the base is not zero at the point.  Missing: exponents
    containing [v], where the claim is false (below), and base zero. *)
Theorem C08_power_partial : forall (rho : env RF) v b e y, good rho v b -> ~ occurs v e ->
  eval real_funs rho b <> Some 0%R -> eval real_funs rho (Pow b e) = Some y ->
  exists (f : R -> R) (d : R),
    locally (rho v) (fun t => eval real_funs (upd rho v t) (Pow b e) = Some (f t)) /\
    is_derive f (rho v) d /\
    eval real_funs rho (differentiate v (Pow b e)) = Some d.
Proof. exact (fun rho v b e y Hb He H0 Hy => differentiate_real rho v (Pow b e) y (gd_pow rho v b e Hb He H0) Hy). Qed.
Print Assumptions C08_power_partial.

(** The full claim is false: the tree returned for 2^x does not evaluate to the derivative of 2^x at 1. *)
Theorem C08_power_refuted : exists (rho : env RF) v b e (f : R -> R) (d d' : R),
    locally (rho v) (fun t => eval real_funs (upd rho v t) (Pow b e) = Some (f t)) /\
    is_derive f (rho v) d /\
    eval real_funs rho (differentiate v (Pow b e)) = Some d' /\ d <> d'.
Proof. exact (ex_intro _ (fun _ => (1%R : RF)) (ex_intro _ 0%nat (ex_intro _ _ (ex_intro _ _ two_to_x_wrong)))). Qed.
Print Assumptions C08_power_refuted.

Example C08_hypotheses_met : good (fun _ => (0%R : RF)) 0%nat (Sum [(true, Var 0); (false, Num KInteger (5%R : RF))])
  /\ ~ occurs 0 (Num KInteger ((-3)%R : RF)).
Proof.
  split; [|intro H; inversion H]. constructor. intros s e [H|[H|[]]]; injection H as <- <-; constructor.
Qed.
