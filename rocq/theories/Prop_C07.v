(** C07: Differentiate of trees with elementary functions is the analytic derivative. *)
From Coq Require Import List Reals.
From Coquelicot Require Import Coquelicot.
From Verif Require Import Base Expr Diff DiffR.
Import ListNotations.

(** For every tree (general powers restricted by [good], see C08), every variable and every real point
    where all nodes are in the interior of their real domains: near the point the tree is a function [f] of
    the coordinate [v], [f] is differentiable there, and the tree returned by Differentiate(v) evaluates to
    its derivative. *)
Theorem C07_differentiate_real : forall (rho : env RF) v e y, good rho v e -> eval real_funs rho e = Some y ->
  exists (f : R -> R) (d : R),
    locally (rho v) (fun t => eval real_funs (upd rho v t) e = Some (f t)) /\
    is_derive f (rho v) d /\
    eval real_funs rho (differentiate v e) = Some d.
Proof. exact differentiate_real. Qed.
Print Assumptions C07_differentiate_real.

(** A tree using every function at once meets the hypotheses at 0. *)
Example C07_hypotheses_met : good (fun _ => (0%R : RF)) 0%nat sample_functions
  /\ exists y, eval real_funs (fun _ => (0%R : RF)) sample_functions = Some y.
Proof. exact sample_functions_good. Qed.
