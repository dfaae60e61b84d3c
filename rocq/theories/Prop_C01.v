(** C01: Degree(v) bounds the degree of the function in v. *)
From Coq Require Import List ZArith.
From Verif Require Import Base Poly Expr Degree Homog.
Import ListNotations.

(** For every tree, variable and point: if Degree(v) answers [d >= 0], then the values of the tree along
    the axis of [v] through the point are those of one polynomial of degree at most [d]. *)
Theorem C01_degree_bounds : forall (F : fld) (fs : funs F), funs_ok fs -> forall rho v e,
  (0 <= degree fs rho v e)%Z ->
  exists p, is_poly (Z.to_nat (degree fs rho v e)) p /\
    forall t y, eval fs (upd rho v t) e = Some y -> y = p t.
Proof. exact @degree_bounds. Qed.
Print Assumptions C01_degree_bounds.

(** The hypotheses are met: the oracle assumptions by the rational instance, and a tree of degree 3 in
    x; a quotient by x is rejected. *)
Example C01_hypotheses_met : funs_ok qc_funs /\ degree qc_funs q_env 0 sample_tree = 3%Z
  /\ eval qc_funs (upd q_env 0 (qc 2 1)) sample_tree = Some (qc 8 1)
  /\ degree qc_funs q_env 0 negated_reciprocal = (-1)%Z.
Proof. split; [exact qc_funs_ok|]. repeat split; vm_compute; reflexivity. Qed.
