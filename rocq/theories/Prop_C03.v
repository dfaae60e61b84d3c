(** C03: Homogenize is undone by setting the homogenizing variable to one. *)
From Coq Require Import List ZArith.
From Verif Require Import Base Expr Degree Homog.
Import ListNotations.
Local Open Scope fld_scope.

(** For every tree, group and point; equality includes "undefined". *)
Theorem C03_undone_at_one : forall (F : fld) (fs : funs F) rho vs h e e' point,
  homogenize fs rho vs h e = Some e' -> ~ occurs h e ->
  eval fs (upd point h 1) e' = eval fs point e.
Proof. exact @homogenize_undone. Qed.
Print Assumptions C03_undone_at_one.

(** Homogenization does not change the degrees in the group. *)
Theorem C03_degrees_kept : forall (F : fld) (fs : funs F) rho vs h, ~ In h vs -> forall e e',
  homogenize fs rho vs h e = Some e' ->
  (forall v, In v vs -> degree fs rho v e' = degree fs rho v e) /\ gdegree fs rho vs e' = gdegree fs rho vs e.
Proof. exact @homogenize_degree. Qed.
Print Assumptions C03_degrees_kept.

(** Met by a polynomial which Homogenize changes. *)
Example C03_hypotheses_met : homogenize qc_funs q_env [0; 1]%nat 2 sample_tree = Some sample_homogenized
  /\ ~ occurs 2 sample_tree
  /\ eval qc_funs (upd (upd q_env 0 (qc 3 1)) 2 (qc 1 1)) sample_homogenized = Some (qc 29 1).
Proof.
  split; [exact sample_homogenize|]. split; [|vm_compute; reflexivity].
  intro H. apply occursb_spec in H. vm_compute in H. discriminate.
Qed.
