(** C04: Homogenize produces a homogeneous function. *)
From Coq Require Import List ZArith.
From Verif Require Import Base Expr Degree Homog.
Import ListNotations.
Local Open Scope fld_scope.

(** For every polynomial tree in which each negation and power mentions at most one variable of the
    group: scaling the group and the homogenizing variable by [t] multiplies the value by [t^d], [d]
    being the reported degree.  Missing: the other polynomial trees, for which the property is false. *)
Theorem C04_homogeneous_partial : forall (F : fld) (fs : funs F), funs_ok fs -> forall rho vs, NoDup vs ->
  forall h, ~ In h vs -> forall e e', tame vs e -> polynomial_in fs rho vs e -> ~ occurs h e ->
  homogenize fs rho vs h e = Some e' ->
  forall point t y y', (forall x, ~ In x (h :: vs) -> point x = rho x) ->
    eval fs point e' = Some y -> eval fs (scale t (h :: vs) point) e' = Some y' ->
    y' = fpow t (Z.to_nat (gdegree fs rho vs e)) * y.
Proof. exact @homogenize_homogeneous. Qed.
Print Assumptions C04_homogeneous_partial.

(** For -(x+y)+x the result of Homogenize is homogeneous of no degree. *)
Theorem C04_refuted : exists (e e' : expr QcF) rho vs h,
  NoDup vs /\ ~ In h vs /\ ~ occurs h e /\ polynomial_in qc_funs rho vs e /\
  homogenize qc_funs rho vs h e = Some e' /\ forall d, ~ homogeneous_of_degree qc_funs rho (h :: vs) d e'.
Proof. exact homogenize_wrong. Qed.
Print Assumptions C04_refuted.

(** Met by x^3*y + 2*x + (y^2 - 5), with values defined on both sides. *)
Example C04_hypotheses_met : tame [0; 1]%nat sample_tree /\ polynomial_in qc_funs q_env [0; 1]%nat sample_tree
  /\ ~ occurs 2 sample_tree
  /\ homogenize qc_funs q_env [0; 1]%nat 2 sample_tree = Some sample_homogenized
  /\ eval qc_funs q_env sample_homogenized = Some (qc (-1) 1)
  /\ eval qc_funs (scale (qc 2 1) [2; 0; 1]%nat q_env) sample_homogenized = Some (qc (-16) 1).
Proof.
  split; [exact sample_tame|]. split; [exact sample_polynomial|]. split.
  - intro H. apply occursb_spec in H. vm_compute in H. discriminate.
  - split; [exact sample_homogenize|]. split; vm_compute; reflexivity.
Qed.
