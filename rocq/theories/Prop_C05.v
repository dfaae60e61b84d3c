(** C05: IsHomogeneous(group) never accepts a function which does not scale. *)
From Coq Require Import List ZArith.
From Verif Require Import Base Expr Degree Homog.
Import ListNotations.
Local Open Scope fld_scope.

(** For every polynomial tree in which each negation and power mentions at most one variable of the
    group.  Missing: the other polynomial trees, for which the property is false. *)
Theorem C05_sound_partial : forall (F : fld) (fs : funs F), funs_ok fs -> forall rho vs, NoDup vs ->
  forall e, tame vs e -> polynomial_in fs rho vs e -> is_homogeneous fs rho vs e = true ->
  forall point t y y', (forall x, ~ In x vs -> point x = rho x) ->
    eval fs point e = Some y -> eval fs (scale t vs point) e = Some y' ->
    y' = fpow t (Z.to_nat (gdegree fs rho vs e)) * y.
Proof. exact @is_homogeneous_sound. Qed.
Print Assumptions C05_sound_partial.

(** -(x+y)+x*y is accepted and is homogeneous of no degree. *)
Theorem C05_refuted : exists (e : expr QcF) rho vs,
  NoDup vs /\ polynomial_in qc_funs rho vs e /\ is_homogeneous qc_funs rho vs e = true /\
  forall d, ~ homogeneous_of_degree qc_funs rho vs d e.
Proof. exact is_homogeneous_wrong. Qed.
Print Assumptions C05_refuted.

(** Met by the homogenization of x^3*y + 2*x + (y^2 - 5), in the three variables; the polynomial itself
    is rejected. *)
Example C05_hypotheses_met : polynomial_in qc_funs q_env [2; 0; 1]%nat sample_homogenized
  /\ is_homogeneous qc_funs q_env [2; 0; 1]%nat sample_homogenized = true
  /\ gdegree qc_funs q_env [2; 0; 1]%nat sample_homogenized = 4%Z
  /\ is_homogeneous qc_funs q_env [0; 1]%nat sample_tree = false.
Proof.
  split; [|split; [|split]; vm_compute; reflexivity].
  intros v [<-|[<-|[<-|[]]]]; vm_compute; discriminate.
Qed.
