(** C02: Degree(group) is the total degree in the group. *)
From Coq Require Import List ZArith.
From Verif Require Import Base Poly Expr Degree Homog.
Import ListNotations.
Local Open Scope fld_scope.

(** For every tree which is polynomial in each variable of the group, every point and every direction,
    the values along the line are those of a polynomial whose degree is at most Degree(group).
    Missing for equality: Degree(group) may be too large, see below. *)
Theorem C02_bounds_partial : forall (F : fld) (fs : funs F), funs_ok fs -> forall rho vs (b : nat -> F) e,
  (forall v, In v vs -> (0 <= degree fs rho v e)%Z) ->
  (0 <= gdegree fs rho vs e)%Z /\
  exists p, is_poly (Z.to_nat (gdegree fs rho vs e)) p /\
    forall t y, eval fs (fun x => if in_dec Nat.eq_dec x vs then rho x + t * b x else rho x) e = Some y -> y = p t.
Proof. exact @group_degree_bounds. Qed.
Print Assumptions C02_bounds_partial.

(** For trees in which every negation and power mentions at most one variable of the group, and which
    IsHomogeneous accepts, no smaller degree will do as soon as some value is nonzero. *)
Theorem C02_attained_partial : forall (F : fld), infinite F -> forall (fs : funs F), funs_ok fs ->
  forall rho vs e y k p, NoDup vs -> tame vs e ->
  polynomial_in fs rho vs e -> is_homogeneous fs rho vs e = true -> eval fs rho e = Some y -> y <> 0 ->
  is_poly k p -> (forall t, t <> 0 -> eval fs (scale t vs rho) e = Some (p t)) ->
  (gdegree fs rho vs e <= Z.of_nat k)%Z.
Proof. exact @group_degree_attained. Qed.
Print Assumptions C02_attained_partial.

(** Equality fails: the reported degree of a power of a sum of two group variables is larger than the
    degree along every line. *)
Theorem C02_exactness_refuted : exists (e : expr QcF) vs d,
  (forall rho v, In v vs -> (0 <= degree qc_funs rho v e)%Z) /\
  (forall rho b, poly_where_defined d (fun t => eval qc_funs (line rho vs b t) e)) /\
  forall rho, (Z.of_nat d < gdegree qc_funs rho vs e)%Z.
Proof. exact group_degree_too_large. Qed.
Print Assumptions C02_exactness_refuted.

(** And a nonnegative Degree(group), hence IsPolynomial(group), does not certify polynomiality. *)
Theorem C02_certificate_refuted : exists (e : expr QcF) rho vs b,
  (0 <= gdegree qc_funs rho vs e)%Z /\
  ~ poly_where_defined (Z.to_nat (gdegree qc_funs rho vs e)) (fun t => eval qc_funs (line rho vs b t) e).
Proof. exact group_degree_accepts_nonpolynomial. Qed.
Print Assumptions C02_certificate_refuted.

(** The hypotheses are met by x^3*y + 2*x + (y^2 - 5), and those of the exactness theorem by x^3*y. *)
Example C02_hypotheses_met : polynomial_in qc_funs q_env [0; 1]%nat sample_tree
  /\ gdegree qc_funs q_env [0; 1]%nat sample_tree = 4%Z
  /\ is_homogeneous qc_funs q_env [0; 1]%nat (Mul [(true, IPow q_x 3); (true, q_y)]) = true
  /\ gdegree qc_funs q_env [0; 1]%nat (Mul [(true, IPow q_x 3); (true, q_y)]) = 4%Z.
Proof. split; [exact sample_polynomial|]. repeat split; vm_compute; reflexivity. Qed.
