(** C12: LinearProduct nodes. *)
From Coq Require Import List ZArith.
From Verif Require Import Base Poly Expr Homog Diff LinProd.
Import ListNotations.
Local Open Scope fld_scope.

(** Every node a user can construct and homogenize evaluates to the product of its linear forms. *)
Theorem C12_evaluates_product : forall (F : fld) (fs : funs F) (rho : env F) (l : linprod (F := F)),
  lp_reachable l -> eval fs rho (lp_tree l) = Some (lp_eval rho l).
Proof. exact (fun F fs rho l H => lp_eval_tree fs rho l (proj1 (lp_reachable_ok l H))). Qed.
Print Assumptions C12_evaluates_product.

(** Degree(v) bounds the degree in [v], for every variable but the homogenizing one. *)
Theorem C12_degree_partial : forall (F : fld) (rho : env F) v (l : linprod (F := F)),
  (forall h, lhom l = HVar h -> h <> v) -> is_poly (lp_degree v l) (fun t => lp_eval (upd rho v t) l).
Proof. exact @lp_var_degree. Qed.
Print Assumptions C12_degree_partial.

(** Degree(group) bounds the degree along every line in the group, if it does not contain the homogenizing variable. *)
Theorem C12_group_degree_partial : forall (F : fld) (rho : env F) vs (b : nat -> F) (l : linprod (F := F)),
  (forall h, lhom l = HVar h -> ~ In h vs) ->
  is_poly (lp_gdegree vs l) (fun t => lp_eval (fun x => if in_dec Nat.eq_dec x vs then rho x + t * b x else rho x) l).
Proof. exact @lp_group_degree. Qed.
Print Assumptions C12_group_degree_partial.

(** Homogenize is undone by setting the new variable to one. *)
Theorem C12_homogenize_undone : forall (F : fld) (rho : env F) vs h (l l' : linprod (F := F)),
  lp_reachable l -> ~ In h (lvars l) -> lhom l <> HVar h ->
  lp_homogenize vs h l = Some l' -> lp_eval (upd rho h 1) l' = lp_eval rho l.
Proof. exact (fun F rho vs h l l' H => lp_homogenize_undone rho vs h l l' (proj1 (lp_reachable_ok l H))). Qed.
Print Assumptions C12_homogenize_undone.

(** If the group has a variable of the product, the result is homogeneous of the degree reported for the group. *)
Theorem C12_homogenize_homogeneous : forall (F : fld) (rho : env F) (t : F) vs h (l l' : linprod (F := F)),
  lp_reachable l -> NoDup vs -> lhomd l = false ->
  lp_homogenize vs h l = Some l' -> (exists v, In v vs /\ v <> h /\ In v (lvars l)) ->
  lp_eval (scale t (h :: vs) rho) l' = fpow t (lp_gdegree vs l) * lp_eval rho l'.
Proof. exact (fun F rho t vs h l l' H Hv => lp_homogenize_homogeneous rho t vs h l l' Hv (proj2 (lp_reachable_ok l H))). Qed.
Print Assumptions C12_homogenize_homogeneous.

(** IsHomogeneous(group) accepts only products which scale with the group. *)
Theorem C12_is_homogeneous_sound : forall (F : fld) (rho : env F) (t : F) vs (l : linprod (F := F)),
  lp_reachable l -> lvars l <> [] -> lp_is_homogeneous vs l = true ->
  lp_eval (scale t vs rho) l = fpow t (lp_gdegree vs l) * lp_eval rho l.
Proof.
  exact (fun F rho t vs l H Hne Hh => match lp_is_homogeneous_sound rho t vs l (proj1 (lp_reachable_ok l H)) Hh with
    | or_introl E => E | or_intror E => match Hne (proj1 E) with end end).
Qed.
Print Assumptions C12_is_homogeneous_sound.

(** The derivative node, evaluated for any variable [v] but the homogenizing one, is the derivative of the product
    (the second component of its value in dual numbers), and what Differentiate gives for the expanded tree. *)
Theorem C12_derivative_partial : forall (F : fld) (fs : funs F) (rho : env F) v (l : linprod (F := F)),
  lp_reachable l -> lhom l <> HVar v -> lcoeffs l <> [] ->
  exists y', deval rho v (lp_tree l) = Some (lp_eval rho l, y') /\ lp_diff_eval l rho (Some v) = Some y' /\
    eval fs rho (differentiate v (lp_tree l)) = Some y'.
Proof. exact (fun F fs rho v l H => lp_derivative fs rho v l (proj1 (lp_reachable_ok l H)) (proj2 (lp_reachable_ok l H))). Qed.
Print Assumptions C12_derivative_partial.

(** For the homogenizing variable derivative, degree and homogeneity test are wrong: x + 2 h at (1, 2). *)
Theorem C12_hom_variable_refuted : exists (l : linprod (F := QcF)) rho h, lp_reachable l /\ lhom l = HVar h /\
  (exists y y', deval rho h (lp_tree l) = Some (y, y') /\ lp_diff_eval l rho (Some h) <> Some y') /\
  ~ is_poly (lp_degree h l) (fun t => lp_eval (upd rho h t) l).
Proof. exact lp_hom_variable_refuted. Qed.
Print Assumptions C12_hom_variable_refuted.

(** Differentiate(v) returns a node which does not depend on [v]: evaluated without a differentiation variable, as
    System does with the derivatives it stores, it is 0 for every product. *)
Theorem C12_stored_derivative_refuted : forall (F : fld) (rho : env F) (l : linprod (F := F)),
  lcoeffs l <> [] -> lp_diff_eval l rho None = Some 0.
Proof. exact @lp_diff_no_variable. Qed.
Print Assumptions C12_stored_derivative_refuted.

Local Close Scope fld_scope.
(** (2 x + 3 y + 5) (x - y + 1) at (1, 2), and its homogenization at (1, 2, 3) *)
Example C12_hypotheses_met : lp_reachable lp_xy /\ lp_reachable lp_xy_hom /\ lp_eval at_123 lp_xy = qc 0 1 /\ lp_eval at_123 lp_xy_hom = qc 46 1 /\
  lp_diff_eval lp_xy at_123 (Some 0) = Some (qc 13 1) /\ lp_diff_eval lp_xy at_123 (Some 1) = Some (qc (-13) 1) /\
  lp_degree 0 lp_xy = 2 /\ lp_homogenize [0] 2 lp_xy = None /\ lp_homogenize [1; 0] 2 lp_xy = Some lp_xy_hom /\
  lp_is_homogeneous [2; 0; 1] lp_xy_hom = true /\ lp_is_homogeneous [0; 1] lp_xy = false.
Proof. exact (conj lp_xy_reachable (conj lp_xy_hom_reachable lp_values)). Qed.
