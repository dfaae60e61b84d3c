(** C88: Degree() and IsHomogeneous() of a function, asked for one variable or for none, meaning all, and the degrees
    a total degree start system takes from its target. *)
From Coq Require Import List ZArith.
From Verif Require Import Base Poly Expr Degree Homog HomogSys StartIndex DegreeAll HomogForm.
Import ListNotations.
Local Open Scope fld_scope.

(** If the answer d is not negative, then along every line on which only the variables asked for move, the
    function is a polynomial of degree at most d wherever it is defined.  [rho] are the values of the
    variables when the question is asked. *)
Theorem C88_degree_bounds : forall (F : fld) (fs : funs F), funs_ok fs -> forall rho o e, (0 <= vdegree fs rho o e)%Z ->
  forall p b, differ_in o p rho ->
  poly_where_defined (Z.to_nat (vdegree fs rho o e)) (fun t => eval fs (ray o p b t) e).
Proof. exact @line_bound. Qed.
Print Assumptions C88_degree_bounds.

(** A function which IsHomogeneous accepts is homogeneous in the variables asked for: of the degree which is reported,
    if that is not negative. *)
Theorem C88_homogeneous : forall (F : fld) (fs : funs F), funs_ok fs -> forall rho o e,
  vhomogeneous fs rho o e = true -> (0 <= vdegree fs rho o e)%Z ->
  forall p t y y', differ_in o p rho -> eval fs p e = Some y -> eval fs (stretch o t p) e = Some y' ->
  y' = fpow t (Z.to_nat (vdegree fs rho o e)) * y.
Proof. exact @homogeneous_poly. Qed.
Print Assumptions C88_homogeneous.

(** And if it is negative, because of a quotient, of some whole degree a - b. *)
Theorem C88_homogeneous_quotient : forall (F : fld) (fs : funs F), funs_ok fs -> forall rho o e,
  vhomogeneous fs rho o e = true -> exists a b : nat,
  forall p t y y', t <> 0 -> differ_in o p rho -> eval fs p e = Some y -> eval fs (stretch o t p) e = Some y' ->
  fpow t b * y' = fpow t a * y.
Proof. exact @homogeneous_any. Qed.
Print Assumptions C88_homogeneous_quotient.

(** A function which is written as a homogeneous form of degree d in the variables asked for (HomogForm.v) is recognised: the
    degree reported is d and IsHomogeneous answers yes. *)
Theorem C88_forms_recognised : forall (F : fld) (fs : funs F) rho o d e, form fs rho o d e ->
  vdegree fs rho o e = Z.of_nat d /\ vhomogeneous fs rho o e = true.
Proof. intros F fs rho o d e H. exact (form_answered fs rho o d e H). Qed.
Print Assumptions C88_forms_recognised.

(** 3 y^2 - x y / 2 is such a form, of degree 2, in all variables. *)
Example C88_form_met : forall (F : fld) (fs : funs F) rho,
  form fs rho None 2 (Sum [(true, Mul [(true, Num KInteger (fZ 3)); (true, IPow (Var 1) 2)]);
                           (false, Mul [(true, Var 0); (true, Var 1); (false, Num KInteger (fZ 2))])]).
Proof.
  intros F fs rho. apply fo_sum. repeat apply Forall_cons; try apply Forall_nil; cbn [snd].
  - apply (fo_product fs rho None [(true, Num KInteger (fZ 3)); (true, IPow (Var 1) 2)] [0; 2]%nat).
    repeat apply Forall2_cons; try apply Forall2_nil; cbn [fst snd]; (split; [|discriminate]).
    + apply fo_number.
    + apply (fo_power fs rho None 1 (Var 1) 2). apply fo_asked. left. reflexivity.
  - apply (fo_product fs rho None [(true, Var 0); (true, Var 1); (false, Num KInteger (fZ 2))] [1; 1; 0]%nat).
    repeat apply Forall2_cons; try apply Forall2_nil; cbn [fst snd]; (split; [|reflexivity || discriminate]);
      try apply fo_number; apply fo_asked; left; reflexivity.
Qed.

(** The degree of a homogeneous function which is not zero is exact. *)
Theorem C88_attained : forall F : fld, infinite F -> forall fs : funs F, funs_ok fs -> forall rho o e,
  (0 <= vdegree fs rho o e)%Z -> vhomogeneous fs rho o e = true ->
  forall p y k q, differ_in o p rho -> eval fs p e = Some y -> y <> 0 ->
  is_poly k q -> (forall t, t <> 0 -> eval fs (stretch o t p) e = Some (q t)) -> (vdegree fs rho o e <= Z.of_nat k)%Z.
Proof. exact @degree_attained. Qed.
Print Assumptions C88_attained.

(** A function which is polynomial in each variable has a nonnegative Degree(), and it is at most the degree with respect to
    any group containing all its variables. *)
Theorem C88_below_group : forall (F : fld) (fs : funs F) rho vs e,
  (forall v, (0 <= degree fs rho v e)%Z) -> (forall x, occurs x e -> In x vs) ->
  (0 <= vdegree fs rho None e <= gdegree fs rho vs e)%Z.
Proof.
  intros F fs rho vs e H C. split; [exact (proj1 (each_total fs rho vs e H))|exact (total_below_group fs rho vs e H C)].
Qed.
Print Assumptions C88_below_group.

(** A start system is made from a target exactly if that has one affine group and no homogeneous ones, no path variable,
    as many functions and patches as variables, and IsPolynomial says yes; otherwise the constructor throws. *)
Theorem C88_start_accepts : forall (F : fld) (fs : funs F) rho s patches path,
  ((exists ds, copy_degrees fs rho s patches path = Value ds) <->
   hom_groups s = [] /\ length (groups s) = 1%nat /\ path = false /\
   (length (fns s) + patches)%nat = length (concat (groups s) ++ ungrouped s ++ hom_vars s) /\
   is_polynomial_sys fs rho s = Some true) /\
  (copy_degrees fs rho s patches path = Throws \/ exists ds, copy_degrees fs rho s patches path = Value ds).
Proof. intros. split; [apply copy_accepts|apply copy_outcome]. Qed.
Print Assumptions C88_start_accepts.

(** The degrees of a start system are those answers, if each function of the target is polynomial in each variable.
    Missing: targets which the constructor accepts although this is not so. *)
Theorem C88_start_partial : forall (F : fld) (fs : funs F) rho s patches path ds,
  copy_degrees fs rho s patches path = Value ds ->
  Forall (fun f => forall v, (0 <= degree fs rho v f)%Z) (fns s) ->
  Forall (fun f => (vdegree fs rho None f < 2 ^ 64)%Z) (fns s) ->
  ds = map (vdegree fs rho None) (fns s).
Proof. exact @copied. Qed.
Print Assumptions C88_start_partial.

(** x / p - 1, where p is a parameter, is linear in the only variable x; its start system is made with degree 2^64 - 1. *)
Theorem C88_quotient_refuted : exists s : psys QcF,
  groups s = [[0%nat]] /\
  (forall point, Forall (fun f => poly_where_defined 1 (fun t => eval qc_funs (upd point 0 t) f)) (fns s)) /\
  copy_degrees qc_funs q_env s 0 false = Value [(2 ^ 64 - 1)%Z].
Proof. exists quotient_target. split; [reflexivity|]. split; [exact quotient_linear|exact quotient_copied]. Qed.
Print Assumptions C88_quotient_refuted.

(** x - p^2 is linear in x; its start system is made with degree 2, so two paths are tracked for one root. *)
Theorem C88_parameter_refuted : exists s : psys QcF,
  groups s = [[0%nat]] /\
  (forall point, Forall (fun f => poly_where_defined 1 (fun t => eval qc_funs (upd point 0 t) f)) (fns s)) /\
  copy_degrees qc_funs q_env s 0 false = Value [2%Z].
Proof. exists square_target. split; [reflexivity|]. split; [exact square_linear|exact square_copied]. Qed.
Print Assumptions C88_parameter_refuted.

(** (x+y)^2 - 1 and x - y get the degrees 2 and 1; asked for the group, the first answers 4. *)
Example C88_met :
  copy_degrees qc_funs q_env binomial_target 0 false = Value [2%Z; 1%Z] /\
  map (gdegree qc_funs q_env [0; 1]%nat) (fns binomial_target) = [4%Z; 1%Z] /\
  vhomogeneous qc_funs q_env None (IPow (Sum [(true, Var 0); (true, Var 1)]) 2) = true /\
  vdegree qc_funs q_env None (IPow (Sum [(true, Var 0); (true, Var 1)]) 2) = 2%Z /\
  vhomogeneous qc_funs q_env (Some 1%nat) (Sum [(true, Var 0); (true, Var 1)]) = false.
Proof. split; [exact binomial_copied|]. split; [exact binomial_group|]. split; [|split]; vm_compute; reflexivity. Qed.
