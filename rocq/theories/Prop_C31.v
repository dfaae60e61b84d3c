(** C31: the Runge-Kutta predictors have the order they report. *)
From Coq Require Import List Arith Lia ZArith QArith Bool.
From Verif Require Import Base Poly Newton Butcher RK RKTables RKQuad.
Import ListNotations.

(** Select any method that can be selected, on a predictor with any history.  For every right hand side
    f(x, t) (given by its derivatives at the current point, any symmetric or not multilinear maps on any
    vector space), the prediction as a power series in delta_t agrees with the solution of x' = f(x, t)
    through the current point in every power up to Order(). *)
Theorem C31_order :
  forall m s s', set_method m s = (s', false) ->
  forall (V : qmod) (D : list (prodmod V) -> V),
  (forall l1 (u v : prodmod V) l2, D (l1 ++ vadd u v :: l2) = vadd (D (l1 ++ u :: l2)) (D (l1 ++ v :: l2))) ->
  (forall l1 a (u : prodmod V) l2, D (l1 ++ vscale a u :: l2) = vscale a (D (l1 ++ u :: l2))) ->
  forall (x0 : V) (x : nat -> V), exact_solution V D x0 x ->
  exists y K, series_step V D x0 (p_table s') = (Success, Some (y, K))
    /\ forall n, (n <= p_order s')%nat -> y n = x n.
Proof.
  intros m s s' E V D DA DS x0 x Hx. destruct (predictor_rows m s s' E) as [R L].
  exact (order_of_step V D DA DS x0 (p_table s') (p_order s') R L (predictor_order_ok m s s' E) x Hx).
Qed.
Print Assumptions C31_order.

(** Such a solution exists for every right hand side. *)
Theorem C31_solution_exists :
  forall (V : qmod) (D : list (prodmod V) -> V),
  (forall l1 (u v : prodmod V) l2, D (l1 ++ vadd u v :: l2) = vadd (D (l1 ++ u :: l2)) (D (l1 ++ v :: l2))) ->
  (forall l1 a (u : prodmod V) l2, D (l1 ++ vscale a u :: l2) = vscale a (D (l1 ++ u :: l2))) ->
  forall x0 : V, exists x, exact_solution V D x0 x.
Proof. exact exact_solution_exists. Qed.
Print Assumptions C31_solution_exists.

(** The tree order conditions of Butcher hold for every rooted tree with at most Order() vertices. *)
Theorem C31_tree_conditions :
  forall m s s', set_method m s = (s', false) ->
  forall t, (torder t <= p_order s')%nat ->
  fsum (map (fun i => fmul (b_at (p_table s') i) (phi (p_table s') t i)) (seq 0 (stages (p_table s'))))
  = fdiv f1 (tdensity t).
Proof. exact predictor_order_ok. Qed.
Print Assumptions C31_tree_conditions.

(** x' = p(t) with p the derivative of a polynomial of degree at most Order(), in each of any number of
    coordinates, over any field containing the rationals: the prediction is exact, whatever the step. *)
Theorem C31_quadrature :
  forall m s s', set_method m s = (s', false) ->
  forall (F : fld) (e : QcF -> F), e f1 = f1 -> (forall a b, e (fadd a b) = fadd (e a) (e b)) ->
  (forall a b, e (fmul a b) = fmul (e a) (e b)) ->
  forall (J : Type) (p : J -> list F) (t0 h : F) (x : J -> F),
  (forall j, (length (p j) <= S (p_order s'))%nat) ->
  exists y K, quad_step F e J p t0 h (p_table s') x = (Success, Some (y, K))
    /\ forall j, y j = fadd (x j) (fsub (peval (p j) (fadd t0 h)) (peval (p j) t0)).
Proof.
  intros m s s' E F e E1 EA EM J p t0 h x LP. destruct (predictor_rows m s s' E) as [R L].
  exact (quad_exact F e E1 EA EM (p_table s') (p_order s') R L (predictor_order_ok m s s' E) J p t0 h x LP).
Qed.
Print Assumptions C31_quadrature.

(** The error estimate of every method that has one, except HeunEuler, vanishes in the powers of delta_t up to
    Order(): it is of order Order()+1 as SetSizeProportion assumes.  HeunEuler's vanishes up to the first
    power. *)
Theorem C31_estimate_partial :
  forall m s s', set_method m s = (s', false) -> has_error_estimate m = true ->
  forall (V : qmod) (D : list (prodmod V) -> V),
  (forall l1 (u v : prodmod V) l2, D (l1 ++ vadd u v :: l2) = vadd (D (l1 ++ u :: l2)) (D (l1 ++ v :: l2))) ->
  (forall l1 a (u : prodmod V) l2, D (l1 ++ vscale a u :: l2) = vscale a (D (l1 ++ u :: l2))) ->
  forall x0 : V,
  exists y K, series_step V D x0 (p_table s') = (Success, Some (y, K))
    /\ forall n, (n <= match m with PHeunEuler => 1 | _ => p_order s' end)%nat ->
       error_vector (s_zero V) (s_add V) (s_scale V) (s_dt V) (p_table s') K n = v0.
Proof.
  intros m s s' E H V D DA DS x0. destruct (predictor_rows m s s' E) as [R L].
  destruct (set_method_same m s s' E) as [T [ET [Eo [_ [_ [_ [_ [_ Eq]]]]]]]].
  rewrite (Eq H) in *. rewrite Eo.
  exact (order_of_estimate V D DA DS x0 T (estimate_order m) R L (tables_estimate m T ET H)).
Qed.
Print Assumptions C31_estimate_partial.

(** On x' = x, x(0) = 1, HeunEuler reports order 2, yet its error estimate has the coefficient 1/2 at the
    second power of delta_t. *)
Theorem C31_estimate_refuted :
  exists s, new_predictor PHeunEuler = Some s /\ has_error_estimate (p_method s) = true /\ p_order s = 2%nat
  /\ est_coeff (p_table s) (series_step qself growth f1 (p_table s)) 2 = Some (qc 1 2).
Proof.
  eexists. split; [reflexivity|]. split; [reflexivity|]. split; [reflexivity|]. exact heun_euler_estimate.
Qed.
Print Assumptions C31_estimate_refuted.

(** Exactly the methods Heun and RKNorsett34, though listed with an order, cannot be selected, and an
    attempt leaves the predictor reporting the new method's order with the old method's table. *)
Theorem C31_selectable_refuted :
  (forall m s, snd (set_method m s) = true <-> m = PHeun \/ m = PRKNorsett34)
  /\ (forall m s, m = PHeun \/ m = PRKNorsett34 ->
        p_order (fst (set_method m s)) = order m /\ p_table (fst (set_method m s)) = p_table s)
  /\ exists s s1 b, new_predictor PEuler = Some s /\ set_method PRKNorsett34 s = (s1, b)
       /\ p_order s1 = 3%nat /\ ~ order_conditions (p_table s1) (b_at (p_table s1)) (p_order s1).
Proof.
  split; [|split].
  - intros m s. destruct m; cbn; split; intro H; try discriminate; try (destruct H; discriminate); auto.
  - intros m s [-> | ->]; split; reflexivity.
  - eexists. eexists. eexists. split; [reflexivity|]. split; [reflexivity|]. split; [reflexivity|].
    intro O. specialize (O (Node [Node []]) ltac:(cbn; lia)). apply feqb_eq in O. vm_compute in O. discriminate.
Qed.
Print Assumptions C31_selectable_refuted.

(** The codes: failure of the linear solve at the current point and at a later stage are told apart, and on
    success every stage is the right hand side at the point displaced by the earlier stages. *)
Theorem C31_codes :
  forall (X Tm : Type) (xzero : X) xadd xscale xdt (now : Tm) (tm : QcF -> Tm) rhs T (x : X),
  let step := full_step xzero xadd xscale xdt now tm rhs T x in
  (fst step = Success \/ fst step = MatrixSolveFailureFirstPartOfPrediction \/ fst step = MatrixSolveFailure)
  /\ (fst step = MatrixSolveFailureFirstPartOfPrediction <-> (1 <= stages T)%nat /\ rhs x now = None)
  /\ (fst step = Success <-> exists y K, step = (Success, Some (y, K)))
  /\ forall y K, step = (Success, Some (y, K)) ->
     length K = stages T
     /\ (forall i, (i < stages T)%nat -> nth_error K i =
           match i with
           | O => rhs x now
           | _ => rhs (xadd x (xdt (lin xadd xscale (a_at T i) 0 xzero (firstn i K)))) (tm (c_at T i))
           end)
     /\ (stages T = 0%nat -> y = x)
     /\ ((1 <= stages T)%nat -> y = xadd x (xdt (lin xadd xscale (b_at T) 0 xzero K))).
Proof.
  intros X Tm xzero xadd xscale xdt now tm rhs T x step.
  destruct (step_code xzero xadd xscale xdt now tm rhs T x) as [A [B C]].
  split; [exact A|]. split; [exact B|]. split; [exact C|].
  exact (step_success xzero xadd xscale xdt now tm rhs T x).
Qed.
Print Assumptions C31_codes.

(** Instances: RKF45 on x' = x from 1 gives the coefficients 1, 1, 1/2, 1/6, 1/24, 1/120 and then no longer
    1/720; its estimate vanishes up to the fourth power and not at the fifth. *)
Example C31_rkf45_growth :
  map (coeff (series_step qself growth f1 RKF45_table)) [0; 1; 2; 3; 4; 5; 6]%nat
  = [Some (qc 1 1); Some (qc 1 1); Some (qc 1 2); Some (qc 1 6); Some (qc 1 24); Some (qc 1 120); Some (qc 1 2080)]
  /\ map (est_coeff RKF45_table (series_step qself growth f1 RKF45_table)) [0; 1; 2; 3; 4; 5]%nat
  = [Some (qc 0 1); Some (qc 0 1); Some (qc 0 1); Some (qc 0 1); Some (qc 0 1); Some (qc (-1) 780)].
Proof. vm_compute. split; reflexivity. Qed.

(** growth meets the hypotheses of C31_order, and a predictor whose method was changed twice meets those on
    histories. *)
Example C31_hypotheses :
  (forall l1 (u v : prodmod qself) l2, growth (l1 ++ vadd u v :: l2) = vadd (growth (l1 ++ u :: l2)) (growth (l1 ++ v :: l2)))
  /\ (forall l1 a (u : prodmod qself) l2, growth (l1 ++ vscale a u :: l2) = vscale a (growth (l1 ++ u :: l2)))
  /\ (exists s s1 s2, new_predictor PRKVerner67 = Some s /\ set_method PRK4 s = (s1, false)
        /\ set_method PRKDormandPrince56 s1 = (s2, false) /\ p_order s2 = 5%nat).
Proof.
  split; [exact growth_add|]. split; [exact growth_scale|].
  eexists. eexists. eexists. split; [reflexivity|]. split; [reflexivity|]. split; reflexivity.
Qed.

(** RK4 on x' = 3 t^2 from t = 1 with step 2, start 5: 5 + 27 - 1 = 31. *)
Example C31_quadrature_rk4 :
  match quad_step QcF (fun q => q) unit (fun _ => [qc 0 1; qc 0 1; qc 0 1; qc 1 1]) (qc 1 1) (qc 2 1) RK4_table (fun _ => qc 5 1) with
  | (Success, Some (y, _)) => feqb (y tt) (qc 31 1)
  | _ => false
  end = true.
Proof. vm_compute. reflexivity. Qed.
