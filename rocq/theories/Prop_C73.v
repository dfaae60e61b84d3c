(** C73: the precision criteria say what they should, and the precision and bounds derived for them fit. *)
From Coq Require Import List Bool ZArith Reals Lra Lia.
From Coquelicot Require Import Complex.
From Verif Require Import AmpCost AmpCriteria.
Import ListNotations.
Local Open Scope R_scope.

(** Criterion A holds with [p] digits exactly if the condition number times the error bounds, with the safety digits,
    is below 10^p; B likewise with the residual over the tolerance spread over the remaining iterations; C with the
    evaluation error and the size of the point relative to the tolerance. *)
Theorem C73_criteria : forall g p nJ nJi N tol res nz, 0 < tol -> 0 < res -> (0 < N)%nat -> 0 <= nz ->
  0 <= nJ -> 0 <= nJi -> 0 <= epsilon g -> 0 <= Phi g -> 0 <= Psi g ->
  (criterionA p g nJ nJi = true <->
     Rpower 10 (IZR (safety1 g)) * (nJi * epsilon g * (nJ + Phi g)) < Rpower 10 (IZR p)) /\
  (criterionB p g nJ nJi N tol res = true <->
     Rpower 10 (IZR (safety1 g)) * (nJi * ((2 + epsilon g) * nJ + epsilon g * Phi g) + 1) * Rpower (res / tol) (/ INR N)
     < Rpower 10 (IZR p)) /\
  (criterionC p g nJi nz tol = true <->
     Rpower 10 (IZR (safety2 g)) * (nJi * Psi g + nz) < tol * Rpower 10 (IZR p)).
Proof.
  intros g p nJ nJi N tol res nz T Rs Np Hz HJ HJi He Hp Hq. split; [|split].
  - apply A_product. apply Rmult_le_pos; [now apply Rmult_le_pos|lra].
  - apply B_product; try assumption. apply Rmult_le_pos; [exact HJi|].
    apply Rplus_le_le_0_compat; apply Rmult_le_pos; lra.
  - apply C_product; [|exact T]. pose proof (Rmult_le_pos _ _ HJi Hq). lra.
Qed.
Print Assumptions C73_criteria.

(** More digits never violate a criterion that held. *)
Theorem C73_more_digits : forall g p q nJ nJi N tol res nz, (p <= q)%Z ->
  (criterionA p g nJ nJi = true -> criterionA q g nJ nJi = true) /\
  (criterionB p g nJ nJi N tol res = true -> criterionB q g nJ nJi N tol res = true) /\
  (criterionC p g nJi nz tol = true -> criterionC q g nJi nz tol = true).
Proof.
  intros g p q nJ nJi N tol res nz L.
  assert (M : forall d, criterion p d = true -> criterion q d = true).
  { intros [r| | |]; cbn [criterion]; try (intros; assumption). apply IZR_le in L.
    destruct (Rlt_dec r (IZR p)); [|discriminate]. destruct (Rlt_dec r (IZR q)); [reflexivity|lra]. }
  unfold criterionA, criterionB, criterionC. auto.
Qed.
Print Assumptions C73_more_digits.

(** The precision the tracker computes as required: one digit more always satisfies B and C at the state it was
    computed from, *)
Theorem C73_required_partial : forall g nJ nJi N tol res nz t p,
  min_required (B_rhs g nJ nJi N tol res) (C_rhs g nJi nz tol) t = Some p -> forall q, (p < q)%Z ->
  criterionB q g nJ nJi N tol res = true /\ criterionC q g nJi nz tol = true.
Proof.
  intros g nJ nJi N tol res nz t p H q L. destruct (min_required_spec _ _ _ _ H) as (db & dc & Eb & Ec & I & _).
  split; [apply (digits_suffice _ db)|apply (digits_suffice _ dc)]; try assumption; lia.
Qed.
Print Assumptions C73_required_partial.

(** but the required precision itself does not: the fraction is dropped and the criteria are strict, so whenever a
    criterion determines the required precision, it is violated with exactly that precision. *)
Theorem C73_required_refuted : forall g nJ nJi N tol res nz t p r,
  min_required (B_rhs g nJ nJi N tol res) (C_rhs g nJi nz tol) t = Some p -> 0 <= r ->
  (B_rhs g nJ nJi N tol res = Fin r -> digits_of (Fin r) = Some p -> criterionB p g nJ nJi N tol res = false) /\
  (C_rhs g nJi nz tol = Fin r -> digits_of (Fin r) = Some p -> criterionC p g nJi nz tol = false).
Proof.
  intros g nJ nJi N tol res nz t p r _ Hr. unfold criterionB, criterionC.
  split; intros -> Hd; apply (digits_necessary r p p Hr Hd); lia.
Qed.
Print Assumptions C73_required_refuted.

(** The digits computed for an interval of step sizes make every step size in it representable: it is at least the
    smallest step of that precision (double precision has another limit, 1e-150); and they are at most two too many. *)
Theorem C73_stepsize : forall hmin hmax togo h p, 0 < hmin -> hmin <= h <= hmax -> 0 < togo ->
  (min_digits_for_interval hmin hmax togo <= p)%Z -> (p <> DoublePrecision \/ powerRZ 10 (-150) <= hmin) ->
  min_step_for_precision p togo <= h.
Proof.
  intros hmin hmax togo h p Hm [Hh _] Ht Hp Hd. apply Rle_trans with hmin; [|exact Hh].
  apply stepsize_digits_suffice; try assumption. unfold min_digits_for_interval in Hp. lia.
Qed.
Print Assumptions C73_stepsize.
Theorem C73_stepsize_tight : forall h togo p, 0 < h -> 0 < togo -> (0 < min_digits_for_stepsize h togo)%Z ->
  (p <= min_digits_for_stepsize h togo - 2)%Z -> h < min_step_for_precision p togo.
Proof. intros. now apply stepsize_digits_tight. Qed.
Print Assumptions C73_stepsize_tight.

(** A configuration made from a polynomial system: epsilon is the square of the number of variables, Phi and Psi are
    D(D-1)B and DB; none is negative, and no right hand side is undefined. *)
Theorem C73_config_partial : forall nvars degs D B, system_degree_bound degs = Some D -> (forall d, In d degs -> (0 <= d)%Z) ->
  0 <= B -> exists g, used (config_from nvars D B) = Some g /\
    epsilon g = INR nvars ^ 2 /\ Phi g = IZR D * (IZR D - 1) * B /\ Psi g = IZR D * B /\
    In D degs /\ (forall d, In d degs -> (d <= D)%Z) /\
    0 <= epsilon g /\ 0 <= Phi g /\ 0 <= Psi g /\
    forall nJ nJi N tol res nz, 0 <= nJ -> 0 <= nJi -> 0 < tol -> 0 <= res -> 0 <= nz -> (0 < N)%nat ->
      A_rhs g nJ nJi <> NaN /\ B_rhs g nJ nJi N tol res <> NaN /\ C_rhs g nJi nz tol <> NaN.
Proof.
  intros nvars degs D B HD Hd HB. pose proof (degree_bound_spec degs) as S. rewrite HD in S. destruct S as [S1 S2].
  eexists. split; [apply config_from_used|]. cbn [epsilon Phi Psi].
  assert (D0 : 0 <= IZR D) by (apply IZR_le; auto).
  assert (E : 0 <= INR nvars ^ 2) by (apply pow_le, pos_INR).
  assert (P : 0 <= IZR D * (IZR D - 1) * B) by (apply Rmult_le_pos; [apply degree_product; auto|exact HB]).
  assert (Q : 0 <= IZR D * B) by now apply Rmult_le_pos.
  repeat (split; [first [reflexivity|assumption]|]).
  intros nJ nJi N tol res nz HJ HJi T Hr Hz HN.
  set (g := mkAmp _ _ _ _ _).
  assert (L : forall x, 0 <= x -> dlog10 x = NInf \/ exists r, dlog10 x = Fin r).
  { intros x Hx. unfold dlog10. destruct (Rlt_dec 0 x); [right; eauto|]. destruct (Req_EM_T x 0); [now left|lra]. }
  assert (LT : exists r, dlog10 tol = Fin r) by (unfold dlog10; destruct (Rlt_dec 0 tol); [eauto|lra]).
  destruct LT as [lt LT]. split; [|split].
  - unfold A_rhs. destruct (L (nJi * epsilon g * (nJ + Phi g))) as [->|[r ->]]; try discriminate.
    cbn [g epsilon Phi]. apply Rmult_le_pos; [now apply Rmult_le_pos|lra].
  - unfold B_rhs, D_term. rewrite LT.
    assert (K : exists r, dlog10 (nJi * ((2 + epsilon g) * nJ + epsilon g * Phi g) + 1) = Fin r).
    { unfold dlog10. destruct (Rlt_dec _ _) as [|Nx]; [eauto|]. exfalso. apply Nx. cbn [g epsilon Phi].
      assert (0 <= nJi * ((2 + INR nvars ^ 2) * nJ + INR nvars ^ 2 * (IZR D * (IZR D - 1) * B))); [|lra].
      apply Rmult_le_pos; [exact HJi|]. apply Rplus_le_le_0_compat; apply Rmult_le_pos; lra. }
    destruct K as [r ->]. destruct N as [|N]; [lia|].
    destruct (L res Hr) as [->|[q ->]]; discriminate.
  - unfold C_rhs. rewrite LT. destruct (L (nJi * Psi g + nz)) as [->|[r ->]]; try discriminate.
    cbn [g Psi]. pose proof (Rmult_le_pos _ _ HJi Q). lra.
Qed.
Print Assumptions C73_config_partial.

(** Of a system of functions that are not polynomials (degree -1) the function evaluation error bound is negative, and
    criterion C then fails with every number of digits as soon as the inverse of the Jacobian is large. *)
Theorem C73_nonpolynomial_refuted : forall nvars degs B nJi nz tol, degs <> [] -> Forall (fun d => d = (-1)%Z) degs ->
  nz < nJi * B -> exists D g, system_degree_bound degs = Some D /\ used (config_from nvars D B) = Some g /\
    Psi g = - B /\ forall p, criterionC p g nJi nz tol = false.
Proof.
  intros nvars degs B nJi nz tol Hn Hd Hb. pose proof (degree_bound_spec degs) as S.
  destruct (system_degree_bound degs) as [D|] eqn:E; [|now destruct Hn]. destruct S as [S _].
  rewrite Forall_forall in Hd. assert (D = (-1)%Z) as -> by now apply Hd.
  eexists _, _. split; [reflexivity|]. split; [apply config_from_used|]. cbn [Psi]. split; [lra|]. intros p.
  unfold criterionC, C_rhs. cbn [Psi safety2].
  assert (X : dlog10 (nJi * (-1 * B) + nz) = NaN).
  { unfold dlog10. destruct (Rlt_dec _ _); [lra|]. destruct (Req_EM_T _ _); [lra|reflexivity]. }
  rewrite X. unfold dlog10. destruct (Rlt_dec 0 tol); [reflexivity|]. destruct (Req_EM_T tol 0); reflexivity.
Qed.
Print Assumptions C73_nonpolynomial_refuted.

(** Two more ways in which the bounds do not reach the criteria: a configuration that was not made from a system has no
    values for epsilon, Phi and Psi unless all three are set, whatever else is; and setting the coefficient and degree
    bounds, documented as bounds for adaptive precision, changes nothing the criteria use. *)
Theorem C73_user_bounds_refuted :
  (forall l, (forall r, ~ In (SetPsi r) l) -> used (fold_left put l default_config) = None) /\
  (forall c b d, used (put (put c (SetCoefficientBound b)) (SetDegreeBound d)) = used c).
Proof.
  split.
  - intros l H. assert (G : forall l c, (forall r, ~ In (SetPsi r) l) -> Psi0 c = None -> Psi0 (fold_left put l c) = None).
    { clear. induction l as [|s l IH]; intros c H Hc; [exact Hc|]. cbn [fold_left]. apply IH.
      - intros r Hr. apply (H r). now right.
      - destruct s; cbn [put Psi0]; try exact Hc. exfalso. apply (H r). now left. }
    unfold used. rewrite (G l default_config H eq_refl). destruct (eps0 (fold_left put l default_config)), (Phi0 (fold_left put l default_config)); reflexivity.
  - intros c b d. reflexivity.
Qed.
Print Assumptions C73_user_bounds_refuted.

(** The coefficient bound of a polynomial system is at most the largest sum of absolute values of the coefficients of
    a function, times its degree, whatever random points are drawn, *)
Theorem C73_coefficients_partial : forall nv fs draws d M, Forall unit_point draws -> Forall (of_degree d) fs ->
  (forall f, In f fs -> coefficient_sum f <= M) -> 0 <= M ->
  0 <= system_coefficient_bound nv fs draws <= Rmax 1 (INR d) * M.
Proof. exact coefficient_bound_upper. Qed.
Print Assumptions C73_coefficients_partial.

(** but it is not the upper bound on the coefficients it is documented to be: for 4 x^3 - 6 x^2 + 2 and the point (1,1)
    it is zero. *)
Definition flat_at_one : poly :=
  [(RtoC 4, [3; 0]%nat); (RtoC (-6), [2; 0]%nat); (RtoC 2, [0; 0]%nat)].
Theorem C73_coefficients_refuted : exists nv f u c, unit_point u /\ In c (map fst f) /\
  system_coefficient_bound nv [f] [u] < Cmod c.
Proof.
  exists 2%nat, flat_at_one, [RtoC 1; RtoC 1], (RtoC (-6)). split; [|split].
  - repeat constructor; apply Cmod_1.
  - cbn. auto.
  - apply Rle_lt_trans with 0.
    + apply largest_le; [lra|]. intros x Hx. cbn [flat_map values app map seq] in Hx.
      assert (Z : forall z : C, z = RtoC 0 -> Cmod z <= 0) by (intros z ->; rewrite Cmod_0; lra).
      destruct Hx as [<-|[<-|[<-|[]]]]; apply Z; unfold peval, pderiv, flat_at_one;
        cbn [map fold_right fst snd monomial Cpow nth lower firstn skipn app pred INR]; apply injective_projections; cbn; ring.
    + rewrite Cmod_R, Rabs_left by lra. lra.
Qed.
Print Assumptions C73_coefficients_refuted.

(** the required precision of a concrete state: 20 digits, determined by criterion B, which then is violated *)
Definition example_config := mkAmp 1 6 9 1 0.
Example C73_example_A : criterionA 16 example_config 1 1 = true.
Proof.
  apply A_product; cbn [epsilon Phi example_config safety1]; [lra|].
  apply Rlt_le_trans with (Rpower 10 2).
  - replace 2 with (1 + 1) by lra. rewrite Rpower_plus, Rpower_1 by lra. lra.
  - apply Rle_Rpower; lra.
Qed.
Example C73_example_required : exists r, B_rhs example_config 1 1 1 (powerRZ 10 (-18)) 1 = Fin r /\ r = 20 /\
  min_required (Fin r) (C_rhs example_config 1 1 (powerRZ 10 (-18))) 18 = Some 20%Z /\
  digits_of (Fin r) = Some 20%Z /\ criterionB 20 example_config 1 1 1 (powerRZ 10 (-18)) 1 = false.
Proof.
  assert (L10 := ln10_pos).
  assert (T : 0 < powerRZ 10 (-18)) by (apply powerRZ_lt; lra).
  assert (LT : dlog10 (powerRZ 10 (-18)) = Fin (-18)).
  { unfold dlog10. destruct (Rlt_dec _ _) as [_|N]; [|lra]. f_equal.
    rewrite powerRZ_Rpower. unfold Rpower. rewrite ln_exp. field. lra. }
  assert (L1 : dlog10 1 = Fin 0) by (unfold dlog10; destruct (Rlt_dec _ _); [f_equal; rewrite ln_1; field; lra|lra]).
  assert (LL : dlog10 10 = Fin 1) by (unfold dlog10; destruct (Rlt_dec _ _); [f_equal; field; lra|lra]).
  assert (E : B_rhs example_config 1 1 1 (powerRZ 10 (-18)) 1 = Fin 20).
  { unfold B_rhs, D_term, example_config. cbn [epsilon Phi safety1]. rewrite LT, L1.
    replace (1 * ((2 + 1) * 1 + 1 * 6) + 1) with 10 by lra. rewrite LL. cbn [dneg dadd ddivn INR]. f_equal. field. }
  assert (F : C_rhs example_config 1 1 (powerRZ 10 (-18)) = Fin 19).
  { unfold C_rhs, example_config. cbn [Psi safety2]. rewrite LT. replace (1 * 9 + 1) with 10 by lra. rewrite LL.
    cbn [dneg dadd]. f_equal. ring. }
  assert (D : forall z, (0 <= z < 100)%Z -> digits_of (Fin (IZR z)) = Some z).
  { intros z Hz. unfold digits_of. cbn [dmax0 to_unsigned]. rewrite Rmax_left by (apply IZR_le; lia).
    rewrite (int_part_unique (IZR z) z) by lra. destruct (0 <=? z)%Z eqn:A; [|apply Z.leb_gt in A; lia].
    destruct (z <? 2 ^ 32)%Z eqn:B; [reflexivity|]. apply Z.ltb_ge in B. lia. }
  exists 20. split; [exact E|]. split; [reflexivity|]. split; [|split].
  - rewrite F. unfold min_required. rewrite (D 20%Z), (D 19%Z) by lia. reflexivity.
  - apply (D 20%Z). lia.
  - unfold criterionB. rewrite E. apply (digits_necessary 20 20 20); [lra|apply (D 20%Z); lia|lia].
Qed.
(** step sizes between 1/1000 and 1/10 with time 1 to go: six digits *)
Example C73_example_stepsize : (0 < min_digits_for_stepsize (/ 1000) 1 <= 7)%Z.
Proof.
  assert (L10 := ln10_pos).
  assert (L : - log10 (/ 1000) = 3).
  { unfold log10. rewrite ln_Rinv by lra. replace 1000 with (10 * (10 * 10)) by lra. rewrite !ln_mult by lra. field. lra. }
  assert (L1 : log10 (Rabs 1) = 0) by (unfold log10; rewrite Rabs_R1, ln_1; field; lra).
  unfold min_digits_for_stepsize. rewrite L, L1.
  destruct (ceiling_spec 3) as [A B]. destruct (ceiling_spec 0) as [A' B'].
  assert (ceiling 3 = 3%Z) by (apply Z.le_antisymm; [apply Z.lt_succ_r|]; (apply lt_IZR || apply le_IZR); rewrite ?succ_IZR; lra).
  assert (ceiling 0 = 0%Z) by (apply Z.le_antisymm; [apply Z.lt_succ_r|]; (apply lt_IZR || apply le_IZR); rewrite ?succ_IZR; lra).
  lia.
Qed.
