(** The criteria of adaptive precision, the digits they ask for, and the bounds they use.
    Models core/include/bertini2/trackers/amp_criteria.hpp:49-209, core/include/bertini2/trackers/config.hpp:153-221,
    core/include/bertini2/trackers/amp_tracker.hpp:147-169 and 900-1003, core/src/system/system.cpp:932-966.
    Doubles and multiple precision numbers are exact real numbers with infinities and NaN: rounding, overflow
    and the sign of zero are left out. *)
From Coq Require Import List Bool ZArith Reals Lra Lia.
From Coquelicot Require Import Complex.
From Verif Require Import AmpCost.
Import ListNotations.
Local Open Scope R_scope.

(** ** Doubles *)
Inductive dbl := Fin (r : R) | PInf | NInf | NaN.
Definition dadd (a b : dbl) : dbl :=
  match a, b with
  | NaN, _ | _, NaN | PInf, NInf | NInf, PInf => NaN
  | PInf, _ | _, PInf => PInf
  | NInf, _ | _, NInf => NInf
  | Fin x, Fin y => Fin (x + y)
  end.
Definition dneg (a : dbl) : dbl := match a with Fin x => Fin (- x) | PInf => NInf | NInf => PInf | NaN => NaN end.
(** a double over an unsigned number *)
Definition ddivn (a : dbl) (n : nat) : dbl :=
  match a, n with
  | Fin x, O => if Rlt_dec 0 x then PInf else if Rlt_dec x 0 then NInf else NaN
  | Fin x, _ => Fin (x / INR n)
  | _, _ => a
  end.
Definition dlog10 (x : R) : dbl :=
  if Rlt_dec 0 x then Fin (ln x / ln 10) else if Req_EM_T x 0 then NInf else NaN.
(** [digits > rhs]; a comparison with NaN is false *)
Definition criterion (digits : Z) (rhs : dbl) : bool :=
  match rhs with
  | Fin r => if Rlt_dec r (IZR digits) then true else false
  | NInf => true
  | PInf | NaN => false
  end.
(** [std::max(rhs, 0.)], which is [(rhs < 0) ? 0 : rhs] *)
Definition dmax0 (a : dbl) : dbl := match a with Fin x => Fin (Rmax x 0) | NInf => Fin 0 | PInf => PInf | NaN => NaN end.
(** [unsigned(x)]: the fraction is dropped; [None]: the behaviour is undefined (not a number, or out of range) *)
Definition to_unsigned (a : dbl) : option Z :=
  match a with
  | Fin x => if (0 <=? Int_part x)%Z && (Int_part x <? 2 ^ 32)%Z then Some (Int_part x) else None
  | _ => None
  end.

(** ** The criteria *)
(** config.hpp:153-166: what the criteria use *)
Record amp_config := mkAmp { epsilon : R; Phi : R; Psi : R; safety1 : Z; safety2 : Z }.

(** CriterionARHS, amp_criteria.hpp:49-53 *)
Definition A_rhs (g : amp_config) (nJ nJi : R) : dbl :=
  dadd (Fin (IZR (safety1 g))) (dlog10 (nJi * epsilon g * (nJ + Phi g))).
(** CriterionA, amp_criteria.hpp:70-74 *)
Definition criterionA (digits : Z) g nJ nJi : bool := criterion digits (A_rhs g nJ nJi).
(** D, amp_criteria.hpp:87-91 *)
Definition D_term (g : amp_config) (nJ nJi : R) : dbl := dlog10 (nJi * ((2 + epsilon g) * nJ + epsilon g * Phi g) + 1).
(** CriterionBRHS, amp_criteria.hpp:107-111 *)
Definition B_rhs (g : amp_config) (nJ nJi : R) (remaining : nat) (tol res : R) : dbl :=
  dadd (dadd (Fin (IZR (safety1 g))) (D_term g nJ nJi)) (ddivn (dadd (dneg (dlog10 tol)) (dlog10 res)) remaining).
(** CriterionB, amp_criteria.hpp:131-140 *)
Definition criterionB (digits : Z) g nJ nJi remaining tol res : bool := criterion digits (B_rhs g nJ nJi remaining tol res).
(** CriterionCRHS, amp_criteria.hpp:158-165 and 181-188 *)
Definition C_rhs (g : amp_config) (nJi nz tol : R) : dbl :=
  dadd (dadd (Fin (IZR (safety2 g))) (dneg (dlog10 tol))) (dlog10 (nJi * Psi g + nz)).
(** CriterionC, amp_criteria.hpp:205-209 *)
Definition criterionC (digits : Z) g nJi nz tol : bool := criterion digits (C_rhs g nJi nz tol).

(** ** The digits the tracker asks for *)
(** B_RHS and DigitsB, amp_tracker.hpp:900-909 and 929-933; C_RHS and DigitsC, amp_tracker.hpp:942-949 and 966-970 *)
Definition digits_of (rhs : dbl) : option Z := to_unsigned (dmax0 rhs).
(** MinRequiredPrecision_BCTol, amp_tracker.hpp:996-1003 *)
Definition min_required (b c : dbl) (tol_digits : Z) : option Z :=
  match digits_of b, digits_of c with
  | Some db, Some dc => Some (Z.max (Z.max (Z.max db dc) tol_digits) DoublePrecision)
  | _, _ => None
  end.
(** MinDigitsForLogOfStepsize, amp_tracker.hpp:147-150, called with minus the logarithm of the step size
    (amp_tracker.hpp:165-166); a negative sum is taken to convert to zero *)
Definition ceiling (x : R) : Z := (- Int_part (- x))%Z.
Definition log10 (x : R) : R := ln x / ln 10.
Definition min_digits_for_stepsize (h togo : R) : Z :=
  Z.max 0 (ceiling (- log10 h) + ceiling (log10 (Rabs togo)) + 3).
(** MinDigitsForStepsizeInterval, amp_tracker.hpp:163-167 *)
Definition min_digits_for_interval (hmin hmax togo : R) : Z :=
  Z.max (min_digits_for_stepsize hmin togo) (min_digits_for_stepsize hmax togo).

(** ** Configuration *)
(** [uses = None]: epsilon, Phi and Psi have no value yet *)
Record full_config := mkFull { coefficient_bound : R; degree_bound : R; eps0 : option R; Phi0 : option R; Psi0 : option R;
                               s1 : Z; s2 : Z }.
(** config.hpp:213-214 *)
Definition default_config : full_config := mkFull 1000 5 None None None 1 1.
(** SetBoundsAndEpsilonFrom, config.hpp:185-192 *)
Definition set_bounds (nvars : nat) (deg : Z) (coeff : R) (c : full_config) : full_config :=
  mkFull coeff (IZR deg) (Some (INR nvars ^ 2)) (Phi0 c) (Psi0 c) (s1 c) (s2 c).
(** SetPhiPsiFromBounds, config.hpp:201-205 *)
Definition set_phi_psi (c : full_config) : full_config :=
  mkFull (coefficient_bound c) (degree_bound c) (eps0 c)
    (Some (degree_bound c * (degree_bound c - 1) * coefficient_bound c)) (Some (degree_bound c * coefficient_bound c)) (s1 c) (s2 c).
(** SetAMPConfigFrom, config.hpp:207-211; the constructor from a system, config.hpp:217-220 *)
Definition config_from (nvars : nat) (deg : Z) (coeff : R) : full_config :=
  set_phi_psi (set_bounds nvars deg coeff default_config).
(** what the criteria read; [None]: a value that was never set *)
Definition used (c : full_config) : option amp_config :=
  match eps0 c, Phi0 c, Psi0 c with
  | Some e, Some p, Some q => Some (mkAmp e p q (s1 c) (s2 c))
  | _, _, _ => None
  end.
(** the settings a user may change one by one (settings_parsers/tracking.hpp:558-585) *)
Inductive setting := SetCoefficientBound (r : R) | SetDegreeBound (r : R) | SetEpsilon (r : R) | SetPhi (r : R)
                   | SetPsi (r : R) | SetSafety1 (z : Z) | SetSafety2 (z : Z).
Definition put (c : full_config) (s : setting) : full_config :=
  match s with
  | SetCoefficientBound r => mkFull r (degree_bound c) (eps0 c) (Phi0 c) (Psi0 c) (s1 c) (s2 c)
  | SetDegreeBound r => mkFull (coefficient_bound c) r (eps0 c) (Phi0 c) (Psi0 c) (s1 c) (s2 c)
  | SetEpsilon r => mkFull (coefficient_bound c) (degree_bound c) (Some r) (Phi0 c) (Psi0 c) (s1 c) (s2 c)
  | SetPhi r => mkFull (coefficient_bound c) (degree_bound c) (eps0 c) (Some r) (Psi0 c) (s1 c) (s2 c)
  | SetPsi r => mkFull (coefficient_bound c) (degree_bound c) (eps0 c) (Phi0 c) (Some r) (s1 c) (s2 c)
  | SetSafety1 z => mkFull (coefficient_bound c) (degree_bound c) (eps0 c) (Phi0 c) (Psi0 c) z (s2 c)
  | SetSafety2 z => mkFull (coefficient_bound c) (degree_bound c) (eps0 c) (Phi0 c) (Psi0 c) (s1 c) z
  end.

(** DegreeBound, system.cpp:962-966; [None]: the largest element of an empty list is read *)
Definition system_degree_bound (degs : list Z) : option Z :=
  match degs with [] => None | d :: r => Some (fold_left Z.max r d) end.

(** ** Polynomials and the coefficient bound *)
(** a polynomial: coefficients with exponents *)
Definition poly := list (C * list nat).
Fixpoint Cpow (x : C) (n : nat) : C := match n with O => RtoC 1 | S k => Cmult x (Cpow x k) end.
Fixpoint monomial (e : list nat) (z : list C) : C :=
  match e, z with
  | n :: e', x :: z' => Cmult (Cpow x n) (monomial e' z')
  | _, _ => RtoC 1
  end.
Definition peval (f : poly) (z : list C) : C :=
  fold_right Cplus (RtoC 0) (map (fun t => Cmult (fst t) (monomial (snd t) z)) f).
Definition lower (j : nat) (e : list nat) : list nat := firstn j e ++ match skipn j e with n :: r => pred n :: r | [] => [] end.
Definition pderiv (j : nat) (f : poly) : poly := map (fun t => (Cmult (RtoC (INR (nth j (snd t) O))) (fst t), lower j (snd t))) f.

(** CoefficientBound, system.cpp:932-957: [draws] are the random points (a path variable is the last coordinate);
    the functions include the patch equations; [nv] variables to differentiate by.
    [fold_right] instead of the loops: the largest of the same numbers *)
Definition largest (l : list R) : R := fold_right Rmax 0 l.
Definition values (nv : nat) (fs : list poly) (u : list C) : list R :=
  flat_map (fun f => Cmod (peval f u) :: map (fun j => Cmod (peval (pderiv j f) u)) (seq 0 nv)) fs.
Definition system_coefficient_bound (nv : nat) (fs : list poly) (draws : list (list C)) : R :=
  largest (flat_map (values nv fs) draws).

Definition coefficient_sum (f : poly) : R := fold_right Rplus 0 (map (fun t => Cmod (fst t)) f).

(** ** Logarithms *)
Lemma ln10_pos : 0 < ln 10.
Proof. rewrite <- ln_1. apply ln_increasing; lra. Qed.

Lemma pow10_log x : 0 < x -> Rpower 10 (ln x / ln 10) = x.
Proof. intros H. unfold Rpower. replace (ln x / ln 10 * ln 10) with (ln x) by (field; pose proof ln10_pos; lra). now apply exp_ln. Qed.

Lemma pow10_lt a b : Rpower 10 a < Rpower 10 b <-> a < b.
Proof.
  split; intros H.
  - destruct (Rlt_dec a b) as [L|L]; [exact L|]. apply Rnot_lt_le in L. destruct (Rle_lt_or_eq_dec _ _ L) as [L'| ->]; [|lra].
    apply (Rpower_lt 10 b a) in L'; lra.
  - apply Rpower_lt; lra.
Qed.

Lemma pow10_pos a : 0 < Rpower 10 a.
Proof. unfold Rpower. apply exp_pos. Qed.

(** a sum of digits and a logarithm against a number of digits *)
Lemma criterion_product s x p : 0 <= x ->
  criterion p (dadd (Fin s) (dlog10 x)) = true <-> Rpower 10 s * x < Rpower 10 (IZR p).
Proof.
  intros Hx. unfold dlog10. destruct (Rlt_dec 0 x) as [P|P].
  - cbn [dadd criterion]. destruct (Rlt_dec (s + ln x / ln 10) (IZR p)) as [L|L].
    + split; [|reflexivity]. intros _. apply pow10_lt in L. rewrite Rpower_plus, pow10_log in L; assumption.
    + split; [discriminate|]. intros Q. exfalso. apply L. apply pow10_lt. now rewrite Rpower_plus, pow10_log.
  - assert (x = 0) as -> by lra. destruct (Req_EM_T 0 0) as [_|N]; [|now destruct N]. cbn [dadd criterion].
    split; [|reflexivity]. intros _. rewrite Rmult_0_r. apply pow10_pos.
Qed.

Lemma criterion_negative s x p : x < 0 -> criterion p (dadd (Fin s) (dlog10 x)) = false.
Proof.
  intros H. unfold dlog10. destruct (Rlt_dec 0 x); [lra|]. destruct (Req_EM_T x 0); [lra|]. reflexivity.
Qed.

Lemma A_product p g nJ nJi : 0 <= nJi * epsilon g * (nJ + Phi g) ->
  criterionA p g nJ nJi = true <->
  Rpower 10 (IZR (safety1 g)) * (nJi * epsilon g * (nJ + Phi g)) < Rpower 10 (IZR p).
Proof. apply criterion_product. Qed.

Lemma C_product p g nJi nz tol : 0 <= nJi * Psi g + nz -> 0 < tol ->
  criterionC p g nJi nz tol = true <->
  Rpower 10 (IZR (safety2 g)) * (nJi * Psi g + nz) < tol * Rpower 10 (IZR p).
Proof.
  intros H T. unfold criterionC, C_rhs.
  assert (E : dadd (Fin (IZR (safety2 g))) (dneg (dlog10 tol)) = Fin (IZR (safety2 g) + - (ln tol / ln 10))).
  { unfold dlog10. destruct (Rlt_dec 0 tol) as [_|N]; [reflexivity|lra]. }
  rewrite E.
  rewrite criterion_product by exact H. rewrite Rpower_plus, Rpower_Ropp, pow10_log by exact T.
  set (a := Rpower 10 (IZR (safety2 g))). set (b := Rpower 10 (IZR p)). set (x := nJi * Psi g + nz).
  replace (a * / tol * x) with ((a * x) / tol) by (field; lra). split; intros Q.
  - apply (Rmult_lt_compat_r tol) in Q; [|exact T]. unfold Rdiv in Q. rewrite Rmult_assoc, Rinv_l in Q by lra. lra.
  - apply (Rmult_lt_reg_r tol); [exact T|]. unfold Rdiv. rewrite Rmult_assoc, Rinv_l by lra. lra.
Qed.

Lemma B_product p g nJ nJi N tol res :
  0 <= nJi * ((2 + epsilon g) * nJ + epsilon g * Phi g) -> 0 < tol -> 0 < res -> (0 < N)%nat ->
  criterionB p g nJ nJi N tol res = true <->
  Rpower 10 (IZR (safety1 g)) * (nJi * ((2 + epsilon g) * nJ + epsilon g * Phi g) + 1) * Rpower (res / tol) (/ INR N)
    < Rpower 10 (IZR p).
Proof.
  intros H T Rs Np. unfold criterionB, B_rhs, D_term.
  assert (HN : 0 < INR N) by (apply lt_0_INR; exact Np).
  assert (E : ddivn (dadd (dneg (dlog10 tol)) (dlog10 res)) N = Fin (ln (res / tol) / ln 10 * / INR N)).
  { unfold dlog10. destruct (Rlt_dec 0 tol) as [_|]; [|lra]. destruct (Rlt_dec 0 res) as [_|]; [|lra]. cbn [dneg dadd ddivn].
    destruct N as [|N]; [lia|]. f_equal.
    assert (L : ln (res / tol) = ln res - ln tol)
      by (unfold Rdiv; rewrite ln_mult, ln_Rinv; [lra|exact T|exact Rs|now apply Rinv_0_lt_compat]).
    rewrite L. pose proof ln10_pos. field. split; lra. }
  rewrite E. set (x := nJi * _ + 1) in *. assert (Hx : 0 < x) by (unfold x; lra).
  unfold dlog10. destruct (Rlt_dec 0 x) as [_|]; [|lra]. cbn [dadd criterion].
  set (q := res / tol). assert (Hq : 0 < q) by (apply Rdiv_lt_0_compat; assumption).
  assert (Ep : Rpower 10 (IZR (safety1 g) + ln x / ln 10 + ln q / ln 10 * / INR N)
               = Rpower 10 (IZR (safety1 g)) * x * Rpower q (/ INR N)).
  { rewrite !Rpower_plus, pow10_log by exact Hx. f_equal. unfold Rpower. f_equal. pose proof ln10_pos. field. lra. }
  rewrite <- Ep. rewrite pow10_lt. destruct (Rlt_dec _ _); split; auto; discriminate.
Qed.

(** ** Digits *)
Lemma int_part_spec x : IZR (Int_part x) <= x < IZR (Int_part x) + 1.
Proof. destruct (base_Int_part x) as [A B]. lra. Qed.

Lemma int_part_le_Z z x : IZR z <= x -> (z <= Int_part x)%Z.
Proof.
  intros H. destruct (int_part_spec x) as [_ B]. apply Z.lt_succ_r. apply lt_IZR. rewrite succ_IZR. lra.
Qed.

Lemma digits_suffice rhs d p : digits_of rhs = Some d -> (d < p)%Z -> criterion p rhs = true.
Proof.
  unfold digits_of. destruct rhs as [r| | |]; cbn [dmax0 to_unsigned criterion]; try discriminate; [|reflexivity].
  intros H L. destruct (_ && _); [|discriminate]. assert (d = Int_part (Rmax r 0)) by congruence. subst d.
  destruct (Rlt_dec r (IZR p)) as [_|N]; [reflexivity|]. exfalso. apply N.
  destruct (int_part_spec (Rmax r 0)) as [_ B]. pose proof (Rmax_l r 0).
  apply Z.le_succ_l in L. apply IZR_le in L. rewrite succ_IZR in L. lra.
Qed.

Lemma digits_necessary r d p : 0 <= r -> digits_of (Fin r) = Some d -> (p <= d)%Z -> criterion p (Fin r) = false.
Proof.
  intros Hr. unfold digits_of. cbn [dmax0 to_unsigned criterion]. intros H L. destruct (_ && _); [|discriminate].
  assert (d = Int_part (Rmax r 0)) by congruence. subst d. rewrite (Rmax_left r 0) in L by exact Hr.
  destruct (Rlt_dec r (IZR p)) as [Q|_]; [|reflexivity]. exfalso. apply IZR_le in L.
  destruct (int_part_spec r). lra.
Qed.

Lemma int_part_unique x z : IZR z <= x < IZR z + 1 -> Int_part x = z.
Proof.
  intros [A B]. destruct (int_part_spec x) as [C D]. apply Z.le_antisymm.
  - apply Z.lt_succ_r. apply lt_IZR. rewrite succ_IZR. lra.
  - now apply int_part_le_Z.
Qed.

Lemma digits_small r : r < 0 -> digits_of (Fin r) = Some 0%Z.
Proof.
  intros H. unfold digits_of. cbn [dmax0 to_unsigned]. rewrite Rmax_right by lra.
  replace (Int_part 0) with 0%Z; [reflexivity|]. symmetry. apply int_part_unique. lra.
Qed.

Lemma min_required_spec b c t p : min_required b c t = Some p ->
  exists db dc, digits_of b = Some db /\ digits_of c = Some dc /\
    (db <= p /\ dc <= p /\ t <= p /\ DoublePrecision <= p)%Z /\ (p = db \/ p = dc \/ p = t \/ p = DoublePrecision).
Proof.
  unfold min_required. destruct (digits_of b) as [db|]; [|discriminate]. destruct (digits_of c) as [dc|]; [|discriminate].
  intros H. exists db, dc. split; [reflexivity|]. split; [reflexivity|].
  assert (p = Z.max (Z.max (Z.max db dc) t) DoublePrecision) by congruence. lia.
Qed.

(** ** Digits for a step size *)
Lemma ceiling_spec x : IZR (ceiling x) - 1 < x <= IZR (ceiling x).
Proof. unfold ceiling. rewrite opp_IZR. destruct (int_part_spec (- x)). lra. Qed.

Lemma powerRZ_Rpower z : powerRZ 10 z = Rpower 10 (IZR z).
Proof. apply powerRZ_Rpower. lra. Qed.

Lemma stepsize_digits_suffice h togo p : 0 < h -> 0 < togo -> (min_digits_for_stepsize h togo <= p)%Z ->
  (p <> DoublePrecision \/ powerRZ 10 (-150) <= h) -> min_step_for_precision p togo <= h.
Proof.
  intros Hh Ht Hp Hd.
  assert (Q : powerRZ 10 (3 - p) * togo <= h).
  { unfold min_digits_for_stepsize in Hp. rewrite Rabs_right in Hp by lra.
    assert (K : (ceiling (- log10 h) + ceiling (log10 togo) + 3 <= p)%Z) by lia. apply IZR_le in K.
    rewrite !plus_IZR in K. destruct (ceiling_spec (- log10 h)) as [_ A]. destruct (ceiling_spec (log10 togo)) as [_ B].
    rewrite powerRZ_Rpower, minus_IZR. rewrite <- (pow10_log togo Ht), <- (pow10_log h Hh), <- Rpower_plus.
    apply Rle_Rpower; [lra|]. unfold log10 in *. lra. }
  unfold min_step_for_precision. destruct (p =? DoublePrecision)%Z eqn:E; cbn [andb]; [|exact Q].
  destruct (Rlt_dec _ _); [|exact Q]. destruct Hd as [N|N]; [|exact N]. apply Z.eqb_eq in E. now destruct N.
Qed.

(** no more than two digits too many *)
Lemma stepsize_digits_tight h togo : 0 < h -> 0 < togo -> (0 < min_digits_for_stepsize h togo)%Z ->
  forall p, (p <= min_digits_for_stepsize h togo - 2)%Z -> h < min_step_for_precision p togo.
Proof.
  intros Hh Ht Hd p Hp.
  assert (Q : h < powerRZ 10 (3 - p) * togo).
  { unfold min_digits_for_stepsize in *. rewrite Rabs_right in * by lra.
    assert (K : (p + 2 <= ceiling (- log10 h) + ceiling (log10 togo) + 3)%Z) by lia. apply IZR_le in K.
    rewrite !plus_IZR in K. destruct (ceiling_spec (- log10 h)) as [A _]. destruct (ceiling_spec (log10 togo)) as [B _].
    rewrite powerRZ_Rpower, minus_IZR. rewrite <- (pow10_log togo Ht), <- (pow10_log h Hh) at 1. rewrite <- Rpower_plus.
    apply Rpower_lt; [lra|]. unfold log10 in *. lra. }
  unfold min_step_for_precision. destruct (p =? DoublePrecision)%Z; cbn [andb]; [|exact Q].
  destruct (Rlt_dec _ _); lra.
Qed.

(** ** Configuration *)
Lemma config_from_used nvars deg coeff : used (config_from nvars deg coeff) =
  Some (mkAmp (INR nvars ^ 2) (IZR deg * (IZR deg - 1) * coeff) (IZR deg * coeff) 1 1).
Proof. reflexivity. Qed.

Lemma degree_product d : (0 <= d)%Z -> 0 <= IZR d * (IZR d - 1).
Proof.
  intros H. rewrite <- (minus_IZR d 1), <- mult_IZR. apply IZR_le.
  destruct (Z.eq_dec d 0) as [->|N]; [lia|]. apply Z.mul_nonneg_nonneg; lia.
Qed.

Lemma degree_bound_spec degs : match system_degree_bound degs with
  | None => degs = []
  | Some d => In d degs /\ forall x, In x degs -> (x <= d)%Z
  end.
Proof.
  destruct degs as [|a r]; [reflexivity|]. cbn [system_degree_bound]. revert a.
  induction r as [|b r IH]; intros a; cbn [fold_left].
  - split; [now left|]. intros x [->|[]]. lia.
  - destruct (IH (Z.max a b)) as [A B]. split.
    + destruct A as [A|A]; [|right; right; exact A].
      destruct (Z.max_spec a b) as [[_ E]|[_ E]]; rewrite E in A at 1; [right; left|left]; exact A.
    + intros x [->|[->|H]].
      * etransitivity; [apply (Z.le_max_l x b)|]. apply B. now left.
      * etransitivity; [apply (Z.le_max_r a x)|]. apply B. now left.
      * apply B. now right.
Qed.

(** ** The coefficient bound *)
Lemma largest_nonneg l : 0 <= largest l.
Proof. induction l as [|x l IH]; cbn [largest fold_right]; [lra|]. eapply Rle_trans; [exact IH|apply Rmax_r]. Qed.

Lemma largest_le l M : 0 <= M -> (forall x, In x l -> x <= M) -> largest l <= M.
Proof.
  intros HM. induction l as [|x l IH]; cbn [largest fold_right]; intros H; [exact HM|].
  apply Rmax_lub; [apply H; now left|]. apply IH. intros y Hy. apply H. now right.
Qed.

Lemma largest_ge l x : In x l -> x <= largest l.
Proof.
  induction l as [|y l IH]; [intros []|]. cbn [largest fold_right]. intros [->|H]; [apply Rmax_l|].
  eapply Rle_trans; [now apply IH|apply Rmax_r].
Qed.

Definition unit_point (u : list C) : Prop := Forall (fun z => Cmod z = 1) u.

Lemma Cpow_unit z n : Cmod z = 1 -> Cmod (Cpow z n) = 1.
Proof.
  intros H. induction n as [|n IH]; cbn [Cpow]; [apply Cmod_1|]. rewrite Cmod_mult, H, IH. lra.
Qed.

Lemma monomial_unit e : forall u, unit_point u -> Cmod (monomial e u) = 1.
Proof.
  induction e as [|n e IH]; intros u H; cbn [monomial]; [apply Cmod_1|]. destruct u as [|z u]; [apply Cmod_1|].
  inversion H as [|? ? Hz Hu]. subst. rewrite Cmod_mult, (Cpow_unit z n Hz), (IH u Hu). lra.
Qed.

Lemma peval_unit f u : unit_point u -> Cmod (peval f u) <= coefficient_sum f.
Proof.
  intros H. unfold peval, coefficient_sum. induction f as [|[c e] f IH]; cbn [map fold_right fst snd].
  - rewrite Cmod_0. lra.
  - eapply Rle_trans; [apply Cmod_triangle|]. rewrite Cmod_mult, (monomial_unit e u H), Rmult_1_r. lra.
Qed.

Definition total (e : list nat) : nat := fold_right Nat.add O e.
Definition of_degree (d : nat) (f : poly) : Prop := Forall (fun t => (total (snd t) <= d)%nat) f.

Lemma nth_total e : forall j, (nth j e O <= total e)%nat.
Proof.
  induction e as [|n e IH]; intros [|j]; cbn [nth total fold_right]; try lia.
  specialize (IH j). unfold total in IH. lia.
Qed.

Lemma pderiv_sum j d f : of_degree d f -> coefficient_sum (pderiv j f) <= INR d * coefficient_sum f.
Proof.
  unfold coefficient_sum, pderiv. induction f as [|[c e] f IH]; intros H; cbn [map fold_right fst snd]; [lra|].
  inversion H as [|? ? He Hf]. subst. cbn [snd] in He. specialize (IH Hf).
  rewrite Cmod_mult, Cmod_R, Rabs_right by (apply Rle_ge, pos_INR).
  assert (INR (nth j e O) * Cmod c <= INR d * Cmod c).
  { apply Rmult_le_compat_r; [apply Cmod_ge_0|]. apply le_INR. pose proof (nth_total e j). lia. }
  lra.
Qed.

Lemma coefficient_sum_nonneg f : 0 <= coefficient_sum f.
Proof.
  unfold coefficient_sum. induction f as [|[c e] f IH]; cbn [map fold_right fst]; [lra|]. pose proof (Cmod_ge_0 c). lra.
Qed.

Lemma coefficient_bound_upper nv fs draws d M : Forall unit_point draws -> Forall (of_degree d) fs ->
  (forall f, In f fs -> coefficient_sum f <= M) -> 0 <= M ->
  0 <= system_coefficient_bound nv fs draws <= Rmax 1 (INR d) * M.
Proof.
  intros Hu Hd HM M0. split; [apply largest_nonneg|].
  pose proof (Rmax_l 1 (INR d)) as R1. pose proof (Rmax_r 1 (INR d)) as R2.
  apply largest_le; [apply Rmult_le_pos; lra|]. intros x Hx. apply in_flat_map in Hx. destruct Hx as [u [Iu Hx]].
  rewrite Forall_forall in Hu, Hd. specialize (Hu u Iu). unfold values in Hx. apply in_flat_map in Hx.
  destruct Hx as [f [If Hx]]. specialize (HM f If). specialize (Hd f If). pose proof (coefficient_sum_nonneg f) as S0.
  destruct Hx as [<-|Hx].
  - eapply Rle_trans; [now apply peval_unit|]. nra.
  - apply in_map_iff in Hx. destruct Hx as [j [<- _]]. eapply Rle_trans; [now apply peval_unit|].
    eapply Rle_trans; [now apply (pderiv_sum j d)|]. pose proof (pos_INR d). nra.
Qed.
