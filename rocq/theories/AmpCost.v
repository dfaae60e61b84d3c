(** The free functions of core/include/bertini2/trackers/amp_tracker.hpp with which the adaptive
    precision tracker chooses precision and step size.  Real arithmetic is exact. *)
From Coq Require Import List ZArith Lia Reals Lra Bool Arith.
From Verif Require Import Newton.
Import ListNotations.
Local Open Scope Z_scope.

(** num_traits.hpp:124-146. *)
Definition DoublePrecision : Z := 16.
Definition LowestMultiplePrecision : Z := 20.
Definition PrecisionIncrement : Z := 10.
Definition MaxPrecisionAllowed : Z := 1000.

(** StepsizeSatisfyingCriterionB, amp_tracker.hpp:129-136.  All four arguments are "unsigned", so the
    exponent [-(digits_B - precision)*num_newton_iterations/(predictor_order+1)] is computed in
    unsigned arithmetic: it is never negative, and the division truncates. *)
Definition criterion_B_exponent (precision digits_B newton_iterations order : Z) : Z :=
  wrap32 (wrap32 (- wrap32 (digits_B - precision)) * newton_iterations) / wrap32 (order + 1).
Definition stepsize_criterion_B (precision digits_B newton_iterations order : Z) : R :=
  powerRZ 10 (criterion_B_exponent precision digits_B newton_iterations order).

(** What the comment and the name say, for comparison: the real number
    10^(-(digits_B - precision) * iterations / (order + 1)). *)
Definition intended_stepsize_B (precision digits_B newton_iterations order : Z) : R :=
  Rpower 10 (- (IZR digits_B - IZR precision) * IZR newton_iterations / (IZR order + 1)).

(** ArithmeticCost, amp_tracker.hpp:105-112. *)
Definition arithmetic_cost (p : Z) : R :=
  if p =? DoublePrecision then 1%R else (1035 / 100 + 13 / 100 * IZR p)%R.

(** MinTimeForCurrentPrecision / MinStepSizeForPrecision with safety_digits = 3,
    amp_tracker.hpp:66-89. *)
Definition min_step_for_precision (p : Z) (togo : R) : R :=
  let t := (powerRZ 10 (3 - p) * togo)%R in
  if (p =? DoublePrecision) && (if Rlt_dec t (powerRZ 10 (-150)) then true else false)
  then powerRZ 10 (-150) else t.

Section Minimize.
Variables (digits_B newton_iterations order : Z) (max_stepsize : R).

(** the candidate step size for precision p, and its cost per unit advance
    (amp_tracker.hpp:207-210; conversion of the step size to double is taken to be exact) *)
Definition candidate (p : Z) : R := Rmin (stepsize_criterion_B p digits_B newton_iterations order) max_stepsize.
Definition unit_cost (p : Z) : R := (arithmetic_cost p / Rabs (candidate p))%R.

(** minimizer_routine, amp_tracker.hpp:204-218: keep the cheapest seen so far; None stands for the
    initial values (min_cost the largest double, new_precision MaxPrecisionAllowed()+1). *)
Definition consider (best : option Z) (p : Z) : option Z :=
  match best with
  | None => Some p
  | Some q => if Rlt_dec (unit_cost p) (unit_cost q) then Some p else Some q
  end.

(** rounding down to a multiple of the increment, amp_tracker.hpp:226-235 *)
Definition round_precision (p : Z) : Z :=
  if p <? LowestMultiplePrecision then LowestMultiplePrecision
  else p / PrecisionIncrement * PrecisionIncrement.

(** the precisions tested, in order: amp_tracker.hpp:220-238 *)
Definition tested (min_precision max_precision : Z) : list Z :=
  (if min_precision <=? DoublePrecision then [DoublePrecision] else [])
  ++ let lo := round_precision min_precision in
     let hi := round_precision max_precision in
     if lo <=? hi
     then map (fun k => lo + PrecisionIncrement * Z.of_nat k) (seq 0 (S (Z.to_nat ((hi - lo) / PrecisionIncrement))))
     else [].

(** MinimizeTrackingCost, amp_tracker.hpp:192-239: new_precision and new_stepsize. *)
Definition minimize (min_precision : Z) (min_stepsize : R) (max_precision : Z) : Z * R :=
  match fold_left consider (tested min_precision max_precision) None with
  | None => (MaxPrecisionAllowed + 1, min_stepsize)
  | Some p => (p, candidate p)
  end.

(* ------------------------------------------------------------------ properties *)

Lemma fold_consider_some : forall l q, exists p,
  fold_left consider l (Some q) = Some p /\ In p (q :: l)
  /\ (forall r, In r (q :: l) -> (unit_cost p <= unit_cost r)%R).
Proof.
  induction l as [|a l IH]; intro q; cbn [fold_left].
  - exists q. split; [reflexivity|]. split; [left; reflexivity|]. intros r [<-|[]]. lra.
  - cbn [consider]. destruct (Rlt_dec (unit_cost a) (unit_cost q)) as [L|L].
    + destruct (IH a) as [p [E [I M]]]. exists p. split; [exact E|]. split; [cbn in *; tauto|].
      intros r [<-|[<-|Hr]].
      * apply Rle_trans with (unit_cost a); [apply M; left; reflexivity|lra].
      * apply M; left; reflexivity.
      * apply M; right; exact Hr.
    + destruct (IH q) as [p [E [I M]]]. exists p. split; [exact E|]. split; [cbn in *; tauto|].
      intros r [<-|[<-|Hr]].
      * apply M; left; reflexivity.
      * apply Rle_trans with (unit_cost q); [apply M; left; reflexivity|lra].
      * apply M; right; exact Hr.
Qed.

(** The choice is the cheapest of those tested; if none is tested, the impossible precision and the
    minimum step size come back. *)
Lemma minimize_spec : forall pmin hmin pmax,
  (tested pmin pmax = [] /\ minimize pmin hmin pmax = (MaxPrecisionAllowed + 1, hmin))
  \/ exists p, minimize pmin hmin pmax = (p, candidate p) /\ In p (tested pmin pmax)
               /\ forall q, In q (tested pmin pmax) -> (unit_cost p <= unit_cost q)%R.
Proof.
  intros pmin hmin pmax. unfold minimize. destruct (tested pmin pmax) as [|q l] eqn:T.
  - left. split; reflexivity.
  - right. cbn [fold_left consider]. destruct (fold_consider_some l q) as [p [E [I M]]]. rewrite E.
    exists p. split; [reflexivity|]. split; [exact I|exact M].
Qed.

Lemma round_precision_spec : forall p, 0 <= p ->
  LowestMultiplePrecision <= round_precision p /\ (exists k, round_precision p = PrecisionIncrement * k)
  /\ (LowestMultiplePrecision <= p -> p - PrecisionIncrement < round_precision p <= p).
Proof.
  intros p Hp. unfold round_precision, LowestMultiplePrecision, PrecisionIncrement.
  destruct (Z.ltb_spec p 20).
  - split; [lia|]. split; [exists 2; lia|lia].
  - pose proof (Z.div_mod p 10 ltac:(lia)) as D. pose proof (Z.mod_pos_bound p 10 ltac:(lia)) as B.
    assert (2 <= p / 10) by (apply Z.div_le_lower_bound; lia).
    split; [lia|]. split; [exists (p / 10); lia|lia].
Qed.

Lemma in_tested : forall pmin pmax q, 0 <= pmin -> 0 <= pmax ->
  (In q (tested pmin pmax) <->
   (q = DoublePrecision /\ pmin <= DoublePrecision)
   \/ (round_precision pmin <= q <= round_precision pmax /\ exists k, q = PrecisionIncrement * k)).
Proof.
  intros pmin pmax q H1 H2. unfold tested. rewrite in_app_iff.
  assert (A : In q (if pmin <=? DoublePrecision then [DoublePrecision] else [])
              <-> q = DoublePrecision /\ pmin <= DoublePrecision).
  { destruct (Z.leb_spec pmin DoublePrecision); cbn; split; intro X.
    - destruct X as [<-|[]]; split; [reflexivity|assumption].
    - left; symmetry; apply X.
    - contradiction.
    - destruct X; lia. }
  rewrite A. cbv zeta.
  destruct (round_precision_spec pmin H1) as [L1 [[k1 K1] _]].
  destruct (round_precision_spec pmax H2) as [L2 [[k2 K2] _]].
  unfold PrecisionIncrement, LowestMultiplePrecision in *.
  destruct (Z.leb_spec (round_precision pmin) (round_precision pmax)).
  - rewrite in_map_iff. split.
    + intros [X|[k [<- Hk]]]; [left; exact X|right].
      apply in_seq in Hk. assert (D : (round_precision pmax - round_precision pmin) / 10 = k2 - k1).
      { rewrite K1, K2. replace (10 * k2 - 10 * k1) with ((k2 - k1) * 10) by ring. apply Z.div_mul. lia. }
      rewrite D in Hk. split; [lia|]. exists (k1 + Z.of_nat k). lia.
    + intros [X|[B [k ->]]]; [left; exact X|right].
      exists (Z.to_nat (k - k1)). split; [lia|]. apply in_seq.
      assert (D : (round_precision pmax - round_precision pmin) / 10 = k2 - k1).
      { rewrite K1, K2. replace (10 * k2 - 10 * k1) with ((k2 - k1) * 10) by ring. apply Z.div_mul. lia. }
      rewrite D. lia.
  - split; [intros [X|[]]; left; exact X|]. intros [X|[B _]]; [left; exact X|lia].
Qed.

(** The exponent is never negative: whatever the arguments, the step size is at least 1. *)
Lemma stepsize_B_at_least_one : forall p dB n o, 0 <= o < 2 ^ 32 - 1 -> (1 <= stepsize_criterion_B p dB n o)%R.
Proof.
  intros p dB n o Ho. unfold stepsize_criterion_B.
  assert (E : 0 <= criterion_B_exponent p dB n o).
  { unfold criterion_B_exponent. apply Z.div_pos; [apply Z.mod_pos_bound; lia|].
    unfold wrap32. rewrite Z.mod_small; lia. }
  destruct (criterion_B_exponent p dB n o) as [|q|q]; [cbn; lra| |lia].
  cbn. apply pow_R1_Rle. lra.
Qed.

(** When the precision suffices and nothing overflows, the exponent is the truncated quotient. *)
Lemma stepsize_B_enough_precision : forall p dB n o,
  0 <= dB <= p -> p < 2 ^ 32 -> 0 <= n -> (p - dB) * n < 2 ^ 32 -> 0 <= o < 2 ^ 32 - 1 ->
  stepsize_criterion_B p dB n o = powerRZ 10 ((p - dB) * n / (o + 1)).
Proof.
  intros p dB n o H1 H2 H3 H4 H5. unfold stepsize_criterion_B, criterion_B_exponent. f_equal.
  assert (W : wrap32 (- wrap32 (dB - p)) = p - dB).
  { unfold wrap32. replace (- ((dB - p) mod 2 ^ 32)) with (0 - (dB - p) mod 2 ^ 32) by ring.
    rewrite Zminus_mod_idemp_r. rewrite Z.mod_small; lia. }
  rewrite W. unfold wrap32. rewrite !Z.mod_small by lia. reflexivity.
Qed.

(** When the precision does not suffice, the exponent is an enormous positive number instead of a
    negative one. *)
Lemma stepsize_B_too_little_precision : forall p dB n o,
  0 <= p < dB -> dB < 2 ^ 32 -> 0 < n -> (dB - p) * n < 2 ^ 32 -> 0 <= o < 2 ^ 32 - 1 ->
  stepsize_criterion_B p dB n o = powerRZ 10 ((2 ^ 32 - (dB - p) * n) / (o + 1)).
Proof.
  intros p dB n o H1 H2 H3 H4 H5. unfold stepsize_criterion_B, criterion_B_exponent. f_equal.
  assert (W : wrap32 (wrap32 (- wrap32 (dB - p)) * n) = 2 ^ 32 - (dB - p) * n).
  { unfold wrap32. rewrite (Z.mod_small (dB - p)) by nia. rewrite Z.mul_mod_idemp_l by lia.
    replace (- (dB - p) * n) with ((2 ^ 32 - (dB - p) * n) + (-1) * 2 ^ 32) by ring.
    rewrite Z.mod_add by lia. apply Z.mod_small. nia. }
  rewrite W. unfold wrap32. rewrite (Z.mod_small (o + 1)) by lia. reflexivity.
Qed.

(** The cost of arithmetic grows with the precision. *)
Lemma arithmetic_cost_increasing : forall p q, DoublePrecision <= p < q ->
  (0 < arithmetic_cost p < arithmetic_cost q)%R.
Proof.
  intros p q H. unfold arithmetic_cost, DoublePrecision in *.
  assert (0 < IZR p)%R by (apply IZR_lt; lia). assert (IZR p < IZR q)%R by (apply IZR_lt; lia).
  destruct (Z.eqb_spec p 16); destruct (Z.eqb_spec q 16); try lia; lra.
Qed.

(** With a maximal step size of at most 1 every candidate is that maximal step size, so the lowest
    precision tested is chosen. *)
Lemma minimize_small_steps : forall pmin hmin pmax, 0 <= order < 2 ^ 32 - 1 -> (0 < max_stepsize <= 1)%R ->
  0 <= pmin -> 0 <= pmax -> tested pmin pmax <> [] ->
  exists p, minimize pmin hmin pmax = (p, max_stepsize) /\ In p (tested pmin pmax)
            /\ forall q, In q (tested pmin pmax) -> p <= q.
Proof.
  intros pmin hmin pmax Ho Hm H1 H2 Ne.
  assert (Cd : forall p, candidate p = max_stepsize).
  { intro p. unfold candidate. apply Rmin_right.
    pose proof (stepsize_B_at_least_one p digits_B newton_iterations order Ho). lra. }
  destruct (minimize_spec pmin hmin pmax) as [[T _]|[p [E [I M]]]]; [contradiction|].
  exists p. rewrite Cd in E. split; [exact E|]. split; [exact I|]. intros q Hq.
  destruct (Z_le_gt_dec p q) as [L|L]; [exact L|]. exfalso. specialize (M q Hq).
  assert (Bq : DoublePrecision <= q).
  { apply in_tested in Hq; [|assumption|assumption]. unfold DoublePrecision in *.
    destruct Hq as [[-> _]|[Bq _]]; [lia|]. destruct (round_precision_spec pmin H1) as [L1 _].
    unfold LowestMultiplePrecision in L1. lia. }
  pose proof (arithmetic_cost_increasing q p ltac:(lia)) as [C1 C2].
  unfold unit_cost in M. rewrite !Cd in M. rewrite Rabs_pos_eq in M by lra.
  unfold Rdiv in M. apply Rmult_le_reg_r in M; [lra|]. apply Rinv_0_lt_compat. lra.
Qed.

(** The interval of precisions is respected when its ends are legal precisions: double precision or a
    multiple of the increment which is at least the lowest multiple precision. *)
Lemma minimize_in_range : forall pmin hmin pmax p h, 0 <= pmin <= pmax ->
  (pmin <= DoublePrecision \/ LowestMultiplePrecision <= pmin /\ pmin mod PrecisionIncrement = 0) ->
  LowestMultiplePrecision <= pmax -> minimize pmin hmin pmax = (p, h) -> pmin <= p <= pmax.
Proof.
  intros pmin hmin pmax p h H1 H2 H3 E.
  destruct (round_precision_spec pmin ltac:(lia)) as [L1 [_ R1]].
  destruct (round_precision_spec pmax ltac:(lia)) as [L2 [_ R2]]. specialize (R2 H3).
  unfold PrecisionIncrement, LowestMultiplePrecision, DoublePrecision in *.
  assert (Rm : pmin <= round_precision pmin /\ round_precision pmin <= round_precision pmax).
  { unfold round_precision, PrecisionIncrement, LowestMultiplePrecision.
    destruct H2 as [H2|[H2 M2]].
    - destruct (Z.ltb_spec pmin 20); [|lia]. split; [lia|]. destruct (Z.ltb_spec pmax 20); [lia|].
      assert (2 <= pmax / 10) by (apply Z.div_le_lower_bound; lia). lia.
    - destruct (Z.ltb_spec pmin 20); [lia|]. destruct (Z.ltb_spec pmax 20); [lia|].
      assert (pmin / 10 <= pmax / 10) by (apply Z.div_le_mono; lia).
      pose proof (Z.div_mod pmin 10 ltac:(lia)). lia. }
  destruct (minimize_spec pmin hmin pmax) as [[T _]|[p' [E' [I _]]]].
  - exfalso. assert (X : In (round_precision pmin) (tested pmin pmax)).
    { apply in_tested; [lia|lia|]. right. split; [lia|]. apply round_precision_spec. lia. }
    rewrite T in X. exact X.
  - rewrite E' in E. injection E as <- _. apply in_tested in I; [|lia|lia].
    unfold DoublePrecision in *. destruct I as [[-> B]|[B _]]; lia.
Qed.
End Minimize.
