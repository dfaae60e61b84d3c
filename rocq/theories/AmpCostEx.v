(** Consequences and instances of the cost minimisation of AmpCost.v. *)
From Coq Require Import List ZArith Lia Reals Lra Bool Arith.
From Verif Require Import Newton AmpCost.
Import ListNotations.
Local Open Scope Z_scope.

Lemma minimize_cheapest :
  forall digits_B iterations order max_stepsize pmin hmin pmax, 0 <= pmin -> 0 <= pmax ->
  let is_candidate p := (p = DoublePrecision /\ pmin <= DoublePrecision)
       \/ (round_precision pmin <= p <= round_precision pmax /\ exists k, p = PrecisionIncrement * k) in
  let step_for p := Rmin (stepsize_criterion_B p digits_B iterations order) max_stepsize in
  let cost p := (arithmetic_cost p / Rabs (step_for p))%R in
  ((forall p, ~ is_candidate p)
     /\ minimize digits_B iterations order max_stepsize pmin hmin pmax = (MaxPrecisionAllowed + 1, hmin))
  \/ exists p, minimize digits_B iterations order max_stepsize pmin hmin pmax = (p, step_for p)
       /\ is_candidate p /\ forall q, is_candidate q -> (cost p <= cost q)%R.
Proof.
  intros dB n o hmax pmin hmin pmax H1 H2. cbv zeta.
  destruct (minimize_spec dB n o hmax pmin hmin pmax) as [[T E]|[p [E [I M]]]].
  - left. split; [|exact E]. intros p Hp. apply (in_tested pmin pmax p H1 H2) in Hp. rewrite T in Hp. exact Hp.
  - right. exists p. split; [exact E|]. split; [exact (proj1 (in_tested pmin pmax p H1 H2) I)|].
    intros q Hq. exact (M q (proj2 (in_tested pmin pmax q H1 H2) Hq)).
Qed.

Lemma minimize_step_max : forall dB n o hmax pmin hmin pmax p h,
  minimize dB n o hmax pmin hmin pmax = (p, h) ->
  (h <= hmax)%R \/ (p = MaxPrecisionAllowed + 1 /\ h = hmin).
Proof.
  intros dB n o hmax pmin hmin pmax p h E.
  destruct (minimize_spec dB n o hmax pmin hmin pmax) as [[_ E']|[q [E' _]]]; rewrite E in E'; injection E' as -> ->.
  - right. split; reflexivity.
  - left. apply Rmin_r.
Qed.

Lemma minimize_value : forall dB n o hmax pmin hmin pmax p,
  0 <= o < 2 ^ 32 - 1 -> (0 < hmax <= 1)%R -> 0 <= pmin -> 0 <= pmax ->
  In p (tested pmin pmax) -> (forall q, In q (tested pmin pmax) -> p <= q) ->
  minimize dB n o hmax pmin hmin pmax = (p, hmax).
Proof.
  intros dB n o hmax pmin hmin pmax p H1 H2 H3 H4 I M.
  destruct (minimize_small_steps dB n o hmax pmin hmin pmax H1 H2 H3 H4) as [q [E [Iq Mq]]].
  { intro T. rewrite T in I. exact I. }
  rewrite E. f_equal. specialize (M q Iq). specialize (Mq p I). lia.
Qed.

Lemma minimize_out_of_range : fst (minimize 0 2 4 1 25 1 25) = 20 /\ fst (minimize 0 2 4 1 17 1 18) = 20.
Proof.
  split; rewrite (minimize_value 0 2 4 1 _ 1 _ 20); try reflexivity; try lia; try lra;
    try (vm_compute; left; reflexivity); intros q H; vm_compute in H; destruct H as [<-|[]]; apply Z.le_refl.
Qed.

Lemma tested_16_100 : In 16 (tested 16 100) /\ forall q, In q (tested 16 100) -> 16 <= q.
Proof.
  split; [left; reflexivity|]. intros q H.
  apply in_tested in H; [|lia|lia]. destruct H as [[-> _]|[[H _] _]]; [unfold DoublePrecision; lia|].
  unfold round_precision, LowestMultiplePrecision in H. cbn in H. lia.
Qed.

Lemma minimize_infeasible : minimize 30 2 1 1 16 1 100 = (16, 1%R) /\ (intended_stepsize_B 16 30 2 1 < 1)%R.
Proof.
  destruct tested_16_100 as [I M]. split.
  - apply minimize_value; try lia; try lra; assumption.
  - unfold intended_stepsize_B. apply Rlt_le_trans with (Rpower 10 0); [apply Rpower_lt; lra|rewrite Rpower_O by lra; lra].
Qed.

Lemma minimize_examples :
  minimize 10 2 4 1 16 (1/1000) 100 = (16, 1%R) /\ minimize 10 2 4 (1/2) 30 (1/1000) 100 = (30, (1/2)%R).
Proof.
  destruct tested_16_100 as [I M]. split; apply minimize_value; try lia; try lra; try assumption.
  - cbn. left. reflexivity.
  - intros q H. apply in_tested in H; [|lia|lia]. destruct H as [[_ H]|[[H _] _]].
    + unfold DoublePrecision in H. lia.
    + unfold round_precision, LowestMultiplePrecision in H. cbn in H. lia.
Qed.

(** Enough precision: the step size is the intended one rounded down to a power of ten. *)
Lemma stepsize_B_rounds : forall p dB n o,
  0 <= dB <= p -> p < 2 ^ 32 -> 0 <= n -> (p - dB) * n < 2 ^ 32 -> 0 <= o < 2 ^ 32 - 1 ->
  (stepsize_criterion_B p dB n o <= intended_stepsize_B p dB n o < 10 * stepsize_criterion_B p dB n o)%R
  /\ (((p - dB) * n) mod (o + 1) = 0 -> stepsize_criterion_B p dB n o = intended_stepsize_B p dB n o).
Proof.
  intros p dB n o H1 H2 H3 H4 H5. rewrite stepsize_B_enough_precision by assumption.
  unfold intended_stepsize_B.
  set (a := (p - dB) * n) in *. 
  assert (Ea : (- (IZR dB - IZR p) * IZR n / (IZR o + 1) = IZR a / IZR (o + 1))%R).
  { unfold a. rewrite mult_IZR, minus_IZR, plus_IZR. f_equal. ring. }
  rewrite Ea. assert (Ha : 0 <= a) by (unfold a; nia). clearbody a. clear Ea.
  assert (Po : (0 < IZR (o + 1))%R) by (apply (IZR_lt 0); lia).
  pose proof (Z.div_mod a (o + 1) ltac:(lia)) as D. pose proof (Z.mod_pos_bound a (o + 1) ltac:(lia)) as B.
  set (q := a / (o + 1)) in *. set (r := a mod (o + 1)) in *.
  assert (Eq : powerRZ 10 q = Rpower 10 (IZR q)). { rewrite powerRZ_Rpower by lra. reflexivity. }
  assert (Ex : (IZR a / IZR (o + 1) = IZR q + IZR r / IZR (o + 1))%R).
  { rewrite D. rewrite (plus_IZR _ r), mult_IZR. field. lra. }
  assert (Br : (0 <= IZR r / IZR (o + 1) < 1)%R).
  { assert (0 <= IZR r)%R by (apply (IZR_le 0); lia). assert (IZR r < IZR (o + 1))%R by (apply IZR_lt; lia). split.
    - apply Rmult_le_pos; [assumption|left; apply Rinv_0_lt_compat; exact Po].
    - apply Rmult_lt_reg_r with (IZR (o + 1)); [exact Po|]. unfold Rdiv. rewrite Rmult_assoc, Rinv_l by lra. lra. }
  rewrite Eq, Ex. split; [split|].
  - apply Rle_Rpower; lra.
  - replace (10 * Rpower 10 (IZR q))%R with (Rpower 10 (IZR q + 1)).
    + apply Rpower_lt; lra.
    + rewrite Rpower_plus, Rpower_1 by lra. ring.
  - intro Z0. rewrite Z0. f_equal. unfold Rdiv. rewrite Rmult_0_l. ring.
Qed.

Lemma stepsize_B_wrong : stepsize_criterion_B 16 30 2 1 <> intended_stepsize_B 16 30 2 1
  /\ (intended_stepsize_B 16 30 2 1 < 1 <= stepsize_criterion_B 16 30 2 1)%R.
Proof.
  assert (H : (intended_stepsize_B 16 30 2 1 < 1 <= stepsize_criterion_B 16 30 2 1)%R).
  { split; [exact (proj2 minimize_infeasible)|]. apply stepsize_B_at_least_one. lia. }
  split; [lra|exact H].
Qed.

Lemma stepsize_B_example : stepsize_criterion_B 30 20 2 4 = 10000%R /\ intended_stepsize_B 30 20 2 4 = 10000%R.
Proof.
  assert (E : stepsize_criterion_B 30 20 2 4 = 10000%R).
  { rewrite stepsize_B_enough_precision by lia. change ((30 - 20) * 2 / (4 + 1)) with 4. 
    unfold powerRZ. change (Pos.to_nat 4) with 4%nat. ring. }
  split; [exact E|]. rewrite <- E. symmetry.
  apply (proj2 (stepsize_B_rounds 30 20 2 4 ltac:(lia) ltac:(lia) ltac:(lia) ltac:(lia) ltac:(lia))). reflexivity.
Qed.
