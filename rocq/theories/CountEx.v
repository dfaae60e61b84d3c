(** Runs of the adaptive precision tracker for Count.v. *)
From Coq Require Import List ZArith Lia Reals Lra Bool Arith.
From Coquelicot Require Import Complex.
From Verif Require Import Newton Track AmpCost Amp TrackEx Count.
Import ListNotations.
Local Open Scope R_scope.

(** Steps of a quarter; precision may drop once, after one success. *)
Definition quarter : stepping := mkStepping (1/4) 1 (1/100) 2 (1/2) 5 1 100.
Definition easy_amp : amp_config := mkAmp 300 1 1 2 4 6 11.

Lemma quarter_first : first_step quarter true 0 1 0 = 1/4.
Proof.
  unfold first_step. cbn [min_num_steps quarter Nat.eqb initial_step_size].
  rewrite (togo_real 1) by lra. cbn [INR]. apply Rmin_left. lra.
Qed.

Lemma minimize_low : forall h hm hi, 0 < h <= 1 -> (16 <= hi)%Z -> minimize 0 2 4 h 16 hm hi = (16%Z, h).
Proof.
  intros h hm hi Hh Hi. destruct (minimize_small_steps 0 2 4 h 16 hm hi ltac:(lia) Hh ltac:(lia) ltac:(lia)) as [p [E [I M]]].
  { apply tested_nonempty. lia. }
  assert (I16 : In 16%Z (tested 16 hi)).
  { apply in_tested; [lia|lia|]. left. unfold DoublePrecision. lia. }
  specialize (M _ I16). apply in_tested in I; [|lia|lia]. unfold DoublePrecision in I.
  destruct I as [[-> _]|[[I _] _]]; [exact E|].
  destruct (round_precision_spec 16 ltac:(lia)) as [R _]. unfold LowestMultiplePrecision in R. lia.
Qed.

Lemma minimize_only : forall h hm, 0 < h <= 1 -> minimize 0 2 4 h 30 hm 30 = (30%Z, h).
Proof.
  intros h hm Hh. destruct (minimize_small_steps 0 2 4 h 30 hm 30 ltac:(lia) Hh ltac:(lia) ltac:(lia)) as [p [E [I M]]].
  { apply tested_nonempty. lia. }
  destruct I as [<-|[]]. exact E.
Qed.

Lemma quarter_turn : forall n t x d ns nf cs cf si p sd nd, 1/4 <= t -> (ns < 100)%nat -> (si < 5)%nat ->
  (p = 30%Z /\ (sd <? 1) || (1 <=? nd) = true)%nat \/ (16 <= p <= 300)%Z /\ ((sd <? 1) || (1 <=? nd))%nat = false ->
  turn 0 tiny_eps true never (amp_pre quarter easy_amp)
    (amp_iterate quarter easy_amp 0 keep succeed no_digits no_digits no_interval same) amp_on_fail n
    (mkSt (RtoC t) x (1/4) d ns nf cs cf si p sd nd) =
  Go (let q := if (sd <? 1) || (1 <=? nd) then p else 16%Z in
      let lower := (q <? p)%Z in
      mkSt (RtoC (t - 1/4)) (S x) (1/4) (RtoC (-(1/4))) (S ns) nf (S cs) 0
           (if lower then 0 else S si) q (if lower then 0 else S sd) (if lower then S nd else nd))%nat.
Proof.
  intros n t x d ns nf cs cf si p sd nd Ht Hns Hsi Hp. unfold turn. cbn [time prec step].
  rewrite close_real by (unfold tiny_eps; lra).
  unfold amp_pre. cbn [max_num_steps quarter nsucc step min_step_size prec maximum_precision easy_amp].
  destruct (Nat.leb_spec 100 ns); [lia|]. destruct (Rlt_dec (1/4) (1/100)); [lra|].
  destruct (Z.ltb_spec 300 p); [lia|]. cbn [is_success].
  rewrite next_delta_real by lra. rewrite Rmin_left by lra.
  unfold amp_iterate, keep, succeed. cbn [is_success never andb space set_space set_delta].
  match goal with |- context [adjust_success ?c ?a ?b ?e ?f ?m ?s] =>
    assert (E : adjust_success c a b e f m s =
      (let q := if (sd <? 1) || (1 <=? nd) then p else 16%Z in
       let lower := (q <? p)%Z in
       mkSt (RtoC t) (S x) (1/4) (RtoC (-(1/4))) ns nf cs cf
           (if lower then 0 else S si) q (if lower then 0 else S sd) (if lower then S nd else nd))%nat) end.
  { unfold adjust_success. cbv zeta.
    cbn [set_space set_delta time space step delta nsucc nfail csucc cfail since_inc prec since_decr ndecr
         consecutive_before_increase quarter consecutive_before_decrease max_num_decreases easy_amp newton_its predictor_order
         digits_tolerance].
    unfold no_digits, DoublePrecision. destruct (Nat.ltb_spec si 5); [|lia].
    change (Z.max (Z.max 0 0) (Z.max 6 16)) with 16%Z.
    assert (Nl : forall P0 : Prop, (if Rlt_dec (1/4) (1/4) then true else false) = false) by (intros; destruct (Rlt_dec _ _); [lra|reflexivity]).
    destruct Hp as [[-> B]|[Hp B]]; rewrite B.
    - change (Z.max 16 30) with 30%Z. rewrite minimize_only by lra. rewrite (Nl True).
      change ((30 <? 30)%Z) with false. cbn [orb]. reflexivity.
    - rewrite minimize_low by (try lra; lia). rewrite (Nl True). cbn [orb].
      unfold update, change_precision. cbn [set_step prec time space step delta nsucc nfail csucc cfail since_inc since_decr ndecr].
      destruct (Z.eqb_spec 16 p) as [Q|Q]; [rewrite <- Q|]; reflexivity. }
  rewrite E. cbv zeta. unfold on_success. cbn [time space step delta nsucc nfail csucc cfail since_inc prec since_decr ndecr].
  do 2 f_equal. rewrite <- RtoC_plus. f_equal. 
Qed.

(** From 30 digits: one step at 30 digits, then one that lowers the precision. *)
Lemma quarter_run : exists a b c,
  fst (amp_track quarter easy_amp 0 tiny_eps true never keep succeed no_digits no_digits no_interval same refined
         2 true 0 30 1 0%nat) = [a; b; c]
  /\ time a = 1 /\ prec a = 30%Z /\ time b = RtoC (1 - 1/4) /\ prec b = 30%Z /\ time c = RtoC (1 - 1/4 - 1/4) /\ prec c = 16%Z.
Proof.
  unfold amp_track. unfold initial_refinement, refine_stored, refined. cbn [is_success space].
  unfold set_space. cbn [time step delta nsucc nfail csucc cfail since_inc prec since_decr ndecr].
  cbn [is_success]. rewrite quarter_first. cbn [run].
  rewrite quarter_turn; [|lra|lia|lia|left; split; reflexivity].
  change ((0 <? 1)%nat || (1 <=? 0)%nat) with true. cbv zeta iota. change (30 <? 30)%Z with false. cbv iota.
  rewrite quarter_turn; [|lra|lia|lia|right; split; [lia|reflexivity]].
  change ((1 <? 1)%nat || (1 <=? 0)%nat) with false. cbv zeta iota. change (16 <? 30)%Z with true. cbv iota.
  cbn [fst]. eexists. eexists. eexists. split; [reflexivity|]. repeat split.
Qed.

(** Two failures in a row raise the precision by one and then by two increments. *)
Lemma no_tangent_turn : forall n x d ns nf cs cf si p sd nd, (ns < 100)%nat -> (16 < p <= 300)%Z ->
  turn 0 tiny_eps true never (amp_pre quarter easy_amp)
    (amp_iterate quarter easy_amp 0 no_tangent succeed no_digits no_digits no_interval same) amp_on_fail n
    (mkSt (RtoC 1) x (1/4) d ns nf cs cf si p sd nd) =
  Go (mkSt (RtoC 1) x (1/4) (RtoC (-(1/4))) ns (S nf) 0 (S cf) 0 (p + (1 + Z.of_nat cf) * 10)%Z 0 nd).
Proof.
  intros n x d ns nf cs cf si p sd nd Hns Hp. unfold turn. cbn [time prec step].
  rewrite close_real by (unfold tiny_eps; lra).
  unfold amp_pre. cbn [max_num_steps quarter nsucc step min_step_size prec maximum_precision easy_amp].
  destruct (Nat.leb_spec 100 ns); [lia|]. destruct (Rlt_dec (1/4) (1/100)); [lra|].
  destruct (Z.ltb_spec 300 p); [lia|]. cbn [is_success].
  rewrite next_delta_real by lra. rewrite Rmin_left by lra.
  unfold amp_iterate, no_tangent, initial_matrix_solve_error, update, change_precision.
  cbn [set_delta set_step prec cfail step]. unfold DoublePrecision, PrecisionIncrement.
  destruct (Z.eqb_spec p 16); [lia|]. destruct (Z.eqb_spec (p + (1 + Z.of_nat cf) * 10) p); [lia|].
  cbn [is_success never andb]. reflexivity.
Qed.

Lemma no_tangent_run : exists a b c,
  fst (amp_track quarter easy_amp 0 tiny_eps true never no_tangent succeed no_digits no_digits no_interval same refined
         2 true 0 30 1 0%nat) = [a; b; c]
  /\ time a = 1 /\ time b = 1 /\ prec a = 30%Z /\ prec b = 40%Z /\ prec c = 60%Z.
Proof.
  unfold amp_track. unfold initial_refinement, refine_stored, refined. cbn [is_success space].
  unfold set_space. cbn [time step delta nsucc nfail csucc cfail since_inc prec since_decr ndecr].
  cbn [is_success]. rewrite quarter_first. cbn [run].
  rewrite no_tangent_turn by lia. rewrite no_tangent_turn by (try lia; cbn; lia).
  cbn [fst]. eexists. eexists. eexists. split; [reflexivity|]. repeat split.
Qed.

(** A start point that can only be refined with 30 digits. *)
Definition fussy (k : nat) (x : nat) (_ : C) : code * nat :=
  match k with 0 | 1 => (FailedToConverge, 7%nat) | _ => (Success, S x) end.
Lemma fussy_run : exists s,
  fst (amp_track quarter easy_amp 0 tiny_eps true never keep succeed no_digits no_digits no_interval same fussy
         0 true 0 16 1 0%nat) = [s] /\ space s = 1%nat /\ prec s = 30%Z.
Proof. eexists. split; [reflexivity|]. split; reflexivity. Qed.
