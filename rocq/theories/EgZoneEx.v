(** Runs for EgZone.v. *)
From Coq Require Import List ZArith Lia Reals Lra Bool Arith.
From Coquelicot Require Import Complex.
From Verif Require Import Base Poly ComplexField Newton Track StartIndex RKQuad Hermite Endgame EndgamePs EgSeries EgGeo AmpGrow EgZone.
Import ListNotations.
Local Open Scope R_scope.

(** Three samples, factor 1/2, no least time; two estimates with a ratio of at least 3/4, or a distance of 1/1000;
    the ratio test applies from distance 1/3 (squared) on. *)
Definition zone_cfg : config := mkConfig 3 (1/2) 0 (1/100) 1 100 (1/1000) (1/3) (3/4) 2 (1/2) 10 (1/100).
Definition stay (_ : nat) (_ _ : C) (x : vec) : code * vec := (Success, x).
(** The estimates 1, 1, 1000, 1, ... *)
Definition spike (i : nat) (_ : list vec) : R := if Nat.eqb i 2 then 1000 else 1.

Lemma not_below_zero : forall z, lt_b (Cmod z) 0 = false.
Proof. intro z. unfold lt_b. destruct (Rlt_dec _ _); [|reflexivity]. pose proof (Cmod_ge_0 z). lra. Qed.

Notation next_t := (cauchy_time zone_cfg (RtoC 0)).
Notation mid_t := (midpoint_time zone_cfg (RtoC 0)).

Lemma stay_advance : forall a b t x y z k n,
  advance zone_cfg (RtoC 0) stay (mkEst [a; b; t] [x; y; z] [] [] 0 [] k 0 n) =
  Ok (Success, mkEst [b; t; next_t t] [y; z; z] [] [] 0 [] (S k) 0 n).
Proof.
  intros. unfold advance. cbn [ps_t ps_x back rev app min_track_time zone_cfg]. rewrite not_below_zero. reflexivity.
Qed.

Lemma spike_over_k : forall a b t x y z k n,
  c_over_k spike (mkEst [a; b; t] [x; y; z] [] [] 0 [] k 0 n) =
  Ok (spike n [x; y; z], mkEst [a; b; t] [x; y; z] [] [] 0 [] k 0 (S n)).
Proof.
  intros. unfold c_over_k. cbn [ps_x length Nat.ltb Nat.leb nck]. unfold spike. destruct (Nat.eqb n 2).
  - destruct (Rlt_dec 1000 1); [lra|]. reflexivity.
  - destruct (Rlt_dec 1 1); [lra|]. reflexivity.
Qed.

Lemma spike_run : forall fuel x, exists s,
  get_into_zone zone_cfg (RtoC 0) stay spike fuel (RtoC 1) x empty = Ok (Success, s) /\ nck s = 3%nat /\
  exists t, back (ps_t s) = Some t /\ Cmod (t - RtoC 0)%C = 1/16.
Proof.
  intros fuel x. unfold get_into_zone.
  assert (I0 : initial_samples zone_cfg (RtoC 0) stay (RtoC 1) x empty =
    Ok (Success, mkEst [RtoC 1; mid_t (RtoC 1); mid_t (mid_t (RtoC 1))] [x; x; x] [] [] 0 [] 2 0 0)) by reflexivity.
  rewrite I0. cbv [when_ok bind is_success fst snd]. rewrite spike_over_k.
  cbn [num_needed zone_cfg zone_first]. cbv [when_ok bind is_success fst snd].
  rewrite stay_advance, spike_over_k, stay_advance, spike_over_k.
  cbn [spike Nat.eqb app].
  assert (St : stabilized zone_cfg [1; 1; 1000] = true).
  { unfold stabilized. cbn [num_needed zone_cfg firstn stable min_stabilization].
    destruct (Rlt_dec 1 1); [lra|]. destruct (Rlt_dec (1 / 1) (3 / 4)); [lra|]. reflexivity. }
  assert (Z : forall s t, back (ps_t s) = Some t ->
    zone_loop zone_cfg (RtoC 0) stay spike fuel [1; 1; 1000] s = Ok (Success, s)).
  { intros s t E. destruct fuel; cbn [zone_loop]; rewrite E, St; reflexivity. }
  eexists. split; [eapply Z; reflexivity|]. split; [reflexivity|].
  eexists. split; [reflexivity|]. unfold cauchy_time, midpoint_time. cbn [sample_factor zone_cfg].
  match goal with |- Cmod ?z = _ => replace z with (RtoC (1/16)) end.
  - rewrite Cmod_R, Rabs_right; lra.
  - apply injective_projections; cbn; lra.
Qed.

(** A circle around 0 through 1/2, with samples of norms 1, 100 and 1. *)
Definition uneven : est := mkEst [] [] [RtoC (1/2); RtoC (1/2); RtoC (1/2)] [[RtoC 1]; [RtoC 100]; [RtoC 1]] 0 [] 0 0 0.

Lemma linf_one : forall r, 0 <= r -> linf [RtoC r] = r.
Proof. intros r H. cbn [linf]. rewrite Cmod_R, Rabs_right by lra. apply Rmax_left. exact H. Qed.

Lemma half_dist : Cmod (RtoC (1/2) - RtoC 0)%C = 1/2.
Proof. rewrite <- RtoC_minus, Cmod_R, Rabs_right; lra. Qed.

Lemma uneven_accepted : ratio_test zone_cfg (RtoC 0) uneven = Ok true.
Proof.
  unfold ratio_test, uneven. cbn [ca_t front ratio_cutoff_time zone_cfg]. rewrite half_dist.
  unfold lt_b at 1. destruct (Rlt_dec (1 / 2 * (1 / 2)) (1 / 3)); [reflexivity|lra].
Qed.

(** With a smaller cutoff time the same samples are rejected. *)
Definition strict_cfg : config := mkConfig 3 (1/2) 0 (1/100) 1 100 (1/1000) (1/5) (3/4) 2 (1/2) 10 (1/100).
Lemma uneven_hyps : front (ca_t uneven) = Some (RtoC (1/2)) /\
  (num_sample_points strict_cfg <= length (ca_x uneven))%nat /\ (0 < num_sample_points strict_cfg)%nat /\
  0 <= final_tolerance strict_cfg /\
  (forall x, In x (firstn (num_sample_points strict_cfg) (ca_x uneven)) -> linf x < 10 ^ 300).
Proof.
  split; [reflexivity|]. split; [cbn; lia|]. split; [cbn; lia|]. split; [cbn; lra|].
  assert (B : 100 < 10 ^ 300).
  { apply Rlt_le_trans with (10 ^ 3); [lra|]. apply Rle_pow; [lra|lia]. }
  intros x. cbn [num_sample_points strict_cfg uneven ca_x firstn In].
  intros [<-|[<-|[<-|[]]]]; rewrite linf_one by lra; lra.
Qed.
Lemma uneven_rejected : ratio_test strict_cfg (RtoC 0) uneven = Ok false.
Proof.
  destruct uneven_hyps as (A & B & C1 & D & E).
  destruct (ratio_test_spec strict_cfg (RtoC 0) uneven (RtoC (1/2)) A B C1 D E) as [b [-> H]].
  f_equal. apply H. rewrite half_dist. cbn [ratio_cutoff_time strict_cfg]. split; [lra|].
  exists [RtoC 1], [RtoC 100]. cbn [num_sample_points strict_cfg uneven ca_x firstn In final_tolerance max_cauchy_ratio].
  rewrite !linf_one by lra.
  split; [tauto|]. split; [tauto|]. split; [|split; [lra|split; lra]].
  intros z [<-|[<-|[<-|[]]]]; rewrite !linf_one by lra; lra.
Qed.

(** A straight path t at the times at which AdvanceTime puts samples with factor 1/4: the estimate is above 4. *)
Definition line (q : R) (i : nat) : nat -> C := fun _ => RtoC (q ^ i).
Definition unit_rand (_ : nat) : C := RtoC 1.

Lemma line_path : forall q, 0 < q -> on_path 1 (fun _ => RtoC 0) (fun _ => RtoC 1) 1 1 q (line q 0) (line q 1) (line q 2).
Proof.
  intros q Hq j _. unfold line. rewrite !Rpower_1 by nra.
  split; [|split]; apply injective_projections; cbn; ring.
Qed.
Lemma line_pairing : pairing 1 unit_rand (fun _ => RtoC 1) <> RtoC 0.
Proof. unfold pairing, unit_rand. cbn. intro E. injection E. lra. Qed.

Lemma line_estimate : c_over_k_of 1 unit_rand (1/4) (line (3/4) 0) (line (3/4) 1) (line (3/4) 2)
                      = Num (ln (1/4) / ln (3/4)) /\ 4 < ln (1/4) / ln (3/4).
Proof.
  assert (L : 4 < ln (1/4) / ln (3/4)).
  { assert (N : ln (3/4) < 0) by (rewrite <- ln_1; apply ln_increasing; lra).
    assert (M : ln (1/4) < 4 * ln (3/4)).
    { replace (4 * ln (3/4)) with (ln ((3/4) ^ 4)) by (rewrite ln_pow by lra; cbn; ring). apply ln_increasing; lra. }
    replace (ln (1/4) / ln (3/4)) with ((- ln (1/4)) / (- ln (3/4))) by (field; lra).
    apply Rmult_lt_reg_r with (- ln (3/4)); [lra|]. unfold Rdiv. rewrite Rmult_assoc, Rinv_l by lra. lra. }
  split; [|exact L].
  rewrite (c_over_k_path 1 unit_rand (1/4) (fun _ => RtoC 0) (fun _ => RtoC 1) 1 1 (3/4));
    [|lra|lra|lra|lra|apply line_path; lra|exact line_pairing].
  f_equal. unfold Rdiv at 1. rewrite Rinv_1, Rmult_1_r. apply Rmax_right. lra.
Qed.
