(** The mean over the loops of the Cauchy endgame: sums over roots of unity, and a run in which the
    tracker follows a path given by polynomials in the c-th root of the distance to the target. *)
From Coq Require Import List ZArith Lia Reals Lra Bool Arith Ring Field.
From Coquelicot Require Import Complex.
From Verif Require Import Base Poly ComplexField Newton Endgame EndgameProof EndgamePs EndgameEx.
Import ListNotations.

(** ** Sums over roots of unity, in any field *)
Section Sums.
Variable F : fld.
Add Field Ffield : (@f_th F).
Local Open Scope fld_scope.
Variables (N : nat) (w rho : F).
Hypothesis wN : fpow w N = 1.
Hypothesis wj : forall j, (0 < j < N)%nat -> fpow w j <> 1.

Lemma geometric : forall (x : F) m, (x - 1) * fsum (map (fun k => fpow x k) (seq 0 m)) = fpow x m - 1.
Proof.
  intros x m. induction m as [|m IH]; [cbn; ring|].
  rewrite seq_S, map_app, fsum_app. cbn [map fsum plus fpow].
  transitivity ((x - 1) * fsum (map (fun k => fpow x k) (seq 0 m)) + (x - 1) * fpow x m); [ring|]. rewrite IH. ring.
Qed.

Lemma power_sum : forall j, (0 < j < N)%nat -> fsum (map (fun k => fpow w (k * j)) (seq 0 N)) = 0.
Proof.
  intros j Hj. pose proof (geometric (fpow w j) N) as G.
  assert (E : fpow (fpow w j) N = 1).
  { rewrite <- fpow_mul, Nat.mul_comm, fpow_mul, wN. apply fpow_1_l. }
  rewrite E in G. replace (1 - 1 : F) with (0 : F) in G by ring.
  assert (Z : fpow w j - 1 <> 0).
  { intro Z. apply (wj j Hj). transitivity (fpow w j - 1 + 1); [ring|]. rewrite Z. ring. }
  rewrite (map_ext (fun k => fpow w (k * j)) (fun k => fpow (fpow w j) k)).
  - set (S := fsum _) in *.
    transitivity (finv (fpow w j - 1) * ((fpow w j - 1) * S)); [field; exact Z|]. rewrite G. ring.
  - intro k. rewrite Nat.mul_comm, fpow_mul. reflexivity.
Qed.

(** the sum of x^j q(x) over the points x = rho w^k *)
Lemma sum_shifted : forall q j, (1 <= j)%nat -> (j + length q <= N)%nat ->
  fsum (map (fun k => fpow (rho * fpow w k) j * peval q (rho * fpow w k)) (seq 0 N)) = 0.
Proof.
  induction q as [|a q IH]; intros j Hj Hl; cbn [peval length] in *.
  - rewrite (map_ext _ (fun _ => 0)) by (intro; ring). apply fsum_map_0.
  - rewrite (map_ext _ (fun k => a * fpow rho j * fpow w (k * j) +
                                 fpow (rho * fpow w k) (S j) * peval q (rho * fpow w k))).
    + rewrite fsum_map_add, (IH (S j)) by lia.
      rewrite (fsum_map_mul nat (a * fpow rho j) (fun k => fpow w (k * j))), power_sum by lia. ring.
    + intro k. cbn [fpow]. rewrite fpow_mul, fpow_mul_base. ring.
Qed.

Lemma fsum_const : forall (a : F) (A : Type) (l : list A), fsum (map (fun _ => a) l) = fnat (length l) * a.
Proof. intros a A l. induction l as [|b l IH]; cbn [map fsum length fnat]; [ring|]. rewrite IH. ring. Qed.

Lemma mean_exact : forall q, (length q <= N)%nat -> (0 < N)%nat ->
  fsum (map (fun k => peval q (rho * fpow w k)) (seq 0 N)) = fnat N * peval q 0.
Proof.
  intros [|a q] Hl HN; cbn [peval length] in *.
  - rewrite fsum_map_0. ring.
  - rewrite (map_ext _ (fun k => a + fpow (rho * fpow w k) 1 * peval q (rho * fpow w k))) by (intro k; cbn [fpow]; ring).
    rewrite fsum_map_add, sum_shifted by lia. rewrite fsum_const, seq_length. ring.
Qed.

(** without any bound on the degree: the terms of degree 0, N, 2N, ... survive *)
End Sums.

Local Open Scope R_scope.

Lemma fnat_C : forall n, @fnat CF n = RtoC (INR n).
Proof.
  induction n as [|n IH]; [reflexivity|]. cbn [fnat]. rewrite IH, S_INR. cbn. rewrite <- RtoC_plus'. f_equal. ring.
Qed.

Lemma acos_m1 : acos (-1) = PI.
Proof. replace (-1) with (- (1)) by ring. rewrite acos_opp, acos_1. ring. Qed.

Section Follow.
Variable cfg : config.
Variable target : C.
Notation n := (num_sample_points cfg).
Hypothesis n3 : (3 <= n)%nat.
Variable c : nat.
Hypothesis c1 : (1 <= c)%nat.
Variable rho : C.
Variable p : list (list C).                      (* one polynomial for each coordinate *)

Definition omega : CF := cis (2 * PI / INR (c * n)).
Notation N := (c * n)%nat.

(** the value of the local parameter after k steps around the target, the time and the point there *)
Definition local (k : nat) : CF := fmul (rho : CF) (fpow omega k).
Definition time_at (k : nat) : C := (target + fpow (local k) c)%C.
Definition point (k : nat) : vec := map (fun q => @peval CF q (local k)) p.

Lemma omega_N : fpow omega N = f1.
Proof.
  unfold omega. rewrite cis_pow. replace (INR N * (2 * PI / INR N)) with (INR 1 * (2 * PI)).
  - apply cis_2npi.
  - cbn [INR]. field. apply not_0_INR. nia.
Qed.

Lemma omega_j : forall j, (0 < j < N)%nat -> fpow omega j <> f1.
Proof.
  intros j Hj E. unfold omega in E. rewrite cis_pow in E. rewrite <- cis_0 in E.
  assert (HN : 0 < INR N) by (apply lt_0_INR; lia).
  pose proof PI_RGT_0 as HPI.
  assert (B : 0 < INR j * (2 * PI / INR N) < 2 * PI).
  { assert (0 < INR j) by (apply lt_0_INR; lia). assert (INR j < INR N) by (apply lt_INR; lia). split.
    - apply Rmult_lt_0_compat; [assumption|]. apply Rdiv_lt_0_compat; lra.
    - apply (Rmult_lt_reg_r (INR N)); [assumption|].
      replace (INR j * (2 * PI / INR N) * INR N) with (INR j * (2 * PI)) by (field; lra). nra. }
  apply cis_inj in E; lra.
Qed.

Lemma omega_c : forall k, fpow (fpow omega k) c = cis (INR k * (2 * PI / INR n)).
Proof.
  intro k. rewrite <- fpow_mul. unfold omega. rewrite cis_pow. f_equal. rewrite !mult_INR. field.
  split; apply not_0_INR; lia.
Qed.

Lemma time_at_eq : forall k, time_at k = (target + fpow (rho : CF) c * cis (INR k * (2 * PI / INR n)))%C.
Proof. intro k. unfold time_at, local. rewrite fpow_mul_base, omega_c. reflexivity. Qed.

Lemma cis_period : forall a m, cis (a + INR m * (2 * PI)) = cis a.
Proof. intros. rewrite cis_add, cis_2npi. cbn. ring. Qed.

Lemma time_at_loop : forall m, time_at (m * n) = time_at 0.
Proof.
  intro m. rewrite !time_at_eq. f_equal. f_equal. 
  replace (INR (m * n) * (2 * PI / INR n)) with (0 + INR m * (2 * PI)).
  - rewrite cis_period. cbn [INR]. f_equal. ring.
  - rewrite mult_INR. field. apply not_0_INR. lia.
Qed.

Lemma circle_time_eq : forall m ii, (ii < n)%nat -> circle_time cfg target ii (time_at (m * n)) = time_at (m * n + ii + 1).
Proof.
  intros m ii Hi. unfold circle_time. destruct (Nat.eqb_spec ii (n - 1)) as [E|E].
  - replace (m * n + ii + 1)%nat with (S m * n)%nat by (cbn; lia). rewrite !time_at_loop. reflexivity.
  - rewrite time_at_loop. set (z := (time_at 0 - target)%C).
    assert (Z0 : z = fpow (rho : CF) c).
    { unfold z. rewrite time_at_eq. cbn [INR]. replace (0 * (2 * PI / INR n)) with 0 by ring. rewrite cis_0. cbn. ring. }
    assert (Hn : INR n <> 0) by (apply not_0_INR; lia).
    assert (P : polar_c (Cmod z) (INR (ii + 1) * 2 * acos (-1) / INR n + arg z)
                = (z * cis (INR (ii + 1) * (2 * PI / INR n)))%C).
    { rewrite acos_m1. replace (INR (ii + 1) * 2 * PI / INR n + arg z) with (arg z + INR (ii + 1) * (2 * PI / INR n)) by (field; exact Hn).
      set (b := INR (ii + 1) * (2 * PI / INR n)).
      transitivity (RtoC (Cmod z) * cis (arg z + b))%C.
      - unfold polar_c, cis, RtoC, Cmult; cbn. f_equal; ring.
      - rewrite cis_add. destruct (C_dec z (RtoC 0)) as [Ez|Ez].
        + rewrite Ez, Cmod_0. cbn. ring.
        + pose proof (polar z Ez) as Pz. cbn in Pz. cbn. rewrite Cmult_assoc, <- Pz. reflexivity. }
    rewrite P, Z0. rewrite time_at_eq.
    replace (INR (m * n + ii + 1) * (2 * PI / INR n)) with (INR (ii + 1) * (2 * PI / INR n) + INR m * (2 * PI)).
    + rewrite cis_period. cbn. ring.
    + rewrite !plus_INR, mult_INR. field. exact Hn.
Qed.

Lemma point_loop : point N = point 0.
Proof. unfold point, local. rewrite omega_N. reflexivity. Qed.

(** The tracker follows the path for one step around the target, from call number [base] on, and
    refining a point of the path leaves it unchanged. *)
Variable track : nat -> C -> C -> vec -> code * vec.
Variable refine : nat -> vec -> C -> code * vec.
Variable base : nat.
Hypothesis follows : forall k, track (base + k) (time_at k) (time_at (S k)) (point k) = (Success, point (S k)).
Hypothesis fixes : forall i k, refine i (point k) (time_at k) = (Success, point k).

(** the state after k steps *)
Definition around (s : est) (k : nat) : Prop :=
  ca_t s = map time_at (seq 0 (S k)) /\ ca_x s = map point (seq 0 (S k)) /\ ntrack s = (base + k)%nat.

Lemma circle_follow : forall j m ii s, (ii + j = n)%nat -> around s (m * n + ii) ->
  exists s', circle_loop cfg target track j ii (time_at (m * n)) s = Ok (Success, s') /\
    around s' (m * n + n) /\ rest s s'.
Proof.
  induction j as [|j IH]; intros m ii s Hj (At & Ax & An).
  - exists s. cbn [circle_loop]. replace ii with n in * by lia. unfold around, rest. auto 8.
  - cbn [circle_loop]. rewrite At, Ax, !back_map_seq, circle_time_eq by lia.
    replace (m * n + ii + 1)%nat with (S (m * n + ii)) by lia. rewrite An, follows. cbn [fst snd is_success].
    destruct (IH m (S ii) (tracked (with_ca s (map time_at (seq 0 (S (m * n + ii))) ++ [time_at (S (m * n + ii))])
                                           (map point (seq 0 (S (m * n + ii))) ++ [point (S (m * n + ii))])))) as (s' & E & A & R).
    + lia.
    + replace (m * n + S ii)%nat with (S (m * n + ii)) by lia. unfold around. cbn [ca_t ca_x ntrack tracked with_ca].
      rewrite !(seq_S (S (m * n + ii))), !map_app. cbn [map plus]. rewrite An. repeat split. lia.
    + exists s'. split; [exact E|split; [exact A|]]. destruct R as (R1 & R2 & R3 & R4). cbn in *. unfold rest. auto.
Qed.

Lemma circle_track_follow : forall m s, around s (m * n) ->
  exists s', circle_track cfg target track s = Ok (Success, s') /\ around s' (S m * n) /\ rest s s'.
Proof.
  intros m s A. unfold circle_track. destruct (Nat.ltb_spec n 3); [lia|].
  pose proof A as (At & _ & _). rewrite At, back_map_seq.
  replace (S m * n)%nat with (m * n + n)%nat by (cbn; lia).
  apply circle_follow; [lia|]. rewrite Nat.add_0_r. exact A.
Qed.

Lemma vsub_self : forall x, linf (vsub x x) = 0.
Proof.
  induction x as [|z x IH]; [reflexivity|]. unfold vsub in *. cbn [combine map linf fst snd]. rewrite IH.
  replace (z - z)%C with (RtoC 0) by ring. rewrite Cmod_0. apply Rmax_left. lra.
Qed.

Lemma map_seq_ends : forall A (g : nat -> A) k, map g (seq 0 (S (S k))) = (g 0%nat :: map g (seq 1 k)) ++ [g (S k)].
Proof. intros. rewrite (seq_S (S k)), map_app. reflexivity. Qed.

Lemma check_follow : forall m s, (1 <= m)%nat -> around s (m * n) ->
  exists st, check_closed cfg refine s = Ok (lt_b (dist (point 0) (point (m * n))) (tracking_tolerance cfg), st) /\
    around st (m * n) /\ rest s st.
Proof.
  intros m s Hm (At & Ax & An). unfold check_closed. rewrite At, Ax, !back_map_seq.
  replace (front (map point (seq 0 (S (m * n))))) with (Some (point 0)) by reflexivity.
  replace (front (map time_at (seq 0 (S (m * n))))) with (Some (time_at 0)) by reflexivity.
  destruct (lt_b (dist (point 0) (point (m * n))) (tracking_tolerance cfg)) eqn:L.
  - exists s. unfold around, rest. auto 8.
  - rewrite fixes. cbn [snd].
    replace (set_front (map point (seq 0 (S (m * n)))) (point 0)) with (map point (seq 0 (S (m * n)))) by reflexivity.
    rewrite back_map_seq, fixes. cbn [snd].
    replace (set_back (map point (seq 0 (S (m * n)))) (point (m * n))) with (map point (seq 0 (S (m * n)))).
    2:{ rewrite seq_S, map_app. cbn [map plus]. rewrite set_back_same. reflexivity. }
    rewrite back_map_seq. replace (front (map point (seq 0 (S (m * n))))) with (Some (point 0)) by reflexivity.
    rewrite L. eexists. split; [reflexivity|]. unfold around, rest; cbn. auto 8.
Qed.

Hypothesis tol : 0 < tracking_tolerance cfg.
(** the path does not come back before c loops *)
Hypothesis open_before : forall m, (1 <= m < c)%nat -> tracking_tolerance cfg <= dist (point 0) (point (m * n)).

Lemma closed_exactly : forall m, (1 <= m <= c)%nat ->
  lt_b (dist (point 0) (point (m * n))) (tracking_tolerance cfg) = Nat.eqb m c.
Proof.
  intros m Hm. destruct (Nat.eqb_spec m c) as [E|E].
  - apply lt_b_true. rewrite E, point_loop. unfold dist. rewrite vsub_self. exact tol.
  - apply lt_b_false. apply open_before. lia.
Qed.

Lemma samples_follow : forall j m s fuel, (m + j = c)%nat -> (1 <= j)%nat -> around s (m * n) -> cyc s = m -> (c <= fail_safe cfg)%nat ->
  (j <= fuel)%nat ->
  exists s', samples_loop cfg target track refine fuel s = Ok (Success, s') /\ around s' (c * n) /\ cyc s' = c /\
    hist s' = hist s /\ ps_t s' = ps_t s /\ ps_x s' = ps_x s.
Proof.
  induction j as [|j IH]; intros m s fuel Hmj Hj A Cm Hf HF; [lia|]. destruct fuel as [|fuel]; [lia|].
  rewrite samples_loop_S, Cm. destruct (Nat.ltb_spec m (fail_safe cfg)); [|lia].
  destruct (circle_track_follow m s A) as (s1 & -> & A1 & R1). cbn [bind fst snd is_success].
  destruct (check_follow (S m) (with_cyc s1 (S (cyc s1))) ltac:(lia) A1) as (s2 & -> & A2 & R2).
  rewrite closed_exactly by lia. cbn [bind fst snd].
  destruct R1 as (a1 & a2 & a3 & a4), R2 as (b1 & b2 & b3 & b4). cbn [ps_t ps_x cyc hist with_cyc] in *.
  destruct (Nat.eqb_spec (S m) c) as [E|E].
  - exists s2. rewrite <- E. repeat match goal with |- _ /\ _ => split end; auto; congruence.
  - destruct (IH (S m) s2 fuel) as (s' & E' & A' & C' & H' & P' & X'); auto; try lia.
    exists s'. repeat match goal with |- _ /\ _ => split end; auto; congruence.
Qed.

Lemma closing_follow : forall j m s fuel, (m + j = c)%nat -> (1 <= m)%nat -> around s (m * n) -> cyc s = m -> (c <= S (fail_safe cfg))%nat ->
  (j <= fuel)%nat ->
  exists s', closing_loop cfg target track refine fuel s = Ok (Success, s') /\ around s' (c * n) /\ cyc s' = c /\
    hist s' = hist s /\ ps_t s' = ps_t s /\ ps_x s' = ps_x s.
Proof.
  induction j as [|j IH]; intros m s fuel Hmj Hj A Cm Hf HF.
  - destruct fuel; cbn [closing_loop]; destruct (check_follow m s ltac:(lia) A) as (s2 & -> & A2 & R2);
      rewrite closed_exactly by lia; cbn [bind fst snd]; (destruct (Nat.eqb_spec m c) as [E|E]; [|lia]);
      exists s2; destruct R2 as (b1 & b2 & b3 & b4); rewrite <- E; repeat match goal with |- _ /\ _ => split end; auto; congruence.
  - destruct fuel as [|fuel]; [lia|]. rewrite closing_loop_S.
    destruct (check_follow m s ltac:(lia) A) as (s2 & -> & A2 & R2).
    rewrite closed_exactly by lia. cbn [bind fst snd]. destruct (Nat.eqb_spec m c) as [E|E]; [lia|].
    destruct R2 as (b1 & b2 & b3 & b4). rewrite b3, Cm. destruct (Nat.ltb_spec (fail_safe cfg) m); [lia|].
    destruct (circle_track_follow m s2 A2) as (s1 & -> & A1 & R1). cbn [bind fst snd is_success].
    destruct R1 as (a1 & a2 & a3 & a4).
    destruct (IH (S m) (with_cyc s1 (S (cyc s1))) fuel) as (s' & E' & A' & C' & H' & P' & X'); auto; try (cbn; lia).
    cbn in *. exists s'. repeat match goal with |- _ /\ _ => split end; auto; congruence.
Qed.

(** ** The mean *)

Lemma refine_all_follow : forall k i j, fst (refine_all refine i (map point (seq j k)) (map time_at (seq j k))) = map point (seq j k).
Proof.
  induction k as [|k IH]; intros i j; [reflexivity|]. cbn [seq map refine_all]. rewrite fixes. cbn [fst snd is_success].
  rewrite IH. reflexivity.
Qed.

Lemma vadd_map : forall (A : Type) (g h : A -> C) (l : list A),
  vadd (map g l) (map h l) = map (fun a => (g a + h a)%C) l.
Proof. intros A g h l. unfold vadd. induction l as [|a l IH]; [reflexivity|]. cbn [map combine fst snd]. f_equal. exact IH. Qed.

Lemma sum_points : forall ks (g : list C -> C),
  fold_left vadd (map point ks) (map g p) =
  map (fun q => (g q + @fsum CF (map (fun k => @peval CF q (local k)) ks))%C) p.
Proof.
  induction ks as [|k ks IH]; intro g.
  - cbn. apply map_ext. intro q. ring.
  - cbn [map fold_left]. pose proof (vadd_map _ g (fun q => @peval CF q (local k)) p) as V.
    change (map (fun q => @peval CF q (local k)) p) with (point k) in V. rewrite V.
    rewrite IH. apply map_ext. intro q. cbn [fsum]. cbn. ring.
Qed.

Hypothesis degrees : forall q, In q p -> (length q <= N)%nat.

Lemma approximation_follow : forall s, around s N -> cyc s = c ->
  exists s', cauchy_approximation cfg refine (length p) s = Ok (map (fun q => @peval CF q (RtoC 0)) p, s').
Proof.
  intros s (At & Ax & An) Hc. unfold cauchy_approximation. rewrite Hc, Ax, map_length, seq_length.
  replace (Nat.eqb (S N) (N + 1)) with true by (symmetry; apply Nat.eqb_eq; lia).
  rewrite At, refine_all_follow, firstn_map.
  replace (firstn N (seq 0 (S N))) with (seq 0 N).
  2:{ rewrite seq_S, firstn_app, seq_length, Nat.sub_diag, firstn_all2; [cbn; rewrite app_nil_r; reflexivity|rewrite seq_length; lia]. }
  cut (vdiv (fold_left vadd (map point (seq 0 N)) (repeat (RtoC 0) (length p))) N = map (fun q => @peval CF q (RtoC 0)) p).
  { intro G. rewrite G. eexists. reflexivity. }
  replace (repeat (RtoC 0) (length p)) with (map (fun _ : list C => RtoC 0) p).
  2:{ clear. induction p as [|q l IH]; [reflexivity|]. cbn. f_equal. exact IH. }
  rewrite sum_points. unfold vdiv. rewrite map_map. apply map_ext_in. intros q Hq.
  pose proof (mean_exact CF N omega (rho : CF) omega_N omega_j q (degrees q Hq) ltac:(nia)) as M.
  unfold local. rewrite M, fnat_C. cbn [fmul CF].
  assert (Z : RtoC (INR N) <> RtoC 0).
  { intro Z. apply RtoC_inj in Z. revert Z. apply not_0_INR. nia. }
  set (u := RtoC (INR N)) in *. change (@f0 CF) with (RtoC 0). cbn. field. exact Z.
Qed.

(** ComputeCauchySamples from the last power series sample, then the average *)
Lemma cauchy_exact : forall fuel s, back (ps_t s) = Some (time_at 0) -> back (ps_x s) = Some (point 0) ->
  ntrack s = base -> (c <= fail_safe cfg)%nat -> (c <= fuel)%nat ->
  exists s1 s2, cauchy_samples cfg target track refine fuel s = Ok (Success, s1) /\ cyc s1 = c /\
    cauchy_approximation cfg refine (length p) s1 = Ok (map (fun q => @peval CF q (RtoC 0)) p, s2).
Proof.
  intros fuel s Et Ex En Hf HF. unfold cauchy_samples, seed. rewrite Et, Ex. cbn [bind].
  destruct (samples_follow c 0 (with_cyc (with_ca s [time_at 0] [point 0]) 0) fuel) as (s1 & E1 & A1 & C1 & _); auto; try lia.
  - unfold around. cbn. rewrite Nat.add_0_r. auto.
  - destruct (approximation_follow s1 A1 C1) as (s2 & E2). exists s1, s2. auto.
Qed.

(** the same for InitialCauchyLoops, when the first loop passes the test of the operating zone *)
Lemma initial_exact : forall fuel s, back (ps_t s) = Some (time_at 0) -> back (ps_x s) = Some (point 0) ->
  ntrack s = base -> (c <= S (fail_safe cfg))%nat -> (c <= fuel)%nat ->
  (forall s', ca_x s' = map point (seq 0 (S n)) -> ca_t s' = map time_at (seq 0 (S n)) -> ratio_test cfg target s' = Ok true) ->
  exists s1 s2, initial_loops cfg target track refine fuel s = Ok (Success, s1) /\ cyc s1 = c /\
    cauchy_approximation cfg refine (length p) s1 = Ok (map (fun q => @peval CF q (RtoC 0)) p, s2).
Proof.
  intros fuel s Et Ex En Hf HF HR. destruct fuel as [|fuel]; [lia|]. rewrite initial_loops_S.
  unfold seed. cbn [ps_t ps_x with_cyc]. rewrite Et, Ex. cbn [bind].
  assert (A0 : around (with_ca (with_cyc s 0) [time_at 0] [point 0]) (0 * n)).
  { unfold around. cbn. rewrite Nat.add_0_r. auto. }
  destruct (circle_track_follow 0 _ A0) as (s1 & -> & A1 & R1). cbn [bind fst snd is_success].
  set (s1' := with_cyc s1 (S (cyc s1))).
  assert (A1' : around s1' (1 * n)) by exact A1.
  rewrite HR.
  - cbn [bind].
    destruct (closing_follow (c - 1) 1 s1' (S fuel)) as (s2 & E2 & A2 & C2 & _); auto; try lia.
    + destruct R1 as (_ & _ & r & _). cbn in *. congruence.
    + destruct (approximation_follow s2 A2 C2) as (s3 & E3). exists s2, s3. auto.
  - destruct A1' as (_ & E & _). rewrite Nat.mul_1_l in E. exact E.
  - destruct A1' as (E & _). rewrite Nat.mul_1_l in E. exact E.
Qed.

End Follow.
