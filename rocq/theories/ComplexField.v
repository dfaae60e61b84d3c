(** The complex numbers as a field of the model, roots of unity and the principal d-th root.
    Used where the code calls [exp] and [pow] on complex numbers
    (core/src/system/start/total_degree.cpp:83-86, 111-121). *)
From Coq Require Import List Arith Lia ZArith Bool Reals Lra.
From Coquelicot Require Import Complex.
From Verif Require Import Base Poly.
Import ListNotations.
Local Open Scope R_scope.

Definition C_dec (x y : C) : {x = y} + {x <> y}.
Proof.
  destruct (Req_EM_T (fst x) (fst y)) as [E1|N1].
  - destruct (Req_EM_T (snd x) (snd y)) as [E2|N2].
    + left. destruct x, y; cbn in *; subst; reflexivity.
    + right. intro E; subst; apply N2; reflexivity.
  - right. intro E; subst; apply N1; reflexivity.
Defined.

Definition CF : fld := mkFld C (RtoC 0) (RtoC 1) Cplus Cmult Cminus Copp Cdiv Cinv C_field_theory C_dec.

Lemma CF_zero : RtoC 0 = @f0 CF.
Proof. reflexivity. Qed.

Lemma CF_one : RtoC 1 = @f1 CF.
Proof. reflexivity. Qed.

Lemma CF_plus : forall x y : CF, fadd x y = Cplus x y.
Proof. reflexivity. Qed.

(** cos t + i sin t, i.e. exp(i t) *)
Definition cis (t : R) : CF := (cos t, sin t).

Lemma cis_add : forall a b, cis (a + b) = fmul (cis a) (cis b).
Proof.
  intros. unfold cis. cbn. unfold Cmult; cbn. rewrite cos_plus, sin_plus. f_equal; ring.
Qed.

Lemma cis_0 : cis 0 = f1.
Proof. unfold cis. rewrite cos_0, sin_0. reflexivity. Qed.

Lemma cis_pow : forall t n, fpow (cis t) n = cis (INR n * t).
Proof.
  intros t n. induction n as [|n IH].
  - cbn [fpow]. change (INR 0) with 0. rewrite Rmult_0_l, cis_0. reflexivity.
  - cbn [fpow]. rewrite IH, <- cis_add. f_equal. rewrite S_INR. ring.
Qed.

Lemma cis_2npi : forall n, cis (INR n * (2 * PI)) = f1.
Proof.
  intro n. unfold cis.
  replace (INR n * (2 * PI)) with (0 + 2 * INR n * PI) by ring.
  rewrite cos_period, sin_period, cos_0, sin_0. reflexivity.
Qed.

Lemma Cmod_cis : forall t, Cmod (cis t) = 1.
Proof.
  intro t. unfold Cmod, cis; cbn [fst snd].
  replace (cos t ^ 2 + sin t ^ 2) with 1; [apply sqrt_1|].
  pose proof (sin2_cos2 t) as H. unfold Rsqr in H. cbn. lra.
Qed.

Lemma cis_neq0 : forall t, cis t <> f0.
Proof.
  intros t E. pose proof (Cmod_cis t) as H. rewrite E in H. cbn in H. rewrite Cmod_0 in H. lra.
Qed.

(** exp(2 pi i k / d) *)
Definition unit_root (d k : nat) : CF := cis (2 * PI * INR k / INR d).

Lemma unit_root_pow : forall d k, (1 <= d)%nat -> fpow (unit_root d k) d = f1.
Proof.
  intros d k H. unfold unit_root. rewrite cis_pow.
  replace (INR d * (2 * PI * INR k / INR d)) with (INR k * (2 * PI)).
  - apply cis_2npi.
  - field. apply not_0_INR. lia.
Qed.

(** cos and sin determine the angle in [0, 2 pi) *)
Lemma cis_inj : forall a b, 0 <= a < 2 * PI -> 0 <= b < 2 * PI -> cis a = cis b -> a = b.
Proof.
  assert (K : forall a b, 0 <= a < 2 * PI -> 0 <= b < 2 * PI -> a <= b -> cis a = cis b -> a = b).
  { intros a b Ha Hb Hab E. inversion E as [[Ec Es]].
    (* cos (b - a) = 1 *)
    assert (H1 : cos (b - a) = 1).
    { rewrite cos_minus, Ec, Es. pose proof (sin2_cos2 b) as H. unfold Rsqr in H. lra. }
    set (c := (b - a) / 2).
    assert (Hc : 0 <= c < PI) by (unfold c; lra).
    assert (H2 : sin c * sin c = 0).
    { replace (b - a) with (2 * c) in H1 by (unfold c; field). rewrite cos_2a_sin in H1. lra. }
    assert (H3 : sin c = 0) by (apply Rmult_integral in H2; tauto).
    destruct (Rle_lt_or_eq_dec 0 c (proj1 Hc)) as [Hpos|Hz].
    - pose proof (sin_gt_0 c Hpos (proj2 Hc)). lra.
    - unfold c in Hz. lra. }
  intros a b Ha Hb E. destruct (Rle_dec a b) as [H|H].
  - apply K; assumption.
  - symmetry. apply K; try assumption; [lra|symmetry; assumption].
Qed.

Lemma unit_root_inj : forall d j k, (j < d)%nat -> (k < d)%nat -> unit_root d j = unit_root d k -> j = k.
Proof.
  intros d j k Hj Hk E. unfold unit_root in E.
  assert (Hd : 0 < INR d) by (apply lt_0_INR; lia).
  assert (B : forall i, (i < d)%nat -> 0 <= 2 * PI * INR i / INR d < 2 * PI).
  { intros i Hi. pose proof PI_RGT_0. pose proof (pos_INR i). apply lt_INR in Hi. split.
    - apply Rmult_le_pos; [|left; apply Rinv_0_lt_compat; assumption].
      apply Rmult_le_pos; lra.
    - apply (Rmult_lt_reg_r (INR d)); [assumption|]. unfold Rdiv. rewrite Rmult_assoc, Rinv_l by lra.
      rewrite Rmult_1_r. apply Rmult_lt_compat_l; lra. }
  apply cis_inj in E; [|apply B; assumption|apply B; assumption].
  apply INR_eq. pose proof PI_RGT_0.
  assert (E2 : 2 * PI * INR j = 2 * PI * INR k).
  { apply (f_equal (fun z => z * INR d)) in E. unfold Rdiv in E. rewrite !Rmult_assoc, !Rinv_l in E by lra.
    rewrite !Rmult_1_r in E. lra. }
  apply Rmult_eq_reg_l in E2; [assumption|lra].
Qed.

(** principal argument and principal d-th root: the complex [pow(z, 1/d)] *)
Definition arg (z : C) : R :=
  if Rle_dec 0 (snd z) then acos (fst z / Cmod z) else - acos (fst z / Cmod z).

Definition croot (d : nat) (z : CF) : CF :=
  if C_dec z (RtoC 0) then (RtoC 0 : CF)
  else fmul (RtoC (Rpower (Cmod z) (1 / INR d)) : CF) (cis (arg z / INR d)).

Lemma polar : forall z : CF, z <> f0 -> z = fmul (RtoC (Cmod z) : CF) (cis (arg z)).
Proof.
  intros [x y] Hz. set (m := Cmod (x, y)).
  assert (Hm : 0 < m) by (apply Cmod_gt_0; exact Hz).
  assert (Hmm : m * m = x * x + y * y).
  { unfold m, Cmod; cbn [fst snd]. rewrite sqrt_sqrt; [ring|].
    pose proof (pow2_ge_0 x). pose proof (pow2_ge_0 y). lra. }
  assert (Hb : -1 <= x / m <= 1).
  { assert (x * x <= m * m) by (pose proof (Rle_0_sqr y) as Hy; unfold Rsqr in Hy; lra).
    assert (- m <= x <= m) by (split; nra).
    split; apply (Rmult_le_reg_r m); try assumption; unfold Rdiv; rewrite Rmult_assoc, Rinv_l by lra; lra. }
  assert (Hs : sqrt (1 - (x / m)²) = Rabs y / m).
  { replace (1 - (x / m)²) with ((Rabs y / m)²).
    - rewrite sqrt_Rsqr; [reflexivity|]. apply Rmult_le_pos; [apply Rabs_pos|].
      left; apply Rinv_0_lt_compat; assumption.
    - unfold Rsqr. replace (Rabs y / m * (Rabs y / m)) with ((Rabs y * Rabs y) / (m * m)) by (field; lra).
      replace (Rabs y * Rabs y) with (y * y) by (rewrite <- Rabs_mult, Rabs_pos_eq; [reflexivity|apply Rle_0_sqr]).
      apply (Rmult_eq_reg_r (m * m)); [|nra]. field_simplify; [|lra|lra]. lra. }
  unfold arg, cis; cbn [fst snd]. fold m. cbn. unfold Cmult; cbn [fst snd RtoC].
  destruct (Rle_dec 0 y) as [Hy|Hy].
  - rewrite cos_acos, sin_acos by assumption. rewrite Hs, Rabs_pos_eq by assumption.
    f_equal; field; lra.
  - rewrite cos_neg, sin_neg, cos_acos, sin_acos by assumption. rewrite Hs, Rabs_left by lra.
    f_equal; field; lra.
Qed.

Lemma RtoC_pow : forall x n, fpow (RtoC x : CF) n = RtoC (x ^ n).
Proof.
  intros x n. induction n; [reflexivity|]. cbn [fpow pow]. rewrite IHn. cbn. unfold Cmult, RtoC; cbn.
  f_equal; ring.
Qed.

Lemma croot_pow : forall d z, (1 <= d)%nat -> fpow (croot d z) d = z.
Proof.
  intros d z Hd. unfold croot. destruct (C_dec z (RtoC 0)) as [E|N].
  - destruct d as [|d]; [lia|]. cbn [fpow]. rewrite E. cbn. unfold Cmult, RtoC; cbn. f_equal; ring.
  - rewrite fpow_mul_base, cis_pow, RtoC_pow.
    assert (HdR : INR d <> 0) by (apply not_0_INR; lia).
    assert (Hm : 0 < Cmod z) by (apply Cmod_gt_0; exact N).
    replace (INR d * (arg z / INR d)) with (arg z) by (field; assumption).
    rewrite <- Rpower_pow by (unfold Rpower; apply exp_pos).
    rewrite Rpower_mult. replace (1 / INR d * INR d) with 1 by (field; assumption).
    rewrite Rpower_1 by assumption. symmetry. apply polar. exact N.
Qed.

Lemma croot_neq0 : forall d z, (1 <= d)%nat -> z <> f0 -> croot d z <> f0.
Proof.
  intros d z Hd Hz E. apply Hz. rewrite <- (croot_pow d z Hd), E.
  destruct d as [|d]; [lia|]. cbn [fpow]. cbn. unfold Cmult, RtoC; cbn. f_equal; ring.
Qed.
