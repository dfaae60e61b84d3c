(** Estimating the cycle number from three samples of a path p + v s^i: ComputeBoundOnCycleNumber,
    powerseries.hpp:317-355, and ComputeCOverK, cauchy.hpp:481-507. *)
From Coq Require Import List ZArith Lia Reals Lra Bool Arith.
From Coquelicot Require Import Complex.
From Verif Require Import Base Poly ComplexField StartIndex RKQuad Hermite Endgame EndgamePs EgSeries.
Import ListNotations.
Local Open Scope R_scope.

Section Geo.
Variable nv : nat.
Variable rand : nat -> C.
Notation pt := (nat -> C).

(** The sum of the products of the entries of a point with those of the random vector. *)
Definition pairing (v : pt) : C := fold_right Cplus (RtoC 0) (map (fun j => (v j * rand j)%C) (seq 0 nv)).

Lemma rand_sum_scale : forall (x y v : pt) (k : R), (forall j, (j < nv)%nat -> (y j - x j)%C = (RtoC k * v j)%C) ->
  rand_sum nv rand x y = (RtoC k * pairing v)%C.
Proof.
  intros x y v k H. unfold rand_sum, pairing.
  assert (L : forall l, (forall j, In j l -> (j < nv)%nat) ->
    fold_right Cplus (RtoC 0) (map (fun j => ((y j - x j) * rand j)%C) l) =
    (RtoC k * fold_right Cplus (RtoC 0) (map (fun j => (v j * rand j)%C) l))%C).
  { induction l as [|j l IH]; intro Hl; cbn [map fold_right]; [ring|].
    rewrite IH by (intros i Hi; apply Hl; right; exact Hi). rewrite H by (apply Hl; left; reflexivity). ring. }
  apply L. intros j Hj. apply in_seq in Hj. lia.
Qed.

(** Three points p + v r, p + v r q, p + v r q^2. *)
Definition geometric (p v : pt) (r q : R) (x0 x1 x2 : pt) : Prop :=
  forall j, (j < nv)%nat -> x0 j = (p j + RtoC r * v j)%C /\ x1 j = (p j + RtoC (r * q) * v j)%C
                        /\ x2 j = (p j + RtoC (r * q * q) * v j)%C.

Lemma geometric_sums : forall p v r q x0 x1 x2, geometric p v r q x0 x1 x2 ->
  rand_sum nv rand x0 x1 = (RtoC (r * (q - 1)) * pairing v)%C /\
  rand_sum nv rand x1 x2 = (RtoC (r * q * (q - 1)) * pairing v)%C.
Proof.
  intros p v r q x0 x1 x2 G. split; apply rand_sum_scale; intros j Hj; destruct (G j Hj) as [G0 [G1 G2]]; rewrite ?G0, ?G1, ?G2;
    repeat (rewrite ?RtoC_mult, ?RtoC_minus); ring.
Qed.

Lemma geometric_ratio : forall p v r q x0 x1 x2, geometric p v r q x0 x1 x2 -> 0 < r -> 0 < q -> q <> 1 ->
  pairing v <> RtoC 0 ->
  rand_sum nv rand x0 x1 <> RtoC 0 /\ rand_sum nv rand x1 x2 <> RtoC 0 /\
  (rand_sum nv rand x1 x2 / rand_sum nv rand x0 x1)%C = RtoC q.
Proof.
  intros p v r q x0 x1 x2 G Hr Hq Hq1 Hv. destruct (geometric_sums _ _ _ _ _ _ _ G) as [-> ->].
  assert (N1 : RtoC (r * (q - 1)) <> RtoC 0).
  { intro E. apply RtoC_inj in E. apply Rmult_integral in E. lra. }
  assert (N2 : RtoC (r * q * (q - 1)) <> RtoC 0).
  { intro E. apply RtoC_inj in E. apply Rmult_integral in E. destruct E as [E|E]; [|lra]. apply Rmult_integral in E. lra. }
  split; [apply Cmult_neq_0; assumption|]. split; [apply Cmult_neq_0; assumption|].
  replace (r * q * (q - 1)) with (q * (r * (q - 1))) by ring. rewrite RtoC_mult. field. split; assumption.
Qed.

Lemma power_base : forall f e, 0 < f < 1 -> 0 < e -> 0 < Rpower f e < 1 /\ ln (Rpower f e) = e * ln f /\ ln f < 0.
Proof.
  intros f e Hf He. assert (L : ln f < 0). { rewrite <- ln_1. apply ln_increasing; lra. }
  unfold Rpower. split; [|split; [apply ln_exp|exact L]]. split; [apply exp_pos|].
  rewrite <- exp_0. apply exp_increasing. nra.
Qed.

(** With samples p + v t^(1/w) at times in geometric progression, the candidates are 1, ..., max (w amp) max_cycle. *)
Lemma bound_geometric : forall (factor : R) (amplification max_cycle : Z) pre p v r x0 x1 x2 (w : nat),
  0 < factor < 1 -> (1 <= w)%nat -> 0 < r -> (Z.of_nat w * amplification < 2 ^ 32)%Z ->
  geometric p v r (Rpower factor (/ INR w)) x0 x1 x2 -> pairing v <> RtoC 0 ->
  cycle_bound nv factor amplification max_cycle rand (pre ++ [x0; x1; x2]) =
  Value (Z.max (Z.of_nat w * amplification) max_cycle).
Proof.
  intros f amp mx pre p v r x0 x1 x2 w Hf Hw Hr Ha G Hv.
  assert (Iw : 1 <= INR w) by (apply (le_INR 1); exact Hw).
  destruct (power_base f (/ INR w) Hf ltac:(apply Rinv_0_lt_compat; lra)) as [Hq [Lq Lf]].
  destruct (geometric_ratio _ _ _ _ _ _ _ G Hr ltac:(lra) ltac:(lra) Hv) as [N1 [N2 E]].
  unfold cycle_bound. rewrite app_length. cbn [length]. replace (length pre + 3 - 3)%nat with (length pre) by lia.
  rewrite skipn_app, skipn_all, Nat.sub_diag. cbn [app skipn].
  destruct (C_dec (rand_sum nv rand x0 x1) (RtoC 0)); [contradiction|].
  destruct (C_dec (rand_sum nv rand x1 x2) (RtoC 0)); [contradiction|].
  unfold estimate_of. rewrite E, Cmod_R, Rabs_right by lra. rewrite Lq.
  destruct (Req_EM_T (Rpower f (/ INR w)) 1); [lra|].
  replace (ln f / (/ INR w * ln f)) with (INR w) by (field; split; lra).
  destruct (Rlt_dec (INR w) 1); [lra|].
  assert (Rd : round_half_up (INR w) = Z.of_nat w).
  { unfold round_half_up.   rewrite INR_IZR_INZ.
    unfold Int_part. assert (U : up (IZR (Z.of_nat w) + 1 / 2) = (Z.of_nat w + 1)%Z).
    { symmetry. apply tech_up; rewrite plus_IZR; lra. }
    rewrite U. lia. }
  rewrite Rd. destruct (Z.ltb_spec (Z.of_nat w * amp) (2 ^ 32)); [reflexivity|lia].
Qed.
End Geo.
