(** Cases of the test of an LU decomposition. *)
From Coq Require Import Reals Lra Lia.
From Coquelicot Require Import Complex.
From Verif Require Import LuCheck.
Local Open Scope R_scope.

Lemma two_success : lu_check (1 / 1000) (1 / 1000) 2 2 (fun i j => RtoC (INR (i + j + 1))) = LuSuccess.
Proof.
  apply lu_check_success. split; [reflexivity|]. split; [lia|]. split.
  - intros i Hi. rewrite Cmod_R. assert (1 <= INR (i + i + 1)) by (change 1 with (INR 1); apply le_INR; lia).
    rewrite Rabs_right; lra.
  - intros i Hi. assert (i = 0)%nat by lia. subst i. rewrite <- RtoC_div by (cbn; lra). rewrite Cmod_R. cbn.
    rewrite Rabs_right; [lra|]. unfold Rdiv. lra.
Qed.

Lemma scaled_identity_refused : forall epsilon dummy n, 0 < epsilon -> (0 < n)%nat ->
  lu_check epsilon dummy n n (fun i j => if Nat.eqb i j then RtoC epsilon else RtoC 0) = SmallValue.
Proof.
  intros epsilon dummy n He Hn. unfold lu_check. rewrite Nat.eqb_refl. destruct (Nat.ltb_spec 0 n); [|lia]. cbn [andb].
  destruct (n - 1)%nat as [|k]; cbn [lu_loop]; unfold is_small_value; rewrite Nat.eqb_refl, Cmod_R, Rabs_right by lra;
    destruct (Rle_dec epsilon (epsilon * 100)); try reflexivity; lra.
Qed.

Lemma ill_conditioned_accepted : forall epsilon dummy K, 0 < epsilon -> epsilon * 100 < 1 -> 0 < dummy < 1 -> 0 < K ->
  exists (LU : matrix) (b x : nat -> C), lu_check epsilon dummy 2 2 LU = LuSuccess /\
    solves 2 (product 2 LU) x b /\ (forall i, (i < 2)%nat -> Cmod (b i) <= 1) /\ K < Cmod (x 0%nat).
Proof.
  intros epsilon dummy K He He1 Hd HK.
  exists (fun i j => if Nat.eqb i j then RtoC 1 else if Nat.eqb i 0 then RtoC (- (K + 1)) else RtoC 0),
    (fun i => if Nat.eqb i 0 then RtoC 0 else RtoC 1), (fun i => if Nat.eqb i 0 then RtoC (K + 1) else RtoC 1).
  split; [|split; [|split]].
  - apply lu_check_success. split; [reflexivity|]. split; [lia|]. split.
    + intros i Hi. rewrite Nat.eqb_refl, Cmod_1. lra.
    + intros i Hi. rewrite !Nat.eqb_refl. rewrite <- RtoC_div by lra. rewrite Cmod_R, Rabs_right by lra. replace (1 / 1) with 1 by field.
      apply (Rmult_lt_reg_r dummy); [lra|]. unfold Rdiv. rewrite Rmult_assoc, Rinv_l by lra. lra.
  - intros i Hi. unfold product, lower_part, upper_part.
    destruct i as [|[|i]]; [| |lia]; cbn; apply injective_projections; cbn; ring.
  - intros i Hi. destruct i as [|[|i]]; [| |lia]; cbn [Nat.eqb]; rewrite ?Cmod_0, ?Cmod_1; lra.
  - cbn [Nat.eqb]. rewrite Cmod_R, Rabs_right; lra.
Qed.

