(** Integral powers of complex numbers in double precision: core/include/bertini2/double_extensions.hpp:81-115.
    Rounding is not modelled: the numbers are elements of a field. *)
From Coq Require Import List Arith Lia ZArith Ring Field Bool.
From Verif Require Import Base.
Import ListNotations.

(** the value together with the number of multiplications, or: division by zero, overflow of the exponent (undefined
    behaviour) *)
Inductive power_result (A : Type) := Power (x : A) (multiplications : nat) | DivisionByZero | ExponentOverflow.
Arguments Power {A} _ _.
Arguments DivisionByZero {A}.
Arguments ExponentOverflow {A}.

Section Power.
Context {F : fld}.
Add Ring Fring : (F_R (f_th F)).
Local Open Scope fld_scope.

(** lines 106-111: do { ... } while (p >>= 1); the exponent has at most 32 bits *)
Fixpoint power_loop (fuel : nat) (p : Z) (result z : F) (count : nat) : option (F * nat) :=
  match fuel with
  | O => None
  | S fuel' =>
      let odd := Z.odd p in
      let result' := if odd then result * z else result in
      let count' := if odd then S (S count) else S count in
      let z' := z * z in
      let p' := Z.shiftr p 1 in
      if Z.eqb p' 0%Z then Some (result', count') else power_loop fuel' p' result' z' count'
  end.

(** lines 93-114, for a power that is not negative *)
Definition power_nonneg (z : F) (p : Z) : power_result F :=
  if Z.eqb p 0 then Power 1 0
  else if Z.eqb p 1 then Power z 0
  else if Z.eqb p 2 then Power (z * z) 1
  else if Z.eqb p 3 then Power (z * z * z) 2
  else match power_loop 32 p 1 z 0 with Some (x, n) => Power x n | None => ExponentOverflow end.

(** lines 88-115 pow(dbl const&, int).  The recursive call of line 91 has a positive power, unless negating the power
    overflows. *)
Definition power (z : F) (p : Z) : power_result F :=
  if (p <? 0)%Z then
    if feqb z 0 then DivisionByZero
    else if Z.eqb p (- 2 ^ 31) then ExponentOverflow
    else power_nonneg (1 / z) (- p)
  else power_nonneg z p.

(** *** Specification: the power of a number *)
Definition zpower (z : F) (p : Z) : F :=
  if (p <? 0)%Z then 1 / fpow z (Z.to_nat (- p)) else fpow z (Z.to_nat p).

(** *** Proofs *)
Lemma fpow_add : forall (z : F) a b, fpow z (a + b) = fpow z a * fpow z b.
Proof. intros z a b. induction a as [|a IH]; cbn; [ring|]. rewrite IH. ring. Qed.

Lemma fpow_double : forall (z : F) n, fpow (z * z) n = fpow z (n + n).
Proof. intros z n. induction n as [|n IH]; [reflexivity|]. cbn [fpow]. rewrite IH. replace (S n + S n)%nat with (S (S (n + n))) by lia. cbn. ring. Qed.

Lemma shift_half : forall p, Z.shiftr p 1 = (p / 2)%Z.
Proof. intro p. rewrite Z.shiftr_div_pow2 by lia. reflexivity. Qed.

Lemma power_loop_spec : forall fuel p result z count, (0 < p < 2 ^ Z.of_nat fuel)%Z ->
  exists n, power_loop fuel p result z count = Some (result * fpow z (Z.to_nat p), n) /\
    (n <= count + 2 * (Z.to_nat (Z.log2 p) + 1))%nat.
Proof.
  induction fuel as [|fuel IH]; intros p result z count Hp; [cbn in Hp; lia|].
  cbn [power_loop]. rewrite shift_half. pose proof (Z.div_mod p 2 ltac:(lia)) as Hdm.
  assert (Hmod : (p mod 2 = if Z.odd p then 1 else 0)%Z) by (rewrite Zmod_odd; reflexivity).
  assert (Ep : Z.to_nat p = ((if Z.odd p then 1 else 0) + (Z.to_nat (p / 2) + Z.to_nat (p / 2)))%nat).
  { assert (0 <= p / 2)%Z by (apply Z.div_pos; lia). rewrite Hmod in Hdm. destruct (Z.odd p); lia. }
  destruct (Z.eqb_spec (p / 2) 0) as [E|E].
  - assert (p = 1)%Z by (rewrite E, Hmod in Hdm; destruct (Z.odd p); lia). subst p.
    change (Z.odd 1) with true. cbn iota. change (Z.to_nat 1) with 1%nat. cbn [fpow]. replace (z * 1) with z by ring.
    eexists. split; [reflexivity|]. cbn. lia.
  - rewrite Nat2Z.inj_succ, Z.pow_succ_r in Hp by lia.
    assert (Hp2 : (0 < p / 2 < 2 ^ Z.of_nat fuel)%Z).
    { assert (0 <= p / 2)%Z by (apply Z.div_pos; lia). split; [lia|]. apply Z.div_lt_upper_bound; lia. }
    destruct (IH (p / 2)%Z (if Z.odd p then result * z else result) (z * z) (if Z.odd p then S (S count) else S count) Hp2) as (n & En & Hn).
    exists n. split.
    + rewrite En. f_equal. f_equal. rewrite fpow_double, Ep. destruct (Z.odd p); cbn [Nat.add fpow]; ring.
    + assert (Hl : Z.log2 p = Z.succ (Z.log2 (p / 2))).
      { rewrite <- (Z.log2_double (p / 2)) by lia. rewrite Hmod in Hdm. destruct (Z.odd p).
        - rewrite Z.log2_double by lia. rewrite Hdm at 1. apply Z.log2_succ_double. lia.
        - f_equal. lia. }
      rewrite Hl. pose proof (Z.log2_nonneg (p / 2)). rewrite Z2Nat.inj_succ by lia. destruct (Z.odd p); lia.
Qed.

Lemma power_nonneg_spec : forall (z : F) p, (0 <= p < 2 ^ 31)%Z ->
  exists n, power_nonneg z p = Power (fpow z (Z.to_nat p)) n /\ (n <= 2 * (Z.to_nat (Z.log2 p) + 1))%nat.
Proof.
  intros z p Hp. unfold power_nonneg.
  destruct (Z.eqb_spec p 0) as [->|N0]; [exists 0%nat; split; [reflexivity|lia]|].
  destruct (Z.eqb_spec p 1) as [->|N1]; [exists 0%nat; split; [change (Z.to_nat 1) with 1%nat; cbn [fpow]; f_equal; ring|lia]|].
  destruct (Z.eqb_spec p 2) as [->|N2]; [exists 1%nat; split; [change (Z.to_nat 2) with 2%nat; cbn [fpow]; f_equal; ring|lia]|].
  destruct (Z.eqb_spec p 3) as [->|N3]; [exists 2%nat; split; [change (Z.to_nat 3) with 3%nat; cbn [fpow]; f_equal; ring|lia]|].
  destruct (power_loop_spec 32 p 1 z 0) as (n & E & Hn).
  { change (Z.of_nat 32) with 32%Z. lia. }
  rewrite E. exists n. split; [f_equal; ring|lia].
Qed.

Lemma finv_pow : forall (z : F) n, z <> 0 -> fpow (1 / z) n = 1 / fpow z n.
Proof.
  intros z n Hz. assert (Hp : forall k, fpow z k <> 0).
  { induction k as [|k IH]; cbn; [apply (F_1_neq_0 (f_th F))|]. intro E. apply IH.
    replace (fpow z k) with (finv z * (z * fpow z k)).
    - rewrite E. ring.
    - transitivity ((finv z * z) * fpow z k); [ring|]. rewrite (Finv_l (f_th F) z Hz). ring. }
  assert (Hd : forall a b : F, a / b = a * finv b) by (intros; apply (Fdiv_def (f_th F))).
  assert (Hu : forall a b : F, a <> 0 -> a * b = 1 -> b = finv a).
  { intros a b Ha E. transitivity ((finv a * a) * b); [rewrite (Finv_l (f_th F) a Ha); ring|].
    transitivity (finv a * (a * b)); [ring|]. rewrite E. ring. }
  rewrite (Hd 1 (fpow z n)). rewrite <- (Hu (fpow z n) (fpow (1 / z) n) (Hp n)); [ring|].
  clear Hu. induction n as [|n IH]; cbn; [ring|].
  transitivity ((z * (1 / z)) * (fpow z n * fpow (1 / z) n)); [ring|]. rewrite IH, Hd.
  transitivity (finv z * z); [ring|]. apply (Finv_l (f_th F) z Hz).
Qed.

Theorem power_correct : forall (z : F) p, (- 2 ^ 31 < p < 2 ^ 31)%Z -> (p < 0 -> z <> f0)%Z ->
  exists n, power z p = Power (zpower z p) n /\ (n <= 2 * (Z.to_nat (Z.log2 (Z.abs p)) + 1))%nat.
Proof.
  intros z p Hp Hz. unfold power, zpower. destruct (Z.ltb_spec p 0) as [L|L].
  - specialize (Hz L). destruct (feqb z 0) eqn:E; [apply feqb_eq in E; contradiction|].
    destruct (Z.eqb_spec p (- 2 ^ 31)) as [->|_]; [lia|].
    destruct (power_nonneg_spec (1 / z) (- p)) as (n & En & Hn); [lia|]. exists n.
    rewrite En, finv_pow by exact Hz. split; [reflexivity|]. replace (Z.abs p) with (- p)%Z by lia. exact Hn.
  - destruct (power_nonneg_spec z p) as (n & En & Hn); [lia|]. exists n. split; [exact En|].
    replace (Z.abs p) with p by lia. exact Hn.
Qed.
End Power.
