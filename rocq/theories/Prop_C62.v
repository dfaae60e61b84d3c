(** C62: integral powers in double precision. *)
From Coq Require Import ZArith.
From Verif Require Import Base Power.

(** For every number and every int but the least one, pow returns the power, with at most 2(log2|p|+1) multiplications;
    the number is not to be zero when the power is negative. *)
Theorem C62_power : forall (F : fld) (z : F) (p : Z), (- 2 ^ 31 < p < 2 ^ 31)%Z -> ((p < 0)%Z -> z <> f0) ->
  exists n, power z p = Power (if (p <? 0)%Z then fdiv f1 (fpow z (Z.to_nat (- p))) else fpow z (Z.to_nat p)) n /\
    (n <= 2 * (Z.to_nat (Z.log2 (Z.abs p)) + 1))%nat.
Proof. intros F z p Hp Hz. exact (power_correct z p Hp Hz). Qed.
Print Assumptions C62_power.

Definition two : QcF := fadd f1 f1.

Example C62_power_case : power two 10 = Power (fpow two 10) 6 /\ power two (-5) = Power (fdiv f1 (fpow two 5)) 5.
Proof. split; vm_compute; reflexivity. Qed.

(** For the least int the sign cannot be changed. *)
Theorem C62_least_power_refuted : forall (F : fld) (z : F), z <> f0 -> power z (- 2 ^ 31) = ExponentOverflow.
Proof.
  intros F z Hz. unfold power. change ((- 2 ^ 31 <? 0)%Z) with true. cbn iota.
  destruct (feqb z f0) eqn:E; [apply feqb_eq in E; contradiction|]. reflexivity.
Qed.
Print Assumptions C62_least_power_refuted.

(** A negative power of zero is a division by zero. *)
Theorem C62_zero_base : forall (F : fld) (p : Z), (p < 0)%Z -> power (f0 : F) p = DivisionByZero.
Proof.
  intros F p Hp. unfold power. rewrite (proj2 (Z.ltb_lt p 0) Hp). assert (E : feqb (f0 : F) f0 = true) by (apply feqb_eq; reflexivity). rewrite E. reflexivity.
Qed.
Print Assumptions C62_zero_base.
