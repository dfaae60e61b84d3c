(** Concrete slices. *)
From Coq Require Import ZArith List Arith Lia Bool.
From Verif Require Import Base PatchPrecision Slice.
Import ListNotations.

Definition rnd0 (p : nat) (v : QcF) : QcF := v.
Definition dbl0 (v : QcF) : QcF := v.
Definition n30 (k : positive) : mpnum (V := QcF) := mkNum (qc (Zpos k) 1) 30.
Definition A30 := [[n30 1; n30 2; n30 3]; [n30 4; n30 5; n30 6]].
Definition b30 := [n30 7; n30 8].

Lemma rnd0_twice : forall p q (v : QcF), p <= q -> rnd0 p (rnd0 q v) = rnd0 p v.
Proof. reflexivity. Qed.

Lemma made30 : exists s, make dbl0 true 20 3 2 false A30 b30 = Made s.
Proof. eexists. reflexivity. Qed.

(** the precision a slice reports is not that of its coefficients *)
Lemma reported_wrong : exists s, make dbl0 true 20 3 2 false A30 b30 = Made s /\ reported_prec s = 20 /\
  Forall (Forall (fun c => prec c = 30)) (coeff_mp s) /\ coeff_mp s <> [].
Proof.
  eexists. split; [reflexivity|]. split; [reflexivity|]. split; [repeat constructor|]. discriminate.
Qed.

(** what an archive loses *)
Lemma lost_with_load : exists s x, make dbl0 true 20 3 2 false A30 b30 = Made s /\
  (exists y, eval_mp s x = Some y) /\ eval_mp (load (save s)) x = None.
Proof.
  eexists. exists [f0; f0; f0]. split; [reflexivity|]. split; [eexists; reflexivity|]. reflexivity.
Qed.

Lemma homogeneous_assertion : make dbl0 true 20 3 2 true A30 b30 = AssertionFailed /\
  exists s, make dbl0 false 20 3 2 true A30 b30 = Made s.
Proof. split; [reflexivity|]. eexists. reflexivity. Qed.
