(** C19: precision of a patch. *)
From Coq Require Import List Arith.
From Verif Require Import PatchPrecision.
Import ListNotations.

(** As long as no copy is constructed, after any sequence of precision changes (and changes of the
    global default precision) the coefficients used for evaluation have the reported precision. *)
Theorem C19_consistent_without_copy_partial : forall (V : Type) (rnd : nat -> V -> V) d hi l,
  forallb (fun o => negb (is_copy o)) l = true -> consistent (prun rnd (construct rnd d hi) l).
Proof. exact @no_copy_consistent. Qed.
Print Assumptions C19_consistent_without_copy_partial.

(** ... and, for a rounding for which rounding twice is rounding once (truncation), they are the
    original digits rounded to that precision. *)
Theorem C19_value_without_copy_partial : forall (V : Type) (rnd : nat -> V -> V) d hi l,
  (forall p q v, p <= q -> rnd p (rnd q v) = rnd p v) ->
  forallb (fun o => negb (is_copy o)) l = true -> value_consistent rnd (prun rnd (construct rnd d hi) l).
Proof. exact @no_copy_value. Qed.
Print Assumptions C19_value_without_copy_partial.

(** The highest-precision coefficients never change, whatever is done, copies included. *)
Theorem C19_highest_unchanged : forall (V : Type) (rnd : nat -> V -> V) l s,
  highest (prun rnd s l) = highest s.
Proof. exact @highest_unchanged. Qed.
Print Assumptions C19_highest_unchanged.

(** Lowering and raising again recovers the original digits at the new precision, from any state. *)
Theorem C19_raising_recovers_digits : forall (V : Type) (rnd : nat -> V -> V) s q p, q < p ->
  working (prun rnd s [SetPrecision q; SetPrecision p]) = map (set_prec rnd p) (highest s)
  /\ reported (prun rnd s [SetPrecision q; SetPrecision p]) = p.
Proof. exact @raise_restores. Qed.
Print Assumptions C19_raising_recovers_digits.

(** Any actual change of precision makes the patch consistent, also after a copy. *)
Theorem C19_change_makes_consistent : forall (V : Type) (rnd : nat -> V -> V) s p, reported s <> p ->
  consistent (pstep rnd s (SetPrecision p)) /\ reported (pstep rnd s (SetPrecision p)) = p.
Proof. exact @changed_precision_consistent. Qed.
Print Assumptions C19_change_makes_consistent.

(** A freshly constructed copy evaluates with coefficients of another precision than it reports, and
    asking for the reported precision does not repair it. *)
Theorem C19_copy_refuted : exists (d : nat) (hi : list (@mpnum nat)) l,
  ~ consistent (prun (fun _ v => v) (construct (fun _ v => v) d hi) l).
Proof. exact copy_inconsistent. Qed.
Print Assumptions C19_copy_refuted.

Theorem C19_copy_not_repaired_refuted : exists (d : nat) (hi : list (@mpnum nat)) p,
  let s := prun (fun _ v => v) (construct (fun _ v => v) d hi) [CopyConstruct; SetPrecision p] in
  reported s = p /\ ~ consistent s.
Proof. exact copy_not_repaired. Qed.
Print Assumptions C19_copy_not_repaired_refuted.

(** Truncation of a natural number to multiples satisfies the rounding law, and a history. *)
Example C19_concrete :
  let rnd p v := v - v mod (10 ^ (4 - p)) in
  let s := prun rnd (construct rnd 2 [mkNum 1234 4]) [SetPrecision 1; SetDefault 3; SetPrecision 3] in
  working s = [mkNum 1230 3] /\ reported s = 3.
Proof. vm_compute. split; reflexivity. Qed.
