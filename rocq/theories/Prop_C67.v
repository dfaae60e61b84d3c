(** C67: bringing samples to one precision. *)
From Coq Require Import List Arith Lia Bool.
From Verif Require Import PatchPrecision Uniform.
Import ListNotations.

(** When each sample has coordinates, all of one precision, then after the call every time and every coordinate has the
    precision returned, which is also the default precision; no number lost digits; and the precision returned is the
    default precision, nothing having changed, or that of one of the numbers (or 0, if there are none). *)
Theorem C67_uniform_partial : forall (V : Type) (rnd : nat -> V -> V) d times samples, Forall regular samples ->
  exists o, ensure rnd d times samples = Value o /\ length (samples' o) = length samples /\ default' o = returned o /\
    let numbers := times ++ concat samples in
    let numbers' := times' o ++ concat (samples' o) in
    Forall (fun y => prec y = returned o) numbers' /\
    Forall2 (fun x y => y = x \/ (prec x <= prec y /\ val y = rnd (prec y) (val x))) numbers numbers' /\
    ((returned o = d /\ numbers' = numbers) \/ (exists x, In x numbers /\ prec x = returned o) \/ returned o = 0).
Proof.
  intros V rnd d times samples H. destruct (ensure_spec rnd d times samples H) as [o [E [L [_ [A [B [C D]]]]]]].
  exists o. repeat (split; [assumption|]). exact D.
Qed.
Print Assumptions C67_uniform_partial.

(** The same with derivatives, provided the times have the default precision or some coordinate has not. *)
Theorem C67_uniform3_partial : forall (V : Type) (rnd : nat -> V -> V) d times samples derivatives,
  Forall regular samples -> Forall regular derivatives ->
  (forall t, In t times -> prec t = d) \/ (exists x, In x (concat (samples ++ derivatives)) /\ prec x <> d) ->
  exists o, ensure3 rnd d times samples derivatives = Value o /\ length (samples' o) = length samples /\
    length (derivatives' o) = length derivatives /\ default' o = returned o /\
    let numbers := times ++ concat (samples ++ derivatives) in
    let numbers' := times' o ++ concat (samples' o ++ derivatives' o) in
    Forall (fun y => prec y = returned o) numbers' /\
    Forall2 (fun x y => y = x \/ (prec x <= prec y /\ val y = rnd (prec y) (val x))) numbers numbers' /\
    ((returned o = d /\ numbers' = numbers) \/ (exists x, In x numbers /\ prec x = returned o) \/ returned o = 0).
Proof.
  intros V rnd d times samples derivatives H H' Ht.
  destruct (ensure3_spec rnd d times samples derivatives H H' Ht) as [o [E [L [L' [A [B [C D]]]]]]].
  exists o. repeat (split; [assumption|]). exact D.
Qed.
Print Assumptions C67_uniform3_partial.

Definition at_ (p v : nat) : mpnum (V := nat) := mkNum v p.

Example C67_uniform_case : Forall regular [[at_ 20 1; at_ 20 2]; [at_ 30 3; at_ 30 4]] /\
  exists o, ensure (fun _ v => v) 16 [at_ 16 9] [[at_ 20 1; at_ 20 2]; [at_ 30 3; at_ 30 4]] = Value o /\ returned o = 30.
Proof.
  split; [|eexists; split; reflexivity].
  constructor; [exists (at_ 20 1), [at_ 20 2]; split; [reflexivity|repeat constructor]|].
  constructor; [exists (at_ 30 3), [at_ 30 4]; split; [reflexivity|repeat constructor]|constructor].
Qed.

(** The trackers of fixed precision change nothing and get the largest precision among the samples. *)
Theorem C67_fixed : forall (V : Type) (samples derivatives : list (sample (V := V))),
  Forall regular samples -> Forall regular derivatives ->
  exists m, ensure3_fixed samples derivatives = Value m /\ (forall x, In x (concat (samples ++ derivatives)) -> prec x <= m) /\
    (m = 0 \/ exists x, In x (concat (samples ++ derivatives)) /\ prec x = m).
Proof. exact @ensure_fixed_spec. Qed.
Print Assumptions C67_fixed.

(** A sample without coordinates makes the call throw when nothing before it has changed. *)
Theorem C67_empty : forall (V : Type) (rnd : nat -> V -> V) d times before after, (forall t, In t times -> prec t = d) ->
  Forall regular before -> (forall x, In x (concat before) -> prec x = d) -> ensure rnd d times (before ++ [] :: after) = RuntimeError.
Proof. exact @ensure_empty. Qed.
Print Assumptions C67_empty.

(** Only the first coordinate is looked at: a later one may keep another precision, *)
Theorem C67_hidden_refuted : exists (samples : list (list (mpnum (V := nat)))) o, ensure (fun _ v => v) 16 [] samples = Value o /\
  exists x, In x (concat (samples' o)) /\ prec x <> returned o.
Proof.
  exists [[at_ 16 1; at_ 50 2]]. eexists. split; [reflexivity|]. exists (at_ 50 2). split; [right; left; reflexivity|]. discriminate.
Qed.
Print Assumptions C67_hidden_refuted.

(** or lose digits. *)
Theorem C67_digits_refuted : exists (samples : list (list (mpnum (V := nat)))) o, ensure (fun _ v => v) 16 [] samples = Value o /\
  exists x, In x (concat samples) /\ returned o < prec x /\ Forall (fun y => prec y = returned o) (concat (samples' o)).
Proof.
  exists [[at_ 20 1; at_ 50 2]]. eexists. split; [reflexivity|]. exists (at_ 50 2). split; [right; left; reflexivity|].
  cbn [returned]. split; [unfold max2; cbn; lia|repeat constructor].
Qed.
Print Assumptions C67_digits_refuted.

(** With derivatives the times are not looked at: they keep their precision when everything else is at the default. *)
Theorem C67_times_refuted : exists (times : list (mpnum (V := nat))) samples derivatives o,
  Forall regular samples /\ Forall regular derivatives /\
  ensure3 (fun _ v => v) 16 times samples derivatives = Value o /\ exists x, In x (times' o) /\ prec x <> returned o.
Proof.
  exists [at_ 30 9], [[at_ 16 1]], [[at_ 16 2]]. eexists.
  split; [constructor; [exists (at_ 16 1), []; split; [reflexivity|constructor]|constructor]|].
  split; [constructor; [exists (at_ 16 2), []; split; [reflexivity|constructor]|constructor]|].
  split; [reflexivity|]. exists (at_ 30 9). split; [left; reflexivity|]. discriminate.
Qed.
Print Assumptions C67_times_refuted.
