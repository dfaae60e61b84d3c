(** The reasons which the power series endgame tells: the converse of a part of EgEventsProof.v. *)
From Coq Require Import List ZArith Lia Reals Bool Arith.
From Coquelicot Require Import Complex.
From Verif Require Import Base ComplexField Newton Endgame EgEvents EgEventsProof.
Import ListNotations.
Local Open Scope R_scope.

Section W.
Variable cfg : config.
Variable target : C.
Variable track : nat -> C -> C -> vec -> code * vec.
Variable refine : nat -> vec -> C -> code * vec.
Variable dehom : vec -> vec.
Variable extrapolate : nat -> list C -> list vec -> vec.
Notation loop := (emit_ps_loop cfg target track refine dehom extrapolate).
Notation emit := (emit_ps_run cfg target track refine dehom extrapolate).

Hypothesis Ht : forall k t t' y, ~ In (fst (track k t t' y)) [MinTrackTimeReached; SecurityMaxNormReached].
Hypothesis Hr : forall k y t, ~ In (fst (refine k y t)) [MinTrackTimeReached; SecurityMaxNormReached].

Definition reasons (l : list eg_note) (o : out (code * est)) : Prop :=
  match o with
  | Ok (c, _) =>
      (c = MinTrackTimeReached -> told EMinTrackTimeReached l <> []) /\
      (c = SecurityMaxNormReached -> told ESecurityMaxNormReached l <> [])
  | _ => True
  end.

Lemma ne_app : forall {A} (l l' : list A), l' <> [] -> l ++ l' <> [].
Proof. intros A [|a l] l' H; [exact H|discriminate]. Qed.

Lemma reasons_app : forall l l' o, reasons l' o -> reasons (l ++ l') o.
Proof.
  intros l l' [[c s]| | | |] H; try exact I. destruct H as [A B].
  split; intros X; rewrite told_app; apply ne_app; auto.
Qed.

Lemma loop_reasons : forall fuel err prev s,
  reasons (fst (loop fuel err prev s)) (snd (loop fuel err prev s)).
Proof.
  induction fuel; intros; cbn [emit_ps_loop]; destruct (lt_b _ err); cbn [fst snd];
    try exact I; try (split; discriminate).
  destruct (ps_advance _ _ _ _ s) as [[c s1]| | | |] eqn:Ea; try exact I.
  destruct (is_success c) eqn:Es; cbn zeta.
  - destruct (Z.leb _ _ && _); cbn [fst snd].
    + apply reasons_app. split; [discriminate|]. intros _. cbn. discriminate.
    + specialize (IHfuel (dist (fst (ps_approximation refine extrapolate s1)) prev)
        (fst (ps_approximation refine extrapolate s1)) (snd (ps_approximation refine extrapolate s1))).
      destruct (loop fuel _ _ _) as [l2 o]. cbn [fst snd] in *. apply reasons_app, IHfuel.
  - cbn [fst snd]. unfold ps_advance in Ea. unfold emit_advance.
    destruct (back (ps_t s)) as [t|], (back (ps_x s)) as [x|]; try discriminate.
    destruct (lt_b _ _); cbn zeta in Ea.
    { injection Ea as <- <-. split; [intros _; cbn; discriminate|discriminate]. }
    pose proof (Ht (ntrack s) t (midpoint_time cfg target t) x) as H1.
    set (r := track _ _ _ _) in *.
    pose proof (Hr (nrefine s) (snd r) (midpoint_time cfg target t)) as H2.
    destruct (is_success (fst r)); [destruct (is_success (fst (refine _ _ _)))|].
    + injection Ea as <- <-. discriminate.
    + injection Ea as <- <-. split; intros X; exfalso; apply H2; rewrite X; cbn; tauto.
    + injection Ea as <- <-. split; intros X; exfalso; apply H1; rewrite X; cbn; tauto.
Qed.

Lemma initial_loop_code : forall k s c s', initial_loop cfg target track k s = Ok (c, s') ->
  ~ In c [MinTrackTimeReached; SecurityMaxNormReached].
Proof.
  induction k; intros s c s' H; cbn [initial_loop] in H.
  { injection H as <- <-. cbn. intros [X|[X|[]]]; discriminate. }
  destruct (back (ps_t s)) as [t|], (back (ps_x s)) as [x|]; try discriminate. cbn zeta in H.
  destruct (is_success _); [exact (IHk _ _ _ H)|]. injection H as <- <-. apply Ht.
Qed.

Theorem run_reasons : forall old fuel start x,
  reasons (fst (emit old fuel start x)) (snd (emit old fuel start x)).
Proof.
  intros. unfold emit_ps_run, initial_samples.
  destruct (initial_loop _ _ _ _ _) as [[c s1]| | | |s1] eqn:Ei; try exact I.
  destruct (is_success c) eqn:Es; cbn zeta.
  - pose proof (loop_reasons fuel 1 (fst (ps_approximation refine extrapolate s1))
      (snd (ps_approximation refine extrapolate s1))) as G.
    destruct (loop fuel _ _ _) as [l2 o]. cbn [fst snd] in *. apply reasons_app, G.
  - apply initial_loop_code in Ei. cbn [fst snd]. split; intros ->; exfalso; apply Ei; cbn; tauto.
Qed.
End W.
