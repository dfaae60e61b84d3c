(** Precision bookkeeping of a patch.
    Models core/include/bertini2/system/patch.hpp:95-185, 242-279, 480-495. *)
From Coq Require Import List Arith Lia Bool.
Import ListNotations.

Section PatchPrecision.
  (** [V] is the type of exact values, [rnd p v] the value [v] becomes when its precision is set to
      [p] digits (MPFR rounding; arbitrary here). *)
  Context {V : Type} (rnd : nat -> V -> V).

  (** a multiprecision number carries its value and its own precision *)
  Record mpnum := mkNum { val : V; prec : nat }.

  (** [x.precision(p)] *)
  Definition set_prec (p : nat) (x : mpnum) : mpnum := mkNum (rnd p (val x)) p.

  (** patch.hpp:513-519 (members), all groups concatenated; [default] is the global
      [DefaultPrecision()].  The double precision coefficients never change and are left out. *)
  Record pstate := mkP {
    default : nat;
    highest : list mpnum;
    working : list mpnum;
    reported : nat
  }.

  Inductive pop :=
  | SetDefault (d : nat)        (* DefaultPrecision(d) called by anybody *)
  | SetPrecision (p : nat)      (* patch.Precision(p) *)
  | CopyConstruct.              (* continue with Patch(patch) *)

  (** patch.hpp:147-185: constructor; the random values, at MaxPrecisionAllowed, are arbitrary *)
  Definition construct (d : nat) (hi : list mpnum) : pstate :=
    mkP d hi (map (set_prec d) hi) d.

  (** patch.hpp:254-279 *)
  Definition do_set_precision (p : nat) (s : pstate) : pstate :=
    if reported s =? p then s
    else if reported s <? p
    then mkP (default s) (highest s) (map (set_prec p) (highest s)) p
    else mkP (default s) (highest s) (map (set_prec p) (working s)) p.

  (** patch.hpp:102-135: the working coefficients are copies of the highest precision ones, at their
      precision (line 130); the reported precision is the default (line 105). *)
  Definition do_copy (s : pstate) : pstate :=
    mkP (default s) (highest s) (highest s) (default s).

  Definition pstep (s : pstate) (o : pop) : pstate :=
    match o with
    | SetDefault d => mkP d (highest s) (working s) (reported s)
    | SetPrecision p => do_set_precision p s
    | CopyConstruct => do_copy s
    end.

  Definition prun (s : pstate) (l : list pop) : pstate := fold_left pstep l s.

  (** patch.hpp:480-495 on the coefficients *)
  Definition same_patch (a b : pstate) : Prop := highest a = highest b.

  (** ** Specification *)
  (** the coefficients used for evaluation have the precision the patch reports *)
  Definition consistent (s : pstate) : Prop := Forall (fun c => prec c = reported s) (working s).

  Definition is_copy (o : pop) : bool := match o with CopyConstruct => true | _ => false end.

  (** ** Lemmas *)
  Lemma map_set_prec_consistent : forall p l, Forall (fun c => prec c = p) (map (set_prec p) l).
  Proof. induction l; cbn; constructor; auto. Qed.

  Lemma prun_app : forall s a b, prun s (a ++ b) = prun (prun s a) b.
  Proof. intros. apply fold_left_app. Qed.

  Lemma pstep_consistent : forall s o, is_copy o = false -> consistent s -> consistent (pstep s o).
  Proof.
    intros s [d|p|] Hc H; cbn in *; try discriminate; [exact H|].
    unfold do_set_precision.
    destruct (reported s =? p); [exact H|].
    destruct (reported s <? p); unfold consistent; cbn; apply map_set_prec_consistent.
  Qed.

  Lemma no_copy_consistent : forall d hi l,
    forallb (fun o => negb (is_copy o)) l = true -> consistent (prun (construct d hi) l).
  Proof.
    intros d hi l. rewrite <- (rev_involutive l). induction (rev l) as [|o r IH]; intro H.
    - unfold consistent; cbn. apply map_set_prec_consistent.
    - cbn [rev] in *. rewrite forallb_app in H. apply andb_prop in H as [H1 H2].
      rewrite prun_app. cbn. apply pstep_consistent.
      + cbn in H2. destruct (is_copy o); [discriminate|reflexivity].
      + apply IH; exact H1.
  Qed.

  Lemma highest_unchanged : forall l s, highest (prun s l) = highest s.
  Proof.
    induction l as [|o l IH]; intros s; [reflexivity|].
    cbn. fold (prun (pstep s o) l). rewrite IH. destruct o; cbn; try reflexivity.
    unfold do_set_precision. destruct (reported s =? p); [reflexivity|].
    destruct (reported s <? p); reflexivity.
  Qed.

  Lemma changed_precision_consistent : forall s p, reported s <> p ->
    consistent (pstep s (SetPrecision p)) /\ reported (pstep s (SetPrecision p)) = p.
  Proof.
    intros s p H. cbn. unfold do_set_precision.
    destruct (Nat.eqb_spec (reported s) p); [contradiction|].
    destruct (reported s <? p); unfold consistent; cbn; split; auto using map_set_prec_consistent.
  Qed.

  Lemma raise_restores : forall s q p, q < p ->
    working (prun s [SetPrecision q; SetPrecision p]) = map (set_prec p) (highest s)
    /\ reported (prun s [SetPrecision q; SetPrecision p]) = p.
  Proof.
    intros s q p H. cbn [prun fold_left pstep].
    assert (E : forall s', reported s' = q -> highest s' = highest s ->
       working (do_set_precision p s') = map (set_prec p) (highest s) /\ reported (do_set_precision p s') = p).
    { intros s' Hr Hh. unfold do_set_precision. rewrite Hr.
      destruct (Nat.eqb_spec q p); [lia|]. destruct (Nat.ltb_spec q p); [|lia].
      cbn. rewrite Hh. auto. }
    apply E.
    - unfold do_set_precision. destruct (Nat.eqb_spec (reported s) q); [assumption|].
      destruct (reported s <? q); reflexivity.
    - unfold do_set_precision. destruct (reported s =? q); [reflexivity|].
      destruct (reported s <? q); reflexivity.
  Qed.

  (** the value used depends only on the highest precision one when rounding twice is rounding once *)
  Definition value_consistent (s : pstate) : Prop :=
    map val (working s) = map (fun c => rnd (reported s) (val c)) (highest s).

  Lemma no_copy_value : forall d hi l,
    (forall p q v, p <= q -> rnd p (rnd q v) = rnd p v) ->
    forallb (fun o => negb (is_copy o)) l = true -> value_consistent (prun (construct d hi) l).
  Proof.
    intros d hi l Hr. rewrite <- (rev_involutive l). induction (rev l) as [|o r IH]; intro H.
    - unfold value_consistent; cbn. rewrite map_map. reflexivity.
    - cbn [rev] in *. rewrite forallb_app in H. apply andb_prop in H as [H1 H2].
      specialize (IH H1). rewrite prun_app. cbn. set (s := prun _ _) in *. clearbody s.
      unfold value_consistent in *. destruct o as [d'|p|]; cbn in H2 |- *; [exact IH| |discriminate].
      unfold do_set_precision.
      destruct (Nat.eqb_spec (reported s) p); [exact IH|].
      destruct (Nat.ltb_spec (reported s) p); cbn.
      + rewrite map_map. reflexivity.
      + rewrite map_map. cbn. rewrite <- (map_map val (rnd p)). rewrite IH, map_map.
        apply map_ext. intro a. apply Hr. lia.
  Qed.
End PatchPrecision.

(** a copy made while the default is 16 digits of a patch whose coefficients have 1000 digits *)
Lemma copy_inconsistent : exists (d : nat) (hi : list (@mpnum nat)) l,
  ~ consistent (prun (fun _ v => v) (construct (fun _ v => v) d hi) l).
Proof.
  exists 16, [mkNum 7 40], [CopyConstruct]. cbn. intro H. inversion H; subst. cbn in *. lia.
Qed.

(** ... and asking for the precision which is already reported does not repair it *)
Lemma copy_not_repaired : exists (d : nat) (hi : list (@mpnum nat)) p,
  let s := prun (fun _ v => v) (construct (fun _ v => v) d hi) [CopyConstruct; SetPrecision p] in
  reported s = p /\ ~ consistent s.
Proof.
  exists 16, [mkNum 7 40], 16. cbn. split; [reflexivity|]. intro H. inversion H; subst. cbn in *. lia.
Qed.
