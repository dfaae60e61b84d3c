(** Bringing samples to one precision.

    Models core/include/bertini2/trackers/adaptive_precision_utilities.hpp:41-172,
    trackers/fixed_precision_utilities.hpp:40-101 and eigen_extensions.hpp:291-298.

    A multiprecision number is its value with its precision (PatchPrecision.v), rounded by an arbitrary function. A sample
    is the list of its coordinates. *)
From Coq Require Import List Arith Lia Bool.
From Verif Require Import PatchPrecision.
Import ListNotations.

Section Uniform.
  Context {V : Type} (rnd : nat -> V -> V).
  Notation num := (mpnum (V := V)).
  Definition sample := list num.

  Inductive result (A : Type) := Value (a : A) | RuntimeError | AssertionFailed.
  Arguments Value {A}. Arguments RuntimeError {A}. Arguments AssertionFailed {A}.
  Definition bind {A B : Type} (x : result A) (f : A -> result B) : result B :=
    match x with Value a => f a | RuntimeError => RuntimeError | AssertionFailed => AssertionFailed end.

  (** adaptive_precision_utilities.hpp:48-67 SetPrecision *)
  Definition set_samples (p : nat) (l : list sample) : list sample := map (map (set_prec rnd p)) l.
  Definition set_times (p : nat) (l : list num) : list num := map (set_prec rnd p) l.

  (** adaptive_precision_utilities.hpp:77-100 MaxPrecision; s(0) of an empty sample is an assertion of Eigen *)
  Fixpoint max_samples_from (m : nat) (l : list sample) : result nat :=
    match l with
    | [] => Value m
    | [] :: _ => AssertionFailed
    | (c :: _) :: l' => max_samples_from (if m <? prec c then prec c else m) l'
    end.
  Definition max_samples (l : list sample) : result nat := max_samples_from 0 l.
  Definition max_times (l : list num) : nat := fold_left (fun m t => if m <? prec t then prec t else m) l 0.

  (** eigen_extensions.hpp:291-298 *)
  Definition precision_of (s : sample) : result nat := match s with [] => RuntimeError | c :: _ => Value (prec c) end.

  (** std::any_of over samples: stops at the first that differs, and an exception comes out *)
  Fixpoint any_differs (d : nat) (l : list sample) : result bool :=
    match l with
    | [] => Value false
    | s :: l' => bind (precision_of s) (fun p => if p =? d then any_differs d l' else Value true)
    end.
  Definition times_differ (d : nat) (l : list num) : bool := existsb (fun t => negb (prec t =? d)) l.

  Record outcome := mkOutcome { returned : nat; default' : nat; times' : list num; samples' : list sample; derivatives' : list sample }.

  Definition max2 (a b : nat) : nat := Nat.max a b.

  (** adaptive_precision_utilities.hpp:128-145 EnsureAtUniformPrecision(times, samples), when the default precision is d *)
  Definition ensure (d : nat) (times : list num) (samples : list sample) : result outcome :=
    bind (if times_differ d times then Value true else any_differs d samples) (fun differs =>
    if differs then
      bind (max_samples samples) (fun m =>
      let p := max2 m (max_times times) in
      Value (mkOutcome p p (set_times p times) (set_samples p samples) []))
    else Value (mkOutcome d d times samples [])).

  (** adaptive_precision_utilities.hpp:160-180 EnsureAtUniformPrecision(times, samples, derivatives) *)
  Definition ensure3 (d : nat) (times : list num) (samples derivatives : list sample) : result outcome :=
    bind (any_differs d samples) (fun b => bind (if b then Value true else any_differs d derivatives) (fun differs =>
    if differs then
      bind (max_samples samples) (fun m => bind (max_samples derivatives) (fun m' =>
      let p := max2 (max2 m (max_times times)) m' in
      Value (mkOutcome p p (set_times p times) (set_samples p samples) (set_samples p derivatives))))
    else Value (mkOutcome d d times samples derivatives))).

  (** fixed_precision_utilities.hpp:85-101: nothing is changed *)
  Definition ensure_fixed (samples : list sample) : result nat := max_samples samples.
  Definition ensure3_fixed (samples derivatives : list sample) : result nat :=
    bind (max_samples samples) (fun m => bind (max_samples derivatives) (fun m' => Value (max2 m m'))).

  (** ** Specification *)
  (** all coordinates of a sample have the same precision, and there is one *)
  Definition regular (s : sample) : Prop := exists c s', s = c :: s' /\ Forall (fun x => prec x = prec c) s'.
  Definition all_numbers (times : list num) (samples : list sample) : list num := times ++ concat samples.
  (** nothing lost: each number is unchanged, or rounded to a precision no smaller than its own *)
  Definition kept (x y : num) : Prop := y = x \/ (prec x <= prec y /\ val y = rnd (prec y) (val x)).

  (** ** Proofs *)
  Lemma bind_value : forall (A B : Type) (a : A) (f : A -> result B), bind (Value a) f = f a.
  Proof. reflexivity. Qed.

  Lemma max_times_spec : forall l, (forall x, In x l -> prec x <= max_times l) /\
    (max_times l = 0 \/ exists x, In x l /\ prec x = max_times l).
  Proof.
    intro l. unfold max_times. assert (G : forall l m, m <= fold_left (fun m t => if m <? prec t then prec t else m) l m /\
      (forall x : num, In x l -> prec x <= fold_left (fun m t => if m <? prec t then prec t else m) l m) /\
      (fold_left (fun m t => if m <? prec t then prec t else m) l m = m \/
       exists x, In x l /\ prec x = fold_left (fun m t => if m <? prec t then prec t else m) l m)).
    { clear l. induction l as [|y l IH]; intro m; cbn [fold_left]; [split; [lia|split; [contradiction|left; reflexivity]]|].
      specialize (IH (if m <? prec y then prec y else m)). destruct IH as [A [B C]]. destruct (Nat.ltb_spec m (prec y)) as [L|L].
      - split; [lia|]. split; [intros x [->|H]; [lia|exact (B x H)]|]. destruct C as [C|[x [Hx Ex]]]; [|right; exists x; cbn; auto].
        right. exists y. split; [left; reflexivity|]. symmetry. exact C.
      - split; [lia|]. split; [intros x [->|H]; [lia|exact (B x H)]|]. destruct C as [C|[x [Hx Ex]]]; [left; exact C|right; exists x; cbn; auto]. }
    destruct (G l 0) as [_ [B C]]. auto.
  Qed.

  Lemma max_samples_regular : forall l, Forall regular l -> exists m, max_samples l = Value m /\
    (forall x, In x (concat l) -> prec x <= m) /\ (m = 0 \/ exists x, In x (concat l) /\ prec x = m).
  Proof.
    intro l. unfold max_samples. assert (G : forall l m0, Forall regular l -> exists m, max_samples_from m0 l = Value m /\ m0 <= m /\
      (forall x, In x (concat l) -> prec x <= m) /\ (m = m0 \/ exists x, In x (concat l) /\ prec x = m)).
    { clear l. induction l as [|s l IH]; intros m0 H; cbn [max_samples_from concat].
      - exists m0. split; [reflexivity|]. split; [lia|]. split; [contradiction|left; reflexivity].
      - inversion H as [|? ? [c [s' [-> U]]] H']; subst. destruct (IH (if m0 <? prec c then prec c else m0) H') as [m [E [L [B C]]]].
        exists m. split; [exact E|]. rewrite Forall_forall in U. destruct (Nat.ltb_spec m0 (prec c)) as [L1|L1].
        + split; [lia|]. split.
          * intros x Hx. apply in_app_or in Hx as [[->|Hx]|Hx]; [lia|rewrite (U x Hx); lia|exact (B x Hx)].
          * right. destruct C as [->|[x [Hx Ex]]]; [exists c; split; [left; reflexivity|reflexivity]|].
            exists x. split; [apply in_or_app; right; exact Hx|exact Ex].
        + split; [lia|]. split.
          * intros x Hx. apply in_app_or in Hx as [[->|Hx]|Hx]; [lia|rewrite (U x Hx); lia|exact (B x Hx)].
          * destruct C as [->|[x [Hx Ex]]]; [left; reflexivity|]. right. exists x. split; [apply in_or_app; right; exact Hx|exact Ex]. }
    intro H. destruct (G l 0 H) as [m [E [_ [B C]]]]. exists m. auto.
  Qed.

  Lemma any_differs_regular : forall d l, Forall regular l ->
    (any_differs d l = Value true) \/ (any_differs d l = Value false /\ forall x, In x (concat l) -> prec x = d).
  Proof.
    intros d l H. induction H as [|s l [c [s' [-> U]]] H IH]; cbn [any_differs concat]; [right; split; [reflexivity|contradiction]|].
    cbn [precision_of bind]. destruct (Nat.eqb_spec (prec c) d) as [E|N]; [|left; reflexivity].
    destruct IH as [IH|[IH B]]; [left; exact IH|]. right. split; [exact IH|]. rewrite Forall_forall in U.
    intros x Hx. apply in_app_or in Hx as [[->|Hx]|Hx]; [exact E|rewrite (U x Hx); exact E|exact (B x Hx)].
  Qed.

  Lemma times_differ_spec : forall d l, times_differ d l = false -> forall x, In x l -> prec x = d.
  Proof.
    intros d l H x Hx. unfold times_differ in H. destruct (Nat.eqb_spec (prec x) d) as [E|N]; [exact E|].
    assert (existsb (fun t => negb (prec t =? d)) l = true); [|congruence]. apply existsb_exists. exists x. split; [exact Hx|].
    apply Nat.eqb_neq in N. rewrite N. reflexivity.
  Qed.

  Lemma concat_map_set : forall p l, concat (set_samples p l) = map (set_prec rnd p) (concat l).
  Proof. intros p l. unfold set_samples. rewrite concat_map. reflexivity. Qed.

  Lemma Forall2_map_r : forall (A B : Type) (R : A -> B -> Prop) (f : A -> B) l, (forall x, In x l -> R x (f x)) -> Forall2 R l (map f l).
  Proof. induction l as [|x l IH]; intro H; constructor; [apply H; left; reflexivity|apply IH; intros y Hy; apply H; right; exact Hy]. Qed.
  Lemma Forall2_same : forall (A : Type) (R : A -> A -> Prop) l, (forall x, R x x) -> Forall2 R l l.
  Proof. induction l; constructor; auto. Qed.

  Definition ensured (d : nat) (numbers : list num) (result : nat) (dflt : nat) (numbers' : list num) : Prop :=
    dflt = result /\ Forall (fun y => prec y = result) numbers' /\ Forall2 kept numbers numbers' /\
    ((result = d /\ numbers' = numbers) \/ (exists x, In x numbers /\ prec x = result) \/ result = 0).

  Lemma raised : forall d numbers p, (forall x, In x numbers -> prec x <= p) -> (p = 0 \/ exists x, In x numbers /\ prec x = p) ->
    ensured d numbers p p (map (set_prec rnd p) numbers).
  Proof.
    intros d numbers p B C. split; [reflexivity|]. split; [|split].
    - apply Forall_forall. intros y Hy. apply in_map_iff in Hy as [x [<- _]]. reflexivity.
    - apply Forall2_map_r. intros x Hx. right. cbn. split; [exact (B x Hx)|reflexivity].
    - destruct C as [C|C]; auto.
  Qed.

  Lemma already : forall d numbers, (forall x, In x numbers -> prec x = d) -> ensured d numbers d d numbers.
  Proof.
    intros d numbers H. split; [reflexivity|]. split; [apply Forall_forall; exact H|]. split; [apply Forall2_same; left; reflexivity|].
    left. split; reflexivity.
  Qed.

  Lemma ensure_spec : forall d times samples, Forall regular samples ->
    exists o, ensure d times samples = Value o /\ length (samples' o) = length samples /\ derivatives' o = [] /\
      ensured d (all_numbers times samples) (returned o) (default' o) (all_numbers (times' o) (samples' o)).
  Proof.
    intros d times samples H. unfold ensure.
    assert (R : exists p, bind (max_samples samples) (fun m => let p := max2 m (max_times times) in
                  Value (mkOutcome p p (set_times p times) (set_samples p samples) [])) =
                Value (mkOutcome p p (set_times p times) (set_samples p samples) []) /\
                ensured d (all_numbers times samples) p p (all_numbers (set_times p times) (set_samples p samples))).
    { destruct (max_samples_regular samples H) as [m [E [B C]]]. destruct (max_times_spec times) as [Bt Ct].
      exists (max2 m (max_times times)). rewrite E. split; [reflexivity|]. unfold all_numbers. rewrite concat_map_set. unfold set_times.
      rewrite <- map_app. apply raised.
      - intros x Hx. unfold max2. apply in_app_or in Hx as [Hx|Hx]; [specialize (Bt x Hx)|specialize (B x Hx)]; lia.
      - unfold max2. destruct (Nat.max_spec m (max_times times)) as [[_ ->]|[_ ->]].
        + destruct Ct as [->|[x [Hx Ex]]]; [left; reflexivity|right; exists x; split; [apply in_or_app; left; exact Hx|exact Ex]].
        + destruct C as [->|[x [Hx Ex]]]; [left; reflexivity|right; exists x; split; [apply in_or_app; right; exact Hx|exact Ex]]. }
    destruct R as [p [R1 R2]]. cbv zeta in R1. cbv zeta. destruct (times_differ d times) eqn:Td; rewrite ?bind_value; cbv beta iota.
    - rewrite R1. eexists. split; [reflexivity|]. split; [apply map_length|]. split; [reflexivity|exact R2].
    - destruct (any_differs_regular d samples H) as [->|[-> A]]; rewrite ?bind_value; cbv beta iota.
      + rewrite R1. eexists. split; [reflexivity|]. split; [apply map_length|]. split; [reflexivity|exact R2].
      + eexists. split; [reflexivity|]. split; [reflexivity|]. split; [reflexivity|]. apply already. intros x Hx. unfold all_numbers in Hx.
        apply in_app_or in Hx as [Hx|Hx]; [exact (times_differ_spec d times Td x Hx)|exact (A x Hx)].
  Qed.

  Lemma ensure3_spec : forall d times samples derivatives, Forall regular samples -> Forall regular derivatives ->
    (forall t, In t times -> prec t = d) \/ (exists x, In x (concat (samples ++ derivatives)) /\ prec x <> d) ->
    exists o, ensure3 d times samples derivatives = Value o /\ length (samples' o) = length samples /\
      length (derivatives' o) = length derivatives /\
      ensured d (all_numbers times (samples ++ derivatives)) (returned o) (default' o) (all_numbers (times' o) (samples' o ++ derivatives' o)).
  Proof.
    intros d times samples derivatives H H' Ht. unfold ensure3.
    assert (R : exists p, bind (max_samples samples) (fun m => bind (max_samples derivatives) (fun m' =>
                  let p := max2 (max2 m (max_times times)) m' in
                  Value (mkOutcome p p (set_times p times) (set_samples p samples) (set_samples p derivatives)))) =
                Value (mkOutcome p p (set_times p times) (set_samples p samples) (set_samples p derivatives)) /\
                ensured d (all_numbers times (samples ++ derivatives)) p p (all_numbers (set_times p times) (set_samples p samples ++ set_samples p derivatives))).
    { destruct (max_samples_regular samples H) as [m [E [B C]]]. destruct (max_samples_regular derivatives H') as [m' [E' [B' C']]].
      destruct (max_times_spec times) as [Bt Ct].
      exists (max2 (max2 m (max_times times)) m'). rewrite E, E'. split; [reflexivity|]. unfold all_numbers. unfold set_times.
      rewrite !concat_app, !concat_map_set, <- !map_app. apply raised.
      - intros x Hx. unfold max2. apply in_app_or in Hx as [Hx|Hx]; [specialize (Bt x Hx); lia|].
        apply in_app_or in Hx as [Hx|Hx]; [specialize (B x Hx)|specialize (B' x Hx)]; lia.
      - unfold max2. destruct (Nat.max_spec (Nat.max m (max_times times)) m') as [[_ ->]|[_ ->]].
        + destruct C' as [->|[x [Hx Ex]]]; [left; reflexivity|right; exists x; split; [apply in_or_app; right; apply in_or_app; right; exact Hx|exact Ex]].
        + destruct (Nat.max_spec m (max_times times)) as [[_ ->]|[_ ->]].
          * destruct Ct as [->|[x [Hx Ex]]]; [left; reflexivity|right; exists x; split; [apply in_or_app; left; exact Hx|exact Ex]].
          * destruct C as [->|[x [Hx Ex]]]; [left; reflexivity|right; exists x; split; [apply in_or_app; right; apply in_or_app; left; exact Hx|exact Ex]]. }
    destruct R as [p [R1 R2]]. cbv zeta in R1. cbv zeta.
    assert (Done : exists o, Value (mkOutcome p p (set_times p times) (set_samples p samples) (set_samples p derivatives)) = Value o /\
      length (samples' o) = length samples /\ length (derivatives' o) = length derivatives /\
      ensured d (all_numbers times (samples ++ derivatives)) (returned o) (default' o) (all_numbers (times' o) (samples' o ++ derivatives' o))).
    { eexists. split; [reflexivity|]. split; [apply map_length|]. split; [apply map_length|exact R2]. }
    destruct (any_differs_regular d samples H) as [->|[-> A]]; rewrite ?bind_value; cbv beta iota.
    - rewrite R1. exact Done.
    - destruct (any_differs_regular d derivatives H') as [->|[-> A']]; rewrite ?bind_value; cbv beta iota; [rewrite R1; exact Done|].
      destruct Ht as [Ht|[x [Hx Nx]]].
      + eexists. split; [reflexivity|]. split; [reflexivity|]. split; [reflexivity|]. apply already. intros x Hx. unfold all_numbers in Hx.
        apply in_app_or in Hx as [Hx|Hx]; [exact (Ht x Hx)|]. rewrite concat_app in Hx. apply in_app_or in Hx as [Hx|Hx]; [exact (A x Hx)|exact (A' x Hx)].
      + exfalso. rewrite concat_app in Hx. apply in_app_or in Hx as [Hx|Hx]; apply Nx; [exact (A x Hx)|exact (A' x Hx)].
  Qed.

  Lemma ensure_fixed_spec : forall samples derivatives, Forall regular samples -> Forall regular derivatives ->
    exists m, ensure3_fixed samples derivatives = Value m /\ (forall x, In x (concat (samples ++ derivatives)) -> prec x <= m) /\
      (m = 0 \/ exists x, In x (concat (samples ++ derivatives)) /\ prec x = m).
  Proof.
    intros samples derivatives H H'. unfold ensure3_fixed. destruct (max_samples_regular samples H) as [m [-> [B C]]].
    destruct (max_samples_regular derivatives H') as [m' [-> [B' C']]]. cbn [bind]. exists (max2 m m'). split; [reflexivity|]. unfold max2.
    rewrite concat_app. split.
    - intros x Hx. apply in_app_or in Hx as [Hx|Hx]; [specialize (B x Hx)|specialize (B' x Hx)]; lia.
    - destruct (Nat.max_spec m m') as [[_ ->]|[_ ->]]; [destruct C' as [->|[x [Hx Ex]]]|destruct C as [->|[x [Hx Ex]]]];
      try (left; reflexivity); right; exists x; (split; [apply in_or_app; auto|exact Ex]).
  Qed.

  Lemma ensure_empty : forall d times before after, (forall t, In t times -> prec t = d) ->
    Forall regular before -> (forall x, In x (concat before) -> prec x = d) -> ensure d times (before ++ [] :: after) = RuntimeError.
  Proof.
    intros d times before after Ht H A. unfold ensure.
    replace (times_differ d times) with false.
    - replace (any_differs d (before ++ [] :: after)) with (@RuntimeError bool); [reflexivity|]. symmetry.
      induction H as [|s l [c [s' [-> U]]] H IH]; cbn [app any_differs precision_of bind]; [reflexivity|].
      rewrite (A c) by (left; reflexivity). rewrite Nat.eqb_refl. apply IH. intros x Hx. apply A. cbn [concat]. apply in_or_app. right. exact Hx.
    - symmetry. unfold times_differ. destruct (existsb (fun t => negb (prec t =? d)) times) eqn:E; [|reflexivity].
      apply existsb_exists in E as [t [I N]]. rewrite (Ht t I), Nat.eqb_refl in N. discriminate.
  Qed.
End Uniform.
Arguments Value {A}. Arguments RuntimeError {A}. Arguments AssertionFailed {A}.
