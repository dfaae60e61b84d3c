(** Recorders of precision, and the precision data kept about each path.

    Models core/include/bertini2/trackers/observers.hpp:47-190 (FirstPrecisionRecorder, MinMaxPrecisionRecorder,
    PrecisionAccumulator), the events an adaptive precision tracker emits (trackers/amp_tracker.hpp:440, 557-562,
    1303-1308, 1508-1513), and their use in nag_algorithms/zero_dim_solve.hpp:611-654, 712-758.

    No tracker emits TrackingStarted: the only occurrences of the name are its definition (trackers/events.hpp:281) and
    the two recorders. That an observer removing itself while it is notified is undefined is the subject of C42; here the
    removal is taken to work. *)
From Coq Require Import List Arith Lia Bool.
Import ListNotations.

Section Recorders.
  Context {T : Type}.

  (** trackers/events.hpp:47-300; [cur], [time]: what the tracker answers when asked during the notification *)
  Inductive event :=
  | TrackingStarted
  | PrecisionChanged (previous next : nat)
  | OtherTrackingEvent.

  (** observers.hpp:104-107. The members are not initialised: the initial values are arbitrary. *)
  Record first_rec := mkFirst { starting : nat; next_precision : nat; increased : bool; time_of_first : T }.

  (** observers.hpp:53-73; the second component: the recorder removes itself from the tracker *)
  Definition observe_first (cur : nat) (time : T) (e : event) (r : first_rec) : first_rec * bool :=
    match e with
    | TrackingStarted => (mkFirst cur (next_precision r) false (time_of_first r), false)
    | PrecisionChanged previous next =>
        if previous <? next then (mkFirst (starting r) next true time, true) else (r, false)
    | OtherTrackingEvent => (r, false)
    end.

  (** observers.hpp:111-132, 159-160; max_unsigned: numeric_limits<unsigned>::max() *)
  Record minmax := mkMinMax { min_precision : nat; max_precision : nat }.
  Definition fresh_minmax (max_unsigned : nat) : minmax := mkMinMax max_unsigned 0.
  Definition observe_minmax (cur : nat) (e : event) (m : minmax) : minmax :=
    match e with
    | PrecisionChanged _ next =>
        mkMinMax (if next <? min_precision m then next else min_precision m)
                 (if max_precision m <? next then next else max_precision m)
    | TrackingStarted => mkMinMax cur cur
    | OtherTrackingEvent => m
    end.

  (** what the recorder has after a list of events; the precision of the tracker at each *)
  Definition watch_minmax (m : minmax) (l : list (nat * event)) : minmax :=
    fold_left (fun m x => observe_minmax (fst x) (snd x) m) l m.
  Definition new_precisions (l : list (nat * event)) : list nat :=
    flat_map (fun x => match snd x with PrecisionChanged _ next => [next] | _ => [] end) l.
  Lemma watch_spec l : Forall (fun x => snd x <> TrackingStarted) l -> forall m,
    watch_minmax m l = mkMinMax (fold_left Nat.min (new_precisions l) (min_precision m))
                                (fold_left Nat.max (new_precisions l) (max_precision m)).
  Proof.
    unfold watch_minmax. induction 1 as [|[c e] l H _ IH]; intros m; cbn [fold_left]; [destruct m; reflexivity|].
    rewrite IH. destruct e; cbn [fst snd] in *; [congruence| |reflexivity].
    cbn [observe_minmax min_precision max_precision new_precisions flat_map snd app fold_left].
    f_equal; f_equal; [destruct (Nat.ltb_spec next (min_precision m))|destruct (Nat.ltb_spec (max_precision m) next)]; lia.
  Qed.

  (** observers.hpp:164-177 *)
  Definition observe_accumulator (cur : nat) (e : event) (l : list nat) : list nat := l ++ [cur].

  (** what the tracker does while tracking: asks for a precision at some time, or anything else it tells observers of *)
  Inductive action := ChangePrecision (time : T) (new_precision : nat) | Tell (time : T).

  (** amp_tracker.hpp:1303-1308, 1511: the event, if any, is emitted before the precision changes *)
  Definition emits (cur : nat) (a : action) : option (T * event) :=
    match a with
    | ChangePrecision t p => if p =? cur then None else Some (t, PrecisionChanged cur p)
    | Tell t => Some (t, OtherTrackingEvent)
    end.
  Definition after (cur : nat) (a : action) : nat := match a with ChangePrecision _ p => p | Tell _ => cur end.

  (** zero_dim_solve.hpp:117-121 *)
  Record meta := mkMeta { precision_changed : bool; time_first_increase : option T; max_used : nat }.
  Definition fresh_meta : meta := mkMeta false None 0.

  Record zstate := mkZ {
    cur : nat;               (* precision of the tracker *)
    watching : bool;         (* the first recorder is among the observers *)
    first : first_rec;
    mm : minmax;
    metas : nat -> meta
  }.

  Definition do_action (s : zstate) (a : action) : zstate :=
    match emits (cur s) a with
    | None => s
    | Some (t, e) =>
        let (f, gone) := if watching s then observe_first (cur s) t e (first s) else (first s, false) in
        mkZ (after (cur s) a) (watching s && negb gone) f (observe_minmax (cur s) e (mm s)) (metas s)
    end.
  Definition do_actions (s : zstate) (l : list action) : zstate := fold_left do_action l s.

  Definition put (ms : nat -> meta) (i : nat) (m : meta) : nat -> meta := fun j => if j =? i then m else ms j.

  (** zero_dim_solve.hpp:648-650, 755-757 *)
  Definition record_max (m : minmax) (x : meta) : meta :=
    mkMeta (precision_changed x) (time_first_increase x) (Nat.max (max_used x) (max_precision m)).
  Definition record_first (f : first_rec) (x : meta) : meta := mkMeta true (Some (time_of_first f)) (max_used x).

  (** zero_dim_solve.hpp:611-654: what is done to path i before the endgame; mind the dangling else at line 645 *)
  Definition before_endgame (i : nat) (l : list action) (s : zstate) : zstate :=
    let s1 := do_actions (mkZ (cur s) true (first s) (mm s) (metas s)) l in
    let x := metas s1 i in
    if increased (first s1)
    then mkZ (cur s1) (watching s1) (first s1) (mm s1) (put (metas s1) i (record_max (mm s1) (record_first (first s1) x)))
    else mkZ (cur s1) false (first s1) (mm s1) (put (metas s1) i (record_max (mm s1) x)).

  (** zero_dim_solve.hpp:712-758 *)
  Definition during_endgame (i : nat) (l : list action) (s : zstate) : zstate :=
    let s1 := do_actions (mkZ (cur s) (watching s || negb (precision_changed (metas s i))) (first s) (mm s) (metas s)) l in
    let x := metas s1 i in
    let x' := if negb (precision_changed x) && increased (first s1) then record_first (first s1) x else x in
    mkZ (cur s1) false (first s1) (mm s1) (put (metas s1) i (record_max (mm s1) x')).

  Inductive phase := Before (i : nat) (l : list action) | During (i : nat) (l : list action).
  Definition path_of (p : phase) : nat := match p with Before i _ | During i _ => i end.
  Definition actions_of (p : phase) : list action := match p with Before _ l | During _ l => l end.
  Definition do_phase (s : zstate) (p : phase) : zstate :=
    match p with Before i l => before_endgame i l s | During i l => during_endgame i l s end.
  Definition solve (s : zstate) (h : list phase) : zstate := fold_left do_phase h s.

  (** a solver just constructed; the tracker has precision c, the members of the recorder hold anything *)
  Definition fresh (max_unsigned c : nat) (f : first_rec) : zstate := mkZ c false f (fresh_minmax max_unsigned) (fun _ => fresh_meta).

  (** ** Specification: what happened to the precision *)
  (** the changes actually made, with the time, the precision before and the one after *)
  Fixpoint changes (c : nat) (l : list action) : list (T * nat * nat) :=
    match l with
    | [] => []
    | ChangePrecision t p :: l' => if p =? c then changes c l' else (t, c, p) :: changes p l'
    | Tell _ :: l' => changes c l'
    end.
  Fixpoint final (c : nat) (l : list action) : nat :=
    match l with [] => c | ChangePrecision _ p :: l' => final p l' | Tell _ :: l' => final c l' end.
  Definition is_rise (x : T * nat * nat) : bool := let '(_, a, b) := x in a <? b.
  Definition first_rise (c : nat) (l : list action) : option T :=
    match filter is_rise (changes c l) with [] => None | (t, _, _) :: _ => Some t end.
  Definition rises (c : nat) (l : list action) : bool := existsb is_rise (changes c l).

  (** the precisions a path was tracked at *)
  Definition used (c : nat) (l : list action) : list nat := c :: map snd (changes c l).

  (** the precision of the tracker when the history is over, and whether it ever rose *)
  Fixpoint precision_after (c : nat) (h : list phase) : nat :=
    match h with [] => c | p :: h' => precision_after (final c (actions_of p)) h' end.
  Fixpoint ever_rises (c : nat) (h : list phase) : bool :=
    match h with [] => false | p :: h' => rises c (actions_of p) || ever_rises (final c (actions_of p)) h' end.
  Fixpoint history_changes (c : nat) (h : list phase) : list (T * nat * nat) :=
    match h with [] => [] | p :: h' => changes c (actions_of p) ++ history_changes (final c (actions_of p)) h' end.

  (** ** Proofs *)
  Lemma do_actions_spec : forall l s,
    cur (do_actions s l) = final (cur s) l /\ metas (do_actions s l) = metas s /\
    max_precision (mm (do_actions s l)) = fold_left Nat.max (map snd (changes (cur s) l)) (max_precision (mm s)) /\
    starting (first (do_actions s l)) = starting (first s) /\
    (watching s = false -> watching (do_actions s l) = false /\ first (do_actions s l) = first s) /\
    (watching s = true -> match first_rise (cur s) l with
       | None => watching (do_actions s l) = true /\ first (do_actions s l) = first s
       | Some t => watching (do_actions s l) = false /\ increased (first (do_actions s l)) = true /\
                   time_of_first (first (do_actions s l)) = t
       end).
  Proof.
    induction l as [|a l IH]; intro s; [cbn; auto 10|]. cbn [do_actions fold_left]. fold (do_actions (do_action s a) l).
    destruct (IH (do_action s a)) as [I1 [I2 [I3 [I4 [I5 I6]]]]]. clear IH.
    destruct a as [t p|t].
    - cbn [changes final]. unfold first_rise in *. unfold do_action in *. cbn [emits] in *. destruct (Nat.eqb_spec p (cur s)) as [E|N].
      + subst p. split; [exact I1|]. split; [exact I2|]. split; [exact I3|]. split; [exact I4|]. cbn [changes]. rewrite Nat.eqb_refl. split; assumption.
      + cbn [changes]. rewrite (proj2 (Nat.eqb_neq _ _) N). cbn [map snd fold_left filter is_rise].
        cbn [observe_first observe_minmax] in *.
        destruct (watching s) eqn:W; cbn [after negb andb] in *.
        * destruct (Nat.ltb_spec (cur s) p) as [L|L]; cbn [cur metas mm max_precision watching first starting negb andb] in *.
          -- split; [exact I1|]. split; [exact I2|].
             split; [rewrite I3; f_equal; destruct (Nat.ltb_spec (max_precision (mm s)) p); lia|].
             split; [exact I4|]. split; [discriminate|]. intros _. destruct (I5 eq_refl) as [A B]. rewrite A, B. auto.
          -- split; [exact I1|]. split; [exact I2|].
             split; [rewrite I3; f_equal; destruct (Nat.ltb_spec (max_precision (mm s)) p); lia|].
             split; [exact I4|]. split; [discriminate|]. intros _. exact (I6 eq_refl).
        * cbn [cur metas mm max_precision watching first starting negb andb] in *.
          split; [exact I1|]. split; [exact I2|].
          split; [rewrite I3; f_equal; destruct (Nat.ltb_spec (max_precision (mm s)) p); lia|].
          split; [exact I4|]. split; [|discriminate]. intros _. exact (I5 eq_refl).
    - cbn [changes final]. unfold first_rise in *. unfold do_action in *. cbn [emits observe_first observe_minmax] in *. destruct (watching s) eqn:W;
      cbn [after cur metas mm watching first negb andb changes] in *; repeat (split; [assumption|]); assumption.
  Qed.

  Lemma rises_first : forall c l, rises c l = true <-> exists t, first_rise c l = Some t.
  Proof.
    intros c l. unfold rises, first_rise. induction (changes c l) as [|[[t a] b] m IH]; cbn [existsb filter is_rise].
    - split; [discriminate|intros [t Ht]; discriminate].
    - destruct (a <? b); cbn [orb]; [split; [intros _; eexists; reflexivity|reflexivity]|exact IH].
  Qed.

  Lemma rises_none : forall c l, rises c l = false <-> first_rise c l = None.
  Proof.
    intros c l. destruct (rises c l) eqn:R.
    - apply rises_first in R as [t ->]. split; discriminate.
    - destruct (first_rise c l) eqn:E; [|split; reflexivity]. assert (rises c l = true) by (apply rises_first; eauto). congruence.
  Qed.

  Lemma first_rise_spec : forall c l t, first_rise c l = Some t <->
    exists before a b later, changes c l = before ++ (t, a, b) :: later /\ a < b /\
      forall t' a' b', In (t', a', b') before -> b' <= a'.
  Proof.
    intros c l t. unfold first_rise. induction (changes c l) as [|[[u a] b] m IH]; cbn [filter is_rise].
    - split; [discriminate|]. intros [[|y before] [a [b [later [E _]]]]]; discriminate.
    - destruct (Nat.ltb_spec a b) as [L|L].
      + split.
        * intro E. injection E as <-. exists [], a, b, m. split; [reflexivity|]. split; [exact L|]. intros t' a' b' [].
        * intros [[|y before] [a' [b' [later [E [H N]]]]]]; injection E as E1 E2; [congruence|].
          subst y. specialize (N u a b (or_introl eq_refl)). lia.
      + rewrite IH. split; intros [before [a' [b' [later [E [H N]]]]]].
        * exists ((u, a, b) :: before), a', b', later. rewrite E. split; [reflexivity|]. split; [exact H|].
          intros t' a'' b'' [E'|I]; [injection E' as _ <- <-; exact L|exact (N _ _ _ I)].
        * destruct before as [|y before]; cbn [app] in E; [injection E as E1 E2 E3 E4; lia|injection E as E1 E2].
          exists before, a', b', later. split; [exact E2|]. split; [exact H|]. intros t' a'' b'' I. exact (N _ _ _ (or_intror I)).
  Qed.

  (** the invariant: a path reported as changed implies the flag is up *)
  Definition consistent (s : zstate) : Prop := forall i, precision_changed (metas s i) = true -> increased (first s) = true.

  Lemma phase_spec : forall s p, consistent s -> let s' := do_phase s p in let l := actions_of p in
    consistent s' /\ cur s' = final (cur s) l /\
    max_precision (mm s') = fold_left Nat.max (map snd (changes (cur s) l)) (max_precision (mm s)) /\
    starting (first s') = starting (first s) /\
    increased (first s') = (increased (first s) || rises (cur s) l) /\
    (forall j, j <> path_of p -> metas s' j = metas s j) /\
    max_used (metas s' (path_of p)) = Nat.max (max_used (metas s (path_of p))) (max_precision (mm s')) /\
    precision_changed (metas s' (path_of p)) = increased (first s') /\
    (forall i t, p = Before i l -> first_rise (cur s) l = Some t -> time_first_increase (metas s' i) = Some t) /\
    (forall i t, p = During i l -> precision_changed (metas s i) = false -> first_rise (cur s) l = Some t ->
       time_first_increase (metas s' i) = Some t) /\
    (forall i, p = During i l -> precision_changed (metas s i) = true -> time_first_increase (metas s' i) = time_first_increase (metas s i)).
  Proof.
    intros s p C s' l.
    assert (Incr : forall w, (w = true \/ increased (first s) = true) ->
      increased (first (do_actions (mkZ (cur s) w (first s) (mm s) (metas s)) l)) = (increased (first s) || rises (cur s) l)).
    { intros w Hw. destruct (do_actions_spec l (mkZ (cur s) w (first s) (mm s) (metas s))) as [_ [_ [_ [_ [I5 I6]]]]].
      cbn [cur mm metas first watching] in *. destruct w.
      - specialize (I6 eq_refl). destruct (first_rise (cur s) l) as [t|] eqn:E.
        + destruct I6 as [_ [-> _]]. assert (R : rises (cur s) l = true) by (apply rises_first; eauto). rewrite R, orb_true_r. reflexivity.
        + destruct I6 as [_ ->]. apply rises_none in E. rewrite E, orb_false_r. reflexivity.
      - destruct (I5 eq_refl) as [_ ->]. destruct Hw as [Hw| ->]; [discriminate|reflexivity]. }
    destruct p as [i l0|i l0]; cbn [actions_of] in *; subst l; cbn [path_of].
    - pose proof (Incr true (or_introl eq_refl)) as In1. clear Incr.
      destruct (do_actions_spec l0 (mkZ (cur s) true (first s) (mm s) (metas s))) as [I1 [I2 [I3 [I4 [_ I6]]]]].
      cbn [cur mm metas first watching] in *. subst s'. cbn [do_phase]. unfold before_endgame.
      set (s1 := do_actions (mkZ (cur s) true (first s) (mm s) (metas s)) l0) in *. specialize (I6 eq_refl).
      destruct (increased (first s1)) eqn:F; cbn [cur mm metas first watching].
      + split; [|split; [|split; [|split; [|split; [|split; [|split; [|split; [|split; [|split]]]]]]]]].
        * intros j _. cbn [first]. exact F.
        * exact I1.
        * exact I3.
        * exact I4.
        * congruence.
        * intros j Hj. unfold put. rewrite (proj2 (Nat.eqb_neq _ _) Hj), I2. reflexivity.
        * unfold put. rewrite Nat.eqb_refl, I2. reflexivity.
        * unfold put. rewrite Nat.eqb_refl. cbn. congruence.
        * intros i' t E R. injection E as ->. unfold put. rewrite Nat.eqb_refl. cbn. rewrite R in I6. destruct I6 as [_ [_ ->]]. reflexivity.
        * intros; discriminate.
        * intros; discriminate.
      + assert (R : rises (cur s) l0 = false) by (destruct (rises (cur s) l0); [rewrite orb_true_r in In1; discriminate|reflexivity]).
        assert (Fs : increased (first s) = false) by (rewrite R, orb_false_r in In1; auto).
        assert (Pc : forall j, precision_changed (metas s j) = false).
        { intro j. destruct (precision_changed (metas s j)) eqn:E; [|reflexivity]. specialize (C j E). congruence. }
        split; [|split; [|split; [|split; [|split; [|split; [|split; [|split; [|split; [|split]]]]]]]]].
        * intros j. cbn [metas first]. unfold put. rewrite I2. destruct (j =? i); cbn; rewrite Pc; discriminate.
        * exact I1.
        * exact I3.
        * exact I4.
        * congruence.
        * intros j Hj. unfold put. rewrite (proj2 (Nat.eqb_neq _ _) Hj), I2. reflexivity.
        * unfold put. rewrite Nat.eqb_refl, I2. reflexivity.
        * unfold put. rewrite Nat.eqb_refl, I2. cbn. rewrite Pc. congruence.
        * intros i' t E R'. apply rises_none in R. congruence.
        * intros; discriminate.
        * intros; discriminate.
    - assert (Hw : (watching s || negb (precision_changed (metas s i))) = true \/ increased (first s) = true).
      { destruct (precision_changed (metas s i)) eqn:E; [right; exact (C i E)|left; apply orb_true_r]. }
      pose proof (Incr _ Hw) as In1. clear Incr.
      destruct (do_actions_spec l0 (mkZ (cur s) (watching s || negb (precision_changed (metas s i))) (first s) (mm s) (metas s)))
        as [I1 [I2 [I3 [I4 [_ I6]]]]].
      cbn [cur mm metas first watching] in *. subst s'. cbn [do_phase]. unfold during_endgame.
      set (s1 := do_actions (mkZ (cur s) (watching s || negb (precision_changed (metas s i))) (first s) (mm s) (metas s)) l0) in *.
      rewrite I2. cbn [cur mm metas first watching].
      split; [|split; [|split; [|split; [|split; [|split; [|split; [|split; [|split; [|split]]]]]]]]].
      + intros j. cbn [metas first]. unfold put. destruct (Nat.eqb_spec j i) as [->|N].
        * cbn. destruct (precision_changed (metas s i)) eqn:E; cbn; [intros _; rewrite In1, (C i E); reflexivity|].
          destruct (increased (first s1)); cbn; [reflexivity|]. rewrite E. discriminate.
        * intro H. rewrite In1, (C j H). reflexivity.
      + exact I1.
      + exact I3.
      + exact I4.
      + exact In1.
      + intros j Hj. unfold put. rewrite (proj2 (Nat.eqb_neq _ _) Hj). reflexivity.
      + unfold put. rewrite Nat.eqb_refl. cbn. destruct (negb (precision_changed (metas s i)) && increased (first s1)); reflexivity.
      + unfold put. rewrite Nat.eqb_refl. cbn. destruct (precision_changed (metas s i)) eqn:E; cbn.
        * rewrite E, In1, (C i E). reflexivity.
        * destruct (increased (first s1)) eqn:F; cbn; congruence.
      + intros; discriminate.
      + intros i' t E Pc R. injection E as ->. unfold put. rewrite Nat.eqb_refl. cbn. rewrite Pc in *. rewrite orb_true_r in I6.
        specialize (I6 eq_refl). rewrite R in I6. destruct I6 as [_ [F Ft]]. rewrite F. cbn. rewrite Ft. reflexivity.
      + intros i' E Pc. injection E as ->. unfold put. rewrite Nat.eqb_refl. cbn. rewrite Pc. reflexivity.
  Qed.

  Lemma fold_max_app : forall l1 l2 m, fold_left Nat.max (l1 ++ l2) m = fold_left Nat.max l2 (fold_left Nat.max l1 m).
  Proof. intros. apply fold_left_app. Qed.
  Lemma fold_max_le : forall l m, m <= fold_left Nat.max l m /\ forall x, In x l -> x <= fold_left Nat.max l m.
  Proof.
    induction l as [|y l IH]; intro m; cbn; [split; [lia|contradiction]|]. destruct (IH (Nat.max m y)) as [A B]. split; [lia|].
    intros x [->|H]; [lia|]. exact (B x H).
  Qed.
  Lemma fold_max_in : forall l m, fold_left Nat.max l m = m \/ In (fold_left Nat.max l m) l.
  Proof.
    induction l as [|y l IH]; intro m; cbn; [left; reflexivity|]. destruct (IH (Nat.max m y)) as [->|H]; [|auto].
    destruct (Nat.max_spec m y) as [[_ ->]|[_ ->]]; auto.
  Qed.

  Lemma solve_spec : forall h s, consistent s -> let s' := solve s h in
    consistent s' /\ cur s' = precision_after (cur s) h /\
    max_precision (mm s') = fold_left Nat.max (map snd (history_changes (cur s) h)) (max_precision (mm s)) /\
    starting (first s') = starting (first s) /\
    increased (first s') = (increased (first s) || ever_rises (cur s) h).
  Proof.
    induction h as [|p h IH]; intros s C s'; [cbn in *; subst s'; repeat split; auto; rewrite orb_false_r; reflexivity|].
    destruct (phase_spec s p C) as [C1 [E1 [M1 [S1 [F1 _]]]]]. cbn [solve fold_left] in s'. fold (solve (do_phase s p) h) in s'.
    destruct (IH _ C1) as [C2 [E2 [M2 [S2 F2]]]]. subst s'. split; [exact C2|].
    cbn [precision_after history_changes ever_rises]. rewrite E1 in *. rewrite map_app, fold_max_app, <- M1.
    split; [exact E2|]. split; [exact M2|]. split; [congruence|]. rewrite F2, F1, orb_assoc. reflexivity.
  Qed.

  Lemma fresh_consistent : forall mu c f, consistent (fresh mu c f).
  Proof. intros mu c f i H. discriminate. Qed.

  Lemma solve_app : forall h1 h2 s, solve s (h1 ++ h2) = solve (solve s h1) h2.
  Proof. intros. apply fold_left_app. Qed.

  Lemma solve_others : forall h s i, consistent s -> (forall p, In p h -> path_of p <> i) -> metas (solve s h) i = metas s i.
  Proof.
    induction h as [|p h IH]; intros s i C N; [reflexivity|]. cbn [solve fold_left]. fold (solve (do_phase s p) h).
    destruct (phase_spec s p C) as [C1 [_ [_ [_ [_ [O _]]]]]]. rewrite IH; [|exact C1|intros q Hq; apply N; right; exact Hq].
    apply O. intro E. exact (N p (or_introl eq_refl) (eq_sym E)).
  Qed.

  (** the flag, exactly *)
  Lemma changed_exact : forall mu c f h1 p h2 i, path_of p = i -> (forall q, In q h2 -> path_of q <> i) ->
    precision_changed (metas (solve (fresh mu c f) (h1 ++ p :: h2)) i) = (increased f || ever_rises c (h1 ++ [p])).
  Proof.
    intros mu c f h1 p h2 i Hp N. change (p :: h2) with ([p] ++ h2). rewrite app_assoc, solve_app.
    destruct (solve_spec h1 (fresh mu c f) (fresh_consistent mu c f)) as [C1 [E1 [M1 [S1 F1]]]]. cbn zeta in *.
    rewrite solve_others; [| |exact N].
    - rewrite solve_app. destruct (phase_spec _ p C1) as [_ [_ [_ [_ [Fp [_ [_ [P _]]]]]]]]. subst i.
      cbn [solve fold_left]. fold (solve (fresh mu c f) h1). rewrite P.
      destruct (solve_spec (h1 ++ [p]) (fresh mu c f) (fresh_consistent mu c f)) as [_ [_ [_ [_ F]]]]. cbn zeta in F.
      rewrite solve_app in F. cbn [solve fold_left] in F. fold (solve (fresh mu c f) h1) in F. exact F.
    - exact (proj1 (solve_spec (h1 ++ [p]) _ (fresh_consistent mu c f))).
  Qed.

  (** the largest precision, exactly *)
  Lemma max_exact : forall mu c f h1 p h2 i, path_of p = i -> (forall q, In q h2 -> path_of q <> i) ->
    max_used (metas (solve (fresh mu c f) (h1 ++ p :: h2)) i) = fold_left Nat.max (map snd (history_changes c (h1 ++ [p]))) 0.
  Proof.
    intros mu c f h1 p h2 i Hp N. change (p :: h2) with ([p] ++ h2). rewrite app_assoc, solve_app.
    rewrite solve_others; [| |exact N]; [|exact (proj1 (solve_spec (h1 ++ [p]) _ (fresh_consistent mu c f)))].
    rewrite solve_app. cbn [solve fold_left]. fold (solve (fresh mu c f) h1).
    assert (B : forall h, max_precision (mm (solve (fresh mu c f) h)) = fold_left Nat.max (map snd (history_changes c h)) 0 /\
                forall j, max_used (metas (solve (fresh mu c f) h) j) <= max_precision (mm (solve (fresh mu c f) h))).
    { intro h. rewrite <- (rev_involutive h). induction (rev h) as [|q r IH]; [cbn; split; [reflexivity|intro; lia]|].
      cbn [rev]. set (g := rev r) in *. clearbody g. clear r. destruct IH as [I1 I2].
      destruct (solve_spec (g ++ [q]) (fresh mu c f) (fresh_consistent mu c f)) as [_ [_ [X _]]]. cbn zeta in X. split; [exact X|].
      clear X. rewrite solve_app. cbn [solve fold_left]. fold (solve (fresh mu c f) g).
      destruct (solve_spec g (fresh mu c f) (fresh_consistent mu c f)) as [Cg _].
      destruct (phase_spec _ q Cg) as [_ [_ [Mq [_ [_ [O [U _]]]]]]]. cbn zeta in *. intro j.
      pose proof (proj1 (fold_max_le (map snd (changes (cur (solve (fresh mu c f) g)) (actions_of q))) (max_precision (mm (solve (fresh mu c f) g))))) as G.
      rewrite <- Mq in G. destruct (Nat.eq_dec j (path_of q)) as [->|Nj].
      - rewrite U. specialize (I2 (path_of q)). lia.
      - rewrite (O j Nj). specialize (I2 j). lia. }
    destruct (solve_spec h1 (fresh mu c f) (fresh_consistent mu c f)) as [C1 _].
    destruct (phase_spec _ p C1) as [_ [_ [Mq [_ [_ [_ [U _]]]]]]]. cbn zeta in *. subst i. rewrite U.
    destruct (B (h1 ++ [p])) as [B1 _]. rewrite solve_app in B1. cbn [solve fold_left] in B1. fold (solve (fresh mu c f) h1) in B1.
    rewrite B1. destruct (B h1) as [_ B2]. specialize (B2 (path_of p)).
    pose proof (proj1 (fold_max_le (map snd (changes (cur (solve (fresh mu c f) h1)) (actions_of p))) (max_precision (mm (solve (fresh mu c f) h1))))) as G.
    rewrite <- Mq in G. rewrite B1 in G. lia.
  Qed.

  Lemma history_changes_app : forall h1 h2 c, history_changes c (h1 ++ h2) = history_changes c h1 ++ history_changes (precision_after c h1) h2.
  Proof.
    induction h1 as [|p h1 IH]; intros h2 c; [reflexivity|]. cbn. rewrite IH, app_assoc. reflexivity.
  Qed.

  Lemma precision_after_app : forall h1 h2 c, precision_after c (h1 ++ h2) = precision_after (precision_after c h1) h2.
  Proof. induction h1 as [|p h1 IH]; intros h2 c; [reflexivity|]. cbn. apply IH. Qed.

  Lemma last_of : forall (h : list phase) i, (exists p, In p h /\ path_of p = i) ->
    exists h1 p h2, h = h1 ++ p :: h2 /\ path_of p = i /\ forall q, In q h2 -> path_of q <> i.
  Proof.
    induction h as [|x h IH]; intros i [p [Hp E]]; [contradiction|].
    destruct (in_dec Nat.eq_dec i (map path_of h)) as [I|N].
    - apply in_map_iff in I as [q [Eq Iq]]. destruct (IH i (ex_intro _ q (conj Iq Eq))) as [h1 [p' [h2 [-> [A B]]]]].
      exists (x :: h1), p', h2. split; [reflexivity|]. split; assumption.
    - destruct Hp as [->|Hp].
      + exists [], p, h. split; [reflexivity|]. split; [exact E|]. intros q Hq Eq. apply N. rewrite <- Eq. apply in_map. exact Hq.
      + exfalso. apply N. rewrite <- E. apply in_map. exact Hp.
  Qed.

  (** every precision the tracker went to on a path is covered *)
  Lemma max_covers : forall mu c f h1 p h2 t a b, In (t, a, b) (changes (precision_after c h1) (actions_of p)) ->
    b <= max_used (metas (solve (fresh mu c f) (h1 ++ p :: h2)) (path_of p)).
  Proof.
    intros mu c f h1 p h2 t a b H.
    destruct (last_of (p :: h2) (path_of p)) as [g1 [q [g2 [E [Eq N]]]]]; [exists p; split; [left; reflexivity|reflexivity]|].
    rewrite E, app_assoc. rewrite (max_exact mu c f (h1 ++ g1) q g2 (path_of p) Eq N).
    apply (proj2 (fold_max_le _ 0)).
    assert (Hp : exists g, g1 ++ [q] = p :: g).
    { destruct g1 as [|y g1]; injection E as E1 E2; [exists []; subst; reflexivity|]. exists (g1 ++ [q]). subst. reflexivity. }
    destruct Hp as [g Eg]. rewrite <- app_assoc, Eg. rewrite history_changes_app, map_app. apply in_or_app. right.
    cbn [history_changes]. rewrite map_app. apply in_or_app. left. apply in_map_iff. exists (t, a, b). split; [reflexivity|exact H].
  Qed.

  Lemma max_zero_or : forall mu c f h i, let m := max_used (metas (solve (fresh mu c f) h) i) in
    m = 0 \/ exists t a, In (t, a, m) (history_changes c h).
  Proof.
    intros mu c f h i m. destruct (in_dec Nat.eq_dec i (map path_of h)) as [I|N].
    - apply in_map_iff in I as [q [Eq Iq]]. destruct (last_of h i (ex_intro _ q (conj Iq Eq))) as [h1 [p [h2 [-> [A B]]]]].
      unfold m. rewrite (max_exact mu c f h1 p h2 i A B). destruct (fold_max_in (map snd (history_changes c (h1 ++ [p]))) 0) as [->|H]; [left; reflexivity|].
      right. apply in_map_iff in H as [[[t a] b] [Eb Hb]]. cbn in Eb. rewrite <- Eb. exists t, a.
      change (p :: h2) with ([p] ++ h2). rewrite app_assoc, history_changes_app. apply in_or_app. left. exact Hb.
    - left. unfold m. rewrite solve_others; [reflexivity|apply fresh_consistent|]. intros p Hp E. apply N. rewrite <- E. apply in_map. exact Hp.
  Qed.

  (** the time *)
  Lemma time_before : forall mu c f h1 i l h2 t, (forall q, In q h2 -> forall l', q <> Before i l') ->
    first_rise (precision_after c h1) l = Some t ->
    let x := metas (solve (fresh mu c f) (h1 ++ Before i l :: h2)) i in precision_changed x = true /\ time_first_increase x = Some t.
  Proof.
    intros mu c f h1 i l h2 t N R x. unfold x. clear x. change (Before i l :: h2) with ([Before i l] ++ h2). rewrite app_assoc, solve_app.
    destruct (solve_spec h1 (fresh mu c f) (fresh_consistent mu c f)) as [C1 [E1 _]]. cbn zeta in *.
    assert (P1 : precision_changed (metas (solve (fresh mu c f) (h1 ++ [Before i l])) i) = true /\
                 time_first_increase (metas (solve (fresh mu c f) (h1 ++ [Before i l])) i) = Some t).
    { rewrite solve_app. cbn [solve fold_left]. fold (solve (fresh mu c f) h1).
      destruct (phase_spec _ (Before i l) C1) as [_ [_ [_ [_ [Fp [_ [_ [P [Tb _]]]]]]]]]. cbn [path_of actions_of] in *. rewrite E1 in *. change (cur (fresh mu c f)) with c in *.
      split; [|exact (Tb i t eq_refl R)]. rewrite P, Fp. replace (rises (precision_after c h1) l) with true; [apply orb_true_r|].
      symmetry. apply rises_first. eauto. }
    pose proof (proj1 (solve_spec (h1 ++ [Before i l]) _ (fresh_consistent mu c f))) as C2. cbn zeta in C2.
    revert P1 C2. generalize (solve (fresh mu c f) (h1 ++ [Before i l])). clear - N. induction h2 as [|q h2 IH]; intros s P1 C2; [exact P1|].
    cbn [solve fold_left]. fold (solve (do_phase s q) h2). destruct (phase_spec s q C2) as [C3 [_ [_ [_ [F [O [_ [P [_ [_ Td]]]]]]]]]]. cbn zeta in *.
    apply IH; [intros q' Hq'; apply N; right; exact Hq'| |exact C3].
    destruct (Nat.eq_dec i (path_of q)) as [E|Nq]; [|rewrite (O i Nq); exact P1]. destruct P1 as [P1 T1].
    destruct q as [j l'|j l']; cbn [path_of] in *; subst j; [destruct (N _ (or_introl eq_refl) l' eq_refl)|].
    split; [rewrite P, F, (C2 i P1); reflexivity|]. rewrite (Td i eq_refl P1). exact T1.
  Qed.

  Lemma time_during : forall mu c f h1 i l h2 t, (forall q, In q h2 -> path_of q <> i) ->
    increased f = false -> ever_rises c h1 = false -> first_rise (precision_after c h1) l = Some t ->
    let x := metas (solve (fresh mu c f) (h1 ++ During i l :: h2)) i in precision_changed x = true /\ time_first_increase x = Some t.
  Proof.
    intros mu c f h1 i l h2 t N F0 R0 R x. unfold x. clear x. change (During i l :: h2) with ([During i l] ++ h2). rewrite app_assoc, solve_app.
    rewrite solve_others; [| |exact N]; [|exact (proj1 (solve_spec (h1 ++ [During i l]) _ (fresh_consistent mu c f)))].
    rewrite solve_app. cbn [solve fold_left]. fold (solve (fresh mu c f) h1).
    destruct (solve_spec h1 (fresh mu c f) (fresh_consistent mu c f)) as [C1 [E1 [_ [_ F1]]]]. cbn zeta in *.
    destruct (phase_spec _ (During i l) C1) as [_ [_ [_ [_ [Fp [_ [_ [P [_ [Td _]]]]]]]]]]. cbn [path_of actions_of] in *. rewrite E1 in *.
    change (first (fresh mu c f)) with f in F1. change (cur (fresh mu c f)) with c in *. rewrite F0, R0 in F1. cbn in F1.
    assert (Pc : precision_changed (metas (solve (fresh mu c f) h1) i) = false).
    { destruct (precision_changed (metas (solve (fresh mu c f) h1) i)) eqn:E; [|reflexivity]. specialize (C1 i E). congruence. }
    split; [|exact (Td i t eq_refl Pc R)]. rewrite P, Fp. replace (rises (precision_after c h1) l) with true; [apply orb_true_r|].
    symmetry. apply rises_first. eauto.
  Qed.

  (** ** The accumulator *)
  Fixpoint accumulate (c : nat) (l : list action) (acc : list nat) : list nat :=
    match l with
    | [] => acc
    | a :: l' => accumulate (after c a) l' (match emits c a with Some (_, e) => observe_accumulator c e acc | None => acc end)
    end.

  Lemma accumulate_app : forall l1 l2 c acc, accumulate c (l1 ++ l2) acc = accumulate (final c l1) l2 (accumulate c l1 acc).
  Proof. induction l1 as [|[t p|t] l1 IH]; intros l2 c acc; cbn; [reflexivity|apply IH|apply IH]. Qed.

  Lemma accumulate_in : forall l c acc t x, In x (accumulate c (l ++ [Tell t]) acc) <-> In x acc \/ In x (used c l).
  Proof.
    induction l as [|[t' p|t'] l IH]; intros c acc t x; cbn [app accumulate emits after].
    - unfold observe_accumulator, used. cbn. rewrite in_app_iff. cbn. tauto.
    - unfold used. cbn [changes]. destruct (Nat.eqb_spec p c) as [->|N].
      + rewrite IH. reflexivity.
      + rewrite IH. unfold observe_accumulator, used. rewrite in_app_iff. cbn. tauto.
    - rewrite IH. unfold observe_accumulator, used. rewrite in_app_iff. cbn. tauto.
  Qed.
End Recorders.
