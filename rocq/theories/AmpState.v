(** The precision of everything an adaptive precision tracker works with.
    Models core/include/bertini2/trackers/amp_tracker.hpp:398-411, 427-488, 557-592, 1164-1180, 1199-1228, 1302-1341 and 1388-1599,
    and of base_tracker.hpp:260-264, 393-396 and 519-525 what changes a number of the tracker.

    A multiprecision number is its value with its precision (PatchPrecision.v), rounded by an arbitrary function.  The precision of
    a result is an arbitrary function of the precisions it is computed from which gives p when all of them are p.  What predictor,
    corrector and step size control compute are arbitrary values in such a precision.  Failed assertions are an outcome. *)
From Coq Require Import List Arith Lia Bool.
From Verif Require Import PatchPrecision.
Import ListNotations.

Definition double_digits : nat := 16.      (* num_traits.hpp:131-134 DoublePrecision *)
Definition most_digits : nat := 1000.      (* num_traits.hpp:143-146 MaxPrecisionAllowed *)

Section AmpState.
  Context {V : Type} (rnd : nat -> V -> V) (zero : V) (join : nat -> nat -> nat).
  Notation num := (mpnum (V := V)).
  Notation set_prec := (set_prec rnd).
  (** the number of variables of the tracked system *)
  Context (n : nat).

  (** amp_tracker.hpp:1620-1629 and base_tracker.hpp:585-588 (members), the precisions of the global default, the system, the
      predictor and the corrector; the three vectors of multiple precision and the current one in double precision *)
  Record amp := mkAmpState {
    dflt : nat; cur : nat; prev : nat; initial : nat; preserve : bool;
    sys : nat; pred : nat; corr : nat;
    endt : num; endt_high : num; step : num; delta : num; time : num;
    space_d : list V; space : list num; tentative : list num; temporary : list num }.

  (** amp_tracker.hpp:1508-1513 AdjustCurrentPrecision *)
  Definition adjust_current (p : nat) (s : amp) : amp :=
    mkAmpState p p (cur s) (initial s) (preserve s) (sys s) (pred s) (corr s) (endt s) (endt_high s) (step s) (delta s) (time s)
      (space_d s) (space s) (tentative s) (temporary s).

  Definition set_space (l : list num) (s : amp) : amp :=
    mkAmpState (dflt s) (cur s) (prev s) (initial s) (preserve s) (sys s) (pred s) (corr s) (endt s) (endt_high s) (step s) (delta s)
      (time s) (space_d s) l (tentative s) (temporary s).

  (** amp_tracker.hpp:1516-1531 CopyToCurrentSpace, for doubles: numbers made of doubles have the default precision *)
  Definition from_doubles (d : nat) (l : list V) : list num := map (fun v => mkNum (rnd d v) d) l.

  (** amp_tracker.hpp:1533-1547 AdjustInternalsPrecision *)
  Definition adjust_internals (p : nat) (s : amp) : amp :=
    mkAmpState (dflt s) (cur s) (prev s) (initial s) (preserve s) p p p
      (set_prec p (endt_high s)) (endt_high s) (set_prec p (step s)) (set_prec p (delta s)) (set_prec p (time s))
      (space_d s) (map (set_prec p) (space s)) (tentative s) (temporary s).

  (** Eigen's resize: new storage, of numbers of the default precision, only if the size changes *)
  Definition resize (d : nat) (l : list num) : list num := if length l =? n then l else repeat (mkNum zero d) n.

  (** amp_tracker.hpp:1556-1566 AdjustTemporariesPrecision *)
  Definition adjust_temporaries (p : nat) (s : amp) : amp :=
    mkAmpState (dflt s) (cur s) (prev s) (initial s) (preserve s) (sys s) (pred s) (corr s) (endt s) (endt_high s) (step s) (delta s)
      (time s) (space_d s) (space s) (map (set_prec p) (resize (dflt s) (tentative s))) (map (set_prec p) (resize (dflt s) (temporary s))).

  (** amp_tracker.hpp:1576-1599 PrecisionSanityCheck<mpfr_complex>; (0) of an empty vector is an assertion of Eigen *)
  Definition head_at (p : nat) (l : list num) : bool := match l with [] => false | x :: _ => prec x =? p end.
  Definition sane (s : amp) : bool :=
    (dflt s =? cur s) && (sys s =? cur s) && head_at (cur s) (space s) && head_at (cur s) (tentative s) && head_at (cur s) (temporary s) &&
    (prec (step s) =? cur s) && (prec (delta s) =? cur s) && (prec (endt s) =? cur s) && (prec (time s) =? cur s) &&
    (cur s <=? most_digits) && (pred s =? cur s).
  Definition assert (b : bool) (s : amp) : option amp := if b then Some s else None.

  (** amp_tracker.hpp:1388-1406 MultipleToDouble *)
  Definition multiple_to_double (src : list num) (s : amp) : option amp :=
    if length src =? n then
      Some (mkAmpState double_digits double_digits (cur s) (initial s) (preserve s) double_digits (pred s) (corr s)
        (set_prec double_digits (endt s)) (endt_high s) (step s) (delta s) (time s)
        (map (fun x => rnd double_digits (val x)) src) (space s) (tentative s) (temporary s))
    else None.

  (** amp_tracker.hpp:1430-1445 and 1474-1489 DoubleToMultiple, MultipleToMultiple *)
  Definition to_multiple (p : nat) (copy : nat -> list num) (len : nat) (s : amp) : option amp :=
    if ((len =? n) && (double_digits <? p))%bool then
      let s1 := adjust_current p s in
      let s2 := adjust_temporaries p (adjust_internals p (set_space (copy (dflt s1)) s1)) in
      assert (sane s2) s2
    else None.
  Definition double_to_multiple (p : nat) (src : list V) : amp -> option amp := to_multiple p (fun d => from_doubles d src) (length src).
  Definition multiple_to_multiple (p : nat) (src : list num) : amp -> option amp := to_multiple p (fun _ => src) (length src).

  (** amp_tracker.hpp:1302-1340 ChangePrecision, without refinement *)
  Definition change (p : nat) (s : amp) : option amp :=
    if p =? cur s then Some s
    else if ((p =? double_digits) && (double_digits <? cur s))%bool then multiple_to_double (space s) s
    else if ((double_digits <? p) && (cur s =? double_digits))%bool then double_to_multiple p (space_d s) s
    else multiple_to_multiple p (space s) s.

  (** the precision of what is computed from the numbers of the tracker *)
  Definition work (s : amp) : nat :=
    fold_left join (map prec (space s) ++ [sys s; pred s; corr s; prec (endt s); prec (step s); prec (delta s); prec (time s)]) (dflt s).
  Definition computed (s : amp) (l : list V) : list num := map (fun v => mkNum (rnd (work s) v) (work s)) l.

  (** amp_tracker.hpp:1164-1180 RefineStoredPoint, 1199-1228 RefineImpl: the refined values, or nothing when Newton's method
      failed; the temporary vector is overwritten in both cases ([garbage]) *)
  Definition refine_stored (refined : option (list V)) (garbage : list V) (s : amp) : amp :=
    if cur s =? double_digits then
      match refined with
      | Some l => mkAmpState (dflt s) (cur s) (prev s) (initial s) (preserve s) (sys s) (pred s) (corr s) (endt s) (endt_high s) (step s)
          (delta s) (time s) (map (rnd double_digits) l) (space s) (tentative s) (temporary s)
      | None => s
      end
    else
      let l := computed s (match refined with Some l => l | None => garbage end) in
      mkAmpState (dflt s) (cur s) (prev s) (initial s) (preserve s) (sys s) (pred s) (corr s) (endt s) (endt_high s) (step s) (delta s)
        (time s) (space_d s) (match refined with Some _ => l | None => space s end) (tentative s) l.

  (** amp_tracker.hpp:427-488 TrackerLoopInitialization up to the initial refinement (whose parts are operations below); [first] is
      the step size from the settings, if the tracker is to use it.  The assertion on preserve_precision_ is left out. *)
  Definition start_track (t0 t1 : num) (x0 : list num) (first : option num) (s : amp) : option amp :=
    match x0 with
    | [] => None
    | c :: _ =>
        let p := prec c in
        let s1 := mkAmpState p (cur s) (prev s) p (preserve s) (sys s) (pred s) (corr s)
          (set_prec p t1) (set_prec p t1) (match first with Some h => h | None => set_prec p (step s) end) (delta s) (set_prec p t0)
          (space_d s) (space s) (tentative s) (temporary s) in
        match (if p =? double_digits then multiple_to_double x0 s1 else multiple_to_multiple p x0 s1) with
        | None => None
        | Some s2 => match change (initial s2) s2 with None => None | Some s3 => change p s3 end
        end
    end.

  (** What happens to the tracker while it tracks a path, in any order *)
  Inductive op :=
  | NextDelta (v : V)                       (* base_tracker.hpp:260-264: delta_t_, computed from the end time, the time and the step *)
  | SetTemporary (l : list V)               (* amp_tracker.hpp:641: predicted *)
  | SetTentative (l : list V)               (* amp_tracker.hpp:668-670: corrected *)
  | Accept (l : list V)                     (* amp_tracker.hpp:697: the tentative vector becomes the current one; [l] in double *)
  | Advance (v : V)                         (* base_tracker.hpp:523: current_time_ += delta_t_ *)
  | SetStep (v : V)                         (* amp_tracker.hpp:723: SetStepSize(next_stepsize_) *)
  | Change (p : nat)                        (* amp_tracker.hpp:724, ChangePrecision<upsample_refine_off> *)
  | Refine (l : option (list V)) (g : list V). (* RefineStoredPoint, also at the end of ChangePrecision<upsample_refine_on> *)

  Definition apply (o : op) (s : amp) : option amp :=
    match o with
    | NextDelta v => Some (mkAmpState (dflt s) (cur s) (prev s) (initial s) (preserve s) (sys s) (pred s) (corr s) (endt s) (endt_high s)
        (step s) (let q := join (join (prec (endt s)) (prec (time s))) (prec (step s)) in mkNum (rnd q v) q) (time s)
        (space_d s) (space s) (tentative s) (temporary s))
    | SetTemporary l => Some (if cur s =? double_digits then s else
        mkAmpState (dflt s) (cur s) (prev s) (initial s) (preserve s) (sys s) (pred s) (corr s) (endt s) (endt_high s) (step s) (delta s)
          (time s) (space_d s) (space s) (tentative s) (computed s l))
    | SetTentative l => Some (if cur s =? double_digits then s else
        mkAmpState (dflt s) (cur s) (prev s) (initial s) (preserve s) (sys s) (pred s) (corr s) (endt s) (endt_high s) (step s) (delta s)
          (time s) (space_d s) (space s) (computed s l) (temporary s))
    | Accept l => Some (if cur s =? double_digits then
        mkAmpState (dflt s) (cur s) (prev s) (initial s) (preserve s) (sys s) (pred s) (corr s) (endt s) (endt_high s) (step s) (delta s)
          (time s) (map (rnd double_digits) l) (space s) (tentative s) (temporary s)
        else set_space (tentative s) s)
    | Advance v => Some (mkAmpState (dflt s) (cur s) (prev s) (initial s) (preserve s) (sys s) (pred s) (corr s) (endt s) (endt_high s)
        (step s) (delta s) (let q := join (prec (time s)) (prec (delta s)) in mkNum (rnd q v) q) (space_d s) (space s) (tentative s)
        (temporary s))
    | SetStep v => Some (mkAmpState (dflt s) (cur s) (prev s) (initial s) (preserve s) (sys s) (pred s) (corr s) (endt s) (endt_high s)
        (let q := join (dflt s) (prec (step s)) in mkNum (rnd q v) q) (delta s) (time s) (space_d s) (space s) (tentative s)
        (temporary s))
    | Change p => change p s
    | Refine l g => Some (refine_stored l g s)
    end.
  Fixpoint run (l : list op) (s : amp) : option amp :=
    match l with [] => Some s | o :: l => match apply o s with Some s' => run l s' | None => None end end.

  (** amp_tracker.hpp:571-592 CopyFinalSolution, and 398-411 CurrentPoint *)
  Definition final_solution (s : amp) : list num :=
    if cur s =? double_digits then from_doubles (dflt s) (space_d s) else map (set_prec (cur s)) (space s).
  Definition current_point (s : amp) : list num :=
    if cur s =? double_digits then from_doubles (dflt s) (space_d s) else space s.
  (** amp_tracker.hpp:557-562 PostTrackCleanup *)
  Definition cleanup (s : amp) : option amp := if preserve s then change (initial s) s else Some s.
  (** base_tracker.hpp:283-285: the end of TrackPath *)
  Definition finish (s : amp) : option (list num * amp) :=
    match cleanup s with Some s' => Some (final_solution s, s') | None => None end.

  (** amp_tracker.hpp:1199-1228 RefineImpl called by a user with a point of precision [p] *)
  Definition refine (p : nat) (s : amp) : option amp := change p s.

  (** ** What is proved *)
  Definition values (s : amp) : list V := if cur s =? double_digits then space_d s else map val (space s).

  Definition all_at (p : nat) (l : list num) : Prop := Forall (fun x => prec x = p) l.
  Definition uniform (s : amp) : Prop :=
    dflt s = cur s /\ sys s = cur s /\
    (cur s = double_digits \/
     double_digits < cur s <= most_digits /\ pred s = cur s /\ corr s = cur s /\
     prec (endt s) = cur s /\ prec (step s) = cur s /\ prec (delta s) = cur s /\ prec (time s) = cur s /\
     all_at (cur s) (space s) /\ all_at (cur s) (tentative s) /\ all_at (cur s) (temporary s)).
  Definition sized (s : amp) : Prop :=
    if cur s =? double_digits then length (space_d s) = n
    else length (space s) = n /\ length (tentative s) = n /\ length (temporary s) = n.
  Definition fits (o : op) : Prop :=
    match o with
    | SetTemporary l | SetTentative l | Accept l => length l = n
    | Change p => double_digits <= p <= most_digits
    | Refine l g => match l with Some l => length l = n | None => length g = n end
    | _ => True
    end.

  Lemma head_all p l : all_at p l -> l <> [] -> head_at p l = true.
  Proof. intros A N. destruct l; [now destruct N|]. inversion A; subst. cbn. apply Nat.eqb_refl. Qed.
  Lemma all_set p l : all_at p (map (set_prec p) l).
  Proof. apply Forall_forall. intros x I. apply in_map_iff in I. now destruct I as (y & <- & _). Qed.
  Lemma resize_length d l : length (resize d l) = n.
  Proof. unfold resize. destruct (Nat.eqb_spec (length l) n); [assumption|apply repeat_length]. Qed.

  Hypothesis n_pos : 0 < n.
  Hypothesis join_same : forall p, join p p = p.

  Lemma work_uniform s : uniform s -> cur s <> double_digits -> work s = cur s.
  Proof.
    intros (D & Y & [U|(L & P & C & E & H & T & M & S1 & _)]) N; [contradiction|].
    unfold work. rewrite D, Y, P, C, E, H, T, M.
    assert (A : forall l, Forall (fun q => q = cur s) l -> fold_left join l (cur s) = cur s).
    { induction 1 as [|q l -> _ IH]; [reflexivity|]. cbn. now rewrite join_same. }
    apply A. apply Forall_app. split; [|repeat constructor].
    apply Forall_forall. intros q I. apply in_map_iff in I. destruct I as (x & <- & I). unfold all_at in S1.
    rewrite Forall_forall in S1. now apply S1.
  Qed.

  Lemma to_multiple_spec p copy len s : double_digits < p <= most_digits -> len = n -> length (copy p) = n ->
    exists s', to_multiple p copy len s = Some s' /\ cur s' = p /\ uniform s' /\ sized s' /\
      map val (space s') = map (fun x => rnd p (val x)) (copy p) /\ val (time s') = rnd p (val (time s)) /\
      endt s' = set_prec p (endt_high s) /\ endt_high s' = endt_high s /\ initial s' = initial s /\ preserve s' = preserve s /\
      val (step s') = rnd p (val (step s)).
  Proof.
    intros L -> C. unfold to_multiple. rewrite Nat.eqb_refl. destruct (Nat.ltb_spec double_digits p); [|lia]. cbn [andb adjust_current dflt].
    set (s2 := adjust_temporaries p _).
    assert (NE : forall l : list num, length l = n -> l <> []) by (intros [|x l] E; [cbn in E; lia|discriminate]).
    assert (U : uniform s2).
    { split; [reflexivity|]. split; [reflexivity|]. right. split; [exact L|]. repeat (split; [reflexivity|]).
      repeat split; apply all_set. }
    assert (Z : sized s2).
    { unfold sized, s2. cbn [adjust_temporaries adjust_internals set_space adjust_current cur]. destruct (Nat.eqb_spec p double_digits); [lia|].
      cbn [adjust_temporaries adjust_internals set_space adjust_current dflt space tentative temporary]. rewrite !map_length, !resize_length. auto. }
    assert (S : sane s2 = true).
    { unfold sane, s2. cbn [adjust_temporaries adjust_internals set_space adjust_current dflt cur sys pred step delta endt time space tentative
        temporary PatchPrecision.set_prec prec]. rewrite Nat.eqb_refl.
      destruct (Nat.leb_spec p most_digits); [|lia].
      rewrite !head_all; try reflexivity; try apply all_set; apply NE; rewrite map_length; auto using resize_length. }
    rewrite S. exists s2. split; [reflexivity|]. split; [reflexivity|]. split; [exact U|]. split; [exact Z|]. split; [|now repeat split].
    unfold s2. cbn [adjust_temporaries adjust_internals set_space adjust_current space]. now rewrite map_map.
  Qed.

  Lemma to_multiple_fails p copy len s : most_digits < p -> to_multiple p copy len s = None.
  Proof.
    intros L. unfold to_multiple. destruct (_ && _); [|reflexivity]. cbn zeta.
    match goal with |- assert (sane ?x) _ = _ => assert (E : sane x = false) end.
    { unfold sane. cbn [adjust_temporaries adjust_internals set_space adjust_current cur dflt sys]. destruct (Nat.leb_spec p most_digits); [lia|].
      now rewrite !andb_false_r. }
    now rewrite E.
  Qed.

  Definition changed (p : nat) (s s' : amp) : Prop :=
    cur s' = p /\ uniform s' /\ sized s' /\ endt_high s' = endt_high s /\ initial s' = initial s /\ preserve s' = preserve s.

  Lemma change_spec p s : uniform s -> sized s -> double_digits <= p <= most_digits -> exists s', change p s = Some s' /\ changed p s s'.
  Proof.
    intros U Z L. unfold change. destruct (Nat.eqb_spec p (cur s)) as [E|N]; [exists s; repeat split; auto; apply U|].
    unfold sized in Z. destruct (Nat.eqb_spec (cur s) double_digits) as [D|D].
    - rewrite D in *. rewrite Nat.ltb_irrefl, andb_false_r. destruct (Nat.ltb_spec double_digits p); [|lia]. cbn [andb].
      destruct (to_multiple_spec p (fun d => from_doubles d (space_d s)) (length (space_d s)) s) as (s' & R); auto; try lia.
      { unfold from_doubles. now rewrite map_length. }
      exists s'. unfold changed, double_to_multiple. tauto.
    - destruct U as (_ & _ & [U|(B & _)]); [contradiction|]. destruct (Nat.ltb_spec double_digits (cur s)); [|lia]. rewrite andb_true_r, andb_false_r.
      destruct (Nat.eqb_spec p double_digits) as [->|Q].
      + unfold multiple_to_double. destruct Z as (Z & _). rewrite Z, Nat.eqb_refl. eexists. split; [reflexivity|].
        unfold changed, uniform, sized. cbn [cur dflt sys space_d endt_high initial preserve]. rewrite Nat.eqb_refl, map_length. auto 10.
      + destruct (to_multiple_spec p (fun _ => space s) (length (space s)) s) as (s' & R); try tauto; try lia.
        exists s'. unfold changed, multiple_to_multiple. tauto.
  Qed.

  Lemma uniform_at s : uniform s -> cur s <> double_digits ->
    double_digits < cur s <= most_digits /\ dflt s = cur s /\ sys s = cur s /\ pred s = cur s /\ corr s = cur s /\
     prec (endt s) = cur s /\ prec (step s) = cur s /\ prec (delta s) = cur s /\ prec (time s) = cur s /\
     all_at (cur s) (space s) /\ all_at (cur s) (tentative s) /\ all_at (cur s) (temporary s).
  Proof. intros (D & Y & [U|U]) N; tauto. Qed.

  Lemma computed_at s l : uniform s -> cur s <> double_digits -> all_at (cur s) (computed s l).
  Proof.
    intros U N. unfold computed. rewrite (work_uniform s U N). apply Forall_forall. intros x I. apply in_map_iff in I.
    now destruct I as (v & <- & _).
  Qed.

  Definition kept (s s' : amp) : Prop := endt_high s' = endt_high s /\ initial s' = initial s /\ preserve s' = preserve s.

  Lemma apply_spec o s : uniform s -> sized s -> fits o -> exists s', apply o s = Some s' /\ uniform s' /\ sized s' /\ kept s s'.
  Proof.
    intros U Z F. destruct o as [v|l|l|l|v|v|p|[l|] g]; cbn [apply fits] in *.
    7: { destruct (change_spec p s U Z F) as (s' & E & C). exists s'. split; [exact E|]. unfold changed in C. unfold kept. tauto. }
    all: eexists; split; [reflexivity|]; unfold kept, refine_stored;
      destruct (Nat.eqb_spec (cur s) double_digits) as [D|N].
    all: try (unfold uniform, sized in *; cbn [set_space dflt cur prev initial preserve sys pred corr endt endt_high step delta time space_d space
      tentative temporary prec] in *; rewrite D in *; rewrite Nat.eqb_refl in *; rewrite ?map_length; tauto).
    all: pose proof (uniform_at s U N) as (B & E1 & E2 & E3 & E4 & E5 & E6 & E7 & E8 & A1 & A2 & A3);
      pose proof (fun l => computed_at s l U N) as CA;
      assert (CL : forall l, length (computed s l) = length l) by (intros; unfold computed; apply map_length);
      unfold uniform, sized in *; cbn [set_space dflt cur prev initial preserve sys pred corr endt endt_high step delta time space_d space
      tentative temporary prec] in *; destruct (Nat.eqb_spec (cur s) double_digits); [contradiction|];
      rewrite ?E1, ?E5, ?E6, ?E7, ?E8, ?join_same, ?CL; intuition auto.
  Qed.

  Lemma run_spec l : forall s, uniform s -> sized s -> Forall fits l -> exists s', run l s = Some s' /\ uniform s' /\ sized s' /\ kept s s'.
  Proof.
    induction l as [|o l IH]; intros s U Z F; [exists s; unfold kept; auto 10|]. inversion F; subst. cbn [run].
    destruct (apply_spec o s U Z H1) as (s1 & E & U1 & Z1 & K1). rewrite E.
    destruct (IH s1 U1 Z1 H2) as (s2 & E2 & U2 & Z2 & K2). exists s2. split; [exact E2|]. split; [exact U2|]. split; [exact Z2|].
    destruct K1 as (? & ? & ?), K2 as (? & ? & ?). repeat split; congruence.
  Qed.

  Lemma start_spec t0 t1 x0 first s c l : x0 = c :: l -> length x0 = n -> double_digits <= prec c <= most_digits ->
    exists s', start_track t0 t1 x0 first s = Some s' /\ uniform s' /\ sized s' /\ cur s' = prec c /\ initial s' = prec c /\
      preserve s' = preserve s /\ endt_high s' = set_prec (prec c) t1 /\ values s' = map (fun x => rnd (prec c) (val x)) x0.
  Proof.
    intros -> Len L. unfold start_track. destruct (Nat.eqb_spec (prec c) double_digits) as [E|N].
    - unfold multiple_to_double. rewrite Len, Nat.eqb_refl. cbn [initial]. unfold change at 2. cbn [cur]. rewrite E, Nat.eqb_refl.
      unfold change. cbn [cur]. rewrite Nat.eqb_refl. eexists. split; [reflexivity|].
      unfold uniform, sized, values. cbn [cur dflt sys space_d initial preserve endt_high]. rewrite Nat.eqb_refl, map_length. auto 10.
    - set (s1 := mkAmpState _ _ _ _ _ _ _ _ _ _ _ _ _ _ _ _ _).
      destruct (to_multiple_spec (prec c) (fun _ => c :: l) (length (c :: l)) s1) as (s' & R & C & U & Z & V0 & T & ET & EH & I & P & _);
        auto; try lia.
      unfold multiple_to_multiple. rewrite R. rewrite I. unfold s1; cbn [initial]. unfold change at 1. rewrite C, Nat.eqb_refl. unfold change.
      rewrite C, Nat.eqb_refl. exists s'. repeat (split; [try tauto|]); auto. unfold values. rewrite C.
      destruct (Nat.eqb_spec (prec c) double_digits); [contradiction|]. exact V0.
  Qed.

  (** rounding to more digits keeps what has fewer *)
  Hypothesis nested : forall p q v, q <= p -> rnd p (rnd q v) = rnd q v.
  Definition rounded (s : amp) : Prop :=
    if cur s =? double_digits then Forall (fun v => rnd double_digits v = v) (space_d s)
    else Forall (fun x => rnd (cur s) (val x) = val x) (space s) /\ Forall (fun x => rnd (cur s) (val x) = val x) (tentative s).

  Lemma rounded_set p l : Forall (fun x => rnd p (val x) = val x) (map (set_prec p) l).
  Proof. apply Forall_forall. intros x I. apply in_map_iff in I. destruct I as (y & <- & _). cbn. now apply nested. Qed.
  Lemma rounded_map p l : Forall (fun v => rnd p v = v) (map (rnd p) l).
  Proof. apply Forall_forall. intros x I. apply in_map_iff in I. destruct I as (y & <- & _). now apply nested. Qed.
  Lemma rounded_computed s l : uniform s -> cur s <> double_digits -> Forall (fun x => rnd (cur s) (val x) = val x) (computed s l).
  Proof.
    intros U N. unfold computed. rewrite (work_uniform s U N). apply Forall_forall. intros x I. apply in_map_iff in I.
    destruct I as (v & <- & _). cbn. now apply nested.
  Qed.
  Lemma to_multiple_rounded p copy len s s' : to_multiple p copy len s = Some s' -> rounded s'.
  Proof.
    unfold to_multiple. destruct (Nat.eqb_spec len n); [|intros Q; discriminate Q]. destruct (Nat.ltb_spec double_digits p); [|intros Q; discriminate Q].
    cbn [andb]. cbn zeta. unfold assert. destruct (sane _); [|intros Q; discriminate Q]. intros Q. injection Q as <-.
    unfold rounded. cbn [adjust_temporaries adjust_internals set_space adjust_current cur space tentative].
    destruct (Nat.eqb_spec p double_digits); [lia|]. split; apply rounded_set.
  Qed.
  Lemma multiple_to_double_rounded src s s' : multiple_to_double src s = Some s' -> rounded s'.
  Proof.
    unfold multiple_to_double. destruct (_ =? n); [|intros Q; discriminate Q]. intros Q. injection Q as <-. unfold rounded. cbn [cur space_d].
    rewrite Nat.eqb_refl. rewrite <- (map_map val (rnd double_digits)). apply rounded_map.
  Qed.
  Lemma change_rounded p s s' : rounded s -> change p s = Some s' -> rounded s'.
  Proof.
    unfold change. intros R A. destruct (p =? cur s); [injection A as <-; exact R|].
    destruct (_ && _); [now apply multiple_to_double_rounded in A|]. destruct (_ && _); now apply to_multiple_rounded in A.
  Qed.
  Lemma apply_rounded o s s' : uniform s -> rounded s -> apply o s = Some s' -> rounded s'.
  Proof.
    intros U R A. destruct o as [v|l|l|l|v|v|p|[l|] g]; cbn [apply] in A; [..|now apply change_rounded in A| |].
    all: injection A as <-; unfold rounded, refine_stored in *; destruct (Nat.eqb_spec (cur s) double_digits) as [D|D];
      cbn [set_space cur space_d space tentative]; rewrite ?D, ?Nat.eqb_refl; try tauto; try apply rounded_map;
      try (rewrite D in *; assumption).
    all: destruct (Nat.eqb_spec (cur s) double_digits); [contradiction|]; pose proof (fun l => rounded_computed s l U D); intuition auto.
  Qed.
  Lemma run_rounded l : forall s s', uniform s -> sized s -> Forall fits l -> rounded s -> run l s = Some s' -> rounded s'.
  Proof.
    induction l as [|o l IH]; intros s s' U Z F R A; cbn [run] in A; [injection A as <-; exact R|]. inversion F; subst.
    destruct (apply_spec o s U Z H1) as (s1 & E & U1 & Z1 & _). rewrite E in A. apply (IH s1 s' U1 Z1 H2 (apply_rounded o s s1 U R E) A).
  Qed.
  Lemma start_rounded t0 t1 x0 first s s' : start_track t0 t1 x0 first s = Some s' -> rounded s'.
  Proof.
    unfold start_track. destruct x0 as [|c l]; [intros Q; discriminate Q|]. set (s1 := mkAmpState _ _ _ _ _ _ _ _ _ _ _ _ _ _ _ _ _).
    destruct (if prec c =? double_digits then _ else _) as [s2|] eqn:E; [|intros Q; discriminate Q].
    assert (H : rounded s2) by (destruct (prec c =? double_digits); [now apply multiple_to_double_rounded in E|now apply to_multiple_rounded in E]).
    destruct (change (initial s2) s2) as [s3|] eqn:C; [|intros Q; discriminate Q]. intros C2.
    apply (change_rounded _ _ _ (change_rounded _ _ _ H C) C2).
  Qed.

  Lemma change_values p s s' : uniform s -> sized s -> double_digits <= p <= most_digits -> p <> cur s -> change p s = Some s' ->
    values s' = map (rnd p) (values s).
  Proof.
    intros U Z L N. unfold change. destruct (Nat.eqb_spec p (cur s)) as [E|_]; [contradiction|]. unfold sized in Z.
    destruct (Nat.eqb_spec (cur s) double_digits) as [D|D].
    - rewrite D in *. rewrite Nat.ltb_irrefl, andb_false_r. destruct (Nat.ltb_spec double_digits p); [|lia]. cbn [andb].
      destruct (to_multiple_spec p (fun d => from_doubles d (space_d s)) (length (space_d s)) s) as (s1 & R & C & _ & _ & W & _); auto; try lia.
      { unfold from_doubles. now rewrite map_length. }
      unfold double_to_multiple. rewrite R. intros Q. injection Q as <-. unfold values. rewrite C, D, Nat.eqb_refl.
      destruct (Nat.eqb_spec p double_digits); [contradiction|]. rewrite W. unfold from_doubles. rewrite map_map. apply map_ext.
      intros v. cbn [val]. apply nested. lia.
    - destruct U as (_ & _ & [U|(B & _)]); [contradiction|]. destruct (Nat.ltb_spec double_digits (cur s)); [|lia]. rewrite andb_true_r, andb_false_r.
      unfold values. destruct (Nat.eqb_spec (cur s) double_digits); [contradiction|].
      destruct (Nat.eqb_spec p double_digits) as [->|Q].
      + unfold multiple_to_double. destruct Z as (Z & _). rewrite Z, Nat.eqb_refl. intros Q. injection Q as <-. cbn [cur space_d].
        rewrite Nat.eqb_refl, map_map. reflexivity.
      + destruct (to_multiple_spec p (fun _ => space s) (length (space s)) s) as (s1 & R & C & _ & _ & W & _); try tauto; try lia.
        unfold multiple_to_multiple. rewrite R. intros Y. injection Y as <-. rewrite C. destruct (Nat.eqb_spec p double_digits); [contradiction|].
        rewrite W, map_map. reflexivity.
  Qed.

  Lemma map_rnd_same p l : Forall (fun v => rnd p v = v) l -> map (rnd p) l = l.
  Proof. induction 1 as [|v l E _ IH]; [reflexivity|]. cbn. now rewrite E, IH. Qed.

  Lemma final_values s : uniform s -> rounded s -> map val (final_solution s) = values s /\ all_at (cur s) (final_solution s).
  Proof.
    intros U R. unfold final_solution, values, rounded in *. destruct (Nat.eqb_spec (cur s) double_digits) as [E|N].
    - destruct U as (D & _). rewrite D, E. unfold from_doubles. split.
      + rewrite map_map. cbn [val]. now apply map_rnd_same.
      + apply Forall_forall. intros x I. apply in_map_iff in I. now destruct I as (v & <- & _).
    - split; [|apply all_set]. rewrite map_map. apply map_ext_in. intros x I. cbn. destruct R as (R & _). rewrite Forall_forall in R. now apply R.
  Qed.

  (** the end time the tracker heads for, in multiple precision *)
  Definition heads (s : amp) : Prop := cur s <> double_digits -> endt s = set_prec (cur s) (endt_high s).
  Lemma to_multiple_heads p copy len s s' : to_multiple p copy len s = Some s' -> heads s'.
  Proof.
    unfold to_multiple. destruct (_ && _); [|intros Q; discriminate Q]. cbn zeta. unfold assert.
    destruct (sane _); [|intros Q; discriminate Q]. intros Q. injection Q as <-. intros _. reflexivity.
  Qed.
  Lemma apply_heads o s s' : heads s -> apply o s = Some s' -> heads s'.
  Proof.
    intros H A. destruct o as [v|l|l|l|v|v|p|l g]; cbn [apply] in A.
    7: { unfold change in A. destruct (p =? cur s); [injection A as <-; exact H|].
      pose proof (to_multiple_heads p) as G.
      destruct (_ && _).
      - unfold multiple_to_double in A. destruct (_ =? n); [|discriminate]. injection A as <-. intros N. now destruct N.
      - destruct (_ && _); [exact (G _ _ _ _ A)|exact (G _ _ _ _ A)]. }
    all: injection A as <-; unfold refine_stored, heads in *; destruct (Nat.eqb_spec (cur s) double_digits); try exact H;
      try (destruct l); cbn [set_space cur endt endt_high]; auto.
  Qed.
  Lemma run_heads l : forall s s', heads s -> run l s = Some s' -> heads s'.
  Proof.
    induction l as [|o l IH]; intros s s' H R; cbn [run] in R; [injection R as <-; exact H|].
    destruct (apply o s) eqn:A; [|discriminate]. eapply IH; [|exact R]. eapply apply_heads; eauto.
  Qed.

  Lemma start_heads t0 t1 x0 first s s' : start_track t0 t1 x0 first s = Some s' -> heads s'.
  Proof.
    unfold start_track. destruct x0 as [|c l]; [intros Q; discriminate Q|]. set (s1 := mkAmpState _ _ _ _ _ _ _ _ _ _ _ _ _ _ _ _ _).
    destruct (if prec c =? double_digits then _ else _) as [s2|] eqn:E; [|intros Q; discriminate Q].
    assert (H : heads s2).
    { destruct (Nat.eqb_spec (prec c) double_digits).
      - unfold multiple_to_double in E. destruct (_ =? n); [|discriminate]. injection E as <-. intros N. now destruct N.
      - unfold multiple_to_multiple, to_multiple in E. destruct (_ && _); [|discriminate]. cbn zeta in E. unfold assert in E. destruct (sane _); [|discriminate].
        injection E as <-. intros _. reflexivity. }
    destruct (change (initial s2) s2) as [s3|] eqn:C; [|intros Q; discriminate Q]. intros C2.
    apply (apply_heads (Change (prec c)) s3 s'); [|exact C2]. now apply (apply_heads (Change (initial s2)) s2 s3).
  Qed.
End AmpState.
