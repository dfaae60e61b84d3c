(** C68: what is recorded about the precision of each path. *)
From Coq Require Import List Arith Lia Bool.
From Verif Require Import Recorders.
Import ListNotations.

(** For every history of paths tracked before and during the endgame, in any order and any number of times, from a solver
    just constructed: the largest precision recorded for a path is at least every precision the tracker changed to on it, *)
Theorem C68_max_covers : forall (T : Type) mu c (f : first_rec (T := T)) h1 p h2 t a b,
  In (t, a, b) (changes (precision_after c h1) (actions_of p)) ->
  b <= max_used (metas (solve (fresh mu c f) (h1 ++ p :: h2)) (path_of p)).
Proof. exact @max_covers. Qed.
Print Assumptions C68_max_covers.

(** and is 0 or some precision the tracker changed to, on some path. *)
Theorem C68_max_partial : forall (T : Type) mu c (f : first_rec (T := T)) h i,
  let m := max_used (metas (solve (fresh mu c f) h) i) in
  m = 0 \/ exists t a, In (t, a, m) (history_changes c h).
Proof. exact @max_zero_or. Qed.
Print Assumptions C68_max_partial.

(** Exactly: the largest precision changed to on any path until this one was last tracked. *)
Theorem C68_max_exact : forall (T : Type) mu c (f : first_rec (T := T)) h1 p h2 i,
  path_of p = i -> (forall q, In q h2 -> path_of q <> i) ->
  max_used (metas (solve (fresh mu c f) (h1 ++ p :: h2)) i) = fold_left Nat.max (map snd (history_changes c (h1 ++ [p]))) 0.
Proof. exact @max_exact. Qed.
Print Assumptions C68_max_exact.

(** So a path tracked at one precision throughout is recorded as using precision 0, *)
Theorem C68_max_start_refuted : exists (h : list (phase (T := nat))), (forall p, In p h -> path_of p = 0) /\
  h <> [] /\ history_changes 30 h = [] /\ forall mu f, max_used (metas (solve (fresh mu 30 f) h) 0) = 0.
Proof.
  exists [Before 0 [ChangePrecision 9 30; Tell 8; Tell 7]; During 0 [ChangePrecision 2 30; Tell 1]].
  split; [intros p [<-|[<-|[]]]; reflexivity|]. split; [discriminate|]. split; [reflexivity|]. intros mu [st np [|] tm]; reflexivity.
Qed.
Print Assumptions C68_max_start_refuted.

(** and a path after one that needed a high precision is recorded as having used it too. *)
Theorem C68_max_leak_refuted : exists (h : list (phase (T := nat))), forall mu f,
  let s := solve (fresh mu 16 f) h in
  (forall p x, In p h -> path_of p = 1 -> In x (changes 16 (actions_of p)) -> False) /\ (exists p, In p h /\ path_of p = 1) /\
  cur s = 16 /\ max_used (metas s 1) = 100.
Proof.
  exists [Before 0 [ChangePrecision 5 100; ChangePrecision 1 16]; Before 1 [Tell 5]]. intros mu f s.
  split; [intros p x [<-|[<-|[]]] E H; [discriminate|exact H]|]. split; [eexists; split; [right; left; reflexivity|reflexivity]|].
  split; reflexivity.
Qed.
Print Assumptions C68_max_leak_refuted.

(** A path is recorded as having had its precision raised exactly when the flag was up to begin with (it is not
    initialised), or the precision was raised on any path until this one was last tracked. *)
Theorem C68_changed_exact : forall (T : Type) mu c (f : first_rec (T := T)) h1 p h2 i,
  path_of p = i -> (forall q, In q h2 -> path_of q <> i) ->
  precision_changed (metas (solve (fresh mu c f) (h1 ++ p :: h2)) i) = (increased f || ever_rises c (h1 ++ [p])).
Proof. exact @changed_exact. Qed.
Print Assumptions C68_changed_exact.

(** So no rise is missed, but one path's rise is put down to the others after it, with its time, *)
Theorem C68_changed_leak_refuted : exists (h : list (phase (T := nat))), forall mu f,
  let s := solve (fresh mu 16 f) h in
  (forall p, In p h -> path_of p = 1 -> changes 16 (actions_of p) = []) /\ (exists p, In p h /\ path_of p = 1) /\
  precision_changed (metas s 1) = true /\ time_first_increase (metas s 1) = Some 5.
Proof.
  exists [Before 0 [ChangePrecision 5 100; ChangePrecision 1 16]; Before 1 [Tell 7]]. intros mu f s.
  split; [intros p [<-|[<-|[]]] E; [discriminate|reflexivity]|]. split; [eexists; split; [right; left; reflexivity|reflexivity]|].
  split; reflexivity.
Qed.
Print Assumptions C68_changed_leak_refuted.

(** and what is recorded for the first path depends on memory that was never written. *)
Theorem C68_uninitialised_refuted : exists (h : list (phase (T := nat))) (f f' : first_rec (T := nat)), forall mu,
  precision_changed (metas (solve (fresh mu 16 f) h) 0) <> precision_changed (metas (solve (fresh mu 16 f') h) 0).
Proof.
  exists [Before 0 [Tell 7]], (mkFirst 0 0 false 0), (mkFirst 0 0 true 0). intros mu. cbn. discriminate.
Qed.
Print Assumptions C68_uninitialised_refuted.

(** The time recorded is that of the first rise on the path, if the precision rose before the endgame, *)
Theorem C68_time_before : forall (T : Type) mu c (f : first_rec (T := T)) h1 i l h2 t,
  (forall q, In q h2 -> forall l', q <> Before i l') -> first_rise (precision_after c h1) l = Some t ->
  let x := metas (solve (fresh mu c f) (h1 ++ Before i l :: h2)) i in
  precision_changed x = true /\ time_first_increase x = Some t.
Proof. exact @time_before. Qed.
Print Assumptions C68_time_before.

(** or during it and never before on any path. *)
Theorem C68_time_during_partial : forall (T : Type) mu c (f : first_rec (T := T)) h1 i l h2 t,
  (forall q, In q h2 -> path_of q <> i) -> increased f = false -> ever_rises c h1 = false ->
  first_rise (precision_after c h1) l = Some t ->
  let x := metas (solve (fresh mu c f) (h1 ++ During i l :: h2)) i in
  precision_changed x = true /\ time_first_increase x = Some t.
Proof. exact @time_during. Qed.
Print Assumptions C68_time_during_partial.

(** [first_rise] is the time of the first change to a higher precision. *)
Theorem C68_first_rise : forall (T : Type) c (l : list (action (T := T))) t, first_rise c l = Some t <->
  exists before a b later, changes c l = before ++ (t, a, b) :: later /\ a < b /\
    forall t' a' b', In (t', a', b') before -> b' <= a'.
Proof. exact @first_rise_spec. Qed.
Print Assumptions C68_first_rise.

Example C68_time_case :
  first_rise (precision_after 16 [Before 0 [Tell 9]]) [Tell 9; ChangePrecision 8 16; ChangePrecision 5 30; ChangePrecision 4 50] = Some 5 /\
  ever_rises 16 [Before 0 [Tell 9]] = false.
Proof. split; reflexivity. Qed.

(** The precision the recorder gives for the start of tracking is never written. *)
Theorem C68_start_refuted : forall (T : Type) mu c (f : first_rec (T := T)) h,
  starting (first (solve (fresh mu c f) h)) = starting f.
Proof.
  intros T mu c f h. destruct (solve_spec h (fresh mu c f) (fresh_consistent mu c f)) as [_ [_ [_ [S _]]]]. exact S.
Qed.
Print Assumptions C68_start_refuted.

(** Were the start of tracking announced, the recorder of the extremes would be right: it would forget whatever it had and
    record the least and the largest of the precision at the start and all changed to. *)
Theorem C68_extremes : forall m c l, Forall (fun x => snd x <> TrackingStarted) l ->
  watch_minmax m ((c, TrackingStarted) :: l) =
    mkMinMax (fold_left Nat.min (new_precisions l) c) (fold_left Nat.max (new_precisions l) c).
Proof. intros m c l H. exact (watch_spec l H (mkMinMax c c)). Qed.
Print Assumptions C68_extremes.

Example C68_extremes_case :
  watch_minmax (mkMinMax 1 500) [(30, TrackingStarted); (30, PrecisionChanged 30 50); (50, OtherTrackingEvent); (50, PrecisionChanged 50 16)]
  = mkMinMax 16 50.
Proof. reflexivity. Qed.

(** The accumulator, told of the end of tracking, has recorded exactly the precisions the tracker had. *)
Theorem C68_accumulator : forall (T : Type) (l : list (action (T := T))) c acc t x,
  In x (accumulate c (l ++ [Tell t]) acc) <-> In x acc \/ In x (used c l).
Proof. exact @accumulate_in. Qed.
Print Assumptions C68_accumulator.
