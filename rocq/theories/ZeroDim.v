(** The bookkeeping of the zero dimensional solver, core/include/bertini2/nag_algorithms/zero_dim_solve.hpp. *)
From Coq Require Import List ZArith Lia Reals Lra Bool Arith.
From Coquelicot Require Import Complex.
From Verif Require Import Base Newton Endgame EgSeries EgSeriesEx Midpath.
Import ListNotations.
Local Open Scope R_scope.

(** SolutionMetaData, zero_dim_solve.hpp:109-143: the indices (not initialised in the code, here None), the
    success codes and the multiplicity (an int; overflow needs 2^31 paths and is not modelled).  The fields
    holding precisions, residuals, estimates and flags are left out. *)
Record metadata := Meta {
  path_index : option nat; solution_index : option nat;
  pre_success : code; eg_success : code; multiplicity : Z }.
Definition new_meta : metadata := Meta None None NeverStarted NeverStarted 1.

(** EGBoundaryMetaData, zero_dim_solve.hpp:201-208. *)
Record at_boundary := Boundary { path_point : option (nat -> C); success_code : code; last_step : R }.
Definition new_boundary : at_boundary := Boundary None NeverStarted 0.

(** The settings of the tracker which the solver changes: SetTrackingTolerance, ReinitializeInitialStepSize, SetStepSize. *)
Record settings := Settings { tolerance : R; reinitialize : bool; stepsize : R }.

(** The data members, zero_dim_solve.hpp:828-848, a call counter for the oracles, the list (kept for the statements) of
    all runs of the tracker before the endgame with the tolerance used, and a flag raised by an access out of range or
    the difference of vectors of different sizes. *)
Record solver := Solver {
  meta : list metadata; boundary : list at_boundary; final : list (option (nat -> C));
  mid : checker; retrack_tol : R; tracker : settings;
  calls : nat; runs : list (nat * R); undefined : bool }.

Definition upd {A : Type} (i : nat) (f : A -> A) (l : list A) : list A :=
  firstn i l ++ match skipn i l with [] => [] | a :: r => f a :: r end.

(** vector::resize *)
Definition resize {A : Type} (n : nat) (d : A) (l : list A) : list A := firstn n l ++ repeat d (n - length l).

Definition new_solver (t : settings) : solver := Solver [] [] [] new_checker 0 t 0 [] false.

Section ZeroDim.
Variable nv : nat.
Variable num_start_points : nat.
Variable start_point : nat -> (nat -> C).
(** oracles, indexed by the number of calls so far: TrackPath and Run of the endgame with the settings of the tracker *)
Variable track : nat -> settings -> (nat -> C) -> (nat -> C) * code * R.
Variable endgame : nat -> settings -> (nat -> C) -> (nat -> C) * code * R.
(** Tolerances, AutoRetrack, ZeroDimConf, PostProcessing and MidPathConfig *)
Variable newton_before newton_during factor same_final same_mid : R.
Variable max_attempts : nat.

Definition set_tolerance (tol : R) (s : solver) : solver :=
  Solver (meta s) (boundary s) (final s) (mid s) (retrack_tol s)
    (Settings tol (reinitialize (tracker s)) (stepsize (tracker s))) (calls s) (runs s) (undefined s).

(** PreSolveSetup, zero_dim_solve.hpp:573-582. *)
Definition setup (s : solver) : solver :=
  Solver (resize num_start_points new_meta (meta s)) (resize num_start_points new_boundary (boundary s))
    (resize num_start_points None (final s)) (mid s) newton_before (tracker s) (calls s) (runs s) (undefined s).

(** TrackSinglePathBeforeEG, zero_dim_solve.hpp:611-654, without observers and precision. *)
Definition track_one (s : solver) (i : nat) : solver :=
  let '(x, c, h) := track (calls s) (tracker s) (start_point i) in
  Solver (upd i (fun m => Meta (Some i) (Some i) c (eg_success m) (multiplicity m)) (meta s))
    (upd i (fun _ => Boundary (Some x) c h) (boundary s)) (final s) (mid s) (retrack_tol s)
    (Settings (tolerance (tracker s)) (reinitialize (tracker s)) h)
    (S (calls s)) (runs s ++ [(i, tolerance (tracker s))])
    (undefined s || negb (Nat.ltb i (length (meta s)))).

(** TrackBeforeEG, zero_dim_solve.hpp:591-604. *)
Definition before (s : solver) : solver := fold_left track_one (seq 0 num_start_points) (set_tolerance newton_before s).

(** What the checker sees of the boundary data; entries without a point have never been tracked. *)
Definition checked (b : list at_boundary) : list ((nat -> C) * code) :=
  map (fun e => match path_point e with Some x => (x, success_code e) | None => (fun _ => RtoC 0, NeverStarted) end) b.

Definition run_check (s : solver) : solver * bool :=
  let (m, b) := check nv same_mid start_point (checked (boundary s)) (mid s) in
  (Solver (meta s) (boundary s) (final s) m (retrack_tol s) (tracker s) (calls s) (runs s) (undefined s), b).

(** ShrinkMidpathTolerance, zero_dim_solve.hpp:687-691. *)
Definition shrink (s : solver) : solver :=
  let tol := retrack_tol s * factor in
  Solver (meta s) (boundary s) (final s) (mid s) tol
    (Settings tol (reinitialize (tracker s)) (stepsize (tracker s))) (calls s) (runs s) (undefined s).

(** MidpathResolve, zero_dim_solve.hpp:670-684 (the loop runs over a copy of the list). *)
Definition marked (c : checker) : list nat := map index (filter rerun (crossed c)).
Definition resolve (s : solver) : solver := fold_left track_one (marked (mid s)) (shrink s).

(** EGBoundaryAction, zero_dim_solve.hpp:656-667. *)
Fixpoint resolve_loop (attempts : nat) (sb : solver * bool) : solver :=
  let (s, passed) := sb in
  if passed then s else
  match attempts with
  | O => s
  | S a => resolve_loop a (run_check (resolve s))
  end.
Definition boundary_action (s : solver) : solver := resolve_loop max_attempts (run_check s).

(** TrackSinglePathDuringEG, zero_dim_solve.hpp:712-776, and the test of zero_dim_solve.hpp:704. *)
Definition endgame_one (s : solver) (i : nat) : solver :=
  match nth_error (meta s) i, nth_error (boundary s) i with
  | Some m, Some b =>
      if is_success (pre_success m) then
        match path_point b with
        | Some p =>
            let '(x, c, h) := endgame (calls s) (Settings (tolerance (tracker s)) false (last_step b)) p in
            Solver (upd i (fun m => Meta (path_index m) (solution_index m) (pre_success m) c (multiplicity m)) (meta s))
              (boundary s) (upd i (fun _ => Some x) (final s)) (mid s) (retrack_tol s)
              (Settings (tolerance (tracker s)) false h) (S (calls s)) (runs s) (undefined s)
        | None => Solver (meta s) (boundary s) (final s) (mid s) (retrack_tol s) (tracker s) (calls s) (runs s) true
        end
      else s
  | _, _ => Solver (meta s) (boundary s) (final s) (mid s) (retrack_tol s) (tracker s) (calls s) (runs s) true
  end.

(** TrackDuringEG, zero_dim_solve.hpp:695-709. *)
Definition during (s : solver) : solver := fold_left endgame_one (seq 0 num_start_points) (set_tolerance newton_during s).

(** the Euclidean norm of the difference *)
Definition distance (x y : nat -> C) : R :=
  sqrt (fold_right Rplus 0 (map (fun j => (Cmod (x j - y j)%C) ^ 2) (seq 0 nv))).

Definition add_one (i : nat) (s : solver) : solver :=
  Solver (upd i (fun m => Meta (path_index m) (solution_index m) (pre_success m) (eg_success m) (multiplicity m + 1)) (meta s))
    (boundary s) (final s) (mid s) (retrack_tol s) (tracker s) (calls s) (runs s) (undefined s).
Definition raise (s : solver) : solver :=
  Solver (meta s) (boundary s) (final s) (mid s) (retrack_tol s) (tracker s) (calls s) (runs s) true.

Definition finished (s : solver) (i : nat) : bool :=
  match nth_error (meta s) i with Some m => is_success (eg_success m) | None => false end.

Definition compare (i : nat) (s : solver) (j : nat) : solver :=
  if finished s j then
    match nth_error (final s) i, nth_error (final s) j with
    | Some (Some x), Some (Some y) => if lt_bool (distance x y) same_final then add_one j (add_one i s) else s
    | _, _ => raise s
    end
  else s.

(** ComputeMultiplicities, zero_dim_solve.hpp:797-820. *)
Definition multiplicities (s : solver) : solver :=
  fold_left (fun s i => if finished s i then fold_left (compare i) (seq (S i) (num_start_points - S i)) s else s)
    (seq 0 num_start_points) s.

(** Solve, zero_dim_solve.hpp:519-532. *)
Definition solve (s : solver) : solver := multiplicities (during (boundary_action (before (setup s)))).

(** ** Lists *)

Lemma upd_length : forall {A} i f (l : list A), length (upd i f l) = length l.
Proof.
  clear. intros A i f l. unfold upd. rewrite <- (firstn_skipn i l) at 3. rewrite !app_length.
  destruct (skipn i l); reflexivity.
Qed.

Lemma upd_nth : forall {A} i j f (l : list A),
  nth_error (upd i f l) j = if Nat.eqb i j then option_map f (nth_error l j) else nth_error l j.
Proof.
  clear. intros A i j f l. revert i j. induction l as [|a l IH]; intros i j; unfold upd.
  - rewrite firstn_nil, skipn_nil. destruct j, (Nat.eqb i _); reflexivity.
  - destruct i as [|i]; cbn.
    + destruct j; reflexivity.
    + destruct j as [|j]; cbn; [reflexivity|]. apply (IH i j).
Qed.

Lemma resize_length : forall {A} n (d : A) l, length (resize n d l) = n.
Proof. clear. intros. unfold resize. rewrite app_length, firstn_length, repeat_length. lia. Qed.

Lemma resize_nth : forall {A} n (d : A) l i, (i < n)%nat ->
  nth_error (resize n d l) i = Some (nth i l d).
Proof.
  clear. intros A n d l i H. unfold resize. destruct (Nat.lt_ge_cases i (length l)) as [L|L].
  - rewrite nth_error_app1 by (rewrite firstn_length; lia).
    rewrite <- (firstn_skipn n l) at 2. rewrite app_nth1 by (rewrite firstn_length; lia).
    rewrite (nth_error_nth' _ d) by (rewrite firstn_length; lia). reflexivity.
  - rewrite nth_error_app2 by (rewrite firstn_length; lia). rewrite (nth_overflow l) by exact L.
    rewrite firstn_length. rewrite nth_error_nth' with (d := d) by (rewrite repeat_length; lia).
    f_equal. assert (forall k m, nth k (repeat d m) d = d) as E; [|apply E].
    clear. intros k m. revert k. induction m; intros [|k]; cbn; auto.
Qed.

(** ** Invariants *)

Definition sized (s : solver) : Prop :=
  length (meta s) = num_start_points /\ length (boundary s) = num_start_points /\ length (final s) = num_start_points.

(** Path i has been tracked from its own start point, and the records say what happened. *)
Definition tracked (s : solver) (i : nat) : Prop :=
  exists k t x c h m, track k t (start_point i) = (x, c, h) /\
    nth_error (boundary s) i = Some (Boundary (Some x) c h) /\
    nth_error (meta s) i = Some m /\ path_index m = Some i /\ solution_index m = Some i /\ pre_success m = c.

Definition inside (s : solver) : Prop := forall i, In i (map index (crossed (mid s))) -> (i < num_start_points)%nat.

Lemma setup_sized : forall s, sized (setup s).
Proof. intro s. repeat split; apply resize_length. Qed.

Lemma track_one_sized : forall s i, sized s -> sized (track_one s i).
Proof.
  intros s i (A & B & D). unfold track_one. destruct (track _ _ _) as [[x c] h].
  repeat split; cbn; rewrite ?upd_length; assumption.
Qed.

Lemma track_one_here : forall s i, sized s -> (i < num_start_points)%nat -> tracked (track_one s i) i.
Proof.
  intros s i (A & B & D) H. unfold track_one, tracked.
  destruct (track (calls s) (tracker s) (start_point i)) as [[x c] h] eqn:E.
  destruct (nth_error (meta s) i) as [m|] eqn:Em; [|apply nth_error_None in Em; lia].
  destruct (nth_error (boundary s) i) as [b|] eqn:Eb; [|apply nth_error_None in Eb; lia].
  do 5 eexists. eexists. split; [exact E|]. cbn [meta boundary].
  rewrite !upd_nth, Nat.eqb_refl, Em, Eb. cbn [option_map]. repeat split.
Qed.

Lemma track_one_keeps : forall s i j, sized s -> (i < num_start_points)%nat -> tracked s j -> tracked (track_one s i) j.
Proof.
  intros s i j S H T. destruct (Nat.eq_dec i j) as [<-|D]; [apply track_one_here; assumption|].
  destruct T as (k & t & x & c & h & m & E & Eb & Em & P). exists k, t, x, c, h, m. split; [exact E|].
  unfold track_one. destruct (track (calls s) (tracker s) (start_point i)) as [[x' c'] h'].
  cbn [meta boundary]. rewrite !upd_nth. destruct (Nat.eqb_spec i j); [contradiction|]. auto.
Qed.

(** Runs of single paths from a list of valid indices. *)
Record same_rest (s s' : solver) : Prop := {
  sr_final : final s' = final s; sr_mid : mid s' = mid s; sr_tol : retrack_tol s' = retrack_tol s;
  sr_tracker : tolerance (tracker s') = tolerance (tracker s) /\ reinitialize (tracker s') = reinitialize (tracker s);
  sr_meta : forall i m', nth_error (meta s') i = Some m' -> exists m, nth_error (meta s) i = Some m /\
     eg_success m' = eg_success m /\ multiplicity m' = multiplicity m }.

Lemma track_one_rest : forall s i, same_rest s (track_one s i).
Proof.
  intros s i. unfold track_one. destruct (track _ _ _) as [[x c] h]. split; cbn; auto.
  intros j m' H. rewrite upd_nth in H. destruct (Nat.eqb i j).
  - destruct (nth_error (meta s) j) as [m|] eqn:E; [|discriminate]. injection H as <-. exists m. auto.
  - exists m'. auto.
Qed.

Lemma same_rest_trans : forall a b c, same_rest a b -> same_rest b c -> same_rest a c.
Proof.
  intros a b c [A1 A2 A3 [A4 A4'] A5] [B1 B2 B3 [B4 B4'] B5]. split; try congruence.
  - split; congruence.
  - intros i m' H. apply B5 in H. destruct H as (m1 & H & E1 & E2). apply A5 in H.
    destruct H as (m & H & F1 & F2). exists m. repeat split; congruence.
Qed.

Lemma same_rest_refl : forall a, same_rest a a.
Proof. intro a. split; auto. intros i m H. exists m. auto. Qed.

Lemma track_list : forall l s, sized s -> (forall i, In i l -> (i < num_start_points)%nat) ->
  let s' := fold_left track_one l s in
  sized s' /\ undefined s' = undefined s /\ same_rest s s' /\
  (forall i, In i l \/ tracked s i -> tracked s' i) /\
  runs s' = runs s ++ map (fun i => (i, tolerance (tracker s))) l /\
  calls s' = (calls s + length l)%nat.
Proof.
  induction l as [|i l IH]; intros s S H; cbn [fold_left].
  - split; [exact S|]. split; [reflexivity|]. split; [apply same_rest_refl|]. split; [intros i [[]|T]; exact T|].
    cbn. rewrite app_nil_r, Nat.add_0_r. auto.
  - assert (Hi : (i < num_start_points)%nat) by (apply H; left; reflexivity).
    destruct (IH (track_one s i)) as (A & B & R & D & E & F).
    { apply track_one_sized. exact S. }
    { intros j Hj. apply H. right. exact Hj. }
    cbv zeta. split; [exact A|]. split.
    { rewrite B. unfold track_one. destruct (track _ _ _) as [[x c] h]. cbn [undefined].
      destruct S as (S1 & _). rewrite S1. apply Nat.ltb_lt in Hi. rewrite Hi. apply orb_false_r. }
    split; [exact (same_rest_trans _ _ _ (track_one_rest s i) R)|]. split.
    { intros j [[<-|Hj]|T]; apply D.
      - right. apply track_one_here; assumption.
      - left. exact Hj.
      - right. apply track_one_keeps; assumption. }
    rewrite E, F. destruct (track_one_rest s i) as [_ _ _ [T _] _]. rewrite T.
    unfold track_one. destruct (track _ _ _) as [[x c] h]. cbn. rewrite <- app_assoc. cbn. split; [reflexivity|lia].
Qed.

(** The state before the endgame boundary is checked. *)
Lemma before_tracked : forall s, undefined s = false -> inside s ->
  let s' := before (setup s) in
  sized s' /\ undefined s' = false /\ inside s' /\ mid s' = mid s /\
  (forall i, (i < num_start_points)%nat -> tracked s' i) /\
  retrack_tol s' = newton_before /\ tolerance (tracker s') = newton_before /\
  runs s' = runs s ++ map (fun i => (i, newton_before)) (seq 0 num_start_points) /\
  final s' = resize num_start_points None (final s) /\
  (forall i m', nth_error (meta s') i = Some m' ->
     eg_success m' = eg_success (nth i (meta s) new_meta) /\ multiplicity m' = multiplicity (nth i (meta s) new_meta)).
Proof.
  intros s U I. unfold before.
  destruct (track_list (seq 0 num_start_points) (set_tolerance newton_before (setup s))) as (A & B & R & D & E & F).
  { exact (setup_sized s). }
  { intros i Hi. apply in_seq in Hi. lia. }
  destruct R as [R1 R2 R3 [R4 R4'] R5].
  cbv zeta. split; [exact A|]. split; [rewrite B; exact U|]. split; [unfold inside; rewrite R2; exact I|].
  split; [exact R2|]. split; [intros i Hi; apply D; left; apply in_seq; lia|].
  split; [exact R3|]. split; [exact R4|]. split; [exact E|]. split; [exact R1|].
  intros i m' H. destruct (R5 i m' H) as (m & Em & P). cbn [set_tolerance meta setup] in Em.
  assert (Hi : (i < num_start_points)%nat).
  { rewrite <- (resize_length num_start_points new_meta (meta s)).
    apply nth_error_Some. rewrite Em. discriminate. }
  rewrite resize_nth in Em by exact Hi. injection Em as <-. exact P.
Qed.

(** ** The boundary action *)

Lemma checked_length : forall b, length (checked b) = length b.
Proof. clear. intro. apply map_length. Qed.

Lemma check_inside : forall data st, length data = num_start_points ->
  (forall i, In i (map index (crossed st)) -> (i < num_start_points)%nat) ->
  forall i, In i (map index (crossed (fst (check nv same_mid start_point data st)))) -> (i < num_start_points)%nat.
Proof.
  intros data st L H i. rewrite check_pairs.
  assert (Q : forall a b, In (a, b) (pairs nv same_mid data) -> (a < num_start_points)%nat /\ (b < num_start_points)%nat /\ a <> b).
  { intros a b K. apply (pairs_spec nv same_mid (fun _ _ => RtoC 0)) in K || apply pairs_spec in K.
    destruct K as (K & x & y & Ha & Hb & _).
    rewrite <- L. repeat split; try lia; apply nth_error_Some; congruence. }
  revert Q. generalize (pairs nv same_mid data). intro ps. revert st H.
  induction ps as [|[a b] ps IH]; intros st H Q; cbn [fold_left]; [apply H|].
  apply IH; [|intros; apply Q; right; assumption].
  destruct (Q a b (or_introl eq_refl)) as (Qa & Qb & _).
  intros j Hj. apply in_map_iff in Hj. destruct Hj as (v & <- & Hv). apply in_record in Hv.
  destruct Hv as [(w & Hw & ->)|[[_ ->]|[_ ->]]]; [rewrite visit_index; apply H, in_map, Hw|exact Qa|exact Qb].
Qed.

(** Facts that the attempts to resolve crossings preserve. *)
Record good (s : solver) : Prop := {
  g_sized : sized s; g_undef : undefined s = false; g_inside : inside s;
  g_tracked : forall i, (i < num_start_points)%nat -> tracked s i }.

Record untouched (s s' : solver) : Prop := {
  u_final : final s' = final s;
  u_meta : forall i m', nth_error (meta s') i = Some m' -> exists m, nth_error (meta s) i = Some m /\
     eg_success m' = eg_success m /\ multiplicity m' = multiplicity m }.

Lemma run_check_good : forall s, good s -> good (fst (run_check s)).
Proof.
  intros s [S U I T]. unfold run_check.
  pose proof (check_inside (checked (boundary s)) (mid s)) as C.
  destruct (check nv same_mid start_point (checked (boundary s)) (mid s)) as [m b]. split.
  - exact S.
  - exact U.
  - exact (C (eq_trans (checked_length _) (proj1 (proj2 S))) I).
  - exact T.
Qed.

Lemma marked_in : forall c i, In i (marked c) -> In i (map index (crossed c)).
Proof. clear. intros c i H. apply in_map_iff in H. destruct H as (v & E & H). apply filter_In in H. apply in_map_iff. exists v. tauto. Qed.

Lemma resolve_good : forall s, good s ->
  good (resolve s) /\ untouched s (resolve s) /\ mid (resolve s) = mid s /\
  retrack_tol (resolve s) = retrack_tol s * factor /\
  runs (resolve s) = runs s ++ map (fun i => (i, retrack_tol s * factor)) (marked (mid s)).
Proof.
  intros s [S U I T]. unfold resolve.
  destruct (track_list (marked (mid s)) (shrink s)) as (A & B & R & D & E & _).
  { exact S. }
  { intros i Hi. apply I. apply marked_in. exact Hi. }
  destruct R as [R1 R2 R3 _ R5]. split; [split|].
  - exact A.
  - rewrite B. exact U.
  - unfold inside. rewrite R2. exact I.
  - intros i Hi. apply D. right. exact (T i Hi).
  - split; [split; [exact R1|exact R5]|]. split; [exact R2|]. split; [exact R3|]. exact E.
Qed.

Lemma untouched_trans : forall a b c, untouched a b -> untouched b c -> untouched a c.
Proof.
  intros a b c [A1 A2] [B1 B2]. split; [congruence|]. intros i m' H. apply B2 in H. destruct H as (m1 & H & E1 & E2).
  apply A2 in H. destruct H as (m & H & F1 & F2). exists m. repeat split; congruence.
Qed.

Lemma run_check_untouched : forall s, untouched s (fst (run_check s)).
Proof.
  intros s. unfold run_check. destruct (check nv same_mid start_point (checked (boundary s)) (mid s)) as [m b].
  split; [reflexivity|]. cbn. intros i m' H. exists m'. auto.
Qed.

Lemma run_check_rest : forall s, retrack_tol (fst (run_check s)) = retrack_tol s /\ runs (fst (run_check s)) = runs s /\ boundary (fst (run_check s)) = boundary s /\ mid (fst (run_check s)) = fst (check nv same_mid start_point (checked (boundary s)) (mid s)) /\ snd (run_check s) = snd (check nv same_mid start_point (checked (boundary s)) (mid s)).
Proof.
  intro s. unfold run_check. destruct (check nv same_mid start_point (checked (boundary s)) (mid s)) as [m b]. cbn. auto 6.
Qed.

Lemma resolve_loop_good : forall a s b, good s -> good (resolve_loop a (s, b)) /\ untouched s (resolve_loop a (s, b)).
Proof.
  assert (Z : forall s, untouched s s) by (intro s; split; [reflexivity|intros i m H; exists m; auto]).
  induction a as [|a IH]; intros s b G; cbn [resolve_loop]; destruct b; auto.
  destruct (resolve_good s G) as (G1 & U1 & _).
  pose proof (run_check_good _ G1) as G2. pose proof (run_check_untouched (resolve s)) as U2.
  destruct (run_check (resolve s)) as [s2 b2]. cbn [fst] in *. destruct (IH s2 b2 G2) as [G3 U3].
  split; [exact G3|]. exact (untouched_trans _ _ _ U1 (untouched_trans _ _ _ U2 U3)).
Qed.

Lemma boundary_action_good : forall s, good s -> good (boundary_action s) /\ untouched s (boundary_action s).
Proof.
  intros s G. unfold boundary_action.
  pose proof (run_check_good _ G) as G2. pose proof (run_check_untouched s) as U2.
  destruct (run_check s) as [s2 b2]. cbn [fst] in *. destruct (resolve_loop_good max_attempts s2 b2 G2) as [G3 U3].
  split; [exact G3|]. exact (untouched_trans _ _ _ U2 U3).
Qed.

(** The runs of the boundary action: at most max_attempts batches; every path of batch number k (from 0) is run with
    the tolerance newton_before * factor^(k+1). *)
Fixpoint batches (tol : R) (bs : list (list nat)) : list (nat * R) :=
  match bs with [] => [] | l :: r => map (fun i => (i, tol * factor)) l ++ batches (tol * factor) r end.

Lemma resolve_loop_runs : forall a s b, good s -> exists bs, (length bs <= a)%nat /\
  (b = true -> bs = []) /\ (b = false -> a = O \/ exists r, bs = marked (mid s) :: r) /\
  (b = false -> passed (mid s) = false -> length bs = a) /\
  runs (resolve_loop a (s, b)) = runs s ++ batches (retrack_tol s) bs.
Proof.
  induction a as [|a IH]; intros s b G; cbn [resolve_loop]; destruct b.
  - exists []. cbn. rewrite app_nil_r. split; [lia|]. split; [auto|]. split; [auto|]. split; [auto|reflexivity].
  - exists []. cbn. rewrite app_nil_r. split; [lia|]. split; [auto|]. split; [auto|]. split; [auto|reflexivity].
  - exists []. cbn. rewrite app_nil_r. split; [lia|]. split; [auto|]. split; [intro K; discriminate K|]. split; [intro K; discriminate K|reflexivity].
  - destruct (resolve_good s G) as (G1 & U1 & M & T & R).
    pose proof (run_check_good _ G1) as G2. destruct (run_check_rest (resolve s)) as (T2 & R2 & _ & M2 & B2).
    destruct (run_check (resolve s)) as [s2 b2]. cbn [fst snd] in *.
    destruct (IH s2 b2 G2) as (bs & L & _ & _ & Q & E). exists (marked (mid s) :: bs).
    split; [cbn; lia|]. split; [discriminate|]. split; [intros _; right; exists bs; reflexivity|].
    split.
    { intros _ Pf. cbn [length]. f_equal.
      assert (K : b2 = false).
      { destruct b2; [|reflexivity]. symmetry in B2. apply check_returns in B2. destruct B2 as [K _]. congruence. }
      apply Q; [exact K|]. rewrite M2, check_state, <- B2. exact K. }
    rewrite E, R2, R, T2, T. cbn [batches]. rewrite app_assoc. reflexivity.
Qed.

Lemma boundary_action_runs : forall s, good s -> exists bs, (length bs <= max_attempts)%nat /\
  let c := check nv same_mid start_point (checked (boundary s)) (mid s) in
  (snd c = true -> bs = []) /\
  (snd c = false -> max_attempts = O \/ exists r, bs = marked (fst c) :: r) /\
  (snd c = false -> length bs = max_attempts) /\
  runs (boundary_action s) = runs s ++ batches (retrack_tol s) bs.
Proof.
  intros s G. unfold boundary_action. destruct (run_check_rest s) as (T & R & _ & M & B).
  pose proof (run_check_good s G) as G1.
  destruct (run_check s) as [s1 b]. cbn [fst snd] in *.
  destruct (resolve_loop_runs max_attempts s1 b G1) as (bs & L & P1 & P2 & P3 & E). exists bs.
  split; [exact L|]. cbv zeta. rewrite <- B, <- M. split; [exact P1|]. split; [exact P2|].
  split; [intro K; apply P3; [exact K|]; rewrite M, check_state, <- B; exact K|]. rewrite E, R, T. reflexivity.
Qed.

(** With all start points apart nothing is run again, whatever the check finds. *)
Lemma resolve_loop_nothing : forall a s b, good s ->
  (forall i j, (i < j < num_start_points)%nat -> same_mid < apart nv (start_point i) (start_point j)) ->
  (forall v, In v (crossed (mid s)) -> rerun v = false) ->
  runs (resolve_loop a (s, b)) = runs s /\ boundary (resolve_loop a (s, b)) = boundary s /\
  (forall v, In v (crossed (mid (resolve_loop a (s, b)))) -> rerun v = false).
Proof.
  induction a as [|a IH]; intros s b G A N; cbn [resolve_loop]; destruct b; auto.
  assert (M : marked (mid s) = []).
  { unfold marked. assert (E : filter rerun (crossed (mid s)) = []); [|rewrite E; reflexivity].
    clear - N. induction (crossed (mid s)) as [|v l IH]; cbn; [reflexivity|].
    rewrite (N v) by (left; reflexivity). apply IH. intros w H. apply N. right. exact H. }
  destruct (resolve_good s G) as (G1 & U1 & M1 & T & R). rewrite M in R. cbn in R. rewrite app_nil_r in R.
  assert (B1 : boundary (resolve s) = boundary s) by (unfold resolve; rewrite M; reflexivity).
  pose proof (run_check_good _ G1) as G2. destruct (run_check_rest (resolve s)) as (T2 & R2 & B2 & M2 & _).
  destruct (run_check (resolve s)) as [s2 b2]. cbn [fst] in *.
  destruct (IH s2 b2 G2 A) as (E1 & E2 & E3).
  { rewrite M2. intros v Hv. eapply check_no_rerun; [| |exact Hv].
    - rewrite checked_length. destruct (g_sized _ G1) as (_ & L & _). rewrite L. exact A.
    - rewrite M1. exact N. }
  split; [congruence|]. split; [congruence|exact E3].
Qed.

Lemma boundary_action_nothing : forall s, good s ->
  (forall i j, (i < j < num_start_points)%nat -> same_mid < apart nv (start_point i) (start_point j)) ->
  (forall v, In v (crossed (mid s)) -> rerun v = false) ->
  runs (boundary_action s) = runs s /\ boundary (boundary_action s) = boundary s /\
  (forall v, In v (crossed (mid (boundary_action s))) -> rerun v = false).
Proof.
  intros s G A N. unfold boundary_action. destruct (run_check_rest s) as (T & R & B & M & _).
  pose proof (run_check_good s G) as G1.
  destruct (run_check s) as [s1 b]. cbn [fst] in *.
  destruct (resolve_loop_nothing max_attempts s1 b G1 A) as (E1 & E2 & E3).
  { rewrite M. intros v Hv. eapply check_no_rerun; [| |exact Hv].
    - rewrite checked_length. destruct (g_sized _ G) as (_ & L & _). rewrite L. exact A.
    - exact N. }
  split; [congruence|]. split; [congruence|exact E3].
Qed.

(** ** The endgames *)

(** The record of path i after the endgames, given the state s before them. *)
Definition ended (s s' : solver) (i : nat) : Prop :=
  exists m b m', nth_error (meta s) i = Some m /\ nth_error (boundary s) i = Some b /\ nth_error (meta s') i = Some m' /\
    path_index m' = path_index m /\ solution_index m' = solution_index m /\ pre_success m' = pre_success m /\
    multiplicity m' = multiplicity m /\
    ((pre_success m = Success /\ exists p k t x h, path_point b = Some p /\ endgame k t p = (x, eg_success m', h) /\
        nth_error (final s') i = Some (Some x))
     \/ (pre_success m <> Success /\ eg_success m' = eg_success m /\ nth_error (final s') i = nth_error (final s) i)).

Lemma is_success_spec : forall c, is_success c = true <-> c = Success.
Proof. clear. intros []; cbn; split; congruence. Qed.

Lemma endgame_one_facts : forall s i, sized s -> (forall j, (j < num_start_points)%nat -> exists b x, nth_error (boundary s) j = Some b /\ path_point b = Some x) ->
  (i < num_start_points)%nat ->
  let s' := endgame_one s i in
  sized s' /\ undefined s' = undefined s /\ boundary s' = boundary s /\ mid s' = mid s /\ runs s' = runs s /\
  ended s s' i /\
  forall j, j <> i -> nth_error (meta s') j = nth_error (meta s) j /\ nth_error (final s') j = nth_error (final s) j.
Proof.
  intros s i (A & B & D) P Hi. unfold endgame_one, ended.
  destruct (P i Hi) as (b & p & Eb & Ep).
  destruct (nth_error (meta s) i) as [m|] eqn:Em; [|apply nth_error_None in Em; lia].
  rewrite Eb. destruct (is_success (pre_success m)) eqn:Es.
  - apply is_success_spec in Es. rewrite Ep.
    destruct (endgame (calls s) (Settings (tolerance (tracker s)) false (last_step b)) p) as [[x c] h] eqn:Ee.
    cbv zeta. cbn [meta boundary final mid runs undefined].
    split; [repeat split; cbn; rewrite ?upd_length; assumption|].
    do 4 (split; [reflexivity|]). split.
    + exists m, b. eexists. do 2 (split; [reflexivity|]). rewrite !upd_nth, Nat.eqb_refl, Em. cbn [option_map].
      split; [reflexivity|]. cbn. do 4 (split; [reflexivity|]). left. split; [exact Es|].
      exists p. do 4 eexists. split; [exact Ep|]. split; [exact Ee|].
      destruct (nth_error (final s) i) eqn:Ef; [reflexivity|]. apply nth_error_None in Ef. lia.
    + intros j Hj. rewrite !upd_nth. destruct (Nat.eqb_spec i j); [congruence|]. auto.
  - cbv zeta. split; [repeat split; assumption|]. do 4 (split; [reflexivity|]). split.
    + exists m, b, m. do 2 (split; [reflexivity|]). split; [exact Em|]. do 4 (split; [reflexivity|]). right.
      split; [intro K; apply is_success_spec in K; congruence|]. auto.
    + auto.
Qed.

Lemma during_facts : forall s, good s ->
  let s' := during s in
  sized s' /\ undefined s' = false /\ boundary s' = boundary s /\ mid s' = mid s /\ runs s' = runs s /\
  forall i, (i < num_start_points)%nat -> ended s s' i.
Proof.
  intros s [S U I T]. unfold during.
  assert (P : forall j, (j < num_start_points)%nat -> exists b x, nth_error (boundary s) j = Some b /\ path_point b = Some x).
  { intros j Hj. destruct (T j Hj) as (k & t & x & c & h & m & _ & Eb & _). exists (Boundary (Some x) c h), x. auto. }
  set (s0 := set_tolerance newton_during s).
  assert (X : forall n s1, (n <= num_start_points)%nat -> s1 = fold_left endgame_one (seq 0 n) s0 ->
    sized s1 /\ undefined s1 = false /\ boundary s1 = boundary s /\ mid s1 = mid s /\ runs s1 = runs s /\
    (forall i, (i < n)%nat -> ended s s1 i) /\
    (forall i, (n <= i)%nat -> nth_error (meta s1) i = nth_error (meta s) i /\ nth_error (final s1) i = nth_error (final s) i)).
  { induction n as [|n IH]; intros s1 L ->.
    - cbn. do 5 (split; [auto|]). split; [lia|auto].
    - rewrite seq_S, fold_left_app. cbn [fold_left plus]. destruct (IH _ ltac:(lia) eq_refl) as (A & B & D & E & F & G & H).
      set (s2 := fold_left endgame_one (seq 0 n) s0) in *.
      destruct (endgame_one_facts s2 n A) as (A1 & B1 & D1 & E1 & F1 & G1 & H1).
      { rewrite D. exact P. }
      { lia. }
      split; [exact A1|]. split; [congruence|]. split; [congruence|]. split; [congruence|]. split; [congruence|]. split.
      + intros i Hi. destruct (Nat.eq_dec i n) as [->|Dn].
        * destruct (H n (le_n n)) as [Hm Hf]. destruct G1 as (m & b & m' & G1). exists m, b, m'.
          rewrite <- Hm, <- Hf, <- D. exact G1.
        * destruct (G i ltac:(lia)) as (m & b & m' & K). exists m, b, m'. destruct (H1 i Dn) as [-> ->]. exact K.
      + intros i Hi. destruct (H1 i ltac:(lia)) as [-> ->]. apply H. lia. }
  destruct (X num_start_points _ (le_n _) eq_refl) as (A & B & D & E & F & G & _).
  cbv zeta. auto 10.
Qed.

(** ** Multiplicities *)

(** both successful and close *)
Definition coincide (s : solver) (i j : nat) : Prop :=
  finished s i = true /\ finished s j = true /\
  exists x y, nth_error (final s) i = Some (Some x) /\ nth_error (final s) j = Some (Some y) /\ distance x y < same_final.

Definition coincide_b (s : solver) (i j : nat) : bool :=
  finished s i && finished s j &&
  match nth_error (final s) i, nth_error (final s) j with
  | Some (Some x), Some (Some y) => lt_bool (distance x y) same_final
  | _, _ => false
  end.

Lemma coincide_spec : forall s i j, coincide_b s i j = true <-> coincide s i j.
Proof.
  intros s i j. unfold coincide_b, coincide. rewrite !andb_true_iff. split.
  - intros [[A B] H]. destruct (nth_error (final s) i) as [[x|]|]; try discriminate.
    destruct (nth_error (final s) j) as [[y|]|]; try discriminate. apply lt_bool_spec in H.
    split; [exact A|]. split; [exact B|]. exists x, y. auto.
  - intros (A & B & x & y & -> & -> & H). split; [auto|]. apply lt_bool_spec. exact H.
Qed.

Lemma distance_sym : forall x y, distance x y = distance y x.
Proof.
  clear - nv. intros x y. unfold distance. f_equal. induction (seq 0 nv) as [|j l IH]; cbn [map fold_right]; [reflexivity|].
  rewrite IH. replace (Cmod (x j - y j)%C) with (Cmod (y j - x j)%C); [reflexivity|].
  rewrite <- Cmod_opp. f_equal. ring.
Qed.

Lemma distance_same : forall x, distance x x = 0.
Proof.
  clear - nv. intros x. unfold distance. replace (fold_right _ _ _) with 0; [apply sqrt_0|].
  induction (seq 0 nv) as [|j l IH]; cbn [map fold_right]; [reflexivity|]. rewrite <- IH.
  replace (x j - x j)%C with (RtoC 0) by ring. rewrite Cmod_0. ring.
Qed.

Lemma coincide_b_sym : forall s i j, coincide_b s i j = coincide_b s j i.
Proof.
  intros. unfold coincide_b. rewrite (andb_comm (finished s i)). f_equal.
  destruct (nth_error (final s) i) as [[x|]|]; destruct (nth_error (final s) j) as [[y|]|]; try reflexivity.
  rewrite distance_sym. reflexivity.
Qed.

(** s' differs from s only by the added multiplicities. *)
Record counted (s s' : solver) (add : nat -> Z) : Prop := {
  c_rest : boundary s' = boundary s /\ final s' = final s /\ mid s' = mid s /\ runs s' = runs s /\ undefined s' = undefined s /\
           length (meta s') = length (meta s);
  c_meta : forall i m, nth_error (meta s) i = Some m ->
    nth_error (meta s') i = Some (Meta (path_index m) (solution_index m) (pre_success m) (eg_success m) (multiplicity m + add i)) }.

Lemma counted_refl : forall s, counted s s (fun _ => 0%Z).
Proof. intro s. split; [auto 6|]. intros i m H. rewrite H, Z.add_0_r. destruct m; reflexivity. Qed.

Lemma counted_trans : forall a b c f g, counted a b f -> counted b c g -> counted a c (fun i => (f i + g i)%Z).
Proof.
  intros a b c f g [(A1 & A2 & A3 & A4 & A5 & A6) A7] [(B1 & B2 & B3 & B4 & B5 & B6) B7]. split.
  - repeat split; congruence.
  - intros i m H. rewrite (B7 i _ (A7 i m H)). cbn. rewrite Z.add_assoc. reflexivity.
Qed.

Lemma counted_ext : forall a b f g, counted a b f -> (forall i, (i < length (meta a))%nat -> f i = g i) -> counted a b g.
Proof.
  intros a b f g [A B] H. split; [exact A|]. intros i m K. rewrite <- H; [apply B; exact K|].
  apply nth_error_Some. congruence.
Qed.

Definition one (b : bool) : Z := if b then 1 else 0.

Lemma add_one_counted : forall s i, counted s (add_one i s) (fun k => one (Nat.eqb i k)).
Proof.
  intros s i. split; [cbn; rewrite upd_length; auto 6|]. intros k m H. cbn. rewrite upd_nth, H.
  destruct (Nat.eqb i k); cbn; [reflexivity|]. rewrite Z.add_0_r. destruct m; reflexivity.
Qed.

Lemma counted_finished : forall s s' f i, counted s s' f -> finished s' i = finished s i.
Proof.
  intros s s' f i [(_ & _ & _ & _ & _ & L) H]. unfold finished.
  destruct (nth_error (meta s) i) as [m|] eqn:E.
  - rewrite (H i m E). reflexivity.
  - apply nth_error_None in E. rewrite <- L in E. apply nth_error_None in E. rewrite E. reflexivity.
Qed.

Lemma counted_coincide : forall s s' f i j, counted s s' f -> coincide_b s' i j = coincide_b s i j.
Proof.
  intros s s' f i j H. unfold coincide_b. rewrite (counted_finished _ _ _ i H), (counted_finished _ _ _ j H).
  destruct H as [(_ & -> & _) _]. reflexivity.
Qed.

(** successful paths have an end point *)
Definition has_end (s : solver) : Prop := forall i, finished s i = true -> exists x, nth_error (final s) i = Some (Some x).

Lemma counted_has_end : forall s s' f, counted s s' f -> has_end s -> has_end s'.
Proof.
  intros s s' f H E i K. rewrite (counted_finished _ _ _ i H) in K. destruct (E i K) as (x & X). exists x.
  destruct H as [(_ & -> & _) _]. exact X.
Qed.

Lemma compare_counted : forall s i j, has_end s -> finished s i = true ->
  counted s (compare i s j) (fun k => (one (coincide_b s i j) * (one (Nat.eqb i k) + one (Nat.eqb j k)))%Z).
Proof.
  intros s i j E Fi. unfold compare, coincide_b. rewrite Fi. destruct (finished s j) eqn:Fj.
  - destruct (E i Fi) as (x & ->). destruct (E j Fj) as (y & ->).
    destruct (lt_bool (distance x y) same_final); cbn [andb one].
    + eapply counted_ext; [exact (counted_trans _ _ _ _ _ (add_one_counted s i) (add_one_counted (add_one i s) j))|].
      intros k _. cbn beta. lia.
    + eapply counted_ext; [apply counted_refl|]. intros; reflexivity.
  - cbn. eapply counted_ext; [apply counted_refl|]. intros; reflexivity.
Qed.

Fixpoint total (f : nat -> Z) (l : list nat) : Z := match l with [] => 0 | a :: r => (f a + total f r)%Z end.

Lemma inner_counted : forall l s i, has_end s -> finished s i = true ->
  counted s (fold_left (compare i) l s) (fun k => total (fun j => (one (coincide_b s i j) * (one (Nat.eqb i k) + one (Nat.eqb j k)))%Z) l).
Proof.
  induction l as [|j l IH]; intros s i E Fi; cbn [fold_left total].
  - eapply counted_ext; [apply counted_refl|]. intros; reflexivity.
  - pose proof (compare_counted s i j E Fi) as H.
    assert (Fi' : finished (compare i s j) i = true) by (rewrite (counted_finished _ _ _ i H); exact Fi).
    eapply counted_ext.
    + exact (counted_trans _ _ _ _ _ H (IH (compare i s j) i (counted_has_end _ _ _ H E) Fi')).
    + intros k _. cbn beta. f_equal. clear - H. induction l as [|b l IH]; cbn; [reflexivity|].
      rewrite IH, (counted_coincide _ _ _ i b H). reflexivity.
Qed.

Definition outer_step (s : solver) (i : nat) : solver :=
  if finished s i then fold_left (compare i) (seq (S i) (num_start_points - S i)) s else s.

Lemma outer_step_counted : forall s i, has_end s ->
  counted s (outer_step s i) (fun k => total (fun j => (one (coincide_b s i j) * (one (Nat.eqb i k) + one (Nat.eqb j k)))%Z) (seq (S i) (num_start_points - S i))).
Proof.
  intros s i E. unfold outer_step. destruct (finished s i) eqn:Fi; [apply inner_counted; assumption|].
  eapply counted_ext; [apply counted_refl|]. intros k _. cbn beta.
  induction (seq (S i) (num_start_points - S i)) as [|j l IH]; cbn; [reflexivity|]. rewrite <- IH.
  unfold coincide_b. rewrite Fi. reflexivity.
Qed.

Lemma outer_counted : forall l s, has_end s ->
  counted s (fold_left outer_step l s)
    (fun k => total (fun i => total (fun j => (one (coincide_b s i j) * (one (Nat.eqb i k) + one (Nat.eqb j k)))%Z) (seq (S i) (num_start_points - S i))) l).
Proof.
  induction l as [|i l IH]; intros s E; cbn [fold_left total].
  - eapply counted_ext; [apply counted_refl|]. intros; reflexivity.
  - pose proof (outer_step_counted s i E) as H. eapply counted_ext.
    + exact (counted_trans _ _ _ _ _ H (IH (outer_step s i) (counted_has_end _ _ _ H E))).
    + intros k _. cbn beta. f_equal. clear - H. induction l as [|a l IH]; cbn; [reflexivity|]. rewrite IH. f_equal.
      induction (seq (S a) (num_start_points - S a)) as [|b m IH']; cbn; [reflexivity|].
      rewrite IH', (counted_coincide _ _ _ a b H). reflexivity.
Qed.

Lemma total_ext : forall f g l, (forall a, In a l -> f a = g a) -> total f l = total g l.
Proof.
  clear. intros f g l H. induction l as [|a l IH]; cbn; [reflexivity|].
  rewrite (H a) by (left; reflexivity). rewrite IH; [reflexivity|]. intros b Hb. apply H. right. exact Hb.
Qed.
Lemma total_app : forall f l m, total f (l ++ m) = (total f l + total f m)%Z.
Proof. clear. intros f l m. induction l as [|a l IH]; cbn; [reflexivity|]. rewrite IH. lia. Qed.
Lemma total_zero : forall f l, (forall a, In a l -> f a = 0%Z) -> total f l = 0%Z.
Proof.
  clear. intros f l H. induction l as [|a l IH]; cbn; [reflexivity|].
  rewrite (H a) by (left; reflexivity). rewrite IH; [reflexivity|]. intros b Hb. apply H. right. exact Hb.
Qed.
Lemma total_pick : forall (f : nat -> Z) k l, NoDup l -> In k l -> total (fun j => (f j * one (Nat.eqb j k))%Z) l = f k.
Proof.
  clear. intros f k l N H. induction N as [|a l Ha N IH]; [contradiction|]. cbn. destruct H as [->|H].
  - rewrite Nat.eqb_refl. cbn. rewrite total_zero; [lia|]. intros b Hb.
    destruct (Nat.eqb_spec b k) as [->|]; [contradiction|]. cbn. lia.
  - rewrite (IH H). destruct (Nat.eqb_spec a k) as [->|]; [contradiction|]. cbn. lia.
Qed.

(** The double sum is the number of the other indices that coincide. *)
Lemma double_sum : forall (g : nat -> nat -> bool) n k, (forall i j, g i j = g j i) -> (k < n)%nat ->
  total (fun i => total (fun j => (one (g i j) * (one (Nat.eqb i k) + one (Nat.eqb j k)))%Z) (seq (S i) (n - S i))) (seq 0 n)
  = total (fun j => one (g k j && negb (Nat.eqb j k))) (seq 0 n).
Proof.
  clear. intros g n k Sym Hk.
  assert (Sp : seq 0 n = seq 0 k ++ [k] ++ seq (S k) (n - S k)).
  { replace n with (k + (1 + (n - S k)))%nat at 1 by lia. rewrite seq_app, seq_app. cbn [plus seq].
    replace (k + 1)%nat with (S k) by lia. reflexivity. }
  rewrite Sp, !total_app. cbn [total].
  rewrite Nat.eqb_refl, andb_false_r. cbn [negb one].
  rewrite (total_ext _ (fun i => one (g k i && negb (Nat.eqb i k))) (seq 0 k)).
  - f_equal. rewrite (total_zero (fun i => total _ (seq (S i) (n - S i))) (seq (S k) (n - S k))).
    + rewrite !Z.add_0_r, Z.add_0_l. apply total_ext. intros j Hj. apply in_seq in Hj.
      destruct (Nat.eqb_spec j k); [lia|]. rewrite andb_true_r. cbn. lia.
    + intros i Hi. apply in_seq in Hi. apply total_zero. intros j Hj. apply in_seq in Hj.
      destruct (Nat.eqb_spec i k); [lia|]. destruct (Nat.eqb_spec j k); [lia|]. cbn. lia.
  - intros i Hi. apply in_seq in Hi. destruct (Nat.eqb_spec i k); [lia|]. cbn [one negb].
    rewrite andb_true_r, (Sym k i).
    rewrite <- (total_pick (fun j => one (g i j)) k (seq (S i) (n - S i))).
    + apply total_ext. intros j _. lia.
    + apply seq_NoDup.
    + apply in_seq. lia.
Qed.

Definition others (s : solver) (k : nat) : Z := total (fun j => one (coincide_b s k j && negb (Nat.eqb j k))) (seq 0 num_start_points).

Lemma multiplicities_counted : forall s, sized s -> has_end s -> counted s (multiplicities s) (others s).
Proof.
  intros s (L & _) E. eapply counted_ext; [exact (outer_counted (seq 0 num_start_points) s E)|].
  intros k Hk. cbn beta. apply double_sum; [apply coincide_b_sym|lia].
Qed.

(** ** The whole of Solve *)

Definition reachable_ok (s : solver) : Prop :=
  undefined s = false /\ inside s /\ (forall i m, nth_error (meta s) i = Some m -> eg_success m = Success ->
    exists x, nth_error (final s) i = Some (Some x)) /\ (meta s = [] \/ sized s).

Lemma new_ok : forall t, reachable_ok (new_solver t).
Proof.
  intro t. split; [reflexivity|]. split; [intros i []|]. split; [|left; reflexivity].
  intros [|i] m H; discriminate.
Qed.

(** One path after Solve, starting from any earlier state s. *)
Definition outcome_of (s s' : solver) (i : nat) : Prop :=
  exists k t x c h m, track k t (start_point i) = (x, c, h) /\
    nth_error (boundary s') i = Some (Boundary (Some x) c h) /\
    nth_error (meta s') i = Some m /\ path_index m = Some i /\ solution_index m = Some i /\ pre_success m = c /\
    ((c = Success /\ exists k2 t2 y h2, endgame k2 t2 x = (y, eg_success m, h2) /\ nth_error (final s') i = Some (Some y)) \/
     (c <> Success /\ eg_success m = eg_success (nth i (meta s) new_meta) /\ nth_error (final s') i = Some (nth i (final s) None))) /\
    multiplicity m = (multiplicity (nth i (meta s) new_meta) + others s' i)%Z.

Lemma nth_error_nth_None : forall {A} (l : list (option A)) i x, nth_error l i = Some x -> nth i l None = x.
Proof. clear. intros A l i x H. apply nth_error_nth with (d := None) in H. exact H. Qed.

Lemma solve_facts : forall s, reachable_ok s ->
  let s' := solve s in
  reachable_ok s' /\ sized s' /\
  runs s' = runs (boundary_action (before (setup s))) /\
  (forall i, (i < num_start_points)%nat -> outcome_of s s' i).
Proof.
  intros s (U & I & H & Sz). unfold solve.
  destruct (before_tracked s U I) as (S1 & U1 & I1 & M1 & T1 & R1 & _ & Rn1 & F1 & E1).
  set (s1 := before (setup s)) in *.
  assert (G1 : good s1) by (split; assumption).
  destruct (boundary_action_good s1 G1) as [G2 [F2 E2]].
  set (s2 := boundary_action s1) in *.
  destruct (during_facts s2 G2) as (S3 & U3 & B3 & M3 & Rn3 & D3).
  set (s3 := during s2) in *.
  assert (He : has_end s3).
  { intros i Fi. unfold finished in Fi. destruct (nth_error (meta s3) i) as [m3|] eqn:Em3; [|discriminate].
    assert (Li : (i < num_start_points)%nat).
    { destruct S3 as [<- _]. apply nth_error_Some. congruence. }
    apply is_success_spec in Fi.
    destruct (D3 i Li) as (m & b & m' & Hm & Hb & Hm' & _ & _ & _ & _ & [(_ & p & k & t & x & h & _ & _ & X)|(_ & Eg & Ef)]).
    - exists x. exact X.
    - rewrite Hm' in Em3. injection Em3 as <-. destruct (E2 i m Hm) as (m1 & Hm1 & Eg1 & _).
      destruct (E1 i m1 Hm1) as [Eg0 _].
      rewrite Ef, F2, F1, resize_nth by exact Li.
      destruct (nth_error (meta s) i) as [m0|] eqn:Em0.
      + assert (Q : nth i (meta s) new_meta = m0) by (apply nth_error_nth; exact Em0).
        destruct (H i m0 Em0) as (x & X); [congruence|]. exists x. f_equal. apply nth_error_nth_None. exact X.
      + exfalso. apply nth_error_None in Em0. rewrite nth_overflow in Eg0 by exact Em0. cbn in Eg0. congruence. }
  pose proof (multiplicities_counted s3 S3 He) as C4. set (s4 := multiplicities s3) in *.
  pose proof C4 as [(B4 & F4 & M4 & Rn4 & U4 & L4) X4].
  assert (S4 : sized s4) by (destruct S3 as (A & B & D); repeat split; congruence).
  assert (O : forall i, (i < num_start_points)%nat -> outcome_of s s4 i).
  { intros i Li. destruct (D3 i Li) as (m & b & m' & Hm & Hb & Hm' & P1 & P2 & P3 & P4 & P5).
    destruct (g_tracked _ G2 i Li) as (k & t & x & c & h & mm & Ht & Hb2 & Hm2 & Q1 & Q2 & Q3).
    rewrite Hm2 in Hm. injection Hm as <-. rewrite Hb2 in Hb. injection Hb as <-.
    destruct (E2 i mm Hm2) as (m1 & Hm1 & V1 & V2). destruct (E1 i m1 Hm1) as [W1 W2].
    exists k, t, x, c, h. eexists. split; [exact Ht|]. split; [rewrite B4, B3; exact Hb2|].
    split; [exact (X4 i m' Hm')|]. cbn [path_index solution_index pre_success eg_success multiplicity].
    split; [congruence|]. split; [congruence|]. split; [congruence|]. split.
    - destruct P5 as [(A & p & k2 & t2 & y & h2 & Ep & Ee & Ef)|(A & Eg & Ef)].
      + left. split; [congruence|]. cbn [path_point] in Ep. injection Ep as <-. exists k2, t2, y, h2.
        split; [exact Ee|]. rewrite F4. exact Ef.
      + right. split; [congruence|]. split; [congruence|]. rewrite F4, Ef, F2, F1. apply resize_nth. exact Li.
    - rewrite P4, V2, W2. f_equal. unfold others. apply total_ext. intros j _.
      rewrite (counted_coincide _ _ _ i j C4). reflexivity. }
  cbv zeta. split; [|split; [exact S4|]; split; [congruence|exact O]].
  split; [congruence|]. split.
  { unfold inside. rewrite M4, M3. exact (g_inside _ G2). }
  split; [|right; exact S4].
  intros i m Hm Es. apply (counted_has_end _ _ _ C4 He). unfold finished. rewrite Hm, Es. reflexivity.
Qed.

(** The multiplicity as a count. *)
Lemma total_count : forall (f : nat -> bool) l, total (fun j => one (f j)) l = Z.of_nat (length (filter f l)).
Proof. clear. intros f l. induction l as [|a l IH]; [reflexivity|]. cbn [total filter]. rewrite IH. destruct (f a); cbn [one length]; lia. Qed.

Lemma others_count : forall s i, 0 < same_final -> has_end s -> (i < num_start_points)%nat ->
  exists l, NoDup l /\ (forall j, In j l <-> (j < num_start_points)%nat /\ coincide s i j) /\
    others s i = if finished s i then (Z.of_nat (length l) - 1)%Z else 0%Z.
Proof.
  intros s i P He Hi. exists (filter (coincide_b s i) (seq 0 num_start_points)).
  split; [apply NoDup_filter, seq_NoDup|]. split.
  { intro j. rewrite filter_In, in_seq, coincide_spec. intuition lia. }
  unfold others. destruct (finished s i) eqn:Fi.
  - assert (Sp : seq 0 num_start_points = seq 0 i ++ [i] ++ seq (S i) (num_start_points - S i)).
    { replace num_start_points with (i + (1 + (num_start_points - S i)))%nat at 1 by lia. rewrite seq_app, seq_app. cbn [plus seq].
      replace (i + 1)%nat with (S i) by lia. reflexivity. }
    rewrite Sp, !total_app, !filter_app, !app_length. cbn [total filter].
    assert (Si : coincide_b s i i = true).
    { apply coincide_spec. split; [exact Fi|]. split; [exact Fi|]. destruct (He i Fi) as (x & X). exists x, x.
      split; [exact X|]. split; [exact X|]. rewrite distance_same. exact P. }
    rewrite Si, Nat.eqb_refl. cbn [andb negb one length].
    rewrite (total_ext _ (fun j => one (coincide_b s i j)) (seq 0 i)).
    2:{ intros j Hj. apply in_seq in Hj. destruct (Nat.eqb_spec j i); [lia|]. rewrite andb_true_r. reflexivity. }
    rewrite (total_ext _ (fun j => one (coincide_b s i j)) (seq (S i) _)).
    2:{ intros j Hj. apply in_seq in Hj. destruct (Nat.eqb_spec j i); [lia|]. rewrite andb_true_r. reflexivity. }
    rewrite !total_count. lia.
  - apply total_zero. intros j _. unfold coincide_b. rewrite Fi. reflexivity.
Qed.

Lemma ok_has_end : forall s, reachable_ok s -> has_end s.
Proof.
  intros s (_ & _ & H & _) i Fi. unfold finished in Fi. destruct (nth_error (meta s) i) as [m|] eqn:E; [|discriminate].
  apply (H i m E). apply is_success_spec. exact Fi.
Qed.

Fixpoint solves (n : nat) (s : solver) : solver := match n with O => s | S m => solve (solves m s) end.

Lemma solves_ok : forall n t, reachable_ok (solves n (new_solver t)).
Proof. induction n as [|n IH]; intro t; [apply new_ok|]. cbn [solves]. destruct (solve_facts _ (IH t)) as (A & _). exact A. Qed.

End ZeroDim.
