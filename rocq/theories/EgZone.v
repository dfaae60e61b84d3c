(** How the Cauchy endgame decides that it is close enough to the target: the first part of a run (GetIntoEGZone,
    cauchy.hpp:861-905) and the test of the samples on the circle (RatioEGOperatingZoneTest, cauchy.hpp:666-705). *)
From Coq Require Import List ZArith Lia Reals Lra Bool Arith.
From Coquelicot Require Import Complex.
From Verif Require Import Base Poly ComplexField Newton Track StartIndex RKQuad Hermite Endgame EndgamePs EgSeries EgGeo AmpGrow.
Import ListNotations.
Local Open Scope R_scope.

(** ** Specification *)

(** What is known when an estimate is made: the time of the newest sample, and the samples. *)
Definition moment : Set := (C * list vec)%type.

(** The estimates made at a list of moments; the first has number i.  None is below 1. *)
Fixpoint estimates (estimate : nat -> list vec -> R) (i : nat) (log : list moment) : list R :=
  match log with [] => [] | m :: r => Rmax 1 (estimate i (snd m)) :: estimates estimate (S i) r end.

(** Neighbouring entries have a ratio (smaller by larger) of at least lo. *)
Definition settled (lo : R) (l : list R) : Prop :=
  forall i a b, nth_error l i = Some a -> nth_error l (S i) = Some b -> lo <= Rmin a b / Rmax a b.

(** The k entries before the last one. *)
Definition before_last {A : Type} (k : nat) (l : list A) : list A := firstn k (skipn (length l - S k) l).

(** From one moment to the next: the distance to the target is multiplied by 1 - factor, the newest sample is
    tracked there, the oldest sample is forgotten. *)
Definition next_moment (track : nat -> C -> C -> vec -> code * vec) (factor : R) (target : C) (m m' : moment) : Prop :=
  (fst m' - target)%C = (RtoC (1 - factor) * (fst m - target))%C /\
  exists k x y, back (snd m) = Some x /\ track k (fst m) (fst m') x = (Success, y) /\ snd m' = tl (snd m) ++ [y].

(** ComputeCOverK, cauchy.hpp:481-507, with its logarithms: a double or multiple precision number, or an
    infinity, or not a number.  The assertion that there are three samples is not modelled. *)
Inductive float : Set := Num (r : R) | Infinite | NotANumber.

Definition c_over_k_of (nv : nat) (rand : nat -> C) (factor : R) (x0 x1 x2 : nat -> C) : float :=
  let a := Cmod (rand_sum nv rand x0 x1) in
  let b := Cmod (rand_sum nv rand x1 x2) in
  if Req_EM_T a 0 then (if Req_EM_T b 0 then NotANumber else Num 1)    (* |log|: not a number, infinity *)
  else if Req_EM_T b 0 then Num 1                                         (* |log 0| *)
  else if Req_EM_T (ln (b / a)) 0 then (if Req_EM_T (ln factor) 0 then NotANumber else Infinite)
  else let e := Rabs (ln factor) / Rabs (ln (b / a)) in Num (if Rlt_dec e 1 then 1 else e).

(** ** Stabilization *)
Section Zone.
Variable cfg : config.
Variable target : C.
Variable track : nat -> C -> C -> vec -> code * vec.
Variable estimate : nat -> list vec -> R.
Notation lo := (min_stabilization cfg).
Notation f := (sample_factor cfg).
Notation nd := (num_needed cfg).
Notation next := (next_moment track f target).
Notation ests := (estimates estimate).

Lemma estimates_length : forall l i, length (ests i l) = length l.
Proof. induction l as [|m l IH]; intro i; cbn; [reflexivity|rewrite IH; reflexivity]. Qed.
Lemma estimates_app : forall l r i, ests i (l ++ r) = ests i l ++ ests (i + length l) r.
Proof.
  induction l as [|m l IH]; intros r i; cbn; [rewrite Nat.add_0_r; reflexivity|].
  rewrite IH. do 2 f_equal. f_equal. lia.
Qed.
Lemma estimates_ge : forall l i e, In e (ests i l) -> 1 <= e.
Proof. induction l as [|m l IH]; intros i e; cbn; [tauto|]. intros [<-|H]; [apply Rmax_l|eauto]. Qed.

Lemma stable_spec : forall l, (forall e, In e l -> 1 <= e) -> (stable cfg l = true <-> settled lo l).
Proof.
  induction l as [|a l IH]; intro H.
  - cbn. split; [|auto]. intros _ i x y E. destruct i; discriminate E.
  - destruct l as [|b l].
    + cbn. split; [|auto]. intros _ i x y _ E. destruct i as [|[|i]]; discriminate E.
    + change (stable cfg (a :: b :: l)) with
        (let d := if Rlt_dec a b then a / b else b / a in if Rlt_dec d lo then false else stable cfg (b :: l)).
      cbv zeta.
      assert (Ha : 1 <= a) by (apply H; left; reflexivity).
      assert (Hb : 1 <= b) by (apply H; right; left; reflexivity).
      assert (D : (if Rlt_dec a b then a / b else b / a) = Rmin a b / Rmax a b).
      { destruct (Rlt_dec a b); [rewrite Rmin_left, Rmax_right by lra|rewrite Rmin_right, Rmax_left by lra]; reflexivity. }
      rewrite D. destruct (Rlt_dec (Rmin a b / Rmax a b) lo) as [L|L].
      * split; [discriminate|]. intro S0. specialize (S0 0%nat a b eq_refl eq_refl). lra.
      * rewrite IH by (intros e He; apply H; right; exact He). split.
        -- intros S0 [|i] x y E1 E2; [injection E1 as <-; injection E2 as <-; lra|]. exact (S0 i x y E1 E2).
        -- intros S0 i x y E1 E2. exact (S0 (S i) x y E1 E2).
Qed.

(** The log of a state. *)
Definition logged (log : list moment) (s : est) : Prop :=
  nck s = length log /\ chain next log /\
  exists l t, log = l ++ [(t, ps_x s)] /\ back (ps_t s) = Some t.

Lemma back_snoc : forall (A : Type) (l : list A) a, back (l ++ [a]) = Some a.
Proof. intros. unfold back. rewrite rev_app_distr. reflexivity. Qed.

Lemma advance_logged : forall log s s1, logged log s -> advance cfg target track s = Ok (Success, s1) ->
  exists m, nck s1 = nck s /\ snd m = ps_x s1 /\ back (ps_t s1) = Some (fst m) /\ chain next (log ++ [m]).
Proof.
  intros log s s1 [Hn [Hc [l [t [El Et]]]]] E. unfold advance in E. rewrite Et in E.
  destruct (back (ps_x s)) as [x|] eqn:Ex; [|discriminate].
  destruct (lt_b _ _); [discriminate|].
  destruct (track (ntrack s) t (cauchy_time cfg target t) x) as [c y] eqn:Tr. cbn [fst snd] in E.
  destruct (is_success c) eqn:Ic; [|injection E as -> _; discriminate Ic].
  injection E as <-. exists (cauchy_time cfg target t, tl (ps_x s) ++ [y]).
  cbn [tracked with_ps nck ps_x ps_t fst snd]. split; [reflexivity|]. split; [reflexivity|].
  split; [apply back_snoc|]. subst log. rewrite <- app_assoc. cbn [app]. apply chain_snoc; [exact Hc|].
  split.
  - cbn [fst]. unfold cauchy_time. rewrite RtoC_minus. ring.
  - exists (ntrack s), x, y. cbn [fst snd]. split; [exact Ex|]. split; [|reflexivity].
    rewrite Tr. destruct c; try discriminate Ic. reflexivity.
Qed.

Lemma estimated_logged : forall log s s1 e s2, logged log s -> advance cfg target track s = Ok (Success, s1) ->
  c_over_k estimate s1 = Ok (e, s2) ->
  exists m, logged (log ++ [m]) s2 /\ e = Rmax 1 (estimate (length log) (snd m)).
Proof.
  intros log s s1 e s2 L A Ce. destruct (advance_logged _ _ _ L A) as [m [Nk [Sx [St Ch]]]].
  unfold c_over_k in Ce. destruct (_ <? 3)%nat; [discriminate|]. injection Ce as <- <-.
  destruct L as [Hn _]. exists m. split.
  - unfold logged. cbn [estimated nck ps_x ps_t]. rewrite app_length. cbn [length]. split; [lia|]. split; [exact Ch|].
    exists log, (fst m). split; [|exact St]. f_equal. destruct m as [m1 m2]. cbn in *. subst m2. reflexivity.
  - rewrite Nk, Hn, Sx. destruct (Rlt_dec _ 1); [rewrite Rmax_left by lra; reflexivity|rewrite Rmax_right by lra; reflexivity].
Qed.

Lemma zone_first_logged : forall k log l s s' l', logged log s -> l = ests 0 log ->
  zone_first cfg target track estimate k l s = Ok (Success, s', l') ->
  exists log', logged log' s' /\ l' = ests 0 log' /\ length log' = (length log + k)%nat.
Proof.
  induction k as [|k IH]; intros log l s s' l' L El E; cbn [zone_first] in E.
  - injection E as <- <-. exists log. split; [exact L|]. split; [exact El|lia].
  - unfold when_ok in E. destruct (advance cfg target track s) as [[c s1]| | | |] eqn:A; cbn [bind fst snd] in E; try discriminate.
    destruct (is_success c) eqn:Ic; [|injection E as -> _ _; discriminate Ic].
    assert (c = Success) by (destruct c; try discriminate Ic; reflexivity). subst c.
    destruct (c_over_k estimate s1) as [[e s2]| | | |] eqn:Ce; cbn [bind fst snd] in E; try discriminate.
    destruct (estimated_logged _ _ _ _ _ L A Ce) as [m [L2 Ee]].
    specialize (IH (log ++ [m]) (l ++ [e]) s2 s' l' L2).
    destruct IH as [log' [A1 [A2 A3]]]; [|exact E|].
    + rewrite estimates_app, El, Ee. reflexivity.
    + exists log'. rewrite app_length in A3. cbn [length] in A3. split; [exact A1|]. split; [exact A2|lia].
Qed.

(** The estimates that are compared at a moment. *)
Definition compared (log : list moment) : list R := before_last nd (ests 0 log).
Definition time_of (log : list moment) : option C := option_map fst (back log).

Lemma stabilized_spec : forall log, (stabilized cfg (skipn (length (ests 0 log) - S nd) (ests 0 log)) = true <-> settled lo (compared log)).
Proof.
  intro log. unfold stabilized, compared, before_last. apply stable_spec.
  intros e He. apply (estimates_ge log 0). 
  assert (Fi : forall (l : list R) k, In e (firstn k l) -> In e l).
  { intros l k H. rewrite <- (firstn_skipn k l). apply in_or_app. left. exact H. }
  apply Fi in He. rewrite <- (firstn_skipn (length (ests 0 log) - S nd) (ests 0 log)). apply in_or_app. right. exact He.
Qed.

Lemma zone_loop_logged : forall fuel log l s s', logged log s -> (nd < length log)%nat ->
  l = skipn (length (ests 0 log) - S nd) (ests 0 log) ->
  zone_loop cfg target track estimate fuel l s = Ok (Success, s') ->
  exists more, logged (log ++ more) s' /\
    (settled lo (compared (log ++ more)) \/
       exists t, time_of (log ++ more) = Some t /\ Cmod (t - target)%C <= cycle_cutoff_time cfg) /\
    (forall l1 l2, more = l1 ++ l2 -> l2 <> [] -> ~ settled lo (compared (log ++ l1)) /\
       exists t, time_of (log ++ l1) = Some t /\ cycle_cutoff_time cfg < Cmod (t - target)%C).
Proof.
  induction fuel as [|fuel IH]; intros log l s s' L Hl El E; cbn [zone_loop] in E;
    pose proof L as [Hn [Hc [l0 [t [Elog Et]]]]]; rewrite Et in E;
    assert (Tm : time_of log = Some t) by (unfold time_of; rewrite Elog, back_snoc; reflexivity);
    pose proof (stabilized_spec log) as Sp; rewrite <- El in Sp.
  - destruct (negb (stabilized cfg l) && lt_b (cycle_cutoff_time cfg) (Cmod (t - target)%C)) eqn:B; [discriminate|].
    injection E as <-. exists []. rewrite app_nil_r. split; [exact L|]. split.
    + apply andb_false_iff in B. destruct B as [B|B].
      * left. apply Sp. destruct (stabilized cfg l); [reflexivity|discriminate B].
      * right. exists t. split; [exact Tm|]. unfold lt_b in B. destruct (Rlt_dec _ _); [discriminate|lra].
    + intros l1 l2 X Y. symmetry in X. apply app_eq_nil in X. destruct X. contradiction.
  - destruct (negb (stabilized cfg l) && lt_b (cycle_cutoff_time cfg) (Cmod (t - target)%C)) eqn:B.
    + unfold when_ok in E. destruct (advance cfg target track s) as [[c s1]| | | |] eqn:A; cbn [bind fst snd] in E; try discriminate.
      destruct (is_success c) eqn:Ic; [|injection E as -> _; discriminate Ic].
      assert (c = Success) by (destruct c; try discriminate Ic; reflexivity). subst c.
      destruct (c_over_k estimate s1) as [[e s2]| | | |] eqn:Ce; cbn [bind fst snd] in E; try discriminate.
      destruct (estimated_logged _ _ _ _ _ L A Ce) as [m [L2 Ee]].
      destruct (IH (log ++ [m]) (tl l ++ [e]) s2 s' L2) as [more [A1 [A2 A3]]]; [rewrite app_length; cbn; lia| |exact E|].
      { rewrite estimates_app, app_length. cbn [estimates length Nat.add]. rewrite <- Ee.
        rewrite El. rewrite !estimates_length.
        replace (length log + 1 - S nd)%nat with (S (length log - S nd)) by lia.
        rewrite skipn_app, estimates_length.
        replace (S (length log - S nd) - length log)%nat with 0%nat by lia. cbn [skipn app]. f_equal.
        generalize (length log - S nd)%nat as k. generalize (ests 0 log) as xs. clear.
        induction xs as [|x xs IH]; intro k; destruct k; cbn; auto.  }
      exists (m :: more). replace (log ++ m :: more) with ((log ++ [m]) ++ more) by (rewrite <- app_assoc; reflexivity).
      split; [exact A1|]. split; [exact A2|].
      intros [|m' l1] l2 X Y.
      * rewrite app_nil_r. apply andb_true_iff in B. destruct B as [B1 B2]. split.
        -- intro S0. apply Sp in S0. rewrite S0 in B1. discriminate.
        -- exists t. split; [exact Tm|]. unfold lt_b in B2. destruct (Rlt_dec _ _); [assumption|discriminate].
      * injection X as <- X. destruct (A3 l1 l2 X Y) as [C1 C2].
        rewrite <- app_assoc in C1, C2. cbn [app] in C1, C2. split; [exact C1|exact C2].
    + injection E as <-. exists []. rewrite app_nil_r. split; [exact L|]. split.
      * apply andb_false_iff in B. destruct B as [B|B].
        -- left. apply Sp. destruct (stabilized cfg l); [reflexivity|discriminate B].
        -- right. exists t. split; [exact Tm|]. unfold lt_b in B. destruct (Rlt_dec _ _); [discriminate|lra].
      * intros l1 l2 X Y. symmetry in X. apply app_eq_nil in X. destruct X. contradiction.
Qed.

(** A run that gets into the zone. *)
Lemma zone_run : forall fuel start x s,
  get_into_zone cfg target track estimate fuel start x empty = Ok (Success, s) ->
  exists log, logged log s /\ (nd < length log)%nat /\
    (settled lo (compared log) \/ exists t, time_of log = Some t /\ Cmod (t - target)%C <= cycle_cutoff_time cfg) /\
    (forall l1 l2, log = l1 ++ l2 -> l2 <> [] -> (nd < length l1)%nat -> ~ settled lo (compared l1) /\
       exists t, time_of l1 = Some t /\ cycle_cutoff_time cfg < Cmod (t - target)%C).
Proof.
  intros fuel start x s E. unfold get_into_zone, when_ok in E.
  destruct (initial_samples cfg target track start x empty) as [[c s0]| | | |] eqn:I0; cbn [bind fst snd] in E; try discriminate.
  destruct (is_success c) eqn:Ic; [|injection E as -> _; discriminate Ic].
  destruct (c_over_k estimate s0) as [[e s1]| | | |] eqn:Ce; cbn [bind fst snd] in E; try discriminate.
  assert (N0 : nck s0 = 0%nat).
  { unfold initial_samples in I0.
    assert (G : forall k s c s', initial_loop cfg target track k s = Ok (c, s') -> nck s' = nck s).
    { induction k as [|k IH]; intros s2 c2 s2'; cbn [initial_loop]; [intro X; injection X as _ <-; reflexivity|].
      destruct (back (ps_t s2)); [|discriminate]. destruct (back (ps_x s2)); [|discriminate].
      cbv zeta. match goal with |- context [is_success ?z] => destruct (is_success z) end; [intro X; apply IH in X; exact X|intro X; injection X as _ <-; reflexivity]. }
    apply G in I0. exact I0. }
  unfold c_over_k in Ce. destruct (Nat.ltb_spec (length (ps_x s0)) 3); [discriminate|]. injection Ce as <- <-.
  assert (Bt : exists t, back (ps_t s0) = Some t).
  { destruct (zone_first cfg target track estimate nd _ _) as [[[c1 s1] l1]| | | |] eqn:Z; cbn [bind fst snd] in E; try discriminate.
    destruct nd as [|k] eqn:Ek; cbn [zone_first] in Z.
    - injection Z as <- <- <-. cbn [is_success] in E. destruct fuel; cbn [zone_loop] in E; cbn [estimated ps_t] in E;
        (destruct (back (ps_t s0)); [eauto|discriminate]).
    - unfold when_ok, advance in Z. cbn [estimated ps_t] in Z. destruct (back (ps_t s0)); [eauto|discriminate Z]. }
  destruct Bt as [t Bt].
  set (s1 := estimated s0) in *. 
  assert (L1 : logged [(t, ps_x s0)] s1).
  { unfold logged, s1. cbn [estimated nck ps_x ps_t length chain]. split; [lia|]. split; [exact I|].
    exists [], t. split; [reflexivity|exact Bt]. }
  destruct (zone_first cfg target track estimate nd _ s1) as [[[c1 s2] l2]| | | |] eqn:Z; cbn [bind fst snd] in E; try discriminate.
  destruct (is_success c1) eqn:Ic1; [|injection E as -> _; discriminate Ic1].
  assert (c1 = Success) by (destruct c1; try discriminate Ic1; reflexivity). subst c1.
  eapply zone_first_logged in Z; [|exact L1|].
  2:{ cbn [estimates snd]. rewrite N0. f_equal.
    destruct (Rlt_dec (estimate 0%nat (ps_x s0)) 1); [rewrite Rmax_left by lra; reflexivity|rewrite Rmax_right by lra; reflexivity]. }
  destruct Z as [log1 [A1 [A2 A3]]]. cbn [length] in A3.
  eapply zone_loop_logged in E; [|exact A1|lia|].
  2:{ rewrite A2, estimates_length, A3. replace (1 + nd - S nd)%nat with 0%nat by lia. reflexivity. }
  destruct E as [more [B1 [B2 B3]]]. exists (log1 ++ more). split; [exact B1|]. split; [rewrite app_length; lia|]. split; [exact B2|].
  intros l1 l2' X Y Z1.
  assert (Pre : exists l0, l1 = log1 ++ l0 /\ more = l0 ++ l2').
  { assert (Hl : (length log1 <= length l1)%nat) by lia. clear - X Hl. revert log1 X Hl.
    induction l1 as [|a l1 IH]; intros [|b log1] X Hl; cbn in *; try lia.
    - exists []. auto.
    - exists (a :: l1). split; [reflexivity|]. exact X.
    - injection X as <- X. destruct (IH log1 X ltac:(lia)) as [l0 [-> ->]]. exists l0. auto. }
  destruct Pre as [l0 [-> Em]]. exact (B3 l0 l2' Em Y).
Qed.
End Zone.

(** ** The test of the samples on the circle *)
Lemma min_max_spec : forall xs mn mx, 
  let m := min_max xs mn mx in
  (forall x, In x xs -> fst m <= linf x) /\ fst m <= mn /\ (fst m = mn \/ exists x, In x xs /\ linf x = fst m) /\
  (forall x, In x xs -> linf x <= snd m) /\ mx <= snd m /\ (snd m = mx \/ exists x, In x xs /\ linf x = snd m).
Proof.
  induction xs as [|x xs IH]; intros mn mx; cbn [min_max].
  - cbn. repeat split; auto; try lra; try contradiction.
  - specialize (IH (if Rlt_dec (linf x) mn then linf x else mn) (if Rlt_dec mx (linf x) then linf x else mx)).
    cbv zeta in *. destruct (min_max xs _ _) as [a b]. cbn [fst snd] in *.
    destruct IH as [A [B [C1 [D [E F]]]]].
    repeat split.
    + intros y [<-|Hy]; [|auto]. destruct (Rlt_dec (linf x) mn); lra.
    + destruct (Rlt_dec (linf x) mn); lra.
    + destruct C1 as [C1|[y [Hy C1]]]; [|right; exists y; split; [right|]; assumption].
      destruct (Rlt_dec (linf x) mn); [right; exists x; split; [left; reflexivity|auto]|left; exact C1].
    + intros y [<-|Hy]; [|auto]. destruct (Rlt_dec mx (linf x)); lra.
    + destruct (Rlt_dec mx (linf x)); lra.
    + destruct F as [F|[y [Hy F]]]; [|right; exists y; split; [right|]; assumption].
      destruct (Rlt_dec mx (linf x)); [right; exists x; split; [left; reflexivity|auto]|left; exact F].
Qed.

Lemma linf_nonneg : forall x, 0 <= linf x.
Proof. induction x as [|z x IH]; cbn; [lra|]. apply Rle_trans with (1 := IH). apply Rmax_r. Qed.

Lemma ratio_test_spec : forall cfg target s t, front (ca_t s) = Some t ->
  (num_sample_points cfg <= length (ca_x s))%nat -> (0 < num_sample_points cfg)%nat ->
  0 <= final_tolerance cfg ->
  (forall x, In x (firstn (num_sample_points cfg) (ca_x s)) -> linf x < 10 ^ 300) ->
  exists b, ratio_test cfg target s = Ok b /\
  (b = false <->
   ratio_cutoff_time cfg <= Cmod (t - target)%C ^ 2 /\
   exists x y, In x (firstn (num_sample_points cfg) (ca_x s)) /\ In y (firstn (num_sample_points cfg) (ca_x s)) /\
     (forall z, In z (firstn (num_sample_points cfg) (ca_x s)) -> linf x <= linf z <= linf y) /\
     final_tolerance cfg < linf x /\ linf x / linf y < max_cauchy_ratio cfg /\ final_tolerance cfg < linf y - linf x).
Proof.
  intros cfg target s t Ht Hl Hn Htol Hb. unfold ratio_test. rewrite Ht.
  assert (Sq : Cmod (t - target)%C * Cmod (t - target)%C = Cmod (t - target)%C ^ 2) by ring. rewrite Sq.
  unfold lt_b at 1. destruct (Rlt_dec (Cmod (t - target)%C ^ 2) (ratio_cutoff_time cfg)) as [Lt|Ge].
  - exists true. split; [reflexivity|]. split; [discriminate|]. intros [H _]. lra.
  - destruct (Nat.ltb_spec (length (ca_x s)) (num_sample_points cfg)); [lia|].
    eexists. split; [reflexivity|].
    set (xs := firstn (num_sample_points cfg) (ca_x s)) in *.
    assert (Ne : exists x0, In x0 xs).
    { unfold xs. destruct (ca_x s) as [|x0 r]; [cbn in Hl; lia|]. destruct (num_sample_points cfg); [lia|]. exists x0. left. reflexivity. }
    destruct (min_max_spec xs (10 ^ 300) 0) as [A [B [C1 [D [E F]]]]]. destruct (min_max xs (10 ^ 300) 0) as [mn mx].
    cbn [fst snd] in *. destruct Ne as [x0 Hx0].
    assert (M1 : exists x, In x xs /\ linf x = mn).
    { destruct C1 as [C1|C1]; [|exact C1]. exfalso. specialize (A x0 Hx0). specialize (Hb x0 Hx0). subst mn. lra. }
    assert (M2 : exists y, In y xs /\ linf y = mx).
    { destruct F as [F|F]; [|exact F]. exists x0. split; [exact Hx0|]. specialize (D x0 Hx0). pose proof (linf_nonneg x0). lra. }
    destruct M1 as [x [Hx Ex]]. destruct M2 as [y [Hy Ey]].
    rewrite negb_false_iff, !andb_true_iff. unfold lt_b.
    split.
    + intros [[[H1 H2] H3] H4]. split; [lra|]. exists x, y.
      destruct (Rlt_dec (final_tolerance cfg) mn) as [T1|]; [|discriminate].
      destruct (Rlt_dec (mn / mx) (max_cauchy_ratio cfg)) as [T3|]; [|discriminate].
      destruct (Rlt_dec (final_tolerance cfg) (mx - mn)) as [T4|]; [|discriminate].
      rewrite Ex, Ey. split; [exact Hx|]. split; [exact Hy|]. split; [|auto].
      intros z Hz. split; [apply A|apply D]; exact Hz.
    + intros [_ [x' [y' [Hx' [Hy' [Ext [T1 [T3 T4]]]]]]]].
      assert (linf x' = mn).
      { apply Rle_antisym; [|apply A; exact Hx']. rewrite <- Ex. apply Ext. exact Hx. }
      assert (linf y' = mx).
      { apply Rle_antisym; [apply D; exact Hy'|]. rewrite <- Ey. apply Ext. exact Hy. }
      pose proof (A y' Hy'). rewrite H0, H1 in *.
      destruct (Rlt_dec (final_tolerance cfg) mn); [|lra]. destruct (Rlt_dec (final_tolerance cfg) mx); [|lra].
      destruct (Rlt_dec (mn / mx) (max_cauchy_ratio cfg)); [|lra]. destruct (Rlt_dec (final_tolerance cfg) (mx - mn)); [auto|lra].
Qed.

(** ** The estimate itself *)
Lemma c_over_k_geometric : forall nv rand factor p v r q x0 x1 x2, 0 < factor < 1 -> 0 < r -> 0 < q < 1 ->
  geometric nv p v r q x0 x1 x2 -> pairing nv rand v <> RtoC 0 ->
  c_over_k_of nv rand factor x0 x1 x2 = Num (Rmax 1 (ln factor / ln q)).
Proof.
  intros nv rand f p v r q x0 x1 x2 Hf Hr Hq G Hv.
  destruct (geometric_ratio nv rand _ _ _ _ _ _ _ G Hr ltac:(lra) ltac:(lra) Hv) as [N1 [N2 E]].
  unfold c_over_k_of.
  assert (C0 : forall z : C, z <> RtoC 0 -> Cmod z <> 0).
  { intros z Hz X. apply Cmod_eq_0 in X. contradiction. }
  destruct (Req_EM_T _ 0) as [X|_]; [exfalso; exact (C0 _ N1 X)|].
  destruct (Req_EM_T _ 0) as [X|_]; [exfalso; exact (C0 _ N2 X)|].
  rewrite <- Cmod_div by exact N1. rewrite E, Cmod_R, Rabs_right by lra.
  assert (Lq : ln q < 0) by (rewrite <- ln_1; apply ln_increasing; lra).
  assert (Lf : ln f < 0) by (rewrite <- ln_1; apply ln_increasing; lra).
  destruct (Req_EM_T (ln q) 0); [lra|].
  rewrite (Rabs_left (ln f)), (Rabs_left (ln q)) by lra.
  replace (- ln f / - ln q) with (ln f / ln q) by (field; lra).
  destruct (Rlt_dec _ 1); [rewrite Rmax_left by lra|rewrite Rmax_right by lra]; reflexivity.
Qed.

(** The points p + v t^e of a path at the times t, t q, t q^2. *)
Definition on_path (nv : nat) (p v : nat -> C) (e t q : R) (x0 x1 x2 : nat -> C) : Prop :=
  forall j, (j < nv)%nat -> x0 j = (p j + RtoC (Rpower t e) * v j)%C /\ x1 j = (p j + RtoC (Rpower (t * q) e) * v j)%C
                        /\ x2 j = (p j + RtoC (Rpower (t * q ^ 2) e) * v j)%C.

Lemma on_path_geometric : forall nv p v e t q x0 x1 x2, 0 < t -> 0 < q -> on_path nv p v e t q x0 x1 x2 ->
  geometric nv p v (Rpower t e) (Rpower q e) x0 x1 x2.
Proof.
  intros nv p v e t q x0 x1 x2 Ht Hq O j Hj. destruct (O j Hj) as [A [B D]].
  split; [exact A|]. rewrite B, D, !Rpower_mult_distr by (try assumption; apply Rmult_lt_0_compat; assumption).
  replace (t * q ^ 2) with (t * q * q) by ring. auto.
Qed.

Lemma c_over_k_path : forall nv rand factor p v e t q x0 x1 x2, 0 < factor < 1 -> 0 < t -> 0 < q < 1 -> 0 < e ->
  on_path nv p v e t q x0 x1 x2 -> pairing nv rand v <> RtoC 0 ->
  c_over_k_of nv rand factor x0 x1 x2 = Num (Rmax 1 (ln factor / ln q / e)).
Proof.
  intros nv rand f p v e t q x0 x1 x2 Hf Ht Hq He O Hv.
  destruct (power_base q e Hq He) as [P1 [P2 P3]].
  rewrite (c_over_k_geometric nv rand f p v (Rpower t e) (Rpower q e)); [|exact Hf|apply exp_pos|exact P1| |exact Hv].
  - do 2 f_equal. rewrite P2. field. split; lra.
  - apply on_path_geometric; [exact Ht|lra|exact O].
Qed.
