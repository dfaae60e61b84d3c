(** The step size of an adaptive precision tracker grows only when it has been earned: the counters of
    successful steps (amp_tracker.hpp:744-787 and amp_tracker.hpp:1029-1035) over a whole track. *)
From Coq Require Import List ZArith Reals Lra Lia Bool.
From Coquelicot Require Import Complex.
From Verif Require Import Newton Track AmpCost Amp.
Import ListNotations.
Local Open Scope R_scope.

Section AmpGrow.
Context {P : Type}.
Variable cfg : stepping.
Variable amp : amp_config.
Variable endt : C.
Variable eps : Z -> R.
Variable truncation : bool.
Variable going : nat -> P -> bool.
Variable predict : nat -> P -> C -> C -> code * P.
Variable correct : nat -> P -> C -> code * P.
Variables digits_B digits_C : nat -> Z.
Variable digits_interval : nat -> R -> R -> R -> Z.
Variable convert : Z -> P -> P.
Variable refine : nat -> P -> C -> code * P.
Hypothesis Hcodes : newton_codes_only correct.

Local Notation aiter := (amp_iterate cfg amp endt predict correct digits_B digits_C digits_interval convert).
Local Notation aturn := (turn endt eps truncation going (amp_pre cfg amp) aiter amp_on_fail).
Local Notation atrack := (amp_track cfg amp endt eps truncation going predict correct digits_B digits_C
                                    digits_interval convert refine).

(** A success that neither lets the step grow nor the precision drop. *)
Definition quiet (s s' : st P) : Prop :=
  nsucc s' = S (nsucc s) /\ step s' <= step s /\ (prec s <= prec s')%Z.
Definition counted (s s' : st P) : Prop :=
  quiet s s' /\ since_inc s' = S (since_inc s) \/ since_inc s' = 0%nat.

Lemma turn_counted : forall n s s', aturn n s = Go s' -> counted s s'.
Proof.
  intros n s s' E. unfold turn in E. destruct (close _ _ _); [discriminate|].
  destruct (is_success (amp_pre cfg amp s)); [|discriminate].
  destruct (aiter n _) as [[c s2]|] eqn:It; [|discriminate].
  destruct (truncation && going n (space s2)); [discriminate|].
  set (s1 := set_delta s (next_delta (time s) endt (step s))) in *.
  destruct (amp_iterate_cases _ _ _ _ _ _ _ _ _ Hcodes _ _ _ _ It) as [[-> [x [y [Ec Es]]]]|[Nc R]].
  - cbn [is_success] in E. injection E as <-. rewrite Es. clear Es It Ec.
    unfold adjust_success. cbv zeta. destruct (minimize _ _ _ _ _ _ _) as [p h].
    match goal with |- context [update convert ?z p h] =>
      assert (U : since_inc (update convert z p h) = since_inc z /\ since_decr (update convert z p h) = since_decr z
                  /\ nsucc (update convert z p h) = nsucc z /\ step (update convert z p h) = h
                  /\ prec (update convert z p h) = p)
    end.
    { unfold update, change_precision. cbn. destruct (Z.eqb_spec p (prec s)); cbn; repeat split; congruence. }
    destruct U as [U1 [U2 [U3 [U4 U5]]]].
    unfold counted, quiet. cbn [on_success since_inc since_decr nsucc step prec].
    rewrite U1, U3, U4, U5. cbn.
    destruct (Rlt_dec (step s) h); destruct (Z.ltb_spec p (prec s)); cbn; auto;
      left; repeat split; auto; lra.
  - destruct (is_success c) eqn:Ic; [apply is_success_true in Ic; contradiction|]. injection E as <-.
    right; reflexivity.
Qed.

Lemma chain_snoc : forall (A : Type) (rel : A -> A -> Prop) l a b, chain rel (l ++ [a]) -> rel a b ->
  chain rel (l ++ [a; b]).
Proof.
  intros A rel l a b. induction l as [|x l IH]; cbn; [tauto|]. destruct l as [|y l]; cbn in *; tauto.
Qed.
Lemma chain_unsnoc : forall (A : Type) (rel : A -> A -> Prop) l a b, chain rel (l ++ [a; b]) ->
  chain rel (l ++ [a]) /\ rel a b.
Proof.
  intros A rel l a b. induction l as [|x l IH]; cbn; [tauto|]. destruct l as [|y l]; cbn in *; tauto.
Qed.

(** A counter that is increased by the good steps and put back to zero by the others counts the good
    steps made last. *)
Lemma counter_window : forall (good : st P -> st P -> Prop) (count : st P -> nat) l a,
  chain (fun s s' => good s s' /\ count s' = S (count s) \/ count s' = 0%nat) (l ++ [a]) ->
  match l ++ [a] with s0 :: _ => count s0 = 0%nat | [] => True end ->
  exists earlier w, l = earlier ++ w /\ length w = count a /\ chain good (w ++ [a]).
Proof.
  intros good count. induction l as [|b l IH] using rev_ind; intros a Ch H0.
  - cbn in H0. exists [], []. cbn. rewrite H0. auto.
  - rewrite <- app_assoc in Ch, H0. cbn [app] in Ch, H0. apply chain_unsnoc in Ch. destruct Ch as [Ch [[G Ec]|Ez]].
    + assert (Hb : match l ++ [b] with s0 :: _ => count s0 = 0%nat | [] => True end) by (destruct l; exact H0).
      destruct (IH b Ch Hb) as [e [w [E1 [E2 E3]]]]. exists e, (w ++ [b]). subst l.
      rewrite app_assoc. split; [reflexivity|]. rewrite app_length. cbn [length]. split; [lia|].
      rewrite <- app_assoc. cbn [app]. apply chain_snoc; assumption.
    + exists (l ++ [b]), []. rewrite app_nil_r, Ez. cbn. auto.
Qed.

Lemma chain_prefix : forall (A : Type) (rel : A -> A -> Prop) l m, chain rel (l ++ m) -> chain rel l.
Proof.
  intros A rel l m. induction l as [|x l IH]; cbn; [tauto|]. destruct l as [|y l]; cbn in *; tauto.
Qed.
Lemma chain_suffix : forall (A : Type) (rel : A -> A -> Prop) l m, chain rel (l ++ m) -> chain rel m.
Proof.
  intros A rel l m. induction l as [|x l IH]; cbn; [tauto|]. intro H. apply IH.
  destruct (l ++ m) as [|y r]; cbn in *; tauto.
Qed.

Lemma refine_stored_counters : forall k s, let s' := snd (refine_stored refine k s) in
  since_inc s' = since_inc s /\ since_decr s' = since_decr s /\ nsucc s' = nsucc s.
Proof. intros k s. unfold refine_stored. destruct (refine k _ _) as [c x]. cbn. destruct (is_success c); cbn; auto. Qed.

Lemma refinement_counters : forall s c s', initial_refinement amp convert refine s = Some (c, s') ->
  since_inc s' = since_inc s /\ since_decr s' = since_decr s /\ nsucc s' = nsucc s.
Proof.
  intros s c s'. unfold initial_refinement.
  pose proof (refine_stored_counters 0 s) as H. destruct (refine_stored refine 0 s) as [c0 s0]. cbn in H.
  destruct (is_success c0); [intro E; injection E as <- <-; exact H|].
  intro E.
  enough (since_inc s' = since_inc s0 /\ since_decr s' = since_decr s0 /\ nsucc s' = nsucc s0) by (intuition congruence).
  revert E. generalize (S (S (Z.to_nat (maximum_precision amp - prec s)))) as f. generalize 1%nat as k. clear H.
  intros k f. revert k s0. induction f as [|f IH]; intros k s0; cbn; [discriminate|].
  destruct (_ <? _)%Z; [intro E; injection E as <- <-; auto|].
  match goal with |- context [refine_stored refine k ?z] =>
    pose proof (refine_stored_counters k z) as H;
    assert (Z1 : since_inc z = since_inc s0 /\ since_decr z = since_decr s0 /\ nsucc z = nsucc s0)
      by (unfold change_precision; destruct (_ =? prec s0)%Z; cbn; auto);
    destruct (refine_stored refine k z) as [c1 s1] end.
  cbn in H. destruct (is_success c1).
  - intro E. injection E as <- <-. intuition congruence.
  - intro E. apply IH in E. intuition congruence.
Qed.

Lemma track_counted : forall fuel re h p start x0,
  chain counted (fst (atrack fuel re h p start x0))
  /\ match fst (atrack fuel re h p start x0) with s0 :: _ => since_inc s0 = 0%nat | [] => True end.
Proof.
  intros. unfold amp_track.
  destruct (initial_refinement _ _ _ _) as [[c s]|] eqn:E; [|cbn; auto].
  destruct (is_success c); [|cbn; auto]. apply refinement_counters in E. cbn in E.
  split.
  - apply run_chain. apply turn_counted.
  - match goal with |- context [run ?a ?b ?c0 ?d ?e ?f ?g fuel ?n s] => destruct (run_head a b c0 d e f g fuel n s) as [l ->] end.
    tauto.
Qed.

Lemma quiet_window : forall fuel re h p start x0 before a after,
  fst (atrack fuel re h p start x0) = before ++ [a] ++ after ->
  exists earlier w, before = earlier ++ w /\ length w = since_inc a /\ chain quiet (w ++ [a]).
Proof.
  intros fuel re h p start x0 before a after E.
  destruct (track_counted fuel re h p start x0) as [Ch H0]. rewrite E in Ch, H0. rewrite app_assoc in Ch, H0.
  apply chain_prefix in Ch.
  apply counter_window.
  - exact Ch.
  - destruct before; cbn in *; tauto.
Qed.

Lemma last_part : forall (A : Type) (l e w : list A) n, l = e ++ w -> (n <= length w)%nat ->
  exists e' w', l = e' ++ w' /\ length w' = n /\ exists v, w = v ++ w'.
Proof.
  intros A l e w n -> H. exists (e ++ firstn (length w - n) w), (skipn (length w - n) w).
  rewrite <- app_assoc, firstn_skipn. split; [reflexivity|]. rewrite skipn_length. split; [lia|].
  exists (firstn (length w - n) w). symmetry. apply firstn_skipn.
Qed.

Lemma growth_earned : (0 <= predictor_order amp < 2 ^ 32 - 1)%Z -> 
  0 < fail_factor cfg < 1 -> 0 < min_step_size cfg -> 0 < success_factor cfg -> 0 < max_step_size cfg <= 1 ->
  (DoublePrecision <= maximum_precision amp <= MaxPrecisionAllowed)%Z ->
  forall fuel re h p start x0, (DoublePrecision <= p)%Z ->
  max_step_usable cfg endt start -> first_step cfg re h start endt <= max_step_size cfg ->
  forall before a b after, fst (atrack fuel re h p start x0) = before ++ [a; b] ++ after ->
  nsucc b = S (nsucc a) -> step a < step b ->
  step b = Rmin (step a * success_factor cfg) (max_step_size cfg) /\
  exists earlier w, before = earlier ++ w /\ length w = consecutive_before_increase cfg /\ chain quiet (w ++ [a]).
Proof.
  intros H1 H3 H4 H5 H6 H7 fuel re h p start x0 H8 H9 H10 before a b after E Sb G.
  pose proof (amp_track_steps cfg amp endt eps truncation going predict correct digits_B digits_C digits_interval
                convert refine H1 Hcodes H3 H4 H5 H6 H7 fuel re h p start x0 H8 H9 H10) as [_ R].
  rewrite E in R. apply chain_middle in R. cbn in R. destruct R as [[R _] _].
  destruct (R Sb) as [Es _].
  destruct (Nat.ltb_spec (since_inc a) (consecutive_before_increase cfg)) as [L|L]; [lra|].
  split; [exact Es|].
  destruct (quiet_window fuel re h p start x0 before a (b :: after) E) as [e [w [E1 [E2 E3]]]].
  rewrite <- E2 in L. destruct (last_part _ _ e w _ E1 L) as [e' [w' [F1 [F2 [v F3]]]]].
  exists e', w'. split; [exact F1|]. split; [exact F2|]. subst w. rewrite <- app_assoc in E3. apply chain_suffix in E3. exact E3.
Qed.
End AmpGrow.
