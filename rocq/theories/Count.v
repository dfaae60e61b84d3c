(** What the counters of a tracker count, what the precision does after failures and successes, and from which point
    the adaptive precision tracker starts.  The model is in Track.v and Amp.v; this file adds the definitions needed to
    state the properties in terms of the times and precisions a tracker has gone through. *)
From Coq Require Import List ZArith Lia Reals Lra Bool Arith.
From Coquelicot Require Import Complex.
From Verif Require Import Newton Track AmpCost Amp.
Import ListNotations.
Local Open Scope R_scope.

(* ------------------------------------------------------------------ specification *)
Section Spec.
Context {P : Type}.

(** The time moved between two states. *)
Definition moved (a b : st P) : bool := if Ceq_dec (time a) (time b) then false else true.

(** The outcomes of the steps between the states of a list, newest first: true for a step that moved the time. *)
Fixpoint verdicts (l : list (st P)) : list bool :=
  match l with
  | b :: (a :: _) as tl => moved a b :: verdicts tl
  | _ => []
  end.

(** How many of the newest outcomes are v in a row. *)
Fixpoint streak (v : bool) (l : list bool) : nat :=
  match l with
  | x :: tl => if Bool.eqb x v then S (streak v tl) else 0
  | [] => 0
  end.

(** The precision dropped between two states. *)
Definition dropped (a b : st P) : bool := (prec b <? prec a)%Z.
Fixpoint drops (l : list (st P)) : nat :=
  match l with
  | b :: (a :: _) as tl => ((if dropped a b then 1 else 0) + drops tl)%nat
  | _ => 0%nat
  end.

(** The newest k steps of a history all moved the time without lowering the precision. *)
Fixpoint steady (k : nat) (l : list (st P)) : Prop :=
  match k with
  | O => True
  | S k' => match l with
            | b :: (a :: _) as tl => moved a b = true /\ dropped a b = false /\ steady k' tl
            | _ => False
            end
  end.
End Spec.

(** The next higher precision, k failures in a row ago: 16 digits, 20 digits, then tens. *)
Definition higher (p : Z) (k : nat) : Z :=
  if (p =? DoublePrecision)%Z then LowestMultiplePrecision else (p + (1 + Z.of_nat k) * PrecisionIncrement)%Z.

(** The precisions tried for the start point, one after the other, and the start point converted to them. *)
Fixpoint rung (p0 : Z) (i : nat) : Z :=
  match i with O => p0 | S j => higher (rung p0 j) 0 end.
Fixpoint carried_point {P : Type} (convert : Z -> P -> P) (p0 : Z) (x0 : P) (i : nat) : P :=
  match i with O => x0 | S j => convert (rung p0 (S j)) (carried_point convert p0 x0 j) end.

(** Precisions the library works in. *)
Definition legal_precision (p : Z) : Prop :=
  p = DoublePrecision \/ (LowestMultiplePrecision <= p /\ exists k, p = PrecisionIncrement * k)%Z.

(* ------------------------------------------------------------------ histories of runs *)
Section History.
Context {P : Type}.
Variable endt : C.
Variable eps : Z -> R.
Variable truncation : bool.
Variable going : nat -> P -> bool.
Variable pre : st P -> code.
Variable iterate : nat -> st P -> option (code * st P).
Variable on_fail : st P -> st P.
Local Notation turn := (turn endt eps truncation going pre iterate on_fail).
Local Notation run := (run endt eps truncation going pre iterate on_fail).

Lemma run_history : forall (inv : list (st P) -> Prop),
  (forall h s s', inv (s :: h) -> turn (length h) s = Go s' -> inv (s' :: s :: h)) ->
  forall fuel s h, inv (s :: h) ->
  forall before s1 after, fst (run fuel (length h) s) = before ++ s1 :: after -> inv (s1 :: rev before ++ h).
Proof.
  intros inv Hi. induction fuel as [|fuel IH]; intros s h Hs before s1 after E; cbn [Track.run] in E.
  - destruct before as [|b before]; cbn in E; [injection E as <- _; exact Hs|].
    injection E as _ E. destruct before; discriminate.
  - destruct (turn (length h) s) as [c s'|s'|] eqn:Et.
    + destruct before as [|b before]; cbn in E; [injection E as <- _; exact Hs|].
      injection E as _ E. destruct before; discriminate.
    + specialize (IH s' (s :: h) (Hi _ _ _ Hs Et)). cbn [length] in IH.
      destruct (run fuel (S (length h)) s') as [l o]. cbn [fst] in *.
      destruct before as [|b before]; cbn in E; [injection E as <- _; exact Hs|].
      injection E as <- E. specialize (IH _ _ _ E). cbn [rev]. rewrite <- app_assoc. exact IH.
    + destruct before as [|b before]; cbn in E; [injection E as <- _; exact Hs|].
      injection E as _ E. destruct before; discriminate.
Qed.

Lemma run_pair : forall fuel n s before a b after, fst (run fuel n s) = before ++ a :: b :: after ->
  turn (n + length before) a = Go b.
Proof.
  induction fuel as [|fuel IH]; intros n s before a b after E; cbn [Track.run] in E.
  - destruct before as [|x before]; cbn in E; [discriminate|]. injection E as _ E. destruct before; discriminate.
  - destruct (turn n s) as [c s'|s'|] eqn:Et.
    + destruct before as [|x before]; cbn in E; [discriminate|]. injection E as _ E. destruct before; discriminate.
    + destruct (run_head endt eps truncation going pre iterate on_fail fuel (S n) s') as [l0 E0].
      specialize (IH (S n) s'). destruct (run fuel (S n) s') as [l o]. cbn [fst] in *.
      destruct before as [|x before]; cbn in E.
      * injection E as -> E. rewrite E in E0. injection E0 as -> _. cbn. rewrite Nat.add_0_r. exact Et.
      * injection E as _ E. specialize (IH _ _ _ _ E). cbn [length].
        replace (n + S (length before))%nat with (S n + length before)%nat by lia. exact IH.
    + destruct before as [|x before]; cbn in E; [discriminate|]. injection E as _ E. destruct before; discriminate.
Qed.

Definition counters (s : st P) := (nsucc s, nfail s, csucc s, cfail s).

Hypothesis iterate_frame : forall n s c s', iterate n s = Some (c, s') ->
  time s' = time s /\ delta s' = delta s /\ counters s' = counters s.
Hypothesis on_fail_counters : forall s, time (on_fail s) = time s /\
  counters (on_fail s) = (nsucc s, S (nfail s), 0%nat, S (cfail s)).
Hypothesis pre_step : forall s, pre s = Success -> 0 < step s.

Lemma delta_moves : forall t h, 0 < h -> t <> endt -> (t + next_delta t endt h)%C <> t.
Proof.
  clear. intros t h Hh Ne E. destruct (next_delta_spec t endt h ltac:(lra) Ne) as [D _]. rewrite E in D.
  assert (Nz : (endt - t <> 0)%C). { intro H. apply Ne. replace endt with ((endt - t) + t)%C by ring. rewrite H. ring. }
  assert (Pd : 0 < Cmod (endt - t)%C) by (apply Cmod_gt_0; exact Nz).
  assert (0 < Rmin h (Cmod (endt - t)%C)) by (apply Rmin_glb_lt; lra). lra.
Qed.

Lemma turn_moved : forall n s s', turn n s = Go s' ->
  (moved s s' = true /\ counters s' = (S (nsucc s), nfail s, S (csucc s), 0%nat))
  \/ (moved s s' = false /\ counters s' = (nsucc s, S (nfail s), 0%nat, S (cfail s))).
Proof.
  intros n s s' E. unfold Track.turn in E.
  destruct (close (time s) endt (eps (prec s))) eqn:Cl; [discriminate|].
  destruct (is_success (pre s)) eqn:Pr; [|discriminate]. apply is_success_true in Pr.
  assert (Ne : time s <> endt). { intro H. rewrite H in Cl. unfold close in Cl.
    destruct (Ceq_dec endt endt); [discriminate|contradiction]. }
  destruct (iterate n _) as [[c s2]|] eqn:It; [|discriminate].
  destruct (iterate_frame _ _ _ _ It) as [T1 [D1 K1]]. cbn [time delta set_delta] in T1, D1.
  change (counters (set_delta s (next_delta (time s) endt (step s)))) with (counters s) in K1.
  unfold counters in K1. injection K1 as K1 K2 K3 K4.
  destruct (truncation && going n (space s2)); [discriminate|].
  destruct (is_success c); injection E as <-.
  - left. split.
    + unfold moved. cbn [time on_success]. rewrite T1, D1. destruct (Ceq_dec _ _) as [X|X]; [|reflexivity].
      exfalso. symmetry in X. revert X. apply delta_moves; [apply pre_step; exact Pr|exact Ne].
    + unfold counters. cbn [on_success nsucc nfail csucc cfail]. rewrite K1, K2, K3. reflexivity.
  - right. destruct (on_fail_counters s2) as [T2 K]. split.
    + unfold moved. rewrite T2, T1. destruct (Ceq_dec _ _) as [X|X]; [reflexivity|contradiction].
    + rewrite K. congruence.
Qed.

Definition counted (l : list (st P)) : Prop :=
  match l with
  | [] => True
  | s :: _ => nsucc s = count_occ bool_dec (verdicts l) true /\ nfail s = count_occ bool_dec (verdicts l) false
              /\ csucc s = streak true (verdicts l) /\ cfail s = streak false (verdicts l)
  end.

Lemma counted_step : forall h s s', counted (s :: h) -> turn (length h) s = Go s' -> counted (s' :: s :: h).
Proof.
  intros h s s' Hc E. unfold counted in *. cbn [verdicts]. destruct Hc as [C1 [C2 [C3 C4]]].
  change (match h with [] => [] | a :: _ => moved a s :: verdicts h end) with (verdicts (s :: h)).
  set (v := verdicts (s :: h)) in *.
  destruct (turn_moved _ _ _ E) as [[-> K]|[-> K]]; unfold counters in K; injection K as K1 K2 K3 K4;
    cbn [count_occ streak Bool.eqb]; rewrite K1, K2, K3, K4.
  - destruct (bool_dec true true), (bool_dec true false); try congruence. repeat split; congruence.
  - destruct (bool_dec false true), (bool_dec false false); try congruence. repeat split; congruence.
Qed.

Lemma run_counted : forall fuel s, counters s = (0, 0, 0, 0)%nat ->
  forall before s1 after, fst (run fuel 0 s) = before ++ s1 :: after -> counted (s1 :: rev before).
Proof.
  intros fuel s Hs before s1 after E.
  pose proof (run_history counted counted_step fuel s []) as H. cbn [length] in H.
  specialize (H ltac:(unfold counters in Hs; injection Hs as A1 A2 A3 A4; unfold counted; cbn; auto) _ _ _ E).
  rewrite app_nil_r in H. exact H.
Qed.
End History.

(* ------------------------------------------------------------------ fixed precision *)
Section Fixed.
Context {P : Type}.
Variable cfg : stepping.
Variable endt : C.
Variable eps : Z -> R.
Variable truncation : bool.
Variable going : nat -> P -> bool.
Variable predict : nat -> P -> C -> C -> code * P.
Variable correct : nat -> P -> C -> code * P.

Lemma fixed_iterate_counters : forall n s c s', fixed_iterate cfg predict correct n s = Some (c, s') ->
  time s' = time s /\ delta s' = delta s /\ counters s' = counters s.
Proof.
  intros n s c s' E. unfold fixed_iterate in E. destruct (predict n _ _ _) as [pc y].
  destruct (is_success pc); cbn [negb] in E; [|injection E as _ <-; repeat split; reflexivity].
  destruct (correct n y _) as [cc x]. destruct cc; injection E as _ <-; repeat split; reflexivity.
Qed.

Lemma fixed_counted : 0 < min_step_size cfg -> forall fuel re h p start x0 before s after,
  fst (fixed_track cfg endt eps truncation going predict correct fuel re h p start x0) = before ++ s :: after ->
  counted (s :: rev before).
Proof.
  intros Hm fuel re h p start x0 before s after E.
  eapply run_counted; [| | | |exact E].
  - exact fixed_iterate_counters.
  - intro x. split; reflexivity.
  - intros x Hx. apply fixed_pre_success in Hx. lra.
  - reflexivity.
Qed.
End Fixed.

(* ------------------------------------------------------------------ adaptive precision *)
Section Amp.
Context {P : Type}.
Variable cfg : stepping.
Variable amp : amp_config.
Variable endt : C.
Variable eps : Z -> R.
Variable truncation : bool.
Variable going : nat -> P -> bool.
Variable predict : nat -> P -> C -> C -> code * P.
Variable correct : nat -> P -> C -> code * P.
Variables digits_B digits_C : nat -> Z.
Variable digits_interval : nat -> R -> R -> R -> Z.
Variable convert : Z -> P -> P.
Variable refine : nat -> P -> C -> code * P.
Local Notation iterate := (amp_iterate cfg amp endt predict correct digits_B digits_C digits_interval convert).
Local Notation aturn := (turn endt eps truncation going (amp_pre cfg amp) iterate amp_on_fail).
Local Notation track := (amp_track cfg amp endt eps truncation going predict correct digits_B digits_C digits_interval convert refine).

Lemma update_counters : forall s p h, counters (update convert s p h) = counters s.
Proof. clear. intros. unfold update, change_precision. destruct (_ =? _)%Z; reflexivity. Qed.

Lemma amp_iterate_counters : forall n s c s', iterate n s = Some (c, s') ->
  time s' = time s /\ delta s' = delta s /\ counters s' = counters s.
Proof.
  intros n s c s' E. assert (T : time s' = time s /\ delta s' = delta s) by (revert E; apply amp_frame; [exact going|exact refine]). destruct T as [T D]. split; [exact T|]. split; [exact D|].
  clear T D. unfold amp_iterate in E.
  destruct (predict n (space s) (time s) (delta s)) as [pc y].
  assert (N : forall c0, option_map (pair c0) (newton_convergence_error cfg endt convert s) = Some (c, s') -> counters s' = counters s).
  { intros c0 E0. unfold newton_convergence_error in E0. cbv zeta in E0.
    destruct (raise_precision _ _ _ _) as [q|]; [|discriminate]. injection E0 as _ <-. apply update_counters. }
  assert (I1 : counters (initial_matrix_solve_error convert s) = counters s) by apply update_counters.
  assert (I2 : counters (amp_criterion_error cfg amp endt digits_B digits_C digits_interval convert n s) = counters s).
  { unfold amp_criterion_error. cbv zeta. destruct (Rlt_dec _ _); [apply update_counters|].
    destruct (minimize _ _ _ _ _ _ _). apply update_counters. }
  assert (I3 : forall s, counters (adjust_success cfg amp digits_B digits_C convert n s) = counters s).
  { intro s1. unfold adjust_success. cbv zeta. destruct (minimize _ _ _ _ _ _ _). rewrite update_counters. reflexivity. }
  destruct (correct n y (time s + delta s)%C) as [cc x].
  destruct pc; try (apply N with (1 := E)); try (injection E as _ <-; assumption);
    (destruct cc; try (apply N with (1 := E)); try (injection E as _ <-; try assumption; try reflexivity; rewrite I3; reflexivity)).
Qed.

Lemma refine_stored_fields : forall k s c s', refine_stored refine k s = (c, s') ->
  time s' = time s /\ step s' = step s /\ counters s' = counters s /\ prec s' = prec s /\ ndecr s' = ndecr s
  /\ since_decr s' = since_decr s
  /\ c = fst (refine k (space s) (time s))
  /\ (c <> Success -> s' = s) /\ (c = Success -> refine k (space s) (time s) = (Success, space s')).
Proof.
  intros k s c s' E. unfold refine_stored in E. destruct (refine k (space s) (time s)) as [c0 x].
  destruct (is_success c0) eqn:Ic; injection E as <- <-.
  - apply is_success_true in Ic. subst c0.
    repeat match goal with |- _ /\ _ => split end; try reflexivity. intro X. contradiction.
  - repeat match goal with |- _ /\ _ => split end; try reflexivity. intros ->. discriminate.
Qed.

Lemma higher_above : forall p, (DoublePrecision <= p)%Z -> (p < higher p 0)%Z.
Proof.
  clear. intros p H. unfold higher, DoublePrecision, LowestMultiplePrecision, PrecisionIncrement in *.
  destruct (Z.eqb_spec p 16); lia.
Qed.

Definition fresh (s0 s : st P) : Prop := time s = time s0 /\ step s = step s0 /\ counters s = counters s0
  /\ ndecr s = ndecr s0 /\ since_decr s = since_decr s0.

Lemma refinement_loop : forall s0 fuel k s, (DoublePrecision <= prec s0)%Z -> fresh s0 s ->
  prec s = rung (prec s0) k -> space s = carried_point convert (prec s0) (space s0) k ->
  (DoublePrecision <= prec s)%Z ->
  (Z.to_nat (maximum_precision amp + 1 - prec s) < fuel)%nat ->
  exists m c s', initial_refinement_loop amp convert refine fuel (S k) s = Some (c, s') /\ (k <= m)%nat /\ fresh s0 s' /\
    prec s' = rung (prec s0) m /\
    (forall i, (k < i < m)%nat -> fst (refine i (carried_point convert (prec s0) (space s0) i) (time s0)) <> Success) /\
    (forall i, (k <= i < m)%nat -> (rung (prec s0) i <= maximum_precision amp)%Z) /\
    ((c = Success /\ (k < m)%nat /\
      refine m (carried_point convert (prec s0) (space s0) m) (time s0) = (Success, space s'))
     \/ (c = SingularStartPoint /\ (maximum_precision amp < rung (prec s0) m)%Z /\
         ((k < m)%nat -> fst (refine m (carried_point convert (prec s0) (space s0) m) (time s0)) <> Success))).
Proof.
  intros s0. induction fuel as [|fuel IH]; intros k s H0 Hf Hp Hx Hd F; [lia|].
  cbn [initial_refinement_loop]. destruct (Z.ltb_spec (maximum_precision amp) (prec s)) as [L|L].
  - exists k, SingularStartPoint, s. split; [reflexivity|]. split; [lia|]. split; [exact Hf|]. split; [exact Hp|].
    split; [intros; lia|]. split; [intros; lia|]. right. split; [reflexivity|]. rewrite <- Hp. split; [exact L|lia].
  - change (if (prec s =? DoublePrecision)%Z then LowestMultiplePrecision else (prec s + PrecisionIncrement)%Z)
      with (if (prec s =? DoublePrecision)%Z then LowestMultiplePrecision else (prec s + PrecisionIncrement)%Z).
    assert (Eh : (if (prec s =? DoublePrecision)%Z then LowestMultiplePrecision else (prec s + PrecisionIncrement)%Z) = rung (prec s0) (S k)).
    { cbn [rung]. rewrite <- Hp. unfold higher, PrecisionIncrement. destruct (_ =? _)%Z; lia. }
    rewrite Eh. pose proof (higher_above (prec s) Hd) as Ha. rewrite Hp in Ha at 2.
    change (higher (rung (prec s0) k) 0) with (rung (prec s0) (S k)) in Ha.
    set (s1 := change_precision convert s (rung (prec s0) (S k))).
    assert (F1 : fresh s0 s1 /\ prec s1 = rung (prec s0) (S k) /\ space s1 = carried_point convert (prec s0) (space s0) (S k)).
    { unfold s1, change_precision. destruct (Z.eqb_spec (rung (prec s0) (S k)) (prec s)) as [X|X]; [lia|].
      cbn [prec space]. split; [exact Hf|]. split; [reflexivity|]. rewrite Hx. reflexivity. }
    clearbody s1. destruct F1 as [G1 [G2 G3]].
    destruct (refine_stored refine (S k) s1) as [c s2] eqn:E.
    destruct (refine_stored_fields _ _ _ _ E) as [A1 [A2 [A3 [A4 [A5 [A6 [A7 [A8 A9]]]]]]]].
    destruct G1 as [B1 [B2 [B3 [B4 B5]]]]. rewrite B1, G3 in A7, A9.
    destruct (is_success c) eqn:Ic.
    + apply is_success_true in Ic. specialize (A9 Ic). exists (S k), Success, s2.
      split; [reflexivity|]. split; [lia|]. split; [unfold fresh; repeat split; congruence|]. split; [congruence|].
      split; [intros; lia|]. split; [intros i Hi; replace i with k by lia; lia|]. left.
      split; [reflexivity|]. split; [lia|]. exact A9.
    + assert (Nc : c <> Success) by (intros ->; discriminate). specialize (A8 Nc). subst s2.
      destruct (IH (S k) s1) as [m [c' [s' [E' [Lm [Hf' [Hp' [Q1 [Q2 Q3]]]]]]]]].
      * exact H0.
      * unfold fresh; repeat split; assumption.
      * exact G2.
      * exact G3.
      * lia.
      * lia.
      * exists m, c', s'. split; [exact E'|]. split; [lia|]. split; [exact Hf'|]. split; [exact Hp'|].
        assert (Nk : fst (refine (S k) (carried_point convert (prec s0) (space s0) (S k)) (time s0)) <> Success).
        { rewrite <- A7. exact Nc. }
        split. { intros i Hi. destruct (Nat.eq_dec i (S k)) as [->|]; [exact Nk|]. apply Q1. lia. }
        split. { intros i Hi. destruct (Nat.eq_dec i k) as [->|]; [lia|]. apply Q2. lia. }
        destruct Q3 as [[R1 [R2 R3]]|[R1 [R2 R3]]].
        -- left. split; [exact R1|]. split; [lia|exact R3].
        -- right. split; [exact R1|]. split; [exact R2|]. intros _.
           destruct (Nat.eq_dec m (S k)) as [->|]; [exact Nk|]. apply R3. lia.
Qed.

(** The start point is refined at higher and higher precision until that succeeds or the maximum is passed. *)
Lemma track_start : forall fuel re h p0 start x0, (DoublePrecision <= p0)%Z ->
  exists m,
  (forall i, (i < m)%nat -> (rung p0 i <= maximum_precision amp)%Z /\
     fst (refine i (carried_point convert p0 x0 i) start) <> Success) /\
  ((exists s l o, refine m (carried_point convert p0 x0 m) start = (Success, space s) /\
      track fuel re h p0 start x0 = (s :: l, o) /\
      time s = start /\ prec s = rung p0 m /\ step s = first_step cfg re h start endt /\
      counters s = (0, 0, 0, 0)%nat /\ ndecr s = 0%nat /\ since_decr s = 0%nat) \/
   (exists s, fst (refine m (carried_point convert p0 x0 m) start) <> Success /\ (maximum_precision amp < rung p0 m)%Z /\
      track fuel re h p0 start x0 = ([], Finished SingularStartPoint s))).
Proof.
  intros fuel re h p0 start x0 H0. unfold amp_track.
  set (s0 := mkSt start x0 (first_step cfg re h start endt) 0 0 0 0 0 0 p0 0 0).
  assert (Q : exists m c s', initial_refinement amp convert refine s0 = Some (c, s') /\ fresh s0 s' /\ prec s' = rung p0 m /\
     (forall i, (i < m)%nat -> (rung p0 i <= maximum_precision amp)%Z /\ fst (refine i (carried_point convert p0 x0 i) start) <> Success) /\
     ((c = Success /\ refine m (carried_point convert p0 x0 m) start = (Success, space s'))
      \/ (c = SingularStartPoint /\ (maximum_precision amp < rung p0 m)%Z /\ fst (refine m (carried_point convert p0 x0 m) start) <> Success))).
  { unfold initial_refinement. destruct (refine_stored refine 0 s0) as [c s1] eqn:E.
    destruct (refine_stored_fields _ _ _ _ E) as [A1 [A2 [A3 [A4 [A5 [A6 [A7 [A8 A9]]]]]]]].
    change (space s0) with x0 in A7, A9. change (time s0) with start in A7, A9.
    destruct (is_success c) eqn:Ic.
    - apply is_success_true in Ic. specialize (A9 Ic). exists 0%nat, Success, s1. split; [reflexivity|].
      split; [unfold fresh; repeat split; assumption|]. split; [exact A4|]. split; [intros; lia|]. left. split; [reflexivity|exact A9].
    - assert (Nc : c <> Success) by (intros ->; discriminate). specialize (A8 Nc). subst s1.
      destruct (refinement_loop s0 (S (S (Z.to_nat (maximum_precision amp - prec s0)))) 0 s0 H0
                  ltac:(unfold fresh; repeat split) eq_refl eq_refl H0 ltac:(lia))
        as [m [c' [s' [E' [Lm [Hf' [Hp' [Q1 [Q2 Q3]]]]]]]]].
      change (prec s0) with p0 in *. change (space s0) with x0 in *. change (time s0) with start in *.
      exists m, c', s'. split; [exact E'|]. split; [exact Hf'|]. split; [exact Hp'|].
      assert (N0 : fst (refine 0 x0 start) <> Success) by (rewrite <- A7; exact Nc).
      split. { intros i Hi. split; [apply Q2; lia|]. destruct (Nat.eq_dec i 0) as [->|]; [exact N0|]. apply Q1. lia. }
      destruct Q3 as [[R1 [R2 R3]]|[R1 [R2 R3]]]; [left; split; assumption|]. right. split; [exact R1|]. split; [exact R2|].
      destruct (Nat.eq_dec m 0) as [->|]; [exact N0|]. apply R3. lia. }
  destruct Q as [m [c [s [E [[F1 [F2 [F3 [F4 F5]]]] [Hp [H1 H2]]]]]]]. rewrite E. exists m. split; [exact H1|].
  destruct H2 as [[-> R]|[-> [R1 R2]]]; cbn [is_success].
  - left. destruct (run_head endt eps truncation going (amp_pre cfg amp) iterate amp_on_fail fuel 0 s) as [l El].
    destruct (run _ _ _ _ _ _ _ fuel 0 s) as [l0 o]. cbn [fst] in El. subst l0. exists s, l, o.
    split; [exact R|]. split; [reflexivity|]. split; [exact F1|]. split; [exact Hp|]. split; [exact F2|].
    split; [exact F3|]. split; [exact F4|exact F5].
  - right. exists s. split; [exact R2|]. split; [exact R1|reflexivity].
Qed.

Lemma track_run : forall fuel re h p0 start x0 before s after, (DoublePrecision <= p0)%Z ->
  fst (track fuel re h p0 start x0) = before ++ s :: after ->
  exists s0, fst (run endt eps truncation going (amp_pre cfg amp) iterate amp_on_fail fuel 0 s0) = before ++ s :: after
    /\ counters s0 = (0, 0, 0, 0)%nat /\ ndecr s0 = 0%nat /\ since_decr s0 = 0%nat /\ exists m, prec s0 = rung p0 m.
Proof.
  intros fuel re h p0 start x0 before s after H0 E.
  destruct (track_start fuel re h p0 start x0 H0) as [m [_ [[s0 [l [o [_ [T [_ [F1 [_ [F3 [F4 F5]]]]]]]]]]|[s0 [_ [_ T]]]]]].
  2:{ rewrite T in E. cbn in E. destruct before; discriminate. }
  exists s0. rewrite T in E. cbn [fst] in E. unfold amp_track in T.
  destruct (initial_refinement _ _ _) as [[c s1]|]; [|discriminate]. destruct (is_success c); [|discriminate].
  destruct (run_head endt eps truncation going (amp_pre cfg amp) iterate amp_on_fail fuel 0 s1) as [l1 E1].
  rewrite T in E1. cbn [fst] in E1. injection E1 as -> _.
  rewrite T. cbn [fst]. split; [exact E|]. split; [exact F3|]. split; [exact F4|]. split; [exact F5|]. exists m. exact F1.
Qed.

Lemma amp_counted : 0 < min_step_size cfg -> forall fuel re h p0 start x0 before s after, (DoublePrecision <= p0)%Z ->
  fst (track fuel re h p0 start x0) = before ++ s :: after -> counted (s :: rev before).
Proof.
  intros Hm fuel re h p0 start x0 before s after H0 E.
  destruct (track_run fuel re h p0 start x0 before s after H0 E) as [s0 [E0 [K _]]].
  eapply run_counted; [| | | |exact E0].
  - exact amp_iterate_counters.
  - intro x. split; reflexivity.
  - intros x Hx. apply amp_pre_success in Hx. lra.
  - exact K.
Qed.

(** The two failures that call for more digits. *)
Lemma turn_first_solve : forall n a b y, aturn n a = Go b ->
  predict n (space a) (time a) (next_delta (time a) endt (step a)) = (MatrixSolveFailureFirstPartOfPrediction, y) ->
  prec b = higher (prec a) (cfail a) /\ step b = step a.
Proof.
  intros n a b y E Ep. unfold turn in E. destruct (close _ _ _); [discriminate|]. destruct (is_success _); [|discriminate].
  unfold amp_iterate in E. cbn [space time delta set_delta] in E. rewrite Ep in E.
  destruct (truncation && _); [discriminate|]. cbn [is_success] in E. injection E as <-.
  match goal with |- context [initial_matrix_solve_error convert ?x] => set (s1 := x) end.
  change (prec (amp_on_fail ?x)) with (prec x). change (step (amp_on_fail ?x)) with (step x).
  unfold initial_matrix_solve_error.
  match goal with |- context [update convert s1 ?p ?h] => destruct (update_frame convert s1 p h) as [_ [_ [_ [_ [G2 [G _]]]]]] end.
  rewrite G, G2. split; reflexivity.
Qed.

Lemma criterion_at_least : (0 <= maximum_precision amp <= MaxPrecisionAllowed)%Z -> forall n s,
  legal_precision (prec s) ->
  (higher (prec s) (cfail s) <= prec (amp_criterion_error cfg amp endt digits_B digits_C digits_interval convert n s))%Z
  \/ (maximum_precision amp < prec (amp_criterion_error cfg amp endt digits_B digits_C digits_interval convert n s))%Z.
Proof.
  intros Hmax n s Hl. unfold amp_criterion_error. cbv zeta.
  change (if (prec s =? DoublePrecision)%Z then LowestMultiplePrecision
          else (prec s + (1 + Z.of_nat (cfail s)) * PrecisionIncrement)%Z) with (higher (prec s) (cfail s)).
  assert (Hh : (LowestMultiplePrecision <= higher (prec s) (cfail s))%Z /\ exists k, higher (prec s) (cfail s) = (PrecisionIncrement * k)%Z).
  { unfold legal_precision, higher, DoublePrecision, LowestMultiplePrecision, PrecisionIncrement in *.
    destruct (Z.eqb_spec (prec s) 16) as [E|E]; [split; [lia|exists 2%Z; lia]|].
    destruct Hl as [Hl|[Hl [k Hk]]]; [contradiction|]. split; [lia|]. exists (k + 1 + Z.of_nat (cfail s))%Z. lia. }
  destruct Hh as [Hh1 [k Hk]]. set (mn := higher (prec s) (cfail s)) in *.
  destruct (Rlt_dec _ _).
  - left. rewrite (proj1 (proj2 (proj2 (proj2 (proj2 (proj2 (update_frame convert _ _ _))))))). lia.
  - set (mp := Z.max (Z.max mn (digits_B n)) _).
    assert (Hmp : (mn <= mp)%Z) by (unfold mp; lia).
    match goal with |- context [minimize ?a ?b ?c ?d ?e ?f ?g] =>
      destruct (minimize_spec a b c d e f g) as [[_ ->]|[p [-> [I _]]]] end;
      rewrite (proj1 (proj2 (proj2 (proj2 (proj2 (proj2 (update_frame convert _ _ _))))))).
    + right. lia.
    + left. apply in_tested in I; [|unfold LowestMultiplePrecision in *; lia|lia].
      unfold DoublePrecision, LowestMultiplePrecision, PrecisionIncrement in *.
      destruct I as [[_ I]|[[I _] _]]; [lia|].
      destruct (round_precision_spec mp ltac:(lia)) as [R1 [[k2 R3] R2]].
      unfold LowestMultiplePrecision, PrecisionIncrement in *. specialize (R2 ltac:(lia)). lia.
Qed.

Lemma turn_criterion : (0 <= maximum_precision amp <= MaxPrecisionAllowed)%Z -> forall n a b y, aturn n a = Go b ->
  legal_precision (prec a) ->
  (predict n (space a) (time a) (next_delta (time a) endt (step a)) = (HigherPrecisionNecessary, y) \/
   exists z, predict n (space a) (time a) (next_delta (time a) endt (step a)) = (Success, z) /\
             correct n z (time a + next_delta (time a) endt (step a))%C = (HigherPrecisionNecessary, y)) ->
  (higher (prec a) (cfail a) <= prec b)%Z \/ (maximum_precision amp < prec b)%Z.
Proof.
  intros Hmax n a b y E Hl Ep. unfold turn in E. destruct (close _ _ _); [discriminate|]. destruct (is_success _); [|discriminate].
  set (s1 := set_delta a (next_delta (time a) endt (step a))) in *.
  assert (It : iterate n s1 = Some (HigherPrecisionNecessary, amp_criterion_error cfg amp endt digits_B digits_C digits_interval convert n s1)).
  { unfold amp_iterate. change (space s1) with (space a). change (time s1) with (time a).
    change (delta s1) with (next_delta (time a) endt (step a)).
    destruct Ep as [->|[z [-> Ec]]]; [reflexivity|]. rewrite Ec. reflexivity. }
  rewrite It in E. destruct (truncation && _); [discriminate|]. cbn [is_success] in E. injection E as <-.
  change (prec (amp_on_fail ?x)) with (prec x).
  pose proof (criterion_at_least Hmax n s1 Hl) as Q. exact Q.
Qed.

(* ---------------- legal precisions *)
Hypothesis Hmax : (LowestMultiplePrecision <= maximum_precision amp <= MaxPrecisionAllowed)%Z.
Hypothesis Hcodes : newton_codes_only correct.

Lemma higher_legal : forall p k, legal_precision p -> legal_precision (higher p k).
Proof.
  clear. intros p k H. unfold legal_precision, higher, DoublePrecision, LowestMultiplePrecision, PrecisionIncrement in *. right.
  destruct (Z.eqb_spec p 16) as [E|E]; [split; [lia|exists 2%Z; lia]|].
  destruct H as [H|[H [j Hj]]]; [contradiction|]. split; [lia|]. exists (j + 1 + Z.of_nat k)%Z. lia.
Qed.

Lemma rung_legal : forall p0 i, legal_precision p0 -> legal_precision (rung p0 i).
Proof. clear. intros p0 i H. induction i; [exact H|]. apply higher_legal. exact IHi. Qed.

Lemma tested_legal : forall a b p, (0 <= a)%Z -> (0 <= b)%Z -> In p (tested a b) -> legal_precision p.
Proof.
  clear. intros a b p Ha Hb I. apply in_tested in I; [|exact Ha|exact Hb].
  destruct I as [[-> _]|[[L _] K]]; [left; reflexivity|]. right. split; [|exact K].
  destruct (round_precision_spec a Ha) as [R _]. lia.
Qed.

Lemma raise_precision_legal : forall h t fuel p q, raise_precision fuel p h t = Some q ->
  legal_precision p -> legal_precision q.
Proof.
  clear. induction fuel as [|fuel IH]; intros p q E Hp; cbn in E; [discriminate|].
  destruct (Rlt_dec _ _); [|injection E as <-; exact Hp]. apply IH in E; [exact E|].
  pose proof (higher_legal p 0 Hp) as H. unfold higher in H. change (Z.of_nat 0) with 0%Z in H.
  replace ((1 + 0) * PrecisionIncrement)%Z with PrecisionIncrement in H by lia. exact H.
Qed.

(** The rule for the precision after a successful step. *)
Lemma adjust_precision : forall n s, legal_precision (prec s) ->
  exists p, prec (adjust_success cfg amp digits_B digits_C convert n s) = p /\
   legal_precision p /\
   (p < prec s -> (consecutive_before_decrease amp <= since_decr s)%nat /\ (ndecr s < max_num_decreases amp)%nat)%Z /\
   since_decr (adjust_success cfg amp digits_B digits_C convert n s) = (if (p <? prec s)%Z then 0%nat else S (since_decr s)) /\
   ndecr (adjust_success cfg amp digits_B digits_C convert n s) = (if (p <? prec s)%Z then S (ndecr s) else ndecr s).
Proof.
  intros n s Hl. unfold adjust_success. cbv zeta.
  match goal with |- context [minimize ?a ?b ?c ?d ?e ?f ?g] =>
    set (lo := e); set (hi := g); set (mx := d); destruct (minimize a b c mx lo f hi) as [p h] eqn:Em;
    pose proof (minimize_spec a b c mx lo f hi) as Ms end.
  assert (Hp16 : (DoublePrecision <= prec s)%Z).
  { unfold legal_precision, DoublePrecision, LowestMultiplePrecision in *. lia. }
  assert (Hlo : (0 <= lo)%Z) by (unfold lo; destruct (_ || _); unfold DoublePrecision; lia).
  assert (Hhi : (lo <= hi)%Z) by (unfold lo, hi; destruct (_ || _); lia).
  assert (Hp : In p (tested lo hi)).
  { destruct Ms as [[T _]|[q [Eq [I _]]]].
    - exfalso. exact (tested_nonempty lo hi ltac:(lia) T).
    - rewrite Eq in Em. injection Em as <- _. exact I. }
  exists p. unfold update, change_precision.
  match goal with |- context [set_step ?x h] => set (sx := x) end.
  assert (Fx : prec (set_step sx h) = prec s) by reflexivity. rewrite Fx.
  assert (Pe : prec (if (p =? prec s)%Z then set_step sx h else mkSt (time (set_step sx h)) (convert p (space (set_step sx h)))
            (step (set_step sx h)) (delta (set_step sx h)) (nsucc (set_step sx h)) (nfail (set_step sx h)) (csucc (set_step sx h))
            (cfail (set_step sx h)) (since_inc (set_step sx h)) p (since_decr (set_step sx h)) (ndecr (set_step sx h))) = p).
  { destruct (Z.eqb_spec p (prec s)); [rewrite Fx; congruence|reflexivity]. }
  split; [exact Pe|]. split; [apply (tested_legal lo hi); [exact Hlo|lia|exact Hp]|].
  split.
  - intro Lt.
    assert (B : ((since_decr s <? consecutive_before_decrease amp)%nat || (max_num_decreases amp <=? ndecr s)%nat) = false).
    { destruct ((since_decr s <? consecutive_before_decrease amp)%nat || (max_num_decreases amp <=? ndecr s)%nat) eqn:B;
        [|reflexivity]. exfalso.
      assert (Hm1 : (prec s <= lo)%Z) by (unfold lo; try rewrite B; cbv iota; lia).
      apply in_tested in Hp; [|exact Hlo|lia]. clearbody lo hi.
      unfold legal_precision, DoublePrecision, LowestMultiplePrecision, PrecisionIncrement in *.
      destruct Hp as [[-> Hp]|[[Hp _] _]]; [lia|].
      destruct (round_precision_spec lo ltac:(lia)) as [R1 [[k2 R3] R2]].
      unfold LowestMultiplePrecision, PrecisionIncrement in *.
      destruct Hl as [Hl|[Hl [k Hk]]]; [lia|]. specialize (R2 ltac:(lia)). lia. }
    apply orb_false_iff in B. destruct B as [B1 B2]. apply Nat.ltb_ge in B1. apply Nat.leb_gt in B2. split; assumption.
  - destruct (p =? prec s)%Z; split; reflexivity.
Qed.

Hypothesis Hm : 0 < min_step_size cfg.

(** One round: a step that fails does not lower the precision; one that succeeds lowers it only after enough others. *)
Lemma turn_precision : forall n a b, aturn n a = Go b -> legal_precision (prec a) ->
  (legal_precision (prec b) \/ (maximum_precision amp < prec b)%Z) /\
  (moved a b = false /\ dropped a b = false /\ since_decr b = 0%nat /\ ndecr b = ndecr a
   \/ moved a b = true /\ legal_precision (prec b) /\
      (dropped a b = true -> (consecutive_before_decrease amp <= since_decr a)%nat /\ (ndecr a < max_num_decreases amp)%nat) /\
      since_decr b = (if dropped a b then 0%nat else S (since_decr a)) /\
      ndecr b = (if dropped a b then S (ndecr a) else ndecr a)).
Proof.
  intros n a b E Hl.
  pose proof (turn_moved endt eps truncation going (amp_pre cfg amp) iterate amp_on_fail amp_iterate_counters
                (fun s => conj eq_refl eq_refl)
                (fun s (Hs : amp_pre cfg amp s = Success) => Rlt_le_trans _ _ _ Hm (proj1 (proj2 (amp_pre_success cfg amp s Hs))))
                n a b E) as M.
  unfold turn in E. destruct (close _ _ _); [discriminate|]. destruct (is_success (amp_pre cfg amp a)) eqn:Pr; [|discriminate].
  apply is_success_true in Pr. apply amp_pre_success in Pr. destruct Pr as [_ [_ Pp]].
  set (s1 := set_delta a (next_delta (time a) endt (step a))) in *.
  destruct (iterate n s1) as [[c s2]|] eqn:It; [|discriminate].
  destruct (truncation && going n (space s2)); [discriminate|].
  assert (K : counters s2 = counters a) by exact (proj2 (proj2 (amp_iterate_counters _ _ _ _ It))).
  destruct (amp_iterate_cases _ _ _ _ _ _ _ _ _ Hcodes _ _ _ _ It) as [[-> [x [y [_ Es]]]]|[Nc R]].
  - cbn [is_success] in E. injection E as <-.
    assert (Mt : moved a (on_success s2) = true).
    { destruct M as [[M _]|[_ M]]; [exact M|]. exfalso. unfold counters in M, K. cbn [on_success nsucc nfail csucc cfail] in M. injection M as M1 M2 M3 M4. discriminate. }
    destruct (adjust_precision n (set_space s1 x) Hl) as [p [Ep [Lp [Dp [Sp Np]]]]].
    rewrite <- Es in Ep, Sp, Np. change (prec (set_space s1 x)) with (prec a) in *.
    change (since_decr (set_space s1 x)) with (since_decr a) in *. change (ndecr (set_space s1 x)) with (ndecr a) in *.
    unfold dropped. change (prec (on_success s2)) with (prec s2). rewrite Ep. split; [left; exact Lp|].
    right. split; [exact Mt|]. split; [exact Lp|]. split; [|split; [exact Sp|exact Np]].
    intro D. apply Dp. apply Z.ltb_lt. exact D.
  - destruct (is_success c) eqn:Ic; [apply is_success_true in Ic; contradiction|]. injection E as <-.
    assert (Mf : moved a (amp_on_fail s2) = false).
    { destruct M as [[_ M]|[M _]]; [|exact M]. exfalso. unfold counters in M, K. cbn [amp_on_fail base_fail nsucc nfail csucc cfail] in M.
      injection M as M1 M2 M3 M4. injection K as K1 K2 K3 K4. lia. }
    assert (H16 : (DoublePrecision <= prec a)%Z) by (unfold legal_precision, DoublePrecision, LowestMultiplePrecision in *; lia).
    assert (Q : (prec a <= prec s2)%Z /\ (legal_precision (prec s2) \/ (maximum_precision amp < prec s2)%Z) /\ ndecr s2 = ndecr a).
    { assert (U : forall p h, ndecr (update convert s1 p h) = ndecr a /\ prec (update convert s1 p h) = p).
      { intros p h. split; [unfold update, change_precision; destruct (_ =? _)%Z; reflexivity|].
        apply (proj1 (proj2 (proj2 (proj2 (proj2 (proj2 (update_frame convert s1 p h))))))). }
      destruct R as [->|[R| ->]].
      - unfold initial_matrix_solve_error. destruct (U (higher (prec s1) (cfail s1)) (step s1)) as [U1 U2].
        unfold higher in U1, U2. rewrite U1, U2. fold (higher (prec s1) (cfail s1)). change (prec s1) with (prec a).
        pose proof (higher_legal (prec a) (cfail s1) Hl) as Hh.
        split; [|split; [left; exact Hh|reflexivity]].
        unfold higher, DoublePrecision, LowestMultiplePrecision, PrecisionIncrement in *. destruct (Z.eqb_spec (prec a) 16); lia.
      - unfold newton_convergence_error in R. cbv zeta in R. destruct (raise_precision _ _ _ _) as [q|] eqn:Er; [|discriminate].
        assert (Es : s2 = update convert s1 q (fail_factor cfg * step s1)) by congruence.
        destruct (U q (fail_factor cfg * step s1)) as [U1 U2]. rewrite Es, U1, U2.
        split; [|split; [left; exact (raise_precision_legal _ _ _ _ _ Er Hl)|reflexivity]].
        change (prec s1) with (prec a) in Er. clear - Er H16.
        revert Er H16. generalize (prec a).
        generalize (raise_fuel (fail_factor cfg * step s1) (togo endt s1)) as f.
        induction f as [|f IH]; intros p Er Hp; cbn in Er; [discriminate|].
        destruct (Rlt_dec _ _); [|injection Er as <-; lia].
        apply IH in Er; unfold DoublePrecision, LowestMultiplePrecision, PrecisionIncrement in *; destruct (Z.eqb_spec p 16); lia.
      - assert (Nd : ndecr (amp_criterion_error cfg amp endt digits_B digits_C digits_interval convert n s1) = ndecr a).
        { unfold amp_criterion_error. cbv zeta. destruct (Rlt_dec _ _); [apply U|]. destruct (minimize _ _ _ _ _ _ _). apply U. }
        pose proof (criterion_raises cfg amp endt digits_B digits_C digits_interval convert ltac:(lia)
                     ltac:(unfold LowestMultiplePrecision in *; lia) n s1 ltac:(change (prec s1) with (prec a); lia)) as Hr.
        change (prec s1) with (prec a) in Hr. split; [lia|]. split; [|exact Nd].
        unfold amp_criterion_error. cbv zeta. change (prec s1) with (prec a).
        fold (higher (prec a) (cfail s1)). pose proof (higher_legal (prec a) (cfail s1) Hl) as Hh.
        destruct (Rlt_dec _ _).
        + left. rewrite (proj2 (U _ _)). exact Hh.
        + match goal with |- context [minimize ?a ?b ?c ?d ?e ?f ?g] =>
            destruct (minimize_spec a b c d e f g) as [[_ ->]|[p [-> [I _]]]] end; rewrite (proj2 (U _ _)).
          * right. lia.
          * left. apply (tested_legal _ _ _) in I; [exact I| |unfold LowestMultiplePrecision in *; lia].
            unfold legal_precision, DoublePrecision, LowestMultiplePrecision in *. lia. }
    destruct Q as [Q1 [Q2 Q3]]. change (prec (amp_on_fail s2)) with (prec s2). split; [exact Q2|]. left. split; [exact Mf|].
    split; [unfold dropped; change (prec (amp_on_fail s2)) with (prec s2); apply Z.ltb_ge; exact Q1|]. split; [reflexivity|exact Q3].
Qed.

Definition drop_inv (l : list (st P)) : Prop :=
  match l with
  | [] => True
  | s :: _ => (legal_precision (prec s) \/ (maximum_precision amp < prec s)%Z) /\ steady (since_decr s) l
              /\ ndecr s = drops l /\ (drops l <= max_num_decreases amp)%nat
  end.

Lemma drop_inv_step : forall h s s', drop_inv (s :: h) -> aturn (length h) s = Go s' -> drop_inv (s' :: s :: h).
Proof.
  intros h s s' [H1 [H2 [H3 H4]]] E.
  assert (Hl : legal_precision (prec s)).
  { destruct H1 as [H1|H1]; [exact H1|]. exfalso. unfold turn in E. destruct (close _ _ _); [discriminate|].
    destruct (is_success (amp_pre cfg amp s)) eqn:Pr; [|discriminate]. apply is_success_true in Pr.
    apply amp_pre_success in Pr. lia. }
  destruct (turn_precision _ _ _ E Hl) as [L [[M [D [Sd Nd]]]|[M [_ [Dp [Sd Nd]]]]]]; unfold drop_inv.
  - split; [exact L|]. rewrite Sd, Nd. split; [exact I|]. cbn [drops]. rewrite D. cbn [Nat.add]. split; [exact H3|exact H4].
  - split; [exact L|]. rewrite Sd, Nd. cbn [drops]. destruct (dropped s s') eqn:D; cbn [Nat.add].
    + split; [exact I|]. destruct (Dp eq_refl) as [_ X]. change (drops (s :: h)) with (drops (s :: h)) in *.
      split; [f_equal; exact H3|]. rewrite H3 in X. exact X.
    + split; [cbn [steady]; rewrite D; auto|]. split; [exact H3|exact H4].
Qed.

Lemma steady_less : forall (l : list (st P)) k j, (j <= k)%nat -> steady k l -> steady j l.
Proof.
  clear. intro l. induction l as [|b l IH]; intros k j Hj H.
  - destruct k; [|destruct H]. replace j with 0%nat by lia. exact I.
  - destruct j; [exact I|]. destruct k; [lia|]. cbn [steady] in *. destruct l as [|a l]; [exact H|].
    destruct H as [H1 [H2 H3]]. split; [exact H1|]. split; [exact H2|]. apply IH with k; [lia|exact H3].
Qed.

Lemma track_drop_inv : forall fuel re h p0 start x0 before s after, legal_precision p0 ->
  fst (track fuel re h p0 start x0) = before ++ s :: after -> drop_inv (s :: rev before).
Proof.
  intros fuel re h p0 start x0 before s after Hl E.
  assert (H16 : (DoublePrecision <= p0)%Z) by (unfold legal_precision, DoublePrecision, LowestMultiplePrecision in *; lia).
  destruct (track_run fuel re h p0 start x0 before s after H16 E) as [s0 [E0 [_ [F1 [F2 [m F3]]]]]].
  pose proof (run_history endt eps truncation going (amp_pre cfg amp) iterate amp_on_fail drop_inv drop_inv_step fuel s0 []) as H.
  cbn [length] in H.
  specialize (H ltac:(unfold drop_inv; rewrite F1, F2, F3; split; [left; apply rung_legal; exact Hl|]; cbn; repeat split; lia) _ _ _ E0).
  rewrite app_nil_r in H. exact H.
Qed.

(** Precision is lowered only after enough steps in a row succeeded at that precision or a lower one, and at most as
    often as allowed. *)
Lemma track_drops : forall fuel re h p0 start x0 before a b after, legal_precision p0 ->
  fst (track fuel re h p0 start x0) = before ++ a :: b :: after ->
  (drops (b :: a :: rev before) <= max_num_decreases amp)%nat /\
  ((prec b < prec a)%Z -> moved a b = true /\ steady (consecutive_before_decrease amp) (a :: rev before)).
Proof.
  intros fuel re h p0 start x0 before a b after Hl E.
  pose proof (track_drop_inv fuel re h p0 start x0 before a (b :: after) Hl E) as Ia.
  assert (E' : fst (track fuel re h p0 start x0) = (before ++ [a]) ++ b :: after) by (rewrite <- app_assoc; exact E).
  pose proof (track_drop_inv fuel re h p0 start x0 (before ++ [a]) b after Hl E') as Ib.
  rewrite rev_app_distr in Ib. cbn [rev app] in Ib. destruct Ib as [_ [_ [_ Ib]]]. split; [exact Ib|].
  intro Lt. assert (H16 : (DoublePrecision <= p0)%Z) by (unfold legal_precision, DoublePrecision, LowestMultiplePrecision in *; lia).
  destruct (track_run fuel re h p0 start x0 before a (b :: after) H16 E) as [s0 [E0 _]].
  apply run_pair in E0. cbn [Nat.add] in E0. destruct Ia as [I1 [I2 _]].
  assert (La : legal_precision (prec a)).
  { destruct I1 as [I1|I1]; [exact I1|]. exfalso. unfold turn in E0. destruct (close _ _ _); [discriminate|].
    destruct (is_success (amp_pre cfg amp a)) eqn:Pr; [|discriminate]. apply is_success_true in Pr.
    apply amp_pre_success in Pr. lia. }
  destruct (turn_precision _ _ _ E0 La) as [_ [[_ [D _]]|[M [_ [Dp _]]]]].
  - unfold dropped in D. apply Z.ltb_ge in D. lia.
  - split; [exact M|]. apply steady_less with (since_decr a); [|exact I2]. apply Dp. unfold dropped. apply Z.ltb_lt. exact Lt.
Qed.

(** The two failures that call for more digits, in a run. *)
Lemma track_first_solve : forall fuel re h p0 start x0 before a b after y, (DoublePrecision <= p0)%Z ->
  fst (track fuel re h p0 start x0) = before ++ a :: b :: after ->
  predict (length before) (space a) (time a) (next_delta (time a) endt (step a)) = (MatrixSolveFailureFirstPartOfPrediction, y) ->
  prec b = higher (prec a) (streak false (verdicts (a :: rev before))) /\ step b = step a.
Proof.
  intros fuel re h p0 start x0 before a b after y H0 E Ep.
  destruct (amp_counted Hm fuel re h p0 start x0 before a (b :: after) H0 E) as [_ [_ [_ K]]]. rewrite <- K.
  destruct (track_run fuel re h p0 start x0 before a (b :: after) H0 E) as [s0 [E0 _]]. apply run_pair in E0.
  exact (turn_first_solve _ _ _ _ E0 Ep).
Qed.

Lemma track_criterion : forall fuel re h p0 start x0 before a b after y, legal_precision p0 ->
  fst (track fuel re h p0 start x0) = before ++ a :: b :: after ->
  (predict (length before) (space a) (time a) (next_delta (time a) endt (step a)) = (HigherPrecisionNecessary, y) \/
   exists z, predict (length before) (space a) (time a) (next_delta (time a) endt (step a)) = (Success, z) /\
             correct (length before) z (time a + next_delta (time a) endt (step a))%C = (HigherPrecisionNecessary, y)) ->
  (higher (prec a) (streak false (verdicts (a :: rev before))) <= prec b)%Z \/ (maximum_precision amp < prec b)%Z.
Proof.
  intros fuel re h p0 start x0 before a b after y Hl E Ep.
  assert (H16 : (DoublePrecision <= p0)%Z) by (unfold legal_precision, DoublePrecision, LowestMultiplePrecision in *; lia).
  destruct (amp_counted Hm fuel re h p0 start x0 before a (b :: after) H16 E) as [_ [_ [_ K]]]. rewrite <- K.
  destruct (track_run fuel re h p0 start x0 before a (b :: after) H16 E) as [s0 [E0 _]]. apply run_pair in E0.
  destruct (track_drop_inv fuel re h p0 start x0 before a (b :: after) Hl E) as [I1 _].
  assert (La : legal_precision (prec a)).
  { destruct I1 as [I1|I1]; [exact I1|]. exfalso. unfold turn in E0. destruct (close _ _ _); [discriminate|].
    destruct (is_success (amp_pre cfg amp a)) eqn:Pr; [|discriminate]. apply is_success_true in Pr.
    apply amp_pre_success in Pr. lia. }
  exact (turn_criterion ltac:(unfold LowestMultiplePrecision in *; lia) _ _ _ _ E0 La Ep).
Qed.
End Amp.
