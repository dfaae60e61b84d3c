(** Proofs about EgEvents.v. *)
From Coq Require Import List ZArith Lia Reals Bool Arith.
From Coquelicot Require Import Complex.
From Verif Require Import Base ComplexField Newton Endgame EgEvents.
Import ListNotations.
Local Open Scope R_scope.

Lemma is_success_eq : forall c, is_success c = true <-> c = Success.
Proof. intros []; cbn; split; congruence. Qed.

Lemma told_app : forall e l l', told e (l ++ l') = told e l ++ told e l'.
Proof. intros. unfold told. rewrite filter_app, map_app. reflexivity. Qed.

Section P.
Variable cfg : config.
Variable target : C.
Variable track : nat -> C -> C -> vec -> code * vec.
Variable refine : nat -> vec -> C -> code * vec.
Variable dehom : vec -> vec.
Variable extrapolate : nat -> list C -> list vec -> vec.
Notation loop := (emit_ps_loop cfg target track refine dehom extrapolate).
Notation emit := (emit_ps_run cfg target track refine dehom extrapolate).
Notation advance := (ps_advance cfg target track refine).
Notation approx := (ps_approximation refine extrapolate).

Lemma loop_same : forall fuel err prev s,
  snd (loop fuel err prev s) = ps_loop cfg target track refine dehom extrapolate fuel err prev s.
Proof.
  induction fuel; intros; cbn [emit_ps_loop ps_loop]; destruct (lt_b _ err); try reflexivity.
  unfold when_ok, bind. destruct (advance s) as [[c s1]| | | |]; try reflexivity. cbn [fst snd].
  destruct (is_success c); [|reflexivity].
  destruct (Z.leb _ _ && _); [reflexivity|].
  rewrite <- IHfuel. destruct (loop _ _ _ _); reflexivity.
Qed.

Theorem run_same : forall old fuel start x,
  snd (emit old fuel start x) = ps_run cfg target track refine dehom extrapolate fuel start x.
Proof.
  intros. unfold emit_ps_run, ps_run, when_ok, bind.
  destruct (initial_samples _ _ _ _ _ _) as [[c s1]| | | |]; try reflexivity. cbn [fst snd].
  destruct (is_success c); [|reflexivity].
  rewrite <- loop_same. destruct (loop _ _ _ _); reflexivity.
Qed.

Lemma refine_all_only : forall fin ts xs k,
  Forall (fun q => q = (ESampleRefined, fin)) (emit_refine_all refine fin k xs ts).
Proof.
  induction ts; intros [|x xs] k; cbn; try constructor.
  destruct (is_success _); constructor; auto.
Qed.

Lemma refine_all_neutral : forall fin ts xs k, Forall neutral (emit_refine_all refine fin k xs ts).
Proof.
  intros. eapply Forall_impl; [|apply refine_all_only]. intros q ->. split; cbn; [tauto|discriminate].
Qed.

Lemma refine_all_told : forall e fin ts xs k, e <> ESampleRefined -> told e (emit_refine_all refine fin k xs ts) = [].
Proof.
  intros e fin ts xs k He. pose proof (refine_all_only fin ts xs k) as H.
  induction H as [|q l -> _ IH]; [reflexivity|]. unfold told in *; cbn [filter fst].
  destruct e; cbn [same_event]; solve [exact IH | exfalso; apply He; reflexivity].
Qed.

Lemma advance_spec : forall fin s c s1, advance s = Ok (c, s1) ->
  hist s1 = hist s /\
  (c = Success -> emit_advance cfg target track refine fin s = [(EInEGOperatingZone, fin); (ESampleRefined, fin)]
     /\ ntrack s1 = S (ntrack s) /\ nrefine s1 = S (nrefine s)) /\
  (c <> Success ->
     emit_advance cfg target track refine fin s = [(EMinTrackTimeReached, fin)] /\ c = MinTrackTimeReached /\ s1 = s \/
     emit_advance cfg target track refine fin s = [] \/
     emit_advance cfg target track refine fin s = [(EInEGOperatingZone, fin); (ERefiningFailed, fin)]).
Proof.
  intros fin s c s1. unfold ps_advance, emit_advance.
  destruct (back (ps_t s)) as [t|], (back (ps_x s)) as [x|]; try discriminate.
  destruct (lt_b _ _).
  { intros H; inversion H; subst. repeat split; try congruence. intros; left; auto. }
  cbn zeta. set (r := track _ _ _ _).
  destruct (is_success (fst r)) eqn:Er.
  - set (q := refine _ _ _). destruct (is_success (fst q)) eqn:Eq; intros H; inversion H; subst; clear H.
    + repeat split; intros; congruence.
    + split; [reflexivity|]. split; [intros E; apply is_success_eq in E; congruence|]. intros; right; right; reflexivity.
  - intros H; inversion H; subst; clear H. split; [reflexivity|].
    split; [intros E; apply is_success_eq in E; congruence|]. intros; right; left; reflexivity.
Qed.

Definition loop_good (h : list vec) (l : list eg_note) (o : out (code * est)) : Prop :=
  match o with
  | Ok (c, s') =>
      hist s' = h ++ told EApproximatedRoot l /\
      exists body e, l = body ++ [(e, last (hist s') [])] /\
        (c = Success -> e = EConverged /\ Forall neutral body) /\
        (c <> Success -> tells_failure e /\ Forall (fun q => fst q <> EConverged) body) /\
        (told EMinTrackTimeReached l <> [] -> c = MinTrackTimeReached) /\
        (told ESecurityMaxNormReached l <> [] -> c = SecurityMaxNormReached)
  | More s' => hist s' = h ++ told EApproximatedRoot l /\ Forall neutral l
  | _ => True
  end.

Lemma neutral_told : forall l e, Forall neutral l -> tells_failure e -> told e l = [].
Proof.
  induction 1 as [|[e' v] l [H H0] _ IH]; intros He; [reflexivity|].
  unfold told in *. cbn [filter fst] in *. destruct e, e'; cbn in *; tauto.
Qed.

Lemma neutral_nc : forall l, Forall neutral l -> Forall (fun q : eg_note => fst q <> EConverged) l.
Proof. intros l H. eapply Forall_impl; [|exact H]. intros q [_ ?]; assumption. Qed.

Lemma loop_spec : forall fuel err prev s h, hist s = h ++ [prev] ->
  loop_good (hist s) (fst (loop fuel err prev s)) (snd (loop fuel err prev s)).
Proof.
  assert (Hc : forall prev s h, hist s = h ++ [prev] ->
             loop_good (hist s) [(EConverged, prev)] (Ok (Success, s))).
  { intros prev s h H. cbn. rewrite app_nil_r. split; [reflexivity|]. exists [], EConverged.
    rewrite H, last_last. repeat split; try congruence; try constructor; cbn; congruence. }
  induction fuel; intros err prev s h Hh; cbn [emit_ps_loop]; destruct (lt_b _ err); cbn [fst snd]; eauto.
  { cbn. rewrite app_nil_r. auto. }
  destruct (advance s) as [[c s1]| | | |] eqn:Ea; cbn [fst snd]; try exact I.
  2:{ unfold ps_advance in Ea. destruct (back (ps_t s)), (back (ps_x s)); try discriminate.
      destruct (lt_b _ _); try discriminate. cbn zeta in Ea. destruct (is_success _); [|discriminate].
      destruct (is_success _); discriminate. }
  destruct (advance_spec prev s c s1 Ea) as (H1 & H2 & H3).
  destruct (is_success c) eqn:Es.
  - apply is_success_eq in Es. destruct (H2 Es) as (E & _ & _). rewrite E. cbn zeta.
    set (re := emit_refine_all _ _ _ _ _). set (a := approx s1).
    assert (Ha : hist (snd a) = hist s ++ [fst a]) by (unfold a, ps_approximation; cbn; rewrite H1; reflexivity).
    match goal with |- context [?X ++ [(ESecurityMaxNormReached, _)]] => set (l1 := X) end.
    assert (N : Forall neutral l1).
    { unfold l1. rewrite !Forall_app. repeat split; repeat apply Forall_cons; try apply Forall_nil;
        try apply refine_all_neutral; split; cbn; try tauto; discriminate. }
    assert (T : told EApproximatedRoot l1 = [fst a]).
    { unfold l1. rewrite !told_app. unfold re. rewrite refine_all_told by discriminate. reflexivity. }
    clearbody l1. destruct (Z.leb _ _ && _); cbn [fst snd].
    + cbn [loop_good]. rewrite told_app, T, Ha. cbn [told app filter map same_event fst snd]. split; [reflexivity|].
      exists l1, ESecurityMaxNormReached. rewrite last_last. repeat split; try congruence; cbn.
      * apply neutral_nc, N.
      * rewrite told_app, (neutral_told l1) by (auto; exact I). cbn. congruence.
    + specialize (IHfuel (dist (fst a) prev) (fst a) (snd a) (hist s) Ha).
      destruct (loop fuel _ _ _) as [l2 o]. cbn [fst snd] in *. unfold loop_good in *.
      destruct o as [[c' s']| | | |s']; auto.
      * destruct IHfuel as (G1 & body & e & -> & G2 & G3 & G4 & G5). rewrite told_app, T.
        split. { eapply eq_trans; [exact G1|]. rewrite Ha, <- app_assoc. reflexivity. }
        exists (l1 ++ body), e. rewrite app_assoc. split; [reflexivity|]. split; [|split; [|split]].
        -- intros X; destruct (G2 X). split; auto. apply Forall_app; auto.
        -- intros X; destruct (G3 X). split; auto. apply Forall_app; auto using neutral_nc.
        -- rewrite <- app_assoc, told_app, (neutral_told l1) by (auto; exact I). exact G4.
        -- rewrite <- app_assoc, told_app, (neutral_told l1) by (auto; exact I). exact G5.
      * destruct IHfuel as (G1 & G2). rewrite told_app, T, G1, Ha, <- app_assoc. split; [reflexivity|].
        apply Forall_app; auto.
  - assert (Hn : c <> Success) by (intros ->; discriminate).
    cbn [fst snd loop_good]. rewrite H1.
    destruct (H3 Hn) as [(-> & -> & _)|[-> | ->]]; (split; [cbn; rewrite app_nil_r; reflexivity|]).
    + exists [(EMinTrackTimeReached, prev)], EEndgameFailure. rewrite Hh, last_last.
      repeat split; try congruence; try (repeat apply Forall_cons; try apply Forall_nil; discriminate); cbn; congruence.
    + exists [], EEndgameFailure. rewrite Hh, last_last.
      repeat split; try congruence; try (repeat apply Forall_cons; try apply Forall_nil; discriminate); cbn; congruence.
    + exists [(EInEGOperatingZone, prev); (ERefiningFailed, prev)], EEndgameFailure. rewrite Hh, last_last.
      repeat split; try congruence; try (repeat apply Forall_cons; try apply Forall_nil; discriminate); cbn; congruence.
Qed.

Lemma initial_loop_hist : forall k s c s', initial_loop cfg target track k s = Ok (c, s') ->
  hist s' = hist s /\ nrefine s' = nrefine s /\
  (c = Success -> ntrack s' = (k + ntrack s)%nat).
Proof.
  induction k; intros s c s' H; cbn [initial_loop] in H.
  { inversion H; auto. }
  destruct (back (ps_t s)), (back (ps_x s)); try discriminate. cbn zeta in H.
  set (r := track _ _ _ _) in *. destruct (is_success (fst r)) eqn:E.
  - destruct (IHk _ _ _ H) as (A & B & D). repeat split; auto. intros X. rewrite (D X). cbn. lia.
  - inversion H; subst. repeat split; auto. intros X. apply is_success_eq in X. congruence.
Qed.

Lemma initial_loop_ends : forall k s s', initial_loop cfg target track k s <> More s'.
Proof.
  induction k; intros s s' H; cbn [initial_loop] in H; [discriminate|].
  destruct (back (ps_t s)), (back (ps_x s)); try discriminate. cbn zeta in H.
  destruct (is_success _); [exact (IHk _ _ H)|discriminate].
Qed.

Theorem run_good : forall old fuel start x,
  let l := fst (emit old fuel start x) in
  match snd (emit old fuel start x) with
  | Ok (c, s) =>
      told EApproximatedRoot l = tl (hist s) /\
      exists body e, l = body ++ [(e, last (hist s) old)] /\
        (c = Success -> e = EConverged /\ Forall neutral body) /\
        (c <> Success -> tells_failure e /\ Forall (fun q => fst q <> EConverged) body) /\
        (told EMinTrackTimeReached l <> [] -> c = MinTrackTimeReached) /\
        (told ESecurityMaxNormReached l <> [] -> c = SecurityMaxNormReached)
  | More s => told EApproximatedRoot l = tl (hist s) /\ Forall neutral l
  | _ => True
  end.
Proof.
  intros. subst l. unfold emit_ps_run, initial_samples.
  destruct (initial_loop _ _ _ _ _) as [[c s1]| | | |s1] eqn:Ei; try exact I.
  2:{ exfalso. exact (initial_loop_ends _ _ _ Ei). }
  destruct (initial_loop_hist _ _ _ _ Ei) as (H1 & _ & _). cbn in H1.
  destruct (is_success c) eqn:Es.
  - cbn zeta. set (a := approx s1).
    assert (Ha : hist (snd a) = [] ++ [fst a]) by (unfold a, ps_approximation; cbn; rewrite H1; reflexivity).
    pose proof (loop_spec fuel 1 (fst a) (snd a) [] Ha) as G.
    destruct (loop fuel _ _ _) as [l2 o]. cbn [fst snd] in *.
    pose proof (refine_all_neutral old (ps_t s1) (ps_x s1) (nrefine s1)) as N.
    pose proof (refine_all_told EApproximatedRoot old (ps_t s1) (ps_x s1) (nrefine s1) ltac:(discriminate)) as T.
    set (re := emit_refine_all _ _ _ _ _) in *. clearbody re.
    unfold loop_good in G. rewrite Ha in G.
    destruct o as [[c' s']| | | |s']; auto.
    + destruct G as (G1 & body & e & E & G2 & G3 & G4 & G5). rewrite told_app, T, G1.
      split; [reflexivity|]. exists (re ++ body), e.
      assert (L : last (([] ++ [fst a]) ++ told EApproximatedRoot l2) old = last (hist s') []).
      { rewrite G1. cbn [app]. generalize (fst a). generalize (told EApproximatedRoot l2).
        induction l; intros v; [reflexivity|]. exact (IHl a0). }
      rewrite L. split; [rewrite E at 1; apply app_assoc|]. split; [|split; [|split]].
      * intros X; destruct (G2 X). split; auto. apply Forall_app; auto.
      * intros X; destruct (G3 X). split; auto. apply Forall_app; auto using neutral_nc.
      * rewrite told_app, (neutral_told re) by (auto; exact I). exact G4.
      * rewrite told_app, (neutral_told re) by (auto; exact I). exact G5.
    + destruct G as (G1 & G2). rewrite told_app, T, G1. split; [reflexivity|]. apply Forall_app; auto.
  - cbn [fst snd]. rewrite H1. split; [reflexivity|]. exists [], EEndgameFailure.
    assert (c <> Success) by (intros ->; discriminate).
    repeat split; try congruence; try apply Forall_nil; cbn; congruence.
Qed.

(** Counting, when tracking and refining always succeed. *)
Hypothesis Ht : forall k t t' y, fst (track k t t' y) = Success.
Hypothesis Hr : forall k y t, fst (refine k y t) = Success.

Lemma refine_all_count : forall fin ts xs k,
  length (told ESampleRefined (emit_refine_all refine fin k xs ts)) = snd (refine_all refine k xs ts).
Proof.
  induction ts; intros [|x xs] k; try reflexivity. cbn [emit_refine_all refine_all].
  rewrite Hr. cbn. f_equal. apply IHts.
Qed.

Lemma loop_count : forall fuel err prev s,
  let l := fst (loop fuel err prev s) in
  match snd (loop fuel err prev s) with
  | Ok (_, s') | More s' =>
      ntrack s' = (length (told EInEGOperatingZone l) + ntrack s)%nat /\
      nrefine s' = (length (told ESampleRefined l) + nrefine s)%nat
  | _ => True
  end.
Proof.
  induction fuel; intros; subst l; cbn [emit_ps_loop]; destruct (lt_b _ err); try (split; reflexivity).
  destruct (advance s) as [[c s1]| | | |] eqn:Ea; try exact I.
  2:{ unfold ps_advance in Ea. destruct (back (ps_t s)), (back (ps_x s)); try discriminate.
      destruct (lt_b _ _); try discriminate. cbn zeta in Ea. rewrite Ht, Hr in Ea. discriminate. }
  destruct (advance_spec prev s c s1 Ea) as (H1 & H2 & H3).
  destruct (is_success c) eqn:Es.
  - apply is_success_eq in Es. destruct (H2 Es) as (E & Nt & Nr). rewrite E. cbn zeta.
    pose proof (refine_all_count prev (ps_t s1) (ps_x s1) (nrefine s1)) as Q.
    pose proof (refine_all_told EInEGOperatingZone prev (ps_t s1) (ps_x s1) (nrefine s1) ltac:(discriminate)) as T.
    set (a := approx s1).
    assert (At : ntrack (snd a) = ntrack s1) by reflexivity.
    assert (Ar : nrefine (snd a) = (snd (refine_all refine (nrefine s1) (ps_x s1) (ps_t s1)) + nrefine s1)%nat) by reflexivity.
    set (re := emit_refine_all _ _ _ _ _) in *. clearbody re a.
    destruct (Z.leb _ _ && _).
    + cbn [fst snd]. rewrite !told_app, !app_length, T, Q. cbn. lia.
    + specialize (IHfuel (dist (fst a) prev) (fst a) (snd a)). cbv zeta in IHfuel.
      destruct (loop fuel _ _ _) as [l2 o]. cbn [fst snd] in *.
      destruct o as [[c' s']| | | |s']; auto; rewrite !told_app, !app_length, T, Q; cbn; lia.
  - assert (Hn : c <> Success) by (intros ->; discriminate).
    unfold ps_advance in Ea. unfold emit_advance.
    destruct (back (ps_t s)), (back (ps_x s)); try discriminate.
    destruct (lt_b _ _); cbn zeta in Ea.
    + inversion Ea; subst. cbn. lia.
    + rewrite Ht, Hr in Ea. inversion Ea; subst. congruence.
Qed.

Theorem run_count : forall old fuel start x,
  let l := fst (emit old fuel start x) in
  match snd (emit old fuel start x) with
  | Ok (_, s) | More s =>
      ntrack s = (length (told EInEGOperatingZone l) + (num_sample_points cfg - 1))%nat /\
      nrefine s = length (told ESampleRefined l)
  | _ => True
  end.
Proof.
  intros. subst l. unfold emit_ps_run, initial_samples.
  destruct (initial_loop _ _ _ _ _) as [[c s1]| | | |s1] eqn:Ei; try exact I.
  2:{ exfalso. exact (initial_loop_ends _ _ _ Ei). }
  destruct (initial_loop_hist _ _ _ _ Ei) as (_ & H1 & H2). cbn in H1, H2.
  assert (Hs : c = Success).
  { revert Ei. generalize (with_ps empty [start] [x]). generalize (num_sample_points cfg - 1)%nat.
    induction n; intros e H; cbn [initial_loop] in H; [congruence|].
    destruct (back (ps_t e)), (back (ps_x e)); try discriminate. cbn zeta in H. rewrite Ht in H. exact (IHn _ H). }
  subst c. cbn [is_success]. cbn zeta.
  pose proof (refine_all_count old (ps_t s1) (ps_x s1) (nrefine s1)) as Q.
  pose proof (refine_all_told EInEGOperatingZone old (ps_t s1) (ps_x s1) (nrefine s1) ltac:(discriminate)) as T.
  set (a := approx s1).
  assert (At : ntrack (snd a) = ntrack s1) by reflexivity.
  assert (Ar : nrefine (snd a) = (snd (refine_all refine (nrefine s1) (ps_x s1) (ps_t s1)) + nrefine s1)%nat) by reflexivity.
  set (re := emit_refine_all _ _ _ _ _) in *. clearbody re a.
  pose proof (loop_count fuel 1 (fst a) (snd a)) as G. cbv zeta in G. specialize (H2 eq_refl).
  destruct (loop fuel _ _ _) as [l2 o]. cbn [fst snd] in *.
  destruct o as [[c' s']| | | |s']; auto; rewrite !told_app, !app_length, T, Q; cbn; lia.
Qed.
End P.
