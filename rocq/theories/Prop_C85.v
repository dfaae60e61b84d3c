(** C85: refining the samples of an endgame.

    [newton p t x] is what Newton's method gives in p digits at time t from the point x: a code and a point; it is arbitrary.
    [refine_sample same w x t] is RefineSample of an endgame with the adaptive precision tracker, where [w] holds the default
    precision, that of the tracker and that of the system; [same] tells whether the result is written over the sample.
    [None] is a failed assertion.  The parameters of all functions are the types of points and of times, the rounding of both
    to fewer digits, and [newton]. *)
From Coq Require Import List Arith Lia Reals Bool.
From Coquelicot Require Import Complex.
From Verif Require Import Base Newton Endgame EndgameEx EgRefine EgRefineEx.
Import ListNotations.

(** With the adaptive precision tracker, success is reported only if Newton's method converged to the result, in the digits
    of the sample or in the next higher number of digits.  Default, tracker, system and result then have the same precision.
    Whatever the code, there are one or two attempts: a second one, with more digits, exactly if the first asked for more
    digits or did not converge, and then observers are told. *)
Theorem C85_sample : forall X T rx rt newton same w x t c y w',
  settled w -> refine_sample X T rx rt newton same w x t = Some (c, y, w') ->
  (c = Success -> exists z, newton (vp X y) (tm T t) z = (Success, pt X y)) /\
  dflt w' = vp X y /\ trk w' = vp X y /\ sysp w' = vp X y /\
  let first := fst (newton (tp T t) (tm T t) (pt X x)) in
  (first <> HigherPrecisionNecessary /\ first <> FailedToConverge /\ vp X y = tp T t /\ c = first /\ events w' = events w \/
   (first = HigherPrecisionNecessary \/ first = FailedToConverge) /\ vp X y = Nat.max (tp T t) 20 + 10 /\
     events w' = (tp T t, Nat.max (tp T t) 20 + 10) :: events w).
Proof.
  intros X T rx rt newton same w x t c y w' S H.
  destruct (refine_sample_spec X T rx rt newton same w x t c y w' S H) as (E & (S1 & S2) & K & c1 & y1 & N & D).
  rewrite N. cbn [fst]. split; [|split; [congruence|split; [exact K|split; [congruence|]]]].
  - intros ->. destruct D as [(A1 & A2 & A3 & A4 & _)|(A1 & A2 & A3 & _)].
    + exists (pt X x). congruence.
    + exists (if same then y1 else pt X x). congruence.
  - destruct D as [(A1 & A2 & A3 & A4 & A5)|(A1 & A2 & A3 & A5)]; [left|right].
    + repeat split; auto; intros ->; discriminate.
    + split; [destruct c1; try discriminate; auto|]. split; [exact A2|exact A5].
Qed.
Print Assumptions C85_sample.

(** It is defined when the sample and its time have the same precision and ten more digits are allowed. *)
Theorem C85_defined_partial : forall X T rx rt newton same w x t,
  settled w -> vp X x = tp T t -> tp T t <= 990 -> exists r, refine_sample X T rx rt newton same w x t = Some r.
Proof.
  intros X T rx rt newton same w x t S E L. apply refine_sample_ok; [exact S|exact E|].
  unfold more_digits, lowest_multiple, increment, most_allowed. lia.
Qed.
Print Assumptions C85_defined_partial.

(** Otherwise the program stops at an assertion, instead of reporting that refining failed. *)
Theorem C85_defined_refuted : forall X T rx rt newton same w x t, settled w -> vp X x = tp T t -> 990 < tp T t <= 1000 ->
  fst (newton (tp T t) (tm T t) (pt X x)) = FailedToConverge -> refine_sample X T rx rt newton same w x t = None.
Proof.
  intros X T rx rt newton same w x t S E L N. destruct (newton (tp T t) (tm T t) (pt X x)) as [c1 y1] eqn:H. cbn in N. subst c1.
  eapply refine_sample_limit; eauto; [unfold most_allowed; lia|unfold more_digits, lowest_multiple, increment, most_allowed; lia].
Qed.
Print Assumptions C85_defined_refuted.

(** The maximum precision set for the tracker is not respected: whatever it is, a sample of that precision is refined in more
    digits. *)
Theorem C85_maximum_refuted : forall X T rx rt newton same w x t (maximum : nat), settled w -> vp X x = maximum -> tp T t = maximum ->
  maximum <= 990 -> fst (newton maximum (tm T t) (pt X x)) = FailedToConverge ->
  exists c y w', refine_sample X T rx rt newton same w x t = Some (c, y, w') /\ maximum < vp X y.
Proof.
  intros X T rx rt newton same w x t m S E1 E2 L N.
  destruct (C85_defined_partial X T rx rt newton same w x t S) as [[[c y] w'] H]; [congruence|lia|].
  exists c, y, w'. split; [exact H|]. destruct (C85_sample X T rx rt newton same w x t c y w' S H) as (_ & _ & _ & _ & D).
  rewrite E2, N in D. destruct D as [(_ & D & _)|(_ & D & _)]; [congruence|lia].
Qed.
Print Assumptions C85_maximum_refuted.

(** If result and sample are different objects, the second attempt is made from the sample with more digits: *)
Theorem C85_retry_partial : forall X T rx rt newton w x t c y w', settled w ->
  refine_sample X T rx rt newton false w x t = Some (c, y, w') ->
  (c = Success <->
    fst (newton (tp T t) (tm T t) (pt X x)) = Success \/
    ((fst (newton (tp T t) (tm T t) (pt X x)) = HigherPrecisionNecessary \/ fst (newton (tp T t) (tm T t) (pt X x)) = FailedToConverge) /\
     fst (newton (Nat.max (tp T t) 20 + 10) (tm T t) (pt X x)) = Success)) /\
  (c = Success -> newton (vp X y) (tm T t) (pt X x) = (Success, pt X y)).
Proof.
  intros X T rx rt newton w x t c y w' S H.
  destruct (refine_sample_spec X T rx rt newton false w x t c y w' S H) as (E & _ & K & c1 & y1 & N & D).
  rewrite N. cbn [fst]. unfold more_digits, lowest_multiple, increment in D.
  destruct D as [(A1 & A2 & A3 & A4 & A5)|(A1 & A2 & A3 & A5)].
  - split; [|intros ->; congruence]. split; [intros ->; left; congruence|].
    intros [X0|[[X0|X0] _]]; [congruence| |]; rewrite X0 in A1; cbn in A1; discriminate A1.
  - cbn in A3. rewrite A3. cbn [fst]. split; [|intros ->; rewrite A2; exact A3]. split.
    + intros ->. right. split; [destruct c1; try discriminate; auto|reflexivity].
    + intros [X0|[_ X0]]; [rewrite X0 in A1; cbn in A1; discriminate A1|exact X0].
Qed.
Print Assumptions C85_retry_partial.

(** but RefineAllSamples writes the result over the sample, so that the second attempt is made from where the first one has
    failed.  Refining then fails for a sample from which Newton's method converges with more digits. *)
Theorem C85_retry_refuted : exists newton : nat -> unit -> nat -> code * nat,
  let x := mkVec nat 0 30 in let t := mkTime unit tt 30 in let w := mkWorld 30 30 30 [] in
  newton 40 tt 0 = (Success, 0) /\
  refine_sample nat unit (fun _ a => a) (fun _ a => a) newton false w x t = Some (Success, mkVec nat 0 40, mkWorld 40 40 40 [(30, 40)]) /\
  refine_all_samples nat unit (fun _ a => a) (fun _ a => a) newton w [x] [t]
    = Some (FailedToConverge, [mkVec nat 7 40], [t], mkWorld 40 40 40 [(30, 40)]).
Proof.
  exists (fun p _ a => if p <=? 30 then (FailedToConverge, a + 7) else if a =? 0 then (Success, 0) else (FailedToConverge, a)).
  cbn. repeat split.
Qed.
Print Assumptions C85_retry_refuted.

(** RefineAllSamples with the adaptive precision tracker.  If it reports success, each sample was refined: Newton's method
    converged at its time, from the sample or from what it had made of it before.  All samples and times have the same
    precision afterwards, the highest of them, and so has the system; the values of the times are not changed. *)
Theorem C85_all : forall X T rx rt newton w xs ts ys ts' w', settled w -> length xs = length ts -> xs <> [] ->
  refine_all_samples X T rx rt newton w xs ts = Some (Success, ys, ts', w') ->
  length ys = length xs /\ map (tm T) ts' = map (tm T) ts /\
  (forall y, In y ys -> vp X y = dflt w') /\ (forall t, In t ts' -> tp T t = dflt w') /\ sysp w' = dflt w' /\
  (forall t, In t ts -> tp T t <= dflt w') /\
  forall i x t y, nth_error xs i = Some x -> nth_error ts i = Some t -> nth_error ys i = Some y ->
    newton (tp T t) (tm T t) (pt X x) = (Success, pt X y) \/
    exists c1 z, newton (tp T t) (tm T t) (pt X x) = (c1, z) /\ (c1 = HigherPrecisionNecessary \/ c1 = FailedToConverge) /\
      newton (Nat.max (tp T t) 20 + 10) (tm T t) z = (Success, pt X y).
Proof.
  intros X T rx rt newton w xs ts ys ts' w' S L Ne H. unfold refine_all_samples in H.
  destruct (refine_samples X T rx rt newton w xs ts) as [[[c zs] w1]|] eqn:R; [|discriminate].
  destruct (refine_samples_spec X T rx rt newton xs ts w c zs w1 S L R) as (S1 & L1 & G & _).
  destruct c; try discriminate.
  destruct (uniform_precision X T rx rt w1 ts zs) as [[m ts2] ys2] eqn:U. injection H as <- <- <-.
  assert (Nt : ts <> []) by (intros ->; destruct xs; [contradiction|discriminate]).
  destruct (uniform_spec X T rx rt w1 ts zs m ts2 ys2 Nt U) as (U1 & U2 & U3 & U4 & U5 & _). cbn [dflt sysp].
  assert (L2 : length ys2 = length zs) by (rewrite <- (map_length (pt X) ys2), U4, map_length; reflexivity).
  split; [congruence|]. split; [exact U3|]. split; [exact U2|]. split; [exact U1|]. split; [reflexivity|]. split.
  { intros t I. apply U5, in_or_app. left. apply in_map. exact I. }
  intros i x t y E1 E2 E3. destruct (G eq_refl i x t E1 E2) as (z & E4 & Rf).
  assert (P : pt X y = pt X z).
  { pose proof (map_nth_error (pt X) i ys2 E3) as M1. pose proof (map_nth_error (pt X) i zs E4) as M2. rewrite U4 in M1. congruence. }
  rewrite P. destruct Rf as [[C _]|(c1 & y1 & N & Wr & C & _)]; [left; exact C|right].
  exists c1, y1. split; [exact N|]. split; [destruct c1; try discriminate; auto|exact C].
Qed.
Print Assumptions C85_all.

(** If it reports a failure, this is the code of the attempt for one sample; the samples before it were refined, the ones
    after it are as before. *)
Theorem C85_failure : forall X T rx rt newton w xs ts c ys ts' w', settled w -> length xs = length ts -> c <> Success ->
  refine_all_samples X T rx rt newton w xs ts = Some (c, ys, ts', w') ->
  ts' = ts /\ length ys = length xs /\
  exists k x t, nth_error xs k = Some x /\ nth_error ts k = Some t /\
    (exists p z, (p = tp T t \/ p = Nat.max (tp T t) 20 + 10) /\ fst (newton p (tm T t) z) = c) /\
    fst (newton (tp T t) (tm T t) (pt X x)) <> Success /\
    (forall i, k < i -> nth_error ys i = nth_error xs i) /\
    (forall i, i < k -> exists z p y, nth_error ys i = Some y /\ (forall t, nth_error ts i = Some t -> newton p (tm T t) z = (Success, pt X y))).
Proof.
  intros X T rx rt newton w xs ts c ys ts' w' S L Nc H. unfold refine_all_samples in H.
  destruct (refine_samples X T rx rt newton w xs ts) as [[[c0 zs] w1]|] eqn:R; [|discriminate].
  destruct (refine_samples_spec X T rx rt newton xs ts w c0 zs w1 S L R) as (S1 & L1 & _ & B).
  assert (Q : c0 = c /\ zs = ys /\ ts = ts').
  { destruct c0; try (injection H as <- <- <- <-; auto; fail). destruct (uniform_precision X T rx rt w1 ts zs) as [[m ts2] ys2]. congruence. }
  destruct Q as (-> & -> & <-). split; [reflexivity|]. split; [exact L1|].
  destruct (B Nc) as (k & x & t & y & E1 & E2 & E3 & G & K & c1 & y1 & N & D).
  exists k, x, t. split; [exact E1|]. split; [exact E2|]. split.
  { destruct D as [(A1 & A2 & A3)|(A1 & A2)].
    - exists (tp T t), (pt X x). rewrite N. split; [left; reflexivity|symmetry; exact A2].
    - exists (more_digits (tp T t)), y1. rewrite A2. split; [right; reflexivity|reflexivity]. }
  split.
  { rewrite N. cbn. destruct D as [(A1 & A2 & A3)|(A1 & A2)]; [congruence|intros ->; discriminate]. }
  split; [exact K|].
  intros i I. destruct (nth_error xs i) as [xi|] eqn:Ex; [|exfalso; apply nth_error_None in Ex;
    assert (nth_error xs k <> None) as Hk by congruence; apply nth_error_Some in Hk; lia].
  destruct (nth_error ts i) as [ti|] eqn:Et; [|exfalso; apply nth_error_None in Et;
    assert (nth_error ts k <> None) as Hk by congruence; apply nth_error_Some in Hk; lia].
  destruct (G i xi ti I Ex Et) as (yi & Ey & Rf). destruct Rf as [[C _]|(c2 & y2 & _ & _ & C & _)].
  - exists (pt X xi), (tp T ti), yi. split; [exact Ey|]. intros t0 E0. injection E0 as <-. exact C.
  - exists y2, (more_digits (tp T ti)), yi. split; [exact Ey|]. intros t0 E0. injection E0 as <-. exact C.
Qed.
Print Assumptions C85_failure.

(** Afterwards the tracker can be left in a lower precision than the system: here the first of two samples needed more
    digits. *)
Theorem C85_tracker_refuted : exists newton : nat -> unit -> nat -> code * nat,
  let t := mkTime unit tt 30 in let w := mkWorld 30 30 30 [] in
  refine_all_samples nat unit (fun _ a => a) (fun _ a => a) newton w [mkVec nat 0 30; mkVec nat 1 30] [t; t]
    = Some (Success, [mkVec nat 1 40; mkVec nat 1 40], [mkTime unit tt 40; mkTime unit tt 40], mkWorld 40 30 40 [(30, 40)]).
Proof.
  exists (fun p _ a => if (p =? 30) && (a =? 0) then (HigherPrecisionNecessary, a) else (Success, 1)). reflexivity.
Qed.
Print Assumptions C85_tracker_refuted.

(** With a fixed precision tracker, refining a sample reports success although Newton's method failed, always. *)
Theorem C85_fixed_refuted : forall X T newton (x : vec X) (t : time T) xs ts,
  fst (newton (vp X x) (tm T t) (pt X x)) <> Success ->
  fst (refine_sample_fixed X T newton x t) = Success /\ fst (refine_all_fixed X T newton (x :: xs) (t :: ts)) = Success /\
  hd_error (snd (refine_all_fixed X T newton (x :: xs) (t :: ts))) = Some (mkVec X (snd (newton (vp X x) (tm T t) (pt X x))) (vp X x)).
Proof. intros. repeat split. Qed.
Print Assumptions C85_fixed_refuted.

(** And both endgames ignore what RefineAllSamples reports.  Here the Cauchy endgame reports success and an approximation of
    cycle number 2 (the mean of its samples) although no call of Newton's method succeeded, whatever its code. *)
Theorem C85_ignored_refuted : forall c : code, exists s,
  cauchy_run (demo 0 1) (RtoC 0) (scripted two_loops) (fun _ x _ => (c, x)) no_estimate 1 (fun x => x) None 5 (RtoC 1) [RtoC 15]
    = Ok (Success, s) /\ cyc s = 2 /\ hist s = [[RtoC 15]].
Proof. intro c. apply two_loops_keeps. reflexivity. Qed.
Print Assumptions C85_ignored_refuted.

(** Two samples of 30 digits: Newton's method doubles the number of correct digits up to those it works with, and fails if
    it starts with none. *)
Example C85_case :
  let newton p (_ : unit) a := if 5 * a <? p then (FailedToConverge, a) else (Success, Nat.min p (2 * a)) in
  let t := mkTime unit tt 30 in let w := mkWorld 30 30 30 [] in
  settled w /\
  refine_all_samples nat unit (fun p a => Nat.min p a) (fun _ a => a) newton w [mkVec nat 20 30; mkVec nat 12 30] [t; t]
    = Some (Success, [mkVec nat 30 30; mkVec nat 24 30], [t; t], w) /\
  refine_all_samples nat unit (fun p a => Nat.min p a) (fun _ a => a) newton w [mkVec nat 20 30; mkVec nat 3 30; mkVec nat 12 30] [t; t; t]
    = Some (FailedToConverge, [mkVec nat 30 30; mkVec nat 3 40; mkVec nat 12 30], [t; t; t], mkWorld 40 40 40 [(30, 40)]).
Proof. cbn. repeat split. Qed.
