(** Refining the samples of an endgame: RefineSample of the adaptive precision endgames (amp_endgame.hpp) and of the fixed
    precision ones (fixed_prec_endgame.hpp), and RefineAllSamples (base_endgame.hpp).

    A vector or time has a value and a precision.  Newton's method is an oracle of the precision, the time and the point
    (Newton.v models it).  Simplifications: all coordinates of a vector have one precision (Uniform.v treats the others);
    the tolerance and the number of iterations are fixed, they are passed on unchanged. *)
From Coq Require Import List Arith Lia Bool.
From Verif Require Import Newton.
Import ListNotations.

(** num_traits.hpp:125-128, 137-140, 143-146 *)
Definition increment : nat := 10.
Definition lowest_multiple : nat := 20.
Definition most_allowed : nat := 1000.

Section Refine.
  (** values of vectors and of times *)
  Variables X T : Type.
  (** the value after rounding to fewer digits *)
  Variable round_x : nat -> X -> X.
  Variable round_t : nat -> T -> T.
  (** Tracker::Refine in a given number of digits at a time from a point: NewtonCorrector::Correct, newton_corrector.hpp:269-318
      (adaptive) and 141-173 (fixed); the new point always has the digits worked in *)
  Variable newton : nat -> T -> X -> code * X.

  Record vec := mkVec { pt : X; vp : nat }.
  Record time := mkTime { tm : T; tp : nat }.
  Definition set_vec (p : nat) (v : vec) : vec := mkVec (if vp v <=? p then pt v else round_x p (pt v)) p.
  Definition set_time (p : nat) (t : time) : time := mkTime (if tp t <=? p then tm t else round_t p (tm t)) p.

  (** the default precision, that of the adaptive tracker, that of the system tracked, and the PrecisionChanged events of the
      endgame (the tracker's own are left out), newest first *)
  Record world := mkWorld { dflt : nat; trk : nat; sysp : nat; events : list (nat * nat) }.

  (** AMPTracker::ChangePrecision, amp_tracker.hpp:1303-1340; [None]: the assertion at 1595 that the precision is allowed fails *)
  Definition change (p : nat) (w : world) : option world :=
    if p =? trk w then Some w
    else if p <=? most_allowed then Some (mkWorld p p p (events w)) else None.

  (** AMPTracker::RefineImpl, amp_tracker.hpp:1251-1274; [None]: an assertion fails, or the system is evaluated in another
      precision than its own (C78) *)
  Definition refine_impl (w : world) (x : vec) (t : time) : option (code * vec * world) :=
    if vp x =? tp t then
      match change (tp t) w with
      | Some w' =>
          if (dflt w' =? tp t) && (sysp w' =? tp t) then
            let r := newton (tp t) (tm t) (pt x) in Some (fst r, mkVec (snd r) (tp t), w')
          else None
      | None => None
      end
    else None.

  Definition wants_retry (c : code) : bool :=
    match c with HigherPrecisionNecessary => true | FailedToConverge => true | _ => false end.

  (** AMPEndgame::RefineSampleImpl, amp_endgame.hpp:94-141.  [same]: the result and the sample are the same object, as in
      RefineAllSamples; then the second attempt is made from what the first has left. *)
  Definition refine_sample (same : bool) (w : world) (x : vec) (t : time) : option (code * vec * world) :=
    match refine_impl w x t with
    | Some (c, y, w1) =>
        if wants_retry c then
          let higher := Nat.max (dflt w1) lowest_multiple + increment in
          match change higher (mkWorld higher (trk w1) (sysp w1) (events w1)) with
          | Some w2 =>
              let w3 := mkWorld (dflt w2) (trk w2) (sysp w2) ((dflt w1, higher) :: events w2) in
              refine_impl w3 (set_vec higher (if same then y else x)) (set_time higher t)
          | None => None
          end
        else Some (c, y, w1)
    | None => None
    end.

  (** FixedPrecEndgame::RefineSampleImpl, fixed_prec_endgame.hpp:77-88: the code of Refine is not used *)
  Definition refine_sample_fixed (x : vec) (t : time) : code * vec :=
    let r := newton (vp x) (tm t) (pt x) in (Success, mkVec (snd r) (vp x)).

  (** EnsureAtUniformPrecision(times, samples), adaptive_precision_utilities.hpp:128-145 *)
  Definition all_precisions (ts : list time) (xs : list vec) : list nat := map tp ts ++ map vp xs.
  Definition uniform_precision (w : world) (ts : list time) (xs : list vec) : nat * list time * list vec :=
    if forallb (fun p => p =? dflt w) (all_precisions ts xs) then (dflt w, ts, xs)
    else let m := list_max (all_precisions ts xs) in (m, map (set_time m) ts, map (set_vec m) xs).

  (** EndgameBase::RefineAllSamples, base_endgame.hpp:168-191, the loop, lines 171-182 *)
  Fixpoint refine_samples (w : world) (xs : list vec) (ts : list time) : option (code * list vec * world) :=
    match xs, ts with
    | x :: xs', t :: ts' =>
        match refine_sample true w x t with
        | Some (Success, y, w') =>
            match refine_samples w' xs' ts' with
            | Some (c, ys, w'') => Some (c, y :: ys, w'')
            | None => None
            end
        | Some (c, y, w') => Some (c, y :: xs', w')
        | None => None
        end
    | _, _ => Some (Success, xs, w)
    end.
  (** lines 184-190; the tracker's precision is not changed *)
  Definition refine_all_samples (w : world) (xs : list vec) (ts : list time) : option (code * list vec * list time * world) :=
    match refine_samples w xs ts with
    | Some (Success, ys, w') =>
        match uniform_precision w' ts ys with
        | (m, ts', ys') => Some (Success, ys', ts', mkWorld m (trk w') m (events w'))
        end
    | Some (c, ys, w') => Some (c, ys, ts, w')
    | None => None
    end.
  (** the same with a fixed precision tracker (with the loop's own code) *)
  Definition refine_all_fixed (xs : list vec) (ts : list time) : code * list vec :=
    (Success, map (fun a => snd (refine_sample_fixed (fst a) (snd a))) (combine xs ts) ++ skipn (length ts) xs).

  (** ** Specification *)
  (** default, tracker and system agree *)
  Definition settled (w : world) : Prop := dflt w = trk w /\ sysp w = trk w.
  Definition converges (p : nat) (t : T) (x y : X) : Prop := newton p t x = (Success, y).

  (** ** Proofs *)
  Lemma change_settles : forall p w w', settled w -> change p w = Some w' ->
    settled w' /\ trk w' = p /\ events w' = events w.
  Proof.
    intros p w w' S H. unfold change in H. destruct (Nat.eqb_spec p (trk w)) as [->|N].
    - injection H as <-. auto.
    - destruct (p <=? most_allowed); [|discriminate]. injection H as <-. cbn. repeat split.
  Qed.
  Lemma change_ok : forall p w, p <= most_allowed -> exists w', change p w = Some w'.
  Proof.
    intros p w H. unfold change. destruct (p =? trk w); [eauto|]. rewrite (proj2 (Nat.leb_le _ _) H). eauto.
  Qed.

  Lemma refine_impl_spec : forall w x t c y w', settled w -> refine_impl w x t = Some (c, y, w') ->
    vp x = tp t /\ settled w' /\ trk w' = tp t /\ vp y = tp t /\ newton (tp t) (tm t) (pt x) = (c, pt y) /\ events w' = events w.
  Proof.
    intros w x t c y w' S H. unfold refine_impl in H. destruct (Nat.eqb_spec (vp x) (tp t)) as [E|]; [|discriminate].
    destruct (change (tp t) w) as [w1|] eqn:C; [|discriminate]. destruct (change_settles _ _ _ S C) as (S1 & K & V).
    destruct ((dflt w1 =? tp t) && (sysp w1 =? tp t)); [|discriminate]. injection H as <- <- <-. cbn [pt vp].
    split; [exact E|]. split; [exact S1|]. split; [exact K|]. split; [reflexivity|]. split; [|exact V].
    destruct (newton (tp t) (tm t) (pt x)); reflexivity.
  Qed.
  Lemma refine_impl_ok : forall w x t, settled w -> vp x = tp t -> tp t <= most_allowed ->
    exists c y w', refine_impl w x t = Some (c, y, w').
  Proof.
    intros w x t S E L. unfold refine_impl. rewrite (proj2 (Nat.eqb_eq _ _) E).
    destruct (change_ok (tp t) w L) as [w1 C]. rewrite C. destruct (change_settles _ _ _ S C) as ((A & B) & K & _).
    rewrite A, B, K, Nat.eqb_refl. cbn. eauto.
  Qed.

  (** the digits of the second attempt *)
  Definition more_digits (p : nat) : nat := Nat.max p lowest_multiple + increment.

  Lemma retry_world : forall p w1 w2, settled w1 -> trk w1 = p ->
    change (more_digits p) (mkWorld (more_digits p) (trk w1) (sysp w1) (events w1)) = Some w2 ->
    w2 = mkWorld (more_digits p) (more_digits p) (more_digits p) (events w1) /\ more_digits p <= most_allowed.
  Proof.
    intros p w1 w2 S E H. unfold change in H. cbn [trk events] in H.
    destruct (Nat.eqb_spec (more_digits p) (trk w1)) as [X0|]; [unfold more_digits, increment in *; lia|].
    destruct (Nat.leb_spec (more_digits p) most_allowed); [|discriminate]. injection H as <-. auto.
  Qed.

  Lemma refine_sample_spec : forall same w x t c y w', settled w -> refine_sample same w x t = Some (c, y, w') ->
    vp x = tp t /\ settled w' /\ trk w' = vp y /\
    exists c1 y1, newton (tp t) (tm t) (pt x) = (c1, y1) /\
      (wants_retry c1 = false /\ c = c1 /\ pt y = y1 /\ vp y = tp t /\ events w' = events w \/
       wants_retry c1 = true /\ vp y = more_digits (tp t) /\
       newton (more_digits (tp t)) (tm t) (if same then y1 else pt x) = (c, pt y) /\
       events w' = (tp t, more_digits (tp t)) :: events w).
  Proof.
    intros same w x t c y w' S H. unfold refine_sample in H.
    destruct (refine_impl w x t) as [[[c1 y1] w1]|] eqn:R; [|discriminate].
    destruct (refine_impl_spec _ _ _ _ _ _ S R) as (E & S1 & K1 & V1 & N1 & Ev). split; [exact E|].
    destruct (wants_retry c1) eqn:Wr.
    - assert (D : dflt w1 = tp t) by (destruct S1; congruence). rewrite D in H. fold (more_digits (tp t)) in H.
      destruct (change _ _) as [w2|] eqn:C; [|discriminate]. destruct (retry_world (tp t) _ _ S1 K1 C) as (-> & L).
      cbn [dflt trk sysp events] in H.
      apply refine_impl_spec in H; [|split; reflexivity]. destruct H as (_ & S3 & K3 & V3 & N3 & E3).
      cbn [set_time tp] in K3, V3. split; [exact S3|]. split; [rewrite V3; exact K3|]. exists c1, (pt y1). split; [exact N1|]. right.
      split; [exact Wr|]. split; [exact V3|]. cbn [events] in E3. rewrite Ev in E3. split; [|exact E3].
      cbn [set_time set_vec tp tm pt vp] in N3.
      assert (L1 : tp t <=? more_digits (tp t) = true) by (apply Nat.leb_le; unfold more_digits, increment; lia).
      rewrite L1 in N3. replace (pt (if same then y1 else x)) with (if same then pt y1 else pt x) in N3 by (destruct same; reflexivity).
      replace (vp (if same then y1 else x) <=? more_digits (tp t)) with true in N3; [exact N3|].
      symmetry. destruct same; [rewrite V1|rewrite E]; exact L1.
    - injection H as <- <- <-. split; [exact S1|]. split; [congruence|]. exists c1, (pt y1). split; [exact N1|]. left. auto.
  Qed.

  Lemma refine_sample_ok : forall same w x t, settled w -> vp x = tp t -> more_digits (tp t) <= most_allowed ->
    exists r, refine_sample same w x t = Some r.
  Proof.
    intros same w x t S E L. unfold refine_sample.
    destruct (refine_impl_ok w x t S E) as (c & y & w1 & R); [unfold more_digits, increment in L; lia|]. rewrite R.
    destruct (refine_impl_spec _ _ _ _ _ _ S R) as (_ & S1 & K1 & V1 & _ & _).
    destruct (wants_retry c); [|eauto]. assert (D : dflt w1 = tp t) by (destruct S1; congruence). rewrite D. fold (more_digits (tp t)).
    destruct (change_ok (more_digits (tp t)) (mkWorld (more_digits (tp t)) (trk w1) (sysp w1) (events w1)) L) as [w2 C]. rewrite C.
    destruct (retry_world (tp t) _ _ S1 K1 C) as (-> & _).
    match goal with |- exists r, refine_impl ?w ?x ?t = Some r => destruct (refine_impl_ok w x t) as (c' & y' & w' & R') end.
    - split; reflexivity.
    - reflexivity.
    - exact L.
    - rewrite R'. eauto.
  Qed.

  (** at the limit *)
  Lemma refine_sample_limit : forall same w x t c1 y1, settled w -> vp x = tp t -> tp t <= most_allowed ->
    most_allowed < more_digits (tp t) -> newton (tp t) (tm t) (pt x) = (c1, y1) -> wants_retry c1 = true ->
    refine_sample same w x t = None.
  Proof.
    intros same w x t c1 y1 S E L G N Wr. unfold refine_sample.
    destruct (refine_impl_ok w x t S E L) as (c & y & w1 & R). rewrite R.
    destruct (refine_impl_spec _ _ _ _ _ _ S R) as (_ & S1 & K1 & V1 & N1 & _). assert (c = c1) by congruence. subst c.
    rewrite Wr. assert (D : dflt w1 = tp t) by (destruct S1; congruence). rewrite D. fold (more_digits (tp t)).
    unfold change. cbn [trk]. rewrite K1. destruct (Nat.eqb_spec (more_digits (tp t)) (tp t)) as [X0|]; [unfold more_digits, increment in X0; lia|].
    rewrite (proj2 (Nat.leb_gt _ _) G). reflexivity.
  Qed.

  (** what it means that a sample was refined *)
  Definition refined_to (x : vec) (t : time) (y : vec) : Prop :=
    converges (tp t) (tm t) (pt x) (pt y) /\ vp y = tp t \/
    (exists c1 y1, newton (tp t) (tm t) (pt x) = (c1, y1) /\ wants_retry c1 = true /\
       converges (more_digits (tp t)) (tm t) y1 (pt y) /\ vp y = more_digits (tp t)).

  Lemma refine_samples_spec : forall xs ts w c ys w', settled w -> length xs = length ts ->
    refine_samples w xs ts = Some (c, ys, w') ->
    settled w' /\ length ys = length xs /\
    (c = Success -> forall i x t, nth_error xs i = Some x -> nth_error ts i = Some t ->
       exists y, nth_error ys i = Some y /\ refined_to x t y) /\
    (c <> Success -> exists k x t y, nth_error xs k = Some x /\ nth_error ts k = Some t /\ nth_error ys k = Some y /\
       (forall i x t, i < k -> nth_error xs i = Some x -> nth_error ts i = Some t -> exists y, nth_error ys i = Some y /\ refined_to x t y) /\
       (forall i, k < i -> nth_error ys i = nth_error xs i) /\
       (exists c1 y1, newton (tp t) (tm t) (pt x) = (c1, y1) /\
          (wants_retry c1 = false /\ c = c1 /\ pt y = y1 \/
           wants_retry c1 = true /\ newton (more_digits (tp t)) (tm t) y1 = (c, pt y)))).
  Proof.
    induction xs as [|x xs IH]; intros [|t ts] w c ys w' S L H; try discriminate; cbn [refine_samples] in H.
    - injection H as <- <- <-. split; [exact S|]. split; [reflexivity|]. split; [intros _ [|i] x t E; discriminate|congruence].
    - destruct (refine_sample true w x t) as [[[c1 y] w1]|] eqn:R; [|discriminate].
      destruct (refine_sample_spec _ _ _ _ _ _ _ S R) as (E & S1 & K1 & c0 & y0 & N0 & D).
      assert (Suc : c1 = Success -> refined_to x t y).
      { intros ->. destruct D as [(A1 & A2 & A3 & A4 & _)|(A1 & A2 & A3 & _)].
        - left. split; [|exact A4]. unfold converges. congruence.
        - right. exists c0, y0. split; [exact N0|]. split; [exact A1|]. split; [exact A3|exact A2]. }
      assert (Dc : {c1 = Success} + {c1 <> Success}) by (destruct c1; (left; reflexivity) || (right; discriminate)); destruct Dc as [->|Ns].
      + destruct (refine_samples w1 xs ts) as [[[c2 ys2] w2]|] eqn:R2; [|discriminate]. injection H as <- <- <-.
        injection L as L. destruct (IH ts w1 c2 ys2 w2 S1 L R2) as (S2 & L2 & G & B). split; [exact S2|]. split; [cbn; congruence|]. split.
        * intros C [|i] x0 t0 E1 E2; cbn in E1, E2.
          -- injection E1 as <-. injection E2 as <-. exists y. split; [reflexivity|apply Suc; reflexivity].
          -- cbn [nth_error]. apply (G C i); assumption.
        * intros C. destruct (B C) as (k & x0 & t0 & y1 & X1 & X2 & X3 & X4 & X5 & X6).
          exists (Datatypes.S k), x0, t0, y1. split; [exact X1|]. split; [exact X2|]. split; [exact X3|]. split; [|split].
          -- intros [|i] x' t' I E1 E2; cbn in E1, E2.
             ++ injection E1 as <-. injection E2 as <-. exists y. split; [reflexivity|apply Suc; reflexivity].
             ++ apply (X4 i); [lia|assumption|assumption].
          -- intros [|i] I; [lia|]. cbn. apply X5. lia.
          -- exact X6.
      + assert (H' : Some (c1, y :: xs, w1) = Some (c, ys, w')) by (destruct c1; try exact H; contradiction).
        injection H' as <- <- <-. split; [exact S1|]. split; [reflexivity|]. split; [contradiction|].
        intros _. exists 0, x, t, y. split; [reflexivity|]. split; [reflexivity|]. split; [reflexivity|]. split; [intros; lia|]. split.
        * intros [|i] I; [lia|reflexivity].
        * exists c0, y0. split; [exact N0|]. destruct D as [(A1 & A2 & A3 & A4 & _)|(A1 & A2 & A3 & _)]; [left|right]; auto.
  Qed.

  Lemma refine_samples_ok : forall xs ts w, settled w -> length xs = length ts ->
    (forall i x t, nth_error xs i = Some x -> nth_error ts i = Some t -> vp x = tp t /\ more_digits (tp t) <= most_allowed) ->
    exists r, refine_samples w xs ts = Some r.
  Proof.
    induction xs as [|x xs IH]; intros [|t ts] w S L H; try discriminate; cbn [refine_samples]; [eauto|].
    destruct (H 0 x t eq_refl eq_refl) as [E D].
    destruct (refine_sample_ok true w x t S E D) as [[[c y] w1] R]. rewrite R.
    destruct (refine_sample_spec _ _ _ _ _ _ _ S R) as (_ & S1 & _).
    injection L as L. destruct (IH ts w1 S1 L) as [[[c2 ys] w2] R2]; [intros i x0 t0 E1 E2; exact (H (Datatypes.S i) x0 t0 E1 E2)|].
    destruct c; eauto. rewrite R2. eauto.
  Qed.

  Lemma list_max_in : forall l x, In x l -> x <= list_max l.
  Proof. intros l x H. pose proof (proj1 (list_max_le l (list_max l)) (le_n _)) as F. rewrite Forall_forall in F. auto. Qed.

  Lemma uniform_spec : forall w ts xs m ts' xs', ts <> [] -> uniform_precision w ts xs = (m, ts', xs') ->
    (forall t, In t ts' -> tp t = m) /\ (forall x, In x xs' -> vp x = m) /\
    map tm ts' = map tm ts /\ map pt xs' = map pt xs /\ (forall p, In p (all_precisions ts xs) -> p <= m) /\
    In m (all_precisions ts xs).
  Proof.
    intros w ts xs m ts' xs' Ne H. unfold uniform_precision in H.
    destruct (forallb (fun p => p =? dflt w) (all_precisions ts xs)) eqn:F.
    - injection H as <- <- <-. rewrite forallb_forall in F.
      assert (G : forall p, In p (all_precisions ts xs) -> p = dflt w) by (intros p I; apply Nat.eqb_eq, F, I).
      split; [intros t I; apply G, in_or_app; left; apply in_map; exact I|].
      split; [intros x I; apply G, in_or_app; right; apply in_map; exact I|].
      split; [reflexivity|]. split; [reflexivity|]. split; [intros p I; rewrite (G p I); apply le_n|].
      destruct ts as [|t ts]; [contradiction|]. assert (I : In (tp t) (all_precisions (t :: ts) xs)) by (left; reflexivity).
      rewrite <- (G _ I). exact I.
    - injection H as <- <- <-. set (m := list_max (all_precisions ts xs)).
      assert (G : forall p, In p (all_precisions ts xs) -> p <= m) by (intros p I; apply list_max_in; exact I).
      split; [intros t I; apply in_map_iff in I; destruct I as (t0 & <- & _); reflexivity|].
      split; [intros x I; apply in_map_iff in I; destruct I as (x0 & <- & _); reflexivity|].
      split; [rewrite map_map; apply map_ext_in; intros t I; cbn [set_time tm];
              rewrite (proj2 (Nat.leb_le (tp t) m)); [reflexivity|apply G, in_or_app; left; apply in_map; exact I]|].
      split; [rewrite map_map; apply map_ext_in; intros x I; cbn [set_vec pt];
              rewrite (proj2 (Nat.leb_le (vp x) m)); [reflexivity|apply G, in_or_app; right; apply in_map; exact I]|].
      split; [exact G|]. unfold m. clear G m F.
      assert (Q : forall l : list nat, l <> [] -> In (list_max l) l).
      { induction l as [|a l IH]; [contradiction|]. intros _. destruct l as [|b l]; [cbn; lia|].
        change (list_max (a :: b :: l)) with (Nat.max a (list_max (b :: l))).
        destruct (Nat.max_spec a (list_max (b :: l))) as [[_ ->]|[_ ->]]; [right; apply IH; discriminate|left; reflexivity]. }
      apply Q. destruct ts; [contradiction|discriminate].
  Qed.
End Refine.
