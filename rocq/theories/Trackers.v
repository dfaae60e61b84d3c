(** Trackers as objects: settings, copies, and the predictor and corrector objects they refer to.
    Models core/include/bertini2/trackers/base_tracker.hpp:156-220, 344-368, 405-420, 559-584. *)
From Coq Require Import List Arith Lia Bool Reals Lra ZArith.
From Verif Require Import Base Newton RK RKTables Predictor.
Import ListNotations.

(** NumTraits<double>::TolToDigits, num_traits.hpp:66-70: ceil(-log10(tol)) converted to unsigned, which is undefined
    for negative numbers. *)
Definition log10 (x : R) : R := (ln x / ln 10)%R.
Definition tol_digits (tol : R) : option Z :=
  let z := (- Int_part (log10 tol))%Z in if (z <? 0)%Z then None else Some z.

Section Trackers.
  (** the types of SteppingConfig and NewtonConfig with their default values, the step size stored in a
      SteppingConfig; the numbers of functions and variables of the systems; the default precision, which does not
      change *)
  Context {St Nw : Type}.
  Variables (st0 : St) (nw0 : Nw) (dims : nat -> nat * nat) (d : nat).

  (** NewtonCorrector, newton_corrector.hpp:48-66, 105-115: the sizes of its storage and its own NewtonConfig *)
  Record corrector := mkCor { cdims : nat * nat; csettings : Nw }.

  (** the members of the tracker set by its user, base_tracker.hpp:559, 573-584, and the stored configurations;
      [pred], [corr]: the objects the shared pointers refer to *)
  Record tracker := mkTr {
    pred : nat; corr : nat; system : nat; porder : nat;
    tol : R; digits : option Z; trunc : R; stepping : St; newton : Nw }.

  Record world := mkW { preds : list pstate; corrs : list corrector; trs : list tracker }.
  Definition empty : world := mkW [] [] [].

  Definition put {A : Type} (i : nat) (a : A) (l : list A) : list A := firstn i l ++ a :: skipn (S i) l.

  (** Tracker(sys), base_tracker.hpp:156-161: the default method is RKF45 (explicit_predictors.hpp:69-72) *)
  Definition make (w : world) (sys : nat) : world :=
    let p := fst (predictor_method d RKF45 (fst (construct d RKF45 (dims sys)))) in
    mkW (preds w ++ [p]) (corrs w ++ [mkCor (dims sys) nw0])
        (trs w ++ [mkTr (length (preds w)) (length (corrs w)) sys (ord p) (1 / 100000)%R (Some 5%Z) 100000%R st0 nw0]).

  (** the copy constructor and the copy assignment are the implicit ones: shared pointers are copied *)
  Definition copy (w : world) (t : tracker) : world := mkW (preds w) (corrs w) (trs w ++ [t]).
  Definition assign (w : world) (i : nat) (t : tracker) : world := mkW (preds w) (corrs w) (put i t (trs w)).

  Definition with_tracker (w : world) (i : nat) (t : tracker) : world := mkW (preds w) (corrs w) (put i t (trs w)).

  (** SetPredictor, base_tracker.hpp:344-348; [false]: an exception left it *)
  Definition set_predictor (w : world) (i : nat) (t : tracker) (m : method) : world * bool :=
    match nth_error (preds w) (pred t) with
    | None => (w, false)
    | Some p =>
        let (p', ok) := predictor_method d m p in
        let w' := mkW (put (pred t) p' (preds w)) (corrs w) (trs w) in
        if ok then (with_tracker w' i (mkTr (pred t) (corr t) (system t) (ord p') (tol t) (digits t) (trunc t) (stepping t) (newton t)), true)
        else (w', false)
    end.

  (** SetSystem, base_tracker.hpp:363-368 *)
  Definition set_system (w : world) (i : nat) (t : tracker) (sys : nat) : world * bool :=
    match nth_error (preds w) (pred t), nth_error (corrs w) (corr t) with
    | Some p, Some c =>
        (mkW (put (pred t) (change_system d (dims sys) p) (preds w)) (put (corr t) (mkCor (dims sys) (csettings c)) (corrs w))
             (put i (mkTr (pred t) (corr t) sys (porder t) (tol t) (digits t) (trunc t) (stepping t) (newton t)) (trs w)), true)
    | _, _ => (w, false)
    end.

  (** SetTrackingTolerance and SetInfiniteTruncationTolerance, base_tracker.hpp:202-218 *)
  Definition set_tol (w : world) (i : nat) (t : tracker) (x : R) : world * bool :=
    if Rle_dec x 0 then (w, false)
    else (with_tracker w i (mkTr (pred t) (corr t) (system t) (porder t) x (tol_digits x) (trunc t) (stepping t) (newton t)), true).
  Definition set_trunc (w : world) (i : nat) (t : tracker) (x : R) : world * bool :=
    if Rle_dec x 0 then (w, false)
    else (with_tracker w i (mkTr (pred t) (corr t) (system t) (porder t) (tol t) (digits t) x (stepping t) (newton t)), true).

  (** Setup, base_tracker.hpp:171-189, statement by statement *)
  Definition set_corr (w : world) (t : tracker) (n : Nw) : world :=
    match nth_error (corrs w) (corr t) with
    | Some c => mkW (preds w) (put (corr t) (mkCor (cdims c) n) (corrs w)) (trs w)
    | None => w
    end.
  Definition setup (w : world) (i : nat) (t : tracker) (m : method) (x th : R) (s : St) (n : Nw) : world * bool :=
    let (w1, ok1) := set_predictor w i t m in
    if ok1 then
      match nth_error (trs w1) i with
      | None => (w1, false)
      | Some t1 =>
          let (w2, ok2) := set_tol (set_corr w1 t1 n) i t1 x in
          if ok2 then
            match nth_error (trs w2) i with
            | None => (w2, false)
            | Some t2 => (with_tracker w2 i (mkTr (pred t2) (corr t2) (system t2) (porder t2) (tol t2) (digits t2) th s n), true)
            end
          else (w2, false)
      end
    else (w1, false).

  Inductive top :=
  | New (sys : nat)
  | Copy (i : nat)
  | Assign (i j : nat)               (* tracker i = tracker j *)
  | Setup (i : nat) (m : method) (x th : R) (s : St) (n : Nw)
  | SetPredictor (i : nat) (m : method)
  | SetSystem (i : nat) (sys : nat)
  | SetTol (i : nat) (x : R)
  | SetTrunc (i : nat) (x : R)
  | SetStepping (i : nat) (s : St)   (* Set<SteppingConfig>, detail/configured.hpp:98-103 *)
  | SetNewton (i : nat) (n : Nw).

  Definition on (w : world) (i : nat) (f : tracker -> world * bool) : world * bool :=
    match nth_error (trs w) i with Some t => f t | None => (w, false) end.

  Definition tstep (w : world) (o : top) : world * bool :=
    match o with
    | New sys => (make w sys, true)
    | Copy i => on w i (fun t => (copy w t, true))
    | Assign i j => on w i (fun _ => on w j (fun t => (assign w i t, true)))
    | Setup i m x th s n => on w i (fun t => setup w i t m x th s n)
    | SetPredictor i m => on w i (fun t => set_predictor w i t m)
    | SetSystem i sys => on w i (fun t => set_system w i t sys)
    | SetTol i x => on w i (fun t => set_tol w i t x)
    | SetTrunc i x => on w i (fun t => set_trunc w i t x)
    | SetStepping i s => on w i (fun t =>
        (with_tracker w i (mkTr (pred t) (corr t) (system t) (porder t) (tol t) (digits t) (trunc t) s (newton t)), true))
    | SetNewton i n => on w i (fun t =>
        (with_tracker w i (mkTr (pred t) (corr t) (system t) (porder t) (tol t) (digits t) (trunc t) (stepping t) n), true))
    end.
  Definition trun (w : world) (l : list top) : world := fold_left (fun w o => fst (tstep w o)) l w.

  (** * Specification *)

  (** What the user asked for, for each tracker *)
  Record wish := mkWish { w_system : nat; w_method : method; w_tol : R; w_trunc : R; w_stepping : St; w_newton : Nw }.
  Definition wish_step (l : list wish) (o : top) : list wish :=
    let at_ i f := match nth_error l i with Some a => put i (f a) l | None => l end in
    match o with
    | New sys => l ++ [mkWish sys RKF45 (1 / 100000)%R 100000%R st0 nw0]
    | Copy i => match nth_error l i with Some a => l ++ [a] | None => l end
    | Assign i j => match nth_error l j with Some a => at_ i (fun _ => a) | None => l end
    | Setup i m x th s n => at_ i (fun a => mkWish (w_system a) m x th s n)
    | SetPredictor i m => at_ i (fun a => mkWish (w_system a) m (w_tol a) (w_trunc a) (w_stepping a) (w_newton a))
    | SetSystem i sys => at_ i (fun a => mkWish sys (w_method a) (w_tol a) (w_trunc a) (w_stepping a) (w_newton a))
    | SetTol i x => if Rle_dec x 0 then l else
        at_ i (fun a => mkWish (w_system a) (w_method a) x (w_trunc a) (w_stepping a) (w_newton a))
    | SetTrunc i x => if Rle_dec x 0 then l else
        at_ i (fun a => mkWish (w_system a) (w_method a) (w_tol a) x (w_stepping a) (w_newton a))
    | SetStepping i s => at_ i (fun a => mkWish (w_system a) (w_method a) (w_tol a) (w_trunc a) s (w_newton a))
    | SetNewton i n => at_ i (fun a => mkWish (w_system a) (w_method a) (w_tol a) (w_trunc a) (w_stepping a) n)
    end.
  Definition wishes (l : list top) : list wish := fold_left wish_step l [].

  (** Families: a tracker and its copies.  A new tracker founds a family, a copy joins that of its original, an assigned
      tracker changes to the other's. *)
  Definition family_step (fam : nat * list nat) (o : top) : nat * list nat :=
    let (k, l) := fam in
    match o with
    | New _ => (S k, l ++ [k])
    | Copy i => match nth_error l i with Some a => (k, l ++ [a]) | None => fam end
    | Assign i j => match nth_error l i, nth_error l j with Some _, Some a => (k, put i a l) | _, _ => fam end
    | _ => fam
    end.

  (** Tracker i is alone in its family *)
  Definition alone (l : list nat) (i : nat) : Prop :=
    forall j a, nth_error l i = Some a -> nth_error l j = Some a -> j = i.
  Definition careful (l : list nat) (o : top) : Prop :=
    match o with
    | Setup i m x _ _ _ => alone l i /\ supported m = true /\ (0 < x)%R
    | SetPredictor i m => alone l i /\ supported m = true
    | SetSystem i _ => alone l i
    | _ => True
    end.
  Fixpoint careful_run (fam : nat * list nat) (l : list top) : Prop :=
    match l with [] => True | o :: r => careful (snd fam) o /\ careful_run (family_step fam o) r end.

  (** Tracker i, with the objects it refers to, is as wished *)
  Definition as_wished (w : world) (i : nat) (a : wish) : Prop :=
    exists t p c, nth_error (trs w) i = Some t /\ nth_error (preds w) (pred t) = Some p /\ nth_error (corrs w) (corr t) = Some c /\
      system t = w_system a /\ ready p (w_method a) (dims (w_system a)) d /\ porder t = order (w_method a) /\
      cdims c = dims (w_system a) /\ tol t = w_tol a /\ trunc t = w_trunc a /\
      stepping t = w_stepping a /\ newton t = w_newton a.

  (** * Proofs *)
  Ltac ands := repeat match goal with |- _ /\ _ => split end.
  Lemma put_length {A} i (a : A) l : i < length l -> length (put i a l) = length l.
  Proof. intros H. unfold put. rewrite app_length, firstn_length. cbn [length]. rewrite skipn_length. lia. Qed.
  Lemma put_same {A} i (a : A) l : i < length l -> nth_error (put i a l) i = Some a.
  Proof.
    intros H. unfold put. rewrite nth_error_app2 by (rewrite firstn_length; lia). rewrite firstn_length.
    replace (i - Nat.min i (length l)) with 0 by lia. reflexivity.
  Qed.
  Lemma put_other {A} i j (a : A) l : i < length l -> j <> i -> nth_error (put i a l) j = nth_error l j.
  Proof.
    intros H N. unfold put. destruct (Nat.lt_ge_cases j i) as [L|L].
    - rewrite nth_error_app1 by (rewrite firstn_length; lia).
      rewrite <- (firstn_skipn i l) at 2. now rewrite nth_error_app1 by (rewrite firstn_length; lia).
    - rewrite nth_error_app2 by (rewrite firstn_length; lia). rewrite firstn_length.
      replace (j - Nat.min i (length l)) with (S (j - S i)) by lia. cbn [nth_error].
      rewrite <- (firstn_skipn (S i) l) at 2. rewrite nth_error_app2 by (rewrite firstn_length; lia).
      rewrite firstn_length. f_equal. lia.
  Qed.
  Lemma some_lt {A} (l : list A) i a : nth_error l i = Some a -> i < length l.
  Proof. intros H. apply nth_error_Some. congruence. Qed.

  (** tracker i is fine: it refers to the objects of its family and is as wished *)
  Definition fine (w : world) (t : tracker) (k : nat) (a : wish) : Prop :=
    pred t = k /\ corr t = k /\
    exists p c, nth_error (preds w) k = Some p /\ nth_error (corrs w) k = Some c /\
      system t = w_system a /\ ready p (w_method a) (dims (w_system a)) d /\ porder t = order (w_method a) /\
      cdims c = dims (w_system a) /\ tol t = w_tol a /\ trunc t = w_trunc a /\
      stepping t = w_stepping a /\ newton t = w_newton a.

  Record inv (w : world) (ws : list wish) (fam : nat * list nat) : Prop := mkInv {
    i_p : length (preds w) = fst fam; i_c : length (corrs w) = fst fam;
    i_w : length ws = length (trs w); i_f : length (snd fam) = length (trs w);
    i_fine : forall i t k a, nth_error (trs w) i = Some t -> nth_error (snd fam) i = Some k -> nth_error ws i = Some a ->
      fine w t k a }.

  Lemma inv_get w ws fam i t : inv w ws fam -> nth_error (trs w) i = Some t ->
    exists k a, nth_error (snd fam) i = Some k /\ nth_error ws i = Some a /\ fine w t k a.
  Proof.
    intros I E. pose proof (some_lt _ _ _ E) as L.
    destruct (nth_error (snd fam) i) as [k|] eqn:E1; [|apply nth_error_None in E1; rewrite (i_f _ _ _ I) in E1; lia].
    destruct (nth_error ws i) as [a|] eqn:E2; [|apply nth_error_None in E2; rewrite (i_w _ _ _ I) in E2; lia].
    exists k, a. split; [reflexivity|]. split; [reflexivity|]. now apply (i_fine _ _ _ I i).
  Qed.
  Lemma inv_none w ws fam i : inv w ws fam -> nth_error (trs w) i = None ->
    nth_error (snd fam) i = None /\ nth_error ws i = None.
  Proof.
    intros I E. apply nth_error_None in E. split; apply nth_error_None; [rewrite (i_f _ _ _ I)|rewrite (i_w _ _ _ I)]; exact E.
  Qed.

  (** replacing tracker i, all other families' objects unchanged *)
  Lemma inv_put w ws fam i t k a' t' w' : inv w ws fam -> nth_error (trs w) i = Some t -> nth_error (snd fam) i = Some k ->
    trs w' = put i t' (trs w) -> length (preds w') = length (preds w) -> length (corrs w') = length (corrs w) ->
    (forall j, j <> i -> forall k', nth_error (snd fam) j = Some k' ->
       nth_error (preds w') k' = nth_error (preds w) k' /\ nth_error (corrs w') k' = nth_error (corrs w) k') ->
    fine w' t' k a' -> inv w' (put i a' ws) fam.
  Proof.
    intros I E Ek Et Lp Lc O Fi. pose proof (some_lt _ _ _ E) as L.
    assert (Lw : i < length ws) by (rewrite (i_w _ _ _ I); exact L).
    constructor.
    - rewrite Lp. apply (i_p _ _ _ I).
    - rewrite Lc. apply (i_c _ _ _ I).
    - rewrite Et, !put_length by assumption. apply (i_w _ _ _ I).
    - rewrite Et, put_length by assumption. apply (i_f _ _ _ I).
    - intros j t1 k1 a1 H1 H2 H3. rewrite Et in H1. destruct (Nat.eq_dec j i) as [->|N].
      + rewrite put_same in H1 by exact L. rewrite put_same in H3 by exact Lw.
        assert (t1 = t') by congruence. assert (a1 = a') by congruence. assert (k1 = k) by congruence. now subst.
      + rewrite put_other in H1 by assumption. rewrite put_other in H3 by assumption.
        pose proof (i_fine _ _ _ I j t1 k1 a1 H1 H2 H3) as Fj. destruct (O j N k1 H2) as [O1 O2].
        unfold fine in *. now rewrite O1, O2.
  Qed.

  Lemma ready_order p m sys q : ready p m sys q -> ord p = order m.
  Proof. intros R. apply R. Qed.
  Lemma ready_method p m m' sys : supported m' = true -> ready p m sys d ->
    exists p', predictor_method d m' p = (p', true) /\ ready p' m' sys d.
  Proof.
    intros S' (A & B & C & D & E & F & G & H & I & J & K & L & M).
    destruct (method_ready d m' p sys S' G H J L M) as [X Y]. destruct (predictor_method d m' p) as [p' ok].
    cbn [fst snd] in *. subst ok. now exists p'.
  Qed.

  Lemma make_inv w ws fam sys : inv w ws fam -> inv (make w sys) (wish_step ws (New sys)) (family_step fam (New sys)).
  Proof.
    intros I. destruct fam as [k l]. unfold make, wish_step, family_step.
    destruct (construct_ready d RKF45 (dims sys) eq_refl) as [_ R0].
    destruct (ready_method _ RKF45 RKF45 (dims sys) eq_refl R0) as (p & Ep & R). rewrite Ep. cbn [fst].
    pose proof (i_p _ _ _ I) as Ip. pose proof (i_c _ _ _ I) as Ic. pose proof (i_w _ _ _ I) as Iw. pose proof (i_f _ _ _ I) as If.
    cbn [fst snd] in *.
    constructor; cbn [preds corrs trs fst snd]; rewrite ?app_length; cbn [length]; try lia.
    intros i t k1 a H1 H2 H3. destruct (Nat.lt_ge_cases i (length (trs w))) as [L|L].
    - rewrite nth_error_app1 in H1 by lia. rewrite nth_error_app1 in H2 by lia. rewrite nth_error_app1 in H3 by lia.
      destruct (i_fine _ _ _ I i t k1 a H1 H2 H3) as (A & B & p1 & c1 & P1 & C1 & Q). split; [exact A|]. split; [exact B|].
      exists p1, c1. cbn [preds corrs].
      rewrite !nth_error_app1 by (apply some_lt in P1; apply some_lt in C1; assumption). auto.
    - rewrite nth_error_app2 in H1 by lia. rewrite nth_error_app2 in H2 by lia. rewrite nth_error_app2 in H3 by lia.
      rewrite If in H2. rewrite Iw in H3.
      destruct (i - length (trs w)) as [|q]; [|destruct q; discriminate]. cbn [nth_error] in *.
      injection H1 as <-. injection H2 as <-. injection H3 as <-. unfold fine. cbn [pred corr preds corrs].
      split; [lia|]. split; [lia|]. exists p, (mkCor (dims sys) nw0).
      split; [rewrite nth_error_app2 by lia; now rewrite Ip, Nat.sub_diag|].
      split; [rewrite nth_error_app2 by lia; now rewrite Ic, Nat.sub_diag|].
      cbn [system porder tol trunc stepping newton w_system w_method w_tol w_trunc w_stepping w_newton cdims].
      rewrite (ready_order _ _ _ _ R). ands; auto.
  Qed.

  Lemma copy_inv w ws fam i t k a : inv w ws fam -> nth_error (trs w) i = Some t -> nth_error (snd fam) i = Some k ->
    nth_error ws i = Some a -> inv (copy w t) (ws ++ [a]) (fst fam, snd fam ++ [k]).
  Proof.
    intros I E Ek Ea. pose proof (i_w _ _ _ I) as Iw. pose proof (i_f _ _ _ I) as If.
    pose proof (i_fine _ _ _ I i t k a E Ek Ea) as Fi.
    constructor; cbn [copy preds corrs trs fst snd]; rewrite ?app_length; cbn [length]; try lia.
    - apply (i_p _ _ _ I).
    - apply (i_c _ _ _ I).
    - intros j t1 k1 a1 H1 H2 H3. destruct (Nat.lt_ge_cases j (length (trs w))) as [L|L].
      + rewrite nth_error_app1 in H1 by lia. rewrite nth_error_app1 in H2 by lia. rewrite nth_error_app1 in H3 by lia.
        exact (i_fine _ _ _ I j t1 k1 a1 H1 H2 H3).
      + rewrite nth_error_app2 in H1 by lia. rewrite nth_error_app2 in H2 by lia. rewrite nth_error_app2 in H3 by lia.
        rewrite If in H2. rewrite Iw in H3.
        destruct (j - length (trs w)) as [|q]; [|destruct q; discriminate]. cbn [nth_error] in *.
        injection H1 as <-. injection H2 as <-. injection H3 as <-. exact Fi.
  Qed.

  Lemma assign_inv w ws fam i j ti t k a : inv w ws fam -> nth_error (trs w) i = Some ti ->
    nth_error (trs w) j = Some t -> nth_error (snd fam) j = Some k ->
    nth_error ws j = Some a -> inv (assign w i t) (put i a ws) (fst fam, put i k (snd fam)).
  Proof.
    intros I Ei E Ek Ea. pose proof (i_w _ _ _ I) as Iw. pose proof (i_f _ _ _ I) as If.
    pose proof (some_lt _ _ _ Ei) as L.
    pose proof (i_fine _ _ _ I j t k a E Ek Ea) as Fi.
    constructor; cbn [assign preds corrs trs fst snd]; rewrite ?put_length by lia; try lia.
    - apply (i_p _ _ _ I).
    - apply (i_c _ _ _ I).
    - intros q t1 k1 a1 H1 H2 H3. destruct (Nat.eq_dec q i) as [->|N].
      + rewrite put_same in H1 by lia. rewrite put_same in H2 by lia. rewrite put_same in H3 by lia. injection H1 as <-. injection H2 as <-. injection H3 as <-. exact Fi.
      + rewrite put_other in H1 by (assumption || lia). rewrite put_other in H2 by (assumption || lia). rewrite put_other in H3 by (assumption || lia). exact (i_fine _ _ _ I q t1 k1 a1 H1 H2 H3).
  Qed.

  Lemma on_some w i t f : nth_error (trs w) i = Some t -> on w i f = f t.
  Proof. intros E. unfold on. now rewrite E. Qed.

  Ltac proj := cbn [fst snd preds corrs trs with_tracker pred corr system porder tol digits trunc stepping newton
                    w_system w_method w_tol w_trunc w_stepping w_newton cdims csettings].

  Lemma alone_other (fam : nat * list nat) i k j k' : alone (snd fam) i -> nth_error (snd fam) i = Some k -> nth_error (snd fam) j = Some k' ->
    j <> i -> k' <> k.
  Proof. intros A Ek Ej N ->. apply N. exact (A j k Ek Ej). Qed.

  (** settings kept in the tracker itself *)
  Lemma own_inv w ws fam i t k a t' a' : inv w ws fam -> nth_error (trs w) i = Some t -> nth_error (snd fam) i = Some k ->
    fine w t' k a' -> nth_error ws i = Some a -> inv (with_tracker w i t') (put i a' ws) fam.
  Proof. intros I E Ek Fi Ea. eapply inv_put; eauto; try reflexivity. Qed.

  Lemma set_predictor_inv w ws fam i t k a m : inv w ws fam -> nth_error (trs w) i = Some t -> nth_error (snd fam) i = Some k ->
    nth_error ws i = Some a -> alone (snd fam) i -> supported m = true ->
    exists w', set_predictor w i t m = (w', true) /\
      inv w' (put i (mkWish (w_system a) m (w_tol a) (w_trunc a) (w_stepping a) (w_newton a)) ws) fam /\
      exists t', nth_error (trs w') i = Some t'.
  Proof.
    intros I E Ek Ea Al Sup. destruct (i_fine _ _ _ I i t k a E Ek Ea) as (P & C & p & c & Ep & Ec & Q1 & Q2 & Q3 & Q4 & Q5 & Q6 & Q7 & Q8).
    unfold set_predictor. rewrite P, Ep. destruct (ready_method p (w_method a) m _ Sup Q2) as (p' & Em & R). rewrite Em.
    pose proof (some_lt _ _ _ Ep) as Lp. pose proof (some_lt _ _ _ E) as Lt.
    eexists. split; [reflexivity|]. split.
    - eapply inv_put; [exact I|exact E|exact Ek|reflexivity| | | |].
      + proj. now apply put_length.
      + reflexivity.
      + intros j N k' Ej. proj. split; [|reflexivity]. apply put_other; [exact Lp|]. exact (alone_other fam i k j k' Al Ek Ej N).
      + unfold fine. proj. split; [reflexivity|]. split; [exact C|]. exists p', c. rewrite put_same by exact Lp.
        ands; auto. exact (ready_order _ _ _ _ R).
    - proj. eexists. now apply put_same.
  Qed.

  Lemma set_system_inv w ws fam i t k a sys : inv w ws fam -> nth_error (trs w) i = Some t -> nth_error (snd fam) i = Some k ->
    nth_error ws i = Some a -> alone (snd fam) i ->
    exists w', set_system w i t sys = (w', true) /\
      inv w' (put i (mkWish sys (w_method a) (w_tol a) (w_trunc a) (w_stepping a) (w_newton a)) ws) fam.
  Proof.
    intros I E Ek Ea Al. destruct (i_fine _ _ _ I i t k a E Ek Ea) as (P & C & p & c & Ep & Ec & Q1 & Q2 & Q3 & Q4 & Q5 & Q6 & Q7 & Q8).
    unfold set_system. rewrite P, C, Ep, Ec.
    pose proof (some_lt _ _ _ Ep) as Lp. pose proof (some_lt _ _ _ Ec) as Lc.
    eexists. split; [reflexivity|].
    eapply inv_put; [exact I|exact E|exact Ek|reflexivity| | | |].
    - proj. now apply put_length.
    - proj. now apply put_length.
    - intros j N k' Ej. proj. pose proof (alone_other fam i k j k' Al Ek Ej N) as D.
      split; apply put_other; auto.
    - unfold fine. proj. split; [reflexivity|]. split; [reflexivity|]. exists (change_system d (dims sys) p), (mkCor (dims sys) (csettings c)).
      rewrite !put_same by assumption. proj.
      assert (R : ready (change_system d (dims sys) p) (w_method a) (dims sys) d).
      { destruct (dims sys) as [nf nv]. now apply system_ready with (sys := dims (w_system a)). }
      ands; auto.
  Qed.

  Lemma put_put {A} i (a b : A) l : i < length l -> put i b (put i a l) = put i b l.
  Proof.
    intros H. unfold put. f_equal.
    - rewrite firstn_app, firstn_firstn, firstn_length. rewrite Nat.min_id, (Nat.min_l i) by lia.
      rewrite Nat.sub_diag. cbn [firstn]. apply app_nil_r.
    - f_equal. rewrite skipn_app, firstn_length, skipn_all2 by (rewrite firstn_length; lia).
      replace (S i - Nat.min i (length l)) with 1 by lia. reflexivity.
  Qed.

  Lemma set_corr_inv w ws fam i t k n : inv w ws fam -> nth_error (trs w) i = Some t -> nth_error (snd fam) i = Some k ->
    inv (set_corr w t n) ws fam /\ trs (set_corr w t n) = trs w.
  Proof.
    intros I E Ek. destruct (inv_get w ws fam i t I E) as (k0 & a & Ek0 & Ea & Fi). assert (k0 = k) by congruence. subst k0.
    destruct Fi as (P & C & p & c & Ep & Ec & Q). unfold set_corr. rewrite C, Ec. split; [|reflexivity].
    pose proof (some_lt _ _ _ Ec) as Lc.
    constructor; proj; try apply I.
    - rewrite put_length by exact Lc. apply I.
    - intros j t1 k1 a1 H1 H2 H3. destruct (i_fine _ _ _ I j t1 k1 a1 H1 H2 H3) as (P1 & C1 & p1 & c1 & Ep1 & Ec1 & Q').
      split; [exact P1|]. split; [exact C1|]. exists p1. destruct (Nat.eq_dec k1 k) as [->|N].
      + exists (mkCor (cdims c) n). proj. rewrite put_same by exact Lc. assert (c1 = c) by congruence. subst c1. auto.
      + exists c1. proj. rewrite put_other by auto. auto.
  Qed.

  Lemma fine_tol w t k a x : fine w t k a ->
    fine w (mkTr (pred t) (corr t) (system t) (porder t) x (tol_digits x) (trunc t) (stepping t) (newton t)) k
         (mkWish (w_system a) (w_method a) x (w_trunc a) (w_stepping a) (w_newton a)).
  Proof. intros (P & C & p & c & Q). split; [exact P|]. split; [exact C|]. exists p, c. proj. intuition. Qed.

  Lemma setup_inv w ws fam i t k a m x th s n : inv w ws fam -> nth_error (trs w) i = Some t -> nth_error (snd fam) i = Some k ->
    nth_error ws i = Some a -> alone (snd fam) i -> supported m = true -> (0 < x)%R ->
    exists w', setup w i t m x th s n = (w', true) /\ inv w' (put i (mkWish (w_system a) m x th s n) ws) fam.
  Proof.
    intros I E Ek Ea Al Sup X. unfold setup.
    destruct (set_predictor_inv w ws fam i t k a m I E Ek Ea Al Sup) as (w1 & E1 & I1 & t1 & Et1). rewrite E1, Et1.
    destruct (set_corr_inv w1 _ fam i t1 k n I1 Et1 Ek) as [I2 T2].
    unfold set_tol. destruct (Rle_dec x 0) as [B|_]; [lra|].
    set (w2 := set_corr w1 t1 n) in *.
    assert (Et2 : nth_error (trs w2) i = Some t1) by (rewrite T2; exact Et1).
    pose proof (some_lt _ _ _ Ea) as La. pose proof (some_lt _ _ _ Et2) as Lt.
    destruct (inv_get w2 _ fam i t1 I2 Et2) as (k0 & a2 & Ek0 & Ea2 & F2). assert (k0 = k) by congruence. subst k0.
    rewrite put_same in Ea2 by exact La. injection Ea2 as <-.
    proj. rewrite put_same by exact Lt. eexists. split; [reflexivity|].
    pose proof (fine_tol w2 t1 k _ x F2) as F3. unfold with_tracker. proj. rewrite put_put by exact Lt.
    rewrite <- (put_put i (mkWish (w_system a) m (w_tol a) (w_trunc a) (w_stepping a) (w_newton a)) _ ws La).
    apply (own_inv w2 _ fam i t1 k _ _ _ I2 Et2 Ek) with (2 := put_same i _ ws La).
    destruct F2 as (P & C & p & c & Q). split; [exact P|]. split; [exact C|]. exists p, c. revert Q. proj. intuition.
  Qed.

  Lemma step_inv w ws fam o : inv w ws fam -> careful (snd fam) o ->
    inv (fst (tstep w o)) (wish_step ws o) (family_step fam o).
  Proof.
    intros I Ca.
    assert (Fam : forall x, family_step fam x = family_step (fst fam, snd fam) x) by (now destruct fam).
    destruct o as [sys|i|i j|i m x th s n|i m|i sys|i x|i x|i s|i n];
      [now apply make_inv|..]; rewrite Fam; cbn [tstep wish_step family_step];
      (destruct (nth_error (trs w) i) as [t|] eqn:E;
       [destruct (inv_get w ws fam i t I E) as (k & a & Ek & Ea & Fi); rewrite (on_some w i t _ E), ?Ek, ?Ea
       |destruct (inv_none w ws fam i I E) as [Ek Ea]; unfold on; rewrite E, ?Ek, ?Ea]).
    - now apply (copy_inv w ws fam i).
    - now destruct fam.
    - destruct (nth_error (trs w) j) as [tj|] eqn:Ej.
      + destruct (inv_get w ws fam j tj I Ej) as (kj & aj & Ekj & Eaj & Fj). rewrite (on_some w j tj _ Ej), Ekj, Eaj. cbn [fst].
        now apply (assign_inv w ws fam i j t tj).
      + destruct (inv_none w ws fam j I Ej) as [Ekj Eaj]. unfold on. rewrite Ej, Ekj, Eaj. now destruct fam.
    - destruct (nth_error ws j); now destruct fam.
    - cbn [careful] in Ca. destruct Ca as (A & S1 & X).
      destruct (setup_inv w ws fam i t k a m x th s n I E Ek Ea A S1 X) as (w' & -> & I'). now destruct fam.
    - now destruct fam.
    - cbn [careful] in Ca. destruct Ca as (A & S1).
      destruct (set_predictor_inv w ws fam i t k a m I E Ek Ea A S1) as (w' & -> & I' & _). now destruct fam.
    - now destruct fam.
    - destruct (set_system_inv w ws fam i t k a sys I E Ek Ea Ca) as (w' & -> & I'). now destruct fam.
    - now destruct fam.
    - unfold set_tol. destruct (Rle_dec x 0) as [B|B]; cbn [fst]; [now destruct fam|].
      replace (fst fam, snd fam) with fam by now destruct fam.
      eapply own_inv; eauto. now apply fine_tol.
    - destruct (Rle_dec x 0); now destruct fam.
    - unfold set_trunc. destruct (Rle_dec x 0) as [B|B]; cbn [fst]; [now destruct fam|].
      replace (fst fam, snd fam) with fam by now destruct fam.
      eapply own_inv; eauto. destruct Fi as (P & C & p & c & Q). split; [exact P|]. split; [exact C|]. exists p, c. proj. intuition.
    - destruct (Rle_dec x 0); now destruct fam.
    - replace (fst fam, snd fam) with fam by now destruct fam.
      eapply own_inv; eauto. destruct Fi as (P & C & p & c & Q). split; [exact P|]. split; [exact C|]. exists p, c. proj. intuition.
    - now destruct fam.
    - replace (fst fam, snd fam) with fam by now destruct fam.
      eapply own_inv; eauto. destruct Fi as (P & C & p & c & Q). split; [exact P|]. split; [exact C|]. exists p, c. proj. intuition.
    - now destruct fam.
  Qed.

  Lemma setup_ok w ws fam i m x th s n : inv w ws fam -> i < length (trs w) -> careful (snd fam) (Setup i m x th s n) ->
    snd (tstep w (Setup i m x th s n)) = true.
  Proof.
    intros I L (A & S1 & X). destruct (nth_error (trs w) i) as [t|] eqn:E; [|apply nth_error_None in E; lia].
    destruct (inv_get w ws fam i t I E) as (k & a & Ek & Ea & Fi). cbn [tstep]. rewrite (on_some w i t _ E).
    destruct (setup_inv w ws fam i t k a m x th s n I E Ek Ea A S1 X) as (w' & -> & _). reflexivity.
  Qed.

  Lemma run_inv l : forall w ws fam, inv w ws fam -> careful_run fam l ->
    inv (trun w l) (fold_left wish_step l ws) (fold_left family_step l fam).
  Proof.
    induction l as [|o l IH]; intros w ws fam I C; [exact I|]. destruct C as [C1 C2]. cbn [trun fold_left].
    apply IH; [now apply step_inv|exact C2].
  Qed.
  Lemma empty_inv : inv empty [] (0, []).
  Proof. constructor; try reflexivity. intros [|i] t k a H; discriminate. Qed.

  Lemma run_as_wished l : careful_run (0, []) l ->
    length (trs (trun empty l)) = length (wishes l) /\
    forall i a, nth_error (wishes l) i = Some a -> as_wished (trun empty l) i a.
  Proof.
    intros C. pose proof (run_inv l empty [] (0, []) empty_inv C) as I. split; [symmetry; apply I|].
    intros i a Ea. unfold wishes in Ea.
    destruct (nth_error (trs (trun empty l)) i) as [t|] eqn:E.
    - destruct (inv_get _ _ _ i t I E) as (k & a' & Ek & Ea' & P & C' & p & c & Q). assert (a' = a) by congruence. subst a'.
      exists t, p, c. rewrite P, C'. intuition.
    - destruct (inv_none _ _ _ i I E) as [_ X]. congruence.
  Qed.

  (** numbers of digits *)
  Lemma tol_digits_some x : (0 < x < 10)%R -> exists z, tol_digits x = Some z /\ (0 <= z)%Z /\
    (Rpower 10 (- IZR z) <= x)%R /\ (x < Rpower 10 (1 - IZR z))%R.
  Proof.
    intros [H0 H1]. assert (L10 : (0 < ln 10)%R) by (rewrite <- ln_1; apply ln_increasing; lra).
    assert (Lx : (log10 x < 1)%R).
    { unfold log10. apply Rmult_lt_reg_r with (ln 10); [exact L10|]. unfold Rdiv. rewrite Rmult_assoc, Rinv_l by lra.
      rewrite Rmult_1_r, Rmult_1_l. now apply ln_increasing. }
    destruct (base_Int_part (log10 x)) as [B1 B2]. unfold tol_digits.
    assert (N : (Int_part (log10 x) < 1)%Z) by (apply lt_IZR; lra).
    destruct (Z.ltb_spec (- Int_part (log10 x)) 0) as [B|B]; [lia|]. eexists. split; [reflexivity|]. split; [exact B|].
    assert (E : x = Rpower 10 (log10 x)).
    { unfold Rpower, log10. unfold Rdiv. rewrite Rmult_assoc, Rinv_l by lra. rewrite Rmult_1_r. now rewrite exp_ln. }
    rewrite opp_IZR. split.
    - rewrite E at 2. apply Rle_Rpower; lra.
    - rewrite E at 1. apply Rpower_lt; lra.
  Qed.
End Trackers.
