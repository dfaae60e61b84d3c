(** Observers, core/include/bertini2/detail/observable.hpp. *)
From Coq Require Import List Lia Bool Arith Sorted.
From Verif Require Import StartIndex.
Import ListNotations.

(** Observers are compared by address; an address is a number. *)
Notation observer := nat.

Inductive op := Add (o : observer) | Remove (o : observer).

(** AddObserver, observable.hpp:54-60. *)
Definition add (o : observer) (w : list observer) : list observer :=
  if existsb (Nat.eqb o) w then w else w ++ [o].

(** RemoveObserver, observable.hpp:65-73. *)
Definition remove (o : observer) (w : list observer) : list observer := filter (fun x => negb (Nat.eqb x o)) w.

Definition apply_op (w : list observer) (p : op) : list observer :=
  match p with Add o => add o w | Remove o => remove o w end.

Definition run (h : list op) : list observer := fold_left apply_op h [].

(** What the standard says of the loop of NotifyObservers, observable.hpp:86-100: begin and end are taken once, and an
    insertion or an erasure in the vector invalidates the end iterator, so going on is undefined.  react k o lists the
    calls of AddObserver and RemoveObserver which observer o makes when it is notified as the k-th of this event.
    An erasure of nothing and the addition of a registered observer change nothing.  The result is the list
    of the deliveries and the list of observers. *)
Fixpoint deliver (react : nat -> observer -> list op) (k : nat) (todo w : list observer) : outcome (list observer * list observer) :=
  match todo with
  | [] => Value ([], w)
  | o :: r =>
      let w' := fold_left apply_op (react k o) w in
      if list_eq_dec Nat.eq_dec w' w then
        match deliver react (S k) r w with
        | Value (d, w'') => Value (o :: d, w'')
        | e => e
        end
      else UB
  end.
Definition notify (react : nat -> observer -> list op) (w : list observer) : outcome (list observer * list observer) :=
  deliver react 0 w w.

(** What happens in practice when the only modification is that observers remove themselves: the loop runs over the
    memory of the vector from the first to the former last slot; remove_if moves the kept observers forward and
    leaves the slots behind the new end as they are. *)
Definition squeeze (o : observer) (size : nat) (mem : list observer) : list observer * nat :=
  let kept := remove o (firstn size mem) in (kept ++ skipn (length kept) mem, length kept).
Fixpoint deliver_raw (leaves : observer -> bool) (slots : list nat) (mem : list observer) (size : nat) : list observer * list observer :=
  match slots with
  | [] => ([], firstn size mem)
  | i :: r =>
      match nth_error mem i with
      | Some o =>
          let (mem', size') := if leaves o then squeeze o size mem else (mem, size) in
          let (d, w) := deliver_raw leaves r mem' size' in (o :: d, w)
      | None => ([], firstn size mem)
      end
  end.
Definition notify_raw (leaves : observer -> bool) (w : list observer) : list observer * list observer :=
  deliver_raw leaves (seq 0 (length w)) w (length w).

(** FirstPrecisionRecorder, core/include/bertini2/trackers/observers.hpp:50-73: it removes itself when the precision
    increases. *)
Definition first_precision_recorder (me : observer) (previous next : nat) (k : nat) (o : observer) : list op :=
  if Nat.eqb o me then (if Nat.ltb previous next then [Remove me] else []) else [].

(** ** Registration *)

(** When o was registered: the time of the first Add since the last Remove. *)
Fixpoint since_from (t : nat) (o : observer) (cur : option nat) (h : list op) : option nat :=
  match h with
  | [] => cur
  | Add x :: r => since_from (S t) o (if Nat.eqb x o then match cur with Some a => Some a | None => Some t end else cur) r
  | Remove x :: r => since_from (S t) o (if Nat.eqb x o then None else cur) r
  end.
Definition since (o : observer) (h : list op) : option nat := since_from 0 o None h.

Lemma since_snoc : forall h t o cur p,
  since_from t o cur (h ++ [p]) = since_from (t + length h) o (since_from t o cur h) [p].
Proof.
  induction h as [|q h IH]; intros t o cur p; cbn [app length].
  - rewrite Nat.add_0_r. reflexivity.
  - destruct q as [x|x]; cbn [since_from app]; rewrite IH; rewrite Nat.add_succ_comm; reflexivity.
Qed.

Lemma since_bound : forall h o a, since o h = Some a -> a < length h.
Proof.
  intro h. unfold since. induction h as [|p h IH] using rev_ind; intros o a H; [discriminate|].
  rewrite since_snoc in H. rewrite app_length. cbn [length]. destruct p as [x|x]; cbn [since_from] in H.
  - destruct (Nat.eqb x o).
    + destruct (since_from 0 o None h) as [b|] eqn:E.
      * injection H as <-. specialize (IH o b E). lia.
      * injection H as <-. lia.
    + specialize (IH o a H). lia.
  - destruct (Nat.eqb x o); [discriminate|]. specialize (IH o a H). lia.
Qed.

Definition before_in (h : list op) (x y : observer) : Prop :=
  match since x h, since y h with Some a, Some b => a < b | _, _ => False end.

Lemma existsb_In : forall o w, existsb (Nat.eqb o) w = true <-> In o w.
Proof.
  intros o w. rewrite existsb_exists. split.
  - intros (x & H & E). apply Nat.eqb_eq in E. congruence.
  - intro H. exists o. split; [exact H|apply Nat.eqb_refl].
Qed.

Lemma run_snoc : forall h p, run (h ++ [p]) = apply_op (run h) p.
Proof. intros. unfold run. rewrite fold_left_app. reflexivity. Qed.

Lemma sorted_snoc : forall (R : nat -> nat -> Prop) l x, StronglySorted R l -> Forall (fun y => R y x) l -> StronglySorted R (l ++ [x]).
Proof.
  intros R l x S F. induction S as [|a l S IH A]; cbn.
  - repeat constructor.
  - inversion F as [|b c Ha Hl]; subst. constructor; [apply IH; exact Hl|]. apply Forall_app. split; [exact A|]. repeat constructor. exact Ha.
Qed.

Lemma sorted_weaken : forall (R Q : nat -> nat -> Prop) l, StronglySorted R l ->
  (forall x y, In x l -> In y l -> R x y -> Q x y) -> StronglySorted Q l.
Proof.
  intros R Q l S. induction S as [|a l S IH A]; intro H; constructor.
  - apply IH. intros x y Hx Hy. apply H; right; assumption.
  - rewrite Forall_forall in *. intros y Hy. apply H; [left; reflexivity|right; exact Hy|apply A; exact Hy].
Qed.

Lemma sorted_filter : forall (R : nat -> nat -> Prop) f l, StronglySorted R l -> StronglySorted R (filter f l).
Proof.
  intros R f l S. induction S as [|a l S IH A]; cbn; [constructor|]. destruct (f a); [|exact IH].
  constructor; [exact IH|]. rewrite Forall_forall in *. intros y Hy. apply filter_In in Hy. apply A. tauto.
Qed.

(** The registered observers are those whose last operation was an addition, in the order of registration. *)
Lemma run_spec : forall h, NoDup (run h) /\ (forall o, In o (run h) <-> since o h <> None) /\ StronglySorted (before_in h) (run h).
Proof.
  intro h. induction h as [|p h IH] using rev_ind.
  - cbn. split; [constructor|]. split; [|constructor]. intro o. split; [intros []|intro H; exfalso; apply H; reflexivity].
  - destruct IH as (N & I & S). rewrite run_snoc.
    assert (Sn : forall o, since o (h ++ [p]) = since_from (length h) o (since o h) [p]) by (intro o; unfold since; rewrite since_snoc; reflexivity).
    destruct p as [x|x]; cbn [apply_op].
    + unfold add. destruct (existsb (Nat.eqb x) (run h)) eqn:E.
      * apply existsb_In in E. assert (Same : forall o, since o (h ++ [Add x]) = since o h).
        { intro o. rewrite Sn. cbn [since_from]. destruct (Nat.eqb_spec x o) as [->|]; [|reflexivity].
          apply I in E. destruct (since o h); [reflexivity|contradiction]. }
        split; [exact N|]. split; [intro o; rewrite Same; apply I|].
        eapply sorted_weaken; [exact S|]. intros a b _ _. unfold before_in. rewrite !Same. auto.
      * assert (Nx : ~ In x (run h)) by (intro K; apply existsb_In in K; congruence).
        assert (Sx : since x h = None).
        { destruct (since x h) eqn:K; [|reflexivity]. exfalso. apply Nx, I. congruence. }
        assert (Hx : since x (h ++ [Add x]) = Some (length h)).
        { rewrite Sn, Sx. cbn [since_from]. rewrite Nat.eqb_refl. reflexivity. }
        assert (Same : forall o, o <> x -> since o (h ++ [Add x]) = since o h).
        { intros o Ho. rewrite Sn. cbn [since_from]. destruct (Nat.eqb_spec x o); [congruence|reflexivity]. }
        split.
        { apply NoDup_rev in N. rewrite <- (rev_involutive (run h ++ [x])). apply NoDup_rev. rewrite rev_app_distr. cbn.
          constructor; [rewrite <- in_rev; exact Nx|exact N]. }
        split.
        { intro o. rewrite in_app_iff. cbn. destruct (Nat.eq_dec o x) as [->|D].
          - rewrite Hx. split; [discriminate|auto].
          - rewrite (Same o D), I. split; [intros [K|[K|[]]]; [exact K|congruence]|auto]. }
        apply sorted_snoc.
        { eapply sorted_weaken; [exact S|]. intros a b Ha Hb. unfold before_in.
          rewrite !Same by (intros ->; contradiction). auto. }
        apply Forall_forall. intros y Hy. unfold before_in. rewrite Hx, Same by (intros ->; contradiction).
        destruct (since y h) as [b|] eqn:K; [apply (since_bound h y b K)|]. apply I in Hy. contradiction.
    + unfold remove.
      assert (Hx : since x (h ++ [Remove x]) = None) by (rewrite Sn; cbn [since_from]; rewrite Nat.eqb_refl; reflexivity).
      assert (Same : forall o, o <> x -> since o (h ++ [Remove x]) = since o h).
      { intros o Ho. rewrite Sn. cbn [since_from]. destruct (Nat.eqb_spec x o); [congruence|reflexivity]. }
      split; [apply NoDup_filter; exact N|]. split.
      { intro o. rewrite filter_In, negb_true_iff, Nat.eqb_neq. destruct (Nat.eq_dec o x) as [->|D].
        - rewrite Hx. tauto.
        - rewrite (Same o D), I. tauto. }
      eapply sorted_weaken; [apply sorted_filter; exact S|]. intros a b Ha Hb. apply filter_In in Ha, Hb.
      rewrite negb_true_iff, Nat.eqb_neq in Ha, Hb. unfold before_in. rewrite !Same by tauto. auto.
Qed.

(** ** Notification *)

(** The reactions of the observers leave the list as it is. *)
Definition passive (react : nat -> observer -> list op) (w : list observer) : Prop :=
  forall k o, nth_error w k = Some o -> fold_left apply_op (react k o) w = w.

Lemma deliver_spec : forall react todo k w,
  (forall j o, nth_error todo j = Some o -> fold_left apply_op (react (k + j) o) w = w) -> deliver react k todo w = Value (todo, w).
Proof.
  intros react todo. induction todo as [|o r IH]; intros k w H; cbn [deliver]; [reflexivity|].
  pose proof (H 0 o eq_refl) as H0. rewrite Nat.add_0_r in H0. rewrite H0.
  destruct (list_eq_dec Nat.eq_dec w w); [|contradiction]. rewrite IH; [reflexivity|].
  intros j x Hj. rewrite <- (H (S j) x Hj) at 2. rewrite Nat.add_succ_comm. reflexivity.
Qed.

Lemma deliver_ub : forall react todo k w,
  (exists j o, nth_error todo j = Some o /\ fold_left apply_op (react (k + j) o) w <> w) -> deliver react k todo w = UB.
Proof.
  intros react todo. induction todo as [|o r IH]; intros k w (j & x & Hj & H); [destruct j; discriminate|].
  cbn [deliver]. destruct (list_eq_dec Nat.eq_dec (fold_left apply_op (react k o) w) w) as [E|E]; [|reflexivity].
  destruct j as [|j].
  - cbn in Hj. injection Hj as ->. rewrite Nat.add_0_r in H. contradiction.
  - rewrite (IH (S k) w); [reflexivity|]. exists j, x. split; [exact Hj|]. rewrite Nat.add_succ_comm. exact H.
Qed.

Lemma notify_passive : forall react w, passive react w -> notify react w = Value (w, w).
Proof. intros react w H. apply deliver_spec. exact H. Qed.

Lemma notify_active : forall react w, ~ passive react w -> notify react w = UB.
Proof.
  intros react w H. apply deliver_ub.
  assert (D : forall n, (exists j o, j < n /\ nth_error w j = Some o /\ fold_left apply_op (react j o) w <> w) \/
     (forall j o, j < n -> nth_error w j = Some o -> fold_left apply_op (react j o) w = w)).
  { induction n as [|n IH]; [right; intros; lia|]. destruct IH as [(j & o & L & K)|IH]; [left; exists j, o; auto|].
    destruct (nth_error w n) as [o|] eqn:E.
    - destruct (list_eq_dec Nat.eq_dec (fold_left apply_op (react n o) w) w) as [K|K].
      + right. intros j x L Hj. destruct (Nat.eq_dec j n) as [->|]; [congruence|]. apply IH; [lia|exact Hj].
      + left. exists n, o. auto.
    - right. intros j x L Hj. destruct (Nat.eq_dec j n) as [->|]; [congruence|]. apply IH; [lia|exact Hj]. }
  destruct (D (length w)) as [(j & o & _ & K)|K]; [exists j, o; exact K|].
  exfalso. apply H. intros k o Hk. apply K; [|exact Hk]. apply nth_error_Some. congruence.
Qed.

(** The recorder among the observers makes a rise in precision undefined. *)
Lemma recorder_undefined : forall me previous next w, In me w -> previous < next ->
  notify (first_precision_recorder me previous next) w = UB.
Proof.
  intros me previous next w H L. apply notify_active. intro P. apply In_nth_error in H. destruct H as (k & H).
  specialize (P k me H). unfold first_precision_recorder in P. rewrite Nat.eqb_refl in P. apply Nat.ltb_lt in L. rewrite L in P.
  cbn in P. apply nth_error_In in H. rewrite <- P in H. unfold remove in H. apply filter_In in H.
  rewrite Nat.eqb_refl in H. destruct H. discriminate.
Qed.

Lemma recorder_harmless : forall me previous next w, next <= previous \/ ~ In me w ->
  notify (first_precision_recorder me previous next) w = Value (w, w).
Proof.
  intros me previous next w H. apply notify_passive. intros k o Hk. unfold first_precision_recorder.
  destruct (Nat.eqb_spec o me) as [->|]; [|reflexivity]. destruct H as [H|H].
  - destruct (Nat.ltb_spec previous next); [lia|reflexivity].
  - exfalso. apply H. apply nth_error_In in Hk. exact Hk.
Qed.

(** In practice: the first of three observers removes itself, the second is not told, the third is told twice. *)
Lemma raw_skips : forall a b c, a <> b -> a <> c -> b <> c ->
  notify_raw (Nat.eqb a) [a; b; c] = ([a; c; c], [b; c]).
Proof.
  intros a b c Hab Hac Hbc. unfold notify_raw. cbn [length seq deliver_raw nth_error].
  rewrite Nat.eqb_refl. unfold squeeze, remove. cbn [firstn filter].
  rewrite Nat.eqb_refl. rewrite (proj2 (Nat.eqb_neq b a)) by congruence. rewrite (proj2 (Nat.eqb_neq c a)) by congruence.
  cbn [negb length skipn app deliver_raw nth_error]. rewrite !(proj2 (Nat.eqb_neq a c)) by exact Hac. reflexivity.
Qed.

(** In general: the next observer is not told, the last one is told twice. *)
Lemma remove_other : forall a l, ~ In a l -> remove a l = l.
Proof.
  intros a l. unfold remove. induction l as [|x l IH]; intro H; cbn; [reflexivity|].
  destruct (Nat.eqb_spec x a) as [->|]; [exfalso; apply H; left; reflexivity|]. cbn. rewrite IH; [reflexivity|].
  intro K. apply H. right. exact K.
Qed.

Lemma raw_prefix : forall leaves mem size slots rest,
  (forall i, In i slots -> i < length mem) -> (forall i o, In i slots -> nth_error mem i = Some o -> leaves o = false) ->
  deliver_raw leaves (slots ++ rest) mem size =
  let (d, w) := deliver_raw leaves rest mem size in (map (fun i => nth i mem 0) slots ++ d, w).
Proof.
  intros leaves mem size slots rest. induction slots as [|i r IH]; intros B L; cbn [app map deliver_raw].
  - destruct (deliver_raw leaves rest mem size); reflexivity.
  - destruct (nth_error mem i) as [o|] eqn:K.
    + rewrite (L i o (or_introl eq_refl) K). rewrite IH.
      * rewrite (nth_error_nth mem i 0 K). destruct (deliver_raw leaves rest mem size). reflexivity.
      * intros j Hj. apply B. right. exact Hj.
      * intros j x Hj. apply L. right. exact Hj.
    + apply nth_error_None in K. specialize (B i (or_introl eq_refl)). lia.
Qed.

Lemma map_nth_seq : forall (w pre mid post : list nat), w = pre ++ mid ++ post ->
  map (fun i => nth i w 0) (seq (length pre) (length mid)) = mid.
Proof.
  intros w pre mid post ->. apply nth_ext with (d := 0) (d' := 0); rewrite map_length, seq_length; [reflexivity|].
  intros i Hi. rewrite nth_indep with (d' := nth 0 (pre ++ mid ++ post) 0) by (rewrite map_length, seq_length; exact Hi).
  rewrite (map_nth (fun i => nth i (pre ++ mid ++ post) 0)). rewrite seq_nth by exact Hi.
  rewrite app_nth2 by lia. replace (length pre + i - length pre) with i by lia. rewrite app_nth1 by exact Hi. reflexivity.
Qed.

Lemma raw_nobody : forall leaves w, (forall o, In o w -> leaves o = false) -> notify_raw leaves w = (w, w).
Proof.
  intros leaves w H. unfold notify_raw. rewrite <- (app_nil_r (seq 0 (length w))). rewrite raw_prefix.
  - cbn [deliver_raw]. rewrite app_nil_r, firstn_all. f_equal. apply (map_nth_seq w [] w []). rewrite app_nil_r. reflexivity.
  - intros i Hi. apply in_seq in Hi. lia.
  - intros i o _ Ho. apply H. apply nth_error_In in Ho. exact Ho.
Qed.

Lemma raw_leaves : forall a pre post, NoDup (pre ++ a :: post) ->
  notify_raw (Nat.eqb a) (pre ++ a :: post) = (pre ++ a :: tl (post ++ [last post a]), pre ++ post).
Proof.
  intros a pre post N. unfold notify_raw. set (w := pre ++ a :: post).
  assert (Na : ~ In a (pre ++ post)) by (apply NoDup_remove_2; exact N).
  assert (Lw : length w = length pre + S (length post)) by (unfold w; rewrite app_length; reflexivity).
  rewrite Lw, seq_app. cbn [plus]. rewrite raw_prefix.
  2:{ intros i Hi. apply in_seq in Hi. lia. }
  2:{ intros i o Hi Ho. apply in_seq in Hi. unfold w in Ho. rewrite nth_error_app1 in Ho by lia. apply nth_error_In in Ho.
      apply Nat.eqb_neq. intros ->. apply Na. apply in_app_iff. left. exact Ho. }
  pose proof (map_nth_seq w [] pre (a :: post) eq_refl) as Mp. cbn [length] in Mp. rewrite Mp.
  cbn [seq deliver_raw]. unfold w at 1. rewrite nth_error_app2 by lia. rewrite Nat.sub_diag. cbn [nth_error].
  rewrite Nat.eqb_refl. unfold squeeze. rewrite <- Lw, firstn_all.
  assert (K : remove a w = pre ++ post).
  { unfold w, remove. rewrite filter_app. cbn [filter]. rewrite Nat.eqb_refl. cbn [negb].
    change (remove a pre ++ remove a post = pre ++ post). rewrite !remove_other; [reflexivity| |];
      intro X; apply Na; apply in_app_iff; auto. }
  rewrite K.
  assert (T : skipn (length (pre ++ post)) w = [last post a]).
  { unfold w. rewrite app_length, skipn_app. rewrite skipn_all2 by lia. cbn [app].
    replace (length pre + length post - length pre) with (length post) by lia. clear.
    revert a. induction post as [|b post IH]; intro a; [reflexivity|]. cbn [length].
    change (skipn (S (length post)) (a :: b :: post)) with (skipn (length post) (b :: post)). rewrite IH.
    destruct post; [reflexivity|]. f_equal. clear. revert b n. induction post as [|c post IH]; intros b n; [reflexivity|].
    change (last (c :: post) b = last (c :: post) a). clear. revert c. induction post as [|d post IH]; intro c; [reflexivity|]. apply IH. }
  rewrite T. set (mem := (pre ++ post) ++ [last post a]).
  assert (Lm : length mem = length pre + S (length post)) by (unfold mem; rewrite !app_length; cbn; lia).
  rewrite <- (app_nil_r (seq (S (length pre)) (length post))). rewrite raw_prefix.
  - cbn [deliver_raw]. rewrite app_nil_r. f_equal.
    + f_equal. f_equal. unfold mem. destruct post as [|b post]; [reflexivity|].
      assert (Q := map_nth_seq ((pre ++ b :: post) ++ [last (b :: post) a]) (pre ++ [b]) (post ++ [last (b :: post) a]) []).
      rewrite !app_length in Q. cbn [length] in Q. rewrite !Nat.add_1_r in Q. apply Q. rewrite app_nil_r, <- !app_assoc. reflexivity.
    + unfold mem. rewrite firstn_app, firstn_all, Nat.sub_diag. cbn. apply app_nil_r.
  - intros i Hi. apply in_seq in Hi. lia.
  - intros i o Hi Ho. apply in_seq in Hi. apply Nat.eqb_neq. intros <-. unfold mem in Ho.
    destruct post as [|b post]; [cbn in Hi; lia|].
    apply nth_error_In in Ho. apply in_app_iff in Ho. destruct Ho as [Ho|[Ho|[]]]; [contradiction|].
    apply Na. rewrite <- Ho. apply in_app_iff. right. clear. revert b. induction post as [|c post IH]; intro b; [left; reflexivity|].
    right. apply IH.
Qed.
