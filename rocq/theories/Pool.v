(** The pool of shared objects, core/include/bertini2/pool/pool.hpp. *)
From Coq Require Import List Lia Bool Arith.
Import ListNotations.

(** A slot of held_data_ holds a pointer to an object (numbered) or, after it was moved from, nothing.  ext x is the
    number of owners of object x outside the pool. *)
Notation slot := (option nat).

Fixpoint occurrences (x : nat) (l : list slot) : nat :=
  match l with [] => 0 | Some y :: r => (if Nat.eqb x y then 1 else 0) + occurrences x r | None :: r => occurrences x r end.

(** use_count() of a slot when the memory of the pool is mem. *)
Definition use_count (ext : nat -> nat) (mem : list slot) (s : slot) : nat :=
  match s with Some x => ext x + occurrences x mem | None => 0 end.

(** std::remove_if, as called by PurgeCache, pool.hpp:103-106.  The memory is kept ++ gap ++ rest: result points to
    the first slot of the gap, first to the first slot of the rest.  A slot which is to go stays in the gap; a slot which
    stays is moved to result, what was there is released, and the slot it came from is empty. *)
Fixpoint remove_if (ext : nat -> nat) (kept gap rest : list slot) : list slot * list slot :=
  match rest with
  | [] => (kept, gap)
  | s :: r =>
      if Nat.eqb (use_count ext (kept ++ gap ++ rest) s) 1 then remove_if ext kept (gap ++ [s]) r
      else match gap with
           | [] => remove_if ext (kept ++ [s]) [] r
           | _ :: g => remove_if ext (kept ++ [s]) (g ++ [None]) r
           end
  end.

(** PurgeCache: remove_if, whose result (the new end) is dropped. *)
Definition purge (ext : nat -> nat) (mem : list slot) : list slot :=
  let (kept, gap) := remove_if ext [] [] mem in kept ++ gap.

(** Live objects, for Make, pool.hpp:91-100: obj is allocated and never used, thing goes into the pool. *)
Record world := World { next : nat; live : list nat; held : list slot }.
Definition make (w : world) : world * nat :=
  (World (S (S (next w))) (live w ++ [next w; S (next w)]) (held w ++ [Some (S (next w))]), S (next w)).

(** ** Properties *)

Definition referenced (ext : nat -> nat) (mem : list slot) (s : slot) : bool := negb (Nat.eqb (use_count ext mem s) 1).

Lemma occ_app : forall x l m, occurrences x (l ++ m) = occurrences x l + occurrences x m.
Proof. intros x l m. induction l as [|[y|] l IH]; cbn; rewrite ?IH; lia. Qed.

Lemma occ_in : forall x l, In (Some x) l -> 1 <= occurrences x l.
Proof.
  intros x l. induction l as [|s l IH]; [intros []|]. intros [->|H]; cbn.
  - rewrite Nat.eqb_refl. lia.
  - specialize (IH H). destruct s as [y|]; [destruct (Nat.eqb x y)|]; lia.
Qed.

(** The invariant: the slots of the rest have the counts they had at the start; the gap holds nothing or objects
    nobody else holds. *)
Lemma remove_if_spec : forall ext mem rest kept gap,
  (forall x, In (Some x) rest -> occurrences x (kept ++ gap ++ rest) = occurrences x mem) ->
  (forall s, In s gap -> s = None \/ exists x, s = Some x /\ use_count ext mem s = 1 /\ occurrences x (kept ++ gap ++ rest) = 1) ->
  exists gap', remove_if ext kept gap rest = (kept ++ filter (referenced ext mem) rest, gap') /\
    length gap' = length gap + length (filter (fun s => negb (referenced ext mem s)) rest) /\
    forall s, In s gap' -> s = None \/ use_count ext mem s = 1.
Proof.
  intros ext mem rest. induction rest as [|s r IH]; intros kept gap A B; cbn [remove_if filter].
  - exists gap. rewrite app_nil_r. cbn. split; [reflexivity|]. split; [lia|].
    intros s H. destruct (B s H) as [->|(x & _ & U & _)]; auto.
  - assert (U : use_count ext (kept ++ gap ++ s :: r) s = use_count ext mem s).
    { destruct s as [x|]; [|reflexivity]. cbn [use_count]. rewrite A by (left; reflexivity). reflexivity. }
    rewrite U. assert (Rf : referenced ext mem s = negb (Nat.eqb (use_count ext mem s) 1)) by reflexivity. rewrite Rf.
    destruct (Nat.eqb_spec (use_count ext mem s) 1) as [E|E]; cbn [negb].
    + destruct s as [x|]; [|discriminate].
      destruct (IH kept (gap ++ [Some x])) as (gap' & R & L & G).
      * intros y Hy. rewrite <- (A y) by (right; exact Hy). rewrite <- !app_assoc. reflexivity.
      * assert (Q : kept ++ (gap ++ [Some x]) ++ r = kept ++ gap ++ Some x :: r) by (rewrite <- !app_assoc; reflexivity).
        rewrite Q. intros s Hs. apply in_app_iff in Hs. destruct Hs as [Hs|[<-|[]]]; [apply B; exact Hs|].
        right. exists x. split; [reflexivity|]. split; [exact E|].
        rewrite A by (left; reflexivity). cbn [use_count] in E.
        assert (1 <= occurrences x mem); [|lia]. rewrite <- (A x) by (left; reflexivity). apply occ_in.
        rewrite !in_app_iff. cbn. tauto.
      * exists gap'. split; [exact R|]. split; [|exact G]. rewrite L, app_length. cbn. lia.
    + destruct gap as [|g gap].
      * destruct (IH (kept ++ [s]) []) as (gap' & R & L & G).
        -- intros y Hy. rewrite <- (A y) by (right; exact Hy). cbn. rewrite <- app_assoc. reflexivity.
        -- intros s' [].
        -- exists gap'. rewrite R, <- app_assoc. split; [reflexivity|]. split; [exact L|exact G].
      * clear Rf. assert (Q : forall y, g <> Some y -> occurrences y ((kept ++ [s]) ++ (gap ++ [None]) ++ r) = occurrences y (kept ++ (g :: gap) ++ s :: r)).
        { intros y Hy. rewrite !occ_app. cbn [occurrences app]. rewrite ?occ_app. cbn [occurrences].
          destruct g as [z|].
          - destruct (Nat.eqb_spec y z) as [->|]; [contradiction Hy; reflexivity|]. destruct s as [v|]; [destruct (Nat.eqb y v)|]; lia.
          - destruct s as [v|]; [destruct (Nat.eqb y v)|]; lia. }
        assert (Only : forall y, g = Some y -> occurrences y (kept ++ (g :: gap) ++ s :: r) = 1).
        { intros y ->. destruct (B (Some y) (or_introl eq_refl)) as [K|(x & K & _ & O)]; [discriminate|]. injection K as <-. exact O. }
        assert (NotIn : forall y, In (Some y) (gap ++ r) -> g <> Some y).
        { intros y Hy ->. specialize (Only y eq_refl). rewrite !occ_app in Only. cbn [occurrences app] in Only.
          rewrite ?occ_app in Only. cbn [occurrences] in Only. rewrite Nat.eqb_refl in Only.
          pose proof (occ_in y (gap ++ r) Hy) as O. rewrite occ_app in O. destruct s as [v|]; [destruct (Nat.eqb y v)|]; lia. }
        destruct (IH (kept ++ [s]) (gap ++ [None])) as (gap' & R & L & G).
        -- intros y Hy. rewrite Q by (apply NotIn; apply in_app_iff; right; exact Hy). apply A. right. exact Hy.
        -- intros s' Hs. apply in_app_iff in Hs. destruct Hs as [Hs|[<-|[]]]; [|left; reflexivity].
           destruct (B s' (or_intror Hs)) as [->|(x & -> & Ux & O)]; [left; reflexivity|]. right. exists x.
           split; [reflexivity|]. split; [exact Ux|]. rewrite Q; [exact O|]. apply NotIn. apply in_app_iff. left. exact Hs.
        -- exists gap'. rewrite R, <- app_assoc. split; [reflexivity|]. split; [|exact G].
           rewrite L, app_length. cbn. lia.
Qed.

Lemma purge_spec : forall ext mem, exists gap,
  purge ext mem = filter (referenced ext mem) mem ++ gap /\
  length gap = length (filter (fun s => negb (referenced ext mem s)) mem) /\
  forall s, In s gap -> s = None \/ use_count ext mem s = 1.
Proof.
  intros ext mem. destruct (remove_if_spec ext mem mem [] []) as (gap & R & L & G).
  - intros x _. reflexivity.
  - intros s [].
  - exists gap. unfold purge. rewrite R. split; [reflexivity|]. split; [exact L|exact G].
Qed.

Lemma filter_lengths : forall {A} (f : A -> bool) l, length (filter f l) + length (filter (fun x => negb (f x)) l) = length l.
Proof. intros A f l. induction l as [|a l IH]; cbn; [reflexivity|]. destruct (f a); cbn; lia. Qed.

Lemma purge_size : forall ext mem, length (purge ext mem) = length mem.
Proof. intros ext mem. destruct (purge_spec ext mem) as (gap & -> & L & _). rewrite app_length, L. apply filter_lengths. Qed.

(** Nothing is dropped if the referenced objects come first. *)
Lemma purge_nothing : forall ext mem a b, mem = a ++ b ->
  (forall s, In s a -> referenced ext mem s = true) -> (forall s, In s b -> referenced ext mem s = false) ->
  purge ext mem = mem.
Proof.
  intros ext mem a b -> Ha Hb. unfold purge.
  assert (A : forall a' k, (forall s, In s a' -> referenced ext (a ++ b) s = true) -> k ++ a' = a ->
     remove_if ext k [] (a' ++ b) = remove_if ext (k ++ a') [] b).
  { induction a' as [|s a' IH]; intros k H E; cbn [app]; [rewrite app_nil_r; reflexivity|].
    cbn [remove_if app]. replace (k ++ s :: a' ++ b) with (a ++ b) by (rewrite <- E, <- app_assoc; reflexivity).
    pose proof (H s (or_introl eq_refl)) as Hs. unfold referenced in Hs. apply negb_true_iff in Hs. rewrite Hs.
    rewrite (IH (k ++ [s])); [rewrite <- app_assoc; reflexivity|intros x Hx; apply H; right; exact Hx|rewrite <- app_assoc; exact E]. }
  rewrite (A a [] Ha eq_refl). cbn [app].
  assert (B : forall b' g, (forall s, In s b' -> referenced ext (a ++ b) s = false) -> g ++ b' = b ->
     remove_if ext a g b' = (a, g ++ b')).
  { induction b' as [|s b' IH]; intros g H E; cbn [remove_if]; [rewrite app_nil_r; reflexivity|].
    rewrite E. pose proof (H s (or_introl eq_refl)) as Hs. unfold referenced in Hs. apply negb_false_iff in Hs. rewrite Hs.
    rewrite (IH (g ++ [s])); [rewrite <- app_assoc; cbn [app]; rewrite E; reflexivity|intros x Hx; apply H; right; exact Hx|rewrite <- app_assoc; exact E]. }
  rewrite (B b [] Hb eq_refl). reflexivity.
Qed.

(** A referenced object keeps all its slots. *)
Lemma purge_keeps : forall ext mem x, In (Some x) mem -> 2 <= ext x + occurrences x mem ->
  occurrences x (purge ext mem) = occurrences x mem.
Proof.
  intros ext mem x H U. destruct (purge_spec ext mem) as (gap & -> & _ & G). rewrite occ_app.
  assert (Z : occurrences x gap = 0).
  { clear - G U. induction gap as [|s gap IH]; cbn; [reflexivity|]. destruct s as [y|].
    - destruct (Nat.eqb_spec x y) as [<-|].
      + destruct (G (Some x) (or_introl eq_refl)) as [K|K]; [discriminate|]. cbn in K. lia.
      + cbn. apply IH. intros s Hs. apply G. right. exact Hs.
    - apply IH. intros s Hs. apply G. right. exact Hs. }
  rewrite Z, Nat.add_0_r. clear - U.
  assert (Gen : forall l, occurrences x (filter (referenced ext mem) l) = occurrences x l); [|apply Gen].
  induction l as [|s l IH]; cbn; [reflexivity|]. destruct (referenced ext mem s) eqn:R; cbn.
  - destruct s; rewrite IH; reflexivity.
  - rewrite IH. destruct s as [y|]; [|reflexivity]. destruct (Nat.eqb_spec x y) as [<-|]; [|reflexivity].
    unfold referenced in R. apply negb_false_iff in R. apply Nat.eqb_eq in R. cbn in R. lia.
Qed.
