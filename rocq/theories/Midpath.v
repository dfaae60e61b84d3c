(** The check for path crossings at the endgame boundary,
    core/include/bertini2/nag_algorithms/midpath_check.hpp. *)
From Coq Require Import List Lia Reals Lra Bool Arith.
From Coquelicot Require Import Complex.
From Verif Require Import Base Newton Endgame EgSeries EgSeriesEx.
Import ListNotations.
Local Open Scope R_scope.

Notation point := (nat -> C).

(** struct CrossedPath, midpath_check.hpp:74-108: the index, the paths it crossed with (paired with the flag called
    same_start), and the flag rerun_. *)
Record crossing := Crossing { index : nat; partners : list (nat * bool); rerun : bool }.

(** The constructor, midpath_check.hpp:76-81: rerun_ = !same_start. *)
Definition new_crossing (i j : nat) (same_start : bool) : crossing :=
  Crossing i [(j, same_start)] (negb same_start).

(** v.crossed_with(make_pair(j,same_start)); v.rerun(same_start): midpath_check.hpp:89-97. *)
Definition add_partner (j : nat) (same_start : bool) (v : crossing) : crossing :=
  Crossing (index v) (partners v ++ [(j, same_start)]) (rerun v || negb same_start).

(** The data of a MidpathChecker, midpath_check.hpp:210-211. *)
Record checker := Checker { crossed : list crossing; passed : bool }.

(** MidpathChecker(config...), midpath_check.hpp:62-66. *)
Definition new_checker : checker := Checker [] true.

Section Midpath.
Variable nv : nat. (* number of coordinates of the points *)
Variable tol : R. (* same_point_tolerance *)
Variable start : nat -> point. (* start_system.StartPoint *)

Definition lt_bool (a b : R) : bool := if Rlt_dec a b then true else false.

(** The condition of midpath_check.hpp:153.  Dividing by the norm of the zero vector gives infinity or not-a-number,
    which is not less than the tolerance. *)
Definition close (x y : point) : bool :=
  if Req_EM_T (sup nv x) 0 then false else lt_bool (apart nv x y / sup nv x) tol.

(** same_start, midpath_check.hpp:159-161 (as it is written there: the distance exceeds the tolerance). *)
Definition same_start (i j : nat) : bool := lt_bool tol (apart nv (start i) (start j)).

(** midpath_check.hpp:155-193: record that the paths i and j have crossed. *)
Definition record_crossing (st : checker) (ij : nat * nat) : checker :=
  let (i, j) := ij in
  let s := same_start i j in
  let visit v :=
    let v1 := if Nat.eqb (index v) i then add_partner j s v else v in
    if Nat.eqb (index v1) j then add_partner i s v1 else v1 in
  let stored k := existsb (fun v => Nat.eqb (index v) k) (crossed st) in
  Checker (map visit (crossed st)
           ++ (if stored i then [] else [new_crossing i j s])
           ++ (if stored j then [] else [new_crossing j i s]))
          false.

(** One boundary point: path_point and success_code of EGBoundaryMetaData, zero_dim_solve.hpp:201-208. *)
Notation boundary := (list (point * code)).

Definition inner (data : boundary) (i : nat) (x : point) (st : checker) (j : nat) : checker :=
  match nth_error data j with
  | Some (y, Success) => if close x y then record_crossing st (i, j) else st
  | _ => st
  end.

Definition outer (data : boundary) (st : checker) (i : nat) : checker :=
  match nth_error data i with
  | Some (x, Success) => fold_left (inner data i x) (seq (S i) (length data - S i)) st
  | _ => st
  end.

(** Check, midpath_check.hpp:134-200: the new state and the returned value. *)
Definition check (data : boundary) (st : checker) : checker * bool :=
  let st' := fold_left (outer data) (seq 0 (length data)) st in (st', passed st').

(** ** The pairs of crossing paths *)

Definition inner_pairs (data : boundary) (i : nat) (x : point) (j : nat) : list (nat * nat) :=
  match nth_error data j with
  | Some (y, Success) => if close x y then [(i, j)] else []
  | _ => []
  end.

Definition outer_pairs (data : boundary) (i : nat) : list (nat * nat) :=
  match nth_error data i with
  | Some (x, Success) => flat_map (inner_pairs data i x) (seq (S i) (length data - S i))
  | _ => []
  end.

Definition pairs (data : boundary) : list (nat * nat) := flat_map (outer_pairs data) (seq 0 (length data)).

Lemma fold_flat : forall {A B S : Type} (f : S -> A -> S) (g : A -> list B) (h : S -> B -> S) l st,
  (forall st a, f st a = fold_left h (g a) st) -> fold_left f l st = fold_left h (flat_map g l) st.
Proof.
  intros A B S f g h l st H. revert st. induction l as [|a l IH]; intro st; cbn; [reflexivity|].
  rewrite fold_left_app, IH, H. reflexivity.
Qed.

Lemma check_pairs : forall data st, fst (check data st) = fold_left record_crossing (pairs data) st.
Proof.
  intros data st. cbn [check fst]. apply fold_flat. intros st1 i. unfold outer, outer_pairs.
  destruct (nth_error data i) as [[x []]|]; try reflexivity.
  apply fold_flat. intros st2 j. unfold inner, inner_pairs.
  destruct (nth_error data j) as [[y []]|]; try reflexivity. destruct (close x y); reflexivity.
Qed.

(** The paths i < j both reached the boundary, and the distance is below the tolerance relative to the first point. *)
Definition meets (data : boundary) (i j : nat) : Prop :=
  (i < j)%nat /\ exists x y, nth_error data i = Some (x, Success) /\ nth_error data j = Some (y, Success) /\
    apart nv x y < tol * sup nv x.

Lemma sup_nonneg : forall x, 0 <= sup nv x.
Proof. clear. intro x. apply linf_nonneg. Qed.

Lemma lt_bool_spec : forall a b, lt_bool a b = true <-> a < b.
Proof. clear. intros. unfold lt_bool. destruct (Rlt_dec a b); split; intros; auto; discriminate. Qed.

Lemma close_spec : forall x y, close x y = true <-> apart nv x y < tol * sup nv x.
Proof.
  clear start. intros x y. unfold close. pose proof (sup_nonneg x) as H. pose proof (apart_nonneg nv x y) as H0.
  destruct (Req_EM_T (sup nv x) 0) as [E|E].
  - rewrite E. split; [discriminate|]. intro K. lra.
  - rewrite lt_bool_spec. assert (P : 0 < sup nv x) by lra. split; intro K.
    + apply Rmult_lt_reg_r with (/ sup nv x); [apply Rinv_0_lt_compat; exact P|].
      rewrite Rmult_assoc, Rinv_r, Rmult_1_r by exact E. exact K.
    + apply Rmult_lt_reg_r with (sup nv x); [exact P|].
      unfold Rdiv. rewrite Rmult_assoc, Rinv_l, Rmult_1_r by exact E. exact K.
Qed.

Lemma pairs_spec : forall data i j, In (i, j) (pairs data) <-> meets data i j.
Proof.
  intros data i j. unfold pairs, meets. rewrite in_flat_map. split.
  - intros (a & Ha & H). unfold outer_pairs in H. destruct (nth_error data a) as [[x []]|] eqn:Ea; try contradiction.
    apply in_flat_map in H. destruct H as (b & Hb & H). unfold inner_pairs in H.
    destruct (nth_error data b) as [[y []]|] eqn:Eb; try contradiction.
    destruct (close x y) eqn:Ec; [|contradiction]. destruct H as [H|[]]. injection H as <- <-.
    apply in_seq in Hb. split; [lia|]. exists x, y. repeat split; auto. apply close_spec. exact Ec.
  - intros (L & x & y & Hi & Hj & K).
    assert (Li : (i < length data)%nat) by (apply nth_error_Some; rewrite Hi; discriminate).
    assert (Lj : (j < length data)%nat) by (apply nth_error_Some; rewrite Hj; discriminate).
    exists i. split; [apply in_seq; lia|]. unfold outer_pairs. rewrite Hi. apply in_flat_map.
    exists j. split; [apply in_seq; lia|]. unfold inner_pairs. rewrite Hj.
    apply close_spec in K. rewrite K. left. reflexivity.
Qed.

Lemma nodup_flat : forall {A B : Type} (g : A -> list B) (key : B -> A) l,
  NoDup l -> (forall a, NoDup (g a)) -> (forall a b, In b (g a) -> key b = a) -> NoDup (flat_map g l).
Proof.
  intros A B g key l N G K. induction N as [|a l Hn N IH]; cbn; [constructor|].
  assert (D : forall b, In b (g a) -> ~ In b (flat_map g l)).
  { intros b Hb Hb'. apply in_flat_map in Hb'. destruct Hb' as (a' & Ha' & Hb'). apply K in Hb, Hb'. congruence. }
  specialize (G a). induction G as [|b m Hm Gm IHm]; cbn; [exact IH|].
  constructor.
  - rewrite in_app_iff. intros [H|H]; [contradiction|]. apply (D b); [left; reflexivity|exact H].
  - clear IH. assert (IHm' := IHm). apply IHm'. intros b' Hb'. apply D. right. exact Hb'.
Qed.

Lemma pairs_nodup : forall data, NoDup (pairs data).
Proof.
  intro data. apply (nodup_flat _ fst).
  - apply seq_NoDup.
  - intro i. unfold outer_pairs. destruct (nth_error data i) as [[x []]|]; try constructor.
    apply (nodup_flat _ snd).
    + apply seq_NoDup.
    + intro j. unfold inner_pairs. destruct (nth_error data j) as [[y []]|]; try constructor.
      destruct (close x y); repeat constructor. intros [].
    + intros j b. unfold inner_pairs. destruct (nth_error data j) as [[y []]|]; try contradiction.
      destruct (close x y); [|contradiction]. intros [<-|[]]. reflexivity.
  - intros i b. unfold outer_pairs. destruct (nth_error data i) as [[x []]|]; try contradiction.
    intro H. apply in_flat_map in H. destruct H as (j & _ & H). unfold inner_pairs in H.
    destruct (nth_error data j) as [[y []]|]; try contradiction.
    destruct (close x y); [|contradiction]. destruct H as [<-|[]]. reflexivity.
Qed.

(** ** What is stored *)

Lemma apart_sym : forall x y, apart nv x y = apart nv y x.
Proof.
  clear. intros x y. unfold apart, sup. induction (seq 0 nv) as [|j l IH]; cbn; [reflexivity|].
  rewrite IH. f_equal. rewrite <- Cmod_opp. f_equal. ring.
Qed.

Lemma same_start_sym : forall i j, same_start i j = same_start j i.
Proof. intros. unfold same_start. rewrite apart_sym. reflexivity. Qed.

Definition linked (ps : list (nat * nat)) (i j : nat) : Prop := In (i, j) ps \/ In (j, i) ps.

Record stored_ok (ps : list (nat * nat)) (l : list crossing) : Prop := {
  ok_nodup : NoDup (map index l);
  ok_index : forall i, In i (map index l) <-> exists j, linked ps i j;
  ok_partner : forall v, In v l -> forall j s, In (j, s) (partners v) <-> linked ps (index v) j /\ s = same_start (index v) j;
  ok_once : forall v, In v l -> NoDup (map fst (partners v));
  ok_rerun : forall v, In v l -> (rerun v = true <-> exists j, linked ps (index v) j /\ same_start (index v) j = false)
}.

Lemma stored_spec : forall k l, existsb (fun v => Nat.eqb (index v) k) l = true <-> In k (map index l).
Proof.
  clear. intros k l. rewrite existsb_exists, in_map_iff. split; intros (v & A & B).
  - exists v. apply Nat.eqb_eq in B. auto.
  - exists v. split; [exact B|]. apply Nat.eqb_eq. exact A.
Qed.

Lemma linked_snoc : forall ps i j a b, linked (ps ++ [(i, j)]) a b <-> linked ps a b \/ (a = i /\ b = j) \/ (a = j /\ b = i).
Proof.
  clear. intros. unfold linked. rewrite !in_app_iff. cbn. split.
  - intros [[H|[H|[]]]|[H|[H|[]]]]; try injection H as <- <-; tauto.
  - intros [[H|H]|[[-> ->]|[-> ->]]]; tauto.
Qed.

Definition visit (i j : nat) (v : crossing) : crossing :=
  let s := same_start i j in
  let v1 := if Nat.eqb (index v) i then add_partner j s v else v in
  if Nat.eqb (index v1) j then add_partner i s v1 else v1.

Lemma visit_cases : forall i j v, i <> j ->
  (index v = i /\ visit i j v = add_partner j (same_start i j) v) \/
  (index v = j /\ visit i j v = add_partner i (same_start i j) v) \/
  (index v <> i /\ index v <> j /\ visit i j v = v).
Proof.
  intros i j v H. unfold visit. cbv zeta. destruct (Nat.eqb_spec (index v) i) as [E|E].
  - left. split; [exact E|]. cbn [index add_partner]. destruct (Nat.eqb_spec (index v) j); [congruence|reflexivity].
  - destruct (Nat.eqb_spec (index v) j) as [E'|E']; [right; left|right; right]; auto.
Qed.

Lemma visit_index : forall i j v, index (visit i j v) = index v.
Proof.
  intros i j v. unfold visit. cbv zeta. destruct (Nat.eqb (index v) i); cbn [index add_partner];
    destruct (Nat.eqb (index v) j); reflexivity.
Qed.

Lemma in_record : forall st i j v, In v (crossed (record_crossing st (i, j))) <->
  (exists w, In w (crossed st) /\ v = visit i j w) \/
  (~ In i (map index (crossed st)) /\ v = new_crossing i j (same_start i j)) \/
  (~ In j (map index (crossed st)) /\ v = new_crossing j i (same_start i j)).
Proof.
  intros st i j v. cbn [record_crossing crossed]. fold (visit i j). rewrite !in_app_iff, in_map_iff.
  pose proof (stored_spec i (crossed st)) as Si. pose proof (stored_spec j (crossed st)) as Sj.
  destruct (existsb (fun v0 => Nat.eqb (index v0) i) (crossed st));
  destruct (existsb (fun v0 => Nat.eqb (index v0) j) (crossed st)); cbn [In].
  - split.
    + intros [(w & E & H)|[[]|[]]]. left. exists w. auto.
    + intros [(w & H & E)|[[K _]|[K _]]]; [left; exists w; auto|exfalso; apply K; apply Si; reflexivity|exfalso; apply K; apply Sj; reflexivity].
  - assert (Nj : ~ In j (map index (crossed st))) by (intro K; apply Sj in K; discriminate). split.
    + intros [(w & E & H)|[[]|[H|[]]]]; [left; exists w; auto|right; right; auto].
    + intros [(w & H & E)|[[K _]|[K E]]]; [left; exists w; auto|exfalso; apply K; apply Si; reflexivity|right; right; left; auto].
  - assert (Ni : ~ In i (map index (crossed st))) by (intro K; apply Si in K; discriminate). split.
    + intros [(w & E & H)|[[H|[]]|[]]]; [left; exists w; auto|right; left; auto].
    + intros [(w & H & E)|[[K E]|[K _]]]; [left; exists w; auto|right; left; left; auto|exfalso; apply K; apply Sj; reflexivity].
  - assert (Nj : ~ In j (map index (crossed st))) by (intro K; apply Sj in K; discriminate).
    assert (Ni : ~ In i (map index (crossed st))) by (intro K; apply Si in K; discriminate). split.
    + intros [(w & E & H)|[[H|[]]|[H|[]]]]; [left; exists w; auto|right; left; auto|right; right; auto].
    + intros [(w & H & E)|[[K E]|[K E]]]; [left; exists w; auto|right; left; left; auto|right; right; left; auto].
Qed.

Lemma record_index : forall st i j, i <> j -> NoDup (map index (crossed st)) ->
  NoDup (map index (crossed (record_crossing st (i, j)))).
Proof.
  intros st i j D N. cbn [record_crossing crossed]. fold (visit i j). rewrite !map_app, map_map.
  rewrite (map_ext _ index) by (intro; apply visit_index).
  pose proof (stored_spec i (crossed st)) as Si. pose proof (stored_spec j (crossed st)) as Sj.
  assert (A : forall (l : list nat) k, NoDup l -> ~ In k l -> NoDup (l ++ [k])).
  { clear. intros l k N H. apply NoDup_rev in N. rewrite <- (rev_involutive (l ++ [k])). apply NoDup_rev.
    rewrite rev_app_distr. cbn. constructor; [|exact N]. rewrite <- in_rev. exact H. }
  destruct (existsb (fun v0 => Nat.eqb (index v0) i) (crossed st));
  destruct (existsb (fun v0 => Nat.eqb (index v0) j) (crossed st)); cbn [map app index new_crossing].
  - rewrite app_nil_r. exact N.
  - apply A; [exact N|]. intro K; apply Sj in K; discriminate.
  - apply A; [exact N|]. intro K; apply Si in K; discriminate.
  - change (map index (crossed st) ++ [i; j]) with (map index (crossed st) ++ ([i] ++ [j])). rewrite app_assoc.
    apply A; [apply A|].
    + exact N.
    + intro K; apply Si in K; discriminate.
    + rewrite in_app_iff. cbn. intros [K|[K|[]]]; [apply Sj in K; discriminate|congruence].
Qed.

Lemma record_ok : forall ps st i j, (i < j)%nat -> ~ In (i, j) ps -> (forall a b, In (a, b) ps -> (a < b)%nat) ->
  stored_ok ps (crossed st) -> stored_ok (ps ++ [(i, j)]) (crossed (record_crossing st (i, j))).
Proof.
  intros ps st i j L New Ord [N I P O R]. assert (D : i <> j) by lia.
  assert (Lij : ~ linked ps i j).
  { intros [H|H]; [contradiction|]. apply Ord in H. lia. }
  assert (Lji : ~ linked ps j i) by (intros [H|H]; apply Lij; [right|left]; exact H).
  assert (fresh : forall k, ~ In k (map index (crossed st)) -> forall b, ~ linked ps k b).
  { intros k H b Hb. apply H. apply I. exists b. exact Hb. }
  split.
  - apply record_index; assumption.
  - intro k. rewrite in_map_iff. split.
    + intros (v & E & H). apply in_record in H. destruct H as [(w & Hw & ->)|[[H ->]|[H ->]]].
      * rewrite visit_index in E. destruct (proj1 (I k)) as (b & Hb); [apply in_map_iff; exists w; auto|].
        exists b. apply linked_snoc. left. exact Hb.
      * cbn in E. subst k. exists j. apply linked_snoc. tauto.
      * cbn in E. subst k. exists i. apply linked_snoc. tauto.
    + assert (K : forall m, In m (map index (crossed st)) -> exists v, index v = m /\ In v (crossed (record_crossing st (i, j)))).
      { intros m Hm. apply in_map_iff in Hm. destruct Hm as (w & Ew & Hw). exists (visit i j w).
        rewrite visit_index. split; [exact Ew|]. apply in_record. left. exists w. auto. }
      intros (b & Hb). apply linked_snoc in Hb. destruct Hb as [Hb|[[-> ->]|[-> ->]]].
      * apply K, I. exists b. exact Hb.
      * destruct (in_dec Nat.eq_dec i (map index (crossed st))) as [H|H]; [apply K; exact H|].
        exists (new_crossing i j (same_start i j)). split; [reflexivity|]. apply in_record. tauto.
      * destruct (in_dec Nat.eq_dec j (map index (crossed st))) as [H|H]; [apply K; exact H|].
        exists (new_crossing j i (same_start i j)). split; [reflexivity|]. apply in_record. tauto.
  - intros v H b s. apply in_record in H. destruct H as [(w & Hw & ->)|[[H ->]|[H ->]]].
    + rewrite visit_index. rewrite linked_snoc. specialize (P w Hw b s).
      destruct (visit_cases i j w D) as [[E V]|[[E V]|[E1 [E2 V]]]]; rewrite V.
      * cbn [partners add_partner]. rewrite in_app_iff, P. cbn [In]. rewrite E in *. split.
        -- intros [[A B]|[A|[]]]; [tauto|]. injection A as <- <-. tauto.
        -- intros [[A|[[_ ->]|[A _]]] ->]; [tauto|right; left; reflexivity|congruence].
      * cbn [partners add_partner]. rewrite in_app_iff, P. cbn [In]. rewrite E in *. split.
        -- intros [[A B]|[A|[]]]; [tauto|]. injection A as <- <-. rewrite (same_start_sym j i). tauto.
        -- intros [[A|[[A _]|[_ ->]]] ->]; [tauto|congruence|]. right. left. rewrite (same_start_sym j i). reflexivity.
      * rewrite P. split; [tauto|]. intros [[A|[[A _]|[A _]]] B]; [tauto|congruence|congruence].
    + cbn [partners new_crossing index In]. rewrite linked_snoc. split.
      * intros [A|[]]. injection A as <- <-. tauto.
      * intros [[A|[[_ ->]|[A _]]] ->]; [exfalso; apply (fresh i H b A)|left; reflexivity|congruence].
    + cbn [partners new_crossing index In]. rewrite linked_snoc. split.
      * intros [A|[]]. injection A as <- <-. rewrite (same_start_sym j i). tauto.
      * intros [[A|[[A _]|[_ ->]]] ->]; [exfalso; apply (fresh j H b A)|congruence|left; rewrite (same_start_sym j i); reflexivity].
  - assert (A : forall (l : list nat) k, NoDup l -> ~ In k l -> NoDup (l ++ [k])).
    { clear. intros l k N H. apply NoDup_rev in N. rewrite <- (rev_involutive (l ++ [k])). apply NoDup_rev.
      rewrite rev_app_distr. cbn. constructor; [|exact N]. rewrite <- in_rev. exact H. }
    intros v H. apply in_record in H. destruct H as [(w & Hw & ->)|[[H ->]|[H ->]]].
    + destruct (visit_cases i j w D) as [[E V]|[[E V]|[E1 [E2 V]]]]; rewrite V.
      * cbn [partners add_partner]. rewrite map_app. cbn [map fst]. apply A; [apply O; exact Hw|].
        intro K. apply in_map_iff in K. destruct K as ([b s] & Eb & K). cbn in Eb. subst b.
        apply (P w Hw) in K. rewrite E in K. apply Lij. tauto.
      * cbn [partners add_partner]. rewrite map_app. cbn [map fst]. apply A; [apply O; exact Hw|].
        intro K. apply in_map_iff in K. destruct K as ([b s] & Eb & K). cbn in Eb. subst b.
        apply (P w Hw) in K. rewrite E in K. apply Lji. tauto.
      * apply O. exact Hw.
    + cbn. repeat constructor. intros [].
    + cbn. repeat constructor. intros [].
  - intros v H. apply in_record in H. destruct H as [(w & Hw & ->)|[[H ->]|[H ->]]].
    + rewrite visit_index. specialize (R w Hw).
      assert (X : forall a b, index w = a -> (a = i /\ b = j) \/ (a = j /\ b = i) ->
        (rerun (add_partner b (same_start i j) w) = true <->
         exists k, linked (ps ++ [(i, j)]) (index w) k /\ same_start (index w) k = false)).
      { intros a b E AB. cbn [rerun add_partner]. rewrite orb_true_iff, R, negb_true_iff.
        assert (S : same_start (index w) b = same_start i j).
        { rewrite E. destruct AB as [[-> ->]|[-> ->]]; [reflexivity|apply same_start_sym]. }
        split.
        - intros [(k & A & B)|A].
          + exists k. rewrite linked_snoc. tauto.
          + exists b. rewrite linked_snoc, S. split; [|exact A]. right. rewrite E. exact AB.
        - intros (k & A & B). rewrite linked_snoc in A. destruct A as [A|A].
          + left. exists k. tauto.
          + right. rewrite <- S. replace b with k; [exact B|]. rewrite E in A. destruct AB as [[-> ->]|[-> ->]]; destruct A as [[A1 A2]|[A1 A2]]; congruence. }
      destruct (visit_cases i j w D) as [[E V]|[[E V]|[E1 [E2 V]]]]; rewrite V.
      * apply (X i j E). tauto.
      * apply (X j i E). tauto.
      * rewrite R. split; intros (k & A & B); exists k; (split; [|exact B]).
        -- apply linked_snoc. tauto.
        -- apply linked_snoc in A. destruct A as [A|[[A _]|[A _]]]; [exact A|congruence|congruence].
    + cbn [rerun new_crossing index]. rewrite negb_true_iff. split.
      * intro S. exists j. rewrite linked_snoc. tauto.
      * intros (k & A & B). apply linked_snoc in A. destruct A as [A|[[_ ->]|[A _]]]; [exfalso; apply (fresh i H k A)|exact B|congruence].
    + cbn [rerun new_crossing index]. rewrite negb_true_iff. split.
      * intro S. exists i. rewrite linked_snoc, (same_start_sym j i). tauto.
      * intros (k & A & B). apply linked_snoc in A. destruct A as [A|[[A _]|[_ ->]]]; [exfalso; apply (fresh j H k A)|congruence|].
        rewrite (same_start_sym i j). exact B.
Qed.

Lemma records_ok : forall qs ps st, NoDup (ps ++ qs) -> (forall a b, In (a, b) (ps ++ qs) -> (a < b)%nat) ->
  stored_ok ps (crossed st) -> stored_ok (ps ++ qs) (crossed (fold_left record_crossing qs st)).
Proof.
  induction qs as [|[i j] qs IH]; intros ps st N Ord H.
  - rewrite app_nil_r. exact H.
  - cbn [fold_left]. change ((i, j) :: qs) with ([(i, j)] ++ qs) in *. rewrite app_assoc in *.
    apply IH; [exact N|exact Ord|]. apply record_ok.
    + apply Ord. rewrite !in_app_iff. cbn. tauto.
    + rewrite <- app_assoc in N. apply NoDup_remove_2 in N. rewrite in_app_iff in N. tauto.
    + intros a b K. apply Ord. rewrite !in_app_iff. tauto.
    + exact H.
Qed.

Lemma fold_passed : forall qs st, passed (fold_left record_crossing qs st) = (passed st && match qs with [] => true | _ => false end)%bool.
Proof.
  assert (F : forall qs st, passed st = false -> passed (fold_left record_crossing qs st) = false).
  { induction qs as [|[i j] qs IH]; intros st H; cbn [fold_left]; [exact H|]. apply IH. reflexivity. }
  intros [|[i j] qs] st; cbn [fold_left]; [rewrite andb_true_r; reflexivity|].
  rewrite andb_false_r. apply F. reflexivity.
Qed.

(** What a check returns, whatever was found before. *)
Lemma check_returns : forall data st,
  snd (check data st) = true <-> passed st = true /\ forall i j, ~ meets data i j.
Proof.
  intros data st. unfold check. cbn [snd]. change (fold_left (outer data) (seq 0 (length data)) st) with (fst (check data st)).
  rewrite check_pairs, fold_passed, andb_true_iff. split; intros [A B]; (split; [exact A|]).
  - intros i j M. apply pairs_spec in M. destruct (pairs data); [contradiction|discriminate].
  - destruct (pairs data) as [|[i j] ps] eqn:E; [reflexivity|]. exfalso. apply (B i j). apply pairs_spec. rewrite E. left. reflexivity.
Qed.

Lemma check_state : forall data st, passed (fst (check data st)) = snd (check data st).
Proof. reflexivity. Qed.

(** What the first check stores. *)
Lemma check_stores : forall data, stored_ok (pairs data) (crossed (fst (check data new_checker))).
Proof.
  intro data. rewrite check_pairs. apply (records_ok (pairs data) [] new_checker).
  - apply pairs_nodup.
  - cbn. intros a b H. apply pairs_spec in H. destruct H as [H _]. exact H.
  - split; cbn; try contradiction.
    + constructor.
    + intro i. split; [intros []|]. intros (j & [[]|[]]).
Qed.

Lemma linked_pairs : forall data i j, linked (pairs data) i j <-> meets data i j \/ meets data j i.
Proof. intros. unfold linked. rewrite !pairs_spec. tauto. Qed.

(** In terms of meets. *)
Lemma first_check : forall data,
  let l := crossed (fst (check data new_checker)) in
  NoDup (map index l) /\
  (forall i, In i (map index l) <-> exists j, meets data i j \/ meets data j i) /\
  forall v, In v l ->
    NoDup (map fst (partners v)) /\
    (forall j, In j (map fst (partners v)) <-> meets data (index v) j \/ meets data j (index v)) /\
    (rerun v = true <-> exists j, (meets data (index v) j \/ meets data j (index v)) /\ apart nv (start (index v)) (start j) <= tol).
Proof.
  intros data l. destruct (check_stores data) as [N I P O R]. fold l in N, I, P, O, R.
  split; [exact N|]. split.
  - intro i. rewrite I. split; intros (j & H); exists j; apply linked_pairs; exact H.
  - intros v Hv. split; [apply O; exact Hv|]. split.
    + intro j. rewrite in_map_iff, <- linked_pairs. split.
      * intros ([k s] & E & H). cbn in E. subst k. apply (P v Hv) in H. tauto.
      * intro H. exists (j, same_start (index v) j). split; [reflexivity|]. apply (P v Hv). tauto.
    + rewrite (R v Hv). assert (S : forall i j, same_start i j = false <-> apart nv (start i) (start j) <= tol).
      { intros i j. unfold same_start, lt_bool. destruct (Rlt_dec tol (apart nv (start i) (start j))); split; intros; auto; try discriminate; lra. }
      split; intros (j & A & B); exists j; (split; [apply linked_pairs; exact A|apply S; exact B]).
Qed.

(** Every path once stored stays stored. *)
Lemma record_keeps : forall st p i, In i (map index (crossed st)) -> In i (map index (crossed (record_crossing st p))).
Proof.
  intros st [a b] i H. apply in_map_iff in H. destruct H as (w & E & H). apply in_map_iff.
  exists (visit a b w). rewrite visit_index. split; [exact E|]. apply in_record. left. exists w. auto.
Qed.

Lemma check_keeps : forall data st i, In i (map index (crossed st)) -> In i (map index (crossed (fst (check data st)))).
Proof.
  intros data st i. rewrite check_pairs. generalize (pairs data). intro ps. revert st.
  induction ps as [|p ps IH]; intros st H; cbn [fold_left]; [exact H|]. apply IH, record_keeps, H.
Qed.

(** If all start points are apart, nothing is ever marked for another run. *)
Lemma check_no_rerun : forall data st,
  (forall i j, (i < j < length data)%nat -> tol < apart nv (start i) (start j)) ->
  (forall v, In v (crossed st) -> rerun v = false) ->
  forall v, In v (crossed (fst (check data st))) -> rerun v = false.
Proof.
  intros data st A. rewrite check_pairs.
  assert (S : forall i j, In (i, j) (pairs data) -> i <> j /\ same_start i j = true).
  { intros i j H. apply pairs_spec in H. destruct H as (L & x & y & _ & Hj & _). split; [lia|]. apply lt_bool_spec, A.
    split; [exact L|]. apply nth_error_Some. rewrite Hj. discriminate. }
  revert S. generalize (pairs data). intro ps. revert st.
  induction ps as [|[i j] ps IH]; intros st S H; cbn [fold_left]; [exact H|].
  apply IH; [intros; apply S; right; assumption|]. destruct (S i j) as [D E]; [left; reflexivity|].
  intros v Hv. apply in_record in Hv. destruct Hv as [(w & Hw & ->)|[[_ ->]|[_ ->]]].
  - destruct (visit_cases i j w D) as [[_ V]|[[_ V]|[_ [_ V]]]]; rewrite V; cbn [rerun add_partner]; rewrite ?E, ?(H w Hw); reflexivity.
  - cbn. rewrite E. reflexivity.
  - cbn. rewrite E. reflexivity.
Qed.

End Midpath.
