(** Facts about the endgames of Endgame.v: the sizes of their containers, the codes they return, and
    termination. *)
From Coq Require Import List ZArith Lia Reals Lra Bool Arith.
From Coquelicot Require Import Complex.
From Verif Require Import Base ComplexField Newton Endgame.
Import ListNotations.
Local Open Scope R_scope.

(** ** Deques *)

Lemma back_app : forall A (l : list A) a, back (l ++ [a]) = Some a.
Proof. intros. unfold back. rewrite rev_app_distr. reflexivity. Qed.

Lemma back_some : forall A (l : list A), (1 <= length l)%nat -> exists a, back l = Some a.
Proof.
  intros A l H. unfold back. destruct (rev l) as [|a r] eqn:E.
  - apply (f_equal (@length A)) in E. rewrite rev_length in E. cbn in E. lia.
  - exists a. reflexivity.
Qed.

Lemma front_some : forall A (l : list A), (1 <= length l)%nat -> exists a, front l = Some a.
Proof. intros A [|a l] H; cbn in *; [lia|]. exists a. reflexivity. Qed.

Lemma removelast_length : forall A (l : list A), length (removelast l) = (length l - 1)%nat.
Proof.
  intros A l. induction l as [|a l IH]; [reflexivity|]. cbn [removelast length].
  destruct l as [|b l]; [reflexivity|]. cbn [length] in *. rewrite IH. lia.
Qed.

Lemma set_back_length : forall A (l : list A) a, (1 <= length l)%nat -> length (set_back l a) = length l.
Proof. intros. unfold set_back. rewrite app_length, removelast_length. cbn. lia. Qed.

Lemma set_front_length : forall A (l : list A) a, length (set_front l a) = length l.
Proof. intros A [|b l] a; reflexivity. Qed.

Lemma rotate_length : forall A (l : list A) a, (1 <= length l)%nat -> length (tl l ++ [a]) = length l.
Proof. intros A [|b l] a H; cbn in *; [lia|]. rewrite app_length. cbn. lia. Qed.

(** ** A small logic for outcomes: no exception, no undefined behaviour, and, when T is False, no
    lack of fuel *)

Definition post {A} (T : Prop) (o : out A) (Q : A -> Prop) : Prop :=
  match o with Ok a => Q a | More _ => T | _ => False end.

Lemma post_bind : forall A B T (o : out A) (k : A -> out B) Q Q',
  post T o Q -> (forall a, Q a -> post T (k a) Q') -> post T (bind o k) Q'.
Proof. intros A B T o k Q Q' H K. destruct o; cbn in *; auto. Qed.

Lemma post_when : forall A T (o : out (code * est)) (g : code * est -> A) k Q (Q' : A -> Prop),
  post T o (fun r => if is_success (fst r) then Q (snd r) else Q' (g r)) ->
  (forall s, Q s -> post T (k s) Q') -> post T (when_ok o g k) Q'.
Proof.
  intros A T o g k Q Q' H K. unfold when_ok. apply post_bind with (1 := H). intros r Hr.
  destruct (is_success (fst r)); [apply K; exact Hr|exact Hr].
Qed.

Lemma post_weaken : forall A T (o : out A) (Q Q' : A -> Prop),
  post T o Q -> (forall a, Q a -> Q' a) -> post T o Q'.
Proof. intros A T o Q Q' H K. destruct o; cbn in *; auto. Qed.

Lemma success_iff : forall c, is_success c = true <-> c = Success.
Proof. intros []; cbn; split; congruence. Qed.

Section Proofs.
Variable cfg : config.
Variable target : C.
Variable track : nat -> C -> C -> vec -> code * vec.
Variable refine : nat -> vec -> C -> code * vec.
Variable estimate : nat -> list vec -> R.
Variable nv : nat.
Variable dehom : vec -> vec.
Variable extrapolate : nat -> list C -> list vec -> vec.

Notation n := (num_sample_points cfg).
Notation f := (sample_factor cfg).
Notation fs := (fail_safe cfg).

Hypothesis n3 : (3 <= n)%nat.
Variable T : Prop.
Hypothesis Hf : T \/ 0 < f < 1.

(** the codes which can be returned without truncation *)
Definition usual (c : code) : Prop :=
  c = Success \/ c = MinTrackTimeReached \/ c = CycleNumTooHigh \/ exists k t t' x, c = fst (track k t t' x).

Definition PS (s : est) (m : nat) : Prop := length (ps_t s) = m /\ length (ps_x s) = m.
Definition CA (s : est) (m : nat) : Prop := length (ca_t s) = m /\ length (ca_x s) = m.
Definition same_ps (s s' : est) : Prop := ps_t s' = ps_t s /\ ps_x s' = ps_x s.
Definition same_ca (s s' : est) : Prop := ca_t s' = ca_t s /\ ca_x s' = ca_x s.

(** at most k more advances are possible *)
Definition bud (s : est) (k : nat) : Prop :=
  T \/ exists t, back (ps_t s) = Some t /\ (1 - f) ^ k * Cmod (t - target)%C < min_track_time cfg.

Lemma bud_same : forall s s' k, same_ps s s' -> bud s k -> bud s' k.
Proof. intros s s' k [E _] [H|[t [B H]]]; [left; exact H|]. right. exists t. rewrite E. auto. Qed.

Lemma cauchy_time_ratio : forall t, (cauchy_time cfg target t - target = RtoC (1 - f) * (t - target))%C.
Proof.
  intro t. unfold cauchy_time. replace (RtoC (1 - f)) with (RtoC 1 - RtoC f)%C.
  - ring.
  - unfold RtoC, Cminus, Cplus, Copp; cbn. f_equal; lra.
Qed.

Lemma cauchy_time_dist : forall t, Cmod (cauchy_time cfg target t - target)%C = Rabs (1 - f) * Cmod (t - target)%C.
Proof. intro t. rewrite cauchy_time_ratio, Cmod_mult, Cmod_R. reflexivity. Qed.

Lemma circle_loop_post : forall k ii start s m, CA s m -> (1 <= m)%nat ->
  post T (circle_loop cfg target track k ii start s) (fun r =>
    usual (fst r) /\ same_ps s (snd r) /\ cyc (snd r) = cyc s /\ hist (snd r) = hist s /\
    (is_success (fst r) = true -> CA (snd r) (m + k))).
Proof.
  induction k as [|k IH]; intros ii start s m Hc Hm; cbn [circle_loop].
  - cbn [post fst snd]. unfold usual, same_ps. rewrite Nat.add_0_r. auto 6.
  - destruct Hc as [Ht Hx].
    destruct (back_some _ (ca_t s) ltac:(lia)) as [t Et]. destruct (back_some _ (ca_x s) ltac:(lia)) as [x Ex].
    rewrite Et, Ex. set (t' := circle_time cfg target ii start). set (r := track (ntrack s) t t' x).
    destruct (is_success (fst r)) eqn:Es.
    + set (s1 := tracked _).
      refine (post_weaken _ _ _ _ _ (IH (S ii) start s1 (S m) _ _) _).
      * unfold CA, s1; cbn. rewrite !app_length. cbn. lia.
      * lia.
      * intros a (U & S1 & C1 & H1 & K). repeat match goal with |- _ /\ _ => split end; auto.
        intro E. replace (m + S k)%nat with (S m + k)%nat by lia. auto.
    + cbn [post fst snd]. rewrite Es. repeat match goal with |- _ /\ _ => split end; auto; try congruence.
      * unfold usual. right; right; right. exists (ntrack s), t, t', x. reflexivity.
      * split; reflexivity.
Qed.

Lemma circle_track_post : forall s m, CA s m -> (1 <= m)%nat ->
  post T (circle_track cfg target track s) (fun r =>
    usual (fst r) /\ same_ps s (snd r) /\ cyc (snd r) = cyc s /\ hist (snd r) = hist s /\
    (is_success (fst r) = true -> CA (snd r) (m + n))).
Proof.
  intros s m Hc Hm. unfold circle_track. destruct (Nat.ltb_spec n 3); [lia|].
  destruct (back_some _ (ca_t s) ltac:(destruct Hc; lia)) as [t Et]. rewrite Et.
  apply circle_loop_post; assumption.
Qed.

Lemma check_closed_post : forall s m, CA s m -> (1 <= m)%nat ->
  post T (check_closed cfg refine s) (fun b =>
    same_ps s (snd b) /\ cyc (snd b) = cyc s /\ hist (snd b) = hist s /\ CA (snd b) m).
Proof.
  intros s m [Ht Hx] Hm. unfold check_closed.
  destruct (front_some _ (ca_x s) ltac:(lia)) as [a Ea]. destruct (back_some _ (ca_x s) ltac:(lia)) as [b Eb].
  destruct (front_some _ (ca_t s) ltac:(lia)) as [ta Eta]. destruct (back_some _ (ca_t s) ltac:(lia)) as [tb Etb].
  rewrite Ea, Eb, Eta, Etb. destruct (lt_b (dist a b) (tracking_tolerance cfg)).
  - cbn. unfold same_ps, CA. auto.
  - set (xs1 := set_front _ _).
    assert (L1 : length xs1 = m) by (unfold xs1; rewrite set_front_length; exact Hx).
    destruct (back_some _ xs1 ltac:(lia)) as [b1 E1]. rewrite E1. set (xs2 := set_back _ _).
    assert (L2 : length xs2 = m) by (unfold xs2; rewrite set_back_length; lia).
    destruct (front_some _ xs2 ltac:(lia)) as [a2 Ea2]. destruct (back_some _ xs2 ltac:(lia)) as [b2 Eb2].
    rewrite Ea2, Eb2. cbn. unfold same_ps, CA; cbn. auto.
Qed.

Lemma ratio_test_post : forall s m, CA s m -> (n <= m)%nat -> post T (ratio_test cfg target s) (fun _ => True).
Proof.
  intros s m [Ht Hx] Hm. unfold ratio_test.
  destruct (front_some _ (ca_t s) ltac:(lia)) as [t Et]. rewrite Et.
  destruct (lt_b _ _); [exact I|]. destruct (Nat.ltb_spec (length (ca_x s)) n); [lia|]. exact I.
Qed.

Lemma advance_post : forall s m k, PS s m -> (1 <= m)%nat -> bud s k ->
  post T (advance cfg target track s) (fun r =>
    usual (fst r) /\ same_ca s (snd r) /\ cyc (snd r) = cyc s /\ hist (snd r) = hist s /\ PS (snd r) m /\
    (is_success (fst r) = true -> T \/ exists k', k = S k' /\ bud (snd r) k')).
Proof.
  intros s m k [Ht Hx] Hm Hb. unfold advance.
  destruct (back_some _ (ps_t s) ltac:(lia)) as [t Et]. destruct (back_some _ (ps_x s) ltac:(lia)) as [x Ex].
  rewrite Et, Ex. unfold lt_b. set (t' := cauchy_time cfg target t).
  destruct (Rlt_dec (Cmod (t' - target)%C) (min_track_time cfg)) as [L|L].
  - cbn. unfold usual, same_ca, PS. repeat match goal with |- _ /\ _ => split end; auto. discriminate.
  - set (r := track (ntrack s) t t' x). destruct (is_success (fst r)) eqn:Es.
    + cbn [post fst snd]. repeat match goal with |- _ /\ _ => split end; try reflexivity.
      * unfold usual; auto.
      * split; reflexivity.
      * split; cbn [ps_t ps_x tracked with_ps]; rewrite rotate_length; lia.
      * intros _. destruct Hb as [Hb|[t0 [E0 B]]]; [left; exact Hb|].
        destruct Hf as [HT|Hf']; [left; exact HT|right].
        rewrite Et in E0. injection E0 as <-. destruct k as [|k'].
        -- exfalso. apply L. unfold t'. rewrite cauchy_time_dist, Rabs_pos_eq by lra.
           rewrite pow_O, Rmult_1_l in B. pose proof (Cmod_ge_0 (t - target)%C). nra.
        -- exists k'. split; [reflexivity|]. right. exists t'. cbn. rewrite back_app. split; [reflexivity|].
           unfold t'. rewrite cauchy_time_dist, Rabs_pos_eq by lra. cbn in B. lra.
    + cbn [post fst snd]. rewrite Es. unfold same_ca, PS; cbn.
      repeat match goal with |- _ /\ _ => split end; auto; try congruence.
      unfold usual. right; right; right. exists (ntrack s), t, t', x. reflexivity.
Qed.

Lemma bud_S : forall s k, bud s k -> bud s (S k).
Proof.
  intros s k [H|[t [E B]]]; [left; exact H|]. destruct Hf as [HT|Hf']; [left; exact HT|]. right. exists t.
  split; [exact E|]. cbn [pow]. pose proof (Cmod_ge_0 (t - target)%C).
  assert (0 <= (1 - f) ^ k) by (apply pow_le; lra).
  apply Rle_lt_trans with (2 := B). rewrite Rmult_assoc.
  assert (0 <= (1 - f) ^ k * Cmod (t - target)%C) by nra. nra.
Qed.

(** the advance, with a budget that may only shrink *)
Lemma advance_post' : forall s m k, PS s m -> (1 <= m)%nat -> bud s k ->
  post T (advance cfg target track s) (fun r =>
    usual (fst r) /\ same_ca s (snd r) /\ cyc (snd r) = cyc s /\ hist (snd r) = hist s /\ PS (snd r) m /\
    (is_success (fst r) = true -> bud (snd r) k)).
Proof.
  intros s m k Hp Hm Hb. refine (post_weaken _ _ _ _ _ (advance_post s m k Hp Hm Hb) _).
  intros r (U & A & B & H & P & K). repeat match goal with |- _ /\ _ => split end; auto; try apply A.
  intro E. destruct (K E) as [HT|[k' [-> Hk]]]; [left; exact HT|]. apply bud_S; exact Hk.
Qed.

Lemma seed_post : forall s m, PS s m -> (1 <= m)%nat ->
  post T (seed s) (fun s' => same_ps s s' /\ cyc s' = cyc s /\ hist s' = hist s /\ CA s' 1).
Proof.
  intros s m [Ht Hx] Hm. unfold seed.
  destruct (back_some _ (ps_t s) ltac:(lia)) as [t Et]. destruct (back_some _ (ps_x s) ltac:(lia)) as [x Ex].
  rewrite Et, Ex. cbn. unfold same_ps, CA. auto.
Qed.

Lemma c_over_k_post : forall s m, PS s m -> (3 <= m)%nat ->
  post T (c_over_k estimate s) (fun e => same_ps s (snd e) /\ cyc (snd e) = cyc s /\ hist (snd e) = hist s).
Proof.
  intros s m [Ht Hx] Hm. unfold c_over_k. destruct (Nat.ltb_spec (length (ps_x s)) 3); [lia|].
  cbn. unfold same_ps. auto.
Qed.

Lemma PS_same : forall s s' m, same_ps s s' -> PS s m -> PS s' m.
Proof. intros s s' m [A B] [P Q]. unfold PS. rewrite A, B. auto. Qed.

Definition zone_ok (k : nat) (r : code * est) : Prop :=
  usual (fst r) /\ hist (snd r) = [] /\ (is_success (fst r) = true -> PS (snd r) n /\ bud (snd r) k).

Lemma zone_first_post : forall j l s k, PS s n -> bud s k -> hist s = [] ->
  post T (zone_first cfg target track estimate j l s) (fun r => zone_ok k (fst r)).
Proof.
  induction j as [|j IH]; intros l s k Hp Hb Hh; cbn [zone_first].
  - cbn. unfold zone_ok, usual; auto.
  - apply post_when with (Q := fun s1 => PS s1 n /\ bud s1 k /\ hist s1 = []).
    + refine (post_weaken _ _ _ _ _ (advance_post' s n k Hp ltac:(lia) Hb) _).
      intros r (U & A & B & H & P & K). destruct (is_success (fst r)) eqn:Es.
      * rewrite H. auto.
      * unfold zone_ok; cbn. split; [exact U|split; congruence].
    + intros s1 (P1 & B1 & H1). apply post_bind with (1 := c_over_k_post s1 n P1 n3).
      intros e (S2 & C2 & H2). apply IH.
      * apply PS_same with (1 := S2); assumption.
      * apply bud_same with (1 := S2); assumption.
      * congruence.
Qed.

Lemma zone_loop_post : forall fuel l s k, PS s n -> bud s k -> hist s = [] -> T \/ (k < fuel)%nat ->
  post T (zone_loop cfg target track estimate fuel l s) (zone_ok k).
Proof.
  induction fuel as [|fuel IH]; intros l s k Hp Hb Hh HF; cbn [zone_loop];
    destruct (back_some _ (ps_t s) ltac:(destruct Hp; lia)) as [t Et]; rewrite Et;
    destruct (negb _ && _); try (cbn; unfold zone_ok, usual; auto; fail).
  - cbn. destruct HF as [HF|HF]; [exact HF|lia].
  - apply post_when with (Q := fun s1 => PS s1 n /\ hist s1 = [] /\ (T \/ exists k', k = S k' /\ bud s1 k')).
    + refine (post_weaken _ _ _ _ _ (advance_post s n k Hp ltac:(lia) Hb) _).
      intros r (U & A & B & H & P & K). destruct (is_success (fst r)) eqn:Es.
      * rewrite H. auto.
      * unfold zone_ok; cbn. split; [exact U|split; congruence].
    + intros s1 (P1 & H1 & B1). apply post_bind with (1 := c_over_k_post s1 n P1 n3).
      intros e (S2 & C2 & H2). destruct B1 as [HT|[k' [-> Hk']]].
      * apply IH; auto; [apply PS_same with (1 := S2); assumption|left; exact HT|congruence].
      * refine (post_weaken _ _ _ _ _ (IH _ _ k' _ _ _ _) _).
        -- apply PS_same with (1 := S2); assumption.
        -- apply bud_same with (1 := S2); assumption.
        -- congruence.
        -- destruct HF as [HF|HF]; [left; exact HF|right; lia].
        -- intros r (U & H & K). split; [exact U|split; [exact H|]]. intro E. destruct (K E) as (A & B). auto using bud_S.
Qed.

(** ** The times of the initial samples *)

Lemma initial_loop_post : forall k s t m, back (ps_t s) = Some t -> PS s m -> (1 <= m)%nat -> hist s = [] ->
  post T (initial_loop cfg target track k s) (fun r =>
    usual (fst r) /\ hist (snd r) = [] /\
    (is_success (fst r) = true -> PS (snd r) (m + k) /\
       ps_t (snd r) = ps_t s ++ map (fun i => Nat.iter i (midpoint_time cfg target) t) (seq 1 k))).
Proof.
  clear n3.
  induction k as [|k IH]; intros s t m Et Hp Hm Hh; cbn [initial_loop].
  - cbn. unfold usual. rewrite Nat.add_0_r, app_nil_r. auto.
  - destruct Hp as [Ht Hx]. destruct (back_some _ (ps_x s) ltac:(lia)) as [x Ex].
    rewrite Et, Ex. set (t' := midpoint_time cfg target t). set (r := track (ntrack s) t t' x).
    destruct (is_success (fst r)) eqn:Es.
    + set (s1 := tracked _).
      refine (post_weaken _ _ _ _ _ (IH s1 t' (S m) _ _ _ _) _).
      * unfold s1; cbn. apply back_app.
      * unfold PS, s1; cbn. rewrite !app_length. cbn. lia.
      * lia.
      * unfold s1; cbn. exact Hh.
      * intros a (U & H & K). repeat match goal with |- _ /\ _ => split end; auto.
        intro E. destruct (K E) as [P Q]. split.
        -- replace (m + S k)%nat with (S m + k)%nat by lia. exact P.
        -- rewrite Q. unfold s1; cbn [ps_t tracked with_ps]. rewrite <- app_assoc. cbn [seq map app]. f_equal. f_equal.
           rewrite <- (seq_shift k 1), map_map. apply map_ext. intro i. unfold t'. clear.
           induction i as [|i IHi]; [reflexivity|]. cbn in *. f_equal. exact IHi.
    + cbn [post fst snd]. rewrite Es. split; [|split; [exact Hh|congruence]].
      unfold usual. right; right; right. exists (ntrack s), t, t', x. reflexivity.
Qed.

Lemma initial_samples_post : forall start x, post T (initial_samples cfg target track start x empty) (fun r =>
    usual (fst r) /\ hist (snd r) = [] /\
    (is_success (fst r) = true -> PS (snd r) n /\
       ps_t (snd r) = map (fun i => Nat.iter i (midpoint_time cfg target) start) (seq 0 n))).
Proof.
  intros start x. unfold initial_samples.
  refine (post_weaken _ _ _ _ _ (initial_loop_post (n - 1) (with_ps empty [start] [x]) start 1 _ _ _ _) _);
    [reflexivity|split; reflexivity|lia|reflexivity|].
  intros r (U & H & K). split; [exact U|split; [exact H|]]. intro E. destruct (K E) as [P Q]. split.
  - replace n with (1 + (n - 1))%nat by lia. exact P.
  - rewrite Q. cbn. replace n with (S (n - 1)) by lia. cbn. rewrite Nat.sub_0_r. reflexivity.
Qed.

Lemma back_map_seq : forall A (g : nat -> A) m, back (map g (seq 0 (S m))) = Some (g m).
Proof. intros. rewrite seq_S, map_app. cbn. apply back_app. Qed.

Definition enough (k : nat) (start : C) : Prop :=
  T \/ (1 - f) ^ k * Cmod (Nat.iter (n - 1) (midpoint_time cfg target) start - target)%C < min_track_time cfg.

Lemma get_into_zone_post : forall fuel start x k, enough k start -> T \/ (k < fuel)%nat ->
  post T (get_into_zone cfg target track estimate fuel start x empty) (zone_ok k).
Proof.
  intros fuel start x k He HF. unfold get_into_zone.
  apply post_when with (Q := fun s1 => PS s1 n /\ bud s1 k /\ hist s1 = []).
  - refine (post_weaken _ _ _ _ _ (initial_samples_post start x) _). intros r (U & H & K).
    destruct (is_success (fst r)) eqn:Es.
    + destruct (K eq_refl) as [P Q]. split; [exact P|split; [|exact H]].
      destruct He as [He|He]; [left; exact He|right].
      exists (Nat.iter (n - 1) (midpoint_time cfg target) start). split; [|exact He].
      rewrite Q. replace n with (S (n - 1)) at 1 by lia. apply back_map_seq.
    + split; [exact U|split; [exact H|congruence]].
  - intros s1 (P1 & B1 & H1). apply post_bind with (1 := c_over_k_post s1 n P1 n3).
    intros e (S2 & C2 & H2).
    apply post_bind with (Q := fun r => zone_ok k (fst r)).
    + apply zone_first_post; [apply PS_same with (1 := S2); assumption|apply bud_same with (1 := S2); assumption|congruence].
    + intros r (U & H & K). destruct (is_success (fst (fst r))) eqn:Es.
      * destruct (K eq_refl) as (A & B). apply zone_loop_post; assumption.
      * cbn. split; [exact U|split; [exact H|congruence]].
Qed.

(** ** Loops around the target *)

(** a state in which the average can be formed *)
Definition ready (s : est) : Prop := (1 <= cyc s)%nat /\ CA s (cyc s * n + 1).

Definition loops_ok (k bound : nat) (h : list vec) (r : code * est) : Prop :=
  usual (fst r) /\ hist (snd r) = h /\
  (is_success (fst r) = true -> PS (snd r) n /\ bud (snd r) k /\ ready (snd r) /\ (cyc (snd r) <= bound)%nat).

Lemma closing_loop_post : forall fuel s k, PS s n -> bud s k -> ready s -> (cyc s <= fs + 1)%nat ->
  T \/ (fs < fuel + cyc s)%nat ->
  post T (closing_loop cfg target track refine fuel s) (loops_ok k (fs + 1) (hist s)).
Proof.
  induction fuel as [|fuel IH]; intros s k Hp Hb [Hc1 Hc] Hl HF; cbn [closing_loop];
    (apply post_bind with (1 := check_closed_post s _ Hc ltac:(lia)));
    intros [b s1] (S1 & C1 & H1 & A1); cbn [fst snd] in *;
    (destruct b; [cbn; unfold loops_ok, usual, ready; cbn; rewrite C1; repeat match goal with |- _ /\ _ => split end; auto;
        intros _; repeat match goal with |- _ /\ _ => split end; auto;
        [apply PS_same with (1 := S1); assumption|apply bud_same with (1 := S1); assumption]|]);
    (destruct (Nat.ltb_spec fs (cyc s1)) as [L|L]; [cbn; unfold loops_ok, usual; cbn; repeat match goal with |- _ /\ _ => split end; auto; discriminate|]).
  - cbn. destruct HF as [HF|HF]; [exact HF|]. rewrite C1 in L. lia.
  - apply post_bind with (1 := circle_track_post s1 _ A1 ltac:(lia)).
    intros [c s2] (U & S2 & C2 & H2 & K). cbn [fst snd] in *.
    destruct (is_success c) eqn:Es.
    + refine (post_weaken _ _ _ _ _ (IH (with_cyc s2 (S (cyc s2))) k _ _ _ _ _) _).
      * apply PS_same with (1 := S2); apply PS_same with (1 := S1); exact Hp.
      * apply bud_same with s2; [split; reflexivity|]. apply bud_same with (1 := S2); apply bud_same with (1 := S1); exact Hb.
      * split; [cbn; lia|]. cbn [cyc with_cyc]. specialize (K eq_refl).
        replace (S (cyc s2) * n + 1)%nat with (cyc s * n + 1 + n)%nat by (rewrite C2, C1; cbn; lia). exact K.
      * cbn. lia.
      * cbn. destruct HF as [HF|HF]; [left; exact HF|right; lia].
      * cbn. rewrite H2, H1. auto.
    + cbn. unfold loops_ok; cbn. repeat match goal with |- _ /\ _ => split end; auto; congruence.
Qed.

Lemma initial_loops_post : forall fuel s k, PS s n -> bud s k -> T \/ (k + fs < fuel)%nat ->
  post T (initial_loops cfg target track refine fuel s) (loops_ok k (fs + 1) (hist s)).
Proof.
  induction fuel as [|fuel IH]; intros s k Hp Hb HF; cbn [initial_loops].
  - cbn. destruct HF as [HF|HF]; [exact HF|lia].
  - apply post_bind with (1 := seed_post (with_cyc s 0) n Hp ltac:(lia)).
    intros s0 (S0 & C0 & H0 & A0). cbn [cyc with_cyc hist] in *.
    apply post_bind with (1 := circle_track_post s0 1 A0 ltac:(lia)).
    intros [c s1] (U & S1 & C1 & H1 & K). cbn [fst snd] in *.
    set (s1' := with_cyc s1 (S (cyc s1))).
    assert (P1 : PS s1' n) by (apply PS_same with (1 := S1); apply PS_same with (1 := S0); exact Hp).
    assert (B1 : bud s1' k).
    { apply bud_same with s1; [split; reflexivity|]. apply bud_same with (1 := S1); apply bud_same with (1 := S0); exact Hb. }
    destruct (is_success c) eqn:Es.
    + specialize (K eq_refl). apply post_bind with (1 := ratio_test_post s1' (1 + n) K ltac:(lia)).
      intros b _. destruct b.
      * replace (hist s) with (hist s1') by (cbn; congruence). apply closing_loop_post; auto.
        -- split; [cbn; lia|]. cbn [cyc s1' with_cyc]. rewrite C1, C0.
           replace (1 * n + 1)%nat with (1 + n)%nat by lia. exact K.
        -- cbn. lia.
        -- cbn. destruct HF as [HF|HF]; [left; exact HF|right; lia].
      * apply post_when with (Q := fun s2 => PS s2 n /\ hist s2 = hist s /\ (T \/ exists k', k = S k' /\ bud s2 k')).
        -- refine (post_weaken _ _ _ _ _ (advance_post s1' n k P1 ltac:(lia) B1) _).
           intros r (U2 & A & B & H & P & K2). replace (hist s1') with (hist s) in H by (cbn; congruence).
           destruct (is_success (fst r)) eqn:Es2; [auto|].
           unfold loops_ok. repeat match goal with |- _ /\ _ => split end; auto; congruence.
        -- intros s2 (P2 & H2 & [HT|[k' [-> Hk']]]).
           ++ rewrite <- H2. apply IH; auto. left; exact HT.
           ++ rewrite <- H2. refine (post_weaken _ _ _ _ _ (IH s2 k' P2 Hk' _) _).
              ** destruct HF as [HF|HF]; [left; exact HF|right; lia].
              ** intros r (U3 & H3 & K3). split; [exact U3|split; [exact H3|]]. intro E.
                 destruct (K3 E) as (A & B & D & G). auto using bud_S.
    + cbn. unfold loops_ok; cbn. repeat match goal with |- _ /\ _ => split end; auto; congruence.
Qed.

Lemma samples_loop_post : forall fuel s k, PS s n -> bud s k -> CA s (cyc s * n + 1) -> T \/ (fs <= fuel + cyc s)%nat ->
  post T (samples_loop cfg target track refine fuel s) (loops_ok k fs (hist s)).
Proof.
  induction fuel as [|fuel IH]; intros s k Hp Hb Hc HF; cbn [samples_loop];
    (destruct (Nat.ltb_spec (cyc s) fs) as [L|L];
      [|cbn; unfold loops_ok, usual; cbn; repeat match goal with |- _ /\ _ => split end; auto; discriminate]).
  - cbn. destruct HF as [HF|HF]; [exact HF|lia].
  - apply post_bind with (1 := circle_track_post s _ Hc ltac:(lia)).
    intros [c s1] (U & S1 & C1 & H1 & K). cbn [fst snd] in *.
    set (s1' := with_cyc s1 (S (cyc s1))).
    assert (P1 : PS s1' n) by (apply PS_same with (1 := S1); exact Hp).
    assert (B1 : bud s1' k) by (apply bud_same with s1; [split; reflexivity|]; apply bud_same with (1 := S1); exact Hb).
    destruct (is_success c) eqn:Es.
    + specialize (K eq_refl).
      assert (K' : CA s1' (cyc s1' * n + 1)).
      { cbn [cyc s1' with_cyc]. replace (S (cyc s1) * n + 1)%nat with (cyc s * n + 1 + n)%nat by (rewrite C1; cbn; lia). exact K. }
      apply post_bind with (1 := check_closed_post s1' _ K' ltac:(lia)).
      intros [b s2] (S2 & C2 & H2 & A2). cbn [fst snd] in *. destruct b.
      * cbn. unfold loops_ok, usual, ready; cbn. rewrite C2. repeat match goal with |- _ /\ _ => split end; auto.
        -- rewrite H2. cbn. exact H1.
        -- intros _. repeat match goal with |- _ /\ _ => split end; auto.
           ++ apply PS_same with (1 := S2); exact P1.
           ++ apply bud_same with (1 := S2); exact B1.
           ++ cbn; lia.
           ++ cbn; lia.
      * replace (hist s) with (hist s2) by (rewrite H2; cbn; exact H1). apply IH.
        -- apply PS_same with (1 := S2); exact P1.
        -- apply bud_same with (1 := S2); exact B1.
        -- rewrite C2. exact A2.
        -- rewrite C2. cbn. destruct HF as [HF|HF]; [left; exact HF|right; lia].
    + cbn. unfold loops_ok; cbn. repeat match goal with |- _ /\ _ => split end; auto; congruence.
Qed.

Lemma cauchy_samples_post : forall fuel s k, PS s n -> bud s k -> T \/ (fs <= fuel)%nat ->
  post T (cauchy_samples cfg target track refine fuel s) (loops_ok k fs (hist s)).
Proof.
  intros fuel s k Hp Hb HF. unfold cauchy_samples.
  apply post_bind with (1 := seed_post s n Hp ltac:(lia)). intros s0 (S0 & C0 & H0 & A0).
  replace (hist s) with (hist (with_cyc s0 0)) by (cbn; exact H0).
  apply samples_loop_post.
  - apply PS_same with (1 := S0); exact Hp.
  - apply bud_same with s0; [split; reflexivity|]. apply bud_same with (1 := S0); exact Hb.
  - exact A0.
  - destruct HF as [HF|HF]; [left; exact HF|right; lia].
Qed.

Lemma refine_all_length : forall xs k ts, length (fst (refine_all refine k xs ts)) = length xs.
Proof.
  induction xs as [|x xs IH]; intros k [|t ts]; cbn [refine_all]; try reflexivity.
  destruct (is_success _); cbn; [rewrite IH|]; reflexivity.
Qed.

Lemma cauchy_approximation_post : forall s, ready s ->
  post T (cauchy_approximation cfg refine nv s) (fun a =>
    same_ps s (snd a) /\ cyc (snd a) = cyc s /\ hist (snd a) = hist s ++ [fst a] /\ ready (snd a)).
Proof.
  intros s [H1 [Ht Hx]]. unfold cauchy_approximation. rewrite Hx, Nat.eqb_refl. cbn.
  unfold same_ps, ready, CA; cbn. rewrite refine_all_length. auto 6.
Qed.

Lemma snoc_ne : forall A (l : list A) a, l ++ [a] <> [].
Proof. intros A [|b l] a; discriminate. Qed.

(** what the whole run returns *)
Definition run_ok (r : code * est) : Prop :=
  (usual (fst r) \/ (fst r = SecurityMaxNormReached /\ security_level cfg <> 0%Z)) /\
  (is_success (fst r) = true -> (1 <= cyc (snd r) <= fs + 1)%nat /\ hist (snd r) <> [] /\
     (2 <= length (hist (snd r)) -> cyc (snd r) <= fs)%nat).

Lemma cauchy_loop_post : forall fuel s k prev np, PS s n -> bud s k -> ready s -> (cyc s <= fs + 1)%nat ->
  (1 <= length (hist s) -> cyc s <= fs)%nat ->
  (security_level cfg = 0%Z \/ np <> None) -> T \/ (k + fs < fuel)%nat ->
  post T (cauchy_loop cfg target track refine nv dehom fuel prev np s) run_ok.
Proof.
  induction fuel as [|fuel IH]; intros s k prev np Hp Hb Hr Hl Hh Hn HF; cbn [cauchy_loop];
    (apply post_bind with (1 := cauchy_approximation_post s Hr));
    intros [a s1] (S1 & C1 & H1 & R1); cbn [fst snd] in *;
    (destruct (lt_b (dist a prev) (final_tolerance cfg));
      [cbn; unfold run_ok, usual; cbn; rewrite C1, H1; destruct Hr as [Hr _]; split; [auto|]; intros _;
       repeat match goal with |- _ /\ _ => split end; auto; [apply snoc_ne|];
       rewrite app_length; cbn [length]; intro; apply Hh; lia|]).
  - destruct (Z.eqb_spec (security_level cfg) 0) as [E|E].
    + cbn. destruct HF as [HF|HF]; [exact HF|lia].
    + destruct np as [p|]; [|destruct Hn; [contradiction|congruence]].
      destruct (_ && _).
      * cbn. unfold run_ok; cbn. split; [auto|discriminate].
      * cbn. destruct HF as [HF|HF]; [exact HF|lia].
  - assert (P1 : PS s1 n) by (apply PS_same with (1 := S1); exact Hp).
    assert (B1 : bud s1 k) by (apply bud_same with (1 := S1); exact Hb).
    assert (NEXT : forall nl, (security_level cfg = 0%Z \/ nl <> None) ->
      post T (when_ok (advance cfg target track s1) (fun r => r) (fun s2 =>
              when_ok (cauchy_samples cfg target track refine fuel s2) (fun r => r) (fun s3 =>
                cauchy_loop cfg target track refine nv dehom fuel a nl s3))) run_ok).
    { intros nl Hnl.
      apply post_when with (Q := fun s2 => PS s2 n /\ hist s2 = hist s1 /\ (T \/ exists k', k = S k' /\ bud s2 k')).
      - refine (post_weaken _ _ _ _ _ (advance_post s1 n k P1 ltac:(lia) B1) _).
        intros r (U2 & A & B & H & P & K2). destruct (is_success (fst r)) eqn:Es; [auto|].
        unfold run_ok. split; [left; exact U2|congruence].
      - intros s2 (P2 & H2 & B2).
        assert (exists k', bud s2 k' /\ (T \/ (k' + fs < fuel)%nat)) as (k' & B2' & HF').
        { destruct B2 as [HT|[k' [-> Hk']]].
          - exists 0%nat. split; left; exact HT.
          - exists k'. split; [exact Hk'|]. destruct HF as [HF|HF]; [left; exact HF|right; lia]. }
        apply post_when with (Q := fun s3 => PS s3 n /\ bud s3 k' /\ ready s3 /\ (cyc s3 <= fs)%nat /\ hist s3 = hist s1).
        + refine (post_weaken _ _ _ _ _ (cauchy_samples_post fuel s2 k' P2 B2' _) _).
          * destruct HF' as [HF'|HF']; [left; exact HF'|right; lia].
          * intros r (U3 & H3 & K3). destruct (is_success (fst r)) eqn:Es.
            -- destruct (K3 eq_refl) as (A & B & D & G). rewrite H3. auto 6.
            -- unfold run_ok. split; [left; exact U3|congruence].
        + intros s3 (P3 & B3 & R3 & C3 & H3). apply IH with (k := k'); auto. lia. }
    destruct (Z.eqb_spec (security_level cfg) 0) as [E|E]; [apply NEXT; left; exact E|].
    destruct np as [p|]; [|destruct Hn; [contradiction|congruence]].
    destruct (_ && _); [|apply NEXT; right; congruence].
    cbn. unfold run_ok; cbn. split; [auto|discriminate].
Qed.

Lemma cauchy_run_post : forall fresh fuel start x k,
  (security_level cfg <= 0)%Z \/ fresh <> None -> enough k start -> T \/ (k + fs < fuel)%nat ->
  post T (cauchy_run cfg target track refine estimate nv dehom fresh fuel start x) run_ok.
Proof.
  intros fresh fuel start x k Hl He HF. unfold cauchy_run.
  apply post_when with (Q := fun s => PS s n /\ bud s k /\ hist s = []).
  - refine (post_weaken _ _ _ _ _ (get_into_zone_post fuel start x k He _) _).
    + destruct HF as [HF|HF]; [left; exact HF|right; lia].
    + intros r (U & H & K). destruct (is_success (fst r)) eqn:Es; [destruct (K eq_refl); auto|]. split; [left; exact U|congruence].
  - intros s1 (P1 & B1 & H1).
    apply post_when with (Q := fun s => PS s n /\ bud s k /\ ready s /\ (cyc s <= fs + 1)%nat /\ hist s = []).
    + refine (post_weaken _ _ _ _ _ (initial_loops_post fuel s1 k P1 B1 HF) _).
      intros r (U & H & K). destruct (is_success (fst r)) eqn:Es.
      * destruct (K eq_refl) as (A & B & D & G). rewrite H. auto 6.
      * split; [left; exact U|congruence].
    + intros s2 (P2 & B2 & R2 & C2 & H2). apply cauchy_loop_post with (k := k); auto.
      * rewrite H2. cbn. lia.
      * destruct (Z.leb_spec (security_level cfg) 0); [right; congruence|].
        destruct Hl as [Hl|Hl]; [lia|right; exact Hl].
Qed.

End Proofs.
