(** Simplification of function graphs in place ends: proofs. *)
From Coq Require Import List Arith Lia ZArith Bool.
From Verif Require Import Base Expr Homog Heap Simplify SimpGraph SimpGraphP SimpSys.
Import ListNotations.

Section SimpTerm.
  Context {F : fld}.
  Variable fs : funs F.
  Notation graph := (list (gnode (F := F))).

  (** *** Evaluation and reset on graphs without cycles *)
  Lemma geval_ranked : forall (G : graph) h, ranked G h -> forall fuel n T dv st, h n < fuel -> n < length G ->
    exists st' v, geval fs G fuel T dv st n = Some (st', v).
  Proof.
    intros G h Hwf. induction fuel as [|k IH]; intros n T dv st Hn Hl; [lia|]. cbn [geval].
    destruct (snd (cache st T n)); [eauto|].
    destruct (nth_error G n) as [nd|] eqn:En; [|apply nth_error_None in En; lia].
    assert (C : forall c, In c (children nd) -> forall dv st, exists st' v, geval fs G k T dv st c = Some (st', v)).
    { intros c Hc dv0 st0. destruct (Hwf n nd c En Hc). apply IH; lia. }
    destruct nd as [kd c| |x|ops|ops|a|a z|b a|f a|a]; cbn [children] in C; eauto.
    - destruct (eval_ops_total (geval fs G k T dv) ops st) as [s1 [l E]]; [intros; apply C; apply in_map; assumption|]. rewrite E; eauto.
    - destruct (eval_ops_total (geval fs G k T dv) ops st) as [s1 [l E]]; [intros; apply C; apply in_map; assumption|]. rewrite E; eauto.
    - destruct (C a (or_introl eq_refl) dv st) as [s1 [[v|] E]]; rewrite E; eauto.
    - destruct (C a (or_introl eq_refl) dv st) as [s1 [[v|] E]]; rewrite E; eauto.
    - destruct (C a (or_intror (or_introl eq_refl)) None st) as [s1 [v E]]; rewrite E.
      destruct (C b (or_introl eq_refl) dv s1) as [s2 [v2 E2]]; rewrite E2. eauto.
    - destruct (C a (or_introl eq_refl) dv st) as [s1 [[v|] E]]; rewrite E; eauto.
    - destruct (C a (or_introl eq_refl) dv st) as [s1 [v E]]; rewrite E; eauto.
  Qed.

  Lemma reset_ranked : forall (G : graph) h, ranked G h -> forall fuel n st, h n < fuel -> n < length G -> exists st', reset G fuel st n = Some st'.
  Proof.
    intros G h Hwf. induction fuel as [|k IH]; intros n st Hn Hl; [lia|]. cbn [reset].
    destruct (nth_error G n) as [nd|] eqn:En; [|apply nth_error_None in En; lia].
    assert (L : forall l st, (forall c, In c l -> h c < k /\ c < length G) ->
      exists st', fold_left (fun acc c => match acc with Some s => reset G k s c | None => None end) l (Some st) = Some st').
    { induction l as [|c l IHl]; intros s Hc; cbn; [eauto|]. destruct (Hc c (or_introl eq_refl)) as [H1 H2].
      destruct (IH c s H1 H2) as [s' Hs']. rewrite Hs'. apply IHl. intros c' Hc'. apply Hc. right; assumption. }
    destruct nd; [eauto|..]; apply L; intros c' Hc'; destruct (Hwf n _ c' En Hc'); lia.
  Qed.

  (** *** Weights *)
  Definition base (nd : gnode (F := F)) : nat := match nd with GSum _ => 2 | _ => 1 end.
  Definition lsum (l : list nat) : nat := fold_right Nat.add 0 l.
  Definition nw (W : nat -> nat) (nd : gnode (F := F)) : nat := base nd + lsum (map W (children nd)).

  Fixpoint wt (k : nat) (G : graph) (n : nat) : nat :=
    match k with
    | O => 0
    | S k => match nth_error G n with None => 0 | Some nd => nw (wt k G) nd end
    end.

  Definition TInv (G : graph) (h W : nat -> nat) : Prop := ranked G h /\ forall n nd, nth_error G n = Some nd -> W n = nw W nd.

  Lemma lsum_ext : forall (V W : nat -> nat) l, (forall c, In c l -> V c = W c) -> lsum (map V l) = lsum (map W l).
  Proof. intros V W l H. f_equal. apply map_ext_in. assumption. Qed.

  Lemma lsum_le : forall (V W : nat -> nat) l, (forall c, In c l -> V c <= W c) -> lsum (map V l) <= lsum (map W l).
  Proof.
    intros V W l. induction l as [|c l IH]; intro H; cbn; [lia|]. pose proof (H c (or_introl eq_refl)).
    assert (lsum (map V l) <= lsum (map W l)) by (apply IH; intros; apply H; right; assumption). unfold lsum in *. lia.
  Qed.

  Lemma lsum_lt : forall (V W : nat -> nat) l, (forall c, In c l -> V c <= W c) -> (exists c, In c l /\ V c < W c) -> lsum (map V l) < lsum (map W l).
  Proof.
    intros V W l. induction l as [|c l IH]; intros H [d [Hd L]]; [destruct Hd|]. pose proof (H c (or_introl eq_refl)).
    assert (Hl : forall c, In c l -> V c <= W c) by (intros; apply H; right; assumption).
    pose proof (lsum_le V W l Hl). destruct Hd as [->|Hd].
    - cbn. unfold lsum in *. lia.
    - assert (lsum (map V l) < lsum (map W l)) by (apply IH; eauto). cbn. unfold lsum in *. lia.
  Qed.

  Lemma lsum_app : forall a b, lsum (a ++ b) = lsum a + lsum b.
  Proof. induction a as [|x a IH]; intro b; cbn; [reflexivity|]. unfold lsum in *. rewrite IH. lia. Qed.

  Lemma nw_le : forall V W nd, (forall c, In c (children nd) -> V c <= W c) -> nw V nd <= nw W nd.
  Proof. intros V W nd H. unfold nw. pose proof (lsum_le V W (children nd) H). lia. Qed.

  Lemma wt_stable : forall (G : graph) h, ranked G h -> forall k1 k2 n, h n < k1 -> h n < k2 -> wt k1 G n = wt k2 G n.
  Proof.
    intros G h Hr. induction k1 as [|k1 IH]; intros [|k2] n H1 H2; try lia. cbn [wt].
    destruct (nth_error G n) as [nd|] eqn:En; [|reflexivity]. unfold nw. f_equal. apply lsum_ext. intros c Hc.
    destruct (Hr n nd c En Hc). apply IH; lia.
  Qed.

  Lemma weights : forall (G : graph) h, ranked G h -> exists W, TInv G h W.
  Proof.
    intros G h Hr. exists (fun n => wt (S (h n)) G n). split; [exact Hr|]. intros n nd En.
    transitivity (nw (wt (h n) G) nd); [cbn [wt]; rewrite En; reflexivity|]. unfold nw. f_equal.
    apply lsum_ext. intros c Hc. destruct (Hr n nd c En Hc) as [H _]. apply (wt_stable G h Hr); lia.
  Qed.

  Lemma pos : forall (G : graph) h W n, TInv G h W -> n < length G -> 1 <= W n.
  Proof.
    intros G h W n [_ H] L. destruct (nth_error G n) as [nd|] eqn:En; [|apply nth_error_None in En; lia].
    rewrite (H n nd En). unfold nw. destruct nd; cbn; lia.
  Qed.

  (** *** The change of one node *)
  Lemma tset : forall (s : sst (F := F)) h W n nd nd' d, TInv (fst s) h W -> nth_error (fst s) n = Some nd ->
    (forall c, In c (children nd') -> h c < h n /\ c < length (fst s)) -> nw W nd' + d <= W n ->
    exists W', TInv (fst (set_node s n nd')) h W' /\ (forall m, m < length (fst s) -> W' m <= W m) /\ W' n + d <= W n.
  Proof.
    intros s h W n nd nd' d [Hr HW] En Hc Hd.
    assert (Ln : n < length (fst s)) by (apply nth_error_Some; congruence).
    assert (Hr' : ranked (fst (set_node s n nd')) h).
    { intros m x c Em Hm. rewrite length_set by assumption. destruct (Nat.eq_dec m n) as [->|N].
      - rewrite nth_set_same in Em by assumption. injection Em as <-. apply Hc. assumption.
      - rewrite nth_set_other in Em by assumption. exact (Hr m x c Em Hm). }
    destruct (weights _ _ Hr') as [W' [_ HW']]. exists W'. split; [split; assumption|].
    assert (LE : forall k m, h m < k -> m < length (fst s) -> W' m <= W m /\ (m = n -> W' m + d <= W m)).
    { induction k as [|k IH]; intros m Hk Lm; [lia|]. destruct (Nat.eq_dec m n) as [->|N].
      - rewrite (HW' n nd') by (apply nth_set_same; assumption).
        assert (nw W' nd' <= nw W nd'). { apply nw_le. intros c Hcc. destruct (Hc c Hcc). apply (IH c); lia. }
        split; [|intros _]; lia.
      - destruct (nth_error (fst s) m) as [x|] eqn:Em; [|apply nth_error_None in Em; lia].
        rewrite (HW m x Em), (HW' m x) by (rewrite nth_set_other by assumption; assumption). split; [|contradiction].
        apply nw_le. intros c Hcc. destruct (Hr m x c Em Hcc). apply (IH c); lia. }
    split; [intros m Lm; apply (LE (S (h m)) m); lia|]. apply (LE (S (h n)) n); lia.
  Qed.

  Lemma talloc : forall (s : sst (F := F)) h W nd r, TInv (fst s) h W -> (forall c, In c (children nd) -> h c < r /\ c < length (fst s)) ->
    exists h' W', TInv (fst (fst (alloc s nd))) h' W' /\ (forall m, m < length (fst s) -> h' m = h m /\ W' m = W m) /\
      h' (snd (alloc s nd)) = r /\ W' (snd (alloc s nd)) = nw W nd.
  Proof.
    intros s h W nd r [Hr HW] Hc. set (L := length (fst s)).
    exists (fun m => if Nat.eqb m L then r else h m), (fun m => if Nat.eqb m L then nw W nd else W m).
    assert (ON : forall m, m < L -> Nat.eqb m L = false) by (intros m H; apply Nat.eqb_neq; lia).
    assert (LA : length (fst (fst (alloc s nd))) = S L) by apply length_alloc.
    split; [split|].
    - intros m x c Em Hm. rewrite LA. destruct (nth_alloc_inv _ _ _ _ Em) as [[Lm Em']|[-> ->]].
      + destruct (Hr m x c Em' Hm) as [A B]. fold L in B, Lm. rewrite (ON m Lm), (ON c B). lia.
      + fold L. rewrite Nat.eqb_refl. destruct (Hc c Hm) as [A B]. fold L in B. rewrite (ON c B). lia.
    - intros m x Em. destruct (nth_alloc_inv _ _ _ _ Em) as [[Lm Em']|[-> ->]].
      + fold L in Lm. rewrite (ON m Lm), (HW m x Em'). unfold nw. f_equal. apply lsum_ext. intros c Hcc.
        destruct (Hr m x c Em' Hcc) as [_ B]. rewrite (ON c B). reflexivity.
      + fold L. rewrite Nat.eqb_refl. unfold nw. f_equal. apply lsum_ext. intros c Hcc. destruct (Hc c Hcc) as [_ B]. fold L in B. rewrite (ON c B). reflexivity.
    - split; [intros m Lm; fold L in Lm; rewrite (ON m Lm); auto|]. cbn [alloc snd]. fold L. rewrite Nat.eqb_refl. auto.
  Qed.

  (** *** Passes *)
  Definition old_le (s : sst (F := F)) (h W : nat -> nat) (s' : sst (F := F)) (h' W' : nat -> nat) : Prop :=
    length (fst s) <= length (fst s') /\ forall m, m < length (fst s) -> h' m = h m /\ W' m <= W m.

  Lemma old_le_refl : forall s h W, old_le s h W s h W.
  Proof. intros. split; [lia|]. auto. Qed.

  Lemma old_le_trans : forall s h W s1 h1 W1 s2 h2 W2, old_le s h W s1 h1 W1 -> old_le s1 h1 W1 s2 h2 W2 -> old_le s h W s2 h2 W2.
  Proof.
    intros s h W s1 h1 W1 s2 h2 W2 [L1 H1] [L2 H2]. split; [lia|]. intros m Hm. destruct (H1 m Hm). destruct (H2 m); lia.
  Qed.

  Definition tpass (f : sst (F := F) -> nat -> option (sst (F := F) * nat)) (k : nat) : Prop :=
    forall s h W n, TInv (fst s) h W -> n < length (fst s) -> h n < k ->
    exists s' c h' W', f s n = Some (s', c) /\ TInv (fst s') h' W' /\ old_le s h W s' h' W' /\
      (forall m, m < length (fst s) -> h n < h m -> nth_error (fst s') m = nth_error (fst s) m) /\ (0 < c -> W' n < W n).

  Lemma tover : forall f k, tpass f k -> forall ops s h W, TInv (fst s) h W -> (forall p, In p ops -> snd p < length (fst s) /\ h (snd p) < k) ->
    exists s' c h' W', over f s ops = Some (s', c) /\ TInv (fst s') h' W' /\ old_le s h W s' h' W' /\
      (forall m, m < length (fst s) -> (forall p, In p ops -> h (snd p) < h m) -> nth_error (fst s') m = nth_error (fst s) m) /\
      (0 < c -> exists p, In p ops /\ W' (snd p) < W (snd p)).
  Proof.
    intros f k Hf. induction ops as [|[m0 a] ops IH]; intros s h W I Ho; cbn [over].
    - exists s, 0, h, W. split; [reflexivity|]. split; [assumption|]. split; [apply old_le_refl|]. split; [reflexivity|lia].
    - destruct (Ho (m0, a) (or_introl eq_refl)) as [La Ha]. cbn [snd] in La, Ha.
      destruct (Hf s h W a I La Ha) as [s1 [c1 [h1 [W1 [E1 [I1 [[L1 O1] [Fr1 C1]]]]]]]]. rewrite E1.
      destruct (IH s1 h1 W1 I1) as [s2 [c2 [h2 [W2 [E2 [I2 [[L2 O2] [Fr2 C2]]]]]]]].
      { intros p Hp. destruct (Ho p (or_intror Hp)) as [A B]. destruct (O1 _ A). lia. }
      rewrite E2. exists s2, (c1 + c2)%nat, h2, W2. split; [reflexivity|]. split; [assumption|].
      split; [eapply old_le_trans; [split; [exact L1|exact O1]|split; [exact L2|exact O2]]|]. split.
      + intros m Lm Hm. rewrite Fr2; [apply Fr1; [assumption|exact (Hm _ (or_introl eq_refl))]|lia|].
        intros p Hp. destruct (Ho p (or_intror Hp)) as [A _]. destruct (O1 _ A) as [-> _]. destruct (O1 _ Lm) as [-> _]. apply Hm. right; assumption.
      + intro Hc. destruct c1 as [|c1].
        * destruct C2 as [p [Hp Lp]]; [lia|]. exists p. split; [right; assumption|]. destruct (Ho p (or_intror Hp)) as [A _]. destruct (O1 _ A). lia.
        * exists (m0, a). split; [left; reflexivity|]. cbn [snd]. destruct (O2 a); [lia|]. assert (W1 a < W a) by (apply C1; lia). lia.
  Qed.

  (** the loop over the operands of a node which was changed before *)
  Lemma tafter : forall f k, tpass f k -> forall s h W n nd nd' d, TInv (fst s) h W -> nth_error (fst s) n = Some nd ->
    (forall p, In p (ops_of nd') -> In (snd p) (children nd')) -> (forall c, In c (children nd') -> exists p, In p (ops_of nd') /\ snd p = c) ->
    (forall c, In c (children nd') -> h c < h n /\ c < length (fst s)) -> nw W nd' + d <= W n -> h n <= k ->
    exists s' c h' W', over f (set_node s n nd') (ops_of nd') = Some (s', c) /\ TInv (fst s') h' W' /\ old_le s h W s' h' W' /\
      (forall m, m < length (fst s) -> h n < h m -> nth_error (fst s') m = nth_error (fst s) m) /\
      (0 < d + c -> W' n < W n).
  Proof.
    intros f k Hf s h W n nd nd' d I En O1 O2 Hc Hd Hk.
    assert (Ln : n < length (fst s)) by (apply nth_error_Some; congruence).
    destruct (tset s h W n nd nd' d I En Hc Hd) as [W1 [I1 [L1 S1]]].
    destruct (tover f k Hf (ops_of nd') (set_node s n nd') h W1 I1) as [s' [c [h' [W' [E [I' [[L' O'] [Fr C]]]]]]]].
    { intros p Hp. rewrite length_set by assumption. destruct (Hc _ (O1 p Hp)). lia. }
    rewrite length_set in L', O', Fr by assumption.
    exists s', c, h', W'. split; [exact E|]. split; [exact I'|]. split.
    { split; [exact L'|]. intros m Lm. destruct (O' m Lm). specialize (L1 m Lm). lia. }
    split.
    - intros m Lm Hm. rewrite Fr; [apply nth_set_other; [intros ->; lia|assumption]|assumption|]. intros p Hp. destruct (Hc _ (O1 p Hp)). lia.
    - intro P. destruct (O' n Ln) as [_ Le]. destruct d as [|d]; [|lia].
      destruct C as [p [Hp Lp]]; [lia|].
      assert (N' : nth_error (fst s') n = Some nd').
      { rewrite Fr; [apply nth_set_same; assumption|assumption|]. intros q Hq. apply (Hc _ (O1 q Hq)). }
      assert (N1 : nth_error (fst (set_node s n nd')) n = Some nd') by (apply nth_set_same; assumption).
      assert (W' n < W1 n); [|lia]. rewrite (proj2 I' n nd' N'), (proj2 I1 n nd' N1). unfold nw.
      assert (lsum (map W' (children nd')) < lsum (map W1 (children nd'))); [|lia]. apply lsum_lt.
      + intros x Hx. destruct (Hc x Hx) as [_ Lx]. apply (O' x Lx).
      + exists (snd p). split; [apply O1; assumption|exact Lp].
  Qed.

  (** the loop over the operands of a node which was not changed *)
  Lemma tloop : forall f k, tpass f k -> forall s h W n nd, TInv (fst s) h W -> nth_error (fst s) n = Some nd ->
    (forall p, In p (ops_of nd) -> In (snd p) (children nd)) -> h n <= k ->
    exists s' c h' W', over f s (ops_of nd) = Some (s', c) /\ TInv (fst s') h' W' /\ old_le s h W s' h' W' /\
      (forall m, m < length (fst s) -> h n < h m -> nth_error (fst s') m = nth_error (fst s) m) /\ (0 < c -> W' n < W n).
  Proof.
    intros f k Hf s h W n nd I En O1 Hk. assert (Ln : n < length (fst s)) by (apply nth_error_Some; congruence).
    pose proof (proj1 I n nd) as Hc.
    destruct (tover f k Hf (ops_of nd) s h W I) as [s' [c [h' [W' [E [I' [[L' O'] [Fr C]]]]]]]].
    { intros p Hp. destruct (Hc _ En (O1 p Hp)). lia. }
    exists s', c, h', W'. split; [exact E|]. split; [exact I'|]. split; [split; assumption|]. split.
    - intros m Lm Hm. apply Fr; [assumption|]. intros p Hp. destruct (Hc _ En (O1 p Hp)). lia.
    - intro P. destruct (C P) as [p [Hp Lp]].
      assert (N' : nth_error (fst s') n = Some nd).
      { rewrite Fr; [assumption|assumption|]. intros q Hq. apply (Hc _ En (O1 q Hq)). }
      rewrite (proj2 I' n nd N'), (proj2 I n nd En). unfold nw.
      assert (lsum (map W' (children nd)) < lsum (map W (children nd))); [|lia]. apply lsum_lt.
      + intros x Hx. destruct (Hc x En Hx) as [_ Lx]. apply (O' x Lx).
      + exists (snd p). split; [apply O1; assumption|exact Lp].
  Qed.

  Lemma in_ops : forall (ops : list (bool * nat)) p, In p ops -> In (snd p) (map snd ops).
  Proof. intros. apply in_map. assumption. Qed.
  Lemma ops_in : forall (ops : list (bool * nat)) c, In c (map snd ops) -> exists p, In p ops /\ snd p = c.
  Proof. intros ops c H. apply in_map_iff in H as [p [E H]]. eauto. Qed.

  (** *** Flattening *)
  Section Flat.
    Variables (G : graph) (h W : nat -> nat) (r : nat).
    Hypothesis I : TInv G h W.
    Definition below (l : list (bool * nat)) : Prop := forall p, In p l -> h (snd p) < r /\ snd p < length G.

    Lemma below_cons : forall p l, below (p :: l) <-> (h (snd p) < r /\ snd p < length G) /\ below l.
    Proof. intros p l. split; [intro H; split; [apply H; left; reflexivity|intros q Hq; apply H; right; assumption]|intros [A B] q [<-|Hq]; auto]. Qed.

    Lemma below_sub : forall m a sub nd, h a < r -> nth_error G a = Some nd -> ops_of nd = sub -> (nd = GSum sub \/ nd = GMul sub) ->
      below (map (fun q => (xnor (fst q) m, snd q)) sub).
    Proof.
      intros m a sub nd Ha En _ Hs p Hp. apply in_map_iff in Hp as [q [<- Hq]]. cbn [snd].
      destruct (proj1 I a nd (snd q) En); [|lia]. destruct Hs as [->| ->]; cbn [children]; apply in_map; assumption.
    Qed.

    Lemma lsum_sub : forall m sub, lsum (map W (map snd (map (fun q : bool * nat => (xnor (fst q) m, snd q)) sub))) = lsum (map W (map snd sub)).
    Proof. intros m sub. rewrite !map_map. reflexivity. Qed.

    Lemma tsums_into_sum : forall ops l c, sums_into_sum G ops = (l, c) -> below ops -> below l /\
      (exists d, lsum (map W (map snd l)) + d <= lsum (map W (map snd ops)) /\ (0 < c -> 0 < d)).
    Proof.
      induction ops as [|[m a] ops IH]; intros l c E B; cbn [sums_into_sum] in E.
      { injection E as <- <-. split; [assumption|]. exists 0. cbn. lia. }
      apply below_cons in B as [[Ha La] B]. cbn [snd] in Ha, La.
      destruct (sums_into_sum G ops) as [l1 c1] eqn:E1. destruct (IH l1 c1 eq_refl B) as [B1 [d [Hd Hc]]].
      assert (K : ((m, a) :: l1, c1) = (l, c) -> below l /\ (exists d, lsum (map W (map snd l)) + d <= lsum (map W (map snd ((m, a) :: ops))) /\ (0 < c -> 0 < d))).
      { intro E'. injection E' as <- <-. split; [apply below_cons; auto|]. exists d. cbn [map snd lsum fold_right]. unfold lsum in *. split; [lia|assumption]. }
      destruct (nth_error G a) as [nd|] eqn:En; [|exact (K E)].
      destruct nd as [kd k0| |x0|sub|sub|a0|a0 z0|b0 a0|f0' a0|a0]; try exact (K E).
      injection E as <- <-. split.
      - intros p Hp. apply in_app_or in Hp as [Hp|Hp]; [|apply B1; assumption]. eapply below_sub; [exact Ha|exact En|reflexivity|left; reflexivity|exact Hp].
      - exists (S d). rewrite !map_app, lsum_app, lsum_sub. cbn [map snd lsum fold_right]. rewrite (proj2 I a _ En). unfold nw. cbn [base children]. unfold lsum in *. lia.
    Qed.

    Lemma tmults_into_mul : forall ops l c, mults_into_mul G ops = (l, c) -> below ops -> below l /\
      (exists d, lsum (map W (map snd l)) + d <= lsum (map W (map snd ops)) /\ (0 < c -> 0 < d)).
    Proof.
      induction ops as [|[m a] ops IH]; intros l c E B; cbn [mults_into_mul] in E.
      { injection E as <- <-. split; [assumption|]. exists 0. cbn. lia. }
      apply below_cons in B as [[Ha La] B]. cbn [snd] in Ha, La.
      destruct (mults_into_mul G ops) as [l1 c1] eqn:E1. destruct (IH l1 c1 eq_refl B) as [B1 [d [Hd Hc]]].
      assert (K : ((m, a) :: l1, c1) = (l, c) -> below l /\ (exists d, lsum (map W (map snd l)) + d <= lsum (map W (map snd ((m, a) :: ops))) /\ (0 < c -> 0 < d))).
      { intro E'. injection E' as <- <-. split; [apply below_cons; auto|]. exists d. cbn [map snd lsum fold_right]. unfold lsum in *. split; [lia|assumption]. }
      destruct (nth_error G a) as [nd|] eqn:En; [|exact (K E)].
      destruct nd as [kd k0| |x0|sub|sub|a0|a0 z0|b0 a0|f0' a0|a0]; try exact (K E).
      injection E as <- <-. split.
      - intros p Hp. apply in_app_or in Hp as [Hp|Hp]; [|apply B1; assumption]. eapply below_sub; [exact Ha|exact En|reflexivity|right; reflexivity|exact Hp].
      - exists (S d). rewrite !map_app, lsum_app, lsum_sub. cbn [map snd lsum fold_right]. rewrite (proj2 I a _ En). unfold nw. cbn [base children]. unfold lsum in *. lia.
    Qed.

    Lemma tmults_into_sum : forall ops l c, mults_into_sum G ops = (l, c) -> below ops -> below l /\
      (exists d, lsum (map W (map snd l)) + d <= lsum (map W (map snd ops)) /\ (0 < c -> 0 < d)).
    Proof.
      induction ops as [|[m a] ops IH]; intros l c E B; cbn [mults_into_sum] in E.
      { injection E as <- <-. split; [assumption|]. exists 0. cbn. lia. }
      apply below_cons in B as [[Ha La] B]. cbn [snd] in Ha, La.
      destruct (mults_into_sum G ops) as [l1 c1] eqn:E1. destruct (IH l1 c1 eq_refl B) as [B1 [d [Hd Hc]]].
      assert (K : ((m, a) :: l1, c1) = (l, c) -> below l /\ (exists d, lsum (map W (map snd l)) + d <= lsum (map W (map snd ((m, a) :: ops))) /\ (0 < c -> 0 < d))).
      { intro E'. injection E' as <- <-. split; [apply below_cons; auto|]. exists d. cbn [map snd lsum fold_right]. unfold lsum in *. split; [lia|assumption]. }
      destruct (nth_error G a) as [nd|] eqn:En; [|exact (K E)].
      destruct nd as [kd k0| |x0|sub|[|[[] x] [|]]|a0|a0 z0|b0 a0|f0' a0|a0]; try exact (K E).
      injection E as <- <-. destruct (proj1 I a _ x En (or_introl eq_refl)) as [A1 A2]. split; [apply below_cons; cbn [snd]; split; [lia|assumption]|].
      exists (S d). cbn [map snd lsum fold_right]. rewrite (proj2 I a _ En). unfold nw. cbn [base children map snd lsum fold_right]. unfold lsum in *. lia.
    Qed.
  End Flat.

  Lemma tsums_into_mul : forall ops s h W r, TInv (fst s) h W -> below (fst s) h r ops ->
    exists s' l c h' W', sums_into_mul s ops = (s', l, c) /\ TInv (fst s') h' W' /\ length (fst s) <= length (fst s') /\
      (forall m, m < length (fst s) -> h' m = h m /\ W' m = W m) /\ (forall m, m < length (fst s) -> nth_error (fst s') m = nth_error (fst s) m) /\
      below (fst s') h' r l /\ (exists d, lsum (map W' (map snd l)) + d <= lsum (map W (map snd ops)) /\ (0 < c -> 0 < d)).
  Proof.
    induction ops as [|[m a] ops IH]; intros s h W r I B; cbn [sums_into_mul].
    { exists s, [], 0, h, W. split; [reflexivity|]. split; [assumption|]. split; [lia|]. split; [auto|]. split; [auto|]. split; [intros p []|]. exists 0. cbn. lia. }
    apply below_cons in B as [[Ha La] B]. cbn [snd] in Ha, La.
    (* an operand [b] in the place of [a], before the rest *)
    assert (K : forall b e, (h b < r /\ b < length (fst s)) -> W b + e <= W a ->
      exists s' l c h' W', sums_into_mul s ops = (s', l, c) /\ TInv (fst s') h' W' /\ length (fst s) <= length (fst s') /\
      (forall m, m < length (fst s) -> h' m = h m /\ W' m = W m) /\ (forall m, m < length (fst s) -> nth_error (fst s') m = nth_error (fst s) m) /\
      below (fst s') h' r ((m, b) :: l) /\ (exists d, lsum (map W' (map snd ((m, b) :: l))) + d <= lsum (map W (map snd ((m, a) :: ops))) /\ (0 < e + c -> 0 < d))).
    { intros b e [Hb Lb] We. destruct (IH s h W r I B) as [s' [l [c [h' [W' [E [I' [L' [O' [N' [B' [d [Hd Hc]]]]]]]]]]]]].
      exists s', l, c, h', W'. repeat (split; [assumption|]). destruct (O' b Lb) as [Eh Ew]. split.
      - apply below_cons. cbn [snd]. split; [lia|assumption].
      - exists (e + d). cbn [map snd lsum fold_right]. rewrite Ew. unfold lsum in *. split; [lia|]. destruct e; [|lia]. cbn [Nat.add]. intro. apply Hc. lia. }
    assert (K0 : exists s' l c h' W', (let '(s', l, c) := sums_into_mul s ops in (s', (m, a) :: l, c)) = (s', l, c) /\ TInv (fst s') h' W' /\ length (fst s) <= length (fst s') /\
      (forall m, m < length (fst s) -> h' m = h m /\ W' m = W m) /\ (forall m, m < length (fst s) -> nth_error (fst s') m = nth_error (fst s) m) /\
      below (fst s') h' r l /\ (exists d, lsum (map W' (map snd l)) + d <= lsum (map W (map snd ((m, a) :: ops))) /\ (0 < c -> 0 < d))).
    { destruct (K a 0 (conj Ha La) ltac:(lia)) as [s' [l [c [h' [W' [E R]]]]]]. rewrite E. exists s', ((m, a) :: l), c, h', W'. split; [reflexivity|exact R]. }
    destruct (nth_error (fst s) a) as [nd|] eqn:En; [|exact K0].
    destruct nd as [kd k0| |x0|[|[[] x] [|]]|sub|a0|a0 z0|b0 a0|f0' a0|a0]; try exact K0.
    - destruct (proj1 I a _ x En (or_introl eq_refl)) as [A1 A2].
      assert (Wa : W x + 1 <= W a) by (rewrite (proj2 I a _ En); unfold nw; cbn; lia).
      destruct (K x 1 (conj (Nat.lt_trans _ _ _ A1 Ha) A2) Wa) as [s' [l [c [h' [W' [E R]]]]]]. rewrite E. exists s', ((m, x) :: l), (S c), h', W'. split; [reflexivity|exact R].
    - destruct (proj1 I a _ x En (or_introl eq_refl)) as [A1 A2].
      destruct (talloc s h W (GNeg x) (h a) I) as [h1 [W1 [I1 [O1 [Hb Wb]]]]]; [intros c [<-|[]]; lia|].
      destruct (alloc s (GNeg x)) as [s1 b] eqn:Ea. cbn [fst snd] in *.
      assert (Es1 : s1 = fst (alloc s (GNeg x))) by (rewrite Ea; reflexivity). assert (Eb : b = length (fst s)) by (unfold alloc in Ea; congruence).
      assert (L1 : length (fst s1) = S (length (fst s))) by (rewrite Es1; apply length_alloc).
      destruct (IH s1 h1 W1 r I1) as [s' [l [c [h' [W' [E [I' [L' [O' [N' [B' [d [Hd Hc]]]]]]]]]]]]].
      { intros p Hp. destruct (B p Hp) as [X Y]. destruct (O1 _ Y). lia. }
      rewrite E. exists s', ((m, b) :: l), (S c), h', W'. split; [reflexivity|]. split; [assumption|]. split; [lia|].
      split; [intros j Hj; destruct (O' j ltac:(lia)); destruct (O1 j Hj); lia|].
      split; [intros j Hj; rewrite N' by lia; rewrite Es1; apply nth_alloc_old; assumption|].
      destruct (O' b ltac:(lia)) as [Eh Ew]. split; [apply below_cons; cbn [snd]; split; [lia|assumption]|].
      exists (S d). cbn [map snd lsum fold_right]. rewrite Ew, Wb, (proj2 I a _ En). unfold nw. cbn [base children map snd lsum fold_right].
      assert (X : lsum (map W1 (map snd ops)) = lsum (map W (map snd ops))).
      { apply lsum_ext. intros c0 Hc0. apply ops_in in Hc0 as [p [Hp <-]]. destruct (B p Hp) as [_ Y]. apply (O1 _ Y). }
      unfold lsum in *. lia.
  Qed.

  Lemma plus_some : forall c (s' : sst (F := F)) c', plus_count c (Some (s', c')) = Some (s', (c + c')%nat).
  Proof. reflexivity. Qed.

  Lemma tnone : forall (s : sst (F := F)) h W n, TInv (fst s) h W ->
    exists s' c h' W', Some (s, O) = Some (s', c) /\ TInv (fst s') h' W' /\ old_le s h W s' h' W' /\
      (forall m, m < length (fst s) -> h n < h m -> nth_error (fst s') m = nth_error (fst s) m) /\ (0 < c -> W' n < W n).
  Proof. intros s h W n I. exists s, 0, h, W. split; [reflexivity|]. split; [assumption|]. split; [apply old_le_refl|]. split; [auto|lia]. Qed.

  Lemma below_node : forall (G : graph) h W n nd, TInv G h W -> nth_error G n = Some nd -> (forall p, In p (ops_of nd) -> In (snd p) (children nd)) ->
    below G h (h n) (ops_of nd).
  Proof. intros G h W n nd I En O p Hp. exact (proj1 I n nd _ En (O p Hp)). Qed.

  Lemma tdepth : forall k, tpass (depth_pass k) k.
  Proof.
    induction k as [|k IH]; intros s h W n I Ln Hk; [lia|]. cbn [depth_pass].
    destruct (nth_error (fst s) n) as [nd|] eqn:En; [|apply nth_error_None in En; lia].
    destruct nd as [kd k0| |x0|ops|ops|a0|a0 z0|b0 a0|f0' a0|a0]; try (apply tnone; assumption).
    - pose proof (below_node _ h W n _ I En (in_ops ops)) as B. cbn [ops_of] in B.
      destruct (sums_into_sum (fst s) ops) as [l1 c1] eqn:E1. destruct (tsums_into_sum _ h W (h n) I _ _ _ E1 B) as [B1 [d1 [D1 C1]]].
      destruct (mults_into_sum (fst s) l1) as [l2 c2] eqn:E2. destruct (tmults_into_sum _ h W (h n) I _ _ _ E2 B1) as [B2 [d2 [D2 C2]]].
      destruct (tafter _ k IH s h W n (GSum ops) (GSum l2) (d1 + d2) I En (in_ops l2) (ops_in l2)) as [s' [c [h' [W' [E [I' [O' [Fr C]]]]]]]].
      + intros x Hx. apply ops_in in Hx as [p [Hp <-]]. apply B2. assumption.
      + rewrite (proj2 I n _ En). unfold nw. cbn [base children]. lia.
      + lia.
      + cbn [ops_of] in E. rewrite E. exists s', (c1 + c2 + c)%nat, h', W'. split; [reflexivity|]. split; [assumption|]. split; [assumption|]. split; [assumption|].
        intro P. apply C. destruct c1; [|specialize (C1 ltac:(lia)); lia]. destruct c2; [lia|]. specialize (C2 ltac:(lia)). lia.
    - pose proof (below_node _ h W n _ I En (in_ops ops)) as B. cbn [ops_of] in B.
      destruct (tsums_into_mul ops s h W (h n) I B) as [s1 [l1 [c1 [h1 [W1 [E1 [I1 [L1 [O1 [N1 [B1 [d1 [D1 C1]]]]]]]]]]]]]. rewrite E1.
      destruct (mults_into_mul (fst s1) l1) as [l2 c2] eqn:E2. destruct (tmults_into_mul _ h1 W1 (h n) I1 _ _ _ E2 B1) as [B2 [d2 [D2 C2]]].
      destruct (O1 n Ln) as [Eh Ew].
      destruct (tafter _ k IH s1 h1 W1 n (GMul ops) (GMul l2) (d1 + d2) I1) as [s' [c [h' [W' [E [I' [[L' O'] [Fr C]]]]]]]].
      + rewrite N1; assumption.
      + exact (in_ops l2).
      + exact (ops_in l2).
      + intros x Hx. apply ops_in in Hx as [p [Hp <-]]. rewrite Eh. apply B2. assumption.
      + rewrite Ew, (proj2 I n _ En). unfold nw. cbn [base children]. lia.
      + lia.
      + cbn [ops_of] in E. rewrite E. exists s', (c1 + c2 + c)%nat, h', W'. split; [reflexivity|]. split; [assumption|]. split.
        { split; [lia|]. intros j Hj. destruct (O1 j Hj). destruct (O' j); lia. }
        split; [intros j Hj Hh; rewrite Fr; [apply N1; assumption|lia|destruct (O1 j Hj); lia]|].
        intro P. rewrite <- Ew. apply C. destruct c1; [|specialize (C1 ltac:(lia)); lia]. destruct c2; [lia|]. specialize (C2 ltac:(lia)). lia.
  Qed.

  (** *** Tests of the operands *)
  Lemma ttest : forall c k s h n, ranked (fst s) h -> n < length (fst s) -> h n < k -> exists s' b, test fs c k s n = Some (s', b) /\ fst s' = fst s.
  Proof.
    intros c k s h n Hr Ln Hk. unfold test. destruct (geval_ranked (fst s) h Hr k n Dbl None (snd s) Hk Ln) as [st' [v E]]. rewrite E. eauto.
  Qed.

  Lemma ttest_all : forall c k h ops s, ranked (fst s) h -> below (fst s) h k ops ->
    exists s' l, test_all fs c k s ops = Some (s', l) /\ fst s' = fst s /\ length l = length ops.
  Proof.
    intros c k h. induction ops as [|[m a] ops IH]; intros s Hr B; cbn [test_all]; [exists s, []; auto|].
    apply below_cons in B as [[Ha La] B]. destruct (ttest c k s h a Hr La Ha) as [s1 [b [E1 F1]]]. rewrite E1.
    destruct (IH s1) as [s2 [l [E2 [F2 L2]]]]; [rewrite F1; assumption|rewrite F1; assumption|]. rewrite E2.
    exists s2, (b :: l). cbn [length]. split; [reflexivity|]. split; congruence.
  Qed.

  Lemma ttest_any : forall c k h ops s, ranked (fst s) h -> below (fst s) h k ops ->
    exists s' b, test_any fs c k s ops = Some (s', b) /\ fst s' = fst s /\ (b = true -> ops <> []).
  Proof.
    intros c k h. induction ops as [|[m a] ops IH]; intros s Hr B; cbn [test_any]; [exists s, false; repeat split; discriminate|].
    apply below_cons in B as [[Ha La] B]. destruct (ttest c k s h a Hr La Ha) as [s1 [b [E1 F1]]]. rewrite E1. destruct b.
    - exists s1, true. repeat split; [assumption|discriminate].
    - destruct (IH s1) as [s2 [l [E2 [F2 L2]]]]; [rewrite F1; assumption|rewrite F1; assumption|]. rewrite E2.
      exists s2, l. repeat split; [congruence|discriminate].
  Qed.

  Lemma tkeep : forall (W : nat -> nat) ops flags, (forall p, In p ops -> 1 <= W (snd p)) -> length flags = length ops ->
    lsum (map W (map snd (keep ops flags))) + (length ops - length (keep ops flags)) <= lsum (map W (map snd ops)) /\
    (length (keep ops flags) <= length ops) /\ (forall p, In p (keep ops flags) -> In p ops).
  Proof.
    intros W. induction ops as [|p ops IH]; intros [|b flags] Hp L; cbn [length] in L; try lia; [cbn; auto|].
    destruct (IH flags) as [A [B C]]; [intros; apply Hp; right; assumption|lia|]. pose proof (Hp p (or_introl eq_refl)). cbn [keep].
    destruct b; cbn [map length lsum fold_right]; (split; [unfold lsum in *; lia|]); (split; [lia|]).
    - intros q Hq. right. auto.
    - intros q [<-|Hq]; [left; reflexivity|right; auto].
  Qed.

  Lemma below_mono : forall (G : graph) h r r' l, r <= r' -> below G h r l -> below G h r' l.
  Proof. intros G h r r' l H B p Hp. destruct (B p Hp). lia. Qed.

  Lemma tones : forall k, tpass (ones_pass fs k) k.
  Proof.
    induction k as [|k IH]; intros s h W n I Ln Hk; [lia|]. cbn [ones_pass].
    destruct (nth_error (fst s) n) as [nd|] eqn:En; [|apply nth_error_None in En; lia].
    destruct nd as [kd k0| |x0|ops|ops|a0|a0 z0|b0 a0|f0' a0|a0]; try (apply tnone; assumption).
    - apply (tloop _ k IH s h W n (GSum ops) I En (in_ops ops)). lia.
    - destruct (1 <? length ops)%nat eqn:Lo; [|apply (tloop _ k IH s h W n (GMul ops) I En (in_ops ops)); lia]. apply Nat.ltb_lt in Lo.
      pose proof (below_node _ h W n _ I En (in_ops ops)) as B. cbn [ops_of] in B.
      destruct (ttest_all f1 k h ops s (proj1 I) (below_mono _ _ (h n) k _ (proj1 (Nat.lt_succ_r _ _) Hk) B)) as [s1 [flags [Et [F1 Lf]]]]. rewrite Et.
      assert (Pp : forall p, In p ops -> 1 <= W (snd p)) by (intros p Hp; apply (pos _ h W _ I); apply B; assumption).
      destruct (tkeep W ops flags Pp Lf) as [K1 [K2 K3]].
      assert (I1 : TInv (fst s1) h W) by (rewrite F1; assumption).
      assert (Go : forall kept, lsum (map W (map snd kept)) + (length ops - length kept) <= lsum (map W (map snd ops)) -> (forall p, In p kept -> In p ops) ->
        exists s' c h' W', plus_count (length ops - length kept) (over (ones_pass fs k) (set_node s1 n (GMul kept)) kept) = Some (s', c) /\ TInv (fst s') h' W' /\ old_le s h W s' h' W' /\
        (forall m, m < length (fst s) -> h n < h m -> nth_error (fst s') m = nth_error (fst s) m) /\ (0 < c -> W' n < W n)).
      { intros kept Hl Hi. destruct (tafter _ k IH s1 h W n (GMul ops) (GMul kept) (length ops - length kept) I1) as [s' [c [h' [W' [E [I' [O' [Fr C]]]]]]]].
        - rewrite F1; assumption.
        - exact (in_ops kept).
        - exact (ops_in kept).
        - intros x Hx. apply ops_in in Hx as [p [Hp <-]]. rewrite F1. apply B. apply Hi. assumption.
        - rewrite (proj2 I n _ En). unfold nw. cbn [base children]. lia.
        - lia.
        - cbn [ops_of] in E. rewrite E. exists s', (length ops - length kept + c)%nat, h', W'. split; [reflexivity|]. split; [assumption|].
          unfold old_le in *. rewrite F1 in O', Fr. split; [assumption|]. split; assumption. }
      destruct (keep ops flags) as [|q kept] eqn:Ek.
      + destruct ops as [|p0 ops']; [cbn in Lo; lia|]. cbn [firstn length].
        specialize (Go [p0]). cbn [length] in Go. replace (S (length ops') - 1) with (S (length ops') - 1) by lia. apply Go.
        * cbn [map lsum fold_right]. assert (length ops' <= lsum (map W (map snd ops'))); [|unfold lsum in *; cbn [length] in *; lia].
          clear - Pp. induction ops' as [|q l IHl]; [cbn; lia|]. pose proof (Pp q (or_intror (or_introl eq_refl))). cbn [map lsum fold_right length].
          assert (length l <= lsum (map W (map snd l))); [|unfold lsum in *; lia]. apply IHl. intros p [<-|Hp]; apply Pp; [left; reflexivity|right; right; assumption].
        * intros p [<-|[]]. left; reflexivity.
      + apply Go; [exact K1|exact K3].
  Qed.

  Lemma lsum_len : forall (W : nat -> nat) (ops : list (bool * nat)), (forall p, In p ops -> 1 <= W (snd p)) -> length ops <= lsum (map W (map snd ops)).
  Proof.
    intros W. induction ops as [|q l IHl]; intro Pp; [cbn; lia|]. pose proof (Pp q (or_introl eq_refl)). cbn [map lsum fold_right length].
    assert (length l <= lsum (map W (map snd l))); [|unfold lsum in *; lia]. apply IHl. intros p Hp. apply Pp. right; assumption.
  Qed.

  Lemma tzeros : forall k, tpass (zeros_pass fs k) k.
  Proof.
    induction k as [|k IH]; intros s h W n I Ln Hk; [lia|]. cbn [zeros_pass].
    destruct (nth_error (fst s) n) as [nd|] eqn:En; [|apply nth_error_None in En; lia].
    (* the operands are replaced by a new number *)
    assert (Zero : forall s1 s2 a nd nd' (ops : list (bool * nat)), fst s1 = fst s -> alloc s1 (GNum KInteger f0) = (s2, a) -> nth_error (fst s) n = Some nd ->
       nw W nd = base nd + lsum (map W (map snd ops)) -> (ops <> []) -> (forall p, In p ops -> In (snd p) (children nd)) ->
       base nd' = base nd -> children nd' = [a] ->
       exists h2 W2, TInv (fst s2) h2 W2 /\ (forall m, m < length (fst s) -> h2 m = h m /\ W2 m = W m) /\ length (fst s2) = S (length (fst s)) /\
         nth_error (fst s2) n = Some nd /\ a < length (fst s2) /\ h2 a < h2 n /\ nw W2 nd' + (length ops - 1) <= W2 n /\
         (forall m, m < length (fst s) -> nth_error (fst s2) m = nth_error (fst s) m)).
    { intros s1 s2 a nd0 nd' ops F1 Ea Hn Hw Ne Hc Hb Hch.
      destruct (talloc s1 h W (GNum KInteger f0) 0) as [h2 [W2 [I2 [O2 [Ha Wa]]]]]; [rewrite F1; assumption|intros c []|].
      rewrite F1 in O2. rewrite Ea in *. cbn [fst snd] in *.
      assert (Es2 : s2 = fst (alloc s1 (GNum KInteger f0))) by (rewrite Ea; reflexivity). assert (Eb : a = length (fst s)) by (rewrite <- F1; unfold alloc in Ea; congruence).
      assert (L2 : length (fst s2) = S (length (fst s))) by (rewrite Es2, length_alloc, F1; reflexivity).
      assert (N2 : forall m, m < length (fst s) -> nth_error (fst s2) m = nth_error (fst s) m) by (intros m Hm; rewrite Es2, nth_alloc_old; rewrite F1; auto).
      exists h2, W2. split; [assumption|]. split; [assumption|]. split; [assumption|]. split; [rewrite N2; assumption|]. split; [lia|].
      destruct (O2 n Ln) as [Eh Ew]. destruct ops as [|p0 ops]; [congruence|].
      assert (Hp : forall p, In p (p0 :: ops) -> h (snd p) < h n /\ 1 <= W (snd p)).
      { intros p Hp. destruct (proj1 I n nd0 _ Hn (Hc p Hp)). split; [assumption|]. apply (pos _ h W _ I). assumption. }
      split; [|split; [|assumption]].
      - rewrite Ha, Eh. destruct (Hp p0 (or_introl eq_refl)). lia.
      - rewrite Ew, (proj2 I n nd0 Hn), Hw. unfold nw. rewrite Hb, Hch. cbn [map lsum fold_right]. rewrite Wa. unfold nw. cbn [base children map lsum fold_right].
        pose proof (lsum_len W (p0 :: ops) (fun p H => proj2 (Hp p H))). cbn [length map lsum fold_right] in *. unfold lsum in *. lia. }
    destruct nd as [kd k0| |x0|ops|ops|a0|a0 z0|b0 a0|f0' a0|a0]; try (apply tnone; assumption).
    - destruct (1 <? length ops)%nat eqn:Lo; [|apply (tloop _ k IH s h W n (GSum ops) I En (in_ops ops)); lia]. apply Nat.ltb_lt in Lo.
      pose proof (below_node _ h W n _ I En (in_ops ops)) as B. cbn [ops_of] in B.
      destruct (ttest_all f0 k h ops s (proj1 I) (below_mono _ _ (h n) k _ (proj1 (Nat.lt_succ_r _ _) Hk) B)) as [s1 [flags [Et [F1 Lf]]]]. rewrite Et.
      assert (Pp : forall p, In p ops -> 1 <= W (snd p)) by (intros p Hp; apply (pos _ h W _ I); apply B; assumption).
      destruct (tkeep W ops flags Pp Lf) as [K1 [K2 K3]].
      assert (I1 : TInv (fst s1) h W) by (rewrite F1; assumption).
      destruct (keep ops flags) as [|q kept] eqn:Ek.
      + destruct (alloc s1 (GNum KInteger f0)) as [s2 a] eqn:Ea.
        destruct (Zero s1 s2 a (GSum ops) (GSum [(true, a)]) ops F1 Ea En) as [h2 [W2 [I2 [O2 [L2 [N2 [La [Ha [Hw Fr2]]]]]]]]]; try reflexivity; [destruct ops; [cbn in Lo; lia|discriminate]|exact (in_ops ops)|].
        destruct (O2 n Ln) as [Eh Ew].
        destruct (tafter _ k IH s2 h2 W2 n (GSum ops) (GSum [(true, a)]) (length ops - 1) I2 N2) as [s' [c [h' [W' [E [I' [[L' O'] [Fr C]]]]]]]].
        * exact (in_ops _).
        * exact (ops_in _).
        * intros x [<-|[]]. split; assumption.
        * exact Hw.
        * lia.
        * cbn [ops_of] in E. rewrite E. exists s', (length ops - 1 + c)%nat, h', W'. split; [reflexivity|]. split; [assumption|]. split.
          { split; [lia|]. intros j Hj. destruct (O2 j Hj). destruct (O' j); lia. }
          split; [intros j Hj Hh; rewrite Fr; [apply Fr2; assumption|lia|destruct (O2 j Hj); lia]|]. intro P. rewrite <- Ew. apply C. exact P.
      + destruct (tafter _ k IH s1 h W n (GSum ops) (GSum (q :: kept)) (length ops - length (q :: kept)) I1) as [s' [c [h' [W' [E [I' [O' [Fr C]]]]]]]].
        * rewrite F1; assumption.
        * exact (in_ops _).
        * exact (ops_in _).
        * intros x Hx. apply ops_in in Hx as [p [Hp <-]]. rewrite F1. apply B. apply K3. assumption.
        * rewrite (proj2 I n _ En). unfold nw. cbn [base children]. lia.
        * lia.
        * cbn [ops_of] in E. rewrite E. exists s', (length ops - length (q :: kept) + c)%nat, h', W'. split; [reflexivity|]. split; [assumption|].
          unfold old_le in *. rewrite F1 in O', Fr. split; [assumption|]. split; assumption.
    - pose proof (below_node _ h W n _ I En (in_ops ops)) as B. cbn [ops_of] in B.
      destruct (ttest_any f0 k h ops s (proj1 I) (below_mono _ _ (h n) k _ (proj1 (Nat.lt_succ_r _ _) Hk) B)) as [s1 [b [Et [F1 Ne]]]]. rewrite Et. destruct b.
      + destruct (alloc s1 (GNum KInteger f0)) as [s2 a] eqn:Ea.
        destruct (Zero s1 s2 a (GMul ops) (GMul [(true, a)]) ops F1 Ea En) as [h2 [W2 [I2 [O2 [L2 [N2 [La [Ha [Hw Fr2]]]]]]]]]; try reflexivity; [exact (Ne eq_refl)|exact (in_ops ops)|].
        destruct (O2 n Ln) as [Eh Ew].
        destruct (tset s2 h2 W2 n (GMul ops) (GMul [(true, a)]) (length ops - 1) I2 N2) as [W' [I' [O' S']]]; [intros x [<-|[]]; split; assumption|exact Hw|].
        exists (set_node s2 n (GMul [(true, a)])), (length ops - 1)%nat, h2, W'. split; [reflexivity|]. split; [assumption|].
        assert (Ln2 : n < length (fst s2)) by lia. split.
        { split; [rewrite length_set by assumption; lia|]. intros j Hj. destruct (O2 j Hj). specialize (O' j ltac:(lia)). lia. }
        split; [intros j Hj Hh; rewrite nth_set_other; [|intros ->; lia|assumption]; apply Fr2; assumption|lia].
      + assert (I1 : TInv (fst s1) h W) by (rewrite F1; assumption).
        destruct (tloop _ k IH s1 h W n (GMul ops) I1) as [s' [c [h' [W' [E [I' [O' [Fr C]]]]]]]]; [rewrite F1; assumption|exact (in_ops ops)|lia|].
        cbn [ops_of] in E. rewrite E. exists s', c, h', W'. unfold old_le in *. rewrite F1 in O', Fr. auto.
  Qed.

  Lemma tround : forall k s h W n, TInv (fst s) h W -> n < length (fst s) -> h n < k ->
    exists s' c h' W', graph_round fs k s n = Some (s', c) /\ TInv (fst s') h' W' /\ old_le s h W s' h' W' /\ (0 < c -> W' n < W n).
  Proof.
    intros k s h W n I Ln Hk. unfold graph_round.
    destruct (tdepth k s h W n I Ln Hk) as [s1 [c1 [h1 [W1 [E1 [I1 [O1 [_ C1]]]]]]]]. rewrite E1. pose proof O1 as [L1 P1]. destruct (P1 n Ln) as [H1 Q1].
    destruct (tones k s1 h1 W1 n I1) as [s2 [c2 [h2 [W2 [E2 [I2 [O2 [_ C2]]]]]]]]; [lia|lia|]. rewrite E2. pose proof O2 as [L2 P2]. destruct (P2 n) as [H2 Q2]; [lia|].
    destruct (tzeros k s2 h2 W2 n I2) as [s3 [c3 [h3 [W3 [E3 [I3 [O3 [_ C3]]]]]]]]; [lia|lia|]. rewrite E3. pose proof O3 as [L3 P3]. destruct (P3 n) as [H3 Q3]; [lia|].
    exists s3, (c1 + c2 + c3)%nat, h3, W3. split; [reflexivity|]. split; [assumption|].
    split; [eapply old_le_trans; [exact O1|eapply old_le_trans; [exact O2|exact O3]]|].
    intro P. destruct c1; [|specialize (C1 ltac:(lia)); lia]. destruct c2; [|specialize (C2 ltac:(lia)); lia]. specialize (C3 ltac:(lia)). lia.
  Qed.

  Lemma tsimplify : forall rounds k s h W n, TInv (fst s) h W -> n < length (fst s) -> h n < k -> W n < rounds ->
    exists s' h' W', graph_simplify fs rounds k s n = Some s' /\ TInv (fst s') h' W' /\ old_le s h W s' h' W'.
  Proof.
    induction rounds as [|r IH]; intros k s h W n I Ln Hk Hr; [lia|]. cbn [graph_simplify].
    destruct (tround k s h W n I Ln Hk) as [s1 [c [h1 [W1 [E [I1 [O1 C]]]]]]]. rewrite E. destruct c as [|c]; [exists s1, h1, W1; auto|].
    pose proof O1 as [L1 P1]. destruct (P1 n Ln). specialize (C ltac:(lia)).
    destruct (IH k s1 h1 W1 n I1) as [s2 [h2 [W2 [E2 [I2 O2]]]]]; try lia. rewrite E2. exists s2, h2, W2.
    split; [reflexivity|]. split; [assumption|]. eapply old_le_trans; eassumption.
  Qed.

  Lemma tall : forall rounds k l s h W, TInv (fst s) h W -> (forall n, In n l -> n < length (fst s) /\ h n < k /\ W n < rounds) ->
    exists s' h' W', simplify_all fs rounds k s l = Some s' /\ TInv (fst s') h' W' /\ old_le s h W s' h' W'.
  Proof.
    intros rounds k. induction l as [|n l IH]; intros s h W I Hl; cbn [simplify_all]; [exists s, h, W; split; [reflexivity|]; split; [assumption|apply old_le_refl]|].
    destruct (Hl n (or_introl eq_refl)) as [A [B C]]. destruct (tsimplify rounds k s h W n I A B C) as [s1 [h1 [W1 [E1 [I1 O1]]]]]. rewrite E1.
    pose proof O1 as [L1 P1].
    destruct (IH s1 h1 W1 I1) as [s2 [h2 [W2 [E2 [I2 O2]]]]].
    { intros m Hm. destruct (Hl m (or_intror Hm)) as [A' [B' C']]. destruct (P1 m A'). lia. }
    rewrite E2. exists s2, h2, W2. split; [reflexivity|]. split; [assumption|]. eapply old_le_trans; eassumption.
  Qed.

  Lemma treset_all : forall (G : graph) h k l st, ranked G h -> (forall n, In n l -> n < length G /\ h n < k) -> exists st', reset_all k G l st = Some st'.
  Proof.
    intros G h k. induction l as [|n l IH]; intros st Hr Hl; cbn [reset_all]; [eauto|].
    destruct (Hl n (or_introl eq_refl)) as [A B]. destruct (reset_ranked G h Hr k n st B A) as [st1 E1]. rewrite E1.
    apply IH; [assumption|]. intros m Hm. apply Hl. right; assumption.
  Qed.

  Lemma bound_on : forall (W : nat -> nat) (l : list nat), exists k, forall n, In n l -> W n < k.
  Proof.
    intros W l. exists (S (lsum (map W l))). intros n Hn. induction l as [|m l IH]; [destruct Hn|]. cbn [map lsum fold_right].
    destruct Hn as [->|Hn]; [unfold lsum; lia|]. specialize (IH Hn). unfold lsum in *. lia.
  Qed.

  Lemma simplify_system_total : forall (G : graph) st y, acyclic G -> (forall n, In n (y_funs y ++ y_derivs y) -> n < length G) ->
    exists k, forall rounds fuel unit, k <= rounds -> k <= fuel -> exists s', simplify_system fs rounds fuel unit y (G, st) = Some s'.
  Proof.
    intros G st y [h Hr] Hl. destruct (weights G h Hr) as [W I].
    destruct (bound_on W (y_funs y ++ y_derivs y)) as [k1 K1]. destruct (bound_on h (y_funs y ++ y_derivs y)) as [k2 K2].
    exists (k1 + k2). intros rounds fuel unit R1 R2. unfold simplify_system, simplify_functions.
    destruct (tall rounds fuel (y_funs y) (G, st) h W I) as [[G1 st1] [h1 [W1 [E1 [I1 [L1 O1]]]]]].
    { intros n Hn. assert (In n (y_funs y ++ y_derivs y)) by (apply in_or_app; left; assumption). cbn [fst]. specialize (Hl n H); specialize (K1 n H); specialize (K2 n H). lia. }
    rewrite E1. unfold simplify_derivatives. cbn [fst snd] in *. destruct (randomize unit (y_all_vars y) st1) as [st2 old].
    assert (D1 : forall n, In n (y_derivs y) -> n < length G1 /\ h1 n < fuel /\ W1 n < rounds).
    { intros n Hn. assert (H : In n (y_funs y ++ y_derivs y)) by (apply in_or_app; right; assumption). specialize (Hl n H); specialize (K1 n H); specialize (K2 n H).
      destruct (O1 n Hl). lia. }
    destruct (treset_all G1 h1 fuel (y_derivs y) st2 (proj1 I1)) as [st3 E3]; [intros n Hn; destruct (D1 n Hn); lia|]. rewrite E3.
    destruct (tall rounds fuel (simplified y) (G1, st3) h1 W1 I1) as [[G2 st4] [h2 [W2 [E4 [I2 [L2 O2]]]]]].
    { intros n Hn. apply D1. apply simplified_derivs. assumption. }
    fold (simplified y). rewrite E4. cbn [fst] in *.
    destruct (treset_all G2 h2 fuel (y_derivs y) (restore (y_all_vars y) old st4) (proj1 I2)) as [st5 E5].
    { intros n Hn. destruct (D1 n Hn) as [A [B _]]. destruct (O2 n A). lia. }
    rewrite E5. eauto.
  Qed.

  (** *** Evaluation afterwards *)
  Definition no_differentials (G : graph) : Prop := forall n x, nth_error G n <> Some (GDiff x).

  Lemma plain_all : forall (G : graph) h, ranked G h -> no_differentials G -> forall k n, h n < k -> n < length G -> plain G n.
  Proof.
    intros G h Hr Nd. induction k as [|k IH]; intros n Hk Ln; [lia|].
    destruct (nth_error G n) as [nd|] eqn:En; [|apply nth_error_None in En; lia]. apply plain_intro with nd; [assumption| |].
    - intros x ->. exact (Nd n x En).
    - intros c Hc. destruct (Hr n nd c En Hc). apply IH; lia.
  Qed.

  Lemma plain_exps : forall G : graph, acyclic G -> no_differentials G -> plain_exponents G.
  Proof.
    intros G [h Hr] Nd n b e En. destruct (Hr n _ e En) as [_ L]; [right; left; reflexivity|]. apply (plain_all G h Hr Nd (S (h e))); [lia|assumption].
  Qed.

  Lemma eval_clean : forall (G : graph) sigma st T n, acyclic G -> no_differentials G -> base_ok G sigma st -> n < length G ->
    (forall m, reach G n m -> number_at G m \/ snd (cache st T m) = false) ->
    exists e, unfolds G None n e /\ exists k, forall fuel, k <= fuel -> exists st', geval fs G fuel T None st n = Some (st', eval fs (sigma T) e).
  Proof.
    intros G sigma st T n Ac Nd Hb Ln Hr. pose proof (plain_exps G Ac Nd) as He. destruct Ac as [h Rk].
    destruct (ranked_unfold G h Rk (S (h n)) n Ln ltac:(lia)) as [e Hu]. exists e. split; [eexists; exact Hu|].
    exists (S (h n)). intros fuel Hf. destruct (geval_ranked G h Rk fuel n T None st ltac:(lia) Ln) as [st' [v E]]. exists st'. rewrite E. do 2 f_equal.
    assert (Hg : Heap.good fs G sigma T None (reach G n) st).
    { split; [assumption|]. intros m em Hm Hum Hfl. destruct (Hr m Hm) as [[k [c Hn]]|Hf']; [|congruence].
      rewrite (proj2 Hb T m k c Hn Hfl). destruct Hum as [[|j] Hum]; cbn [unfold] in Hum; [discriminate|]. rewrite Hn in Hum. injection Hum as <-. reflexivity. }
    apply (proj2 (geval_ok fs G sigma T None (reach G n) He (reach_closed G n) _ None st n (or_introl eq_refl) Hg _ _ E)); [constructor|eexists; exact Hu].
  Qed.

  Lemma eval_reset : forall (G : graph) sigma st T n, acyclic G -> no_differentials G -> base_ok G sigma st -> n < length G ->
    exists e, unfolds G None n e /\ exists k, forall fuel, k <= fuel ->
      exists st1 st2, reset G fuel st n = Some st1 /\ geval fs G fuel T None st1 n = Some (st2, eval fs (sigma T) e).
  Proof.
    intros G sigma st T n Ac Nd Hb Ln. pose proof Ac as [h Rk]. destruct (ranked_unfold G h Rk (S (h n)) n Ln ltac:(lia)) as [e Hu]. exists e. split; [eexists; exact Hu|].
    exists (S (h n)). intros fuel Hf. destruct (reset_ranked G h Rk fuel n st ltac:(lia) Ln) as [st1 E1]. exists st1.
    destruct (geval_ranked G h Rk fuel n T None st1 ltac:(lia) Ln) as [st2 [v E]]. exists st2. split; [assumption|]. rewrite E. do 2 f_equal.
    pose proof (reset_valid fs G sigma T None _ _ _ _ Hb E1) as Hg.
    apply (proj2 (geval_ok fs G sigma T None (reach G n) (plain_exps G Ac Nd) (reach_closed G n) _ None st1 n (or_introl eq_refl) Hg _ _ E)); [constructor|eexists; exact Hu].
  Qed.

  (** *** Systems *)
  Lemma functions_untouched : forall rounds fuel (G : graph) st y, proper G y -> 0 < rounds -> 0 < fuel ->
    simplify_functions fs rounds fuel y (G, st) = Some (G, st).
  Proof.
    intros rounds fuel G st y P Hr Hf. apply simplify_all_other; try assumption. intros n Hn. destruct (p_funs G y P n Hn) as [a Ea].
    exists (GHandle a). split; [exact Ea|exact I].
  Qed.

  Lemma simplify_system_derivatives : forall rounds fuel unit (G : graph) st y s', proper G y -> simplify_system fs rounds fuel unit y (G, st) = Some s' ->
    simplify_derivatives fs rounds fuel unit y (G, st) = Some s'.
  Proof.
    intros rounds fuel unit G st y s' P E. unfold simplify_system in E. destruct (simplify_functions fs rounds fuel y (G, st)) as [s1|] eqn:E1; [|discriminate].
    destruct (y_funs y) as [|n l] eqn:Ef.
    - unfold simplify_functions in E1. rewrite Ef in E1. injection E1 as <-. exact E.
    - assert (H : 0 < rounds /\ 0 < fuel).
      { unfold simplify_functions in E1. rewrite Ef in E1. cbn [simplify_all] in E1. destruct rounds; [discriminate|]. destruct fuel; [discriminate|]. lia. }
      rewrite (functions_untouched rounds fuel G st y P (proj1 H) (proj2 H)) in E1. injection E1 as <-. exact E.
  Qed.

  Lemma simplify_system_ok : forall rounds fuel unit (G : graph) st y G' st' sigma, proper G y -> base_ok G sigma st ->
    simplify_system fs rounds fuel unit y (G, st) = Some (G', st') ->
    (forall n, In n (simplified y) -> exists a, has_value fs G (random_point unit (y_all_vars y) (sigma Dbl)) n a) ->
    proper G' y /\ base_ok G' sigma st' /\ length G <= length G' /\ (no_differentials G -> no_differentials G') /\
    (forall n, In n (y_derivs y) -> forall T m, reach G' n m -> number_at G' m \/ snd (cache st' T m) = false) /\
    (telling fs G y (random_point unit (y_all_vars y) (sigma Dbl)) -> forall rho, same_parameters y (sigma Dbl) rho ->
     forall n a, has_value fs G rho n a -> has_value fs G' rho n a).
  Proof.
    intros rounds fuel unit G st y G' st' sigma P Hb E Hd. pose proof (simplify_system_derivatives _ _ _ _ _ _ _ P E) as E'.
    destruct (simplify_derivatives_ok fs _ _ _ _ _ _ _ _ sigma E' (p_acyclic G y P) Hb (p_nodup G y P) (p_vars G y P) Hd) as [A [B [[L [K1 K2]] [R V]]]].
    cbn [fst] in *. split.
    { constructor; [exact A| | |exact (p_nodup G y P)|].
      - intros n Hn. destruct (p_funs G y P n Hn) as [a Ea]. exists a. apply (K1 n _ Ea). exact I.
      - intros n Hn. pose proof (p_derivs G y P n Hn). lia.
      - intros v Hv. apply (K1 v _ (p_vars G y P v Hv)). exact I. }
    split; [exact B|]. split; [exact L|]. split; [intros N n x Ex; exact (N n x (K2 n x Ex))|]. split; [exact R|].
    intros T rho Hp n a Ha. refine (V rho _ n a Ha). intros n0 m0 Hn Ho. apply (T n0 m0 Hn Ho).
    intros q Hq. rewrite (Hp q Hq). unfold random_point. destruct (in_dec Nat.eq_dec q (y_all_vars y)); [contradiction|reflexivity].
  Qed.

  Lemma jacobian_untouched : forall rounds fuel unit (G : graph) st y G' st', proper G y -> y_node y = true ->
    (forall n, In n (y_jac y) -> exists a, nth_error G n = Some (GHandle a)) ->
    simplify_system fs rounds fuel unit y (G, st) = Some (G', st') -> G' = G.
  Proof.
    intros rounds fuel unit G st y G' st' P N J E. apply simplify_system_derivatives in E; [|assumption]. unfold simplify_derivatives in E. cbn [fst snd] in E.
    destruct (randomize unit (y_all_vars y) st) as [st1 old]. destruct (reset_all fuel G (y_derivs y) st1) as [st2|]; [|discriminate]. rewrite N in E.
    destruct (simplify_all fs rounds fuel (G, st2) (y_jac y)) as [[G3 st3]|] eqn:E3; [|discriminate].
    assert (G3 = G).
    { destruct (y_jac y) as [|n l] eqn:Ej; [injection E3 as <- _; reflexivity|].
      assert (H : 0 < rounds /\ 0 < fuel).
      { cbn [simplify_all] in E3. destruct rounds; [discriminate|]. destruct fuel; [discriminate|]. lia. }
      rewrite (simplify_all_other fs rounds fuel (G, st2) (n :: l)) in E3; [injection E3 as <- _; reflexivity| |tauto|tauto].
      intros q Hq. destruct (J q Hq) as [a Ea]. exists (GHandle a). split; [exact Ea|exact I]. }
    subst G3. destruct (reset_all fuel G (y_derivs y) _) in E; [|discriminate]. injection E as <- _. reflexivity.
  Qed.
End SimpTerm.
