(** Proofs about simplification in place. *)
From Coq Require Import List Arith Lia ZArith Bool Ring Field.
From Verif Require Import Base Expr Homog Heap Simplify SimpGraph.
Import ListNotations.

Section SimpGraphP.
  Context {F : fld}.
  Local Open Scope fld_scope.
  Add Field simpgraphp_field : (f_th F).
  Variable fs : funs F.
  Notation graph := (list (gnode (F := F))).

  Lemma list_max_ge : forall l n, In n l -> (n <= list_max l)%nat.
  Proof. intros l n H. pose proof (proj1 (list_max_le l (list_max l)) (Nat.le_refl _)) as A. rewrite Forall_forall in A. exact (A n H). Qed.

  Lemma valuation_exists : forall (G : graph), acyclic G -> forall rho, exists V,
    (forall n nd, nth_error G n = Some nd -> node_val fs rho V n nd = V n) /\
    (forall n y, has_value fs G rho n y <-> n < length G /\ V n = Some y).
  Proof.
    intros G [h Hr] rho. set (K := S (list_max (map h (seq 0 (length G))))).
    assert (HK : forall n, n < length G -> h n < K).
    { intros n Hn. unfold K. apply Nat.lt_succ_r. apply list_max_ge. apply in_map. apply in_seq. lia. }
    set (val := fun k n => match unfold k G None n with Some e => eval fs rho e | None => None end).
    assert (A : forall n nd, nth_error G n = Some nd -> node_val fs rho (val K) n nd = val (S K) n).
    { intros n nd En.
      assert (Hc : forall c, In c (children nd) -> exists e, unfold K G None c = Some e).
      { intros c Hc. destruct (Hr n nd c En Hc). apply (ranked_unfold G h Hr); [assumption|]. apply HK. assumption. }
      unfold val at 2. cbn [unfold]. rewrite En.
      assert (L : forall (ops : list (bool * nat)), (forall p, In p ops -> exists e, unfold K G None (snd p) = Some e) ->
        exists l, sequence (map (fun p : bool * nat => match unfold K G None (snd p) with
                                   | Some e => Some (fst p, e) | None => None end) ops) = Some l /\
          map (fun p => (fst p, eval fs rho (snd p))) l = map (fun p => (fst p, val K (snd p))) ops).
      { induction ops as [|p ops IHo]; intro Ho; [exists []; split; reflexivity|]. cbn [map sequence].
        unfold val at 1. destruct (Ho p (or_introl eq_refl)) as [e ->].
        destruct IHo as [l [-> El]]; [intros q Hq; apply Ho; right; exact Hq|].
        eexists; split; [reflexivity|]. cbn [map fst snd]. rewrite El. reflexivity. }
      destruct nd as [kd c| |x|ops|ops|a|a z|b a|f a|a]; cbn [children node_val] in *; try reflexivity.
      - destruct (L ops) as [l [-> El]]; [|cbn [option_map eval]; rewrite El; reflexivity]. intros p Hp. apply Hc. apply in_map. exact Hp.
      - destruct (L ops) as [l [-> El]]; [|cbn [option_map eval]; rewrite El; reflexivity]. intros p Hp. apply Hc. apply in_map. exact Hp.
      - unfold val. destruct (Hc a (or_introl eq_refl)) as [e ->]. reflexivity.
      - unfold val. destruct (Hc a (or_introl eq_refl)) as [e ->]. reflexivity.
      - unfold val. destruct (Hc b (or_introl eq_refl)) as [e ->]. destruct (Hc a (or_intror (or_introl eq_refl))) as [e' ->]. reflexivity.
      - unfold val. destruct (Hc a (or_introl eq_refl)) as [e ->]. reflexivity.
      - unfold val. destruct (Hc a (or_introl eq_refl)) as [e ->]. reflexivity. }
    assert (B : forall n, n < length G -> val (S K) n = val K n).
    { intros n Hn. unfold val. destruct (ranked_unfold G h Hr K n Hn (HK n Hn)) as [e He].
      rewrite He, (unfold_mono K G None n e He (S K)) by lia. reflexivity. }
    exists (val K). split.
    - intros n nd En. rewrite (A n nd En). apply B. apply nth_error_Some. congruence.
    - intros n y. split.
      + intros [e [[k Hk] He]].
        assert (Hn : n < length G).
        { destruct k as [|k]; [discriminate|]. cbn [unfold] in Hk. apply nth_error_Some. intro E. rewrite E in Hk. discriminate. }
        split; [assumption|]. unfold val. destruct (ranked_unfold G h Hr K n Hn (HK n Hn)) as [e' He'].
        rewrite He'. rewrite <- He. f_equal. eapply unfolds_fun; [exists K; exact He'|exists k; exact Hk].
      + intros [Hn Hv]. unfold val in Hv. destruct (unfold K G None n) as [e|] eqn:E; [|discriminate].
        exists e. split; [exists K; exact E|exact Hv].
  Qed.

  (** *** Evaluation with caches which are right in [R] *)
  Section Cached.
    Variables (G : graph) (sigma : numtype -> env F) (V : nat -> option F) (R : nat -> Prop).
    Hypothesis HV : valuation fs G (sigma Dbl) V R.

    Definition gok (st : gstate (F := F)) : Prop :=
      base_ok G sigma st /\ forall m, R m -> snd (cache st Dbl m) = true -> fst (cache st Dbl m) = V m.

    Lemma gok_store : forall st n, gok st -> R n -> gok (store st Dbl n (V n) true).
    Proof.
      intros st n [Hb Hv] Hn. destruct (HV n Hn) as [nd [En [_ [Ev _]]]]. split.
      - apply base_store; [assumption| |].
        + intro E. rewrite E in En. injection En as <-. symmetry. exact Ev.
        + intros k c E. rewrite E in En. injection En as <-. symmetry. exact Ev.
      - intros m Hm. destruct (Nat.eq_dec m n) as [->|N]; [rewrite cache_store_same; reflexivity|].
        rewrite cache_store_other by auto. apply Hv. exact Hm.
    Qed.

    Lemma eval_ops_gok : forall (f : gstate (F := F) -> nat -> option (gstate * option F)),
      (forall st n st' v, f st n = Some (st', v) -> R n -> gok st -> gok st' /\ v = V n) ->
      forall ops st st' l, eval_ops f ops st = Some (st', l) -> (forall p, In p ops -> R (snd p)) -> gok st ->
      gok st' /\ l = map (fun p => (fst p, V (snd p))) ops.
    Proof.
      intros f Hf. induction ops as [|[s a] ops IH]; intros st st' l E Ho Hg; cbn [eval_ops] in E.
      - injection E as <- <-. split; [assumption|reflexivity].
      - destruct (f st a) as [[st1 v]|] eqn:Ef; [|discriminate].
        destruct (eval_ops f ops st1) as [[st2 l2]|] eqn:Er; [|discriminate]. injection E as <- <-.
        destruct (Hf _ _ _ _ Ef (Ho (s, a) (or_introl eq_refl)) Hg) as [Hg1 ->].
        destruct (IH _ _ _ Er (fun p Hp => Ho p (or_intror Hp)) Hg1) as [Hg2 ->]. split; [assumption|reflexivity].
    Qed.

    Lemma geval_gok : forall fuel st n st' v, geval fs G fuel Dbl None st n = Some (st', v) -> R n -> gok st -> gok st' /\ v = V n.
    Proof.
      induction fuel as [|fuel IH]; intros st n st' v E Hn Hg; [discriminate|]. cbn [geval] in E.
      destruct (snd (cache st Dbl n)) eqn:Ef.
      { injection E as <- <-. split; [assumption|]. apply Hg; assumption. }
      destruct (HV n Hn) as [nd [En [Hc [Ev _]]]]. rewrite En in E.
      assert (Fin : forall r : option (gstate * option F),
        match r with Some (st', v) => Some (store st' Dbl n v true, v) | None => None end = Some (st', v) ->
        (forall st1 v1, r = Some (st1, v1) -> gok st1 /\ v1 = V n) -> gok st' /\ v = V n).
      { intros r Er Hr. destruct r as [[st1 v1]|]; [|discriminate]. injection Er as <- <-.
        destruct (Hr _ _ eq_refl) as [Hg1 ->]. split; [|reflexivity]. apply gok_store; assumption. }
      assert (Un : forall a f, In a (children nd) ->
        (match V a with Some x => f x | None => None end) = V n ->
        forall st1 v1, match geval fs G fuel Dbl None st a with
            | Some (st', Some x) => Some (st', f x)
            | Some (st', None) => Some (st', None)
            | None => None end = Some (st1, v1) -> gok st1 /\ v1 = V n).
      { intros a f Ha Hf st1 v1 Es. destruct (geval fs G fuel Dbl None st a) as [[s1 o]|] eqn:Eg; [|discriminate].
        destruct (IH _ _ _ _ Eg (Hc a Ha) Hg) as [Hg1 ->].
        destruct (V a) as [x|]; injection Es as <- <-; split; try assumption. }
      destruct nd as [kd c| |x|ops|ops|a|a z|b a|f a|a]; cbn [children node_val] in *.
      - apply (Fin (Some (st, Some c)) E). intros st1 v1 Es. injection Es as <- <-. split; assumption.
      - apply (Fin (Some (st, fst (cache st Dbl n))) E). intros st1 v1 Es. injection Es as <- <-. split; [assumption|].
        rewrite <- Ev. apply Hg. exact En.
      - apply (Fin (Some (st, Some 0)) E). intros st1 v1 Es. injection Es as <- <-. split; assumption.
      - apply (Fin _ E). intros st1 v1 Es. destruct (eval_ops _ ops st) as [[s1 l]|] eqn:Eo; [|discriminate].
        injection Es as <- <-. destruct (eval_ops_gok _ (IH) ops st s1 l Eo) as [Hg1 ->]; [|assumption|].
        + intros p Hp. apply Hc. apply in_map. exact Hp.
        + split; [assumption|exact Ev].
      - apply (Fin _ E). intros st1 v1 Es. destruct (eval_ops _ ops st) as [[s1 l]|] eqn:Eo; [|discriminate].
        injection Es as <- <-. destruct (eval_ops_gok _ (IH) ops st s1 l Eo) as [Hg1 ->]; [|assumption|].
        + intros p Hp. apply Hc. apply in_map. exact Hp.
        + split; [assumption|exact Ev].
      - apply (Fin _ E). apply (Un a (fun x => Some (- x))); [left; reflexivity|exact Ev].
      - apply (Fin _ E). apply (Un a (fun x => fpowZ x z)); [left; reflexivity|exact Ev].
      - apply (Fin _ E). intros st1 v1 Es.
        destruct (geval fs G fuel Dbl None st a) as [[s1 ve]|] eqn:E1; [|discriminate].
        destruct (geval fs G fuel Dbl None s1 b) as [[s2 vb]|] eqn:E2; [|discriminate]. injection Es as <- <-.
        destruct (IH _ _ _ _ E1 (Hc a (or_intror (or_introl eq_refl))) Hg) as [Hg1 ->].
        destruct (IH _ _ _ _ E2 (Hc b (or_introl eq_refl)) Hg1) as [Hg2 ->]. split; assumption.
      - apply (Fin _ E). apply (Un a (fn fs f)); [left; reflexivity|exact Ev].
      - apply (Fin _ E). intros st1 v1 Es. destruct (IH _ _ _ _ Es (Hc a (or_introl eq_refl)) Hg) as [Hg1 ->]. split; assumption.
    Qed.
  End Cached.

  (** *** Sums and products of lists of operands *)
  Definition at_ops (V : nat -> option F) (ops : list (bool * nat)) : list (bool * option F) := map (fun p => (fst p, V (snd p))) ops.

  Lemma at_ops_app : forall V a b, at_ops V (a ++ b) = at_ops V a ++ at_ops V b.
  Proof. intros. apply map_app. Qed.

  Lemma at_ops_ext : forall V V' ops, (forall p, In p ops -> V' (snd p) = V (snd p)) -> at_ops V' ops = at_ops V ops.
  Proof. intros V V' ops H. apply map_ext_in. intros p Hp. rewrite (H p Hp). reflexivity. Qed.

  Lemma sum_val_app : forall (a b : list (bool * option F)) x y, sum_val a = Some x -> sum_val b = Some y -> sum_val (a ++ b) = Some (x + y).
  Proof.
    induction a as [|[s [u|]] a IH]; intros b x y Ha Hb; cbn [app sum_val] in *; try discriminate.
    - injection Ha as <-. rewrite Hb. f_equal. ring.
    - destruct (sum_val a) as [z|] eqn:E; [|discriminate]. rewrite (IH _ _ _ eq_refl Hb). injection Ha as <-. f_equal. ring.
  Qed.

  Lemma mul_val_app : forall (a b : list (bool * option F)) x y, mul_val a = Some x -> mul_val b = Some y -> mul_val (a ++ b) = Some (x * y).
  Proof.
    induction a as [|[s [u|]] a IH]; intros b x y Ha Hb; cbn [app mul_val] in *; try discriminate.
    - injection Ha as <-. rewrite Hb. f_equal. ring.
    - destruct (mul_val a) as [z|] eqn:E; [|discriminate]. rewrite (IH _ _ _ eq_refl Hb).
      destruct s; [injection Ha as <-; f_equal; ring|]. destruct (feq_dec u 0); [discriminate|].
      injection Ha as <-. f_equal. field. assumption.
  Qed.

  Lemma sum_val_xnor : forall (V : nat -> option F) m ops x, sum_val (at_ops V ops) = Some x ->
    sum_val (at_ops V (map (fun q => (xnor (fst q) m, snd q)) ops)) = Some (if m then x else - x).
  Proof.
    intros V m. induction ops as [|[t a] ops IH]; intros x H; cbn [map at_ops sum_val fst snd] in *.
    - injection H as <-. f_equal. destruct m; ring.
    - destruct (V a) as [u|]; [|discriminate]. fold (at_ops V ops) in H. destruct (sum_val (at_ops V ops)) as [z|]; [|discriminate].
      injection H as <-. fold (at_ops V (map (fun q => (xnor (fst q) m, snd q)) ops)). rewrite (IH z eq_refl).
      f_equal. destruct m, t; cbn [xnor xorb negb]; ring.
  Qed.

  Lemma mul_val_xnor : forall (V : nat -> option F) m ops x, mul_val (at_ops V ops) = Some x -> (m = false -> x <> 0) ->
    mul_val (at_ops V (map (fun q => (xnor (fst q) m, snd q)) ops)) = Some (if m then x else 1 / x).
  Proof.
    intros V m. induction ops as [|[t a] ops IH]; intros x H Hm; cbn [map at_ops mul_val fst snd] in *.
    - injection H as <-. f_equal. destruct m; [reflexivity|]. field. apply f1_neq_f0.
    - destruct (V a) as [u|]; [|discriminate]. fold (at_ops V ops) in H. destruct (mul_val (at_ops V ops)) as [z|]; [|discriminate].
      fold (at_ops V (map (fun q => (xnor (fst q) m, snd q)) ops)).
      assert (Hz : m = false -> z <> 0 /\ (t = true -> u <> 0)).
      { intro Em. specialize (Hm Em). destruct t.
        - injection H as <-. split; [intros ->; apply Hm; ring|]. intros _ ->. apply Hm. ring.
        - destruct (feq_dec u 0); [discriminate|]. injection H as <-. split; [|discriminate]. intros ->. apply Hm. field. assumption. }
      rewrite (IH z eq_refl) by (intro Em; apply (Hz Em)).
      destruct m, t; cbn [xnor xorb negb].
      + exact H.
      + exact H.
      + injection H as <-. destruct (Hz eq_refl) as [Hz1 Hz2]. specialize (Hz2 eq_refl).
        destruct (feq_dec u 0); [contradiction|]. f_equal. field. auto.
      + destruct (feq_dec u 0) as [|Hu]; [discriminate|]. injection H as <-. destruct (Hz eq_refl) as [Hz1 _]. f_equal. field. auto.
  Qed.

  (** operands whose nodes have the values [V] *)
  Definition nodes_have (G : graph) (rho : env F) (V : nat -> option F) (ops : list (bool * nat)) : Prop :=
    forall p, In p ops -> exists nd, nth_error G (snd p) = Some nd /\ node_val fs rho V (snd p) nd = V (snd p).

  Lemma sums_into_sum_val : forall G rho V ops y, nodes_have G rho V ops -> sum_val (at_ops V ops) = Some y ->
    sum_val (at_ops V (fst (sums_into_sum G ops))) = Some y.
  Proof.
    intros G rho V. induction ops as [|[m a] ops IH]; intros y Hn H; [exact H|].
    cbn [at_ops map sum_val fst snd] in H. fold (at_ops V ops) in H.
    destruct (V a) as [x|] eqn:Ea; [|discriminate]. destruct (sum_val (at_ops V ops)) as [z|] eqn:Ez; [|discriminate].
    assert (IH' : sum_val (at_ops V (fst (sums_into_sum G ops))) = Some z).
    { apply IH; [intros p Hp; apply Hn; right; exact Hp|reflexivity]. }
    assert (K : sum_val (at_ops V ((m, a) :: fst (sums_into_sum G ops))) = Some y).
    { cbn [at_ops map sum_val fst snd]. fold (at_ops V (fst (sums_into_sum G ops))). rewrite Ea, IH'. exact H. }
    cbn [sums_into_sum]. destruct (sums_into_sum G ops) as [l c]. cbn [fst snd] in *.
    destruct (Hn (m, a) (or_introl eq_refl)) as [nd [En Ev]]. cbn [snd] in En, Ev. rewrite En.
    destruct nd as [kd k0| |x0|sub|sub|a0|a0 z0|b0 a0|f0' a0|a0]; try exact K. cbn [fst]. rewrite at_ops_app.
    cbn [node_val] in Ev. rewrite Ea in Ev.
    rewrite (sum_val_app _ _ _ _ (sum_val_xnor V m sub x Ev) IH'). exact H.
  Qed.

  Lemma mults_into_sum_val : forall G rho V ops y, nodes_have G rho V ops -> sum_val (at_ops V ops) = Some y ->
    sum_val (at_ops V (fst (mults_into_sum G ops))) = Some y.
  Proof.
    intros G rho V. induction ops as [|[m a] ops IH]; intros y Hn H; [exact H|].
    cbn [at_ops map sum_val fst snd] in H. fold (at_ops V ops) in H.
    destruct (V a) as [x|] eqn:Ea; [|discriminate]. destruct (sum_val (at_ops V ops)) as [z|] eqn:Ez; [|discriminate].
    assert (IH' : sum_val (at_ops V (fst (mults_into_sum G ops))) = Some z).
    { apply IH; [intros p Hp; apply Hn; right; exact Hp|reflexivity]. }
    assert (K : forall b, V b = Some x -> sum_val (at_ops V ((m, b) :: fst (mults_into_sum G ops))) = Some y).
    { intros b Eb. cbn [at_ops map sum_val fst snd]. fold (at_ops V (fst (mults_into_sum G ops))). rewrite Eb, IH'. exact H. }
    cbn [mults_into_sum]. destruct (mults_into_sum G ops) as [l c]. cbn [fst snd] in *.
    destruct (Hn (m, a) (or_introl eq_refl)) as [nd [En Ev]]. cbn [snd] in En, Ev. rewrite En.
    destruct nd as [kd k0| |x0|sub|[|[[] b] [|]]|a0|a0 z0|b0 a0|f0' a0|a0]; try exact (K a Ea). cbn [fst]. apply K.
    cbn [node_val map mul_val fst snd] in Ev. rewrite Ea in Ev. destruct (V b) as [u|]; [|discriminate].
    rewrite <- Ev. f_equal. ring.
  Qed.

  Lemma mults_into_mul_val : forall G rho V ops y, nodes_have G rho V ops -> mul_val (at_ops V ops) = Some y ->
    mul_val (at_ops V (fst (mults_into_mul G ops))) = Some y.
  Proof.
    intros G rho V. induction ops as [|[m a] ops IH]; intros y Hn H; [exact H|].
    cbn [at_ops map mul_val fst snd] in H. fold (at_ops V ops) in H.
    destruct (V a) as [x|] eqn:Ea; [|discriminate]. destruct (mul_val (at_ops V ops)) as [z|] eqn:Ez; [|discriminate].
    assert (IH' : mul_val (at_ops V (fst (mults_into_mul G ops))) = Some z).
    { apply IH; [intros p Hp; apply Hn; right; exact Hp|reflexivity]. }
    assert (K : mul_val (at_ops V ((m, a) :: fst (mults_into_mul G ops))) = Some y).
    { cbn [at_ops map mul_val fst snd]. fold (at_ops V (fst (mults_into_mul G ops))). rewrite Ea, IH'. exact H. }
    cbn [mults_into_mul]. destruct (mults_into_mul G ops) as [l c]. cbn [fst snd] in *.
    destruct (Hn (m, a) (or_introl eq_refl)) as [nd [En Ev]]. cbn [snd] in En, Ev. rewrite En.
    destruct nd as [kd k0| |x0|sub|sub|a0|a0 z0|b0 a0|f0' a0|a0]; try exact K. cbn [fst]. rewrite at_ops_app.
    cbn [node_val] in Ev. rewrite Ea in Ev.
    assert (Hx : m = false -> x <> 0) by (intros ->; destruct (feq_dec x 0); [discriminate|assumption]).
    rewrite (mul_val_app _ _ _ _ (mul_val_xnor V m sub x Ev Hx) IH').
    destruct m; [exact H|]. destruct (feq_dec x 0); [discriminate|]. injection H as <-. f_equal. field. assumption.
  Qed.

  (** operands are left out *)
  Lemma sum_val_filter : forall (V : nat -> option F) (t : bool * nat -> bool) ops y, (forall p, In p ops -> t p = true -> V (snd p) = Some 0) ->
    sum_val (at_ops V ops) = Some y -> sum_val (at_ops V (filter (fun p => negb (t p)) ops)) = Some y.
  Proof.
    intros V t. induction ops as [|[m a] ops IH]; intros y Ht H; [exact H|].
    cbn [at_ops map sum_val fst snd] in H. fold (at_ops V ops) in H.
    destruct (V a) as [x|] eqn:Ea; [|discriminate]. destruct (sum_val (at_ops V ops)) as [z|] eqn:Ez; [|discriminate].
    specialize (IH z (fun p Hp => Ht p (or_intror Hp)) eq_refl). cbn [filter].
    destruct (t (m, a)) eqn:Et; cbn [negb].
    - specialize (Ht _ (or_introl eq_refl) Et). cbn [snd] in Ht. rewrite Ea in Ht. injection Ht as ->.
      rewrite IH. injection H as <-. f_equal. destruct m; ring.
    - cbn [at_ops map sum_val fst snd]. fold (at_ops V (filter (fun p => negb (t p)) ops)). rewrite Ea, IH. exact H.
  Qed.

  Lemma mul_val_filter : forall (V : nat -> option F) (t : bool * nat -> bool) ops y, (forall p, In p ops -> t p = true -> V (snd p) = Some 1) ->
    mul_val (at_ops V ops) = Some y -> mul_val (at_ops V (filter (fun p => negb (t p)) ops)) = Some y.
  Proof.
    intros V t. induction ops as [|[m a] ops IH]; intros y Ht H; [exact H|].
    cbn [at_ops map mul_val fst snd] in H. fold (at_ops V ops) in H.
    destruct (V a) as [x|] eqn:Ea; [|discriminate]. destruct (mul_val (at_ops V ops)) as [z|] eqn:Ez; [|discriminate].
    specialize (IH z (fun p Hp => Ht p (or_intror Hp)) eq_refl). cbn [filter].
    destruct (t (m, a)) eqn:Et; cbn [negb].
    - specialize (Ht _ (or_introl eq_refl) Et). cbn [snd] in Ht. rewrite Ea in Ht. injection Ht as ->.
      rewrite IH. destruct (feq_dec 1 0) as [E|E]; [destruct (f1_neq_f0 E)|].
      destruct m; injection H as <-; f_equal; [ring|field; assumption].
    - cbn [at_ops map mul_val fst snd]. fold (at_ops V (filter (fun p => negb (t p)) ops)). rewrite Ea, IH. exact H.
  Qed.

  Lemma mul_val_has_zero : forall (V : nat -> option F) ops y, mul_val (at_ops V ops) = Some y -> (exists p, In p ops /\ V (snd p) = Some 0) -> y = 0.
  Proof.
    intros V. induction ops as [|[m a] ops IH]; intros y H [p [Hp Ep]]; [destruct Hp|].
    cbn [at_ops map mul_val fst snd] in H. fold (at_ops V ops) in H.
    destruct (V a) as [x|] eqn:Ea; [|discriminate]. destruct (mul_val (at_ops V ops)) as [z|] eqn:Ez; [|discriminate].
    destruct Hp as [<-|Hp].
    - cbn [snd] in Ep. rewrite Ea in Ep. injection Ep as ->. destruct m; [injection H as <-; ring|].
      destruct (feq_dec 0 0); [discriminate|congruence].
    - assert (z = 0) by (apply IH; [reflexivity|exists p; split; assumption]). subst z.
      destruct m; [injection H as <-; ring|]. destruct (feq_dec x 0); [discriminate|]. injection H as <-. field. assumption.
  Qed.

  (** *** The nodes after an assignment or allocation *)
  Lemma nth_set_same : forall (s : sst (F := F)) n nd, n < length (fst s) -> nth_error (fst (set_node s n nd)) n = Some nd.
  Proof.
    intros s n nd H. unfold set_node. cbn [fst]. rewrite nth_error_app2; rewrite firstn_length_le by lia; [|lia].
    rewrite Nat.sub_diag. reflexivity.
  Qed.

  Lemma nth_error_skipn' : forall (A : Type) k (l : list A) m, nth_error (skipn k l) m = nth_error l (k + m).
  Proof. induction k as [|k IH]; intros [|a l] m; cbn; try reflexivity; [destruct m; reflexivity|apply IH]. Qed.

  Lemma nth_set_other : forall (s : sst (F := F)) n nd m, m <> n -> n < length (fst s) ->
    nth_error (fst (set_node s n nd)) m = nth_error (fst s) m.
  Proof.
    intros s n nd m N H. unfold set_node. cbn [fst]. destruct (Nat.lt_ge_cases m n) as [L|L].
    - rewrite nth_error_app1 by (rewrite firstn_length_le; lia). rewrite <- (firstn_skipn n (fst s)) at 2.
      rewrite nth_error_app1 by (rewrite firstn_length_le; lia). reflexivity.
    - rewrite nth_error_app2; rewrite firstn_length_le by lia; [|lia].
      destruct (m - n)%nat as [|j] eqn:E; [lia|]. cbn [nth_error]. rewrite nth_error_skipn'. f_equal. lia.
  Qed.

  Lemma length_set : forall (s : sst (F := F)) n nd, n < length (fst s) -> length (fst (set_node s n nd)) = length (fst s).
  Proof. intros s n nd H. unfold set_node. cbn [fst]. rewrite app_length, firstn_length_le by lia. cbn [length]. rewrite skipn_length. lia. Qed.

  Lemma length_alloc : forall (s : sst (F := F)) nd, length (fst (fst (alloc s nd))) = S (length (fst s)).
  Proof. intros. cbn. rewrite app_length. cbn. lia. Qed.

  Lemma nth_alloc_new : forall (s : sst (F := F)) nd, nth_error (fst (fst (alloc s nd))) (length (fst s)) = Some nd.
  Proof. intros. cbn. rewrite nth_error_app2 by lia. rewrite Nat.sub_diag. reflexivity. Qed.

  Lemma nth_alloc_old : forall (s : sst (F := F)) nd n, n < length (fst s) -> nth_error (fst (fst (alloc s nd))) n = nth_error (fst s) n.
  Proof. intros. cbn. apply nth_error_app1. assumption. Qed.

  Lemma nth_alloc_inv : forall (s : sst (F := F)) nd n x, nth_error (fst (fst (alloc s nd))) n = Some x ->
    (n < length (fst s) /\ nth_error (fst s) n = Some x) \/ (n = length (fst s) /\ x = nd).
  Proof.
    intros s nd n x H. destruct (Nat.lt_trichotomy n (length (fst s))) as [L|[->|L]].
    - left. rewrite nth_alloc_old in H by assumption. auto.
    - right. rewrite nth_alloc_new in H. injection H as <-. auto.
    - exfalso. assert (n < length (fst (fst (alloc s nd)))) by (apply nth_error_Some; congruence). rewrite length_alloc in H0. lia.
  Qed.

  (** *** The invariant of the passes *)

  (** [wR]: nodes which are evaluated, with their values [wV0] when Simplify runs; [wS]: nodes which may be changed or left out;
      [wD]: nodes with a value at a later point, [wV]; [wh]: a rank *)
  Record view := mkW { wR : nat -> Prop; wV0 : nat -> option F; wS : nat -> Prop; wD : nat -> Prop; wV : nat -> option F; wh : nat -> nat }.

  Section Passes.
    Variables (sigma : numtype -> env F) (rho : env F).

    Definition linkedo (a0 a : option F) : Prop := (a0 = Some 0 -> a = Some 0) /\ (a0 = Some 1 -> a = Some 1).

    Definition ops_of (nd : gnode (F := F)) : list (bool * nat) := match nd with GSum ops | GMul ops => ops | _ => [] end.

    Record Inv (s : sst) (w : view) : Prop := mkInv {
      i_v0 : valuation fs (fst s) (sigma Dbl) (wV0 w) (wR w);
      i_v : valuation fs (fst s) rho (wV w) (wD w);
      i_gok : gok (fst s) sigma (wV0 w) (wR w) (snd s);
      i_sub : forall n, wS w n -> wR w n;
      i_closed : forall n nd p, wS w n -> nth_error (fst s) n = Some nd -> In p (ops_of nd) -> wS w (snd p);
      i_linked : forall n, wS w n -> wD w n -> linkedo (wV0 w n) (wV w n);
      i_rank : ranked (fst s) (wh w) }.

    Record ext (s : sst (F := F)) (w w' : view) : Prop := mkExt {
      e_r : forall n, wR w n -> wR w' n /\ wV0 w' n = wV0 w n;
      e_s : forall n, wS w n -> wS w' n;
      e_d : forall n, wD w n -> wD w' n /\ wV w' n = wV w n;
      e_d' : forall n, n < length (fst s) -> wD w' n -> wD w n;
      e_h : forall n, n < length (fst s) -> wh w' n = wh w n }.

    Lemma ext_refl : forall s w, ext s w w.
    Proof. intros s w. constructor; auto. Qed.

    Lemma ext_trans : forall s s' a b c, length (fst s) <= length (fst s') -> ext s a b -> ext s' b c -> ext s a c.
    Proof.
      intros s s' a b c L [r1 s1 d1 d1' h1] [r2 s2 d2 d2' h2]. constructor.
      - intros n H. destruct (r1 n H) as [H1 E1]. destruct (r2 n H1) as [H2 E2]. split; [assumption|congruence].
      - auto.
      - intros n H. destruct (d1 n H) as [H1 E1]. destruct (d2 n H1) as [H2 E2]. split; [assumption|congruence].
      - intros n Hn H. apply d1'; [assumption|]. apply d2'; [lia|assumption].
      - intros n H. rewrite h2, h1 by lia. reflexivity.
    Qed.

    Lemma inv_lt : forall s w n, Inv s w -> wR w n -> n < length (fst s).
    Proof. intros s w n I H. destruct (i_v0 _ _ I n H) as [nd [E _]]. apply nth_error_Some. congruence. Qed.

    (** evaluating *)
    Lemma inv_test : forall c fuel s n s' b w, test fs c fuel s n = Some (s', b) -> Inv s w -> wR w n ->
      Inv s' w /\ fst s' = fst s /\ (b = true <-> wV0 w n = Some c).
    Proof.
      intros c fuel s n s' b w E I Hn. unfold test in E.
      destruct (geval fs (fst s) fuel Dbl None (snd s) n) as [[st v]|] eqn:Eg; [|discriminate]. injection E as <- <-.
      destruct (geval_gok (fst s) sigma (wV0 w) (wR w) (i_v0 _ _ I) fuel (snd s) n st v Eg Hn (i_gok _ _ I)) as [Hg ->].
      split; [|split; [reflexivity|]].
      - destruct I. constructor; assumption.
      - destruct (wV0 w n) as [x|]; [|split; discriminate]. rewrite feqb_eq. split; [intros ->; reflexivity|intro H; injection H as <-; reflexivity].
    Qed.

    Lemma inv_test_all : forall c fuel ops s s' l w, test_all fs c fuel s ops = Some (s', l) -> Inv s w ->
      (forall p, In p ops -> wR w (snd p)) ->
      Inv s' w /\ fst s' = fst s /\ exists t : bool * nat -> bool,
        (forall p, In p ops -> (t p = true <-> wV0 w (snd p) = Some c)) /\ keep ops l = filter (fun p => negb (t p)) ops.
    Proof.
      intros c fuel. induction ops as [|[m a] ops IH]; intros s s' l w E I Ho; cbn [test_all] in E.
      - injection E as <- <-. split; [assumption|]. split; [reflexivity|]. exists (fun _ => false). split; [intros p []|reflexivity].
      - destruct (test fs c fuel s a) as [[s1 b]|] eqn:E1; [|discriminate].
        destruct (test_all fs c fuel s1 ops) as [[s2 l2]|] eqn:E2; [|discriminate]. injection E as <- <-.
        destruct (inv_test _ _ _ _ _ _ _ E1 I (Ho (m, a) (or_introl eq_refl))) as [I1 [F1 B1]].
        destruct (IH _ _ _ _ E2 I1 (fun p Hp => Ho p (or_intror Hp))) as [I2 [F2 [t [Ht Ek]]]].
        split; [assumption|]. split; [congruence|].
        set (t' := fun p : bool * nat => match wV0 w (snd p) with Some x => feqb x c | None => false end).
        assert (Ht' : forall p, t' p = true <-> wV0 w (snd p) = Some c).
        { intro p. unfold t'. destruct (wV0 w (snd p)) as [x|]; [|split; discriminate]. rewrite feqb_eq.
          split; [intros ->; reflexivity|intro H; injection H as <-; reflexivity]. }
        exists t'. split; [intros; apply Ht'|]. cbn [keep filter].
        assert (Eb : b = t' (m, a)).
        { apply Bool.eq_true_iff_eq. rewrite Ht'. exact B1. }
        rewrite Eb, Ek.
        assert (Ef : filter (fun p => negb (t p)) ops = filter (fun p => negb (t' p)) ops).
        { apply filter_ext_in. intros p Hp. f_equal. apply Bool.eq_true_iff_eq. rewrite Ht', (Ht p Hp). reflexivity. }
        rewrite Ef. destruct (t' (m, a)); reflexivity.
    Qed.

    Lemma inv_test_any : forall c fuel ops s s' b w, test_any fs c fuel s ops = Some (s', b) -> Inv s w ->
      (forall p, In p ops -> wR w (snd p)) ->
      Inv s' w /\ fst s' = fst s /\ (b = true -> exists p, In p ops /\ wV0 w (snd p) = Some c).
    Proof.
      intros c fuel. induction ops as [|[m a] ops IH]; intros s s' b w E I Ho; cbn [test_any] in E.
      - injection E as <- <-. split; [assumption|]. split; [reflexivity|]. discriminate.
      - destruct (test fs c fuel s a) as [[s1 b1]|] eqn:E1; [|discriminate].
        destruct (inv_test _ _ _ _ _ _ _ E1 I (Ho (m, a) (or_introl eq_refl))) as [I1 [F1 B1]]. destruct b1.
        + injection E as <- <-. split; [assumption|]. split; [assumption|]. intros _. exists (m, a). split; [left; reflexivity|]. apply B1; reflexivity.
        + destruct (IH _ _ _ _ E I1 (fun p Hp => Ho p (or_intror Hp))) as [I2 [F2 B2]].
          split; [assumption|]. split; [congruence|]. intro Hb. destruct (B2 Hb) as [p [Hp Ep]]. exists p. split; [right; assumption|assumption].
    Qed.

    (** assigning new operands to a sum or product *)
    Lemma inv_set : forall s w n nd nd', Inv s w -> wS w n -> nth_error (fst s) n = Some nd ->
      (exists ops, nd = GSum ops \/ nd = GMul ops) -> children nd' = map snd (ops_of nd') ->
      (forall p, In p (ops_of nd') -> wS w (snd p)) ->
      (forall p, In p (ops_of nd') -> wh w (snd p) < wh w n) ->
      (forall k c, nd' <> GNum k c) -> nd' <> GVar ->
      node_val fs (sigma Dbl) (wV0 w) n nd' = wV0 w n ->
      (wD w n -> (forall p, In p (ops_of nd') -> wD w (snd p)) /\ node_val fs rho (wV w) n nd' = wV w n) ->
      Inv (set_node s n nd') w.
    Proof.
      intros s w n nd nd' I Sn En Hop Hch Hs Hh N1 N2 Hv0 Hv.
      assert (Ln : n < length (fst s)) by (apply nth_error_Some; congruence).
      destruct I as [v0 v g sub cl li rk]. constructor; try assumption.
      - intros m Hm. destruct (Nat.eq_dec m n) as [->|Nm].
        + exists nd'. rewrite nth_set_same by assumption. split; [reflexivity|].
          destruct (v0 n Hm) as [x [_ [_ [_ Nn]]]]. split; [|split; [assumption|assumption]].
          intros c Hc. rewrite Hch in Hc. apply in_map_iff in Hc as [p [<- Hp]]. apply sub. apply Hs. assumption.
        + destruct (v0 m Hm) as [x [Ex Hx]]. exists x. rewrite nth_set_other by assumption. split; assumption.
      - intros m Hm. destruct (Nat.eq_dec m n) as [->|Nm].
        + exists nd'. rewrite nth_set_same by assumption. split; [reflexivity|].
          destruct (v n Hm) as [x [_ [_ [_ Nn]]]]. destruct (Hv Hm) as [H1 H2]. split; [|split; [assumption|assumption]].
          intros c Hc. rewrite Hch in Hc. apply in_map_iff in Hc as [p [<- Hp]]. apply H1. assumption.
        + destruct (v m Hm) as [x [Ex Hx]]. exists x. rewrite nth_set_other by assumption. split; assumption.
      - destruct g as [[b1 b2] gv]. split; [|exact gv]. split.
        + intros T m Em. destruct (Nat.eq_dec m n) as [->|Nm]; [rewrite nth_set_same in Em by assumption; congruence|].
          rewrite nth_set_other in Em by assumption. apply b1. assumption.
        + intros T m k c Em. destruct (Nat.eq_dec m n) as [->|Nm]; [rewrite nth_set_same in Em by assumption; exfalso; apply (N1 k c); congruence|].
          rewrite nth_set_other in Em by assumption. apply (b2 T m k c Em).
      - intros m x p Hm Ex Hp. destruct (Nat.eq_dec m n) as [->|Nm].
        + rewrite nth_set_same in Ex by assumption. injection Ex as <-. apply Hs. assumption.
        + rewrite nth_set_other in Ex by assumption. exact (cl m x p Hm Ex Hp).
      - intros m x c Ex Hc. rewrite length_set by assumption. destruct (Nat.eq_dec m n) as [->|Nm].
        + rewrite nth_set_same in Ex by assumption. injection Ex as <-. rewrite Hch in Hc.
          apply in_map_iff in Hc as [p [<- Hp]]. split; [apply Hh; assumption|].
          destruct (v0 _ (sub _ (Hs p Hp))) as [y [Ey _]]. apply nth_error_Some. congruence.
        + rewrite nth_set_other in Ex by assumption. exact (rk m x c Ex Hc).
    Qed.

    (** a new number 0, or the negative of a node *)
    Lemma inv_alloc : forall s w nd (Q : Prop) r, Inv s w ->
      (nd = GNum KInteger 0 \/ exists x, nd = GNeg x) ->
      (forall c, In c (children nd) -> wR w c /\ (Q -> wD w c) /\ wh w c < r) ->
      (Q -> linkedo (node_val fs (sigma Dbl) (wV0 w) (length (fst s)) nd) (node_val fs rho (wV w) (length (fst s)) nd)) ->
      exists w', Inv (fst (alloc s nd)) w' /\ ext s w w' /\ wS w' (length (fst s)) /\
        wV0 w' (length (fst s)) = node_val fs (sigma Dbl) (wV0 w) (length (fst s)) nd /\
        (Q -> wD w' (length (fst s)) /\ wV w' (length (fst s)) = node_val fs rho (wV w) (length (fst s)) nd) /\
        wh w' (length (fst s)) = r.
    Proof.
      intros s w nd Q r I Hnd Hc HL. set (L := length (fst s)).
      assert (NL : nth_error (fst (fst (alloc s nd))) L = Some nd) by apply nth_alloc_new.
      set (put := fun (V : nat -> option F) (v : option F) (n : nat) => if Nat.eqb n L then v else V n).
      assert (PL : forall V v, put V v L = v) by (intros; unfold put; rewrite Nat.eqb_refl; reflexivity).
      assert (PO : forall V v n, n < L -> put V v n = V n).
      { intros V v n H. unfold put. destruct (Nat.eqb n L) eqn:E; [|reflexivity]. apply Nat.eqb_eq in E. lia. }
      set (n0 := node_val fs (sigma Dbl) (wV0 w) L nd). set (n1 := node_val fs rho (wV w) L nd).
      set (w' := mkW (fun n => wR w n \/ n = L) (put (wV0 w) n0) (fun n => wS w n \/ n = L)
                     (fun n => wD w n \/ (n = L /\ Q)) (put (wV w) n1) (fun n => if Nat.eqb n L then r else wh w n)).
      assert (RL : forall n, wR w n -> n < L) by (intros; eapply inv_lt; eassumption).
      assert (DL : forall n, wD w n -> n < L).
      { intros n H. destruct (i_v _ _ I n H) as [x [Ex _]]. apply nth_error_Some. congruence. }
      assert (DC : forall V (P : nat -> Prop) (rho' : env F), (forall c, In c (children nd) -> P c /\ V c <> None) ->
        node_val fs rho' V L nd <> None).
      { intros V P rho' H. destruct Hnd as [->|[x ->]]; cbn [node_val]; [discriminate|].
        destruct (H x (or_introl eq_refl)) as [_ N]. destruct (V x); [discriminate|contradiction]. }
      exists w'. assert (EX : ext s w w').
      { constructor.
        - intros n H. split; [left; assumption|]. cbn [w' wV0]. apply PO. apply RL. assumption.
        - intros n H. left. assumption.
        - intros n H. split; [left; assumption|]. cbn [w' wV]. apply PO. apply DL. assumption.
        - intros n Hn [H|[-> _]]; [assumption|]. fold L in Hn. lia.
        - intros n H. cbn [w' wh]. destruct (Nat.eqb n L) eqn:E; [|reflexivity]. apply Nat.eqb_eq in E. fold L in H. lia. }
      destruct I as [v0 v g sub cl li rk]. split; [|split; [exact EX|]].
      - constructor.
        + intros n [H| ->].
          * destruct (v0 n H) as [x [Ex [Hx [Ev Nn]]]]. exists x. rewrite nth_alloc_old by (apply RL; assumption).
            split; [assumption|]. split; [intros c H'; left; apply Hx; assumption|]. cbn [w' wV0]. rewrite PO by (apply RL; assumption).
            split; [|assumption]. rewrite <- Ev. apply node_val_ext. intros c H'. apply PO. apply RL. apply Hx. assumption.
          * exists nd. rewrite NL. split; [reflexivity|]. split; [intros c H'; left; apply (Hc c H')|].
            cbn [w' wV0]. rewrite PL. split.
            -- apply node_val_ext. intros c H'. apply PO. apply RL. apply (Hc c H').
            -- apply (DC _ (fun _ => True)). intros c H'. split; [exact I|]. destruct (Hc c H') as [Rc _]. destruct (v0 c Rc) as [? [_ [_ [_ N]]]]. exact N.
        + intros n [H|[-> q]].
          * destruct (v n H) as [x [Ex [Hx [Ev Nn]]]]. exists x. rewrite nth_alloc_old by (apply DL; assumption).
            split; [assumption|]. split; [intros c H'; left; apply Hx; assumption|]. cbn [w' wV]. rewrite PO by (apply DL; assumption).
            split; [|assumption]. rewrite <- Ev. apply node_val_ext. intros c H'. apply PO. apply DL. apply Hx. assumption.
          * exists nd. rewrite NL. split; [reflexivity|]. split; [intros c H'; left; apply (Hc c H'); assumption|].
            cbn [w' wV]. rewrite PL. split.
            -- apply node_val_ext. intros c H'. apply PO. apply DL. apply (Hc c H'). assumption.
            -- apply (DC _ (fun _ => True)). intros c H'. split; [exact I|]. destruct (Hc c H') as [_ [Dc _]]. destruct (v c (Dc q)) as [? [_ [_ [_ N]]]]. exact N.
        + assert (CO : forall T n, n < L -> cache (snd (fst (alloc s nd))) T n = cache (snd s) T n).
          { intros T n Hn. cbn [alloc fst snd]. rewrite !cache_store_other by (right; fold L; lia). reflexivity. }
          destruct g as [[b1 b2] gv]. split; [split|].
          * intros T n En. destruct (nth_alloc_inv s nd n _ En) as [[Hn En']|[_ E]]; [|destruct Hnd as [->|[x ->]]; discriminate].
            rewrite CO by assumption. apply b1. assumption.
          * intros T n k c En. destruct (nth_alloc_inv s nd n _ En) as [[Hn En']|[-> E]].
            -- rewrite CO by assumption. apply (b2 T n k c En').
            -- cbn [alloc fst snd]. destruct T.
               ++ rewrite cache_store_other by (left; discriminate). rewrite cache_store_same. discriminate.
               ++ rewrite cache_store_same. discriminate.
          * intros m [Hm| ->].
            -- rewrite CO by (apply RL; assumption). cbn [w' wV0]. rewrite PO by (apply RL; assumption). apply gv. assumption.
            -- cbn [alloc fst snd]. rewrite cache_store_other by (left; discriminate). fold L. rewrite cache_store_same. discriminate.
        + intros n [H| ->]; [left; apply sub; assumption|right; reflexivity].
        + intros n x p [H| ->] Ex Hp.
          * destruct (nth_alloc_inv s nd n _ Ex) as [[Hn Ex']|[-> _]]; [left; exact (cl n x p H Ex' Hp)|].
            apply sub in H. apply RL in H. fold L in H. lia.
          * rewrite NL in Ex. injection Ex as <-. destruct Hnd as [->|[y ->]]; destruct Hp.
        + intros n [H| ->] H'.
          * assert (Dn : wD w n). { destruct H' as [H'|[-> _]]; [assumption|]. apply sub in H. apply RL in H. lia. }
            cbn [w' wV0 wV]. rewrite !PO by (apply DL; assumption). apply li; assumption.
          * destruct H' as [H'|[_ q]]; [apply DL in H'; lia|]. cbn [w' wV0 wV]. rewrite !PL. apply HL. assumption.
        + intros n x c Ex Hx. rewrite length_alloc. fold L. cbn [w' wh].
          destruct (nth_alloc_inv s nd n _ Ex) as [[Hn Ex']|[-> ->]].
          * destruct (rk n x c Ex' Hx) as [H1 H2]. fold L in Hn, H2. destruct (Nat.eqb n L) eqn:E1; [apply Nat.eqb_eq in E1; lia|].
            destruct (Nat.eqb c L) eqn:E2; [apply Nat.eqb_eq in E2; lia|]. split; [assumption|lia].
          * destruct (Hc c Hx) as [Rc [_ H1]]. apply RL in Rc. fold L. rewrite Nat.eqb_refl.
            destruct (Nat.eqb c L) eqn:E2; [apply Nat.eqb_eq in E2; lia|]. split; [assumption|lia].
      - split; [right; reflexivity|]. cbn [w' wV0 wV wD wh]. rewrite !PL, Nat.eqb_refl. split; [reflexivity|].
        split; [|reflexivity]. intro q. split; [right; split; [reflexivity|assumption]|reflexivity].
    Qed.

    Definition pass_ok (f : sst (F := F) -> nat -> option (sst * nat)) : Prop :=
      forall s n s' c w, f s n = Some (s', c) -> Inv s w -> wS w n ->
      exists w', Inv s' w' /\ ext s w w' /\ length (fst s) <= length (fst s').

    Lemma over_ok : forall f, pass_ok f -> forall ops s s' c w, over f s ops = Some (s', c) -> Inv s w ->
      (forall p, In p ops -> wS w (snd p)) -> exists w', Inv s' w' /\ ext s w w' /\ length (fst s) <= length (fst s').
    Proof.
      intros f Hf. induction ops as [|[m a] ops IH]; intros s s' c w E Hi Ho; cbn [over] in E.
      - injection E as <- <-. exists w. split; [assumption|]. split; [apply ext_refl|lia].
      - destruct (f s a) as [[s1 c1]|] eqn:E1; [|discriminate].
        destruct (over f s1 ops) as [[s2 c2]|] eqn:E2; [|discriminate]. injection E as <- <-.
        destruct (Hf _ _ _ _ _ E1 Hi (Ho (m, a) (or_introl eq_refl))) as [w1 [I1 [X1 L1]]].
        destruct (IH _ _ _ _ E2 I1) as [w2 [I2 [X2 L2]]].
        { intros p Hp. apply (e_s _ _ _ X1). apply Ho. right; assumption. }
        exists w2. split; [assumption|]. split; [|lia]. apply (ext_trans s s1 w w1 w2); assumption.
    Qed.

    Lemma plus_count_inv : forall c (r : option (sst (F := F) * nat)) s' c', plus_count c r = Some (s', c') -> exists c'', r = Some (s', c'').
    Proof. intros c [[s1 c1]|] s' c' E; [|discriminate]. injection E as <- _. eexists; reflexivity. Qed.

    Lemma nodes_have_of : forall G r V D ops, valuation fs G r V D -> (forall p, In p ops -> D (snd p)) -> nodes_have G r V ops.
    Proof. intros G r V D ops H Ho p Hp. destruct (H _ (Ho p Hp)) as [nd [E [_ [Ev _]]]]. exists nd. split; assumption. Qed.

    (** where the operands come from *)
    Lemma sums_into_sum_from : forall (G : graph) (P : nat -> Prop) ops, (forall p, In p ops -> P (snd p)) ->
      (forall a sub q, P a -> nth_error G a = Some (GSum sub) -> In q sub -> P (snd q)) ->
      forall p, In p (fst (sums_into_sum G ops)) -> P (snd p).
    Proof.
      intros G P. induction ops as [|[m a] ops IH]; intros Ho Hs p Hp; [destruct Hp|]. cbn [sums_into_sum] in Hp.
      specialize (IH (fun q Hq => Ho q (or_intror Hq)) Hs). destruct (sums_into_sum G ops) as [l c]. cbn [fst] in IH.
      assert (K : In p ((m, a) :: l) -> P (snd p)) by (intros [<-|H]; [apply (Ho (m, a)); left; reflexivity|apply IH; exact H]).
      destruct (nth_error G a) as [nd|] eqn:En; [|exact (K Hp)].
      destruct nd as [kd k0| |x0|sub|sub|a0|a0 z0|b0 a0|f0' a0|a0]; try exact (K Hp). cbn [fst] in Hp.
      apply in_app_or in Hp as [Hp|Hp]; [|apply IH; exact Hp]. apply in_map_iff in Hp as [q [<- Hq]]. cbn [snd].
      exact (Hs a sub q (Ho (m, a) (or_introl eq_refl)) En Hq).
    Qed.

    Lemma mults_into_sum_from : forall (G : graph) (P : nat -> Prop) ops, (forall p, In p ops -> P (snd p)) ->
      (forall a sub q, P a -> nth_error G a = Some (GMul sub) -> In q sub -> P (snd q)) ->
      forall p, In p (fst (mults_into_sum G ops)) -> P (snd p).
    Proof.
      intros G P. induction ops as [|[m a] ops IH]; intros Ho Hs p Hp; [destruct Hp|]. cbn [mults_into_sum] in Hp.
      specialize (IH (fun q Hq => Ho q (or_intror Hq)) Hs). destruct (mults_into_sum G ops) as [l c]. cbn [fst] in IH.
      assert (K : In p ((m, a) :: l) -> P (snd p)) by (intros [<-|H]; [apply (Ho (m, a)); left; reflexivity|apply IH; exact H]).
      destruct (nth_error G a) as [nd|] eqn:En; [|exact (K Hp)].
      destruct nd as [kd k0| |x0|sub|[|[[] b] [|]]|a0|a0 z0|b0 a0|f0' a0|a0]; try exact (K Hp). cbn [fst] in Hp.
      destruct Hp as [<-|Hp]; [|apply IH; exact Hp]. cbn [snd].
      exact (Hs a _ (true, b) (Ho (m, a) (or_introl eq_refl)) En (or_introl eq_refl)).
    Qed.

    Lemma mults_into_mul_from : forall (G : graph) (P : nat -> Prop) ops, (forall p, In p ops -> P (snd p)) ->
      (forall a sub q, P a -> nth_error G a = Some (GMul sub) -> In q sub -> P (snd q)) ->
      forall p, In p (fst (mults_into_mul G ops)) -> P (snd p).
    Proof.
      intros G P. induction ops as [|[m a] ops IH]; intros Ho Hs p Hp; [destruct Hp|]. cbn [mults_into_mul] in Hp.
      specialize (IH (fun q Hq => Ho q (or_intror Hq)) Hs). destruct (mults_into_mul G ops) as [l c]. cbn [fst] in IH.
      assert (K : In p ((m, a) :: l) -> P (snd p)) by (intros [<-|H]; [apply (Ho (m, a)); left; reflexivity|apply IH; exact H]).
      destruct (nth_error G a) as [nd|] eqn:En; [|exact (K Hp)].
      destruct nd as [kd k0| |x0|sub|sub|a0|a0 z0|b0 a0|f0' a0|a0]; try exact (K Hp). cbn [fst] in Hp.
      apply in_app_or in Hp as [Hp|Hp]; [|apply IH; exact Hp]. apply in_map_iff in Hp as [q [<- Hq]]. cbn [snd].
      exact (Hs a sub q (Ho (m, a) (or_introl eq_refl)) En Hq).
    Qed.

    (** the operands of a sum or product whose node is in a valuation are in it *)
    Lemma sub_in : forall G r V (D : nat -> Prop) a nd q, valuation fs G r V D -> D a -> nth_error G a = Some nd -> In q (ops_of nd) -> D (snd q).
    Proof.
      intros G r V D a nd q H Ha En Hq. destruct (H a Ha) as [nd' [E' [Hc _]]]. rewrite En in E'. injection E' as <-.
      apply Hc. destruct nd; cbn [ops_of children] in *; try destruct Hq; apply in_map; assumption.
    Qed.

    Lemma sub_rank : forall (G : graph) h a nd q b, ranked G h -> h a < b -> nth_error G a = Some nd -> In q (ops_of nd) -> h (snd q) < b.
    Proof.
      intros G h a nd q b H Ha En Hq. assert (h (snd q) < h a); [|lia]. apply (H a nd); [assumption|].
      destruct nd; cbn [ops_of children] in *; try destruct Hq; apply in_map; assumption.
    Qed.

    Lemma sums_into_mul_ok : forall ops s s' l c w n, sums_into_mul s ops = (s', l, c) -> Inv s w -> n < length (fst s) ->
      (forall p, In p ops -> wS w (snd p) /\ wh w (snd p) < wh w n /\ (wD w n -> wD w (snd p))) ->
      exists w', Inv s' w' /\ ext s w w' /\ length (fst s) <= length (fst s') /\
        (forall m, m < length (fst s) -> nth_error (fst s') m = nth_error (fst s) m) /\
        (forall p, In p l -> wS w' (snd p) /\ wh w' (snd p) < wh w' n /\ (wD w n -> wD w' (snd p))) /\
        at_ops (wV0 w') l = at_ops (wV0 w) ops /\ (wD w n -> at_ops (wV w') l = at_ops (wV w) ops).
    Proof.
      induction ops as [|[m a] ops IH]; intros s s' l c w n E Hi Ln Ho; cbn [sums_into_mul] in E.
      { injection E as <- <- <-. exists w. split; [assumption|]. split; [apply ext_refl|]. split; [lia|].
        split; [reflexivity|]. split; [intros p []|]. split; reflexivity. }
      assert (Ho' : forall p, In p ops -> wS w (snd p) /\ wh w (snd p) < wh w n /\ (wD w n -> wD w (snd p))) by (intros p Hp; apply Ho; right; assumption).
      destruct (Ho (m, a) (or_introl eq_refl)) as [Sa [ha Da]]. cbn [snd] in Sa, ha, Da.
      (* the operand is replaced by [b], with the same values, without a new node *)
      assert (Old : forall b r, sums_into_mul s ops = r -> wS w b -> wh w b < wh w n -> (wD w n -> wD w b) ->
        wV0 w b = wV0 w a -> (wD w n -> wV w b = wV w a) ->
        exists w', Inv (fst (fst r)) w' /\ ext s w w' /\ length (fst s) <= length (fst (fst (fst r))) /\
          (forall m, m < length (fst s) -> nth_error (fst (fst (fst r))) m = nth_error (fst s) m) /\
          (forall p, In p ((m, b) :: snd (fst r)) -> wS w' (snd p) /\ wh w' (snd p) < wh w' n /\ (wD w n -> wD w' (snd p))) /\
          at_ops (wV0 w') ((m, b) :: snd (fst r)) = at_ops (wV0 w) ((m, a) :: ops) /\
          (wD w n -> at_ops (wV w') ((m, b) :: snd (fst r)) = at_ops (wV w) ((m, a) :: ops))).
      { intros b [[s1 l1] c1] Er Sb hb Db Eb0 Eb. cbn [fst snd].
        destruct (IH s s1 l1 c1 w n Er Hi Ln Ho') as [w1 [I1 [X1 [L1 [N1 [P1 [Q0 Q1]]]]]]].
        exists w1. split; [assumption|]. split; [assumption|]. split; [assumption|]. split; [assumption|].
        assert (Lb : b < length (fst s)) by (eapply inv_lt; [exact Hi|apply (i_sub _ _ Hi); exact Sb]).
        split; [|split].
        - intros p [<-|Hp]; [|apply P1; assumption]. cbn [snd]. split; [apply (e_s _ _ _ X1); assumption|].
          rewrite !(e_h _ _ _ X1) by assumption. split; [assumption|]. intro Dn. apply (e_d _ _ _ X1). apply Db. assumption.
        - cbn [at_ops map fst snd]. fold (at_ops (wV0 w1) l1) (at_ops (wV0 w) ops). rewrite Q0.
          destruct (e_r _ _ _ X1 b (i_sub _ _ Hi _ Sb)) as [_ ->]. rewrite Eb0. reflexivity.
        - intro Dn. cbn [at_ops map fst snd]. fold (at_ops (wV w1) l1) (at_ops (wV w) ops). rewrite (Q1 Dn).
          destruct (e_d _ _ _ X1 b (Db Dn)) as [_ ->]. rewrite (Eb Dn). reflexivity. }
      assert (Keep : (let '(s', l, c) := sums_into_mul s ops in (s', (m, a) :: l, c)) = (s', l, c) ->
        exists w', Inv s' w' /\ ext s w w' /\ length (fst s) <= length (fst s') /\
        (forall m, m < length (fst s) -> nth_error (fst s') m = nth_error (fst s) m) /\
        (forall p, In p l -> wS w' (snd p) /\ wh w' (snd p) < wh w' n /\ (wD w n -> wD w' (snd p))) /\
        at_ops (wV0 w') l = at_ops (wV0 w) ((m, a) :: ops) /\ (wD w n -> at_ops (wV w') l = at_ops (wV w) ((m, a) :: ops))).
      { intro E'. pose proof (Old a (sums_into_mul s ops) eq_refl Sa ha Da eq_refl (fun _ => eq_refl)) as O.
        destruct (sums_into_mul s ops) as [[s1 l1] c1]. injection E' as <- <- <-. exact O. }
      destruct (nth_error (fst s) a) as [nd|] eqn:En; [|exact (Keep E)].
      destruct nd as [kd k0| |x0|[|[[] x] [|]]|sub|a0|a0 z0|b0 a0|f0' a0|a0]; try exact (Keep E).
      - (* a sum with one operand, added *)
        assert (Sx : wS w x) by (exact (i_closed _ _ Hi a _ (true, x) Sa En (or_introl eq_refl))).
        assert (V0x : forall V D r, valuation fs (fst s) r V D -> D a -> V x = V a).
        { intros V D r HV Da'. destruct (HV a Da') as [nd [E' [_ [Ev Nn]]]]. rewrite En in E'. injection E' as <-.
          cbn [node_val map sum_val fst snd] in Ev. destruct (V x) as [u|]; [|congruence]. rewrite <- Ev. f_equal. ring. }
        pose proof (Old x (sums_into_mul s ops) eq_refl Sx (sub_rank _ _ _ _ (true, x) _ (i_rank _ _ Hi) ha En (or_introl eq_refl))
          (fun Dn => sub_in _ _ _ _ _ _ (true, x) (i_v _ _ Hi) (Da Dn) En (or_introl eq_refl))
          (V0x _ _ _ (i_v0 _ _ Hi) (i_sub _ _ Hi _ Sa)) (fun Dn => V0x _ _ _ (i_v _ _ Hi) (Da Dn))) as O.
        destruct (sums_into_mul s ops) as [[s1 l1] c1]. injection E as <- <- <-. exact O.
      - (* a sum with one operand, subtracted *)
        assert (Sx : wS w x) by (exact (i_closed _ _ Hi a _ (false, x) Sa En (or_introl eq_refl))).
        assert (V0x : forall V D r k, valuation fs (fst s) r V D -> D a -> node_val fs r V k (GNeg x) = V a).
        { intros V D r k HV Da'. destruct (HV a Da') as [nd [E' [_ [Ev Nn]]]]. rewrite En in E'. injection E' as <-.
          cbn [node_val map sum_val fst snd] in *. destruct (V x) as [u|]; [|congruence]. rewrite <- Ev. f_equal. ring. }
        pose proof (V0x _ _ _ (length (fst s)) (i_v0 _ _ Hi) (i_sub _ _ Hi _ Sa)) as E0.
        destruct (inv_alloc s w (GNeg x) (wD w n) (wh w a) Hi (or_intror (ex_intro _ x eq_refl))) as [w1 [I1 [X1 [S1 [Z0 [Z1 H1]]]]]].
        { intros y [<-|[]]. split; [apply (i_sub _ _ Hi); assumption|]. split.
          - intro Dn. exact (sub_in _ _ _ _ _ _ (false, x) (i_v _ _ Hi) (Da Dn) En (or_introl eq_refl)).
          - apply (i_rank _ _ Hi a _ x En). left; reflexivity. }
        { intro Dn. rewrite E0, (V0x _ _ _ (length (fst s)) (i_v _ _ Hi) (Da Dn)). apply (i_linked _ _ Hi); [assumption|]. apply Da. assumption. }
        destruct (alloc s (GNeg x)) as [s1 b] eqn:Ea.
        assert (Eb : b = length (fst s)) by (injection Ea as _ <-; reflexivity). cbn [fst] in I1.
        assert (Es1 : s1 = fst (alloc s (GNeg x))) by (rewrite Ea; reflexivity).
        assert (L1 : length (fst s1) = S (length (fst s))) by (rewrite Es1; apply length_alloc).
        assert (N1 : forall m, m < length (fst s) -> nth_error (fst s1) m = nth_error (fst s) m) by (intros; rewrite Es1; apply nth_alloc_old; assumption).
        assert (Dn1 : wD w1 n <-> wD w n).
        { split; [apply (e_d' _ _ _ X1); assumption|]. intro D. apply (e_d _ _ _ X1). assumption. }
        destruct (sums_into_mul s1 ops) as [[s2 l2] c2] eqn:Er. injection E as <- <- <-.
        destruct (IH s1 s2 l2 c2 w1 n Er I1 ltac:(lia)) as [w2 [I2 [X2 [L2 [N2 [P2 [Q0 Q1]]]]]]].
        { intros p Hp. destruct (Ho' p Hp) as [A [B C]].
          assert (Lp : snd p < length (fst s)) by (eapply inv_lt; [exact Hi|apply (i_sub _ _ Hi); exact A]).
          split; [apply (e_s _ _ _ X1); assumption|]. rewrite !(e_h _ _ _ X1) by assumption. split; [assumption|].
          intro D. apply (e_d _ _ _ X1). apply C. apply Dn1. assumption. }
        exists w2. split; [assumption|]. split; [apply (ext_trans s s1 w w1 w2); [lia|assumption|assumption]|]. split; [lia|].
        split; [intros k Hk; rewrite N2 by lia; apply N1; assumption|].
        assert (Rb : wR w1 b) by (apply (i_sub _ _ I1); rewrite Eb; exact S1).
        split; [|split].
        + intros p [<-|Hp].
          * cbn [snd]. split; [apply (e_s _ _ _ X2); rewrite Eb; exact S1|].
            rewrite !(e_h _ _ _ X2) by lia. rewrite Eb, H1, (e_h _ _ _ X1) by assumption. split; [assumption|].
            intro D. apply (e_d _ _ _ X2). apply Z1. assumption.
          * destruct (P2 p Hp) as [A [B C]]. split; [assumption|]. split; [assumption|]. intro D. apply C. apply Dn1. assumption.
        + cbn [at_ops map fst snd]. fold (at_ops (wV0 w2) l2) (at_ops (wV0 w) ops). rewrite Q0.
          destruct (e_r _ _ _ X2 b Rb) as [_ ->]. rewrite Eb, Z0, E0. f_equal. apply at_ops_ext.
          intros p Hp. apply (e_r _ _ _ X1). apply (i_sub _ _ Hi). apply (Ho' p Hp).
        + intro D. cbn [at_ops map fst snd]. fold (at_ops (wV w2) l2) (at_ops (wV w) ops). rewrite Q1 by (apply Dn1; assumption).
          destruct (Z1 D) as [Db Ez]. rewrite <- Eb in Db, Ez. destruct (e_d _ _ _ X2 b Db) as [_ ->]. rewrite Ez.
          rewrite (V0x _ _ _ _ (i_v _ _ Hi) (Da D)). f_equal. apply at_ops_ext.
          intros p Hp. apply (e_d _ _ _ X1). apply (Ho' p Hp). assumption.
    Qed.

    (** new operands for a sum or product which is then descended into *)
    Lemma set_over_ok : forall f, pass_ok f -> forall s w n nd nd' s' c, Inv s w -> wS w n -> nth_error (fst s) n = Some nd ->
      (exists ops, nd = GSum ops \/ nd = GMul ops) -> (exists ops, nd' = GSum ops \/ nd' = GMul ops) ->
      (forall p, In p (ops_of nd') -> wS w (snd p) /\ wh w (snd p) < wh w n) ->
      node_val fs (sigma Dbl) (wV0 w) n nd' = wV0 w n ->
      (wD w n -> (forall p, In p (ops_of nd') -> wD w (snd p)) /\ node_val fs rho (wV w) n nd' = wV w n) ->
      over f (set_node s n nd') (ops_of nd') = Some (s', c) ->
      exists w', Inv s' w' /\ ext s w w' /\ length (fst s) <= length (fst s').
    Proof.
      intros f Hf s w n nd nd' s' c Hi Sn En K K' Hp Hv0 Hv E.
      assert (Ln : n < length (fst s)) by (apply nth_error_Some; congruence).
      assert (I1 : Inv (set_node s n nd') w).
      { apply (inv_set s w n nd nd'); try assumption.
        - destruct K' as [ops [-> | ->]]; reflexivity.
        - intros p H. apply (Hp p H).
        - intros p H. apply (Hp p H).
        - intros k x. destruct K' as [ops [-> | ->]]; discriminate.
        - destruct K' as [ops [-> | ->]]; discriminate. }
      destruct (over_ok f Hf _ _ _ _ _ E I1) as [w' [I2 [X2 L2]]]; [intros p H; apply (Hp p H)|].
      rewrite length_set in L2 by assumption.
      exists w'. split; [assumption|]. split; [|assumption].
      destruct X2 as [a b d d' h]. rewrite length_set in d', h by assumption. constructor; assumption.
    Qed.

    Lemma node_of : forall s w n nd, Inv s w -> wR w n -> nth_error (fst s) n = Some nd -> node_val fs (sigma Dbl) (wV0 w) n nd = wV0 w n /\ exists y, wV0 w n = Some y.
    Proof.
      intros s w n nd Hi Rn En. destruct (i_v0 _ _ Hi n Rn) as [x [Ex [_ [Ev Nn]]]]. rewrite En in Ex. injection Ex as <-.
      split; [assumption|]. destruct (wV0 w n) as [y|]; [exists y; reflexivity|contradiction].
    Qed.

    Lemma node_of' : forall s w n nd, Inv s w -> wD w n -> nth_error (fst s) n = Some nd -> node_val fs rho (wV w) n nd = wV w n /\ exists y, wV w n = Some y.
    Proof.
      intros s w n nd Hi Rn En. destruct (i_v _ _ Hi n Rn) as [x [Ex [_ [Ev Nn]]]]. rewrite En in Ex. injection Ex as <-.
      split; [assumption|]. destruct (wV w n) as [y|]; [exists y; reflexivity|contradiction].
    Qed.

    Lemma depth_pass_ok : forall fuel, pass_ok (depth_pass fuel).
    Proof.
      induction fuel as [|k IH]; intros s n s' c w E Hi Sn; [discriminate|]. cbn [depth_pass] in E.
      destruct (nth_error (fst s) n) as [nd|] eqn:En; [|discriminate].
      assert (Same : Some (s, O) = Some (s', c) -> exists w', Inv s' w' /\ ext s w w' /\ length (fst s) <= length (fst s')).
      { intro E'. injection E' as <- _. exists w. split; [assumption|]. split; [apply ext_refl|lia]. }
      assert (Rn : wR w n) by (apply (i_sub _ _ Hi); assumption).
      destruct nd as [kd k0| |x0|ops|ops|a0|a0 z0|b0 a0|f0' a0|a0]; try exact (Same E).
      - (* sum *)
        pose proof (sums_into_sum_val (fst s)) as A1. pose proof (mults_into_sum_val (fst s)) as A2.
        pose proof (sums_into_sum_from (fst s)) as B1. pose proof (mults_into_sum_from (fst s)) as B2.
        specialize (A1) with (ops := ops). specialize (B1) with (ops := ops).
        destruct (sums_into_sum (fst s) ops) as [l1 c1]. cbn [fst] in A1, B1.
        specialize (A2) with (ops := l1). specialize (B2) with (ops := l1).
        destruct (mults_into_sum (fst s) l1) as [l2 c2]. cbn [fst] in A2, B2.
        apply plus_count_inv in E as [c'' E].
        assert (Props : forall P : nat -> Prop, (forall p, In p ops -> P (snd p)) ->
          (forall a nd q, P a -> nth_error (fst s) a = Some nd -> In q (ops_of nd) -> P (snd q)) ->
          (forall p, In p l1 -> P (snd p)) /\ forall p, In p l2 -> P (snd p)).
        { intros P Ho Hs. assert (Q1 : forall p, In p l1 -> P (snd p)) by (apply B1; [assumption|intros a sub q; exact (Hs a (GSum sub) q)]).
          split; [assumption|]. apply B2; [assumption|intros a sub q; exact (Hs a (GMul sub) q)]. }
        assert (Vals : forall V D r, valuation fs (fst s) r V D -> D n -> node_val fs r V n (GSum l2) = V n).
        { intros V D r HV Dn. destruct (HV n Dn) as [x [Ex [Hc [Ev Nn]]]]. rewrite En in Ex. injection Ex as <-.
          assert (Do : forall p, In p ops -> D (snd p)) by (intros p Hp; apply Hc; apply in_map; assumption).
          destruct (Props D Do (fun a nd q => sub_in (fst s) r V D a nd q HV)) as [D1 D2].
          destruct (V n) as [y|] eqn:Vn; [|contradiction]. cbn [node_val] in *.
          apply (A2 r V y (nodes_have_of _ _ _ _ _ HV D1)). apply (A1 r V y (nodes_have_of _ _ _ _ _ HV Do)). exact Ev. }
        apply (set_over_ok (depth_pass k) IH s w n (GSum ops) (GSum l2) s' c'' Hi Sn En); try (eexists; left; reflexivity).
        + destruct (Props (wS w)) as [_ P2].
          * intros p Hp. exact (i_closed _ _ Hi n _ p Sn En Hp).
          * intros a nd q Sa Ea Hq. exact (i_closed _ _ Hi a nd q Sa Ea Hq).
          * destruct (Props (fun a => wh w a < wh w n)) as [_ P3].
            -- intros p Hp. apply (i_rank _ _ Hi n _ (snd p) En). cbn [children]. apply in_map. assumption.
            -- intros a nd q Ha Ea Hq. exact (sub_rank (fst s) (wh w) a nd q _ (i_rank _ _ Hi) Ha Ea Hq).
            -- intros p Hp. split; [apply P2; assumption|apply P3; assumption].
        + exact (Vals _ _ _ (i_v0 _ _ Hi) Rn).
        + intro Dn. split; [|exact (Vals _ _ _ (i_v _ _ Hi) Dn)].
          destruct (Props (wD w)) as [_ P2]; [| |exact P2].
          * intros p Hp. exact (sub_in (fst s) rho (wV w) (wD w) n _ p (i_v _ _ Hi) Dn En Hp).
          * intros a nd q. exact (sub_in (fst s) rho (wV w) (wD w) a nd q (i_v _ _ Hi)).
        + exact E.
      - (* product *)
        destruct (sums_into_mul s ops) as [[s1 l1] c1] eqn:E1.
        assert (Ln : n < length (fst s)) by (apply nth_error_Some; congruence).
        destruct (sums_into_mul_ok ops s s1 l1 c1 w n E1 Hi Ln) as [w1 [I1 [X1 [L1 [N1 [P1 [Q0 Q1]]]]]]].
        { intros p Hp. split; [exact (i_closed _ _ Hi n _ p Sn En Hp)|]. split.
          - apply (i_rank _ _ Hi n _ (snd p) En). cbn [children]. apply in_map. assumption.
          - intro Dn. exact (sub_in (fst s) rho (wV w) (wD w) n _ p (i_v _ _ Hi) Dn En Hp). }
        pose proof (mults_into_mul_val (fst s1)) as A2. pose proof (mults_into_mul_from (fst s1)) as B2.
        specialize (A2) with (ops := l1). specialize (B2) with (ops := l1).
        destruct (mults_into_mul (fst s1) l1) as [l2 c2]. cbn [fst] in A2, B2.
        apply plus_count_inv in E as [c'' E].
        assert (Sn1 : wS w1 n) by (apply (e_s _ _ _ X1); assumption).
        assert (Rn1 : wR w1 n) by (apply (i_sub _ _ I1); assumption).
        assert (Dn1 : wD w1 n -> wD w n) by (apply (e_d' _ _ _ X1); assumption).
        assert (En1 : nth_error (fst s1) n = Some (GMul ops)) by (rewrite N1; assumption).
        destruct (set_over_ok (depth_pass k) IH s1 w1 n (GMul ops) (GMul l2) s' c'' I1 Sn1 En1) as [w2 [I2 [X2 L2]]]; try (eexists; right; reflexivity).
        + intros p Hp. split.
          * revert p Hp. apply B2; [intros q Hq; apply (P1 q Hq)|]. intros a sub q Sa Ea Hq. exact (i_closed _ _ I1 a _ q Sa Ea Hq).
          * revert p Hp. apply (B2 (fun a => wh w1 a < wh w1 n)); [intros q Hq; apply (P1 q Hq)|].
            intros a sub q Ha Ea Hq. exact (sub_rank (fst s1) (wh w1) a _ q _ (i_rank _ _ I1) Ha Ea Hq).
        + destruct (node_of s w n _ Hi Rn En) as [Ev [y Ey]]. destruct (e_r _ _ _ X1 n Rn) as [_ Ew]. rewrite Ew, Ey.
          cbn [node_val] in *. apply (A2 (sigma Dbl) (wV0 w1) y).
          * apply (nodes_have_of _ _ _ (wR w1)); [exact (i_v0 _ _ I1)|]. intros p Hp. apply (i_sub _ _ I1). apply (P1 p Hp).
          * rewrite Q0. rewrite <- Ey. exact Ev.
        + intro Dn'. pose proof (Dn1 Dn') as Dn. split.
          * apply B2; [intros q Hq; apply (P1 q Hq); assumption|]. intros a sub q Da Ea Hq. exact (sub_in (fst s1) rho (wV w1) (wD w1) a _ q (i_v _ _ I1) Da Ea Hq).
          * destruct (node_of' s w n _ Hi Dn En) as [Ev [y Ey]]. destruct (e_d _ _ _ X1 n Dn) as [_ Ew]. rewrite Ew, Ey.
            cbn [node_val] in *. apply (A2 rho (wV w1) y).
            -- apply (nodes_have_of _ _ _ (wD w1)); [exact (i_v _ _ I1)|]. intros p Hp. apply (P1 p Hp). assumption.
            -- rewrite (Q1 Dn). rewrite <- Ey. exact Ev.
        + exact E.
        + exists w2. split; [assumption|]. split; [apply (ext_trans s s1 w w1 w2); assumption|lia].
    Qed.

    Lemma ones_pass_ok : forall fuel, pass_ok (ones_pass fs fuel).
    Proof.
      induction fuel as [|k IH]; intros s n s' c w E Hi Sn; [discriminate|]. cbn [ones_pass] in E.
      destruct (nth_error (fst s) n) as [nd|] eqn:En; [|discriminate].
      assert (Same : Some (s, O) = Some (s', c) -> exists w', Inv s' w' /\ ext s w w' /\ length (fst s) <= length (fst s')).
      { intro E'. injection E' as <- _. exists w. split; [assumption|]. split; [apply ext_refl|lia]. }
      assert (Rn : wR w n) by (apply (i_sub _ _ Hi); assumption).
      assert (So : forall p, In p (ops_of nd) -> wS w (snd p)) by (intros p Hp; exact (i_closed _ _ Hi n nd p Sn En Hp)).
      destruct nd as [kd k0| |x0|ops|ops|a0|a0 z0|b0 a0|f0' a0|a0]; try exact (Same E); cbn [ops_of] in So.
      - exact (over_ok _ IH _ _ _ _ _ E Hi So).
      - destruct (1 <? length ops)%nat eqn:El; [|exact (over_ok _ IH _ _ _ _ _ E Hi So)].
        destruct (test_all fs 1 k s ops) as [[s1 flags]|] eqn:Et; [|discriminate].
        destruct (inv_test_all _ _ _ _ _ _ _ Et Hi (fun p Hp => i_sub _ _ Hi _ (So p Hp))) as [I1 [F1 [t [Ht Ek]]]].
        assert (En1 : nth_error (fst s1) n = Some (GMul ops)) by (rewrite F1; assumption).
        (* a list of operands which has the right values *)
        assert (Go : forall kept c0, (forall p, In p kept -> In p ops) ->
          (forall V y, (forall p, In p ops -> t p = true -> V (snd p) = Some 1) -> mul_val (at_ops V ops) = Some y ->
             mul_val (at_ops V kept) = Some y) ->
          plus_count c0 (over (ones_pass fs k) (set_node s1 n (GMul kept)) kept) = Some (s', c) ->
          exists w', Inv s' w' /\ ext s w w' /\ length (fst s) <= length (fst s')).
        { intros kept c0 Hin Hval E'. apply plus_count_inv in E' as [c'' E'].
          destruct (set_over_ok (ones_pass fs k) IH s1 w n (GMul ops) (GMul kept) s' c'' I1 Sn En1) as [w2 [I2 [X2 L2]]]; try (eexists; right; reflexivity).
          - intros p Hp. split; [apply So; apply Hin; exact Hp|]. apply (i_rank _ _ Hi n _ (snd p) En). cbn [children]. apply in_map. apply Hin. exact Hp.
          - destruct (node_of s w n _ Hi Rn En) as [Ev [y Ey]]. rewrite Ey in *. cbn [node_val] in *. apply Hval; [|exact Ev].
            intros p Hp Tp. apply (Ht p Hp). assumption.
          - intro Dn. assert (Do : forall p, In p ops -> wD w (snd p)) by (intros p Hp; exact (sub_in (fst s) rho (wV w) (wD w) n _ p (i_v _ _ Hi) Dn En Hp)).
            split; [intros p Hp; apply Do; apply Hin; exact Hp|].
            destruct (node_of' s w n _ Hi Dn En) as [Ev [y Ey]]. rewrite Ey in *. cbn [node_val] in *. apply Hval; [|exact Ev].
            intros p Hp Tp. apply (i_linked _ _ Hi); [apply So; assumption|apply Do; assumption|]. apply (Ht p Hp). assumption.
          - exact E'.
          - exists w2. split; [assumption|]. rewrite F1 in L2. split; [|assumption].
            destruct X2 as [a b d d' h]. rewrite F1 in d', h. constructor; assumption. }
        destruct (keep ops flags) as [|q kept] eqn:Ekept.
        + (* all operands are 1: the first is kept *)
          apply (Go _ _) in E; [assumption| |].
          * intros p Hp. destruct ops; [destruct Hp|]. cbn [firstn] in Hp. destruct Hp as [<-|[]]. left; reflexivity.
          * intros V y HV Hy. destruct ops as [|[m a] ops']; [discriminate|]. cbn [firstn].
            assert (Ta : forall p, In p ((m, a) :: ops') -> t p = true).
            { intros p Hp. destruct (t p) eqn:Tp; [reflexivity|]. exfalso. symmetry in Ek.
              assert (In p (filter (fun p => negb (t p)) ((m, a) :: ops'))) by (apply filter_In; rewrite Tp; split; [assumption|reflexivity]).
              rewrite Ek in H. destruct H. }
            assert (Va : V a = Some 1) by (apply (HV (m, a) (or_introl eq_refl)); apply Ta; left; reflexivity).
            pose proof (mul_val_filter V t ((m, a) :: ops') y HV Hy) as Hf. rewrite <- Ek in Hf. cbn [at_ops map mul_val fst snd] in *.
            rewrite Va. injection Hf as <-. destruct (feq_dec 1 0) as [Z|Z]; [destruct (f1_neq_f0 Z)|].
            destruct m; f_equal; [ring|field; assumption].
        + apply (Go _ _) in E; [assumption| |].
          * intros p Hp. rewrite Ek in Hp. apply filter_In in Hp. apply Hp.
          * intros V y HV Hy. rewrite Ek. apply mul_val_filter; assumption.
    Qed.

    Lemma zeros_pass_ok : forall fuel, pass_ok (zeros_pass fs fuel).
    Proof.
      induction fuel as [|k IH]; intros s n s' c w E Hi Sn; [discriminate|]. cbn [zeros_pass] in E.
      destruct (nth_error (fst s) n) as [nd|] eqn:En; [|discriminate].
      assert (Same : Some (s, O) = Some (s', c) -> exists w', Inv s' w' /\ ext s w w' /\ length (fst s) <= length (fst s')).
      { intro E'. injection E' as <- _. exists w. split; [assumption|]. split; [apply ext_refl|lia]. }
      assert (Rn : wR w n) by (apply (i_sub _ _ Hi); assumption).
      assert (Ln : n < length (fst s)) by (apply nth_error_Some; congruence).
      assert (So : forall p, In p (ops_of nd) -> wS w (snd p)) by (intros p Hp; exact (i_closed _ _ Hi n nd p Sn En Hp)).
      (* a new 0 below [n], which has an operand *)
      assert (New : forall s1 ops, Inv s1 w -> fst s1 = fst s -> nd = GSum ops \/ nd = GMul ops -> ops <> [] ->
        exists w1, Inv (fst (alloc s1 (GNum KInteger 0))) w1 /\ ext s w w1 /\ wS w1 (length (fst s)) /\
          wV0 w1 (length (fst s)) = Some 0 /\ (wD w n -> wD w1 (length (fst s)) /\ wV w1 (length (fst s)) = Some 0) /\
          wh w1 (length (fst s)) < wh w1 n /\ nth_error (fst (fst (alloc s1 (GNum KInteger 0)))) n = Some nd).
      { intros s1 ops I1 F1 Hnd Nop.
        destruct (inv_alloc s1 w (GNum KInteger 0) (wD w n) 0%nat I1 (or_introl eq_refl)) as [w1 [I2 [X1 [S1 [Z0 [Z1 H1]]]]]].
        { intros x []. } { intros _. split; intro H; [reflexivity|]. exact H. }
        rewrite F1 in *. exists w1. split; [assumption|].
        assert (X1' : ext s w w1) by (destruct X1 as [a b d d' h]; rewrite F1 in d', h; constructor; assumption).
        split; [assumption|]. split; [assumption|]. split; [assumption|]. split; [assumption|]. split.
        - rewrite H1, (e_h _ _ _ X1') by assumption. destruct ops as [|q ops]; [contradiction|].
          destruct (i_rank _ _ Hi n nd (snd q) En) as [A _]; [destruct Hnd as [-> | ->]; left; reflexivity|]. lia.
        - rewrite nth_alloc_old by (rewrite F1; assumption). rewrite F1. assumption. }
      destruct nd as [kd k0| |x0|ops|ops|a0|a0 z0|b0 a0|f0' a0|a0]; try exact (Same E); cbn [ops_of] in So.
      - destruct (1 <? length ops)%nat eqn:El; [|exact (over_ok _ IH _ _ _ _ _ E Hi So)].
        destruct (test_all fs 0 k s ops) as [[s1 flags]|] eqn:Et; [|discriminate].
        destruct (inv_test_all _ _ _ _ _ _ _ Et Hi (fun p Hp => i_sub _ _ Hi _ (So p Hp))) as [I1 [F1 [t [Ht Ek]]]].
        assert (En1 : nth_error (fst s1) n = Some (GSum ops)) by (rewrite F1; assumption).
        assert (V0 : forall y, wV0 w n = Some y -> sum_val (at_ops (wV0 w) (filter (fun p => negb (t p)) ops)) = Some y).
        { intros y Ey. destruct (node_of s w n _ Hi Rn En) as [Ev _]. rewrite Ey in Ev. cbn [node_val] in Ev.
          apply sum_val_filter; [|exact Ev]. intros p Hp Tp. apply (Ht p Hp). assumption. }
        assert (V1 : wD w n -> forall y, wV w n = Some y -> sum_val (at_ops (wV w) (filter (fun p => negb (t p)) ops)) = Some y).
        { intros Dn y Ey. destruct (node_of' s w n _ Hi Dn En) as [Ev _]. rewrite Ey in Ev. cbn [node_val] in Ev.
          apply sum_val_filter; [|exact Ev]. intros p Hp Tp.
          apply (i_linked _ _ Hi); [apply So; assumption|exact (sub_in (fst s) rho (wV w) (wD w) n _ p (i_v _ _ Hi) Dn En Hp)|]. apply (Ht p Hp). assumption. }
        rewrite <- Ek in V0, V1. destruct (keep ops flags) as [|q kept] eqn:Ekept.
        + destruct (New s1 ops I1 F1 (or_introl eq_refl)) as [w1 [I2 [X1 [S1 [Z0 [Z1 [H1 En2]]]]]]]; [intros ->; discriminate|].
          destruct (alloc s1 (GNum KInteger 0)) as [s2 a] eqn:Ea.
          assert (Eb : a = length (fst s)) by (injection Ea as _ <-; rewrite F1; reflexivity). cbn [fst] in I2, En2.
          assert (L2 : length (fst s2) = S (length (fst s))) by (replace s2 with (fst (alloc s1 (GNum KInteger 0))) by (rewrite Ea; reflexivity); rewrite length_alloc, F1; reflexivity).
          apply plus_count_inv in E as [c'' E].
          destruct (set_over_ok (zeros_pass fs k) IH s2 w1 n (GSum ops) (GSum [(true, a)]) s' c'' I2 (e_s _ _ _ X1 n Sn) En2) as [w3 [I3 [X3 L3]]]; try (eexists; left; reflexivity).
          * intros p [<-|[]]. cbn [snd]. rewrite Eb. split; assumption.
          * destruct (e_r _ _ _ X1 n Rn) as [_ ->]. destruct (node_of s w n _ Hi Rn En) as [_ [y Ey]]. rewrite Ey.
            rewrite <- (V0 y Ey). cbn [node_val map sum_val at_ops fst snd]. rewrite Eb, Z0. f_equal. ring.
          * intro Dn'. pose proof (e_d' _ _ _ X1 n Ln Dn') as Dn. destruct (Z1 Dn) as [Da Va]. split; [intros p [<-|[]]; cbn [snd]; rewrite Eb; assumption|].
            destruct (e_d _ _ _ X1 n Dn) as [_ ->]. destruct (node_of' s w n _ Hi Dn En) as [_ [y Ey]]. rewrite Ey.
            rewrite <- (V1 Dn y Ey). cbn [node_val map sum_val at_ops fst snd]. rewrite Eb, Va. f_equal. ring.
          * exact E.
          * exists w3. split; [assumption|]. split; [apply (ext_trans s s2 w w1 w3); [lia|assumption|assumption]|lia].
        + assert (Hin : forall p, In p (q :: kept) -> In p ops) by (intros p Hp; rewrite Ek in Hp; apply filter_In in Hp; apply Hp).
          apply plus_count_inv in E as [c'' E].
          destruct (set_over_ok (zeros_pass fs k) IH s1 w n (GSum ops) (GSum (q :: kept)) s' c'' I1 Sn En1) as [w2 [I2 [X2 L2]]]; try (eexists; left; reflexivity).
          * intros p Hp. split; [apply So; apply Hin; exact Hp|]. apply (i_rank _ _ Hi n _ (snd p) En). cbn [children]. apply in_map. apply Hin. exact Hp.
          * destruct (node_of s w n _ Hi Rn En) as [_ [y Ey]]. rewrite Ey. exact (V0 y Ey).
          * intro Dn. split; [intros p Hp; exact (sub_in (fst s) rho (wV w) (wD w) n _ p (i_v _ _ Hi) Dn En (Hin p Hp))|].
            destruct (node_of' s w n _ Hi Dn En) as [_ [y Ey]]. rewrite Ey. exact (V1 Dn y Ey).
          * exact E.
          * exists w2. split; [assumption|]. rewrite F1 in L2. split; [|assumption].
            destruct X2 as [a b d d' h]. rewrite F1 in d', h. constructor; assumption.
      - destruct (test_any fs 0 k s ops) as [[s1 b]|] eqn:Et; [|discriminate].
        destruct (inv_test_any _ _ _ _ _ _ _ Et Hi (fun p Hp => i_sub _ _ Hi _ (So p Hp))) as [I1 [F1 B1]]. destruct b.
        + destruct (B1 eq_refl) as [p0 [Hp0 V0p]].
          assert (Z : forall V D r, valuation fs (fst s) r V D -> D n -> V (snd p0) = Some 0 -> V n = Some 0).
          { intros V D r HV Dn V0. destruct (HV n Dn) as [x [Ex [Hc [Ev Nn]]]]. rewrite En in Ex. injection Ex as <-.
            destruct (V n) as [y|] eqn:Vn; [|contradiction]. cbn [node_val] in Ev. f_equal.
            apply (mul_val_has_zero V ops y Ev). exists p0. split; assumption. }
          destruct (New s1 ops I1 F1 (or_intror eq_refl)) as [w1 [I2 [X1 [S1 [Z0 [Z1 [H1 En2]]]]]]]; [intros ->; destruct Hp0|].
          destruct (alloc s1 (GNum KInteger 0)) as [s2 a] eqn:Ea.
          assert (Eb : a = length (fst s)) by (injection Ea as _ <-; rewrite F1; reflexivity). cbn [fst] in I2, En2.
          assert (L2 : length (fst s2) = S (length (fst s))) by (replace s2 with (fst (alloc s1 (GNum KInteger 0))) by (rewrite Ea; reflexivity); rewrite length_alloc, F1; reflexivity).
          injection E as <- _.
          destruct (set_over_ok (fun s _ => Some (s, O)) ltac:(intros s0 n0 s0' c0 w0 E0 I0 _; injection E0 as <- _; exists w0; split; [assumption|split; [apply ext_refl|lia]])
            s2 w1 n (GMul ops) (GMul [(true, a)]) (set_node s2 n (GMul [(true, a)])) (0 + 0)%nat I2 (e_s _ _ _ X1 n Sn) En2) as [w3 [I3 [X3 L3]]]; try (eexists; right; reflexivity).
          * intros p [<-|[]]. cbn [snd]. rewrite Eb. split; assumption.
          * destruct (e_r _ _ _ X1 n Rn) as [_ ->]. rewrite (Z _ _ _ (i_v0 _ _ Hi) Rn V0p).
            cbn [node_val map mul_val fst snd]. rewrite Eb, Z0. f_equal. ring.
          * intro Dn'. pose proof (e_d' _ _ _ X1 n Ln Dn') as Dn. destruct (Z1 Dn) as [Da Va]. split; [intros p [<-|[]]; cbn [snd]; rewrite Eb; assumption|].
            destruct (e_d _ _ _ X1 n Dn) as [_ ->]. rewrite (Z _ _ _ (i_v _ _ Hi) Dn).
            -- cbn [node_val map mul_val fst snd]. rewrite Eb, Va. f_equal. ring.
            -- apply (i_linked _ _ Hi); [apply So; assumption|exact (sub_in (fst s) rho (wV w) (wD w) n _ p0 (i_v _ _ Hi) Dn En Hp0)|assumption].
          * exists w3. split; [assumption|]. split; [apply (ext_trans s s2 w w1 w3); [lia|assumption|assumption]|lia].
        + destruct (over_ok _ IH _ _ _ _ _ E I1 So) as [w2 [I2 [X2 L2]]]. exists w2. split; [assumption|]. rewrite F1 in L2. split; [|assumption].
          destruct X2 as [a b d d' h]. rewrite F1 in d', h. constructor; assumption.
    Qed.

    Lemma graph_round_ok : forall fuel, pass_ok (graph_round fs fuel).
    Proof.
      intros fuel s n s' c w E Hi Sn. unfold graph_round in E.
      destruct (depth_pass fuel s n) as [[s1 c1]|] eqn:E1; [|discriminate].
      destruct (ones_pass fs fuel s1 n) as [[s2 c2]|] eqn:E2; [|discriminate].
      apply plus_count_inv in E as [c3 E3].
      destruct (depth_pass_ok fuel _ _ _ _ _ E1 Hi Sn) as [w1 [I1 [X1 L1]]].
      destruct (ones_pass_ok fuel _ _ _ _ _ E2 I1 (e_s _ _ _ X1 n Sn)) as [w2 [I2 [X2 L2]]].
      destruct (zeros_pass_ok fuel _ _ _ _ _ E3 I2 (e_s _ _ _ X2 n (e_s _ _ _ X1 n Sn))) as [w3 [I3 [X3 L3]]].
      exists w3. split; [assumption|]. split; [|lia]. apply (ext_trans s s2 w w2 w3); [lia| |assumption]. apply (ext_trans s s1 w w1 w2); assumption.
    Qed.

    Lemma graph_simplify_ok : forall rounds fuel s n s' w, graph_simplify fs rounds fuel s n = Some s' -> Inv s w -> wS w n ->
      exists w', Inv s' w' /\ ext s w w' /\ length (fst s) <= length (fst s').
    Proof.
      induction rounds as [|r IH]; intros fuel s n s' w E Hi Sn; [discriminate|]. cbn [graph_simplify] in E.
      destruct (graph_round fs fuel s n) as [[s1 c]|] eqn:E1; [|discriminate].
      destruct (graph_round_ok fuel _ _ _ _ _ E1 Hi Sn) as [w1 [I1 [X1 L1]]].
      destruct c as [|c].
      - injection E as <-. exists w1. split; [assumption|]. split; assumption.
      - destruct (IH fuel s1 n s' w1 E I1 (e_s _ _ _ X1 n Sn)) as [w2 [I2 [X2 L2]]].
        exists w2. split; [assumption|]. split; [apply (ext_trans s s1 w w1 w2); assumption|lia].
    Qed.

    Lemma simplify_all_ok : forall rounds fuel l s s' w, simplify_all fs rounds fuel s l = Some s' -> Inv s w -> (forall n, In n l -> wS w n) ->
      exists w', Inv s' w' /\ ext s w w' /\ length (fst s) <= length (fst s').
    Proof.
      intros rounds fuel. induction l as [|n l IH]; intros s s' w E Hi Sl; cbn [simplify_all] in E.
      - injection E as <-. exists w. split; [assumption|]. split; [apply ext_refl|lia].
      - destruct (graph_simplify fs rounds fuel s n) as [s1|] eqn:E1; [|discriminate].
        destruct (graph_simplify_ok _ _ _ _ _ _ E1 Hi (Sl n (or_introl eq_refl))) as [w1 [I1 [X1 L1]]].
        destruct (IH _ _ _ E I1) as [w2 [I2 [X2 L2]]]; [intros m Hm; apply (e_s _ _ _ X1); apply Sl; right; assumption|].
        exists w2. split; [assumption|]. split; [apply (ext_trans s s1 w w1 w2); assumption|lia].
    Qed.
  End Passes.
End SimpGraphP.
