(** Correctness of the straight-line program compiler of Slp.v. *)
From Coq Require Import List Arith Lia ZArith NArith Bool Field.
From Verif Require Import Base Expr Homog Heap Slp.
Import ListNotations.

Lemma opcode_at_word : forall o, opcode_at (word_of o) = Some o.
Proof. intros []; reflexivity. Qed.
Lemma is_unary_word : forall o, is_unary (word_of o) = negb (is_binary_case o).
Proof. intros []; reflexivity. Qed.

Ltac conjs := repeat match goal with |- _ /\ _ => split end.

Lemma NoDup_app_single : forall (A : Type) (l : list A) (a : A), NoDup l -> ~ In a l -> NoDup (l ++ [a]).
Proof.
  intros A l a H Ha. induction H as [|x l Hx H IH]; cbn.
  - constructor; [intros []|constructor].
  - constructor.
    + intro Hin. apply in_app_or in Hin as [Hin|[<-|[]]]; [contradiction|]. apply Ha. left. reflexivity.
    + apply IH. intro. apply Ha. right. assumption.
Qed.

Section SlpProof.
  Context {F : fld}.
  Variable fs : funs F.
  Local Open Scope fld_scope.
  Add Field Ffield_slpp : (f_th F).

  Implicit Types (st : cst (F := F)) (m : memory (F := F)) (rho : env F) (e : expr F).

  (** whole instructions *)
  Inductive whole : list N -> Prop :=
  | wh_nil : whole []
  | wh_1 : forall o a d w, is_binary_case o = false -> whole w -> whole (word_of o :: a :: d :: w)
  | wh_2 : forall o a b d w, is_binary_case o = true -> whole w -> whole (word_of o :: a :: b :: d :: w).

  Lemma whole_app : forall w w', whole w -> whole w' -> whole (w ++ w').
  Proof. intros w w' H H'. induction H; cbn [app]; try constructor; assumption. Qed.

  Lemma exec_1 : forall ints o a d w m, is_binary_case o = false ->
    exec fs ints (word_of o :: a :: d :: w) m = exec fs ints w (put m (N.to_nat d) (unary_value fs o (m (N.to_nat a)))).
  Proof. intros. cbn [exec]. rewrite opcode_at_word, is_unary_word, H. reflexivity. Qed.

  Lemma exec_2 : forall ints o a b d w m, is_binary_case o = true ->
    exec fs ints (word_of o :: a :: b :: d :: w) m =
    match binary_value fs ints o m (N.to_nat a) (N.to_nat b) with
    | Some v => exec fs ints w (put m (N.to_nat d) v) | None => None end.
  Proof.
    intros. cbn [exec]. rewrite opcode_at_word, is_unary_word, H. cbn [negb].
    destruct (binary_value fs ints o m (N.to_nat a) (N.to_nat b)); reflexivity.
  Qed.

  Lemma exec_app : forall ints w w' m, whole w ->
    exec fs ints (w ++ w') m = match exec fs ints w m with Some m' => exec fs ints w' m' | None => None end.
  Proof.
    intros ints w w' m H. revert m. induction H as [|o a d w Ho H IH|o a b d w Ho H IH]; intro m.
    - reflexivity.
    - cbn [app]. rewrite !exec_1 by assumption. apply IH.
    - cbn [app]. rewrite !exec_2 by assumption. destruct (binary_value fs ints o m (N.to_nat a) (N.to_nat b)); [apply IH|reflexivity].
  Qed.

  Lemma binary_value_mono : forall ints z o m a b v, binary_value fs ints o m a b = Some v ->
    binary_value fs (ints ++ [z]) o m a b = Some v.
  Proof.
    intros ints z o m a b v H. destruct o; cbn [binary_value] in *; try assumption.
    destruct (nth_error ints b) eqn:E; [|discriminate]. rewrite nth_error_app1; [rewrite E; assumption|].
    apply nth_error_Some. congruence.
  Qed.

  Lemma exec_mono : forall ints z w m m', whole w -> exec fs ints w m = Some m' -> exec fs (ints ++ [z]) w m = Some m'.
  Proof.
    intros ints z w m m' H. revert m. induction H as [|o a d w Ho H IH|o a b d w Ho H IH]; intros m E.
    - exact E.
    - rewrite exec_1 in * by assumption. apply IH. assumption.
    - rewrite exec_2 in * by assumption.
      destruct (binary_value fs ints o m (N.to_nat a) (N.to_nat b)) eqn:Eb; [|discriminate].
      rewrite (binary_value_mono _ _ _ _ _ _ _ Eb). apply IH. assumption.
  Qed.

  Lemma put_same : forall m d v, put m d v d = v.
  Proof. intros. unfold put. rewrite Nat.eqb_refl. reflexivity. Qed.
  Lemma put_other : forall m d v l, l <> d -> put m d v l = m l.
  Proof. intros. unfold put. destruct (Nat.eqb_spec l d); [contradiction|reflexivity]. Qed.

  Section Compile.
    Variable G : list (gnode (F := F)).
    Variable ins : list nat.
    Hypothesis Hwf : well_founded_graph G.

    Definition prepared rho st m0 : Prop :=
      (forall i x, nth_error ins i = Some x -> m0 i = Some (rho x)) /\
      (forall c l, In (c, l) (nums st) -> m0 l = Some c).

    Record Inv st (pend : nat -> Prop) : Prop := mkInv {
      iv_whole : whole (code st);
      iv_nin : length ins <= nxt st;
      iv_locs : forall n l, locs st n = Some l -> l < nxt st;
      iv_nums : forall c l, In (c, l) (nums st) -> length ins <= l < nxt st;
      iv_run : forall m, exists m', exec fs (ints st) (code st) m = Some m' /\
        forall l, (nxt st <= l \/ l < length ins \/ exists c, In (c, l) (nums st)) -> m' l = m l;
      iv_pend : forall n, pend n -> exists l, locs st n = Some l /\ length ins <= l /\
        (forall c, ~ In (c, l) (nums st)) /\ forall x, x <> n -> locs st x <> Some l;
      iv_nd : NoDup (map snd (nums st));
      iv_int : forall z i, iloc st z = Some i -> nth_error (ints st) i = Some z;
      iv_sem : forall rho m0 m, prepared rho st m0 -> exec fs (ints st) (code st) m0 = Some m ->
        forall n l e, locs st n = Some l -> ~ pend n -> unfolds G None n e -> m l = eval fs rho e
    }.

    Lemma Inv_ext : forall st p q, (forall x, p x <-> q x) -> Inv st p -> Inv st q.
    Proof.
      intros st p q E [A B C D R P ND I S]. constructor; try assumption.
      - intros n Hn. apply P, E, Hn.
      - intros rho m0 m H1 H2 n l e H3 H4 H5. apply (S rho m0 m H1 H2 n l e H3); [|assumption]. rewrite E. assumption.
    Qed.

    Definition holds st (pend : nat -> Prop) (l : nat) (v : env F -> option F) : Prop :=
      l < nxt st /\ (forall p, pend p -> locs st p <> Some l) /\
      forall rho m0 m, prepared rho st m0 -> exec fs (ints st) (code st) m0 = Some m -> m l = v rho.

    Lemma holds_loc : forall st pend n l e, Inv st pend -> locs st n = Some l -> ~ pend n -> unfolds G None n e ->
      holds st pend l (fun rho => eval fs rho e).
    Proof.
      intros st pend n l e I Hl Hp Hu. split; [eapply iv_locs; eassumption|]. split.
      - intros p Hpp E. destruct (iv_pend _ _ I p Hpp) as (l' & E' & _ & _ & Hx).
        assert (l' = l) by congruence. subst l'. apply (Hx n); [|assumption]. intros ->. contradiction.
      - intros rho m0 m H1 H2. eapply iv_sem; eassumption.
    Qed.

    Definition emitted st (w : list N) : cst :=
      mkC (S (nxt st)) (locs st) (code st ++ w) (nums st) (ints st) (iloc st).

    Lemma emit_fresh : forall st pend w f, Inv st pend -> whole w ->
      (forall m, exec fs (ints st) w m = Some (put m (nxt st) (f m))) ->
      Inv (emitted st w) pend /\ (forall l v, holds st pend l v -> holds (emitted st w) pend l v) /\
      forall v, (forall rho m0 m, prepared rho st m0 -> exec fs (ints st) (code st) m0 = Some m -> f m = v rho) ->
        holds (emitted st w) pend (nxt st) v.
    Proof.
      intros st pend w f I Hw Hf.
      assert (X : forall m m1, exec fs (ints st) (code st ++ w) m = Some m1 ->
        exists m', exec fs (ints st) (code st) m = Some m' /\ m1 = put m' (nxt st) (f m')).
      { intros m m1 E. rewrite exec_app in E by apply (iv_whole _ _ I).
        destruct (exec fs (ints st) (code st) m) as [m'|]; [|discriminate]. exists m'. rewrite Hf in E.
        split; [reflexivity|congruence]. }
      split; [|split].
      - constructor; unfold emitted; cbn [code nxt locs nums ints iloc].
        + apply whole_app; [apply (iv_whole _ _ I)|assumption].
        + pose proof (iv_nin _ _ I). lia.
        + intros n l Hl. pose proof (iv_locs _ _ I n l Hl). lia.
        + intros c l Hl. pose proof (iv_nums _ _ I c l Hl). lia.
        + intro m. destruct (iv_run _ _ I m) as (m' & E & Hm). exists (put m' (nxt st) (f m')). split.
          * rewrite exec_app by apply (iv_whole _ _ I). rewrite E. apply Hf.
          * intros l Hl. rewrite put_other; [apply Hm|].
            -- destruct Hl as [Hl|[Hl|Hl]]; auto. left. lia.
            -- destruct Hl as [Hl|[Hl|[c Hl]]]; [lia| |].
               ++ pose proof (iv_nin _ _ I). lia.
               ++ pose proof (iv_nums _ _ I c l Hl). lia.
        + apply (iv_pend _ _ I).
        + apply (iv_nd _ _ I).
        + apply (iv_int _ _ I).
        + intros rho m0 m Hp E n l e Hl Hn Hu. destruct (X _ _ E) as (m' & E' & ->).
          rewrite put_other; [eapply (iv_sem _ _ I); eassumption|]. pose proof (iv_locs _ _ I n l Hl). lia.
      - intros l v (H1 & H2 & H3). split; [cbn; lia|]. split; [exact H2|].
        intros rho m0 m Hp E. destruct (X _ _ E) as (m' & E' & ->). rewrite put_other by lia. eapply H3; eassumption.
      - intros v Hv. split; [cbn; lia|]. split.
        + intros p Hp E. cbn in E. pose proof (iv_locs _ _ I p _ E). lia.
        + intros rho m0 m Hp E. destruct (X _ _ E) as (m' & E' & ->). rewrite put_same. eapply Hv; eassumption.
    Qed.

    Lemma set_loc_inv : forall st pend n l v, Inv st pend -> locs st n = None -> holds st pend l v ->
      (forall e, unfolds G None n e -> forall rho, v rho = eval fs rho e) -> Inv (set_loc st n l) pend.
    Proof.
      intros st pend n l v I Hn (H1 & H2 & H3) He.
      assert (Np : ~ pend n) by (intro Hp; destruct (iv_pend _ _ I n Hp) as (? & ? & _); congruence).
      destruct I as [A B C D R P ND I S]. constructor; cbn [set_loc code nxt locs nums ints iloc]; try assumption.
      - intros x l' E. destruct (Nat.eqb_spec x n); [injection E as <-; assumption|eauto].
      - intros x Hx. destruct (P x Hx) as (l' & E1 & E2 & E3 & E4). exists l'. conjs; try assumption.
        + destruct (Nat.eqb_spec x n); [congruence|assumption].
        + intros y Hy. destruct (Nat.eqb_spec y n); [|apply E4; assumption].
          intro E. injection E as ->. apply (H2 x Hx). assumption.
      - intros rho m0 m Hp E x l' e Hl Hx Hu. destruct (Nat.eqb_spec x n) as [->|Hne].
        + injection Hl as <-. rewrite (H3 rho m0 m Hp E). apply He. assumption.
        + eapply S; eassumption.
    Qed.

    (** a new number at the next location *)
    Definition numbered st (c : F) : cst := bump (add_number st c (nxt st)).

    Lemma number_fresh : forall st pend c, Inv st pend ->
      Inv (numbered st c) pend /\ (forall l v, holds st pend l v -> holds (numbered st c) pend l v) /\
      holds (numbered st c) pend (nxt st) (fun _ => Some c).
    Proof.
      intros st pend c I.
      assert (PP : forall rho m0, prepared rho (numbered st c) m0 -> prepared rho st m0 /\ m0 (nxt st) = Some c).
      { intros rho m0 [H1 H2]. cbn in H2. split; [split; [assumption|]|].
        - intros c' l Hl. apply H2. apply in_or_app. auto.
        - apply H2. apply in_or_app. right. left. reflexivity. }
      split; [|split].
      - constructor; cbn [numbered bump add_number code nxt locs nums ints iloc].
        + apply (iv_whole _ _ I).
        + pose proof (iv_nin _ _ I). lia.
        + intros n l Hl. pose proof (iv_locs _ _ I n l Hl). lia.
        + intros c' l Hl. apply in_app_or in Hl as [Hl|[Hl|[]]].
          * pose proof (iv_nums _ _ I c' l Hl). lia.
          * injection Hl as _ <-. pose proof (iv_nin _ _ I). lia.
        + intro m. destruct (iv_run _ _ I m) as (m' & E & Hm). exists m'. split; [assumption|].
          intros l Hl. apply Hm. destruct Hl as [Hl|[Hl|[c' Hl]]]; [left; lia|auto|].
          apply in_app_or in Hl as [Hl|[Hl|[]]]; [eauto|]. injection Hl as _ <-. left. lia.
        + intros n Hn. destruct (iv_pend _ _ I n Hn) as (l & E1 & E2 & E3 & E4). exists l. conjs; try assumption.
          intros c' Hc. apply in_app_or in Hc as [Hc|[Hc|[]]]; [eapply E3; eassumption|].
          injection Hc as _ <-. pose proof (iv_locs _ _ I n _ E1). lia.
        + rewrite map_app. cbn [map snd]. apply NoDup_app_single; [apply (iv_nd _ _ I)|].
          intro Hin. apply in_map_iff in Hin as ([c' l] & Hl & Hin). cbn in Hl. subst l.
          pose proof (iv_nums _ _ I c' _ Hin). lia.
        + apply (iv_int _ _ I).
        + intros rho m0 m Hp E n l e Hl Hn Hu. apply PP in Hp as [Hp _]. eapply (iv_sem _ _ I); eassumption.
      - intros l v (H1 & H2 & H3). split; [cbn; lia|]. split; [exact H2|].
        intros rho m0 m Hp E. apply PP in Hp as [Hp _]. eapply H3; eassumption.
      - split; [cbn; lia|]. split.
        + intros p Hp E. cbn in E. pose proof (iv_locs _ _ I p _ E). lia.
        + intros rho m0 m Hp E. apply PP in Hp as [Hp Hc]. rewrite <- Hc. cbn in E.
          destruct (iv_run _ _ I m0) as (m' & E' & Hm). assert (m' = m) by congruence. subst m'. apply Hm. left. lia.
    Qed.

    Lemma integer_fresh : forall st pend z, Inv st pend -> forall st1 i, integer_location st z = (st1, i) ->
      Inv st1 pend /\ (forall l v, holds st pend l v -> holds st1 pend l v) /\ nth_error (ints st1) i = Some z /\
      locs st1 = locs st /\ nxt st1 = nxt st.
    Proof.
      intros st pend z I st1 i H. unfold integer_location in H. destruct (iloc st z) as [j|] eqn:Ez.
      - injection H as <- <-. conjs; auto. apply (iv_int _ _ I). assumption.
      - injection H as <- <-.
        assert (X : forall m m1, exec fs (ints st ++ [z]) (code st) m = Some m1 -> exec fs (ints st) (code st) m = Some m1).
        { intros m m1 E. destruct (iv_run _ _ I m) as (m' & E' & _).
          pose proof (exec_mono _ z _ _ _ (iv_whole _ _ I) E'). congruence. }
        split; [|split; [|split; [|split]]]; try reflexivity.
        + constructor; cbn [code nxt locs nums ints iloc]; try apply I.
          * intro m. destruct (iv_run _ _ I m) as (m' & E & Hm). exists m'. split; [|assumption].
            apply exec_mono; [apply (iv_whole _ _ I)|assumption].
          * intros y i E. destruct (Z.eqb_spec y z) as [->|Hy].
            -- injection E as <-. rewrite nth_error_app2 by lia. rewrite Nat.sub_diag. reflexivity.
            -- pose proof (iv_int _ _ I y i E) as E'. rewrite nth_error_app1; [assumption|].
               apply nth_error_Some. congruence.
          * intros rho m0 m Hp E. eapply (iv_sem _ _ I); [eassumption|]. apply X. assumption.
        + intros l v (H1 & H2 & H3). split; [assumption|]. split; [assumption|].
          intros rho m0 m Hp E. eapply H3; [exact Hp|]. apply X. assumption.
        + cbn. rewrite nth_error_app2 by lia. rewrite Nat.sub_diag. reflexivity.
    Qed.

    (** ** the chains of additions and multiplications *)

    Definition bval (o : opcode) (a b : option F) : option F :=
      match binary_value fs [] o (fun l => if Nat.eqb l 0 then a else b) 0 1 with Some v => v | None => None end.
    Definition arith_op (o : opcode) : bool :=
      match o with OAdd | OSubtract | OMultiply | ODivide => true | _ => false end.

    Lemma bval_spec : forall o ints m a b, arith_op o = true -> binary_value fs ints o m a b = Some (bval o (m a) (m b)).
    Proof. intros o ints m a b H. destruct o; try discriminate H; reflexivity. Qed.
    Lemma arith_binary : forall o, arith_op o = true -> is_binary_case o = true.
    Proof. intros []; cbn; congruence. Qed.

    Definition chain_val (yes no : opcode) (acc : option F) (l : list (bool * option F)) : option F :=
      fold_left (fun a (p : bool * option F) => bval (if fst p then yes else no) a (snd p)) l acc.

    Lemma emit2_fresh : forall st pend o a b va vb, Inv st pend -> arith_op o = true ->
      holds st pend a va -> holds st pend b vb ->
      let st1 := bump (emit2 st o a b (nxt st)) in
      Inv st1 pend /\ (forall l v, holds st pend l v -> holds st1 pend l v) /\
      holds st1 pend (nxt st) (fun rho => bval o (va rho) (vb rho)).
    Proof.
      intros st pend o a b va vb I Ho Ha Hb st1.
      destruct (emit_fresh st pend [word_of o; N.of_nat a; N.of_nat b; N.of_nat (nxt st)]
                  (fun m => bval o (m a) (m b)) I) as (E1 & E2 & E3).
      - apply wh_2; [apply arith_binary; assumption|constructor].
      - intro m. rewrite exec_2 by (apply arith_binary; assumption). rewrite !Nat2N.id, bval_spec by assumption. reflexivity.
      - split; [exact E1|]. split; [exact E2|]. apply E3. intros rho m0 m Hp E.
        destruct Ha as (_ & _ & Ha), Hb as (_ & _ & Hb). rewrite (Ha rho m0 m Hp E), (Hb rho m0 m Hp E). reflexivity.
    Qed.

    Lemma chain_ok : forall yes no, arith_op yes = true -> arith_op no = true ->
      forall (ops : list (bool * nat)) (vs : list (env F -> option F)) st pend prev v, Inv st pend -> holds st pend prev v ->
      Forall2 (fun p w => holds st pend (snd p) w) ops vs ->
      forall st' last, chain yes no st prev ops = (st', last) ->
      Inv st' pend /\ locs st' = locs st /\
      holds st' pend last (fun rho => chain_val yes no (v rho) (combine (map fst ops) (map (fun w => w rho) vs))).
    Proof.
      intros yes no Hy Hno ops. induction ops as [|[s l] r IH]; intros vs st pend prev v I Hv H2 st' last E.
      - cbn in E. injection E as <- <-. inversion H2; subst. conjs; auto.
      - inversion H2 as [|? w ? ws Hw Hws]; subst. cbn [chain] in E. cbn [snd] in Hw.
        destruct (emit2_fresh st pend (if s then yes else no) prev l v w I ltac:(destruct s; assumption) Hv Hw) as (I1 & M1 & V1).
        destruct (IH ws _ pend _ _ I1 V1) with (2 := E) as (I2 & L2 & V2).
        { clear - Hws M1. induction Hws; constructor; auto. }
        split; [assumption|]. split; [rewrite L2; reflexivity|]. exact V2.
    Qed.

    Lemma chain_sum : forall l acc, chain_val OAdd OSubtract acc l = lift2 (fun x y => Some (x + y)) acc (sum_val l).
    Proof.
      induction l as [|[s v] r IH]; intro acc.
      - cbn. destruct acc; cbn; [f_equal; ring|reflexivity].
      - cbn [chain_val fold_left]. fold (chain_val OAdd OSubtract (bval (if s then OAdd else OSubtract) acc v) r).
        cbn [fst snd]. fold (chain_val OAdd OSubtract (bval (if s then OAdd else OSubtract) acc v) r). rewrite IH. cbn [sum_val].
        destruct s, acc as [x|], v as [y|], (sum_val r) as [w|]; cbn; try reflexivity; f_equal; ring.
    Qed.

    Lemma chain_mul : forall l acc, chain_val OMultiply ODivide acc l = lift2 (fun x y => Some (x * y)) acc (mul_val l).
    Proof.
      induction l as [|[s v] r IH]; intro acc.
      - cbn. destruct acc; cbn; [f_equal; ring|reflexivity].
      - change (chain_val OMultiply ODivide acc ((s, v) :: r))
          with (chain_val OMultiply ODivide (bval (if s then OMultiply else ODivide) acc v) r).
        rewrite IH. cbn [mul_val].
        destruct s, acc as [x|], v as [y|], (mul_val r) as [w|]; cbn; try reflexivity;
          try (destruct (feq_dec y 0); cbn; try reflexivity); f_equal; try ring; field; assumption.
    Qed.

    (** ** visiting *)

    Definition ext st st' : Prop := forall n l, locs st n = Some l -> locs st' n = Some l.
    Lemma ext_refl : forall st, ext st st. Proof. intros st n l H. exact H. Qed.
    Lemma ext_trans : forall a b c, ext a b -> ext b c -> ext a c.
    Proof. intros a b c H1 H2 n l H. apply H2, H1, H. Qed.

    Definition pre st (pend : nat -> Prop) (n : nat) : Prop :=
      (forall (m : nat), reach G n m -> node_ok G ins m) /\
      (forall x, In x ins -> locs st x <> None) /\
      (forall (m : nat), reach G n m -> m <> n -> ~ pend m) /\
      (locs st n = None \/ (nth_error G n = Some GVar /\ ~ pend n) \/ (pend n /\ exists a, nth_error G n = Some (GHandle a))).

    Definition visit_spec (f : cst -> nat -> res cst) (n : nat) : Prop :=
      forall st pend, Inv st pend -> pre st pend n ->
      exists st', f st n = Done st' /\ Inv st' (fun x => pend x /\ x <> n) /\ ext st st' /\ locs st' n <> None.

    Lemma reach_trans_child : forall (n : nat) nd (c m : nat), nth_error G n = Some nd -> In c (children nd) -> reach G c m -> reach G n m.
    Proof.
      intros n nd c m En Hc H. induction H as [|m nd' c' H IH E' Hc'].
      - eapply reach_step; [apply reach_refl|eassumption|assumption].
      - eapply reach_step; [exact IH|eassumption|assumption].
    Qed.

    Lemma reach_le : forall (n m : nat), reach G n m -> m <= n.
    Proof. intros n m H. induction H as [|m nd c H IH E Hc]; [lia|]. pose proof (Hwf _ _ _ E Hc). lia. Qed.

    Lemma ensure_ok : forall f c n nd, visit_spec f c -> nth_error G n = Some nd -> In c (children nd) ->
      forall st pend, Inv st pend ->
      (forall (m : nat), reach G n m -> node_ok G ins m) ->
      (forall x, In x ins -> locs st x <> None) ->
      (forall (m : nat), reach G n m -> m <> n -> ~ pend m) ->
      exists st1 l, ensure f st c = Done (st1, l) /\ Inv st1 pend /\ ext st st1 /\ locs st1 c = Some l.
    Proof.
      intros f c n nd Hf En Hc st pend I H1 H2 H3. unfold ensure.
      pose proof (Hwf _ _ _ En Hc) as Hlt.
      destruct (locs st c) as [l|] eqn:El.
      - exists st, l. conjs; auto using ext_refl.
      - assert (Hr : forall (m : nat), reach G c m -> reach G n m) by (intros m Hm; eapply reach_trans_child; eassumption).
        assert (Np : ~ pend c) by (apply H3; [apply Hr, reach_refl|lia]).
        destruct (Hf st pend I) as (st' & E & I' & X & Hl).
        { split; [|split; [|split]]; auto. intros m Hm _. apply H3; [apply Hr; assumption|].
          pose proof (reach_le _ _ Hm). lia. }
        rewrite E. cbn [bind]. destruct (locs st' c) as [l|] eqn:E'; [|congruence].
        exists st', l. conjs; auto.
        apply (Inv_ext st' (fun x => pend x /\ x <> c) pend); [|assumption].
        intro x. split; [tauto|]. intro Hx. split; [assumption|]. intros ->. contradiction.
    Qed.

    Lemma ensure_all_ok : forall f n nd, nth_error G n = Some nd ->
      forall ops, (forall c, In c (map snd ops) -> In c (children nd) /\ visit_spec f c) ->
      forall st pend, Inv st pend ->
      (forall (m : nat), reach G n m -> node_ok G ins m) ->
      (forall x, In x ins -> locs st x <> None) ->
      (forall (m : nat), reach G n m -> m <> n -> ~ pend m) ->
      exists st1 ls, ensure_all f st ops = Done (st1, ls) /\ Inv st1 pend /\ ext st st1 /\ map fst ls = map fst ops /\
        Forall2 (fun p q => locs st1 (snd p) = Some (snd q)) ops ls.
    Proof.
      intros f n nd En ops. induction ops as [|[s c] r IH]; intros Hops st pend I H1 H2 H3.
      - exists st, []. conjs; auto. intros ? ? ?; assumption.
      - cbn [ensure_all]. destruct (Hops c (or_introl eq_refl)) as [Hc Hf].
        destruct (ensure_ok f c n nd Hf En Hc st pend I H1 H2 H3) as (st1 & l & E & I1 & X1 & L1).
        rewrite E. cbn [bind fst snd].
        destruct (IH (fun c' Hc' => Hops c' (or_intror Hc')) st1 pend I1 H1) as (st2 & ls & E2 & I2 & X2 & M2 & F2).
        { intros x Hx. specialize (H2 x Hx). destruct (locs st x) as [lx|] eqn:Ex; [|congruence]. rewrite (X1 _ _ Ex). congruence. }
        { assumption. }
        rewrite E2. cbn [bind fst snd]. exists st2, ((s, l) :: ls). conjs; auto.
        + eapply ext_trans; eassumption.
        + cbn. congruence.
    Qed.

    Lemma no_output_operator : forall st pend n nd, pre st pend n -> nth_error G n = Some nd -> nd <> GVar ->
      (forall a, nd <> GHandle a) -> locs st n = None.
    Proof.
      intros st pend n nd (_ & _ & _ & [H|[[H _]|(_ & a & H)]]) En Hv Hh; [assumption| |]; exfalso.
      - apply Hv. congruence.
      - apply (Hh a). congruence.
    Qed.

    Lemma none_not_pend : forall st pend n, Inv st pend -> locs st n = None -> ~ pend n.
    Proof. intros st pend n I H Hp. destruct (iv_pend _ _ I n Hp) as (? & ? & _). congruence. Qed.

    Lemma drop_pend : forall st pend n, ~ pend n -> Inv st pend -> Inv st (fun x => pend x /\ x <> n).
    Proof.
      intros st pend n H I. eapply Inv_ext; [|exact I]. intro x. split; [|tauto].
      intro Hx. split; [assumption|]. intros ->. contradiction.
    Qed.

    Lemma set_loc_ext : forall st n l, locs st n = None -> ext st (set_loc st n l).
    Proof. intros st n l H x lx Hx. cbn. destruct (Nat.eqb_spec x n); [congruence|assumption]. Qed.

    Lemma children_unfold : forall n nd c, nth_error G n = Some nd -> In c (children nd) -> exists e, unfolds G None c e.
    Proof.
      intros n nd c En Hc. pose proof (Hwf _ _ _ En Hc).
      assert (n < length G) by (apply nth_error_Some; congruence).
      destruct (unfold_exists G Hwf None c ltac:(lia)) as [e E]. exists e, (S c). exact E.
    Qed.

    (** locations unchanged by a subvisit unless they are set *)
    Definition keeps (f : cst -> nat -> res cst) (c : nat) : Prop :=
      forall st st', f st c = Done st' -> forall x, c < x -> locs st' x = locs st x.

    Lemma ensure_keeps : forall f c st st1 l, keeps f c -> ensure f st c = Done (st1, l) ->
      forall x, c < x -> locs st1 x = locs st x.
    Proof.
      intros f c st st1 l K E x Hx. unfold ensure in E. destruct (locs st c) eqn:El.
      - injection E as <- _. reflexivity.
      - destruct (f st c) as [s| |] eqn:Ef; cbn [bind] in E; try discriminate.
        destruct (locs s c) eqn:Es.
        + injection E as <- _. eapply K; eassumption.
        + injection E as <- _. cbn. destruct (Nat.eqb_spec x c); [lia|]. eapply K; eassumption.
    Qed.

    Lemma ensure_all_keeps : forall f ops st st1 ls n, (forall c, In c (map snd ops) -> keeps f c /\ c < n) ->
      ensure_all f st ops = Done (st1, ls) -> forall x, n <= x -> locs st1 x = locs st x.
    Proof.
      intros f ops. induction ops as [|[s c] r IH]; intros st st1 ls n H E x Hx.
      - cbn in E. injection E as <- _. reflexivity.
      - cbn [ensure_all] in E. destruct (ensure f st c) as [[s1 l1]| |] eqn:E1; cbn [bind fst snd] in E; try discriminate.
        destruct (ensure_all f s1 r) as [[s2 l2]| |] eqn:E2; cbn [bind fst snd] in E; try discriminate.
        injection E as <- _. destruct (H c (or_introl eq_refl)) as [K Hc].
        rewrite (IH _ _ _ n (fun c' Hc' => H c' (or_intror Hc')) E2 x Hx).
        apply (ensure_keeps f c st s1 l1 K E1). lia.
    Qed.

    Lemma chain_locs : forall yes no ops st prev, locs (fst (chain yes no st prev ops)) = locs st.
    Proof. intros yes no ops. induction ops as [|[s l] r IH]; intros st prev; [reflexivity|]. cbn [chain]. rewrite IH. reflexivity. Qed.

    Lemma visit_keeps : forall fuel n, keeps (visit G fuel) n.
    Proof.
      induction fuel as [|fuel IH]; intros n st st' E x Hx; [discriminate|].
      cbn [visit] in E. destruct (nth_error G n) as [nd|] eqn:En; [|discriminate].
      assert (S0 : forall st0 l, locs (set_loc st0 n l) x = locs st0 x).
      { intros st0 l. cbn. destruct (Nat.eqb_spec x n); [lia|reflexivity]. }
      assert (U : forall a (k : cst * nat -> res cst), In a (children nd) ->
        (forall st1 l st2, k (st1, l) = Done st2 -> locs st2 x = locs st1 x) ->
        forall st0 st2, bind (ensure (visit G fuel) st0 a) k = Done st2 -> locs st2 x = locs st0 x).
      { intros a k Ha Hk st0 st2 E'. pose proof (Hwf _ _ _ En Ha).
        destruct (ensure (visit G fuel) st0 a) as [[s1 l1]| |] eqn:E1; cbn [bind] in E'; try discriminate.
        rewrite (Hk _ _ _ E'). apply (ensure_keeps _ _ _ _ _ (IH a) E1). lia. }
      assert (L : forall ops st1 ls, (forall c, In c (map snd ops) -> In c (children nd)) ->
        ensure_all (visit G fuel) st ops = Done (st1, ls) -> locs st1 x = locs st x).
      { intros ops st1 ls Hops E'. apply (ensure_all_keeps _ _ _ _ _ n) with (2 := E'); [|lia].
        intros c Hc. split; [apply IH|]. eapply Hwf; [eassumption|]. apply Hops. assumption. }
      destruct nd as [kd c| |y|ops|ops|a|a z|b a|f a|a]; cbn [children] in *.
      - injection E as <-. cbn. destruct (Nat.eqb_spec x n); [lia|reflexivity].
      - injection E as <-. reflexivity.
      - discriminate.
      - destruct (ensure_all (visit G fuel) st ops) as [[s1 ls]| |] eqn:E1; cbn [bind fst snd] in E; try discriminate.
        destruct ls as [|[s l] r]; [discriminate|].
        rewrite <- (L ops s1 ((s, l) :: r) ltac:(auto) E1).
        destruct s.
        + pose proof (chain_locs OAdd OSubtract r s1 l) as C. destruct (chain OAdd OSubtract s1 l r) as [s3 la].
          cbn [fst] in C. injection E as <-. rewrite S0, C. reflexivity.
        + pose proof (chain_locs OAdd OSubtract r (bump (emit1 s1 ONegate l (nxt s1))) (nxt s1)) as C.
          destruct (chain OAdd OSubtract (bump (emit1 s1 ONegate l (nxt s1))) (nxt s1) r) as [s3 la].
          cbn [fst] in C. injection E as <-. rewrite S0, C. reflexivity.
      - destruct (ensure_all (visit G fuel) st ops) as [[s1 ls]| |] eqn:E1; cbn [bind fst snd] in E; try discriminate.
        destruct ls as [|[s l] r]; [discriminate|].
        rewrite <- (L ops s1 ((s, l) :: r) ltac:(auto) E1).
        destruct s.
        + pose proof (chain_locs OMultiply ODivide r s1 l) as C. destruct (chain OMultiply ODivide s1 l r) as [s3 la].
          cbn [fst] in C. injection E as <-. rewrite S0, C. reflexivity.
        + match type of E with context [chain _ _ ?a ?b r] =>
            pose proof (chain_locs OMultiply ODivide r a b) as C; destruct (chain OMultiply ODivide a b r) as [s3 la] end.
          cbn [fst] in C. injection E as <-. rewrite S0, C. reflexivity.
      - apply (U a _ ltac:(cbn; auto)) with (2 := E). intros s1 l s2 E'. injection E' as <-. cbn. destruct (Nat.eqb_spec x n); [lia|reflexivity].
      - apply (U a _ ltac:(cbn; auto)) with (2 := E). intros s1 l s2 E'. unfold integer_location in E'.
        destruct (iloc s1 z); injection E' as <-; cbn; destruct (Nat.eqb_spec x n); try lia; reflexivity.
      - apply (U b _ ltac:(cbn; auto)) with (2 := E). intros s1 l s2 E'.
        apply (U a _ ltac:(cbn; auto)) with (2 := E'). intros s3 l3 s4 E''. injection E'' as <-. cbn.
        destruct (Nat.eqb_spec x n); [lia|reflexivity].
      - apply (U a _ ltac:(cbn; auto)) with (2 := E). intros s1 l s2 E'. injection E' as <-. cbn. destruct (Nat.eqb_spec x n); [lia|reflexivity].
      - apply (U a _ ltac:(cbn; auto)) with (2 := E). intros s1 l s2 E'. destruct (locs s1 n).
        + injection E' as <-. reflexivity.
        + injection E' as <-. cbn. destruct (Nat.eqb_spec x n); [lia|reflexivity].
    Qed.

    Lemma finish : forall st0 st1 pend n l v, Inv st1 pend -> ext st0 st1 -> locs st1 n = None -> holds st1 pend l v ->
      (forall e, unfolds G None n e -> forall rho, v rho = eval fs rho e) ->
      exists st', Done (set_loc st1 n l) = Done st' /\ Inv st' (fun x => pend x /\ x <> n) /\ ext st0 st' /\ locs st' n <> None.
    Proof.
      intros st0 st1 pend n l v I X N H He. exists (set_loc st1 n l). split; [reflexivity|]. split; [|split].
      - apply drop_pend; [eapply none_not_pend; eassumption|]. eapply set_loc_inv; eassumption.
      - eapply ext_trans; [exact X|]. apply set_loc_ext. assumption.
      - cbn. rewrite Nat.eqb_refl. discriminate.
    Qed.

    Lemma unfold_list_inv : forall k ops l,
      sequence (map (fun p : bool * nat => match unfold k G None (snd p) with
                                            | Some e => Some (fst p, e) | None => None end) ops) = Some l ->
      exists es : list (expr F), Forall2 (fun (p : bool * nat) e => unfolds G None (snd p) e) ops es /\
        l = combine (map fst ops) es.
    Proof.
      intros k ops. induction ops as [|[s c] r IH]; intros l H; cbn in H.
      - injection H as <-. exists []. split; [constructor|reflexivity].
      - destruct (unfold k G None c) as [e|] eqn:E; [|discriminate].
        destruct (sequence _) as [l'|] eqn:El in H; [|discriminate]. injection H as <-.
        destruct (IH l' El) as (es & H2 & ->). exists (e :: es). split; [|reflexivity].
        constructor; [|assumption]. exists k. exact E.
    Qed.

    Lemma unfold_list_fun : forall (ops : list (bool * nat)) (es es' : list (expr F)),
      Forall2 (fun (p : bool * nat) e => unfolds G None (snd p) e) ops es ->
      Forall2 (fun (p : bool * nat) e => unfolds G None (snd p) e) ops es' -> es = es'.
    Proof.
      intros ops es es' H. revert es'. induction H; intros es' H'; inversion H'; subst; [reflexivity|].
      f_equal; [eapply unfolds_fun; eassumption|auto].
    Qed.

    Lemma combine_eval : forall rho (bs : list bool) (es : list (expr F)),
      map (fun p => (fst p, eval fs rho (snd p))) (combine bs es) = combine bs (map (eval fs rho) es).
    Proof. intros rho bs. induction bs as [|b r IH]; intros [|e es]; cbn; try reflexivity. f_equal. apply IH. Qed.

    Lemma unary_children : forall n nd a (build : expr F -> expr F) e0,
      nth_error G n = Some nd -> unfolds G None a e0 ->
      (forall k e, unfold (S k) G None n = Some e -> exists e1, unfold k G None a = Some e1 /\ e = build e1) ->
      forall e, unfolds G None n e -> e = build e0.
    Proof.
      intros n nd a build e0 En Ha Hb e [[|k] Hk]; [discriminate|].
      destruct (Hb k e Hk) as (e1 & E1 & ->). f_equal. eapply unfolds_fun; [exists k; exact E1|exact Ha].
    Qed.

    Lemma unary_ok : forall st pend n o a la v g, Inv st pend -> is_binary_case o = false ->
      holds st pend la v -> (forall x, unary_value fs o x = g x) -> locs st n = None -> forall st0, ext st0 st ->
      (forall e, unfolds G None n e -> forall rho, g (v rho) = eval fs rho e) -> a = nxt st ->
      exists st', Done (set_loc (emitted st [word_of o; N.of_nat la; N.of_nat a]) n a) = Done st' /\
        Inv st' (fun x => pend x /\ x <> n) /\ ext st0 st' /\ locs st' n <> None.
    Proof.
      intros st pend n o a la v g I Ho Hv Hg Hn st0 X He ->.
      destruct (emit_fresh st pend [word_of o; N.of_nat la; N.of_nat (nxt st)] (fun m => g (m la)) I) as (I1 & M1 & V1).
      - apply wh_1; [assumption|constructor].
      - intro m. rewrite exec_1 by assumption. rewrite !Nat2N.id, Hg. reflexivity.
      - apply finish with (v := fun rho => g (v rho)); auto. apply V1. intros rho m0 m Hp E.
        destruct Hv as (_ & _ & Hv). rewrite (Hv rho m0 m Hp E). reflexivity.
    Qed.

    Lemma visit_ok : forall fuel n, n < fuel -> visit_spec (visit G fuel) n.
    Proof.
      induction fuel as [|fuel IH]; intros n Hn st pend I P; [lia|].
      destruct P as (P1 & P2 & P3 & P4). pose proof (conj P1 (conj P2 (conj P3 P4)) : pre st pend n) as P.
      destruct (P1 n (reach_refl G n)) as (nd & En & Hok).
      cbn [visit]. rewrite En.
      assert (HC : forall c, In c (children nd) -> c < n) by (intros c Hc; exact (Hwf _ _ _ En Hc)).
      assert (HS : forall c, In c (children nd) -> visit_spec (visit G fuel) c).
      { intros c Hc. apply IH. pose proof (HC c Hc). lia. }
      assert (HP : forall c, In c (children nd) -> ~ pend c).
      { intros c Hc. apply P3; [|pose proof (HC c Hc); lia]. eapply reach_step; [apply reach_refl|eassumption|assumption]. }
      assert (EN : forall a st0, In a (children nd) -> Inv st0 pend -> ext st st0 -> locs st0 n = locs st n ->
        exists st1 la e, ensure (visit G fuel) st0 a = Done (st1, la) /\ Inv st1 pend /\ ext st st1 /\ ext st0 st1 /\
          locs st1 n = locs st n /\ unfolds G None a e /\ locs st1 a = Some la /\ holds st1 pend la (fun rho => eval fs rho e)).
      { intros a st0 Ha I0 X0 L0.
        destruct (ensure_ok (visit G fuel) a n nd (HS a Ha) En Ha st0 pend I0 P1) as (st1 & la & E & I1 & X1 & L1); [|assumption|].
        { intros x Hx. specialize (P2 x Hx). destruct (locs st x) as [lx|] eqn:Ex; [|congruence]. rewrite (X0 _ _ Ex). congruence. }
        destruct (children_unfold n nd a En Ha) as [e He]. exists st1, la, e. conjs; auto.
        - eapply ext_trans; eassumption.
        - rewrite (ensure_keeps _ _ _ _ _ (visit_keeps fuel a) E) by (apply HC; assumption). assumption.
        - eapply holds_loc; eauto. }
      assert (LI : forall ops, children nd = map snd ops -> exists st1 ls es,
        ensure_all (visit G fuel) st ops = Done (st1, ls) /\ Inv st1 pend /\ ext st st1 /\ locs st1 n = locs st n /\
        map fst ls = map fst ops /\ Forall2 (fun (p : bool * nat) e => unfolds G None (snd p) e) ops es /\
        Forall2 (fun p w => holds st1 pend (snd p) w) ls (map (fun e rho => eval fs rho e) es)).
      { intros ops Hch. destruct (ensure_all_ok (visit G fuel) n nd En ops) with (st := st) (pend := pend) as (st1 & ls & E & I1 & X1 & M1 & F1); auto.
        { intros c Hc. rewrite <- Hch in Hc. auto. }
        assert (K1 : locs st1 n = locs st n).
        { apply (ensure_all_keeps (visit G fuel) ops st st1 ls n) with (2 := E); [|lia]. intros c Hc. rewrite <- Hch in Hc.
          split; [apply visit_keeps|auto]. }
        assert (Hex : forall p, In p ops -> In (snd p) (children nd)).
        { intros p Hp. rewrite Hch. apply in_map. assumption. }
        clear - F1 E I1 X1 K1 M1 Hex HP En Hwf.
        assert (Q : exists es, Forall2 (fun (p : bool * nat) e => unfolds G None (snd p) e) ops es /\
          Forall2 (fun p w => holds st1 pend (snd p) w) ls (map (fun e rho => eval fs rho e) es)).
        { clear E M1. induction F1 as [|p q r ls' Hpq F1 IHF].
          - exists []. split; constructor.
          - destruct IHF as (es & Q1 & Q2); [intros; apply Hex; right; assumption|].
            destruct (children_unfold n nd (snd p) En (Hex p (or_introl eq_refl))) as [e He].
            exists (e :: es). split; [constructor; assumption|]. cbn. constructor; [|assumption].
            eapply holds_loc; eauto. apply HP, Hex. left. reflexivity. }
        destruct Q as (es & Q1 & Q2). exists st1, ls, es. conjs; auto. }
      destruct nd as [kd c| |y|ops|ops|a|a z|b a|f a|a]; cbn [children] in *.
      - (* number *)
        assert (Ln : locs st n = None) by (eapply no_output_operator; [exact P|eassumption|discriminate|discriminate]).
        destruct (number_fresh st pend c I) as (I1 & M1 & V1).
        apply (finish st (numbered st c) pend n (nxt st) (fun _ => Some c)); auto.
        + intros x l Hl. exact Hl.
        + intros e [[|k] Hk] rho; [discriminate|]. cbn in Hk. rewrite En in Hk. injection Hk as <-. reflexivity.
      - (* variable *)
        exists st. pose proof (P2 n Hok) as Hl. conjs; auto using ext_refl.
        apply drop_pend; [|assumption]. destruct P4 as [P4|[[_ P4]|(_ & a & P4)]]; [congruence|assumption|congruence].
      - contradiction.
      - (* sum *)
        assert (Ln : locs st n = None) by (eapply no_output_operator; [exact P|eassumption|discriminate|discriminate]).
        destruct (LI ops eq_refl) as (st1 & ls & es & E & I1 & X1 & K1 & M1 & U1 & V1).
        rewrite E. cbn [bind fst snd].
        destruct ls as [|[s l] r].
        { destruct ops; [contradiction|discriminate]. }
        destruct es as [|e0 es]; [inversion V1|]. cbn [map] in V1. inversion V1 as [|? ? ? ? V0 Vr]; subst. cbn [snd] in V0.
        assert (He : forall e, unfolds G None n e -> forall rho, e = Sum (combine (s :: map fst r) (e0 :: es))).
        { intros e [[|k] Hk] rho; [discriminate|]. cbn [unfold] in Hk. rewrite En in Hk.
          destruct (sequence _) as [l'|] eqn:El in Hk; [|discriminate]. injection Hk as <-.
          destruct (unfold_list_inv k ops l' El) as (es' & H2 & ->).
          rewrite (unfold_list_fun ops es' (e0 :: es) H2 U1). rewrite <- M1. reflexivity. }
        assert (fin : forall st2 prev (v : env F -> option F), Inv st2 pend -> locs st2 = locs st1 -> holds st2 pend prev v ->
          Forall2 (fun p w => holds st2 pend (snd p) w) r (map (fun e rho => eval fs rho e) es) ->
          (forall rho, v rho = sum_val [(s, eval fs rho e0)]) ->
          exists st', (let (st3, last) := chain OAdd OSubtract st2 prev r in Done (set_loc st3 n last)) = Done st' /\
            Inv st' (fun x => pend x /\ x <> n) /\ ext st st' /\ locs st' n <> None).
        { intros st2 prev v I2 L2 V2 F2 Hv. destruct (chain OAdd OSubtract st2 prev r) as [st3 last] eqn:Ec.
          destruct (chain_ok OAdd OSubtract eq_refl eq_refl r _ st2 pend prev v I2 V2 F2 st3 last Ec) as (I3 & L3 & V3).
          eapply finish; [exact I3| |congruence|exact V3|].
          - intros x lx Hx. rewrite L3, L2. apply X1. assumption.
          - intros e Hu rho. rewrite (He e Hu rho). cbn [eval]. rewrite combine_eval. rewrite map_map. cbn [combine map].
            rewrite chain_sum, Hv. cbn [sum_val].
            destruct s, (eval fs rho e0) as [x|], (sum_val (combine (map fst r) (map (eval fs rho) es))) as [w|];
              cbn; try reflexivity; f_equal; ring. }
        destruct s.
        + apply (fin st1 l _ I1 eq_refl V0 Vr). intro rho. cbn. destruct (eval fs rho e0); [f_equal; ring|reflexivity].
        + destruct (emit_fresh st1 pend [word_of ONegate; N.of_nat l; N.of_nat (nxt st1)]
            (fun m => lift1 (fun x => Some (- x)) (m l)) I1) as (I2 & M2 & W2).
          { apply wh_1; [reflexivity|constructor]. }
          { intro m. rewrite exec_1 by reflexivity. rewrite !Nat2N.id. reflexivity. }
          apply (fin (emitted st1 [word_of ONegate; N.of_nat l; N.of_nat (nxt st1)]) (nxt st1)
                   (fun rho => lift1 (fun x => Some (- x)) (eval fs rho e0)) I2 eq_refl).
          * apply W2. intros rho m0 m Hp Em. destruct V0 as (_ & _ & V0). rewrite (V0 rho m0 m Hp Em). reflexivity.
          * clear - Vr M2. induction Vr; constructor; auto.
          * intro rho. cbn. destruct (eval fs rho e0); cbn; [f_equal; ring|reflexivity].
      - (* product *)
        assert (Ln : locs st n = None) by (eapply no_output_operator; [exact P|eassumption|discriminate|discriminate]).
        destruct (LI ops eq_refl) as (st1 & ls & es & E & I1 & X1 & K1 & M1 & U1 & V1).
        rewrite E. cbn [bind fst snd].
        destruct ls as [|[s l] r].
        { destruct ops; [contradiction|discriminate]. }
        destruct es as [|e0 es]; [inversion V1|]. cbn [map] in V1. inversion V1 as [|? ? ? ? V0 Vr]; subst. cbn [snd] in V0.
        assert (He : forall e, unfolds G None n e -> forall rho, e = Mul (combine (s :: map fst r) (e0 :: es))).
        { intros e [[|k] Hk] rho; [discriminate|]. cbn [unfold] in Hk. rewrite En in Hk.
          destruct (sequence _) as [l'|] eqn:El in Hk; [|discriminate]. injection Hk as <-.
          destruct (unfold_list_inv k ops l' El) as (es' & H2 & ->).
          rewrite (unfold_list_fun ops es' (e0 :: es) H2 U1). rewrite <- M1. reflexivity. }
        assert (fin : forall st2 prev (v : env F -> option F), Inv st2 pend -> locs st2 = locs st1 -> holds st2 pend prev v ->
          Forall2 (fun p w => holds st2 pend (snd p) w) r (map (fun e rho => eval fs rho e) es) ->
          (forall rho, v rho = mul_val [(s, eval fs rho e0)]) ->
          exists st', (let (st3, last) := chain OMultiply ODivide st2 prev r in Done (set_loc st3 n last)) = Done st' /\
            Inv st' (fun x => pend x /\ x <> n) /\ ext st st' /\ locs st' n <> None).
        { intros st2 prev v I2 L2 V2 F2 Hv. destruct (chain OMultiply ODivide st2 prev r) as [st3 last] eqn:Ec.
          destruct (chain_ok OMultiply ODivide eq_refl eq_refl r _ st2 pend prev v I2 V2 F2 st3 last Ec) as (I3 & L3 & V3).
          eapply finish; [exact I3| |congruence|exact V3|].
          - intros x lx Hx. rewrite L3, L2. apply X1. assumption.
          - intros e Hu rho. rewrite (He e Hu rho). cbn [eval]. rewrite combine_eval. rewrite map_map. cbn [combine map].
            rewrite chain_mul, Hv. cbn [mul_val].
            destruct s, (eval fs rho e0) as [x|], (mul_val (combine (map fst r) (map (eval fs rho) es))) as [w|];
              cbn; try reflexivity; try (destruct (feq_dec x 0); cbn; try reflexivity); f_equal; try ring; field; assumption. }
        destruct s.
        + apply (fin st1 l _ I1 eq_refl V0 Vr). intro rho. cbn. destruct (eval fs rho e0); [f_equal; ring|reflexivity].
        + destruct (number_fresh st1 pend 1 I1) as (I2 & M2 & W2).
          destruct (emit2_fresh (numbered st1 1) pend ODivide (nxt st1) l _ _ I2 eq_refl W2 (M2 _ _ V0)) as (I3 & M3 & W3).
          apply (fin (bump (emit2 (numbered st1 1) ODivide (nxt st1) l (nxt (numbered st1 1)))) (nxt (numbered st1 1))
                   _ I3 eq_refl W3).
          * clear - Vr M2 M3. induction Vr; constructor; auto.
          * intro rho. cbn. destruct (eval fs rho e0) as [x|]; cbn; [|reflexivity]. reflexivity.
      - (* negate *)
        assert (Ln : locs st n = None) by (eapply no_output_operator; [exact P|eassumption|discriminate|discriminate]).
        destruct (EN a st ltac:(cbn; auto) I (ext_refl st) eq_refl) as (st1 & la & e & E & I1 & X1 & _ & K1 & U1 & L1 & V1).
        rewrite E. cbn [bind].
        apply (unary_ok st1 pend n ONegate (nxt st1) la _ (lift1 (fun x => Some (- x))) I1 eq_refl V1); auto; [congruence|].
        intros e' Hu rho. rewrite (unary_children n _ a Neg e En U1) with (2 := Hu); [reflexivity|].
        intros k e1 Hk. cbn [unfold] in Hk. rewrite En in Hk. destruct (unfold k G None a) as [e2|]; [|discriminate].
        exists e2. split; [reflexivity|]. cbn in Hk. congruence.
      - (* integer power *)
        assert (Ln : locs st n = None) by (eapply no_output_operator; [exact P|eassumption|discriminate|discriminate]).
        destruct (EN a st ltac:(cbn; auto) I (ext_refl st) eq_refl) as (st1 & la & e & E & I1 & X1 & _ & K1 & U1 & L1 & V1).
        rewrite E. cbn [bind]. destruct (integer_location st1 z) as [st2 lz] eqn:Ez.
        destruct (integer_fresh st1 pend z I1 st2 lz Ez) as (I2 & M2 & N2 & L2 & X2).
        destruct (emit_fresh st2 pend [word_of OIntPower; N.of_nat la; N.of_nat lz; N.of_nat (nxt st2)]
          (fun m => lift1 (fun x => fpowZ x z) (m la)) I2) as (I3 & M3 & V3).
        { apply wh_2; [reflexivity|constructor]. }
        { intro m. rewrite exec_2 by reflexivity. rewrite !Nat2N.id. cbn [binary_value]. rewrite N2. reflexivity. }
        apply (finish st (emitted st2 [word_of OIntPower; N.of_nat la; N.of_nat lz; N.of_nat (nxt st2)]) pend n (nxt st2)
                 (fun rho => lift1 (fun x => fpowZ x z) (eval fs rho e))); auto.
        + intros x lx Hx. cbn. rewrite L2. apply X1. assumption.
        + cbn. congruence.
        + apply V3. intros rho m0 m Hp Em. destruct (M2 _ _ V1) as (_ & _ & V). rewrite (V rho m0 m Hp Em). reflexivity.
        + intros e' Hu rho. rewrite (unary_children n _ a (fun x => IPow x z) e En U1) with (2 := Hu); [reflexivity|].
          intros k e1 Hk. cbn [unfold] in Hk. rewrite En in Hk. destruct (unfold k G None a) as [e2|]; [|discriminate].
          exists e2. split; [reflexivity|]. cbn in Hk. congruence.
      - (* power *)
        assert (Ln : locs st n = None) by (eapply no_output_operator; [exact P|eassumption|discriminate|discriminate]).
        destruct (EN b st ltac:(cbn; auto) I (ext_refl st) eq_refl) as (st1 & lb & eb & E & I1 & X1 & _ & K1 & U1 & L1 & V1).
        rewrite E. cbn [bind].
        destruct (EN a st1 ltac:(cbn; auto) I1 X1 K1) as (st2 & la & ea & E2 & I2 & X2 & X12 & K2 & U2 & L2 & V2).
        rewrite E2. cbn [bind].
        assert (V1' : holds st2 pend lb (fun rho => eval fs rho eb)).
        { eapply holds_loc; [exact I2|apply X12; exact L1|apply HP; cbn; auto|exact U1]. }
        destruct (emit_fresh st2 pend [word_of OPower; N.of_nat lb; N.of_nat la; N.of_nat (nxt st2)]
          (fun m => lift2 (pw fs) (m lb) (m la)) I2) as (I3 & M3 & V3).
        { apply wh_2; [reflexivity|constructor]. }
        { intro m. rewrite exec_2 by reflexivity. rewrite !Nat2N.id. reflexivity. }
        apply (finish st (emitted st2 [word_of OPower; N.of_nat lb; N.of_nat la; N.of_nat (nxt st2)]) pend n (nxt st2)
                 (fun rho => lift2 (pw fs) (eval fs rho eb) (eval fs rho ea))); auto.
        + cbn. congruence.
        + apply V3. intros rho m0 m Hp Em. destruct V1' as (_ & _ & Vb), V2 as (_ & _ & Va).
          rewrite (Vb rho m0 m Hp Em), (Va rho m0 m Hp Em). reflexivity.
        + intros e [[|k] Hk] rho; [discriminate|]. cbn [unfold] in Hk. rewrite En in Hk.
          destruct (unfold k G None b) as [b'|] eqn:Eb; [|discriminate].
          destruct (unfold k G None a) as [a'|] eqn:Ea; [|discriminate]. injection Hk as <-.
          rewrite (unfolds_fun G None b eb b' U1 (ex_intro _ k Eb)), (unfolds_fun G None a ea a' U2 (ex_intro _ k Ea)).
          reflexivity.
      - (* function *)
        assert (Ln : locs st n = None) by (eapply no_output_operator; [exact P|eassumption|discriminate|discriminate]).
        destruct (EN a st ltac:(cbn; auto) I (ext_refl st) eq_refl) as (st1 & la & e & E & I1 & X1 & _ & K1 & U1 & L1 & V1).
        rewrite E. cbn [bind].
        apply (unary_ok st1 pend n (fun_opcode f) (nxt st1) la (fun rho => eval fs rho e) (lift1 (fn fs f)) I1); auto.
        + destruct f; reflexivity.
        + destruct f; reflexivity.
        + congruence.
        + intros e' Hu rho. rewrite (unary_children n _ a (Fun f) e En U1) with (2 := Hu); [reflexivity|].
          intros k e1 Hk. cbn [unfold] in Hk. rewrite En in Hk. destruct (unfold k G None a) as [e2|]; [|discriminate].
          exists e2. split; [reflexivity|]. cbn in Hk. congruence.
      - (* Function *)
        destruct (EN a st ltac:(cbn; auto) I (ext_refl st) eq_refl) as (st1 & la & e & E & I1 & X1 & _ & K1 & U1 & L1 & V1).
        rewrite E. cbn [bind]. rewrite K1.
        assert (He : forall e', unfolds G None n e' -> e' = Handle e).
        { apply (unary_children n _ a Handle e En U1).
          intros k e1 Hk. cbn [unfold] in Hk. rewrite En in Hk. destruct (unfold k G None a) as [e2|]; [|discriminate].
          exists e2. split; [reflexivity|]. cbn in Hk. congruence. }
        destruct (locs st n) as [d|] eqn:Ld.
        + destruct P4 as [P4|[[P4 _]|(Pn & _)]]; [discriminate|congruence|].
          destruct (iv_pend _ _ I1 n Pn) as (d' & D1 & D2 & D3 & D4). assert (d' = d) by congruence. subst d'.
          exists (emit1 st1 OAssign la d). split; [reflexivity|].
          assert (Xe : forall m, exec fs (ints st1) [word_of OAssign; N.of_nat la; N.of_nat d] m = Some (put m d (m la))).
          { intro m. rewrite exec_1 by reflexivity. rewrite !Nat2N.id. reflexivity. }
          assert (Hla : la <> d).
          { intro Q. subst la. apply (D4 a); [pose proof (HC a ltac:(cbn; auto)); lia|assumption]. }
          split; [|split; [exact X1|cbn; congruence]].
          constructor; unfold emit1; cbn [code nxt locs nums ints iloc].
          * apply whole_app; [apply (iv_whole _ _ I1)|]. apply wh_1; [reflexivity|constructor].
          * apply (iv_nin _ _ I1).
          * apply (iv_locs _ _ I1).
          * apply (iv_nums _ _ I1).
          * intro m. destruct (iv_run _ _ I1 m) as (m' & Em & Hm). exists (put m' d (m' la)). split.
            -- rewrite exec_app by apply (iv_whole _ _ I1). rewrite Em. apply Xe.
            -- intros l Hl. rewrite put_other; [apply Hm; assumption|].
               intros ->. destruct Hl as [Hl|[Hl|[c Hl]]]; [|lia|exact (D3 c Hl)].
               pose proof (iv_locs _ _ I1 n d D1). lia.
          * intros x [Hx Hxn]. exact (iv_pend _ _ I1 x Hx).
          * apply (iv_nd _ _ I1).
          * apply (iv_int _ _ I1).
          * intros rho m0 m Hp Em x l e' Hl Np Hu.
            rewrite exec_app in Em by apply (iv_whole _ _ I1).
            destruct (exec fs (ints st1) (code st1) m0) as [m1|] eqn:Em1; [|discriminate].
            rewrite Xe in Em. injection Em as <-.
            destruct (Nat.eq_dec x n) as [->|Hne].
            -- assert (l = d) by congruence. subst l. rewrite put_same. rewrite (He e' Hu). cbn [eval].
               destruct V1 as (_ & _ & V1). eapply V1; eassumption.
            -- rewrite put_other; [|intros ->; exact (D4 x Hne Hl)].
               eapply (iv_sem _ _ I1); try eassumption. intro Hpx. apply Np. split; assumption.
        + destruct (emit_fresh st1 pend [word_of OAssign; N.of_nat la; N.of_nat (nxt st1)] (fun m => m la) I1) as (I2 & M2 & V2).
          { apply wh_1; [reflexivity|constructor]. }
          { intro m. rewrite exec_1 by reflexivity. rewrite !Nat2N.id. reflexivity. }
          apply (finish st (emitted st1 [word_of OAssign; N.of_nat la; N.of_nat (nxt st1)]) pend n (nxt st1)
                   (fun rho => eval fs rho e)); auto.
          * apply V2. intros rho m0 m Hp Em. destruct V1 as (_ & _ & V1). eapply V1; eassumption.
          * intros e' Hu rho. rewrite (He e' Hu). reflexivity.
    Qed.

  End Compile.
End SlpProof.
