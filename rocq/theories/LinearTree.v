(** Trees which are linear (with a constant term) in some of the variables: their values and the values of their derivatives.
    The trees are those of Expr.v, the derivatives those of Diff.v. *)
From Coq Require Import List Arith Lia ZArith Bool Ring Field.
From Verif Require Import Base Expr Diff.
Import ListNotations.

Section LinearTree.
  Context {F : fld}.
  Local Open Scope fld_scope.
  Add Field lintree_field : (f_th F).
  Variable fs : funs F.

  (** ** Specification *)

  (** an arithmetic tree in which none of the variables [vs] occurs *)
  Definition coefficient (vs : list nat) (e : expr F) : Prop := arith e /\ forall v, In v vs -> ~ occurs v e.

  (** sums, differences, negations and first powers of linear trees, and products of a linear tree with coefficients and with
      the inverses of coefficients *)
  Inductive linear (vs : list nat) : expr F -> Prop :=
  | li_coefficient : forall e, coefficient vs e -> linear vs e
  | li_var : forall v, linear vs (Var v)
  | li_sum : forall ops, Forall (fun p => linear vs (snd p)) ops -> linear vs (Sum ops)
  | li_mul : forall pre e post, Forall (fun p => coefficient vs (snd p)) pre -> linear vs e ->
      Forall (fun p => coefficient vs (snd p)) post -> linear vs (Mul (pre ++ (true, e) :: post))
  | li_neg : forall e, linear vs e -> linear vs (Neg e)
  | li_handle : forall e, linear vs e -> linear vs (Handle e)
  | li_power : forall e, linear vs e -> linear vs (IPow e 1).

  (** [sum over v in vs of a v * d v] *)
  Fixpoint combination (vs : list nat) (a d : nat -> F) : F :=
    match vs with [] => 0 | v :: r => a v * d v + combination r a d end.

  (** ** Proofs *)

  Fixpoint linear_ind' (vs : list nat) (P : expr F -> Prop)
    (Hc : forall e, coefficient vs e -> P e) (Hv : forall v, P (Var v))
    (Hs : forall ops, Forall (fun p => linear vs (snd p)) ops -> Forall (fun p => P (snd p)) ops -> P (Sum ops))
    (Hm : forall pre e post, Forall (fun p => coefficient vs (snd p)) pre -> linear vs e -> P e ->
        Forall (fun p => coefficient vs (snd p)) post -> P (Mul (pre ++ (true, e) :: post)))
    (Hn : forall e, linear vs e -> P e -> P (Neg e)) (Hh : forall e, linear vs e -> P e -> P (Handle e))
    (Hw : forall e, linear vs e -> P e -> P (IPow e 1))
    e (H : linear vs e) {struct H} : P e :=
    let rec := linear_ind' vs P Hc Hv Hs Hm Hn Hh Hw in
    match H with
    | li_coefficient _ e He => Hc e He
    | li_var _ v => Hv v
    | li_sum _ ops Ho => Hs ops Ho
        ((fix go (l : list (bool * expr F)) (h : Forall (fun p => linear vs (snd p)) l) : Forall (fun p => P (snd p)) l :=
            match h with Forall_nil _ => Forall_nil _ | Forall_cons p hp hl => Forall_cons p (rec _ hp) (go _ hl) end) ops Ho)
    | li_mul _ pre e post Hp He Hq => Hm pre e post Hp He (rec _ He) Hq
    | li_neg _ e He => Hn e He (rec _ He)
    | li_handle _ e He => Hh e He (rec _ He)
    | li_power _ e He => Hw e He (rec _ He)
    end.

  Lemma combination_add : forall vs a b d, combination vs (fun v => a v + b v) d = combination vs a d + combination vs b d.
  Proof. induction vs as [|v vs IH]; intros; cbn; [ring|]. rewrite IH. ring. Qed.
  Lemma combination_scale : forall vs c a d, combination vs (fun v => c * a v) d = c * combination vs a d.
  Proof. induction vs as [|v vs IH]; intros; cbn; [ring|]. rewrite IH. ring. Qed.
  Lemma combination_zero : forall vs d, combination vs (fun _ => 0) d = 0.
  Proof. induction vs as [|v vs IH]; intros; cbn; [ring|]. rewrite IH. ring. Qed.
  Lemma combination_ext : forall vs a b d, (forall v, In v vs -> a v = b v) -> combination vs a d = combination vs b d.
  Proof.
    induction vs as [|v vs IH]; intros a b d H; cbn; [reflexivity|]. rewrite (H v (or_introl eq_refl)), (IH a b d); [reflexivity|].
    intros w Hw. apply H. right. exact Hw.
  Qed.
  Lemma combination_absent : forall vs v d, ~ In v vs -> combination vs (fun w => if Nat.eqb v w then 1 else 0) d = 0.
  Proof.
    intros vs v d Hn. rewrite (combination_ext vs _ (fun _ => 0)); [apply combination_zero|].
    intros w Hw. destruct (Nat.eqb_spec v w); [subst; contradiction|reflexivity].
  Qed.
  Lemma combination_unit : forall vs v d, NoDup vs -> In v vs -> combination vs (fun w => if Nat.eqb v w then 1 else 0) d = d v.
  Proof.
    induction vs as [|w vs IH]; intros v d Hd Hi; [destruct Hi|]. inversion Hd; subst. cbn.
    destruct (Nat.eqb_spec v w) as [->|Ne].
    - rewrite combination_absent by assumption. ring.
    - destruct Hi as [Hi|Hi]; [congruence|]. rewrite IH by assumption. ring.
  Qed.

  Lemma ddiv_const : forall (y : dual F) (x : F), x <> 0 -> ddiv y (x, 0) = Some (fst y / x, snd y / x).
  Proof.
    intros y x Hx. apply (proj2 (ddiv_spec y (x, 0) (fst y / x, snd y / x))).
    split; [exact Hx|]. unfold dmul. cbn. destruct y as [a b]. cbn. f_equal; field; exact Hx.
  Qed.

  Lemma dpow_const : forall (x : F) n, dpow (x, 0) n = (fpow x n, 0).
  Proof.
    intros x n. destruct n as [|n]; [reflexivity|]. rewrite (surjective_pairing (dpow (x, 0) (S n))), fst_dpow, snd_dpow. cbn [fst snd].
    f_equal. ring.
  Qed.

  Lemma deval_absent : forall rho v e y, arith e -> ~ occurs v e -> eval fs rho e = Some y -> deval rho v e = Some (y, 0).
  Proof.
    intros rho v e. induction e as [k c|x|ops IH|ops IH|e IH|e n IH|b e IHb IHe|k e IH|e IH] using expr_rect'; intros y Ha Hn Hy;
      inversion Ha; subst; cbn [eval deval] in *.
    - injection Hy as <-. reflexivity.
    - injection Hy as <-. destruct (Nat.eqb_spec x v) as [->|]; [elim Hn; constructor|reflexivity].
    - assert (Hn' : forall p, In p ops -> ~ occurs v (snd p)) by (intros [s e] Hi Ho; apply Hn; econstructor; eassumption).
      assert (Ha' : forall p, In p ops -> arith (snd p)) by (intros [s e] Hi; eauto).
      clear - IH Hn' Ha' Hy. revert y Hy. induction ops as [|[s e] ops IHo]; intros y Hy; cbn [map fst snd dsum sum_val] in *.
      + injection Hy as <-. reflexivity.
      + inversion IH as [|? ? H1 H2]; subst. cbn [snd] in H1. destruct (eval fs rho e) as [x|] eqn:E; [|discriminate].
        destruct (sum_val _) as [z|]; [|discriminate]. injection Hy as <-.
        rewrite (H1 x (Ha' _ (or_introl eq_refl)) (Hn' _ (or_introl eq_refl)) eq_refl).
        rewrite (IHo H2 (fun p Hp => Hn' p (or_intror Hp)) (fun p Hp => Ha' p (or_intror Hp)) z eq_refl).
        destruct s; cbn; unfold dadd, dneg; cbn; f_equal; f_equal; ring.
    - assert (Hn' : forall p, In p ops -> ~ occurs v (snd p)) by (intros [s e] Hi Ho; apply Hn; econstructor; eassumption).
      assert (Ha' : forall p, In p ops -> arith (snd p)) by (intros [s e] Hi; eauto).
      clear - IH Hn' Ha' Hy. revert y Hy. induction ops as [|[s e] ops IHo]; intros y Hy; cbn [map fst snd dprod mul_val] in *.
      + injection Hy as <-. reflexivity.
      + inversion IH as [|? ? H1 H2]; subst. cbn [snd] in H1. destruct (eval fs rho e) as [x|] eqn:E; [|discriminate].
        destruct (mul_val _) as [z|]; [|discriminate].
        rewrite (H1 x (Ha' _ (or_introl eq_refl)) (Hn' _ (or_introl eq_refl)) eq_refl).
        rewrite (IHo H2 (fun p Hp => Hn' p (or_intror Hp)) (fun p Hp => Ha' p (or_intror Hp)) z eq_refl).
        destruct s.
        * injection Hy as <-. unfold dmul; cbn. f_equal. f_equal; ring.
        * destruct (feq_dec x 0) as [|Nx]; [discriminate|]. injection Hy as <-. rewrite ddiv_const by exact Nx. cbn. f_equal. f_equal; field; exact Nx.
    - destruct (eval fs rho e) as [x|] eqn:E; [|discriminate]. injection Hy as <-.
      rewrite (IH x); [|assumption|intro Ho; apply Hn; constructor; exact Ho|reflexivity]. cbn. unfold dneg. cbn. f_equal. f_equal. ring.
    - destruct (eval fs rho e) as [x|] eqn:E; [|discriminate].
      rewrite (IH x); [|assumption|intro Ho; apply Hn; constructor; exact Ho|reflexivity].
      destruct n as [|p|p]; cbn [dpowZ] in *.
      + cbn in Hy. injection Hy as <-. reflexivity.
      + rewrite dpow_const. cbn in Hy. injection Hy as <-. reflexivity.
      + rewrite dpow_const. cbn [fpowZ] in Hy. destruct (feq_dec _ 0) as [|Np]; [discriminate|]. injection Hy as <-.
        assert (Nq : fpow x (Pos.to_nat p) <> 0) by (apply fpow_neq0; exact Np).
        rewrite ddiv_const by exact Nq. cbn. f_equal. f_equal. field. exact Nq.
    - apply IH; [assumption|intro Ho; apply Hn; constructor; exact Ho|assumption].
  Qed.

  Lemma linear_arith : forall vs e, linear vs e -> arith e.
  Proof.
    intros vs e H. induction H as [e [He _]|v|ops Ho IH|pre e post Hp He IH Hq|e He IH|e He IH|e He IH] using linear_ind'.
    - exact He.
    - constructor.
    - constructor. intros s e Hi. rewrite Forall_forall in IH. exact (IH _ Hi).
    - constructor. intros s a Hi. rewrite Forall_forall in Hp, Hq. apply in_app_or in Hi. destruct Hi as [Hi|[Hi|Hi]].
      + exact (proj1 (Hp _ Hi)).
      + injection Hi as _ <-. exact IH.
      + exact (proj1 (Hq _ Hi)).
    - constructor. exact IH.
    - constructor. exact IH.
    - constructor. exact IH.
  Qed.

  Definition same_elsewhere (vs : list nat) (r r' : env F) : Prop := forall v, ~ In v vs -> r' v = r v.

  (** what is shown of a linear tree: moving the variables changes the value by the combination of the moves with the
      derivatives, which are the same at both points *)
  Definition moves (vs : list nat) (e : expr F) (r r' : env F) : Prop := forall y, eval fs r e = Some y ->
    exists a, eval fs r' e = Some (y + combination vs a (fun v => r' v - r v)) /\
      forall v, In v vs -> deval r v e = Some (y, a v) /\ deval r' v e = Some (y + combination vs a (fun v => r' v - r v), a v).

  Lemma coefficient_moves : forall vs e r r', coefficient vs e -> same_elsewhere vs r r' -> eval fs r' e = eval fs r e.
  Proof. intros vs e r r' [_ Hn] Hs. apply eval_ext. intros x Hx. apply Hs. intro Hi. exact (Hn x Hi Hx). Qed.

  (** a product of coefficients and what it multiplies *)
  Lemma coefficient_product : forall vs ops r r', Forall (fun p => coefficient vs (snd p)) ops -> same_elsewhere vs r r' ->
    forall c, mul_val (map (fun p => (fst p, eval fs r (snd p))) ops) = Some c ->
    mul_val (map (fun p => (fst p, eval fs r' (snd p))) ops) = Some c /\
    forall v, In v vs -> dprod (map (fun p => (fst p, deval r v (snd p))) ops) = Some (c, 0).
  Proof.
    intros vs ops r r' Ho Hs. induction ops as [|[s e] ops IH]; intros c Hc; cbn [map fst snd mul_val dprod] in *.
    - injection Hc as <-. split; [reflexivity|]. reflexivity.
    - inversion Ho as [|? ? He Ho']; subst. cbn [snd] in He. destruct (eval fs r e) as [x|] eqn:E; [|discriminate].
      destruct (mul_val (map _ ops)) as [z|]; [|discriminate]. destruct (IH Ho' z eq_refl) as [A B].
      rewrite (coefficient_moves _ _ _ _ He Hs), E, A. split; [exact Hc|]. intros v Hv.
      rewrite (deval_absent r v e x (proj1 He) (proj2 He v Hv) E), (B v Hv). destruct s.
      + injection Hc as <-. unfold dmul. cbn. f_equal. f_equal; ring.
      + destruct (feq_dec x 0) as [|Nx]; [discriminate|]. injection Hc as <-. rewrite ddiv_const by exact Nx. cbn. f_equal. f_equal; field; exact Nx.
  Qed.

  Lemma linear_moves : forall vs e r r', NoDup vs -> linear vs e -> same_elsewhere vs r r' -> moves vs e r r'.
  Proof.
    intros vs e r r' Hd H Hs. induction H as [e He|v|ops Ho IH|pre e post Hp He IH Hq|e He IH|e He IH|e He IH] using linear_ind'; intros y Hy.
    - exists (fun _ => 0). rewrite combination_zero. replace (y + 0) with y by ring. rewrite (coefficient_moves _ _ _ _ He Hs).
      split; [exact Hy|]. intros v Hv. split; apply deval_absent; try apply (proj2 He v Hv); try apply (proj1 He); [exact Hy|].
      rewrite (coefficient_moves _ _ _ _ He Hs). exact Hy.
    - cbn in Hy. injection Hy as <-. exists (fun w => if Nat.eqb v w then 1 else 0).
      assert (E : r v + combination vs (fun w => if Nat.eqb v w then 1 else 0) (fun v => r' v - r v) = r' v).
      { destruct (in_dec Nat.eq_dec v vs) as [Hi|Hi].
        - rewrite combination_unit by assumption. ring.
        - rewrite combination_absent by assumption. rewrite (Hs v Hi). ring. }
      rewrite E. split; [reflexivity|]. intros w Hw. split; reflexivity.
    - cbn [eval] in *. revert y Hy. induction ops as [|[s e] ops IHo]; intros y Hy.
      + cbn in Hy. injection Hy as <-. exists (fun _ => 0). cbn. rewrite combination_zero. replace (0 + 0) with (0 : F) by ring.
        split; [reflexivity|]. intros v Hv. split; reflexivity.
      + inversion Ho; subst. inversion IH as [|? ? He IH']; subst. cbn [snd] in *. cbn [map fst snd sum_val] in Hy.
        destruct (eval fs r e) as [x|] eqn:E; [|discriminate]. destruct (sum_val _) as [z|]; [|discriminate]. injection Hy as <-.
        destruct (He x E) as [a [A1 A2]]. destruct (IHo H2 IH' z eq_refl) as [b [B1 B2]].
        exists (fun v => (if s then 1 else - (1)) * a v + b v).
        rewrite combination_add, combination_scale. set (ca := combination vs a _) in *. set (cb := combination vs b _) in *.
        cbn [map fst snd sum_val]. rewrite A1, B1. split.
        * f_equal. destruct s; ring.
        * intros v Hv. cbn [deval map fst snd dsum]. destruct (A2 v Hv) as [A3 A4]. destruct (B2 v Hv) as [B3 B4]. cbn [deval] in B3, B4.
          rewrite A3, A4, B3, B4. destruct s; unfold dadd, dneg; cbn; split; f_equal; f_equal; ring.
    - cbn [eval] in *.
      assert (G : forall pre, Forall (fun p => coefficient vs (snd p)) pre -> moves vs (Mul (pre ++ (true, e) :: post)) r r').
      2:{ exact (G pre Hp y Hy). }
      clear - IH Hq Hs. intro pre. induction pre as [|[s c] pre IHp]; intros Hp y Hy.
      + cbn [app eval map fst snd mul_val] in Hy. destruct (eval fs r e) as [x|] eqn:E; [|discriminate].
        destruct (mul_val _) as [k|] eqn:K; [|discriminate]. injection Hy as <-.
        destruct (IH x E) as [a [A1 A2]]. destruct (coefficient_product vs post r r' Hq Hs k K) as [P1 P2].
        assert (Hs' : same_elsewhere vs r' r) by (intros v Hv; symmetry; apply Hs; exact Hv).
        destruct (coefficient_product vs post r' r Hq Hs' k P1) as [_ P3].
        exists (fun v => k * a v). rewrite combination_scale. set (ca := combination vs a _) in *.
        cbn [app eval map fst snd mul_val deval dprod]. rewrite A1, P1. split; [f_equal; ring|].
        intros v Hv. destruct (A2 v Hv) as [A3 A4]. rewrite A3, A4, (P2 v Hv), (P3 v Hv). unfold dmul; cbn. split; f_equal; f_equal; ring.
      + inversion Hp as [|? ? Hc Hp']; subst. cbn [snd] in Hc.
        cbn [app eval map fst snd mul_val] in Hy. destruct (eval fs r c) as [k|] eqn:K; [|discriminate].
        destruct (mul_val _) as [x|] eqn:E; [|discriminate].
        destruct (IHp Hp' x E) as [a [A1 A2]].
        assert (K' : eval fs r' c = Some k) by (rewrite (coefficient_moves _ _ _ _ Hc Hs); exact K).
        assert (D : forall v, In v vs -> deval r v c = Some (k, 0) /\ deval r' v c = Some (k, 0)).
        { intros v Hv. split; apply deval_absent; try apply (proj2 Hc v Hv); try apply (proj1 Hc); assumption. }
        cbn [eval] in A1. destruct s.
        * injection Hy as <-. exists (fun v => k * a v). rewrite combination_scale. set (ca := combination vs a _) in *.
          cbn [app eval map fst snd mul_val deval dprod]. rewrite K', A1. split; [f_equal; ring|].
          intros v Hv. destruct (A2 v Hv) as [A3 A4]. destruct (D v Hv) as [D1 D2]. cbn [deval] in A3, A4. rewrite D1, D2, A3, A4.
          unfold dmul; cbn. split; f_equal; f_equal; ring.
        * destruct (feq_dec k 0) as [|Nk] eqn:Ek; [discriminate|]. injection Hy as <-.
          exists (fun v => (1 / k) * a v). rewrite combination_scale. set (ca := combination vs a _) in *.
          cbn [app eval map fst snd mul_val deval dprod]. rewrite K', A1, Ek. split; [f_equal; field; exact Nk|].
          intros v Hv. destruct (A2 v Hv) as [A3 A4]. destruct (D v Hv) as [D1 D2]. cbn [deval] in A3, A4. rewrite D1, D2, A3, A4.
          rewrite !ddiv_const by exact Nk. cbn. split; f_equal; f_equal; field; exact Nk.
    - cbn [eval] in Hy. destruct (eval fs r e) as [x|] eqn:E; [|discriminate]. injection Hy as <-. destruct (IH x E) as [a [A1 A2]].
      exists (fun v => - (1) * a v). rewrite combination_scale. set (ca := combination vs a _) in *. cbn [eval deval]. rewrite A1.
      split; [f_equal; ring|]. intros v Hv. destruct (A2 v Hv) as [A3 A4]. rewrite A3, A4. cbn. unfold dneg; cbn. split; f_equal; f_equal; ring.
    - exact (IH y Hy).
    - cbn [eval] in Hy. destruct (eval fs r e) as [x|] eqn:E; [|discriminate].
      assert (Q : forall q : F, fpowZ q 1 = Some q).
      { intro q. cbn [fpowZ]. change (Pos.to_nat 1) with 1%nat. cbn [fpow]. f_equal. ring. }
      rewrite Q in Hy. injection Hy as <-. destruct (IH x E) as [a [A1 A2]].
      assert (Q2 : forall q : dual F, dpowZ q 1 = Some q).
      { intros [q q']. cbn [dpowZ]. change (Pos.to_nat 1) with 1%nat. cbn [dpow]. unfold dmul, dconst. cbn [fst snd]. f_equal. f_equal; ring. }
      exists a. cbn [eval deval]. rewrite A1, Q. split; [reflexivity|]. intros v Hv. destruct (A2 v Hv) as [A3 A4]. rewrite A3, A4, !Q2. split; reflexivity.
  Qed.

  (** the value at another point and the values of the tree of the derivative at both *)
  Theorem linear_values : forall vs e r r' y, NoDup vs -> linear vs e -> same_elsewhere vs r r' -> eval fs r e = Some y ->
    exists a, eval fs r' e = Some (y + combination vs a (fun v => r' v - r v)) /\
      forall v, In v vs -> eval fs r (differentiate v e) = Some (a v) /\ eval fs r' (differentiate v e) = Some (a v).
  Proof.
    intros vs e r r' y Hd Hl Hs Hy. destruct (linear_moves vs e r r' Hd Hl Hs y Hy) as [a [A1 A2]]. exists a. split; [exact A1|].
    intros v Hv. destruct (A2 v Hv) as [A3 A4]. pose proof (linear_arith _ _ Hl) as Ha.
    destruct (differentiate_arith fs r v e Ha y Hy) as [y1 [B1 B2]]. destruct (differentiate_arith fs r' v e Ha _ A1) as [y2 [B3 B4]].
    rewrite A3 in B1. rewrite A4 in B3. injection B1 as <-. injection B3 as <-. split; assumption.
  Qed.
End LinearTree.
