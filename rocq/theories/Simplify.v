(** Simplify: ReduceDepth, EliminateOnes and EliminateZeros, repeated until nothing changes.

    Models core/src/function_tree/simplify.cpp and the corresponding functions of
    operators/arithmetic.cpp.  Simplifications: a pass returns the new tree instead of changing the nodes in
    place (sharing is modelled in SimpGraph.v); counters are naturals; the assertions that a node has operands are
    not modelled, a node without operands is left as it is. *)
From Coq Require Import List Arith Lia ZArith Bool Ring Field.
From Verif Require Import Base Expr Diff.
Import ListNotations.

Section Simplify.
  Context {F : fld}.
  Local Open Scope fld_scope.
  Add Field simp_field : (f_th F).

  Variable fs : funs F.

  (** the current values of the variables when Simplify is called *)
  Variable rho0 : env F.

  (** operands_[ii]->Eval<dbl>() == c *)
  Definition evals_to (c : F) (e : expr F) : bool :=
    match eval fs rho0 e with Some x => feqb x c | None => false end.

  Definition sum_counts (l : list nat) : nat := list_sum l.

  (** arithmetic.cpp:42-83 SumOperator::EliminateZeros, 530-560 MultOperator::EliminateZeros; every other
      class returns 0 and does not recurse.  The recursion is on operands that were kept. *)
  Fixpoint eliminate_zeros (e : expr F) : expr F * nat :=
    match e with
    | Sum ops =>
        let rec := map (fun p => (fst p, (snd p, eliminate_zeros (snd p)))) ops in
        if (1 <? length ops)%nat then
          let kept := filter (fun q => negb (evals_to 0 (fst (snd q)))) rec in
          match kept with
          | [] => (Sum [(true, zero_node)], length ops - 1)%nat
          | _ => (Sum (map (fun q => (fst q, fst (snd (snd q)))) kept),
                  (length ops - length kept) + list_sum (map (fun q => snd (snd (snd q))) kept))%nat
          end
        else (Sum (map (fun q => (fst q, fst (snd (snd q)))) rec), list_sum (map (fun q => snd (snd (snd q))) rec))
    | Mul ops =>
        if existsb (fun p => evals_to 0 (snd p)) ops then (Mul [(true, zero_node)], (length ops - 1)%nat)
        else
          let rec := map (fun p => (fst p, eliminate_zeros (snd p))) ops in
          (Mul (map (fun q => (fst q, fst (snd q))) rec), list_sum (map (fun q => snd (snd q)) rec))
    | _ => (e, O)
    end.

  (** arithmetic.cpp:88-95 SumOperator::EliminateOnes, 567-612 MultOperator::EliminateOnes *)
  Fixpoint eliminate_ones (e : expr F) : expr F * nat :=
    match e with
    | Sum ops =>
        let rec := map (fun p => (fst p, eliminate_ones (snd p))) ops in
        (Sum (map (fun q => (fst q, fst (snd q))) rec), list_sum (map (fun q => snd (snd q)) rec))
    | Mul ops =>
        let rec := map (fun p => (fst p, (snd p, eliminate_ones (snd p)))) ops in
        if (1 <? length ops)%nat then
          let kept := filter (fun q => negb (evals_to 1 (fst (snd q)))) rec in
          match kept with
          | [] => match rec with
                  | [] => (e, O)
                  | q :: _ => (Mul [(fst q, fst (snd (snd q)))], (length ops - 1) + snd (snd (snd q)))%nat
                  end
          | _ => (Mul (map (fun q => (fst q, fst (snd (snd q)))) kept),
                  (length ops - length kept) + list_sum (map (fun q => snd (snd (snd q))) kept))%nat
          end
        else (Mul (map (fun q => (fst q, fst (snd (snd q)))) rec), list_sum (map (fun q => snd (snd (snd q))) rec))
    | _ => (e, O)
    end.

  (** !(a ^ b) *)
  Definition xnor (a b : bool) : bool := negb (xorb a b).

  (** arithmetic.cpp:97-124 SumOperator::ReduceSubSums *)
  Definition sum_reduce_sums (ops : list (bool * expr F)) : list (bool * expr F) * nat :=
    (flat_map (fun p => match snd p with
       | Sum sub => map (fun q => (xnor (fst q) (fst p), snd q)) sub
       | _ => [p] end) ops,
     list_sum (map (fun p => match snd p with Sum sub => length sub | _ => O end) ops)).

  (** arithmetic.cpp:128-154 SumOperator::ReduceSubMults *)
  Definition sum_reduce_mults (ops : list (bool * expr F)) : list (bool * expr F) * nat :=
    (map (fun p => match snd p with Mul [(true, x)] => (fst p, x) | _ => p end) ops,
     list_sum (map (fun p => match snd p with Mul [(true, _)] => 1%nat | _ => O end) ops)).

  (** arithmetic.cpp:615-645 MultOperator::ReduceSubSums *)
  Definition mul_reduce_sums (ops : list (bool * expr F)) : list (bool * expr F) * nat :=
    (map (fun p => match snd p with
       | Sum [(true, x)] => (fst p, x)
       | Sum [(false, x)] => (fst p, Neg x)
       | _ => p end) ops,
     list_sum (map (fun p => match snd p with Sum [_] => 1%nat | _ => O end) ops)).

  (** arithmetic.cpp:647-678 MultOperator::ReduceSubMults *)
  Definition mul_reduce_mults (ops : list (bool * expr F)) : list (bool * expr F) * nat :=
    (flat_map (fun p => match snd p with
       | Mul sub => map (fun q => (xnor (fst q) (fst p), snd q)) sub
       | _ => [p] end) ops,
     list_sum (map (fun p => match snd p with Mul sub => length sub | _ => O end) ops)).

  Fixpoint map_opt {A B : Type} (f : A -> option B) (l : list A) : option (list B) :=
    match l with
    | [] => Some []
    | a :: r => match f a, map_opt f r with Some b, Some bs => Some (b :: bs) | _, _ => None end
    end.

  (** arithmetic.cpp:157-165 SumOperator::ReduceDepth, 680-690 MultOperator::ReduceDepth, node.cpp:64
      Node::ReduceDepth.  The recursion goes into the operands after the two folds, so it is bounded by fuel;
      [None] is running out of fuel. *)
  Fixpoint reduce_depth (fuel : nat) (e : expr F) : option (expr F * nat) :=
    match fuel with
    | O => None
    | S fuel =>
        let finish build (ops : list (bool * expr F)) c :=
          match map_opt (fun p => match reduce_depth fuel (snd p) with
                                  | Some r => Some (fst p, r) | None => None end) ops with
          | Some rs => Some (build (map (fun q => (fst q, fst (snd q))) rs),
                             c + list_sum (map (fun q => snd (snd q)) rs))%nat
          | None => None
          end in
        match e with
        | Sum ops => let r1 := sum_reduce_sums ops in let r2 := sum_reduce_mults (fst r1) in
                     finish Sum (fst r2) (snd r1 + snd r2)%nat
        | Mul ops => let r1 := mul_reduce_sums ops in let r2 := mul_reduce_mults (fst r1) in
                     finish Mul (fst r2) (snd r1 + snd r2)%nat
        | _ => Some (e, O)
        end
    end.

  (** one round of the loop of simplify.cpp:39-50 *)
  Definition round (fuel : nat) (e : expr F) : option (expr F * nat) :=
    match reduce_depth fuel e with
    | Some (e1, c1) =>
        let r2 := eliminate_ones e1 in
        let r3 := eliminate_zeros (fst r2) in
        Some (fst r3, c1 + snd r2 + snd r3)%nat
    | None => None
    end.

  (** simplify.cpp:33-53: rounds until one changes nothing *)
  Fixpoint simplify (fuel : nat) (e : expr F) : option (expr F) :=
    match fuel with
    | O => None
    | S fuel' =>
        match round fuel e with
        | Some (e', O) => Some e'
        | Some (e', S _) => simplify fuel' e'
        | None => None
        end
    end.

  (** *** Termination *)
  Fixpoint weight (e : expr F) : nat :=
    match e with
    | Num _ _ | Var _ => 1
    | Sum ops => 2 + list_sum (map (fun p => weight (snd p)) ops)
    | Mul ops => 1 + list_sum (map (fun p => weight (snd p)) ops)
    | Neg e => 1 + weight e
    | IPow e _ => 1 + weight e
    | Pow b e => 1 + weight b + weight e
    | Fun _ e => 1 + weight e
    | Handle e => 1 + weight e
    end%nat.

  Definition wsum (ops : list (bool * expr F)) : nat := list_sum (map (fun p => weight (snd p)) ops).

  Lemma weight_pos : forall e, (1 <= weight e)%nat.
  Proof. destruct e; cbn; lia. Qed.

  Lemma wsum_cons : forall p ops, wsum (p :: ops) = (weight (snd p) + wsum ops)%nat.
  Proof. reflexivity. Qed.

  Lemma wsum_app : forall a b, wsum (a ++ b) = (wsum a + wsum b)%nat.
  Proof. intros. unfold wsum. rewrite map_app, list_sum_app. reflexivity. Qed.

  Lemma wsum_xnor : forall s (sub : list (bool * expr F)), wsum (map (fun q => (xnor (fst q) s, snd q)) sub) = wsum sub.
  Proof. intros. unfold wsum. rewrite map_map. reflexivity. Qed.

  Lemma wsum_length : forall ops, (length ops <= wsum ops)%nat.
  Proof.
    induction ops as [|p ops IH]; [apply Nat.le_refl|]. rewrite wsum_cons. cbn [length]. pose proof (weight_pos (snd p)). lia.
  Qed.

  Lemma list_sum_cons : forall a l, list_sum (a :: l) = (a + list_sum l)%nat.
  Proof. reflexivity. Qed.

  (** a fold that counts something makes the tree lighter *)
  Definition lighter (w w' c : nat) : Prop := (w' <= w)%nat /\ (c <> 0 -> w' < w)%nat.

  Lemma sum_reduce_sums_lighter : forall ops, lighter (wsum ops) (wsum (fst (sum_reduce_sums ops))) (snd (sum_reduce_sums ops)).
  Proof.
    unfold sum_reduce_sums, lighter. cbn [fst snd].
    induction ops as [|[s e] ops [IH1 IH2]]; [split; [apply Nat.le_refl|intro H; destruct (H eq_refl)]|].
    cbn [flat_map map]. rewrite list_sum_cons, wsum_app, wsum_cons. cbn [fst snd].
    destruct e as [k c|x|sub|sub|e|e n|b e|k e|e];
      try (rewrite wsum_cons; cbn [snd]; change (wsum []) with O; split; lia).
    rewrite wsum_xnor. cbn [weight]. fold (wsum sub). split; lia.
  Qed.

  Lemma sum_reduce_mults_lighter : forall ops, lighter (wsum ops) (wsum (fst (sum_reduce_mults ops))) (snd (sum_reduce_mults ops)).
  Proof.
    unfold sum_reduce_mults, lighter. cbn [fst snd].
    induction ops as [|[s e] ops [IH1 IH2]]; [split; [apply Nat.le_refl|intro H; destruct (H eq_refl)]|].
    cbn [map]. rewrite list_sum_cons, !wsum_cons. cbn [fst snd].
    destruct e as [k c|x|sub|sub|e|e n|b e|k e|e]; try (cbn [snd]; split; lia).
    destruct sub as [|[[|] x] [|p sub]]; cbn [fst snd]; try (split; lia).
    cbn [weight map snd list_sum]. change (list_sum [weight x]) with (weight x + 0)%nat. split; lia.
  Qed.

  Lemma mul_reduce_sums_lighter : forall ops, lighter (wsum ops) (wsum (fst (mul_reduce_sums ops))) (snd (mul_reduce_sums ops)).
  Proof.
    unfold mul_reduce_sums, lighter. cbn [fst snd].
    induction ops as [|[s e] ops [IH1 IH2]]; [split; [apply Nat.le_refl|intro H; destruct (H eq_refl)]|].
    cbn [map]. rewrite list_sum_cons, !wsum_cons. cbn [fst snd].
    destruct e as [k c|x|sub|sub|e|e n|b e|k e|e]; try (cbn [snd]; split; lia).
    destruct sub as [|[[|] x] [|p sub]]; cbn [fst snd]; try (split; lia);
    cbn [weight map snd list_sum]; change (list_sum [weight x]) with (weight x + 0)%nat; split; lia.
  Qed.

  Lemma mul_reduce_mults_lighter : forall ops, lighter (wsum ops) (wsum (fst (mul_reduce_mults ops))) (snd (mul_reduce_mults ops)).
  Proof.
    unfold mul_reduce_mults, lighter. cbn [fst snd].
    induction ops as [|[s e] ops [IH1 IH2]]; [split; [apply Nat.le_refl|intro H; destruct (H eq_refl)]|].
    cbn [flat_map map]. rewrite list_sum_cons, wsum_app, wsum_cons. cbn [fst snd].
    destruct e as [k c|x|sub|sub|e|e n|b e|k e|e];
      try (rewrite wsum_cons; cbn [snd]; change (wsum []) with O; split; lia).
    rewrite wsum_xnor. cbn [weight]. fold (wsum sub). split; lia.
  Qed.

  Lemma map_opt_total : forall (A B : Type) (f : A -> option B) l, (forall a, In a l -> exists b, f a = Some b) ->
    exists bs, map_opt f l = Some bs.
  Proof.
    induction l as [|a l IH]; intro H; [eexists; reflexivity|]. cbn [map_opt].
    destruct (H a (or_introl eq_refl)) as [b Hb]. destruct IH as [bs Hbs]; [intros; apply H; right; assumption|].
    rewrite Hb, Hbs. eexists; reflexivity.
  Qed.

  Lemma map_opt_forall2 : forall (A B : Type) (f : A -> option B) l bs, map_opt f l = Some bs ->
    Forall2 (fun a b => f a = Some b) l bs.
  Proof.
    induction l as [|a l IH]; intros bs H; cbn [map_opt] in H; [injection H as <-; constructor|].
    destruct (f a) as [b|] eqn:Eb; [|discriminate]. destruct (map_opt f l) as [r|]; [|discriminate].
    injection H as <-. constructor; [assumption|]. apply IH. reflexivity.
  Qed.

  Lemma weight_in : forall p ops, In p ops -> (weight (snd p) <= wsum ops)%nat.
  Proof.
    intros p ops. induction ops as [|q ops IH]; [intros []|]. intros [->|H]; rewrite wsum_cons; [lia|]. specialize (IH H). lia.
  Qed.

  Lemma reduce_depth_total : forall fuel e, (weight e <= fuel)%nat -> exists r, reduce_depth fuel e = Some r.
  Proof.
    induction fuel as [|fuel IH]; intros e H; [pose proof (weight_pos e); lia|].
    cbn [reduce_depth]. destruct e as [k c|x|ops|ops|e|e n|b e|k e|e]; try (eexists; reflexivity).
    - cbn [weight] in H. fold (wsum ops) in H.
      pose proof (sum_reduce_sums_lighter ops) as [H1 _]. pose proof (sum_reduce_mults_lighter (fst (sum_reduce_sums ops))) as [H2 _].
      destruct (map_opt_total _ _ (fun p => match reduce_depth fuel (snd p) with Some r => Some (fst p, r) | None => None end)
        (fst (sum_reduce_mults (fst (sum_reduce_sums ops))))) as [bs Hbs].
      + intros p Hp. pose proof (weight_in _ _ Hp). destruct (IH (snd p)) as [r Hr]; [lia|]. rewrite Hr. eexists; reflexivity.
      + rewrite Hbs. eexists; reflexivity.
    - cbn [weight] in H. fold (wsum ops) in H.
      pose proof (mul_reduce_sums_lighter ops) as [H1 _]. pose proof (mul_reduce_mults_lighter (fst (mul_reduce_sums ops))) as [H2 _].
      destruct (map_opt_total _ _ (fun p => match reduce_depth fuel (snd p) with Some r => Some (fst p, r) | None => None end)
        (fst (mul_reduce_mults (fst (mul_reduce_sums ops))))) as [bs Hbs].
      + intros p Hp. pose proof (weight_in _ _ Hp). destruct (IH (snd p)) as [r Hr]; [lia|]. rewrite Hr. eexists; reflexivity.
      + rewrite Hbs. eexists; reflexivity.
  Qed.

  Lemma lighter_list : forall (l : list (bool * expr F)) (rs : list (bool * (expr F * nat))),
    Forall2 (fun p q => fst q = fst p /\ lighter (weight (snd p)) (weight (fst (snd q))) (snd (snd q))) l rs ->
    lighter (wsum l) (wsum (map (fun q => (fst q, fst (snd q))) rs)) (list_sum (map (fun q => snd (snd q)) rs)).
  Proof.
    unfold lighter. intros l rs H. induction H as [|p q l rs [_ [H1 H2]] H [IH1 IH2]].
    - split; [apply Nat.le_refl|intro H; destruct (H eq_refl)].
    - cbn [map]. rewrite list_sum_cons, !wsum_cons. cbn [snd]. split; lia.
  Qed.

  Lemma lighter_trans : forall w w' w'' c c', lighter w w' c -> lighter w' w'' c' -> lighter w w'' (c + c').
  Proof. unfold lighter. intros. lia. Qed.

  Lemma reduce_depth_lighter : forall fuel e r, reduce_depth fuel e = Some r -> lighter (weight e) (weight (fst r)) (snd r).
  Proof.
    induction fuel as [|fuel IH]; intros e r H; [discriminate|].
    assert (Triv : forall e, lighter (weight e) (weight e) 0) by (intro; split; lia).
    assert (Step : forall ops bs, map_opt (fun p => match reduce_depth fuel (snd p) with Some r => Some (fst p, r) | None => None end) ops = Some bs ->
      lighter (wsum ops) (wsum (map (fun q => (fst q, fst (snd q))) bs)) (list_sum (map (fun q => snd (snd q)) bs))).
    { intros ops bs Hb. apply lighter_list. apply map_opt_forall2 in Hb.
      induction Hb as [|p q l l' Hpq _ IHl]; constructor; [|assumption].
      destruct (reduce_depth fuel (snd p)) as [rr|] eqn:E; [|discriminate]. injection Hpq as <-. cbn [fst snd].
      split; [reflexivity|]. apply IH. assumption. }
    cbn [reduce_depth] in H. destruct e as [k c|x|ops|ops|e|e n|b e|k e|e]; try (injection H as <-; apply Triv).
    - pose proof (sum_reduce_sums_lighter ops) as H1. pose proof (sum_reduce_mults_lighter (fst (sum_reduce_sums ops))) as H2.
      destruct (map_opt _ _) as [bs|] eqn:Eb in H; [|discriminate]. injection H as <-. cbn [fst snd weight].
      apply Step in Eb. pose proof (lighter_trans _ _ _ _ _ (lighter_trans _ _ _ _ _ H1 H2) Eb) as [H3 H4].
      unfold wsum in *. split; [lia|intro Hc; specialize (H4 Hc); lia].
    - pose proof (mul_reduce_sums_lighter ops) as H1. pose proof (mul_reduce_mults_lighter (fst (mul_reduce_sums ops))) as H2.
      destruct (map_opt _ _) as [bs|] eqn:Eb in H; [|discriminate]. injection H as <-. cbn [fst snd weight].
      apply Step in Eb. pose proof (lighter_trans _ _ _ _ _ (lighter_trans _ _ _ _ _ H1 H2) Eb) as [H3 H4].
      unfold wsum in *. split; [lia|intro Hc; specialize (H4 Hc); lia].
  Qed.

  Lemma weight_Sum : forall ops, weight (Sum ops) = (2 + wsum ops)%nat.
  Proof. reflexivity. Qed.
  Lemma weight_Mul : forall ops, weight (Mul ops) = (1 + wsum ops)%nat.
  Proof. reflexivity. Qed.

  (** operands dropped by a filter *)
  Lemma kept_lighter : forall (f : bool * (expr F * (expr F * nat)) -> bool) (l : list (bool * (expr F * (expr F * nat)))),
    Forall (fun q => lighter (weight (fst (snd q))) (weight (fst (snd (snd q)))) (snd (snd (snd q)))) l ->
    (length l - length (filter f l) + list_sum (map (fun q => snd (snd (snd q))) (filter f l)) <> 0 ->
      wsum (map (fun q => (fst q, fst (snd (snd q)))) (filter f l)) < wsum (map (fun q => (fst q, fst (snd q))) l))%nat
    /\ (length (filter f l) <= length l)%nat
    /\ (wsum (map (fun q => (fst q, fst (snd (snd q)))) (filter f l)) + (length l - length (filter f l)) <= wsum (map (fun q => (fst q, fst (snd q))) l))%nat.
  Proof.
    intros f l H. induction H as [|q l [H1 H2] H [IH1 [IH2 IH3]]].
    - cbn. split; [lia|]. split; lia.
    - cbn [filter map]. pose proof (weight_pos (fst (snd q))) as Hp. destruct (f q).
      + cbn [map length]. rewrite list_sum_cons, !wsum_cons. cbn [fst snd]. split; [lia|]. split; lia.
      + rewrite !wsum_cons. cbn [fst snd length]. split; [lia|]. split; lia.
  Qed.

  Lemma map_pair_wsum : forall (g : expr F -> expr F * nat) ops,
    wsum (map (fun q : bool * (expr F * (expr F * nat)) => (fst q, fst (snd q))) (map (fun p => (fst p, (snd p, g (snd p)))) ops)) = wsum ops.
  Proof. intros. unfold wsum. rewrite !map_map. reflexivity. Qed.

  Lemma eliminate_zeros_lighter : forall e, lighter (weight e) (weight (fst (eliminate_zeros e))) (snd (eliminate_zeros e)).
  Proof.
    intro e. induction e as [k c|x|ops IH|ops IH|e IH|e n IH|b e IHb IHe|k e IH|e IH] using expr_rect';
      try (cbn [eliminate_zeros fst snd]; split; lia).
    - cbn [eliminate_zeros].
      set (l := map (fun p => (fst p, (snd p, eliminate_zeros (snd p)))) ops).
      assert (Hl : Forall (fun q => lighter (weight (fst (snd q))) (weight (fst (snd (snd q)))) (snd (snd (snd q)))) l).
      { unfold l. rewrite Forall_map. cbn [fst snd]. exact IH. }
      assert (Hw : wsum (map (fun q => (fst q, fst (snd q))) l) = wsum ops) by apply map_pair_wsum.
      assert (Hlen : length l = length ops) by apply map_length.
      destruct (1 <? length ops)%nat eqn:E1.
      + apply Nat.ltb_lt in E1.
        set (f := fun q : bool * (expr F * (expr F * nat)) => negb (evals_to 0 (fst (snd q)))).
        destruct (kept_lighter f l Hl) as [K1 [K2 K3]]. rewrite Hw, Hlen in *.
        destruct (filter f l) as [|q kept] eqn:Ek.
        * cbn [fst snd]. rewrite !weight_Sum. pose proof (wsum_length ops). cbn [wsum map list_sum weight zero_node].
          change (wsum [(true, zero_node)]) with 1%nat. split; lia.
        * rewrite <- Ek in *. cbn [fst snd]. rewrite !weight_Sum. split; [lia|]. intro Hc. specialize (K1 Hc). lia.
      + cbn [fst snd]. rewrite !weight_Sum.
        assert (G : lighter (wsum ops) (wsum (map (fun q : bool * (expr F * (expr F * nat)) => (fst q, fst (snd (snd q)))) l))
          (list_sum (map (fun q => snd (snd (snd q))) l))).
        { destruct (kept_lighter (fun _ => true) l Hl) as [K1 [K2 K3]].
          assert (Ef : filter (fun _ => true) l = l) by (clear; induction l as [|a l IHl]; [reflexivity|cbn; f_equal; assumption]).
          rewrite Ef, Hw in *. split; [lia|]. intro Hc. apply K1. lia. }
        destruct G as [G1 G2]. split; [lia|]. intro Hc. specialize (G2 Hc). lia.
    - cbn [eliminate_zeros]. destruct (existsb _ ops) eqn:Ee.
      + cbn [fst snd]. rewrite !weight_Mul. pose proof (wsum_length ops).
        change (wsum [(true, zero_node)]) with 1%nat.
        assert (1 <= length ops)%nat by (destruct ops; [discriminate|cbn; lia]). split; lia.
      + cbn [fst snd]. rewrite !weight_Mul.
        assert (G : lighter (wsum ops) (wsum (map (fun q => (fst q, fst (snd q))) (map (fun p => (fst p, eliminate_zeros (snd p))) ops)))
          (list_sum (map (fun q => snd (snd q)) (map (fun p => (fst p, eliminate_zeros (snd p))) ops)))).
        { apply lighter_list. clear Ee. induction IH; cbn [map]; constructor; [|assumption]. split; [reflexivity|]. assumption. }
        destruct G as [G1 G2]. split; [lia|]. intro Hc. specialize (G2 Hc). lia.
  Qed.

  Lemma eliminate_ones_lighter : forall e, lighter (weight e) (weight (fst (eliminate_ones e))) (snd (eliminate_ones e)).
  Proof.
    intro e. induction e as [k c|x|ops IH|ops IH|e IH|e n IH|b e IHb IHe|k e IH|e IH] using expr_rect';
      try (cbn [eliminate_ones fst snd]; split; lia).
    - cbn [eliminate_ones]. cbn [fst snd]. rewrite !weight_Sum.
      assert (G : lighter (wsum ops) (wsum (map (fun q => (fst q, fst (snd q))) (map (fun p => (fst p, eliminate_ones (snd p))) ops)))
        (list_sum (map (fun q => snd (snd q)) (map (fun p => (fst p, eliminate_ones (snd p))) ops)))).
      { apply lighter_list. induction IH; cbn [map]; constructor; [|assumption]. split; [reflexivity|]. assumption. }
      destruct G as [G1 G2]. split; [lia|]. intro Hc. specialize (G2 Hc). lia.
    - cbn [eliminate_ones].
      set (l := map (fun p => (fst p, (snd p, eliminate_ones (snd p)))) ops).
      assert (Hl : Forall (fun q => lighter (weight (fst (snd q))) (weight (fst (snd (snd q)))) (snd (snd (snd q)))) l).
      { unfold l. rewrite Forall_map. cbn [fst snd]. exact IH. }
      assert (Hw : wsum (map (fun q => (fst q, fst (snd q))) l) = wsum ops) by apply map_pair_wsum.
      assert (Hlen : length l = length ops) by apply map_length.
      destruct (1 <? length ops)%nat eqn:E1.
      + apply Nat.ltb_lt in E1.
        set (f := fun q : bool * (expr F * (expr F * nat)) => negb (evals_to 1 (fst (snd q)))).
        destruct (kept_lighter f l Hl) as [K1 [K2 K3]]. rewrite Hw, Hlen in *.
        destruct (filter f l) as [|q kept] eqn:Ek.
        * clear Ek. destruct l as [|q0 l]; [split; cbn; lia|]. cbn [fst snd]. rewrite !weight_Mul.
          inversion Hl as [|? ? [Hq _] Hr]; subst. pose proof (wsum_length (map (fun q => (fst q, fst (snd q))) l)) as Hk.
          rewrite map_length in Hk. cbn [map] in Hw. rewrite wsum_cons in Hw. cbn [snd] in Hw. cbn [length] in Hlen.
          rewrite wsum_cons. cbn [snd]. change (wsum []) with O. split; lia.
        * rewrite <- Ek in *. cbn [fst snd]. rewrite !weight_Mul. split; [lia|]. intro Hc. specialize (K1 Hc). lia.
      + cbn [fst snd]. rewrite !weight_Mul.
        assert (G : lighter (wsum ops) (wsum (map (fun q : bool * (expr F * (expr F * nat)) => (fst q, fst (snd (snd q)))) l))
          (list_sum (map (fun q => snd (snd (snd q))) l))).
        { destruct (kept_lighter (fun _ => true) l Hl) as [K1 [K2 K3]].
          assert (Ef : filter (fun _ => true) l = l) by (clear; induction l as [|a l IHl]; [reflexivity|cbn; f_equal; assumption]).
          rewrite Ef, Hw in *. split; [lia|]. intro Hc. apply K1. lia. }
        destruct G as [G1 G2]. split; [lia|]. intro Hc. specialize (G2 Hc). lia.
  Qed.

  Lemma round_lighter : forall fuel e r, round fuel e = Some r -> lighter (weight e) (weight (fst r)) (snd r).
  Proof.
    intros fuel e r H. unfold round in H. destruct (reduce_depth fuel e) as [[e1 c1]|] eqn:E; [|discriminate].
    injection H as <-. cbn [fst snd]. apply reduce_depth_lighter in E. cbn [fst snd] in E.
    eapply lighter_trans; [eapply lighter_trans; [exact E|]|].
    - apply eliminate_ones_lighter.
    - apply eliminate_zeros_lighter.
  Qed.

  (** Simplify returns on every tree *)
  Theorem simplify_terminates : forall fuel e, (weight e < fuel)%nat -> exists e', simplify fuel e = Some e'.
  Proof.
    induction fuel as [|fuel IH]; intros e H; [lia|].
    cbn [simplify]. unfold round at 1. destruct (reduce_depth_total (S fuel) e) as [[e1 c1] Hr]; [lia|]. 
    assert (Hround : round (S fuel) e = Some (fst (eliminate_zeros (fst (eliminate_ones e1))),
      c1 + snd (eliminate_ones e1) + snd (eliminate_zeros (fst (eliminate_ones e1))))%nat) by (unfold round; rewrite Hr; reflexivity).
    rewrite Hr. cbv zeta. pose proof (round_lighter _ _ _ Hround) as [_ G]. cbn [fst snd] in G.
    destruct (c1 + _ + _)%nat eqn:Ec; [eexists; reflexivity|]. apply IH. specialize (G ltac:(discriminate)). lia.
  Qed.

  (** *** Values.  [rho] is a later evaluation point. *)
  Variable rho : env F.

  (** an operand which is 0 (resp. 1) at the point of simplification is 0 (resp. 1) at the later point *)
  Definition linked (a0 a : F) : Prop := (a0 = 0 -> a = 0) /\ (a0 = 1 -> a = 1).

  Fixpoint sumF (l : list (bool * F)) : F :=
    match l with [] => 0 | (s, x) :: r => (if s then x else - x) + sumF r end.
  Fixpoint prodF (l : list (bool * F)) : option F :=
    match l with
    | [] => Some 1
    | (m, x) :: r => match prodF r with
                     | Some y => if m then Some (x * y) else if feq_dec x 0 then None else Some (y / x)
                     | None => None end
    end.

  (** values of operands at both points *)
  Definition vals := list (bool * (F * F)).
  Definition v0 (l : vals) : list (bool * F) := map (fun q => (fst q, fst (snd q))) l.
  Definition v1 (l : vals) : list (bool * F) := map (fun q => (fst q, snd (snd q))) l.

  (** the tree has values [y0] and [y] at the two points, and operands of sums and products are linked *)
  Inductive good : expr F -> F -> F -> Prop :=
  | g_sum : forall ops vl, Forall2 (fun p q => fst p = fst q /\ good (snd p) (fst (snd q)) (snd (snd q))
              /\ linked (fst (snd q)) (snd (snd q))) ops vl -> good (Sum ops) (sumF (v0 vl)) (sumF (v1 vl))
  | g_mul : forall ops vl y0 y, Forall2 (fun p q => fst p = fst q /\ good (snd p) (fst (snd q)) (snd (snd q))
              /\ linked (fst (snd q)) (snd (snd q))) ops vl ->
              prodF (v0 vl) = Some y0 -> prodF (v1 vl) = Some y -> good (Mul ops) y0 y
  | g_leaf : forall e y0 y, match e with Sum _ | Mul _ => False | _ => True end ->
              eval fs rho0 e = Some y0 -> eval fs rho e = Some y -> good e y0 y.

  Definition glist (ops : list (bool * expr F)) (vl : vals) : Prop :=
    Forall2 (fun p q => fst p = fst q /\ good (snd p) (fst (snd q)) (snd (snd q))
      /\ linked (fst (snd q)) (snd (snd q))) ops vl.

  Lemma sum_val_sumF : forall l, sum_val (map (fun q => (fst q, Some (snd q))) l) = Some (sumF l).
  Proof. induction l as [|[s x] l IH]; [reflexivity|]. cbn [map fst snd sum_val]. rewrite IH. reflexivity. Qed.

  Lemma mul_val_prodF : forall l, mul_val (map (fun q => (fst q, Some (snd q))) l) = prodF l.
  Proof. induction l as [|[s x] l IH]; [reflexivity|]. cbn [map fst snd mul_val prodF]. rewrite IH. reflexivity. Qed.

  (** the values are those of the evaluator *)
  Lemma good_eval : forall e y0 y, good e y0 y -> eval fs rho0 e = Some y0 /\ eval fs rho e = Some y.
  Proof.
    intro e. induction e as [k c|x|ops IH|ops IH|e IH|e n IH|b e IHb IHe|k e IH|e IH] using expr_rect';
      intros y0 y H; inversion H; subst; try (split; assumption); try contradiction.
    - cbn [eval]. rewrite <- !sum_val_sumF.
      assert (E : map (fun p => (fst p, eval fs rho0 (snd p))) ops = map (fun q => (fst q, Some (snd q))) (v0 vl)
               /\ map (fun p => (fst p, eval fs rho (snd p))) ops = map (fun q => (fst q, Some (snd q))) (v1 vl)).
      { clear H. match goal with HF : Forall2 _ _ _ |- _ => revert HF end. clear - IH. intro HF.
        induction HF as [|p q ops vl [H1 [H2 _]] HF IHF]; [split; reflexivity|].
        inversion IH as [|? ? IHp IHops]; subst. destruct (IHF IHops) as [E1 E2]. destruct (IHp _ _ H2) as [G1 G2].
        cbn [map v0 v1 fst snd]. rewrite G1, G2, E1, E2, H1. split; reflexivity. }
      destruct E as [-> ->]. split; reflexivity.
    - cbn [eval]. 
      assert (E : map (fun p => (fst p, eval fs rho0 (snd p))) ops = map (fun q => (fst q, Some (snd q))) (v0 vl)
               /\ map (fun p => (fst p, eval fs rho (snd p))) ops = map (fun q => (fst q, Some (snd q))) (v1 vl)).
      { clear H. match goal with HF : Forall2 _ _ _ |- _ => revert HF end. clear - IH. intro HF.
        induction HF as [|p q ops vl [H1 [H2 _]] HF IHF]; [split; reflexivity|].
        inversion IH as [|? ? IHp IHops]; subst. destruct (IHF IHops) as [E1 E2]. destruct (IHp _ _ H2) as [G1 G2].
        cbn [map v0 v1 fst snd]. rewrite G1, G2, E1, E2, H1. split; reflexivity. }
      destruct E as [-> ->]. rewrite !mul_val_prodF. split; assumption.
  Qed.

  Lemma evals_to_good : forall c e a0 a, good e a0 a -> evals_to c e = feqb a0 c.
  Proof. intros c e a0 a H. unfold evals_to. destruct (good_eval _ _ _ H) as [-> _]. reflexivity. Qed.

  (** **** sums and products of lists *)
  Lemma sumF_app : forall a b, sumF (a ++ b) = sumF a + sumF b.
  Proof. induction a as [|[s x] a IH]; intro b; cbn [app sumF]; [ring|]. rewrite IH. ring. Qed.

  Lemma prodF_app : forall a b x y, prodF a = Some x -> prodF b = Some y -> prodF (a ++ b) = Some (x * y).
  Proof.
    induction a as [|[s u] a IH]; intros b x y Ha Hb; cbn [app prodF] in *.
    - injection Ha as <-. rewrite Hb. f_equal. ring.
    - destruct (prodF a) as [z|] eqn:E; [|discriminate]. rewrite (IH _ _ _ eq_refl Hb).
      destruct s; [injection Ha as <-; f_equal; ring|]. destruct (feq_dec u 0); [discriminate|].
      injection Ha as <-. f_equal. field. assumption.
  Qed.

  Lemma sumF_xnor : forall s l, sumF (map (fun q => (xnor (fst q) s, snd q)) l) = if s then sumF l else - sumF l.
  Proof.
    intros s l. induction l as [|[t x] l IH]; cbn [map sumF fst snd].
    - destruct s; ring.
    - rewrite IH. destruct s, t; cbn [xnor xorb negb]; ring.
  Qed.

  Lemma prodF_xnor : forall s l x, prodF l = Some x -> (s = false -> x <> 0) ->
    prodF (map (fun q => (xnor (fst q) s, snd q)) l) = Some (if s then x else 1 / x).
  Proof.
    intros s l. induction l as [|[t u] l IH]; intros x H Hs; cbn [map prodF fst snd] in *.
    - injection H as <-. destruct s; [reflexivity|]. f_equal. field. apply f1_neq_f0.
    - destruct (prodF l) as [z|] eqn:E; [|discriminate].
      assert (Hz : s = false -> z <> 0 /\ (t = true -> u <> 0)).
      { intro Es. specialize (Hs Es). destruct t.
        - injection H as <-. split; [intros ->; apply Hs; ring|]. intros _ ->. apply Hs. ring.
        - destruct (feq_dec u 0); [discriminate|]. injection H as <-. split; [|discriminate]. intros ->. apply Hs. field. assumption. }
      rewrite (IH z eq_refl) by (intro Es; apply (Hz Es)).
      destruct s, t; cbn [xnor xorb negb].
      + exact H.
      + exact H.
      + injection H as <-. destruct (Hz eq_refl) as [Hz1 Hz2]. specialize (Hz2 eq_refl).
        destruct (feq_dec u 0); [contradiction|]. f_equal. field. auto.
      + destruct (feq_dec u 0) as [|Hu]; [discriminate|]. injection H as <-. destruct (Hz eq_refl) as [Hz1 _]. f_equal. field. auto.
  Qed.

  Lemma v0_xnor : forall s (l : vals), v0 (map (fun q => (xnor (fst q) s, snd q)) l) = map (fun q => (xnor (fst q) s, snd q)) (v0 l).
  Proof. intros. unfold v0. rewrite !map_map. reflexivity. Qed.
  Lemma v1_xnor : forall s (l : vals), v1 (map (fun q => (xnor (fst q) s, snd q)) l) = map (fun q => (xnor (fst q) s, snd q)) (v1 l).
  Proof. intros. unfold v1. rewrite !map_map. reflexivity. Qed.
  Lemma v0_app : forall a b, v0 (a ++ b) = v0 a ++ v0 b.
  Proof. intros. apply map_app. Qed.
  Lemma v1_app : forall a b, v1 (a ++ b) = v1 a ++ v1 b.
  Proof. intros. apply map_app. Qed.

  Lemma glist_xnor : forall s ops vl, glist ops vl ->
    glist (map (fun q => (xnor (fst q) s, snd q)) ops) (map (fun q => (xnor (fst q) s, snd q)) vl).
  Proof.
    intros s ops vl H. induction H as [|p q ops vl [H1 H2] H IH]; [constructor|]. cbn [map]. constructor; [|exact IH].
    cbn [fst snd]. rewrite H1. split; [reflexivity|exact H2].
  Qed.

  (** **** the four folds *)
  Lemma sum_reduce_sums_good : forall ops vl, glist ops vl ->
    exists vl', glist (fst (sum_reduce_sums ops)) vl' /\ sumF (v0 vl') = sumF (v0 vl) /\ sumF (v1 vl') = sumF (v1 vl).
  Proof.
    unfold sum_reduce_sums. cbn [fst]. intros ops vl H.
    induction H as [|[s e] [s' [a0 a]] ops vl [H1 [H2 H3]] H [vl' [IH1 [IH2 IH3]]]]; [exists []; repeat split; constructor|].
    cbn [fst snd] in *. subst s'. cbn [flat_map snd fst].
    assert (Keep : exists vl'', glist ([(s, e)] ++ flat_map (fun p => match snd p with Sum sub => map (fun q => (xnor (fst q) (fst p), snd q)) sub | _ => [p] end) ops) vl''
        /\ sumF (v0 vl'') = sumF (v0 ((s, (a0, a)) :: vl)) /\ sumF (v1 vl'') = sumF (v1 ((s, (a0, a)) :: vl))).
    { exists ((s, (a0, a)) :: vl'). split; [|split].
      - cbn [app]. constructor; [|exact IH1]. cbn [fst snd]. auto.
      - cbn [v0 map fst snd sumF]. fold (v0 vl') (v0 vl). rewrite IH2. reflexivity.
      - cbn [v1 map fst snd sumF]. fold (v1 vl') (v1 vl). rewrite IH3. reflexivity. }
    destruct e as [k c|x|sub|sub|e|e n|b e|k e|e]; try exact Keep. clear Keep.
    inversion H2 as [? vs Hvs| |]; subst; [|contradiction].
    exists (map (fun q => (xnor (fst q) s, snd q)) vs ++ vl'). split; [|split].
    - apply Forall2_app; [|exact IH1]. apply glist_xnor. exact Hvs.
    - rewrite v0_app, v0_xnor, sumF_app, sumF_xnor, IH2. cbn [v0 map fst snd sumF]. reflexivity.
    - rewrite v1_app, v1_xnor, sumF_app, sumF_xnor, IH3. cbn [v1 map fst snd sumF]. reflexivity.
  Qed.

  Lemma prodF_single : forall x y, prodF [(true, x)] = Some y -> x = y.
  Proof. intros x y H. cbn in H. injection H as <-. ring. Qed.

  Lemma sum_reduce_mults_good : forall ops vl, glist ops vl -> glist (fst (sum_reduce_mults ops)) vl.
  Proof.
    unfold sum_reduce_mults. cbn [fst]. intros ops vl H.
    induction H as [|[s e] [s' [a0 a]] ops vl [H1 [H2 H3]] H IH]; [constructor|].
    cbn [fst snd] in *. subst s'. cbn [map fst snd]. constructor; [|exact IH]. cbn [fst snd].
    destruct e as [k c|x|sub|sub|e|e n|b e|k e|e]; cbn [fst snd]; try (split; [reflexivity|split; assumption]).
    destruct sub as [|[[|] x] [|p sub]]; cbn [fst snd]; try (split; [reflexivity|split; assumption]).
    split; [reflexivity|]. split; [|assumption].
    inversion H2 as [|? vs ? ? Hvs P0 P1|]; subst; [|contradiction].
    inversion Hvs as [|? q ? ? [G1 [G2 _]] Hnil]; subst. inversion Hnil; subst.
    cbn [v0 v1 map] in P0, P1. cbn [fst] in G1. destruct q as [m [b0 b]]. cbn [fst snd] in *. subst m.
    apply prodF_single in P0. apply prodF_single in P1. subst. exact G2.
  Qed.

  Lemma mul_reduce_sums_good : forall ops vl, glist ops vl -> glist (fst (mul_reduce_sums ops)) vl.
  Proof.
    unfold mul_reduce_sums. cbn [fst]. intros ops vl H.
    induction H as [|[s e] [s' [a0 a]] ops vl [H1 [H2 H3]] H IH]; [constructor|].
    cbn [fst snd] in *. subst s'. cbn [map fst snd]. constructor; [|exact IH]. cbn [fst snd].
    destruct e as [k c|x|sub|sub|e|e n|b e|k e|e]; cbn [fst snd]; try (split; [reflexivity|split; assumption]).
    destruct sub as [|[t x] [|p sub]]; try (destruct t); cbn [fst snd]; try (split; [reflexivity|split; assumption]).
    - split; [reflexivity|]. split; [|assumption].
      inversion H2 as [? vs Hvs| |]; subst; [|contradiction].
      inversion Hvs as [|? q ? ? [G1 [G2 _]] Hnil]; subst. inversion Hnil; subst.
      destruct q as [m [b0 b]]. cbn [fst snd] in *. subst m. cbn [v0 v1 map sumF fst snd].
      replace (b0 + 0) with b0 by ring. replace (b + 0) with b by ring. exact G2.
    - split; [reflexivity|]. split; [|assumption].
      inversion H2 as [? vs Hvs| |]; subst; [|contradiction].
      inversion Hvs as [|? q ? ? [G1 [G2 _]] Hnil]; subst. inversion Hnil; subst.
      destruct q as [m [b0 b]]. cbn [fst snd] in *. subst m. cbn [v0 v1 map sumF fst snd].
      destruct (good_eval _ _ _ G2) as [E0 E1]. apply g_leaf; [exact I| |]; cbn [eval].
      + rewrite E0. f_equal. ring.
      + rewrite E1. f_equal. ring.
  Qed.

  Lemma mul_reduce_mults_good : forall ops vl, glist ops vl ->
    forall y0 y, prodF (v0 vl) = Some y0 -> prodF (v1 vl) = Some y ->
    exists vl', glist (fst (mul_reduce_mults ops)) vl' /\ prodF (v0 vl') = Some y0 /\ prodF (v1 vl') = Some y.
  Proof.
    unfold mul_reduce_mults. cbn [fst]. intros ops vl H.
    induction H as [|[s e] [s' [a0 a]] ops vl [H1 [H2 H3]] H IH]; intros y0 y P0 P1.
    { exists []. repeat split; [constructor|assumption|assumption]. }
    cbn [fst snd] in *. subst s'. cbn [v0 v1 map fst snd prodF] in P0, P1. fold (v0 vl) in P0. fold (v1 vl) in P1.
    destruct (prodF (v0 vl)) as [z0|] eqn:Z0; [|discriminate]. destruct (prodF (v1 vl)) as [z|] eqn:Z1; [|discriminate].
    destruct (IH z0 z eq_refl eq_refl) as [vl' [IH1 [IH2 IH3]]]. cbn [flat_map snd fst].
    assert (Keep : exists vl'', glist ([(s, e)] ++ flat_map (fun p => match snd p with Mul sub => map (fun q => (xnor (fst q) (fst p), snd q)) sub | _ => [p] end) ops) vl''
        /\ prodF (v0 vl'') = Some y0 /\ prodF (v1 vl'') = Some y).
    { exists ((s, (a0, a)) :: vl'). split; [|split].
      - cbn [app]. constructor; [|exact IH1]. cbn [fst snd]. auto.
      - cbn [v0 map fst snd prodF]. fold (v0 vl'). rewrite IH2. exact P0.
      - cbn [v1 map fst snd prodF]. fold (v1 vl'). rewrite IH3. exact P1. }
    destruct e as [k c|x|sub|sub|e|e n|b e|k e|e]; try exact Keep. clear Keep.
    inversion H2 as [|? vs ? ? Hvs Q0 Q1|]; subst; [|contradiction].
    exists (map (fun q => (xnor (fst q) s, snd q)) vs ++ vl'). split; [|split].
    - apply Forall2_app; [|exact IH1]. apply glist_xnor. exact Hvs.
    - rewrite v0_app, v0_xnor. destruct s.
      + rewrite (prodF_app _ _ a0 z0); [assumption| |assumption]. apply (prodF_xnor true); [assumption|discriminate].
      + destruct (feq_dec a0 0) as [|N]; [discriminate|]. rewrite (prodF_app _ _ (1 / a0) z0); [|apply (prodF_xnor false); [assumption|intros; assumption]|assumption].
        injection P0 as <-. f_equal. field. assumption.
    - rewrite v1_app, v1_xnor. destruct s.
      + rewrite (prodF_app _ _ a z); [assumption| |assumption]. apply (prodF_xnor true); [assumption|discriminate].
      + destruct (feq_dec a 0) as [|N]; [discriminate|]. rewrite (prodF_app _ _ (1 / a) z); [|apply (prodF_xnor false); [assumption|intros; assumption]|assumption].
        injection P1 as <-. f_equal. field. assumption.
  Qed.

  (** **** the passes *)
  Lemma glist_results : forall (g : expr F -> expr F * nat) ops vl,
    Forall (fun p => forall y0 y, good (snd p) y0 y -> good (fst (g (snd p))) y0 y) ops -> glist ops vl ->
    glist (map (fun q : bool * (expr F * nat) => (fst q, fst (snd q))) (map (fun p => (fst p, g (snd p))) ops)) vl.
  Proof.
    intros g ops vl HI H. induction H as [|p q ops vl [H1 [H2 H3]] H IH]; [constructor|].
    inversion HI as [|? ? Hp Hops]; subst. cbn [map fst snd]. constructor; [|apply IH; assumption]. cbn [fst snd].
    split; [assumption|]. split; [apply Hp; assumption|assumption].
  Qed.

  Lemma glist_kept : forall c (g : expr F -> expr F * nat) ops vl,
    Forall (fun p => forall y0 y, good (snd p) y0 y -> good (fst (g (snd p))) y0 y) ops -> glist ops vl ->
    glist (map (fun q : bool * (expr F * (expr F * nat)) => (fst q, fst (snd (snd q))))
             (filter (fun q => negb (evals_to c (fst (snd q)))) (map (fun p => (fst p, (snd p, g (snd p)))) ops)))
          (filter (fun q => negb (feqb (fst (snd q)) c)) vl).
  Proof.
    intros c g ops vl HI H. induction H as [|p q ops vl [H1 [H2 H3]] H IH]; [constructor|].
    inversion HI as [|? ? Hp Hops]; subst. cbn [map filter fst snd]. rewrite (evals_to_good c _ _ _ H2).
    destruct (feqb (fst (snd q)) c); cbn [negb]; [apply IH; assumption|]. cbn [map fst snd]. constructor; [|apply IH; assumption].
    cbn [fst snd]. split; [assumption|]. split; [apply Hp; assumption|assumption].
  Qed.

  Lemma glist_linked : forall ops vl, glist ops vl -> Forall (fun q => linked (fst (snd q)) (snd (snd q))) vl.
  Proof. intros ops vl H. induction H as [|p q ops vl [_ [_ H3]] H IH]; constructor; assumption. Qed.

  Lemma sumF_filter : forall vl, Forall (fun q => linked (fst (snd q)) (snd (snd q))) vl ->
    sumF (v0 (filter (fun q => negb (feqb (fst (snd q)) 0)) vl)) = sumF (v0 vl) /\
    sumF (v1 (filter (fun q => negb (feqb (fst (snd q)) 0)) vl)) = sumF (v1 vl).
  Proof.
    intros vl H. induction H as [|[s [a0 a]] vl [L0 _] H [IH1 IH2]]; [split; reflexivity|]. cbn [filter fst snd].
    destruct (feqb a0 0) eqn:E; cbn [negb].
    - apply feqb_eq in E. cbn [fst snd] in L0. specialize (L0 E). subst.
      cbn [v0 v1 map fst snd sumF]. rewrite IH1, IH2. unfold v0, v1. destruct s; split; ring.
    - cbn [v0 v1 map fst snd sumF] in *. unfold v0, v1 in *. rewrite IH1, IH2. split; reflexivity.
  Qed.

  Lemma prodF_filter : forall vl, Forall (fun q => linked (fst (snd q)) (snd (snd q))) vl ->
    forall y0 y, prodF (v0 vl) = Some y0 -> prodF (v1 vl) = Some y ->
    prodF (v0 (filter (fun q => negb (feqb (fst (snd q)) 1)) vl)) = Some y0 /\
    prodF (v1 (filter (fun q => negb (feqb (fst (snd q)) 1)) vl)) = Some y.
  Proof.
    intros vl H. induction H as [|[s [a0 a]] vl [_ L1] H IH]; intros y0 y P0 P1; [split; assumption|]. cbn [filter fst snd].
    cbn [v0 v1 map fst snd prodF] in P0, P1. fold (v0 vl) in P0. fold (v1 vl) in P1.
    destruct (prodF (v0 vl)) as [z0|] eqn:Z0; [|discriminate]. destruct (prodF (v1 vl)) as [z|] eqn:Z1; [|discriminate].
    destruct (IH _ _ eq_refl eq_refl) as [IH1 IH2].
    destruct (feqb a0 1) eqn:E; cbn [negb].
    - apply feqb_eq in E. cbn [fst snd] in L1. specialize (L1 E). subst. rewrite IH1, IH2.
      destruct (feq_dec 1 0) as [E|E]; [destruct (f1_neq_f0 E)|]. destruct s.
      + injection P0 as <-. injection P1 as <-. split; f_equal; ring.
      + injection P0 as <-. injection P1 as <-. split; f_equal; field; assumption.
    - cbn [v0 v1 map fst snd prodF] in *. unfold v0, v1 in *. rewrite IH1, IH2. split; assumption.
  Qed.

  Lemma linked_0 : linked 0 0.
  Proof. split; intro H; [reflexivity|exact H]. Qed.

  Lemma prodF_zero : forall l y, prodF l = Some y -> In (true, 0) l \/ (exists m, In (m, 0) l) -> y = 0.
  Proof.
    intros l y H Hin. assert (G : exists m, In (m, 0) l) by (destruct Hin; [eexists; eassumption|assumption]). clear Hin.
    revert y H. induction l as [|[m x] l IH]; intros y H; [destruct G as [? []]|]. cbn [prodF] in H.
    destruct (prodF l) as [z|] eqn:E; [|discriminate]. destruct G as [m' [Hin|Hin]].
    - injection Hin as -> ->. destruct m'; [injection H as <-; ring|]. destruct (feq_dec 0 0); [discriminate|congruence].
    - assert (z = 0) by (apply (IH (ex_intro _ m' Hin)); reflexivity). subst z.
      destruct m; [injection H as <-; ring|]. destruct (feq_dec x 0); [discriminate|]. injection H as <-. field. assumption.
  Qed.

  Lemma good_zero_sum : good (Sum [(true, zero_node)]) 0 0.
  Proof.
    replace (good (Sum [(true, zero_node)]) 0 0) with (good (Sum [(true, zero_node)]) (sumF (v0 [(true, (0, 0))])) (sumF (v1 [(true, (0, 0))]))).
    - apply g_sum. constructor; [|constructor]. cbn [fst snd]. split; [reflexivity|]. split; [|apply linked_0].
      apply g_leaf; [exact I|reflexivity|reflexivity].
    - f_equal; cbn; ring.
  Qed.

  Lemma good_zero_mul : good (Mul [(true, zero_node)]) 0 0.
  Proof.
    apply (g_mul _ [(true, (0, 0))]).
    - constructor; [|constructor]. cbn [fst snd]. split; [reflexivity|]. split; [|apply linked_0].
      apply g_leaf; [exact I|reflexivity|reflexivity].
    - cbn. f_equal. ring.
    - cbn. f_equal. ring.
  Qed.

  Lemma eliminate_zeros_good : forall e y0 y, good e y0 y -> good (fst (eliminate_zeros e)) y0 y.
  Proof.
    intro e. induction e as [k c|x|ops IH|ops IH|e IH|e n IH|b e IHb IHe|k e IH|e IH] using expr_rect';
      intros y0 y H; try exact H.
    - inversion H as [? vl Hvl| |]; subst; [|contradiction]. cbn [eliminate_zeros]. destruct (1 <? length ops)%nat.
      + pose proof (glist_kept 0 eliminate_zeros ops vl IH Hvl) as G.
        destruct (sumF_filter vl (glist_linked _ _ Hvl)) as [S0 S1].
        destruct (filter (fun q => negb (evals_to 0 (fst (snd q)))) (map (fun p => (fst p, (snd p, eliminate_zeros (snd p)))) ops)) as [|q kept] eqn:Ek.
        * cbn [map] in G. assert (E : filter (fun q => negb (feqb (fst (snd q)) 0)) vl = []) by (inversion G; reflexivity). rewrite E in S0, S1. cbn [fst]. rewrite <- S0, <- S1. exact good_zero_sum.
        * rewrite <- Ek in *. cbn [fst]. rewrite <- S0, <- S1. apply g_sum. exact G.
      + cbn [fst].
        assert (G : glist (map (fun q : bool * (expr F * nat) => (fst q, fst (snd q))) (map (fun p => (fst p, eliminate_zeros (snd p))) ops)) vl)
          by (apply glist_results; assumption).
        rewrite !map_map in *. cbn [fst snd] in *. apply g_sum. exact G.
    - inversion H as [|? vl ? ? Hvl P0 P1|]; subst; [|contradiction]. cbn [eliminate_zeros].
      destruct (existsb (fun p => evals_to 0 (snd p)) ops) eqn:Ee.
      + cbn [fst]. assert (Hz : exists m, In (m, 0) (v0 vl) /\ In (m, 0) (v1 vl)).
        { clear P0 P1 H IH. induction Hvl as [|p q ops vl [H1 [H2 H3]] Hvl IHv]; [discriminate|]. cbn [existsb] in Ee.
          rewrite (evals_to_good 0 _ _ _ H2) in Ee. apply orb_true_iff in Ee. destruct Ee as [Ee|Ee].
          - apply feqb_eq in Ee. exists (fst q). destruct H3 as [L _]. specialize (L Ee). split; left; [rewrite Ee|rewrite L]; reflexivity.
          - destruct (IHv Ee) as [m [G0 G1]]. exists m. split; right; assumption. }
        destruct Hz as [m [Z0 Z1]]. rewrite (prodF_zero _ _ P0 (or_intror (ex_intro _ m Z0))), (prodF_zero _ _ P1 (or_intror (ex_intro _ m Z1))).
        exact good_zero_mul.
      + cbn [fst]. apply (g_mul _ vl); [|assumption|assumption]. apply glist_results; assumption.
  Qed.

  Lemma eliminate_ones_good : forall e y0 y, good e y0 y -> good (fst (eliminate_ones e)) y0 y.
  Proof.
    intro e. induction e as [k c|x|ops IH|ops IH|e IH|e n IH|b e IHb IHe|k e IH|e IH] using expr_rect';
      intros y0 y H; try exact H.
    - inversion H as [? vl Hvl| |]; subst; [|contradiction]. cbn [eliminate_ones fst]. apply g_sum. apply glist_results; assumption.
    - inversion H as [|? vl ? ? Hvl P0 P1|]; subst; [|contradiction]. cbn [eliminate_ones]. destruct (1 <? length ops)%nat.
      + pose proof (glist_kept 1 eliminate_ones ops vl IH Hvl) as G.
        destruct (prodF_filter vl (glist_linked _ _ Hvl) y0 y P0 P1) as [S0 S1].
        destruct (filter (fun q => negb (evals_to 1 (fst (snd q)))) (map (fun p => (fst p, (snd p, eliminate_ones (snd p)))) ops)) as [|q kept] eqn:Ek.
        * cbn [map] in G. assert (E : filter (fun q => negb (feqb (fst (snd q)) 1)) vl = []) by (inversion G; reflexivity). rewrite E in S0, S1. cbn in S0, S1. injection S0 as <-. injection S1 as <-.
          destruct Hvl as [|p q ops vl [H1 [H2 H3]] Hvl]; [cbn [map fst]; exact H|]. cbn [map fst snd].
          cbn [filter] in E. destruct (feqb (fst (snd q)) 1) eqn:E1; [|discriminate]. apply feqb_eq in E1.
          destruct H3 as [H30 H31]. specialize (H31 E1). inversion IH as [|? ? IHp _]; subst.
          apply (g_mul _ [q]).
          -- constructor; [|constructor]. cbn [fst snd]. split; [assumption|]. split; [apply IHp; assumption|]. split; [assumption|intros; assumption].
          -- cbn [v0 map prodF fst snd]. rewrite E1. destruct (fst q); [f_equal; ring|].
             destruct (feq_dec 1 0) as [E0|E0]; [destruct (f1_neq_f0 E0)|]. f_equal. field. assumption.
          -- cbn [v1 map prodF fst snd]. rewrite H31. destruct (fst q); [f_equal; ring|].
             destruct (feq_dec 1 0) as [E0|E0]; [destruct (f1_neq_f0 E0)|]. f_equal. field. assumption.
        * rewrite <- Ek in *. cbn [fst]. apply (g_mul _ _ _ _ G S0 S1).
      + cbn [fst].
        assert (G : glist (map (fun q : bool * (expr F * nat) => (fst q, fst (snd q))) (map (fun p => (fst p, eliminate_ones (snd p))) ops)) vl)
          by (apply glist_results; assumption).
        rewrite !map_map in *. cbn [fst snd] in *. apply (g_mul _ vl); assumption.
  Qed.

  Lemma reduce_depth_good : forall fuel e r y0 y, reduce_depth fuel e = Some r -> good e y0 y -> good (fst r) y0 y.
  Proof.
    induction fuel as [|fuel IH]; intros e r y0 y Hr H; [discriminate|].
    assert (Step : forall ops bs vl, map_opt (fun p => match reduce_depth fuel (snd p) with Some r => Some (fst p, r) | None => None end) ops = Some bs ->
      glist ops vl -> glist (map (fun q : bool * (expr F * nat) => (fst q, fst (snd q))) bs) vl).
    { intros ops bs vl Hb Hvl. apply map_opt_forall2 in Hb. revert vl Hvl.
      induction Hb as [|p q l l' Hpq _ IHl]; intros vl Hvl; [inversion Hvl; constructor|].
      inversion Hvl as [|? v ? vl' [H1 [H2 H3]] Hvl']; subst.
      destruct (reduce_depth fuel (snd p)) as [rr|] eqn:E; [|discriminate]. injection Hpq as <-. cbn [map fst snd].
      constructor; [|apply IHl; assumption]. cbn [fst snd]. split; [assumption|]. split; [|assumption]. eapply IH; eassumption. }
    cbn [reduce_depth] in Hr. destruct e as [k c|x|ops|ops|e|e n|b e|k e|e]; try (injection Hr as <-; exact H).
    - inversion H as [? vl Hvl| |]; subst; [|contradiction].
      destruct (sum_reduce_sums_good ops vl Hvl) as [vl' [G1 [<- <-]]]. apply sum_reduce_mults_good in G1.
      destruct (map_opt _ _) as [bs|] eqn:Eb in Hr; [|discriminate]. injection Hr as <-. cbn [fst].
      apply g_sum. exact (Step _ _ _ Eb G1).
    - inversion H as [|? vl ? ? Hvl P0 P1|]; subst; [|contradiction].
      pose proof (mul_reduce_sums_good ops vl Hvl) as G1.
      destruct (mul_reduce_mults_good _ _ G1 y0 y P0 P1) as [vl' [G2 [Q0 Q1]]].
      destruct (map_opt _ _) as [bs|] eqn:Eb in Hr; [|discriminate]. injection Hr as <-. cbn [fst].
      apply (g_mul _ vl'); [|assumption|assumption]. exact (Step _ _ _ Eb G2).
  Qed.

  Lemma simplify_good : forall fuel e e' y0 y, simplify fuel e = Some e' -> good e y0 y -> good e' y0 y.
  Proof.
    induction fuel as [|fuel IH]; intros e e' y0 y Hs H; [discriminate|].
    cbn [simplify] in Hs. destruct (round (S fuel) e) as [[e1 c]|] eqn:Er; [|discriminate].
    assert (G : good e1 y0 y).
    { unfold round in Er. destruct (reduce_depth (S fuel) e) as [[e2 c2]|] eqn:Ed; [|discriminate].
      injection Er as <- _. apply eliminate_zeros_good, eliminate_ones_good.
      exact (reduce_depth_good _ _ _ _ _ Ed H). }
    destruct c; [injection Hs as <-; exact G|]. eapply IH; eassumption.
  Qed.

  (** *** The condition in terms of the tree alone *)
  Inductive subtree (s : expr F) : expr F -> Prop :=
  | st_here : subtree s s
  | st_sum : forall ops m e, In (m, e) ops -> subtree s e -> subtree s (Sum ops)
  | st_mul : forall ops m e, In (m, e) ops -> subtree s e -> subtree s (Mul ops).

  Lemma sum_val_inv : forall l y, sum_val l = Some y -> exists l', l = map (fun q => (fst q, Some (snd q))) l' /\ sumF l' = y.
  Proof.
    induction l as [|[s [x|]] l IH]; intros y H; cbn [sum_val] in H; try discriminate.
    - injection H as <-. exists []. split; reflexivity.
    - destruct (sum_val l) as [z|]; [|discriminate]. injection H as <-. destruct (IH z eq_refl) as [l' [-> <-]].
      exists ((s, x) :: l'). split; reflexivity.
  Qed.

  Lemma good_of_eval : forall e,
    (forall s, subtree s e -> forall a0 a, eval fs rho0 s = Some a0 -> eval fs rho s = Some a -> linked a0 a) ->
    forall y0 y, eval fs rho0 e = Some y0 -> eval fs rho e = Some y -> good e y0 y.
  Proof.
    intro e. induction e as [k c|x|ops IH|ops IH|e IH|e n IH|b e IHb IHe|k e IH|e IH] using expr_rect';
      intros HL y0 y H0 H1; try (apply g_leaf; [exact I|assumption|assumption]).
    - assert (G : exists vl, glist ops vl /\ sumF (v0 vl) = y0 /\ sumF (v1 vl) = y).
      { assert (HL' : forall m e s, In (m, e) ops -> subtree s e -> forall a0 a, eval fs rho0 s = Some a0 -> eval fs rho s = Some a -> linked a0 a)
          by (intros m e s Hin Hs; apply HL; econstructor; eassumption).
        clear HL. cbn [eval] in H0, H1. revert y0 y H0 H1. induction IH as [|[m e] ops IHe IH IHl]; intros y0 y H0 H1.
        - cbn in H0, H1. injection H0 as <-. injection H1 as <-. exists []. repeat split; constructor.
        - cbn [map fst snd sum_val] in H0, H1.
          destruct (eval fs rho0 e) as [a0|] eqn:E0; [|discriminate]. destruct (eval fs rho e) as [a|] eqn:E1; [|discriminate].
          destruct (sum_val (map (fun p => (fst p, eval fs rho0 (snd p))) ops)) as [z0|]; [|discriminate].
          destruct (sum_val (map (fun p => (fst p, eval fs rho (snd p))) ops)) as [z|]; [|discriminate].
          destruct (IHl ltac:(intros m' e' s Hin; apply (HL' m' e' s); right; assumption) z0 z eq_refl eq_refl) as [vl [G1 [G2 G3]]].
          exists ((m, (a0, a)) :: vl). injection H0 as <-. injection H1 as <-. split; [|split].
          + constructor; [|assumption]. cbn [fst snd]. split; [reflexivity|]. split.
            * apply IHe; [|assumption|assumption]. intros s Hs. apply (HL' m e s); [left; reflexivity|assumption].
            * apply (HL' m e e); [left; reflexivity|constructor|assumption|assumption].
          + cbn [v0 map fst snd sumF]. fold (v0 vl). rewrite G2. reflexivity.
          + cbn [v1 map fst snd sumF]. fold (v1 vl). rewrite G3. reflexivity. }
      destruct G as [vl [G1 [<- <-]]]. apply g_sum. exact G1.
    - assert (G : exists vl, glist ops vl /\ prodF (v0 vl) = Some y0 /\ prodF (v1 vl) = Some y).
      { assert (HL' : forall m e s, In (m, e) ops -> subtree s e -> forall a0 a, eval fs rho0 s = Some a0 -> eval fs rho s = Some a -> linked a0 a)
          by (intros m e s Hin Hs; apply HL; econstructor; eassumption).
        clear HL. cbn [eval] in H0, H1. revert y0 y H0 H1. induction IH as [|[m e] ops IHe IH IHl]; intros y0 y H0 H1.
        - cbn in H0, H1. exists []. repeat split; [constructor|assumption|assumption].
        - cbn [map fst snd mul_val] in H0, H1.
          destruct (eval fs rho0 e) as [a0|] eqn:E0; [|discriminate]. destruct (eval fs rho e) as [a|] eqn:E1; [|discriminate].
          destruct (mul_val (map (fun p => (fst p, eval fs rho0 (snd p))) ops)) as [z0|]; [|discriminate].
          destruct (mul_val (map (fun p => (fst p, eval fs rho (snd p))) ops)) as [z|]; [|discriminate].
          destruct (IHl ltac:(intros m' e' s Hin; apply (HL' m' e' s); right; assumption) z0 z eq_refl eq_refl) as [vl [G1 [G2 G3]]].
          exists ((m, (a0, a)) :: vl). split; [|split].
          + constructor; [|assumption]. cbn [fst snd]. split; [reflexivity|]. split.
            * apply IHe; [|assumption|assumption]. intros s Hs. apply (HL' m e s); [left; reflexivity|assumption].
            * apply (HL' m e e); [left; reflexivity|constructor|assumption|assumption].
          + cbn [v0 map fst snd prodF]. fold (v0 vl). rewrite G2. exact H0.
          + cbn [v1 map fst snd prodF]. fold (v1 vl). rewrite G3. exact H1. }
      destruct G as [vl [G1 [P0 P1]]]. apply (g_mul _ vl); assumption.
  Qed.

  Theorem simplify_preserves : forall fuel e e' y0 y,
    (forall s, subtree s e -> (eval fs rho0 s = Some 0 -> forall a, eval fs rho s = Some a -> a = 0) /\
                              (eval fs rho0 s = Some 1 -> forall a, eval fs rho s = Some a -> a = 1)) ->
    eval fs rho0 e = Some y0 -> eval fs rho e = Some y -> simplify fuel e = Some e' -> eval fs rho e' = Some y.
  Proof.
    intros fuel e e' y0 y HL H0 H1 Hs. apply (good_eval e' y0 y). apply (simplify_good fuel e); [assumption|].
    apply good_of_eval; [|assumption|assumption]. intros s Hsub a0 a E0 E1. destruct (HL s Hsub) as [L0 L1].
    split; intro E; subst a0; [apply L0|apply L1]; assumption.
  Qed.
End Simplify.

(** a decision procedure for the condition, used in examples *)
Section Check.
  Context {F : fld}.
  Local Open Scope fld_scope.

  Fixpoint subtrees (e : expr F) : list (expr F) :=
    e :: match e with
         | Sum ops => flat_map (fun p => subtrees (snd p)) ops
         | Mul ops => flat_map (fun p => subtrees (snd p)) ops
         | _ => []
         end.

  Lemma subtrees_complete : forall s e, subtree s e -> In s (subtrees e).
  Proof.
    intros s e H. induction H as [|ops m e Hin H IH|ops m e Hin H IH].
    - destruct s; left; reflexivity.
    - right. apply in_flat_map. exists (m, e). split; assumption.
    - right. apply in_flat_map. exists (m, e). split; assumption.
  Qed.

  Definition linkedb (fs : funs F) (rho0 rho : env F) (s : expr F) : bool :=
    match eval fs rho0 s, eval fs rho s with
    | Some a0, Some a => (negb (feqb a0 0) || feqb a 0) && (negb (feqb a0 1) || feqb a 1)
    | _, _ => true
    end.

  Lemma linkedb_sound : forall fs rho0 rho e, forallb (linkedb fs rho0 rho) (subtrees e) = true ->
    forall s, subtree s e -> (eval fs rho0 s = Some 0 -> forall a, eval fs rho s = Some a -> a = 0) /\
                             (eval fs rho0 s = Some 1 -> forall a, eval fs rho s = Some a -> a = 1).
  Proof.
    intros fs rho0 rho e H s Hs. apply subtrees_complete in Hs. rewrite forallb_forall in H. specialize (H s Hs).
    unfold linkedb in H. split; intros E0 a E1; rewrite E0, E1 in H; apply andb_true_iff in H; destruct H as [H0 H1].
    - apply orb_true_iff in H0. destruct H0 as [H0|H0]; [|apply feqb_eq; assumption].
      apply negb_true_iff, feqb_neq in H0. congruence.
    - apply orb_true_iff in H1. destruct H1 as [H1|H1]; [|apply feqb_eq; assumption].
      apply negb_true_iff, feqb_neq in H1. congruence.
  Qed.
End Check.

(** the value at the point of simplification itself *)
Lemma simplify_same_point : forall (F : fld) (fs : funs F) rho0 fuel e e' y,
  eval fs rho0 e = Some y -> simplify fs rho0 fuel e = Some e' -> eval fs rho0 e' = Some y.
Proof.
  intros F fs rho0 fuel e e' y H Hs. apply (simplify_preserves fs rho0 rho0 fuel e e' y y); try assumption.
  intros s _. split; intros E a Ea; congruence.
Qed.

(** x * y while x holds 0 *)
Definition product_tree : expr QcF := Mul [(true, Var 0); (true, Var 1)].

Lemma simplify_product : simplify qc_funs (fun _ => qc 0 1) 10 product_tree = Some (Mul [(true, Num KInteger (qc 0 1))]).
Proof. vm_cast_no_check (eq_refl (Some (Mul [(true, Num KInteger (qc 0 1))]) : option (expr QcF))). Qed.

Lemma simplify_product_0 : eval qc_funs (fun _ => qc 0 1) product_tree = Some (qc 0 1).
Proof. vm_compute. reflexivity. Qed.
Lemma simplify_product_4 : eval qc_funs (fun _ => qc 2 1) product_tree = Some (qc 4 1).
Proof. vm_compute. reflexivity. Qed.
Lemma simplify_product_wrong : eval qc_funs (fun _ => qc 2 1) (Mul [(true, Num KInteger (qc 0 1))]) <> Some (qc 4 1).
Proof. vm_compute. discriminate. Qed.

(** (x - (0 + y)) * (1 * z) *)
Definition nested_tree : expr QcF :=
  Mul [(true, Sum [(true, Var 0); (false, Sum [(true, Num KInteger (qc 0 1)); (true, Var 1)])]);
       (true, Mul [(true, Num KInteger (qc 1 1)); (true, Var 2)])].
Definition generic_env : env QcF := fun x => match x with 0 => qc 3 1 | 1 => qc 5 1 | _ => qc 7 1 end.
Definition later_env : env QcF := fun x => match x with 0 => qc 1 1 | 1 => qc 1 1 | _ => qc 0 1 end.

Lemma nested_simplified : simplify qc_funs generic_env 20 nested_tree = Some (Mul [(true, Sum [(true, Var 0); (false, Var 1)]); (true, Var 2)])
  /\ eval qc_funs generic_env nested_tree = Some (qc (-14) 1)
  /\ (forall s, subtree s nested_tree -> (eval qc_funs generic_env s = Some f0 -> forall a, eval qc_funs later_env s = Some a -> a = f0) /\
                            (eval qc_funs generic_env s = Some f1 -> forall a, eval qc_funs later_env s = Some a -> a = f1))
  /\ eval qc_funs later_env nested_tree = Some (qc 0 1).
Proof.
  split; [vm_cast_no_check (eq_refl (Some (Mul [(true, Sum [(true, Var 0); (false, Var 1)]); (true, Var 2)]) : option (expr QcF)))|].
  split; [vm_compute; reflexivity|]. split; [|vm_compute; reflexivity].
  apply linkedb_sound. vm_compute. reflexivity.
Qed.
