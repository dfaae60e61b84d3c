(** Simplification of the functions and derivatives of a system: proofs. *)
From Coq Require Import List Arith Lia ZArith Bool.
From Verif Require Import Base Expr Homog Heap Simplify SimpGraph SimpGraphP.
Import ListNotations.

Section SimpSys.
  Context {F : fld}.
  Local Open Scope fld_scope.
  Variable fs : funs F.
  Notation graph := (list (gnode (F := F))).

  (** *** Nodes which are neither sums nor products are not touched *)
  Definition other (nd : gnode (F := F)) : Prop := match nd with GSum _ | GMul _ => False | _ => True end.
  Definition keeps (s s' : sst (F := F)) : Prop :=
    length (fst s) <= length (fst s') /\
    (forall m nd, nth_error (fst s) m = Some nd -> other nd -> nth_error (fst s') m = Some nd) /\
    (forall m x, nth_error (fst s') m = Some (GDiff x) -> nth_error (fst s) m = Some (GDiff x)).

  Lemma keeps_refl : forall s, keeps s s.
  Proof. intro s. split; [lia|]. split; auto. Qed.

  Lemma keeps_trans : forall a b c, keeps a b -> keeps b c -> keeps a c.
  Proof. intros a b c [L1 [H1 D1]] [L2 [H2 D2]]. split; [lia|]. split; auto. Qed.

  Lemma keeps_fst : forall s s', fst s' = fst s -> keeps s s'.
  Proof. intros s s' E. split; [rewrite E; lia|]. rewrite E. split; auto. Qed.

  Lemma keeps_alloc : forall s nd, (forall x, nd <> GDiff x) -> keeps s (fst (alloc s nd)).
  Proof.
    intros s nd N. split; [rewrite length_alloc; lia|]. split.
    - intros m x E _. rewrite nth_alloc_old; [assumption|]. apply nth_error_Some. congruence.
    - intros m x E. destruct (nth_alloc_inv _ _ _ _ E) as [[_ H]|[_ H]]; [assumption|]. destruct (N x). congruence.
  Qed.

  Lemma keeps_set : forall s n nd nd', nth_error (fst s) n = Some nd -> ~ other nd -> (forall x, nd' <> GDiff x) -> keeps s (set_node s n nd').
  Proof.
    intros s n nd nd' E O N. assert (L : n < length (fst s)) by (apply nth_error_Some; congruence). split; [rewrite length_set; lia|]. split.
    - intros m x Ex Ox. destruct (Nat.eq_dec m n) as [->|Nm]; [congruence|]. rewrite nth_set_other by assumption. assumption.
    - intros m x Ex. destruct (Nat.eq_dec m n) as [->|Nm].
      + rewrite nth_set_same in Ex by assumption. destruct (N x). congruence.
      + rewrite nth_set_other in Ex by assumption. assumption.
  Qed.

  Lemma over_keeps : forall f, (forall s n s' c, f s n = Some (s', c) -> keeps s s') ->
    forall ops s s' c, over f s ops = Some (s', c) -> keeps s s'.
  Proof.
    intros f Hf. induction ops as [|[m a] ops IH]; intros s s' c E; cbn [over] in E; [injection E as <- _; apply keeps_refl|].
    destruct (f s a) as [[s1 c1]|] eqn:E1; [|discriminate]. destruct (over f s1 ops) as [[s2 c2]|] eqn:E2; [|discriminate].
    injection E as <- _. eapply keeps_trans; [eapply Hf; exact E1|eapply IH; exact E2].
  Qed.

  Lemma test_fst : forall c k s n s' b, test fs c k s n = Some (s', b) -> fst s' = fst s.
  Proof. intros c k s n s' b E. unfold test in E. destruct (geval _ _ _ _ _ _ _) as [[st v]|]; [|discriminate]. injection E as <- _. reflexivity. Qed.

  Lemma test_all_fst : forall c k ops s s' l, test_all fs c k s ops = Some (s', l) -> fst s' = fst s.
  Proof.
    intros c k. induction ops as [|[m a] ops IH]; intros s s' l E; cbn [test_all] in E; [injection E as <- _; reflexivity|].
    destruct (test fs c k s a) as [[s1 b]|] eqn:E1; [|discriminate]. destruct (test_all fs c k s1 ops) as [[s2 l2]|] eqn:E2; [|discriminate].
    injection E as <- _. rewrite (IH _ _ _ E2). eapply test_fst; exact E1.
  Qed.

  Lemma test_any_fst : forall c k ops s s' b, test_any fs c k s ops = Some (s', b) -> fst s' = fst s.
  Proof.
    intros c k. induction ops as [|[m a] ops IH]; intros s s' l E; cbn [test_any] in E; [injection E as <- _; reflexivity|].
    destruct (test fs c k s a) as [[s1 []]|] eqn:E1; [| |discriminate].
    - injection E as <- _. eapply test_fst; exact E1.
    - rewrite (IH _ _ _ E). eapply test_fst; exact E1.
  Qed.

  Lemma sums_into_mul_keeps : forall ops s s' l c, sums_into_mul s ops = (s', l, c) -> keeps s s' /\
    forall m, m < length (fst s) -> nth_error (fst s') m = nth_error (fst s) m.
  Proof.
    induction ops as [|[m a] ops IH]; intros s s' l c E; cbn [sums_into_mul] in E.
    { injection E as <- _ _. split; [apply keeps_refl|reflexivity]. }
    assert (K : forall b, (let '(s', l, c) := sums_into_mul s ops in (s', b :: l, c)) = (s', l, c) -> keeps s s' /\
      forall m, m < length (fst s) -> nth_error (fst s') m = nth_error (fst s) m).
    { intros b E'. destruct (sums_into_mul s ops) as [[s1 l1] c1] eqn:E1. injection E' as <- _ _. exact (IH _ _ _ _ E1). }
    assert (K' : forall b, (let '(s', l, c) := sums_into_mul s ops in (s', b :: l, S c)) = (s', l, c) -> keeps s s' /\
      forall m, m < length (fst s) -> nth_error (fst s') m = nth_error (fst s) m).
    { intros b E'. destruct (sums_into_mul s ops) as [[s1 l1] c1] eqn:E1. injection E' as <- _ _. exact (IH _ _ _ _ E1). }
    destruct (nth_error (fst s) a) as [nd|]; [|exact (K _ E)].
    destruct nd as [kd k0| |x0|[|[[] x] [|]]|sub|a0|a0 z0|b0 a0|f0' a0|a0]; try exact (K _ E); [exact (K' _ E)|].
    destruct (alloc s (GNeg x)) as [s1 b] eqn:Ea. destruct (sums_into_mul s1 ops) as [[s2 l2] c2] eqn:E2. injection E as <- _ _.
    assert (Es1 : s1 = fst (alloc s (GNeg x))) by (rewrite Ea; reflexivity). destruct (IH _ _ _ _ E2) as [K2 N2]. split.
    - eapply keeps_trans; [|exact K2]. rewrite Es1. apply keeps_alloc. discriminate.
    - intros j Hj. rewrite N2; rewrite Es1; [apply nth_alloc_old; assumption|]. rewrite length_alloc. lia.
  Qed.

  Lemma depth_pass_keeps : forall fuel s n s' c, depth_pass fuel s n = Some (s', c) -> keeps s s'.
  Proof.
    induction fuel as [|k IH]; intros s n s' c E; [discriminate|]. cbn [depth_pass] in E.
    destruct (nth_error (fst s) n) as [nd|] eqn:En; [|discriminate].
    destruct nd as [kd k0| |x0|ops|ops|a0|a0 z0|b0 a0|f0' a0|a0]; try (injection E as <- _; apply keeps_refl).
    - destruct (sums_into_sum (fst s) ops) as [l1 c1]. destruct (mults_into_sum (fst s) l1) as [l2 c2].
      apply plus_count_inv in E as [c'' E]. apply (keeps_trans s (set_node s n (GSum l2)) s'); [eapply keeps_set; [exact En|cbn; auto|discriminate]|].
      eapply over_keeps; [exact IH|exact E].
    - destruct (sums_into_mul s ops) as [[s1 l1] c1] eqn:E1. destruct (mults_into_mul (fst s1) l1) as [l2 c2].
      destruct (sums_into_mul_keeps _ _ _ _ _ E1) as [K1 N1].
      apply plus_count_inv in E as [c'' E]. eapply keeps_trans; [exact K1|]. apply (keeps_trans s1 (set_node s1 n (GMul l2)) s'); [eapply (keeps_set s1 n (GMul ops)); [|cbn; auto|discriminate]|].
      + rewrite N1; [exact En|]. apply nth_error_Some. congruence.
      + eapply over_keeps; [exact IH|exact E].
  Qed.

  Lemma ones_pass_keeps : forall fuel s n s' c, ones_pass fs fuel s n = Some (s', c) -> keeps s s'.
  Proof.
    induction fuel as [|k IH]; intros s n s' c E; [discriminate|]. cbn [ones_pass] in E.
    destruct (nth_error (fst s) n) as [nd|] eqn:En; [|discriminate].
    destruct nd as [kd k0| |x0|ops|ops|a0|a0 z0|b0 a0|f0' a0|a0]; try (injection E as <- _; apply keeps_refl); [eapply over_keeps; [exact IH|exact E]|].
    destruct (1 <? length ops)%nat; [|eapply over_keeps; [exact IH|exact E]].
    destruct (test_all fs 1 k s ops) as [[s1 flags]|] eqn:Et; [|discriminate]. pose proof (test_all_fst _ _ _ _ _ _ Et) as F1.
    assert (Go : forall kept c0, plus_count c0 (over (ones_pass fs k) (set_node s1 n (GMul kept)) kept) = Some (s', c) -> keeps s s').
    { intros kept c0 E'. apply plus_count_inv in E' as [c'' E']. eapply keeps_trans; [apply (keeps_fst s s1 F1)|].
      apply (keeps_trans s1 (set_node s1 n (GMul kept)) s'); [eapply (keeps_set s1 n (GMul ops)); [rewrite F1; exact En|cbn; auto|discriminate]|]. eapply over_keeps; [exact IH|exact E']. }
    destruct (keep ops flags); exact (Go _ _ E).
  Qed.

  Lemma zeros_pass_keeps : forall fuel s n s' c, zeros_pass fs fuel s n = Some (s', c) -> keeps s s'.
  Proof.
    induction fuel as [|k IH]; intros s n s' c E; [discriminate|]. cbn [zeros_pass] in E.
    destruct (nth_error (fst s) n) as [nd|] eqn:En; [|discriminate].
    assert (Ln : n < length (fst s)) by (apply nth_error_Some; congruence).
    destruct nd as [kd k0| |x0|ops|ops|a0|a0 z0|b0 a0|f0' a0|a0]; try (injection E as <- _; apply keeps_refl).
    - destruct (1 <? length ops)%nat; [|eapply over_keeps; [exact IH|exact E]].
      destruct (test_all fs 0 k s ops) as [[s1 flags]|] eqn:Et; [|discriminate]. pose proof (test_all_fst _ _ _ _ _ _ Et) as F1.
      destruct (keep ops flags) as [|q kept].
      + destruct (alloc s1 (GNum KInteger 0)) as [s2 a] eqn:Ea. apply plus_count_inv in E as [c'' E].
        assert (Es2 : s2 = fst (alloc s1 (GNum KInteger 0))) by (rewrite Ea; reflexivity).
        eapply keeps_trans; [apply (keeps_fst s s1 F1)|]. apply (keeps_trans s1 s2 _); [rewrite Es2; apply keeps_alloc; discriminate|].
        apply (keeps_trans s2 (set_node s2 n (GSum [(true, a)])) s'); [eapply (keeps_set s2 n (GSum ops)); [|cbn; auto|discriminate]|eapply over_keeps; [exact IH|exact E]].
        rewrite Es2, nth_alloc_old; rewrite F1; assumption.
      + apply plus_count_inv in E as [c'' E]. eapply keeps_trans; [apply (keeps_fst s s1 F1)|].
        apply (keeps_trans s1 (set_node s1 n (GSum (q :: kept))) s'); [eapply (keeps_set s1 n (GSum ops)); [rewrite F1; exact En|cbn; auto|discriminate]|]. eapply over_keeps; [exact IH|exact E].
    - destruct (test_any fs 0 k s ops) as [[s1 b]|] eqn:Et; [|discriminate]. pose proof (test_any_fst _ _ _ _ _ _ Et) as F1. destruct b.
      + destruct (alloc s1 (GNum KInteger 0)) as [s2 a] eqn:Ea. injection E as <- _.
        assert (Es2 : s2 = fst (alloc s1 (GNum KInteger 0))) by (rewrite Ea; reflexivity).
        eapply keeps_trans; [apply (keeps_fst s s1 F1)|]. apply (keeps_trans s1 s2 _); [rewrite Es2; apply keeps_alloc; discriminate|].
        eapply (keeps_set s2 n (GMul ops)); [|cbn; auto|discriminate]. rewrite Es2, nth_alloc_old; rewrite F1; assumption.
      + eapply keeps_trans; [apply (keeps_fst s s1 F1)|]. eapply over_keeps; [exact IH|exact E].
  Qed.

  Lemma graph_simplify_keeps : forall rounds fuel s n s', graph_simplify fs rounds fuel s n = Some s' -> keeps s s'.
  Proof.
    induction rounds as [|r IH]; intros fuel s n s' E; [discriminate|]. cbn [graph_simplify] in E.
    destruct (graph_round fs fuel s n) as [[s1 c]|] eqn:E1; [|discriminate]. unfold graph_round in E1.
    destruct (depth_pass fuel s n) as [[s2 c2]|] eqn:D1; [|discriminate]. destruct (ones_pass fs fuel s2 n) as [[s3 c3]|] eqn:D2; [|discriminate].
    apply plus_count_inv in E1 as [c4 D3].
    assert (K : keeps s s1).
    { eapply keeps_trans; [eapply depth_pass_keeps; exact D1|]. eapply keeps_trans; [eapply ones_pass_keeps; exact D2|]. eapply zeros_pass_keeps; exact D3. }
    destruct c as [|c]; [injection E as <-; exact K|]. eapply keeps_trans; [exact K|eapply IH; exact E].
  Qed.

  Lemma simplify_all_keeps : forall rounds fuel l s s', simplify_all fs rounds fuel s l = Some s' -> keeps s s'.
  Proof.
    intros rounds fuel. induction l as [|n l IH]; intros s s' E; cbn [simplify_all] in E; [injection E as <-; apply keeps_refl|].
    destruct (graph_simplify fs rounds fuel s n) as [s1|] eqn:E1; [|discriminate]. eapply keeps_trans; [eapply graph_simplify_keeps; exact E1|eapply IH; exact E].
  Qed.

  (** *** A node which is neither a sum nor a product is not simplified *)
  Lemma graph_simplify_other : forall rounds fuel s n nd, nth_error (fst s) n = Some nd -> other nd -> 0 < rounds -> 0 < fuel ->
    graph_simplify fs rounds fuel s n = Some s.
  Proof.
    intros [|r] [|k] s n nd En O Hr Hk; try lia. cbn [graph_simplify]. unfold graph_round. cbn [depth_pass]. rewrite En.
    destruct nd; cbn [other] in O; try contradiction; cbn [ones_pass]; rewrite En; cbn [zeros_pass]; rewrite En; reflexivity.
  Qed.

  Lemma simplify_all_other : forall rounds fuel s l, (forall n, In n l -> exists nd, nth_error (fst s) n = Some nd /\ other nd) -> 0 < rounds -> 0 < fuel ->
    simplify_all fs rounds fuel s l = Some s.
  Proof.
    intros rounds fuel s l H Hr Hf. induction l as [|n l IH]; [reflexivity|]. cbn [simplify_all].
    destruct (H n (or_introl eq_refl)) as [nd [En O]]. rewrite (graph_simplify_other _ _ _ _ _ En O Hr Hf). apply IH.
    intros m Hm. apply H. right; assumption.
  Qed.

  (** *** Saving and restoring the values of the variables *)
  Lemma base_ext : forall (G : graph) sigma sigma' st, (forall T n, nth_error G n = Some GVar -> sigma' T n = sigma T n) ->
    base_ok G sigma st -> base_ok G sigma' st.
  Proof. intros G sigma sigma' st H [b1 b2]. split; [|exact b2]. intros T n En. rewrite (H T n En). apply b1. assumption. Qed.

  Lemma base_put : forall (G : graph) sigma st v x flag, base_ok G sigma st -> nth_error G v = Some GVar ->
    base_ok G (fun T n => if numtype_eqb T Dbl && Nat.eqb n v then x else sigma T n) (store st Dbl v (Some x) flag).
  Proof.
    intros G sigma st v x flag [b1 b2] Ev. split.
    - intros T n En. cbn [store cache]. destruct (numtype_eqb T Dbl && Nat.eqb n v); [reflexivity|]. apply b1. assumption.
    - intros T n k c En. cbn [store cache]. destruct (numtype_eqb T Dbl && Nat.eqb n v) eqn:E; [|apply (b2 T n k c En)].
      apply andb_prop in E as [_ E]. apply Nat.eqb_eq in E. congruence.
  Qed.

  Lemma randomize_ok : forall (G : graph) unit vs sigma st st' old, randomize unit vs st = (st', old) -> base_ok G sigma st ->
    (forall v, In v vs -> nth_error G v = Some GVar) -> NoDup vs ->
    base_ok G (fun T => match T with Dbl => random_point unit vs (sigma Dbl) | Mp => sigma Mp end) st' /\
    old = map (fun v => Some (sigma Dbl v)) vs.
  Proof.
    intros G unit. induction vs as [|v vs IH]; intros sigma st st' old E Hb Hv Nd; cbn [randomize] in E.
    - injection E as <- <-. split; [|reflexivity]. eapply base_ext; [|exact Hb]. intros [] n _; reflexivity.
    - destruct (randomize unit vs (set_value (store st Dbl v (fst (cache st Dbl v)) true) Dbl v (unit v))) as [st1 l] eqn:E1.
      injection E as <- <-. inversion Nd as [|? ? Nv Nd']; subst.
      assert (Ev : nth_error G v = Some GVar) by (apply Hv; left; reflexivity).
      assert (Eo : fst (cache st Dbl v) = Some (sigma Dbl v)) by (apply Hb; assumption).
      assert (Hb1 : base_ok G (fun T n => if numtype_eqb T Dbl && Nat.eqb n v then unit v else sigma T n)
                (set_value (store st Dbl v (fst (cache st Dbl v)) true) Dbl v (unit v))).
      { unfold set_value. apply (base_ext G (fun T n => if numtype_eqb T Dbl && Nat.eqb n v then unit v else (fun T n => if numtype_eqb T Dbl && Nat.eqb n v then sigma Dbl v else sigma T n) T n)).
        - intros T n _. destruct (numtype_eqb T Dbl && Nat.eqb n v); reflexivity.
        - apply base_put; [|assumption]. rewrite Eo. apply base_put; assumption. }
      destruct (IH _ _ _ _ E1 Hb1) as [Hb2 ->]; [intros u Hu; apply Hv; right; assumption|assumption|]. split.
      + eapply base_ext; [|exact Hb2]. intros [] n _; [|reflexivity]. unfold random_point. cbn [numtype_eqb andb].
        destruct (in_dec Nat.eq_dec n (v :: vs)) as [I|I], (in_dec Nat.eq_dec n vs) as [J|J]; try reflexivity.
        * destruct I as [->|I]; [|contradiction]. rewrite Nat.eqb_refl. reflexivity.
        * destruct I. right; assumption.
        * destruct (Nat.eqb n v) eqn:En; [|reflexivity]. apply Nat.eqb_eq in En. subst. destruct I. left; reflexivity.
      + cbn [map]. rewrite Eo. f_equal. apply map_ext_in. intros u Hu. cbn [numtype_eqb andb].
        destruct (Nat.eqb u v) eqn:En; [|reflexivity]. apply Nat.eqb_eq in En. subst. contradiction.
  Qed.

  Lemma restore_ok : forall (G : graph) sigma vs tau st, base_ok G tau st -> (forall v, In v vs -> nth_error G v = Some GVar) ->
    (forall T n, nth_error G n = Some GVar -> T = Mp \/ ~ In n vs -> tau T n = sigma T n) ->
    base_ok G sigma (restore vs (map (fun v => Some (sigma Dbl v)) vs) st).
  Proof.
    intros G sigma. induction vs as [|v vs IH]; intros tau st Hb Hv Ht; cbn [map restore].
    - eapply base_ext; [|exact Hb]. intros T n En. symmetry. apply Ht; [assumption|]. right. intros [].
    - eapply IH; [apply base_put; [exact Hb|apply Hv; left; reflexivity]|intros u Hu; apply Hv; right; assumption|].
      intros T n En H. destruct T; cbn [numtype_eqb andb].
      + destruct (Nat.eqb n v) eqn:E; [apply Nat.eqb_eq in E; subst; reflexivity|]. apply Ht; [assumption|]. right.
        intros [->|I]; [rewrite Nat.eqb_refl in E; discriminate|]. destruct H as [H|H]; [discriminate|contradiction].
      + apply Ht; [assumption|]. left; reflexivity.
  Qed.

  Lemma reset_all_ok : forall fuel (G : graph) l st st', reset_all fuel G l st = Some st' ->
    weaker st st' /\ forall n, In n l -> forall T m, reach G n m -> number_at G m \/ snd (cache st' T m) = false.
  Proof.
    intros fuel G. induction l as [|n l IH]; intros st st' E; cbn [reset_all] in E.
    - injection E as <-. split; [apply weaker_refl|]. intros n [].
    - destruct (reset G fuel st n) as [st1|] eqn:E1; [|discriminate]. destruct (reset_ok _ _ _ _ _ E1) as [W1 R1].
      destruct (IH _ _ E) as [W2 R2]. split; [eapply weaker_trans; eassumption|]. intros k [<-|Hk] T m Hm; [|apply (R2 k); assumption].
      destruct (R1 T m Hm) as [N|N]; [left; assumption|]. right. destruct W2 as [_ W2]. destruct (W2 T m) as [_ W].
      destruct (snd (cache st' T m)); [|reflexivity]. rewrite (W eq_refl) in N. discriminate.
  Qed.

  (** *** The start of the simplification meets the invariant *)
  Lemma inv_start : forall (G : graph) sigma rho st roots, acyclic G -> base_ok G sigma st ->
    (forall n, In n roots -> forall m, reach G n m -> number_at G m \/ snd (cache st Dbl m) = false) ->
    (forall n, In n roots -> exists a, has_value fs G (sigma Dbl) n a) ->
    (forall n m, In n roots -> operand G n m ->
       (has_value fs G (sigma Dbl) m 0 -> forall a, has_value fs G rho m a -> a = 0) /\
       (has_value fs G (sigma Dbl) m 1 -> forall a, has_value fs G rho m a -> a = 1)) ->
    exists w, Inv fs sigma rho (G, st) w /\ (forall n, In n roots -> wS w n) /\
      (forall n a, has_value fs G rho n a -> wD w n /\ wV w n = Some a).
  Proof.
    intros G sigma rho st roots Ac Hb Hr Hd Hl. pose proof Ac as [h Hh].
    destruct (valuation_exists fs G Ac (sigma Dbl)) as [V0 [E0 P0]]. destruct (valuation_exists fs G Ac rho) as [V [E1 P1]].
    assert (RS : forall n m, operand G n m -> reach G n m).
    { intros n m H. induction H as [|m ops p H IH En Hp|m ops p H IH En Hp]; [apply reach_refl| |].
      - eapply reach_step; [exact IH|exact En|]. cbn [children]. apply in_map. assumption.
      - eapply reach_step; [exact IH|exact En|]. cbn [children]. apply in_map. assumption. }
    assert (RD : forall n m, In n roots -> reach G n m -> m < length G /\ V0 m <> None).
    { intros n m Hn H. induction H as [|m nd c H IH En Hc].
      - destruct (Hd n Hn) as [a Ha]. apply P0 in Ha as [L A]. split; [assumption|congruence].
      - destruct IH as [L N]. split; [apply (Hh m nd c En Hc)|]. rewrite <- (E0 m nd En) in N. exact (node_val_strict fs _ _ _ _ N c Hc). }
    exists (mkW (fun m => exists n, In n roots /\ reach G n m) V0 (fun m => exists n, In n roots /\ operand G n m)
                (fun m => m < length G /\ V m <> None) V h).
    split; [|split].
    - constructor; cbn [wR wV0 wS wD wV wh fst snd].
      + intros m [n [Hn Hm]]. destruct (RD n m Hn Hm) as [L N]. destruct (nth_error G m) as [nd|] eqn:En; [|apply nth_error_None in En; lia].
        exists nd. split; [reflexivity|]. split; [|split; [apply E0; assumption|assumption]].
        intros c Hc. exists n. split; [assumption|]. eapply reach_step; eassumption.
      + intros m [L N]. destruct (nth_error G m) as [nd|] eqn:En; [|apply nth_error_None in En; lia].
        exists nd. split; [reflexivity|]. split; [|split; [apply E1; assumption|assumption]].
        intros c Hc. split; [apply (Hh m nd c En Hc)|]. rewrite <- (E1 m nd En) in N. exact (node_val_strict fs _ _ _ _ N c Hc).
      + split; [exact Hb|]. cbn [fst snd]. intros m [n [Hn Hm]] Fl. destruct (Hr n Hn m Hm) as [[k [c Ec]]|Z]; [|congruence].
        rewrite (proj2 Hb Dbl m k c Ec Fl). rewrite <- (E0 m _ Ec). reflexivity.
      + intros m [n [Hn Hm]]. exists n. split; [assumption|]. apply RS. assumption.
      + intros m nd p [n [Hn Hm]] En Hp. exists n. split; [assumption|].
        destruct nd as [kd k0| |x0|ops|ops|a0|a0 z0|b0 a0|f0' a0|a0]; try destruct Hp; [eapply op_sum; eassumption|eapply op_mul; eassumption].
      + intros m [n [Hn Hm]] [L N]. destruct (V m) as [a|] eqn:Va; [|contradiction].
        destruct (Hl n m Hn Hm) as [A B]. pose proof (proj2 (P1 m a) (conj L Va)) as Ha.
        split; intro Z; f_equal; [apply A|apply B]; try assumption; apply P0; split; assumption.
      + exact Hh.
    - intros n Hn. exists n. split; [assumption|apply op_refl].
    - intros n a Ha. cbn [wD wV]. apply P1 in Ha as [L A]. split; [split; [assumption|congruence]|assumption].
  Qed.

  Lemma inv_end : forall sigma rho s w n a, Inv fs sigma rho s w -> wD w n -> wV w n = Some a -> has_value fs (fst s) rho n a.
  Proof.
    intros sigma rho s w n a I Dn Vn. assert (L : n < length (fst s)).
    { destruct (i_v _ _ _ _ _ I n Dn) as [nd [E _]]. apply nth_error_Some. congruence. }
    destruct (ranked_unfold (fst s) (wh w) (i_rank _ _ _ _ _ I) (S (wh w n)) n L ltac:(lia)) as [e He].
    exists e. split; [eexists; exact He|]. rewrite <- Vn. eapply (unfold_value fs _ (fst s) rho (wV w) (wD w) n e); [|exact Dn|exact He].
    intros m Dm. destruct (i_v _ _ _ _ _ I m Dm) as [nd [E [H1 [H2 _]]]]. exists nd. auto.
  Qed.

  Lemma simplified_derivs : forall y n, In n (simplified y) -> In n (y_derivs y).
  Proof. intros y n H. unfold simplified in H. unfold y_derivs. apply in_or_app. destruct (y_node y); [left|right]; assumption. Qed.

  (** *** The whole function *)
  Lemma simplify_derivatives_ok : forall rounds fuel unit y (G : graph) st G' st' sigma,
    simplify_derivatives fs rounds fuel unit y (G, st) = Some (G', st') ->
    acyclic G -> base_ok G sigma st -> NoDup (y_all_vars y) -> (forall v, In v (y_all_vars y) -> nth_error G v = Some GVar) ->
    (forall n, In n (simplified y) -> exists a, has_value fs G (random_point unit (y_all_vars y) (sigma Dbl)) n a) ->
    acyclic G' /\ base_ok G' sigma st' /\ keeps (G, st) (G', st') /\
    (forall n, In n (y_derivs y) -> forall T m, reach G' n m -> number_at G' m \/ snd (cache st' T m) = false) /\
    forall rho,
      (forall n m, In n (simplified y) -> operand G n m ->
         (has_value fs G (random_point unit (y_all_vars y) (sigma Dbl)) m 0 -> forall a, has_value fs G rho m a -> a = 0) /\
         (has_value fs G (random_point unit (y_all_vars y) (sigma Dbl)) m 1 -> forall a, has_value fs G rho m a -> a = 1)) ->
      forall n a, has_value fs G rho n a -> has_value fs G' rho n a.
  Proof.
    intros rounds fuel unit y G st G' st' sigma E Ac Hb Nd Hv Hd. unfold simplify_derivatives in E. cbn [fst snd] in E.
    destruct (randomize unit (y_all_vars y) st) as [st1 old] eqn:E1.
    destruct (randomize_ok G unit _ sigma _ _ _ E1 Hb Hv Nd) as [Hb1 ->].
    set (tau := fun T => match T with Dbl => random_point unit (y_all_vars y) (sigma Dbl) | Mp => sigma Mp end) in *.
    destruct (reset_all fuel G (y_derivs y) st1) as [st2|] eqn:E2; [|discriminate].
    destruct (reset_all_ok _ _ _ _ _ E2) as [W2 R2]. pose proof (weaker_base _ _ _ _ W2 Hb1) as Hb2.
    fold (simplified y) in E. destruct (simplify_all fs rounds fuel (G, st2) (simplified y)) as [[G3 st3]|] eqn:E3; [|discriminate].
    destruct (reset_all fuel G3 (y_derivs y) _) as [st4|] eqn:E4 in E; [|discriminate]. injection E as <- <-.
    destruct (reset_all_ok _ _ _ _ _ E4) as [W4 R4].
    pose proof (simplify_all_keeps _ _ _ _ _ E3) as K.
    assert (Start : forall rho, (forall n m, In n (simplified y) -> operand G n m ->
         (has_value fs G (tau Dbl) m 0 -> forall a, has_value fs G rho m a -> a = 0) /\
         (has_value fs G (tau Dbl) m 1 -> forall a, has_value fs G rho m a -> a = 1)) ->
      exists w w', Inv fs tau rho (G, st2) w /\ Inv fs tau rho (G3, st3) w' /\ ext (G, st2) w w' /\
        (forall n a, has_value fs G rho n a -> wD w n /\ wV w n = Some a)).
    { intros rho Hl. destruct (inv_start G tau rho st2 (simplified y) Ac Hb2) as [w [I [Sr Dv]]]; [|exact Hd|exact Hl|].
      - intros n Hn m Hm. apply (R2 n (simplified_derivs y n Hn) Dbl m Hm).
      - destruct (simplify_all_ok fs tau rho _ _ _ _ _ _ E3 I Sr) as [w' [I' [X _]]]. exists w, w'. auto. }
    assert (Hv0 : forall v, In v (y_all_vars y) -> nth_error G3 v = Some GVar).
    { intros v Hi. apply (proj1 (proj2 K) v GVar); [apply Hv; assumption|exact I]. }
    destruct (Start (tau Dbl)) as [w0 [w0' [_ [I3 _]]]].
    { intros n m _ _. assert (U : forall a b, has_value fs G (tau Dbl) m a -> has_value fs G (tau Dbl) m b -> b = a).
      { intros a b [e [U1 V1]] [e' [U2 V2]]. rewrite (unfolds_fun _ _ _ _ _ U1 U2) in V1. congruence. }
      split; intros H a Ha; eapply U; eassumption. }
    split; [exists (wh w0'); exact (i_rank _ _ _ _ _ I3)|]. split.
    { eapply weaker_base; [exact W4|]. apply (restore_ok G3 sigma (y_all_vars y) tau st3); [exact (proj1 (i_gok _ _ _ _ _ I3))|exact Hv0|].
      intros T n _ [->|Hn]; [reflexivity|]. destruct T; [|reflexivity]. cbn [tau]. unfold random_point.
      destruct (in_dec Nat.eq_dec n (y_all_vars y)); [contradiction|reflexivity]. }
    split; [exact K|]. split; [exact R4|].
    intros rho Hl n a Ha. destruct (Start rho Hl) as [w [w' [_ [I' [X Dv]]]]].
    destruct (Dv n a Ha) as [Dn Vn]. destruct (e_d _ _ _ X n Dn) as [Dn' Vn'].
    apply (inv_end tau rho (G3, st3) w' n a I' Dn'). congruence.
  Qed.
End SimpSys.
