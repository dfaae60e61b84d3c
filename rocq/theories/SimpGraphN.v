(** When Simplify (SimpGraph.v) returns, there is nothing left to fold in the nodes it visits. *)
From Coq Require Import List Arith Lia ZArith Bool.
From Verif Require Import Base Expr Homog Heap Simplify SimpGraph.
Import ListNotations.

(** ** Specification *)
Section Spec.
  Context {F : fld}.
  (** [m] is [n], or an operand of a sum or product which is *)
  Inductive inside (G : list (gnode (F := F))) (n : nat) : nat -> Prop :=
  | in_self : inside G n n
  | in_sum : forall k ops b m, inside G n k -> nth_error G k = Some (GSum ops) -> In (b, m) ops -> inside G n m
  | in_mul : forall k ops b m, inside G n k -> nth_error G k = Some (GMul ops) -> In (b, m) ops -> inside G n m.
  (** no sum has a sum for an operand, and no product has a product *)
  Definition unnested (G : list (gnode (F := F))) (n : nat) : Prop := forall k ops b m, inside G n k -> In (b, m) ops ->
    (nth_error G k = Some (GSum ops) -> forall sub, nth_error G m <> Some (GSum sub)) /\
    (nth_error G k = Some (GMul ops) -> forall sub, nth_error G m <> Some (GMul sub)).
  (** every sum and every product has operands, as the assertions of the code demand *)
  Definition operands_given_in (G : list (gnode (F := F))) : Prop := forall n, nth_error G n <> Some (GSum []) /\ nth_error G n <> Some (GMul []).
End Spec.

Section GNormal.
  Context {F : fld}.
  Local Open Scope fld_scope.
  Variable fs : funs F.
  Notation graph := (list (gnode (F := F))).
  Notation ops_t := (list (bool * nat)).

  Lemma inside_step_sum : forall (G : graph) n ops b a m, nth_error G n = Some (GSum ops) -> In (b, a) ops -> inside G a m -> inside G n m.
  Proof. intros G n ops b a m E Ha H. induction H; [eapply in_sum; [apply in_self| |]; eassumption|eapply in_sum; eassumption|eapply in_mul; eassumption]. Qed.
  Lemma inside_step_mul : forall (G : graph) n ops b a m, nth_error G n = Some (GMul ops) -> In (b, a) ops -> inside G a m -> inside G n m.
  Proof. intros G n ops b a m E Ha H. induction H; [eapply in_mul; [apply in_self| |]; eassumption|eapply in_sum; eassumption|eapply in_mul; eassumption]. Qed.
  Lemma inside_first : forall (G : graph) n m, inside G n m -> m = n \/ exists ops b a,
    (nth_error G n = Some (GSum ops) \/ nth_error G n = Some (GMul ops)) /\ In (b, a) ops /\ inside G a m.
  Proof.
    intros G n m H. induction H as [|k ops b m H IH E Hm|k ops b m H IH E Hm]; [left; reflexivity| |].
    - right. destruct IH as [->|[ops' [b' [a [A [B C]]]]]].
      + exists ops, b, m. split; [left; exact E|]. split; [exact Hm|apply in_self].
      + exists ops', b', a. split; [exact A|]. split; [exact B|eapply in_sum; eassumption].
    - right. destruct IH as [->|[ops' [b' [a [A [B C]]]]]].
      + exists ops, b, m. split; [right; exact E|]. split; [exact Hm|apply in_self].
      + exists ops', b', a. split; [exact A|]. split; [exact B|eapply in_mul; eassumption].
  Qed.

  Lemma set_same : forall (s : sst (F := F)) n nd, nth_error (fst s) n = Some nd -> set_node s n nd = s.
  Proof.
    intros [G st] n nd E. unfold set_node. cbn [fst snd] in *. f_equal. revert n E. induction G as [|x G IH]; intros [|n] E; try discriminate.
    - injection E as ->. reflexivity.
    - cbn in *. f_equal. apply IH, E.
  Qed.

  (** *** Folds that count nothing *)
  Lemma sums_0 : forall (G : graph) ops l, operands_given_in G -> sums_into_sum G ops = (l, O) ->
    l = ops /\ forall b a sub, In (b, a) ops -> nth_error G a <> Some (GSum sub).
  Proof.
    intros G ops. induction ops as [|[m a] ops IH]; intros l N E; cbn [sums_into_sum] in E.
    - injection E as <-. split; [reflexivity|intros b a sub []].
    - destruct (sums_into_sum G ops) as [l' c] eqn:E'.
      assert (T : l = (m, a) :: l' /\ c = O /\ forall sub, nth_error G a <> Some (GSum sub)).
      { destruct (nth_error G a) as [[| | |sub| | | | | |]|] eqn:Ea; try (injection E as <- ->; split; [reflexivity|]; split; [reflexivity|]; intros; discriminate).
        all: exfalso; injection E as _ Z; destruct sub; [exact (proj1 (N a) Ea)|cbn in Z; lia]. }
      destruct T as [-> [-> T]]. destruct (IH l' N eq_refl) as [-> K]. split; [reflexivity|].
      intros b a' sub [X|X]; [injection X as <- <-; apply T|exact (K b a' sub X)].
  Qed.
  Lemma mults_0 : forall (G : graph) ops l, operands_given_in G -> mults_into_mul G ops = (l, O) ->
    l = ops /\ forall b a sub, In (b, a) ops -> nth_error G a <> Some (GMul sub).
  Proof.
    intros G ops. induction ops as [|[m a] ops IH]; intros l N E; cbn [mults_into_mul] in E.
    - injection E as <-. split; [reflexivity|intros b a sub []].
    - destruct (mults_into_mul G ops) as [l' c] eqn:E'.
      assert (T : l = (m, a) :: l' /\ c = O /\ forall sub, nth_error G a <> Some (GMul sub)).
      { destruct (nth_error G a) as [[| | | |sub| | | | |]|] eqn:Ea; try (injection E as <- ->; split; [reflexivity|]; split; [reflexivity|]; intros; discriminate).
        all: exfalso; injection E as _ Z; destruct sub; [exact (proj2 (N a) Ea)|cbn in Z; lia]. }
      destruct T as [-> [-> T]]. destruct (IH l' N eq_refl) as [-> K]. split; [reflexivity|].
      intros b a' sub [X|X]; [injection X as <- <-; apply T|exact (K b a' sub X)].
  Qed.

  Lemma mults_sum_0 : forall (G : graph) ops l, mults_into_sum G ops = (l, O) -> l = ops.
  Proof.
    intros G ops. induction ops as [|[m a] ops IH]; intros l E; cbn [mults_into_sum] in E; [injection E as <-; reflexivity|].
    destruct (mults_into_sum G ops) as [l' c] eqn:E'.
    destruct (nth_error G a) as [[| | | |[|[[|] x] [|q r]]| | | | |]|] eqn:Ea; try (injection E as <- ->; rewrite (IH l' eq_refl); reflexivity).
    injection E as _ Z. discriminate.
  Qed.
  Lemma sums_mul_0 : forall ops (s s' : sst (F := F)) l, sums_into_mul s ops = (s', l, O) -> s' = s /\ l = ops.
  Proof.
    intros ops. induction ops as [|[m a] ops IH]; intros s s' l E; cbn [sums_into_mul] in E; [injection E as <- <-; split; reflexivity|].
    destruct (nth_error (fst s) a) as [[| | |[|[[|] x] [|q r]]| | | | | |]|] eqn:Ea;
      try (destruct (sums_into_mul s ops) as [[s1 l'] cnt] eqn:E'; injection E as <- <- Zc; subst; destruct (IH _ _ _ E') as [-> ->]; split; reflexivity).
    - destruct (sums_into_mul s ops) as [[s1 l'] cnt] eqn:E'. injection E as _ _ Z. discriminate.
    - destruct (alloc s (GNeg x)) as [s1 b0]. destruct (sums_into_mul s1 ops) as [[s2 l'] cnt] eqn:E'. injection E as _ _ Z. discriminate.
  Qed.

  Lemma unnested_at_sum : forall (G : graph) n ops, nth_error G n = Some (GSum ops) ->
    (forall b a sub, In (b, a) ops -> nth_error G a <> Some (GSum sub)) -> (forall b a, In (b, a) ops -> unnested G a) -> unnested G n.
  Proof.
    intros G n ops E A B k l b m Hk Hm. apply inside_first in Hk as [->|[ops' [b' [a [Ea [Ha Hk]]]]]].
    - split; intro E'; rewrite E in E'; [injection E' as <-|discriminate]. intro sub. exact (A b m sub Hm).
    - rewrite E in Ea. destruct Ea as [Ea|Ea]; [injection Ea as <-|discriminate]. exact (B b' a Ha k l b m Hk Hm).
  Qed.
  Lemma unnested_at_mul : forall (G : graph) n ops, nth_error G n = Some (GMul ops) ->
    (forall b a sub, In (b, a) ops -> nth_error G a <> Some (GMul sub)) -> (forall b a, In (b, a) ops -> unnested G a) -> unnested G n.
  Proof.
    intros G n ops E A B k l b m Hk Hm. apply inside_first in Hk as [->|[ops' [b' [a [Ea [Ha Hk]]]]]].
    - split; intro E'; rewrite E in E'; [discriminate|injection E' as <-]. intro sub. exact (A b m sub Hm).
    - rewrite E in Ea. destruct Ea as [Ea|Ea]; [discriminate|injection Ea as <-]. exact (B b' a Ha k l b m Hk Hm).
  Qed.
  Lemma unnested_leaf : forall (G : graph) n, (forall ops, nth_error G n <> Some (GSum ops)) -> (forall ops, nth_error G n <> Some (GMul ops)) -> unnested G n.
  Proof.
    intros G n A B k l b m Hk Hm. apply inside_first in Hk as [->|[ops' [b' [a [[Ea|Ea] _]]]]]; [|exfalso; exact (A _ Ea)|exfalso; exact (B _ Ea)].
    split; intro E; exfalso; [exact (A _ E)|exact (B _ E)].
  Qed.

  Lemma plus_0 : forall c (r : option (sst (F := F) * nat)) s, plus_count c r = Some (s, O) -> c = O /\ r = Some (s, O).
  Proof. intros c [[s' c']|] s E; [|discriminate]. cbn in E. injection E as <- Z. assert (c' = O) by lia. subst c'. split; [lia|reflexivity]. Qed.

  Lemma depth_pass_0 : forall fuel (s s' : sst (F := F)) n, operands_given_in (fst s) -> depth_pass fuel s n = Some (s', O) -> s' = s /\ unnested (fst s) n.
  Proof.
    induction fuel as [|k IH]; intros s s' n N E; [discriminate|]. cbn [depth_pass] in E.
    assert (Ov : forall ops (s1 s2 : sst (F := F)), operands_given_in (fst s1) -> over (depth_pass k) s1 ops = Some (s2, O) -> s2 = s1 /\ forall b a, In (b, a) ops -> unnested (fst s1) a).
    { induction ops as [|[m a] ops IHo]; intros s1 s2 N1 Eo; cbn [over] in Eo; [injection Eo as <-; split; [reflexivity|intros b a []]|].
      destruct (depth_pass k s1 a) as [[s3 c3]|] eqn:E3; [|discriminate]. destruct (over (depth_pass k) s3 ops) as [[s4 c4]|] eqn:E4; [|discriminate].
      injection Eo as <- Z. assert (c3 = O) by lia. assert (c4 = O) by lia. subst c3 c4. destruct (IH _ _ _ N1 E3) as [-> U]. destruct (IHo _ _ N1 E4) as [-> K].
      split; [reflexivity|]. intros b a' [X|X]; [injection X as <- <-; exact U|exact (K b a' X)]. }
    destruct (nth_error (fst s) n) as [nd|] eqn:En; [|discriminate].
    destruct nd as [kk c|  |x|ops|ops|a|a z|a b|kk a|a];
      try (injection E as <-; split; [reflexivity|]; apply unnested_leaf; intros; rewrite En; discriminate).
    - destruct (sums_into_sum (fst s) ops) as [l1 c1] eqn:E1. destruct (mults_into_sum (fst s) l1) as [l2 c2] eqn:E2.
      apply plus_0 in E as [Z E]. assert (c1 = O) by lia. assert (c2 = O) by lia. subst c1 c2.
      destruct (sums_0 _ _ _ N E1) as [-> K]. apply mults_sum_0 in E2. subst l2. rewrite (set_same s n _ En) in E.
      destruct (Ov _ _ _ N E) as [-> U]. split; [reflexivity|]. exact (unnested_at_sum _ _ _ En K U).
    - destruct (sums_into_mul s ops) as [[s1 l1] c1] eqn:E1. destruct (mults_into_mul (fst s1) l1) as [l2 c2] eqn:E2.
      apply plus_0 in E as [Z E]. assert (c1 = O) by lia. assert (c2 = O) by lia. subst c1 c2.
      destruct (sums_mul_0 _ _ _ _ E1) as [-> ->]. destruct (mults_0 _ _ _ N E2) as [-> K]. rewrite (set_same s n _ En) in E.
      destruct (Ov _ _ _ N E) as [-> U]. split; [reflexivity|]. exact (unnested_at_mul _ _ _ En K U).
  Qed.

  (** *** Tests do not touch the nodes *)
  Lemma test_nodes : forall c fuel (s s' : sst (F := F)) n b, test fs c fuel s n = Some (s', b) -> fst s' = fst s.
  Proof. intros c fuel s s' n b E. unfold test in E. destruct (geval _ _ _ _ _ _ _) as [[st v]|]; [|discriminate]. injection E as <- _. reflexivity. Qed.
  Lemma test_all_nodes : forall c fuel ops (s s' : sst (F := F)) l, test_all fs c fuel s ops = Some (s', l) -> fst s' = fst s /\ length l = length ops.
  Proof.
    intros c fuel ops. induction ops as [|[m a] ops IH]; intros s s' l E; cbn [test_all] in E; [injection E as <- <-; split; reflexivity|].
    destruct (test fs c fuel s a) as [[s1 b]|] eqn:E1; [|discriminate]. destruct (test_all fs c fuel s1 ops) as [[s2 l2]|] eqn:E2; [|discriminate].
    injection E as <- <-. destruct (IH _ _ _ E2) as [A B]. apply test_nodes in E1. split; [congruence|cbn; lia].
  Qed.
  Lemma test_any_nodes : forall c fuel ops (s s' : sst (F := F)) b, test_any fs c fuel s ops = Some (s', b) -> fst s' = fst s.
  Proof.
    intros c fuel ops. induction ops as [|[m a] ops IH]; intros s s' b E; cbn [test_any] in E; [injection E as <- _; reflexivity|].
    destruct (test fs c fuel s a) as [[s1 [|]]|] eqn:E1; [| |discriminate]; apply test_nodes in E1.
    - injection E as <- _. exact E1.
    - rewrite (IH _ _ _ E). exact E1.
  Qed.
  Lemma keep_length : forall (ops : ops_t) l, length (keep ops l) <= length ops.
  Proof. induction ops as [|p ops IH]; intros [|b l]; cbn; try lia. specialize (IH l). destruct b; cbn; lia. Qed.
  Lemma keep_all : forall (ops : ops_t) l, length (keep ops l) = length ops -> keep ops l = ops.
  Proof.
    induction ops as [|p ops IH]; intros [|b l] E; cbn in *; try discriminate; try reflexivity. pose proof (keep_length ops l).
    destruct b; cbn in E; [lia|]. f_equal. apply IH. lia.
  Qed.

  Lemma ones_pass_0 : forall fuel (s s' : sst (F := F)) n, ones_pass fs fuel s n = Some (s', O) -> fst s' = fst s.
  Proof.
    induction fuel as [|k IH]; intros s s' n E; [discriminate|]. cbn [ones_pass] in E.
    assert (Ov : forall ops (s1 s2 : sst (F := F)), over (ones_pass fs k) s1 ops = Some (s2, O) -> fst s2 = fst s1).
    { induction ops as [|[m a] ops IHo]; intros s1 s2 Eo; cbn [over] in Eo; [injection Eo as <-; reflexivity|].
      destruct (ones_pass fs k s1 a) as [[s3 c3]|] eqn:E3; [|discriminate]. destruct (over (ones_pass fs k) s3 ops) as [[s4 c4]|] eqn:E4; [|discriminate].
      injection Eo as <- Z. assert (c3 = O) by lia. assert (c4 = O) by lia. subst c3 c4. rewrite (IHo _ _ E4). exact (IH _ _ _ E3). }
    destruct (nth_error (fst s) n) as [nd|] eqn:En; [|discriminate].
    destruct nd as [kk c|  |x|ops|ops|a|a z|a b|kk a|a]; try (injection E as <-; reflexivity); [exact (Ov _ _ _ E)|].
    destruct (Nat.ltb_spec 1 (length ops)) as [L|L]; [|exact (Ov _ _ _ E)].
    destruct (test_all fs 1 k s ops) as [[s1 flags]|] eqn:Et; [|discriminate]. apply test_all_nodes in Et as [Et _].
    destruct (keep ops flags) as [|p kept] eqn:Ek; apply plus_0 in E as [Z E]; [lia|]. rewrite <- Ek in *.
    pose proof (keep_length ops flags). rewrite (keep_all ops flags) in E by lia. rewrite set_same in E by (rewrite Et; exact En).
    rewrite (Ov _ _ _ E). exact Et.
  Qed.

  (** *** The pass over the zeros may put 0 in place of the only factor of a product, and does not count it *)
  Definition is_num (nd : gnode (F := F)) : Prop := match nd with GNum _ _ => True | _ => False end.
  Record wiped_in (G G' : graph) : Prop := {
    w_len : length G <= length G';
    w_old : forall m nd, nth_error G m = Some nd ->
      nth_error G' m = Some nd \/ exists q a nd', nd = GMul [q] /\ nth_error G' m = Some (GMul [(true, a)]) /\ nth_error G' a = Some nd' /\ is_num nd';
    w_new : forall m nd, length G <= m -> nth_error G' m = Some nd -> is_num nd }.
  Lemma wiped_refl : forall G, wiped_in G G.
  Proof. intro G. split; [lia| |]. - intros m nd E. left. exact E. - intros m nd L E. exfalso. assert (m < length G) by (apply nth_error_Some; congruence). lia. Qed.
  Lemma num_stays : forall G G' m nd, wiped_in G G' -> nth_error G m = Some nd -> is_num nd -> nth_error G' m = Some nd.
  Proof. intros G G' m nd W E I. destruct (w_old _ _ W m nd E) as [E'|[q [a [nd' [-> _]]]]]; [exact E'|destruct I]. Qed.
  Lemma wiped_trans : forall G G' G'', wiped_in G G' -> wiped_in G' G'' -> wiped_in G G''.
  Proof.
    intros G G' G'' A B. split.
    - pose proof (w_len _ _ A). pose proof (w_len _ _ B). lia.
    - intros m nd E. destruct (w_old _ _ A m nd E) as [E'|[q [a [nd' [-> [E1 [E2 I]]]]]]]; [exact (w_old _ _ B m nd E')|].
      right. destruct (w_old _ _ B m _ E1) as [E4|[q' [a' [nd2 [_ [E5 [E6 I2]]]]]]].
      + exists q, a, nd'. pose proof (num_stays _ _ _ _ B E2 I). auto.
      + exists q, a', nd2. auto.
    - intros m nd L E. destruct (Nat.lt_ge_cases m (length G')) as [Hm|Hm]; [|exact (w_new _ _ B m nd Hm E)].
      destruct (nth_error G' m) as [nd'|] eqn:E'; [|apply nth_error_None in E'; lia]. pose proof (w_new _ _ A m nd' L E') as I.
      rewrite (num_stays _ _ _ _ B E' I) in E. injection E as <-. exact I.
  Qed.

  Lemma nth_set : forall (s : sst (F := F)) n nd m, n < length (fst s) ->
    nth_error (fst (set_node s n nd)) m = if Nat.eq_dec m n then Some nd else nth_error (fst s) m.
  Proof.
    intros [G st] n nd m. unfold set_node. cbn [fst snd]. revert n m. induction G as [|x G IH]; intros [|n] [|m] L; cbn in L; try lia; try reflexivity.
    cbn [firstn skipn app nth_error]. specialize (IH n m ltac:(lia)). cbn in IH. rewrite IH. destruct (Nat.eq_dec m n), (Nat.eq_dec (S m) (S n)); try lia; reflexivity.
  Qed.
  Lemma length_set : forall (s : sst (F := F)) n nd, n < length (fst s) -> length (fst (set_node s n nd)) = length (fst s).
  Proof. intros [G st] n nd L. unfold set_node. cbn [fst snd] in *. rewrite app_length. cbn [length]. rewrite firstn_length, skipn_length. lia. Qed.

  Lemma zeros_pass_0 : forall fuel (s s' : sst (F := F)) n, operands_given_in (fst s) -> zeros_pass fs fuel s n = Some (s', O) ->
    wiped_in (fst s) (fst s') /\ operands_given_in (fst s').
  Proof.
    induction fuel as [|k IH]; intros s s' n N E; [discriminate|]. cbn [zeros_pass] in E.
    assert (Ov : forall ops (s1 s2 : sst (F := F)), operands_given_in (fst s1) -> over (zeros_pass fs k) s1 ops = Some (s2, O) -> wiped_in (fst s1) (fst s2) /\ operands_given_in (fst s2)).
    { induction ops as [|[m a] ops IHo]; intros s1 s2 N1 Eo; cbn [over] in Eo; [injection Eo as <-; split; [apply wiped_refl|exact N1]|].
      destruct (zeros_pass fs k s1 a) as [[s3 c3]|] eqn:E3; [|discriminate]. destruct (over (zeros_pass fs k) s3 ops) as [[s4 c4]|] eqn:E4; [|discriminate].
      injection Eo as <- Z. assert (c3 = O) by lia. assert (c4 = O) by lia. subst c3 c4. destruct (IH _ _ _ N1 E3) as [A B]. destruct (IHo _ _ B E4) as [A' B'].
      split; [eapply wiped_trans; eassumption|exact B']. }
    destruct (nth_error (fst s) n) as [nd|] eqn:En; [|discriminate].
    destruct nd as [kk c|  |x|ops|ops|a|a z|a b|kk a|a]; try (injection E as <-; split; [apply wiped_refl|exact N]).
    - destruct (Nat.ltb_spec 1 (length ops)) as [L|L]; [|exact (Ov _ _ _ N E)].
      destruct (test_all fs 0 k s ops) as [[s1 flags]|] eqn:Et; [|discriminate]. apply test_all_nodes in Et as [Et _].
      destruct (keep ops flags) as [|p kept] eqn:Ek; [destruct (alloc s1 (GNum KInteger 0)) as [s2 a2]; apply plus_0 in E as [Z E]; lia|].
      apply plus_0 in E as [Z E]. rewrite <- Ek in *.
      pose proof (keep_length ops flags). rewrite (keep_all ops flags) in E by lia. rewrite set_same in E by (rewrite Et; exact En).
      rewrite <- Et in *. exact (Ov _ _ _ N E).
    - destruct (test_any fs 0 k s ops) as [[s1 [|]]|] eqn:Et; [| |discriminate]; apply test_any_nodes in Et.
      + unfold alloc in E. cbn [fst snd] in E. injection E as <- Z.
        assert (Ln : n < length (fst s)) by (apply nth_error_Some; congruence).
        destruct ops as [|q [|q' r]]; [exfalso; exact (proj2 (N n) En)| |cbn in Z; lia].
        set (G2 := fst s1 ++ [GNum KInteger 0]). set (st2 := snd (set_node (G2, store (store (snd s1) Dbl (length (fst s1)) None false) Mp (length (fst s1)) None false) n (GMul [(true, length (fst s1))]))).
        assert (L2 : n < length G2) by (unfold G2; rewrite app_length, Et; cbn; lia).
        assert (V : forall m, nth_error (firstn n G2 ++ GMul [(true, length (fst s1))] :: skipn (S n) G2) m = if Nat.eq_dec m n then Some (GMul [(true, length (fst s1))]) else nth_error G2 m).
        { intro m. exact (nth_set (G2, st2) n (GMul [(true, length (fst s1))]) m L2). }
        unfold set_node. cbn [fst snd]. fold G2. split.
        * split.
          -- pose proof (length_set (G2, st2) n (GMul [(true, length (fst s1))]) L2) as X. cbn [fst set_node] in X. unfold set_node in X. cbn [fst snd] in X. rewrite X. unfold G2. rewrite app_length, Et. lia.
          -- intros m nd Em. rewrite V. destruct (Nat.eq_dec m n) as [->|D].
             ++ right. rewrite En in Em. injection Em as <-. exists q, (length (fst s1)), (GNum KInteger 0). split; [reflexivity|]. split; [reflexivity|]. split; [|exact I].
                rewrite V. destruct (Nat.eq_dec (length (fst s1)) n) as [X|_]; [rewrite Et in X; lia|]. unfold G2. rewrite nth_error_app2, Nat.sub_diag by lia. reflexivity.
             ++ left. unfold G2. rewrite nth_error_app1; [rewrite Et; exact Em|]. rewrite Et. apply nth_error_Some. congruence.
          -- intros m nd Lm. rewrite V. destruct (Nat.eq_dec m n) as [->|_]; [lia|]. unfold G2. rewrite nth_error_app2 by (rewrite Et; exact Lm).
             destruct (m - length (fst s1))%nat as [|[|]]; cbn; intro X; try discriminate. injection X as <-. exact I.
        * intro m. rewrite V. destruct (Nat.eq_dec m n) as [_|D]; [split; discriminate|]. unfold G2.
          destruct (Nat.lt_ge_cases m (length (fst s1))) as [Hm|Hm]; [rewrite nth_error_app1 by exact Hm; rewrite Et; apply N|].
          rewrite nth_error_app2 by exact Hm. destruct (m - length (fst s1))%nat as [|[|]]; cbn; split; discriminate.
      + rewrite <- Et in *. exact (Ov _ _ _ N E).
  Qed.

  Lemma wiped_inside : forall (G G' : graph) n m nd, wiped_in G G' -> inside G' n m -> nth_error G' m = Some nd -> ~ is_num nd -> inside G n m.
  Proof.
    intros G G' n m nd W H. revert nd.
    assert (Old : forall k ops nd', nth_error G' k = Some nd' -> nd' = GSum ops \/ nd' = GMul ops -> exists nd, nth_error G k = Some nd).
    { intros k ops nd' E X. destruct (nth_error G k) as [nd|] eqn:Ek; [exists nd; reflexivity|]. exfalso. apply nth_error_None in Ek.
      pose proof (w_new _ _ W k nd' Ek E) as I. destruct X as [-> | ->]; destruct I. }
    induction H as [|k ops b m H IH E Hm|k ops b m H IH E Hm]; intros nd Em Nn; [apply in_self| |].
    - specialize (IH _ E ltac:(intros [])). destruct (Old k ops _ E (or_introl eq_refl)) as [nd0 E0].
      destruct (w_old _ _ W k nd0 E0) as [E'|[q [a [nd' [-> [E1 _]]]]]]; [|congruence]. rewrite E in E'. injection E' as <-. eapply in_sum; eassumption.
    - specialize (IH _ E ltac:(intros [])). destruct (Old k ops _ E (or_intror eq_refl)) as [nd0 E0].
      destruct (w_old _ _ W k nd0 E0) as [E'|[q [a [nd' [-> [E1 [E2 I]]]]]]]; [rewrite E in E'; injection E' as <-; eapply in_mul; eassumption|].
      exfalso. rewrite E in E1. injection E1 as ->. destruct Hm as [X|[]]. injection X as <- <-. rewrite Em in E2. injection E2 as <-. exact (Nn I).
  Qed.

  Lemma wiped_kind : forall (G G' : graph) m, wiped_in G G' ->
    (forall ops, nth_error G' m = Some (GSum ops) -> nth_error G m = Some (GSum ops)) /\
    (forall ops, nth_error G' m = Some (GMul ops) -> exists ops', nth_error G m = Some (GMul ops')).
  Proof.
    intros G G' m W. assert (Old : forall nd', nth_error G' m = Some nd' -> ~ is_num nd' -> exists nd, nth_error G m = Some nd).
    { intros nd' E X. destruct (nth_error G m) as [nd|] eqn:Ek; [exists nd; reflexivity|]. exfalso. apply nth_error_None in Ek. exact (X (w_new _ _ W m nd' Ek E)). }
    split; intros ops E; destruct (Old _ E ltac:(intros [])) as [nd E0]; destruct (w_old _ _ W m nd E0) as [E'|[q [a [nd' [-> [E1 _]]]]]].
    - rewrite E in E'. injection E' as <-. exact E0.
    - congruence.
    - rewrite E in E'. injection E' as <-. exists ops. exact E0.
    - exists [q]. exact E0.
  Qed.

  Lemma wiped_unnested : forall (G G' : graph) n, wiped_in G G' -> unnested G n -> unnested G' n.
  Proof.
    intros G G' n W U k ops b m Hk Hm. split; intros E sub Em.
    - pose proof (wiped_inside _ _ _ _ _ W Hk E ltac:(intros [])) as Ik. apply (wiped_kind _ _ k W) in E. apply (wiped_kind _ _ m W) in Em.
      exact (proj1 (U k ops b m Ik Hm) E sub Em).
    - pose proof (wiped_inside _ _ _ _ _ W Hk E ltac:(intros [])) as Ik. destruct (proj2 (wiped_kind _ _ k W) _ E) as [ops' E0].
      destruct (w_old _ _ W k _ E0) as [E'|[q [a [nd' [_ [E1 [E2 I]]]]]]].
      + rewrite E in E'. injection E' as <-. apply (wiped_kind _ _ m W) in Em. destruct Em as [sub' Em]. exact (proj2 (U k ops b m Ik Hm) E0 sub' Em).
      + rewrite E in E1. injection E1 as ->. destruct Hm as [X|[]]. injection X as <- <-. rewrite Em in E2. injection E2 as <-. exact I.
  Qed.

  (** *** Sums and products keep operands *)
  Lemma given_set : forall (s : sst (F := F)) n nd, operands_given_in (fst s) -> n < length (fst s) -> nd <> GSum [] -> nd <> GMul [] -> operands_given_in (fst (set_node s n nd)).
  Proof. intros s n nd N L A B m. rewrite nth_set by exact L. destruct (Nat.eq_dec m n); [split; congruence|apply N]. Qed.
  Lemma given_alloc : forall (s : sst (F := F)) nd, operands_given_in (fst s) -> nd <> GSum [] -> nd <> GMul [] -> operands_given_in (fst (fst (alloc s nd))).
  Proof.
    intros s nd N A B m. cbn. destruct (Nat.lt_ge_cases m (length (fst s))) as [Hm|Hm]; [rewrite nth_error_app1 by exact Hm; apply N|].
    rewrite nth_error_app2 by exact Hm. destruct (m - length (fst s))%nat as [|[|]]; cbn; split; congruence.
  Qed.

  Definition keeps_given (f : sst (F := F) -> nat -> option (sst (F := F) * nat)) : Prop := forall s n s' c, operands_given_in (fst s) -> f s n = Some (s', c) ->
    operands_given_in (fst s') /\ length (fst s) <= length (fst s').
  Lemma over_given : forall f, keeps_given f -> forall ops s s' c, operands_given_in (fst s) -> over f s ops = Some (s', c) ->
    operands_given_in (fst s') /\ length (fst s) <= length (fst s').
  Proof.
    intros f K ops. induction ops as [|[m a] ops IH]; intros s s' c N E; cbn [over] in E; [injection E as <- _; split; [exact N|lia]|].
    destruct (f s a) as [[s1 c1]|] eqn:E1; [|discriminate]. destruct (over f s1 ops) as [[s2 c2]|] eqn:E2; [|discriminate]. injection E as <- _.
    destruct (K _ _ _ _ N E1) as [A B]. destruct (IH _ _ _ A E2). split; [assumption|lia].
  Qed.

  Lemma sums_given : forall (G : graph) ops, operands_given_in G -> ops <> [] -> fst (sums_into_sum G ops) <> [].
  Proof.
    intros G [|[m a] ops] N H; [contradiction|]. cbn [sums_into_sum]. destruct (sums_into_sum G ops) as [l c].
    destruct (nth_error G a) as [[| | |sub| | | | | |]|] eqn:Ea; try discriminate. cbn [fst]. destruct sub; [exfalso; exact (proj1 (N a) Ea)|discriminate].
  Qed.
  Lemma mults_given : forall (G : graph) ops, operands_given_in G -> ops <> [] -> fst (mults_into_mul G ops) <> [].
  Proof.
    intros G [|[m a] ops] N H; [contradiction|]. cbn [mults_into_mul]. destruct (mults_into_mul G ops) as [l c].
    destruct (nth_error G a) as [[| | | |sub| | | | |]|] eqn:Ea; try discriminate. cbn [fst]. destruct sub; [exfalso; exact (proj2 (N a) Ea)|discriminate].
  Qed.
  Lemma mults_sum_given : forall (G : graph) ops, ops <> [] -> fst (mults_into_sum G ops) <> [].
  Proof.
    intros G [|[m a] ops] H; [contradiction|]. cbn [mults_into_sum]. destruct (mults_into_sum G ops) as [l c].
    destruct (nth_error G a) as [[| | | |[|[[|] x] [|q r]]| | | | |]|]; discriminate.
  Qed.
  Lemma sums_mul_given : forall ops (s s' : sst (F := F)) l c, operands_given_in (fst s) -> sums_into_mul s ops = (s', l, c) ->
    operands_given_in (fst s') /\ length (fst s) <= length (fst s') /\ (ops <> [] -> l <> []).
  Proof.
    intro ops. induction ops as [|[m a] ops IH]; intros s s' l c N E; cbn [sums_into_mul] in E; [injection E as <- <- <-; split; [exact N|split; [lia|auto]]|].
    destruct (nth_error (fst s) a) as [[| | |[|[[|] x] [|q r]]| | | | | |]|] eqn:Ea;
      try (destruct (sums_into_mul s ops) as [[s1 l'] c'] eqn:E'; injection E as <- <- <-; destruct (IH _ _ _ _ N E') as [A [B _]]; split; [exact A|split; [exact B|discriminate]]).
    pose proof (given_alloc s (GNeg x) N ltac:(discriminate) ltac:(discriminate)) as Na. unfold alloc in *. cbn [fst snd] in *.
    match type of E with context [sums_into_mul ?s1 ops] => destruct (sums_into_mul s1 ops) as [[s2 l'] c'] eqn:E' end.
    injection E as <- <- <-. destruct (IH (_, _) _ _ _ Na E') as [A [B _]]. cbn [fst] in B. rewrite app_length in B. split; [exact A|split; [lia|discriminate]].
  Qed.

  Lemma plus_some : forall c (r : option (sst (F := F) * nat)) s c', plus_count c r = Some (s, c') -> exists c0, r = Some (s, c0).
  Proof. intros c [[s1 c1]|] s c' E; [|discriminate]. cbn in E. injection E as <- _. eauto. Qed.

  Lemma depth_given : forall fuel, keeps_given (depth_pass fuel).
  Proof.
    induction fuel as [|k IH]; intros s n s' c N E; [discriminate|]. cbn [depth_pass] in E.
    destruct (nth_error (fst s) n) as [nd|] eqn:En; [|discriminate]. assert (Ln : n < length (fst s)) by (apply nth_error_Some; congruence).
    destruct nd as [kk cc|  |x|ops|ops|a|a z|a b|kk a|a]; try (injection E as <- _; split; [exact N|lia]).
    - assert (No : ops <> []) by (intros ->; exact (proj1 (N n) En)). pose proof (sums_given _ _ N No) as A.
      destruct (sums_into_sum (fst s) ops) as [l1 c1]. cbn [fst] in A. pose proof (mults_sum_given (fst s) _ A) as B.
      destruct (mults_into_sum (fst s) l1) as [l2 c2]. cbn [fst] in B. apply plus_some in E as [c0 E].
      assert (N1 : operands_given_in (fst (set_node s n (GSum l2)))) by (apply given_set; [exact N|exact Ln|congruence|discriminate]).
      destruct (over_given _ IH _ _ _ _ N1 E) as [X Y]. rewrite length_set in Y by exact Ln. split; assumption.
    - assert (No : ops <> []) by (intros ->; exact (proj2 (N n) En)).
      destruct (sums_into_mul s ops) as [[s1 l1] c1] eqn:E1. destruct (sums_mul_given _ _ _ _ _ N E1) as [N1 [L1 A]]. specialize (A No).
      pose proof (mults_given _ _ N1 A) as B. destruct (mults_into_mul (fst s1) l1) as [l2 c2]. cbn [fst] in B. apply plus_some in E as [c0 E].
      assert (N2 : operands_given_in (fst (set_node s1 n (GMul l2)))) by (apply given_set; [exact N1|lia|discriminate|congruence]).
      destruct (over_given _ IH _ _ _ _ N2 E) as [X Y]. rewrite length_set in Y by lia. split; [assumption|lia].
  Qed.

  Lemma ones_given : forall fuel, keeps_given (ones_pass fs fuel).
  Proof.
    induction fuel as [|k IH]; intros s n s' c N E; [discriminate|]. cbn [ones_pass] in E.
    destruct (nth_error (fst s) n) as [nd|] eqn:En; [|discriminate]. assert (Ln : n < length (fst s)) by (apply nth_error_Some; congruence).
    destruct nd as [kk cc|  |x|ops|ops|a|a z|a b|kk a|a]; try (injection E as <- _; split; [exact N|lia]); [exact (over_given _ IH _ _ _ _ N E)|].
    destruct (Nat.ltb_spec 1 (length ops)) as [L|L]; [|exact (over_given _ IH _ _ _ _ N E)].
    destruct (test_all fs 1 k s ops) as [[s1 flags]|] eqn:Et; [|discriminate]. apply test_all_nodes in Et as [Et _].
    assert (Go : forall l, l <> [] -> over (ones_pass fs k) (set_node s1 n (GMul l)) l = Some (s', c) \/ (exists c0, over (ones_pass fs k) (set_node s1 n (GMul l)) l = Some (s', c0)) ->
      operands_given_in (fst s') /\ length (fst s) <= length (fst s')).
    { intros l Nl [Eo|[c0 Eo]]; (destruct (over_given _ IH _ _ _ _ (given_set s1 n (GMul l) ltac:(rewrite Et; exact N) ltac:(rewrite Et; exact Ln) ltac:(discriminate) ltac:(congruence)) Eo) as [X Y];
        rewrite length_set in Y by (rewrite Et; exact Ln); rewrite Et in Y; split; assumption). }
    destruct (keep ops flags) as [|p kept] eqn:Ek; apply plus_some in E as [c0 E].
    - apply (Go (firstn 1 ops)); [destruct ops; [cbn in L; lia|discriminate]|right; exists c0; exact E].
    - apply (Go (p :: kept)); [discriminate|right; exists c0; exact E].
  Qed.

  Lemma zeros_given : forall fuel, keeps_given (zeros_pass fs fuel).
  Proof.
    induction fuel as [|k IH]; intros s n s' c N E; [discriminate|]. cbn [zeros_pass] in E.
    destruct (nth_error (fst s) n) as [nd|] eqn:En; [|discriminate]. assert (Ln : n < length (fst s)) by (apply nth_error_Some; congruence).
    destruct nd as [kk cc|  |x|ops|ops|a|a z|a b|kk a|a]; try (injection E as <- _; split; [exact N|lia]).
    - destruct (Nat.ltb_spec 1 (length ops)) as [L|L]; [|exact (over_given _ IH _ _ _ _ N E)].
      destruct (test_all fs 0 k s ops) as [[s1 flags]|] eqn:Et; [|discriminate]. apply test_all_nodes in Et as [Et _].
      destruct (keep ops flags) as [|p kept] eqn:Ek.
      + pose proof (given_alloc s1 (GNum KInteger 0) ltac:(rewrite Et; exact N) ltac:(discriminate) ltac:(discriminate)) as Na.
        assert (La : length (fst (fst (alloc s1 (GNum KInteger 0)))) = S (length (fst s))) by (cbn; rewrite app_length, Et; cbn; lia).
        destruct (alloc s1 (GNum KInteger 0)) as [s2 a2]. cbn [fst] in Na, La. apply plus_some in E as [c0 E].
        destruct (over_given _ IH _ _ _ _ (given_set s2 n (GSum [(true, a2)]) Na ltac:(lia) ltac:(discriminate) ltac:(discriminate)) E) as [X Y].
        rewrite length_set in Y by lia. split; [exact X|lia].
      + apply plus_some in E as [c0 E].
        destruct (over_given _ IH _ _ _ _ (given_set s1 n (GSum (p :: kept)) ltac:(rewrite Et; exact N) ltac:(rewrite Et; exact Ln) ltac:(discriminate) ltac:(discriminate)) E) as [X Y].
        rewrite length_set in Y by (rewrite Et; exact Ln). rewrite Et in Y. split; assumption.
    - destruct (test_any fs 0 k s ops) as [[s1 [|]]|] eqn:Et; [| |discriminate]; apply test_any_nodes in Et.
      + pose proof (given_alloc s1 (GNum KInteger 0) ltac:(rewrite Et; exact N) ltac:(discriminate) ltac:(discriminate)) as Na.
        assert (La : length (fst (fst (alloc s1 (GNum KInteger 0)))) = S (length (fst s))) by (cbn; rewrite app_length, Et; cbn; lia).
        destruct (alloc s1 (GNum KInteger 0)) as [s2 a2]. cbn [fst] in Na, La. injection E as <- _.
        split; [apply given_set; [exact Na|lia|discriminate|discriminate]|rewrite length_set by lia; lia].
      + rewrite <- Et in *. exact (over_given _ IH _ _ _ _ N E).
  Qed.

  Lemma simplify_unnested : forall rounds fuel (s s' : sst (F := F)) n, operands_given_in (fst s) -> graph_simplify fs rounds fuel s n = Some s' ->
    unnested (fst s') n /\ operands_given_in (fst s').
  Proof.
    induction rounds as [|r IH]; intros fuel s s' n N E; [discriminate|]. cbn [graph_simplify] in E.
    destruct (graph_round fs fuel s n) as [[s1 c]|] eqn:Er; [|discriminate]. unfold graph_round in Er.
    destruct (depth_pass fuel s n) as [[sd cd]|] eqn:Ed; [|discriminate]. destruct (ones_pass fs fuel sd n) as [[so co]|] eqn:Eo; [|discriminate].
    destruct (depth_given _ _ _ _ _ N Ed) as [Nd _]. destruct (ones_given _ _ _ _ _ Nd Eo) as [No _].
    destruct (plus_some _ _ _ _ Er) as [cz Ez]. destruct (zeros_given _ _ _ _ _ No Ez) as [Nz _].
    destruct c as [|c]; [|exact (IH _ _ _ _ Nz E)]. injection E as <-. apply plus_0 in Er as [Z Er].
    assert (cd = O) by lia. assert (co = O) by lia. subst cd co. destruct (depth_pass_0 _ _ _ _ N Ed) as [-> U].
    apply ones_pass_0 in Eo. destruct (zeros_pass_0 _ _ _ _ No Er) as [W _]. rewrite Eo in W. split; [exact (wiped_unnested _ _ _ W U)|exact Nz].
  Qed.
End GNormal.

(** x + (y - x), with x and y at 0 and 1 *)
Definition nested_nodes : list (gnode (F := QcF)) := [GVar; GVar; GSum [(true, 1); (false, 0)]; GSum [(true, 0); (true, 2)]].
Definition nested_values : numtype -> env QcF := fun _ n => match n with 0 => qc 3 1 | _ => qc 5 1 end.
Lemma nested_nodes_given : operands_given_in nested_nodes.
Proof. intros [|[|[|[|[|n]]]]]; cbn; split; discriminate. Qed.
Lemma nested_nodes_simplified : exists G' st', graph_simplify qc_funs 9 9 (nested_nodes, ginit nested_values) 3 = Some (G', st') /\
  nth_error G' 3 = Some (GSum [(true, 0); (true, 1); (false, 0)]).
Proof.
  assert (H : match graph_simplify qc_funs 9 9 (nested_nodes, ginit nested_values) 3 with
    | Some (G', st') => match nth_error G' 3 with Some (GSum [(true, 0); (true, 1); (false, 0)]) => true | _ => false end | None => false end = true) by (vm_compute; reflexivity).
  destruct (graph_simplify _ _ _ _ _) as [[G' st']|]; [|discriminate]. exists G', st'. split; [reflexivity|].
  destruct (nth_error G' 3) as [[| | |ops| | | | | |]|]; try discriminate.
  destruct ops as [|[[|] [|?]] [|[[|] [|[|?]]] [|[[|] [|?]] [|? ?]]]]; try discriminate. reflexivity.
Qed.
