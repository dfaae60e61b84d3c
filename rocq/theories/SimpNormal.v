(** What is left when Simplify (Simplify.v) returns: nothing that another round would change. *)
From Coq Require Import List Arith Lia ZArith Bool.
From Verif Require Import Base Expr Diff Simplify.
Import ListNotations.

(** ** Specification *)
Section Spec.
  Context {F : fld}.
  Variables (fs : funs F) (rho0 : env F).

  (** Nothing to fold or to drop at a node: no sum in a sum, no product in a product, no operand wrapped in a sum or product
      of one; with several operands, no summand is 0 and no factor is 0 or 1, at the values held *)
  Definition irreducible_at (e : expr F) : Prop :=
    match e with
    | Sum ops => forall m a, In (m, a) ops ->
        (forall l, a <> Sum l) /\ (forall x, a <> Mul [(true, x)]) /\ (1 < length ops -> eval fs rho0 a <> Some f0)
    | Mul ops => forall m a, In (m, a) ops ->
        (forall l, a <> Mul l) /\ (forall q, a <> Sum [q]) /\
        (1 < length ops -> eval fs rho0 a <> Some f0 /\ eval fs rho0 a <> Some f1)
    | _ => True
    end.
  Definition irreducible (e : expr F) : Prop := forall s, subtree s e -> irreducible_at s.

  (** every sum and every product has operands, as the assertions of the code demand *)
  Definition operands_given (e : expr F) : Prop := forall s, subtree s e -> s <> Sum [] /\ s <> Mul [].
End Spec.

Section Normal.
  Context {F : fld}.
  Local Open Scope fld_scope.
  Variables (fs : funs F) (rho0 : env F).
  Notation ops_t := (list (bool * expr F)).

  Definition leaf (e : expr F) : Prop := match e with Sum _ | Mul _ => False | _ => True end.
  Inductive full : expr F -> Prop :=
  | full_sum : forall ops, ops <> [] -> Forall (fun p => full (snd p)) ops -> full (Sum ops)
  | full_mul : forall ops, ops <> [] -> Forall (fun p => full (snd p)) ops -> full (Mul ops)
  | full_leaf : forall e, leaf e -> full e.

  Lemma full_of : forall e, operands_given e -> full e.
  Proof.
    induction e as [k c|x|ops IH|ops IH|e IH|e n IH|b e IHb IHe|k e IH|e IH] using expr_rect';
      intro H; try (apply full_leaf; exact I).
    - apply full_sum; [intros ->; destruct (H _ (st_here _)) as [A _]; apply A; reflexivity|].
      rewrite Forall_forall in *. intros [m a] Hp. apply (IH _ Hp). intros s Hs. apply H. eapply st_sum; eassumption.
    - apply full_mul; [intros ->; destruct (H _ (st_here _)) as [_ A]; apply A; reflexivity|].
      rewrite Forall_forall in *. intros [m a] Hp. apply (IH _ Hp). intros s Hs. apply H. eapply st_mul; eassumption.
  Qed.
  Lemma full_sum_inv : forall ops, full (Sum ops) -> ops <> [] /\ Forall (fun p => full (snd p)) ops.
  Proof. intros ops H. inversion H; subst; [auto|]. match goal with X : leaf _ |- _ => destruct X end. Qed.
  Lemma full_mul_inv : forall ops, full (Mul ops) -> ops <> [] /\ Forall (fun p => full (snd p)) ops.
  Proof. intros ops H. inversion H; subst; [auto|]. match goal with X : leaf _ |- _ => destruct X end. Qed.

  Lemma list_sum_0 : forall l, list_sum l = O -> forall x, In x l -> x = O.
  Proof. induction l as [|a l IH]; intros E x; [intros []|]. change (a + list_sum l = O)%nat in E. intros [->|H]; [lia|]. apply IH; [lia|exact H]. Qed.

  (** *** The folds *)
  Lemma xnor_full : forall m (sub : ops_t), Forall (fun p => full (snd p)) sub ->
    Forall (fun p => full (snd p)) (map (fun q => (xnor (fst q) m, snd q)) sub).
  Proof. intros. apply Forall_forall. intros p Hp. apply in_map_iff in Hp as [q [<- Hq]]. rewrite Forall_forall in H. exact (H q Hq). Qed.

  Lemma flat_map_full : forall (f : bool * expr F -> ops_t) ops, ops <> [] ->
    (forall p, In p ops -> f p <> [] /\ Forall (fun p => full (snd p)) (f p)) ->
    flat_map f ops <> [] /\ Forall (fun p => full (snd p)) (flat_map f ops).
  Proof.
    intros f ops N H. split.
    - destruct ops as [|p ops]; [contradiction|]. cbn. destruct (H p (or_introl eq_refl)) as [A _]. destruct (f p); [contradiction|discriminate].
    - apply Forall_forall. intros q Hq. apply in_flat_map in Hq as [p [Hp Hq]]. destruct (H p Hp) as [_ A]. rewrite Forall_forall in A. exact (A q Hq).
  Qed.

  Lemma map_full : forall (f : bool * expr F -> bool * expr F) ops, ops <> [] ->
    (forall p, In p ops -> full (snd (f p))) -> map f ops <> [] /\ Forall (fun p => full (snd p)) (map f ops).
  Proof.
    intros f ops N H. split; [destruct ops; [contradiction|discriminate]|]. apply Forall_forall. intros q Hq.
    apply in_map_iff in Hq as [p [<- Hp]]. apply H, Hp.
  Qed.

  Definition ok_ops (ops : ops_t) : Prop := ops <> [] /\ Forall (fun p => full (snd p)) ops.

  Lemma ok_in : forall ops p, ok_ops ops -> In p ops -> full (snd p).
  Proof. intros ops p [_ H]. rewrite Forall_forall in H. apply H. Qed.

  Lemma ok_sum_sums : forall ops, ok_ops ops -> ok_ops (fst (sum_reduce_sums ops)).
  Proof.
    intros ops K0. apply flat_map_full; [exact (proj1 K0)|]. intros [m a] Hp. pose proof (ok_in _ _ K0 Hp) as Fa. cbn [fst snd] in *.
    destruct a as [k c|x|sub|sub|a|a n|b a|k a|a]; try (split; [discriminate|constructor; [exact Fa|constructor]]).
    apply full_sum_inv in Fa as [A B]. split; [destruct sub; [contradiction|discriminate]|]. apply xnor_full, B.
  Qed.
  Lemma ok_mul_mults : forall ops, ok_ops ops -> ok_ops (fst (mul_reduce_mults ops)).
  Proof.
    intros ops K0. apply flat_map_full; [exact (proj1 K0)|]. intros [m a] Hp. pose proof (ok_in _ _ K0 Hp) as Fa. cbn [fst snd] in *.
    destruct a as [k c|x|sub|sub|a|a n|b a|k a|a]; try (split; [discriminate|constructor; [exact Fa|constructor]]).
    apply full_mul_inv in Fa as [A B]. split; [destruct sub; [contradiction|discriminate]|]. apply xnor_full, B.
  Qed.
  Lemma ok_sum_mults : forall ops, ok_ops ops -> ok_ops (fst (sum_reduce_mults ops)).
  Proof.
    intros ops K0. apply map_full; [exact (proj1 K0)|]. intros [m a] Hp. pose proof (ok_in _ _ K0 Hp) as Fa. cbn [fst snd] in *.
    destruct a as [k c|x|sub|[|[[|] y] [|q r]]|a|a n|b a|k a|a]; cbn [fst snd]; try exact Fa.
    apply full_mul_inv in Fa as [_ B]. inversion B; assumption.
  Qed.
  Lemma ok_mul_sums : forall ops, ok_ops ops -> ok_ops (fst (mul_reduce_sums ops)).
  Proof.
    intros ops K0. apply map_full; [exact (proj1 K0)|]. intros [m a] Hp. pose proof (ok_in _ _ K0 Hp) as Fa. cbn [fst snd] in *.
    destruct a as [k c|x|[|[[|] y] [|q r]]|sub|a|a n|b a|k a|a]; cbn [fst snd]; try exact Fa.
    - apply full_sum_inv in Fa as [_ B]. inversion B; assumption.
    - apply full_leaf. exact I.
  Qed.

  (** a fold which counts nothing changes nothing *)
  Lemma flat_map_same : forall (f : bool * expr F -> ops_t) ops, (forall p, In p ops -> f p = [p]) -> flat_map f ops = ops.
  Proof. intros f ops. induction ops as [|p ops IH]; intro H; [reflexivity|]. cbn. rewrite (H p (or_introl eq_refl)). cbn. f_equal. apply IH. intros; apply H; right; assumption. Qed.
  Lemma map_same : forall A (f : A -> A) l, (forall p, In p l -> f p = p) -> map f l = l.
  Proof. intros. transitivity (map (fun x => x) l); [apply map_ext_in; assumption|apply map_id]. Qed.

  Lemma sum_sums_0 : forall ops, ok_ops ops -> snd (sum_reduce_sums ops) = O ->
    fst (sum_reduce_sums ops) = ops /\ forall m a l, In (m, a) ops -> a <> Sum l.
  Proof.
    intros ops K0 E. assert (K : forall m a l, In (m, a) ops -> a <> Sum l).
    { intros m a l Hp ->. pose proof (ok_in _ _ K0 Hp) as Fa. apply full_sum_inv in Fa as [A _]. cbn in E.
      pose proof (list_sum_0 _ E (length l)) as X. destruct l; [contradiction|]. enough (S (length l) = O) by lia. apply X.
      apply in_map_iff. exists (m, Sum (p :: l)). split; [reflexivity|exact Hp]. }
    split; [|exact K]. apply flat_map_same. intros [m a] Hp. cbn [fst snd]. destruct a; try reflexivity. exfalso. exact (K _ _ _ Hp eq_refl).
  Qed.
  Lemma mul_mults_0 : forall ops, ok_ops ops -> snd (mul_reduce_mults ops) = O ->
    fst (mul_reduce_mults ops) = ops /\ forall m a l, In (m, a) ops -> a <> Mul l.
  Proof.
    intros ops K0 E. assert (K : forall m a l, In (m, a) ops -> a <> Mul l).
    { intros m a l Hp ->. pose proof (ok_in _ _ K0 Hp) as Fa. apply full_mul_inv in Fa as [A _]. cbn in E.
      pose proof (list_sum_0 _ E (length l)) as X. destruct l; [contradiction|]. enough (S (length l) = O) by lia. apply X.
      apply in_map_iff. exists (m, Mul (p :: l)). split; [reflexivity|exact Hp]. }
    split; [|exact K]. apply flat_map_same. intros [m a] Hp. cbn [fst snd]. destruct a; try reflexivity. exfalso. exact (K _ _ _ Hp eq_refl).
  Qed.
  Lemma sum_mults_0 : forall ops : ops_t, snd (sum_reduce_mults ops) = O ->
    fst (sum_reduce_mults ops) = ops /\ forall m a x, In (m, a) ops -> a <> Mul [(true, x)].
  Proof.
    intros ops E. assert (K : forall m a x, In (m, a) ops -> a <> Mul [(true, x)]).
    { intros m a x Hp ->. cbn in E. enough (1 = 0)%nat by lia. apply (list_sum_0 _ E).
      apply in_map_iff. exists (m, Mul [(true, x)]). split; [reflexivity|exact Hp]. }
    split; [|exact K]. apply map_same. intros [m a] Hp. cbn [fst snd]. destruct a as [| | |[|[[|] y] [|]]| | | | |]; try reflexivity.
    exfalso. exact (K _ _ _ Hp eq_refl).
  Qed.
  Lemma mul_sums_0 : forall ops : ops_t, snd (mul_reduce_sums ops) = O ->
    fst (mul_reduce_sums ops) = ops /\ forall m a q, In (m, a) ops -> a <> Sum [q].
  Proof.
    intros ops E. assert (K : forall m a q, In (m, a) ops -> a <> Sum [q]).
    { intros m a q Hp ->. cbn in E. enough (1 = 0)%nat by lia. apply (list_sum_0 _ E).
      apply in_map_iff. exists (m, Sum [q]). split; [reflexivity|exact Hp]. }
    split; [|exact K]. apply map_same. intros [m a] Hp. cbn [fst snd]. destruct a as [| |[|[[|] y] [|]]| | | | | |]; try reflexivity;
    exfalso; exact (K _ _ _ Hp eq_refl).
  Qed.

  (** *** ReduceDepth *)
  Definition flat_at (e : expr F) : Prop :=
    match e with
    | Sum ops => forall m a, In (m, a) ops -> (forall l, a <> Sum l) /\ (forall x, a <> Mul [(true, x)])
    | Mul ops => forall m a, In (m, a) ops -> (forall l, a <> Mul l) /\ (forall q, a <> Sum [q])
    | _ => True
    end.
  Definition flat (e : expr F) : Prop := forall s, subtree s e -> flat_at s.

  Lemma flat_sum : forall ops, flat_at (Sum ops) -> (forall m a, In (m, a) ops -> flat a) -> flat (Sum ops).
  Proof. intros ops A B s Hs. inversion Hs; subst; [exact A|]. eapply B; eassumption. Qed.
  Lemma flat_mul : forall ops, flat_at (Mul ops) -> (forall m a, In (m, a) ops -> flat a) -> flat (Mul ops).
  Proof. intros ops A B s Hs. inversion Hs; subst; [exact A|]. eapply B; eassumption. Qed.
  Lemma flat_leaf : forall e, leaf e -> flat e.
  Proof. intros e L s Hs. inversion Hs; subst; cbn in L; try contradiction. destruct e; try contradiction; exact I. Qed.

  (** the results of the operands *)
  Definition results (fuel : nat) (ops : ops_t) : option (list (bool * (expr F * nat))) :=
    map_opt (fun p => match reduce_depth fuel (snd p) with Some r => Some (fst p, r) | None => None end) ops.

  Lemma results_in : forall fuel ops rs, results fuel ops = Some rs ->
    Forall2 (fun p q => fst q = fst p /\ reduce_depth fuel (snd p) = Some (snd q)) ops rs.
  Proof.
    intros fuel ops rs H. apply map_opt_forall2 in H. induction H as [|p q l l' Hpq _ IHl]; constructor; [|exact IHl].
    destruct (reduce_depth fuel (snd p)) as [r|]; [|discriminate]. injection Hpq as <-. split; reflexivity.
  Qed.

  Lemma depth_full : forall fuel e r, reduce_depth fuel e = Some r -> full e -> full (fst r).
  Proof.
    induction fuel as [|fuel IH]; intros e r E Fe; [discriminate|].
    assert (Step : forall ops rs, ok_ops ops -> results fuel ops = Some rs -> ok_ops (map (fun q => (fst q, fst (snd q))) rs)).
    { intros ops rs K0 Er. apply results_in in Er. destruct K0 as [N A]. split.
      - inversion Er; subst; [contradiction|discriminate].
      - clear N. induction Er as [|p q l l' [_ Hq] _ IHl]; constructor; inversion A; subst; [|apply IHl; assumption].
        cbn [snd]. exact (IH _ _ Hq H1). }
    cbn [reduce_depth] in E. destruct e as [k c|x|ops|ops|e|e n|b e|k e|e]; try (injection E as <-; exact Fe).
    - apply full_sum_inv in Fe. fold (results fuel (fst (sum_reduce_mults (fst (sum_reduce_sums ops))))) in E.
      destruct (results fuel _) as [rs|] eqn:Er; [|discriminate]. injection E as <-. cbn [fst].
      destruct (Step _ _ (ok_sum_mults _ (ok_sum_sums _ Fe)) Er) as [A B]. apply full_sum; assumption.
    - apply full_mul_inv in Fe. fold (results fuel (fst (mul_reduce_mults (fst (mul_reduce_sums ops))))) in E.
      destruct (results fuel _) as [rs|] eqn:Er; [|discriminate]. injection E as <-. cbn [fst].
      destruct (Step _ _ (ok_mul_mults _ (ok_mul_sums _ Fe)) Er) as [A B]. apply full_mul; assumption.
  Qed.

  Lemma depth_0 : forall fuel e e', reduce_depth fuel e = Some (e', O) -> full e -> e' = e /\ flat e.
  Proof.
    induction fuel as [|fuel IH]; intros e e' E Fe; [discriminate|].
    assert (Step : forall ops rs, ok_ops ops -> results fuel ops = Some rs -> list_sum (map (fun q => snd (snd q)) rs) = O ->
      map (fun q => (fst q, fst (snd q))) rs = ops /\ forall m a, In (m, a) ops -> flat a).
    { intros ops rs [_ A] Er. apply results_in in Er. induction Er as [|[m p] [m' [q c]] l l' [Hm Hq] _ IHl]; intro Z.
      - split; [reflexivity|intros m a []].
      - cbn [map fst snd] in *. change (c + list_sum (map (fun q => snd (snd q)) l') = O)%nat in Z. inversion A; subst. cbn [snd] in *.
        assert (c = O) by lia. subst c. destruct (IH _ _ Hq ltac:(assumption)) as [-> Fp].
        destruct (IHl ltac:(assumption) ltac:(lia)) as [-> Fl]. split; [reflexivity|].
        intros m0 a [X|X]; [injection X as <- <-; exact Fp|exact (Fl _ _ X)]. }
    cbn [reduce_depth] in E. destruct e as [k c|x|ops|ops|e|e n|b e|k e|e]; try (injection E as <-; split; [reflexivity|apply flat_leaf; exact I]).
    - apply full_sum_inv in Fe. fold (results fuel (fst (sum_reduce_mults (fst (sum_reduce_sums ops))))) in E.
      destruct (results fuel _) as [rs|] eqn:Er; [|discriminate]. injection E as <- Z.
      change (snd (sum_reduce_sums ops) + snd (sum_reduce_mults (fst (sum_reduce_sums ops))) + list_sum (map (fun q => snd (snd q)) rs) = O)%nat in Z.
      destruct (sum_sums_0 ops Fe ltac:(lia)) as [E1 K1]. rewrite E1 in *. destruct (sum_mults_0 ops ltac:(lia)) as [E2 K2]. rewrite E2 in *.
      destruct (Step _ _ Fe Er ltac:(lia)) as [-> Fl]. split; [reflexivity|]. apply flat_sum; [|exact Fl].
      intros m a Hp. split; intros; [eapply K1|eapply K2]; eassumption.
    - apply full_mul_inv in Fe. fold (results fuel (fst (mul_reduce_mults (fst (mul_reduce_sums ops))))) in E.
      destruct (results fuel _) as [rs|] eqn:Er; [|discriminate]. injection E as <- Z.
      change (snd (mul_reduce_sums ops) + snd (mul_reduce_mults (fst (mul_reduce_sums ops))) + list_sum (map (fun q => snd (snd q)) rs) = O)%nat in Z.
      destruct (mul_sums_0 ops ltac:(lia)) as [E1 K1]. rewrite E1 in *. destruct (mul_mults_0 ops Fe ltac:(lia)) as [E2 K2]. rewrite E2 in *.
      destruct (Step _ _ Fe Er ltac:(lia)) as [-> Fl]. split; [reflexivity|]. apply flat_mul; [|exact Fl].
      intros m a Hp. split; intros; [eapply K2|eapply K1]; eassumption.
  Qed.

  (** nothing to fold, nothing counted *)
  Lemma depth_flat : forall fuel e r, reduce_depth fuel e = Some r -> flat e -> r = (e, O).
  Proof.
    induction fuel as [|fuel IH]; intros e r E Fe; [discriminate|].
    assert (Step : forall ops rs, (forall m a, In (m, a) ops -> flat a) -> results fuel ops = Some rs ->
      map (fun q => (fst q, fst (snd q))) rs = ops /\ list_sum (map (fun q => snd (snd q)) rs) = O).
    { intros ops rs A Er. apply results_in in Er. induction Er as [|[m p] [m' [q c]] l l' [Hm Hq] _ IHl]; [split; reflexivity|].
      cbn [map fst snd] in *. pose proof (IH _ _ Hq (A m p (or_introl eq_refl))) as X. injection X as -> ->.
      destruct (IHl ltac:(intros; eapply A; right; eassumption)) as [-> Z]. subst m'. split; [reflexivity|exact Z]. }
    cbn [reduce_depth] in E. destruct e as [k c|x|ops|ops|e|e n|b e|k e|e]; try (injection E as <-; reflexivity).
    - fold (results fuel (fst (sum_reduce_mults (fst (sum_reduce_sums ops))))) in E. pose proof (Fe _ (st_here _)) as H. cbn in H.
      assert (E1 : sum_reduce_sums ops = (ops, O)).
      { unfold sum_reduce_sums. f_equal.
        - apply flat_map_same. intros [m a] Hp. cbn. destruct a; try reflexivity. exfalso. exact (proj1 (H _ _ Hp) _ eq_refl).
        - clear -H. induction ops as [|[m a] ops IHo]; [reflexivity|]. cbn [map snd]. rewrite list_sum_cons, IHo by (intros; eapply H; right; eassumption).
          destruct a; try reflexivity. exfalso. exact (proj1 (H _ _ (or_introl eq_refl)) _ eq_refl). }
      assert (E2 : sum_reduce_mults ops = (ops, O)).
      { unfold sum_reduce_mults. f_equal.
        - apply map_same. intros [m a] Hp. cbn. destruct a as [| | |[|[[|] y] [|]]| | | | |]; try reflexivity. exfalso. exact (proj2 (H _ _ Hp) _ eq_refl).
        - clear -H. induction ops as [|[m a] ops IHo]; [reflexivity|]. cbn [map snd]. rewrite list_sum_cons, IHo by (intros; eapply H; right; eassumption).
          destruct a as [| | |[|[[|] y] [|]]| | | | |]; try reflexivity. exfalso. exact (proj2 (H _ _ (or_introl eq_refl)) _ eq_refl). }
      rewrite E1 in E. cbn [fst snd] in E. rewrite E2 in E. cbn [fst snd] in E. destruct (results fuel ops) as [rs|] eqn:Er; [|discriminate].
      destruct (Step _ _ ltac:(intros m a Hp s Hs; apply Fe; eapply st_sum; eassumption) Er) as [X Y]. rewrite X, Y in E. injection E as <-. reflexivity.
    - fold (results fuel (fst (mul_reduce_mults (fst (mul_reduce_sums ops))))) in E. pose proof (Fe _ (st_here _)) as H. cbn in H.
      assert (E1 : mul_reduce_sums ops = (ops, O)).
      { unfold mul_reduce_sums. f_equal.
        - apply map_same. intros [m a] Hp. cbn. destruct a as [| |[|[[|] y] [|]]| | | | | |]; try reflexivity; exfalso; exact (proj2 (H _ _ Hp) _ eq_refl).
        - clear -H. induction ops as [|[m a] ops IHo]; [reflexivity|]. cbn [map snd]. rewrite list_sum_cons, IHo by (intros; eapply H; right; eassumption).
          destruct a as [| |[|[[|] y] [|]]| | | | | |]; try reflexivity; exfalso; exact (proj2 (H _ _ (or_introl eq_refl)) _ eq_refl). }
      assert (E2 : mul_reduce_mults ops = (ops, O)).
      { unfold mul_reduce_mults. f_equal.
        - apply flat_map_same. intros [m a] Hp. cbn. destruct a; try reflexivity. exfalso. exact (proj1 (H _ _ Hp) _ eq_refl).
        - clear -H. induction ops as [|[m a] ops IHo]; [reflexivity|]. cbn [map snd]. rewrite list_sum_cons, IHo by (intros; eapply H; right; eassumption).
          destruct a; try reflexivity. exfalso. exact (proj1 (H _ _ (or_introl eq_refl)) _ eq_refl). }
      rewrite E1 in E. cbn [fst snd] in E. rewrite E2 in E. cbn [fst snd] in E. destruct (results fuel ops) as [rs|] eqn:Er; [|discriminate].
      destruct (Step _ _ ltac:(intros m a Hp s Hs; apply Fe; eapply st_mul; eassumption) Er) as [X Y]. rewrite X, Y in E. injection E as <-. reflexivity.
  Qed.

  (** *** EliminateOnes, EliminateZeros *)
  Lemma filter_length_le : forall A (f : A -> bool) l, (length (filter f l) <= length l)%nat.
  Proof. intros A f l. induction l as [|a l IH]; [apply Nat.le_refl|]. cbn. destruct (f a); cbn; lia. Qed.
  Lemma filter_all : forall A (f : A -> bool) l, length (filter f l) = length l -> filter f l = l /\ forall x, In x l -> f x = true.
  Proof.
    intros A f l. induction l as [|a l IH]; intro H; [split; [reflexivity|intros x []]|]. cbn in *.
    destruct (f a) eqn:Fa; cbn in H.
    - destruct (IH ltac:(lia)) as [-> K]. split; [reflexivity|]. intros x [<-|X]; [exact Fa|exact (K x X)].
    - pose proof (filter_length_le _ f l). lia.
  Qed.

  Lemma filter_true : forall A (f : A -> bool) l, (forall x, In x l -> f x = true) -> filter f l = l.
  Proof. intros A f l. induction l as [|a l IH]; intro H; [reflexivity|]. cbn. rewrite (H a (or_introl eq_refl)). f_equal. apply IH. intros; apply H; right; assumption. Qed.

  Notation ones := (eliminate_ones fs rho0).
  Notation zeros := (eliminate_zeros fs rho0).
  (** an operand, with its result *)
  Notation with_result g := (fun p : bool * expr F => (fst p, (snd p, g (snd p)))).

  Lemma results_same : forall (g : expr F -> expr F * nat) ops, (forall m a, In (m, a) ops -> fst (g a) = a) ->
    map (fun q => (fst q, fst (snd (snd q)))) (map (with_result g) ops) = ops.
  Proof. intros g ops H. rewrite map_map. apply map_same. intros [m a] Hp. cbn. rewrite (H m a Hp). reflexivity. Qed.
  Lemma results_same' : forall (g : expr F -> expr F * nat) ops, (forall m a, In (m, a) ops -> fst (g a) = a) ->
    map (fun q => (fst q, fst (snd q))) (map (fun p : bool * expr F => (fst p, g (snd p))) ops) = ops.
  Proof. intros g ops H. rewrite map_map. apply map_same. intros [m a] Hp. cbn. rewrite (H m a Hp). reflexivity. Qed.
  Lemma counts_0 : forall (g : expr F -> expr F * nat) ops, list_sum (map (fun q => snd (snd (snd q))) (map (with_result g) ops)) = O ->
    forall m a, In (m, a) ops -> snd (g a) = O.
  Proof. intros g ops E m a Hp. rewrite map_map in E. apply (list_sum_0 _ E). apply in_map_iff. exists (m, a). auto. Qed.
  Lemma counts_0' : forall (g : expr F -> expr F * nat) ops,
    list_sum (map (fun q => snd (snd q)) (map (fun p : bool * expr F => (fst p, g (snd p))) ops)) = O ->
    forall m a, In (m, a) ops -> snd (g a) = O.
  Proof. intros g ops E m a Hp. rewrite map_map in E. apply (list_sum_0 _ E). apply in_map_iff. exists (m, a). auto. Qed.
  Lemma counts_all : forall (g : expr F -> expr F * nat) ops, (forall m a, In (m, a) ops -> snd (g a) = O) ->
    list_sum (map (fun q => snd (snd (snd q))) (map (with_result g) ops)) = O.
  Proof. intros g ops. induction ops as [|[m a] ops IH]; intro H; [reflexivity|]. cbn [map snd]. rewrite list_sum_cons, IH by (intros; eapply H; right; eassumption). rewrite (H m a (or_introl eq_refl)). reflexivity. Qed.
  Lemma counts_all' : forall (g : expr F -> expr F * nat) ops, (forall m a, In (m, a) ops -> snd (g a) = O) ->
    list_sum (map (fun q => snd (snd q)) (map (fun p : bool * expr F => (fst p, g (snd p))) ops)) = O.
  Proof. intros g ops. induction ops as [|[m a] ops IH]; intro H; [reflexivity|]. cbn [map snd]. rewrite list_sum_cons, IH by (intros; eapply H; right; eassumption). rewrite (H m a (or_introl eq_refl)). reflexivity. Qed.

  Lemma evals_to_true : forall c e, evals_to fs rho0 c e = true <-> eval fs rho0 e = Some c.
  Proof.
    intros c e. unfold evals_to. destruct (eval fs rho0 e) as [x|]; [|split; discriminate].
    unfold feqb. destruct (feq_dec x c) as [->|N]; split; intro H; try reflexivity; try discriminate. injection H as ->. contradiction.
  Qed.
  Lemma evals_to_false : forall c e, negb (evals_to fs rho0 c e) = true <-> eval fs rho0 e <> Some c.
  Proof.
    intros c e. rewrite <- evals_to_true. destruct (evals_to fs rho0 c e); cbn; split; intro H; try reflexivity; try discriminate.
    exfalso. apply H. reflexivity.
  Qed.

  Definition no_ones_at (e : expr F) : Prop :=
    match e with Mul ops => (1 < length ops)%nat -> forall m a, In (m, a) ops -> eval fs rho0 a <> Some 1 | _ => True end.
  Definition no_ones (e : expr F) : Prop := forall s, subtree s e -> no_ones_at s.
  Definition no_zeros_at (e : expr F) : Prop :=
    match e with
    | Sum ops => (1 < length ops)%nat -> forall m a, In (m, a) ops -> eval fs rho0 a <> Some 0
    | Mul ops => (1 < length ops)%nat -> forall m a, In (m, a) ops -> eval fs rho0 a <> Some 0
    | _ => True
    end.
  Definition no_zeros (e : expr F) : Prop := forall s, subtree s e -> no_zeros_at s.

  Lemma in_forall : forall (P : expr F -> Prop) ops m a, Forall (fun p : bool * expr F => P (snd p)) ops -> In (m, a) ops -> P a.
  Proof. intros P ops m a H Hp. rewrite Forall_forall in H. exact (H _ Hp). Qed.

  Lemma ones_0 : forall e, snd (ones e) = O -> fst (ones e) = e /\ no_ones e.
  Proof.
    induction e as [k c|x|ops IH|ops IH|e IH|e n IH|b e IHb IHe|k e IH|e IH] using expr_rect';
      intro Z; try (split; [reflexivity|]; intros s Hs; inversion Hs; subst; exact I).
    - cbn [eliminate_ones fst snd] in *.
      assert (K : forall m a, In (m, a) ops -> fst (ones a) = a /\ no_ones a).
      { intros m a Hp. apply (in_forall (fun a => snd (ones a) = O -> fst (ones a) = a /\ no_ones a) _ _ _ IH Hp). exact (counts_0' ones ops Z m a Hp). }
      split.
      + f_equal. apply results_same'. intros m a Hp. exact (proj1 (K m a Hp)).
      + intros s Hs. inversion Hs; subst; [exact I|]. eapply (proj2 (K _ _ ltac:(eassumption))). assumption.
    - cbn [eliminate_ones] in *. destruct (Nat.ltb_spec 1 (length ops)) as [L|L].
      + destruct (filter (fun q => negb (evals_to fs rho0 1 (fst (snd q)))) (map (with_result ones) ops)) as [|q0 kept] eqn:Ek.
        { destruct ops as [|p ops]; [cbn in L; lia|]. cbn [map fst snd] in Z. cbn [length] in *. lia. }
        cbn [fst snd] in *. rewrite <- Ek in *. destruct (filter_all _ (fun q : bool * (expr F * (expr F * nat)) => negb (evals_to fs rho0 1 (fst (snd q)))) (map (with_result ones) ops)) as [Ef Kf].
        { pose proof (filter_length_le _ (fun q : bool * (expr F * (expr F * nat)) => negb (evals_to fs rho0 1 (fst (snd q)))) (map (with_result ones) ops)) as Hl.
          rewrite map_length in *. lia. }
        rewrite Ef in *.
        assert (K : forall m a, In (m, a) ops -> fst (ones a) = a /\ no_ones a).
        { intros m a Hp. apply (in_forall (fun a => snd (ones a) = O -> fst (ones a) = a /\ no_ones a) _ _ _ IH Hp). apply (counts_0 ones ops) with m; [lia|exact Hp]. }
        split.
        * f_equal. apply results_same. intros m a Hp. exact (proj1 (K m a Hp)).
        * intros s Hs. inversion Hs; subst.
          -- intros _ m a Hp. apply evals_to_false. exact (Kf _ (in_map (with_result ones) ops (m, a) Hp)).
          -- eapply (proj2 (K _ _ ltac:(eassumption))). assumption.
      + cbn [fst snd] in *.
        assert (K : forall m a, In (m, a) ops -> fst (ones a) = a /\ no_ones a).
        { intros m a Hp. apply (in_forall (fun a => snd (ones a) = O -> fst (ones a) = a /\ no_ones a) _ _ _ IH Hp). exact (counts_0 ones ops Z m a Hp). }
        split.
        * f_equal. apply results_same. intros m a Hp. exact (proj1 (K m a Hp)).
        * intros s Hs. inversion Hs; subst; [intro; lia|]. eapply (proj2 (K _ _ ltac:(eassumption))). assumption.
  Qed.

  Lemma ones_none : forall e, no_ones e -> ones e = (e, O).
  Proof.
    induction e as [k c|x|ops IH|ops IH|e IH|e n IH|b e IHb IHe|k e IH|e IH] using expr_rect'; intro N; try reflexivity.
    - assert (K : forall m a, In (m, a) ops -> ones a = (a, O)).
      { intros m a Hp. apply (in_forall (fun a => no_ones a -> ones a = (a, O)) _ _ _ IH Hp). intros s Hs. apply N. eapply st_sum; eassumption. }
      cbn [eliminate_ones]. f_equal; [f_equal; apply results_same'|apply counts_all']; intros m a Hp; rewrite (K m a Hp); reflexivity.
    - assert (K : forall m a, In (m, a) ops -> ones a = (a, O)).
      { intros m a Hp. apply (in_forall (fun a => no_ones a -> ones a = (a, O)) _ _ _ IH Hp). intros s Hs. apply N. eapply st_mul; eassumption. }
      cbn [eliminate_ones]. destruct (Nat.ltb_spec 1 (length ops)) as [L|L].
      + assert (Ef : filter (fun q => negb (evals_to fs rho0 1 (fst (snd q)))) (map (with_result ones) ops) = map (with_result ones) ops).
        { apply filter_true. intros q Hq. apply in_map_iff in Hq as [[m a] [<- Hp]]. cbn [fst snd]. apply evals_to_false.
          exact (N _ (st_here _) L m a Hp). }
        rewrite Ef. destruct (map (with_result ones) ops) as [|q0 rest] eqn:Er; [destruct ops; [cbn in L; lia|discriminate]|].
        rewrite <- Er. f_equal.
        * f_equal. apply results_same. intros m a Hp. rewrite (K m a Hp). reflexivity.
        * rewrite counts_all by (intros m a Hp; rewrite (K m a Hp); reflexivity). rewrite map_length. lia.
      + f_equal; [f_equal; apply results_same|apply counts_all]; intros m a Hp; rewrite (K m a Hp); reflexivity.
  Qed.

  Lemma sum_defined : forall ops y, eval fs rho0 (Sum ops) = Some y -> forall m a, In (m, a) ops -> exists z, eval fs rho0 a = Some z.
  Proof.
    intro ops. cbn [eval]. induction ops as [|[m' a'] ops IH]; intros y E m a; [intros []|]. cbn [map fst snd sum_val] in E.
    destruct (eval fs rho0 a') as [z|] eqn:Ez; [|discriminate]. destruct (sum_val _) as [w|] eqn:Ew in E; [|discriminate].
    intros [X|X]; [injection X as <- <-; exists z; exact Ez|]. exact (IH w Ew m a X).
  Qed.
  Lemma mul_defined : forall ops y, eval fs rho0 (Mul ops) = Some y -> forall m a, In (m, a) ops -> exists z, eval fs rho0 a = Some z.
  Proof.
    intro ops. cbn [eval]. induction ops as [|[m' a'] ops IH]; intros y E m a; [intros []|]. cbn [map fst snd mul_val] in E.
    destruct (eval fs rho0 a') as [z|] eqn:Ez; [|discriminate]. destruct (mul_val _) as [w|] eqn:Ew in E; [|discriminate].
    intros [X|X]; [injection X as <- <-; exists z; exact Ez|]. exact (IH w Ew m a X).
  Qed.

  (** The pass may put 0 in place of the only factor of a product, and does not count it *)
  Definition wiped (e : expr F) : Prop := exists m x, e = Mul [(m, x)] /\ eval fs rho0 x = Some 0 /\ zeros e = (Mul [(true, zero_node)], O).

  Lemma zeros_0 : forall e y, full e -> flat e -> eval fs rho0 e = Some y -> snd (zeros e) = O ->
    (fst (zeros e) = e /\ no_zeros e) \/ wiped e.
  Proof.
    induction e as [k c|x|ops IH|ops IH|e IH|e n IH|b e IHb IHe|k e IH|e IH] using expr_rect';
      intros y Fe Fl D Z; try (left; split; [reflexivity|]; intros s Hs; inversion Hs; subst; exact I).
    - left. apply full_sum_inv in Fe.
      assert (K : forall m a, In (m, a) ops -> snd (zeros a) = O -> fst (zeros a) = a /\ no_zeros a).
      { intros m a Hp Za. destruct (sum_defined _ _ D m a Hp) as [z Dz].
        destruct (in_forall (fun a => forall y, full a -> flat a -> eval fs rho0 a = Some y -> snd (zeros a) = O ->
          (fst (zeros a) = a /\ no_zeros a) \/ wiped a) _ _ _ IH Hp z) as [W|W].
        - exact (ok_in _ _ Fe Hp).
        - intros s Hs. apply Fl. eapply st_sum; eassumption.
        - exact Dz.
        - exact Za.
        - exact W.
        - exfalso. destruct W as [[|] [x [-> [E0 _]]]].
          + exact (proj2 (Fl _ (st_here _) m _ Hp) x eq_refl).
          + cbn [eval map fst snd mul_val] in Dz. rewrite E0 in Dz. destruct (feq_dec 0 0) as [_|N]; [discriminate|]. apply N. reflexivity. }
      cbn [eliminate_zeros] in *. destruct (Nat.ltb_spec 1 (length ops)) as [L|L].
      + destruct (filter (fun q => negb (evals_to fs rho0 0 (fst (snd q)))) (map (with_result zeros) ops)) as [|q0 kept] eqn:Ek.
        { cbn [snd] in Z. lia. }
        cbn [fst snd] in *. rewrite <- Ek in *. destruct (filter_all _ (fun q : bool * (expr F * (expr F * nat)) => negb (evals_to fs rho0 0 (fst (snd q)))) (map (with_result zeros) ops)) as [Ef Kf].
        { pose proof (filter_length_le _ (fun q : bool * (expr F * (expr F * nat)) => negb (evals_to fs rho0 0 (fst (snd q)))) (map (with_result zeros) ops)) as Hl.
          rewrite map_length in *. lia. }
        rewrite Ef in *.
        assert (K' : forall m a, In (m, a) ops -> fst (zeros a) = a /\ no_zeros a).
        { intros m a Hp. apply (K m a Hp). apply (counts_0 zeros ops) with m; [lia|exact Hp]. }
        split.
        * f_equal. apply results_same. intros m a Hp. exact (proj1 (K' m a Hp)).
        * intros s Hs. inversion Hs; subst.
          -- intros _ m a Hp. apply evals_to_false. exact (Kf _ (in_map (with_result zeros) ops (m, a) Hp)).
          -- eapply (proj2 (K' _ _ ltac:(eassumption))). assumption.
      + cbn [fst snd] in *.
        assert (K' : forall m a, In (m, a) ops -> fst (zeros a) = a /\ no_zeros a).
        { intros m a Hp. apply (K m a Hp). exact (counts_0 zeros ops Z m a Hp). }
        split.
        * f_equal. apply results_same. intros m a Hp. exact (proj1 (K' m a Hp)).
        * intros s Hs. inversion Hs; subst; [intro; lia|]. eapply (proj2 (K' _ _ ltac:(eassumption))). assumption.
    - apply full_mul_inv in Fe.
      assert (K : forall m a, In (m, a) ops -> snd (zeros a) = O -> fst (zeros a) = a /\ no_zeros a).
      { intros m a Hp Za. destruct (mul_defined _ _ D m a Hp) as [z Dz].
        destruct (in_forall (fun a => forall y, full a -> flat a -> eval fs rho0 a = Some y -> snd (zeros a) = O ->
          (fst (zeros a) = a /\ no_zeros a) \/ wiped a) _ _ _ IH Hp z) as [W|W].
        - exact (ok_in _ _ Fe Hp).
        - intros s Hs. apply Fl. eapply st_mul; eassumption.
        - exact Dz.
        - exact Za.
        - exact W.
        - exfalso. destruct W as [m' [x [-> _]]]. exact (proj1 (Fl _ (st_here _) m _ Hp) _ eq_refl). }
      destruct (existsb (fun p => evals_to fs rho0 0 (snd p)) ops) eqn:Ex.
      + right. cbn [eliminate_zeros] in Z. rewrite Ex in Z. cbn [snd] in Z. destruct Fe as [N _]. destruct ops as [|[m x] [|p r]]; [contradiction| |cbn [length] in Z; lia].
        exists m, x. split; [reflexivity|]. cbn [existsb snd] in Ex. rewrite orb_false_r in Ex. split; [apply evals_to_true; exact Ex|].
        cbn [eliminate_zeros existsb snd]. rewrite Ex. reflexivity.
      + left. cbn [eliminate_zeros] in *. rewrite Ex in *. cbn [fst snd] in *.
        assert (K' : forall m a, In (m, a) ops -> fst (zeros a) = a /\ no_zeros a).
        { intros m a Hp. apply (K m a Hp). exact (counts_0' zeros ops Z m a Hp). }
        split.
        * f_equal. apply results_same'. intros m a Hp. exact (proj1 (K' m a Hp)).
        * intros s Hs. inversion Hs; subst; [|eapply (proj2 (K' _ _ ltac:(eassumption))); assumption].
          intros _ m a Hp E0. enough (true = false) by discriminate. rewrite <- Ex. symmetry. apply existsb_exists. exists (m, a). split; [exact Hp|].
          apply evals_to_true. exact E0.
  Qed.

  Lemma ones_full : forall e, full e -> full (fst (ones e)).
  Proof.
    induction e as [k c|x|ops IH|ops IH|e IH|e n IH|b e IHb IHe|k e IH|e IH] using expr_rect'; intro Fe; try exact Fe.
    - apply full_sum_inv in Fe as [N A]. cbn [eliminate_ones fst]. rewrite map_map. apply full_sum.
      + destruct ops; [contradiction|discriminate].
      + apply Forall_forall. intros q Hq. apply in_map_iff in Hq as [[m a] [<- Hp]]. cbn [fst snd].
        apply (in_forall (fun a => full a -> full (fst (ones a))) _ _ _ IH Hp). exact (in_forall full _ _ _ A Hp).
    - apply full_mul_inv in Fe as [N A].
      assert (K : forall q, In q (map (with_result ones) ops) -> full (fst (snd (snd q)))).
      { intros q Hq. apply in_map_iff in Hq as [[m a] [<- Hp]]. cbn [fst snd].
        apply (in_forall (fun a => full a -> full (fst (ones a))) _ _ _ IH Hp). exact (in_forall full _ _ _ A Hp). }
      cbn [eliminate_ones]. destruct (Nat.ltb_spec 1 (length ops)) as [L|L].
      + destruct (filter _ _) as [|q0 kept] eqn:Ek.
        * destruct (map (with_result ones) ops) as [|q1 rest] eqn:Er; [destruct ops; [contradiction|discriminate]|].
          cbn [fst]. apply full_mul; [discriminate|]. constructor; [|constructor]. cbn [snd]. apply K. left. reflexivity.
        * cbn [fst]. rewrite <- Ek. apply full_mul; [rewrite Ek; discriminate|]. apply Forall_forall. intros q Hq.
          apply in_map_iff in Hq as [q1 [<- Hq]]. cbn [snd]. apply K. apply filter_In in Hq. exact (proj1 Hq).
      + cbn [fst]. apply full_mul; [destruct ops; [contradiction|discriminate]|]. apply Forall_forall. intros q Hq.
        apply in_map_iff in Hq as [q1 [<- Hq]]. cbn [snd]. apply K. exact Hq.
  Qed.

  Lemma zeros_full : forall e, full e -> full (fst (zeros e)).
  Proof.
    induction e as [k c|x|ops IH|ops IH|e IH|e n IH|b e IHb IHe|k e IH|e IH] using expr_rect'; intro Fe; try exact Fe.
    - apply full_sum_inv in Fe as [N A].
      assert (K : forall q, In q (map (with_result zeros) ops) -> full (fst (snd (snd q)))).
      { intros q Hq. apply in_map_iff in Hq as [[m a] [<- Hp]]. cbn [fst snd].
        apply (in_forall (fun a => full a -> full (fst (zeros a))) _ _ _ IH Hp). exact (in_forall full _ _ _ A Hp). }
      cbn [eliminate_zeros]. destruct (Nat.ltb_spec 1 (length ops)) as [L|L].
      + destruct (filter _ _) as [|q0 kept] eqn:Ek.
        * cbn [fst]. apply full_sum; [discriminate|]. constructor; [|constructor]. apply full_leaf. exact I.
        * cbn [fst]. rewrite <- Ek. apply full_sum; [rewrite Ek; discriminate|]. apply Forall_forall. intros q Hq.
          apply in_map_iff in Hq as [q1 [<- Hq]]. cbn [snd]. apply K. apply filter_In in Hq. exact (proj1 Hq).
      + cbn [fst]. apply full_sum; [destruct ops; [contradiction|discriminate]|]. apply Forall_forall. intros q Hq.
        apply in_map_iff in Hq as [q1 [<- Hq]]. cbn [snd]. apply K. exact Hq.
    - apply full_mul_inv in Fe as [N A]. cbn [eliminate_zeros]. destruct (existsb _ _).
      + cbn [fst]. apply full_mul; [discriminate|]. constructor; [|constructor]. apply full_leaf. exact I.
      + cbn [fst]. rewrite map_map. apply full_mul; [destruct ops; [contradiction|discriminate]|].
        apply Forall_forall. intros q Hq. apply in_map_iff in Hq as [[m a] [<- Hp]]. cbn [fst snd].
        apply (in_forall (fun a => full a -> full (fst (zeros a))) _ _ _ IH Hp). exact (in_forall full _ _ _ A Hp).
  Qed.

  (** *** Rounds *)
  Lemma round_value : forall fuel e r y, round fs rho0 fuel e = Some r -> eval fs rho0 e = Some y -> eval fs rho0 (fst r) = Some y.
  Proof.
    intros fuel e r y E D. assert (G : good fs rho0 rho0 e y y).
    { apply good_of_eval; [|exact D|exact D]. intros s _ a0 a E0 E1. rewrite E0 in E1. injection E1 as <-. split; auto. }
    unfold round in E. destruct (reduce_depth fuel e) as [[e1 c1]|] eqn:Ed; [|discriminate]. injection E as <-. cbn [fst].
    apply (good_eval fs rho0 rho0 _ y y). apply eliminate_zeros_good, eliminate_ones_good.
    exact (reduce_depth_good fs rho0 rho0 _ _ _ _ _ Ed G).
  Qed.

  Lemma round_full : forall fuel e r, round fs rho0 fuel e = Some r -> full e -> full (fst r).
  Proof.
    intros fuel e r E Fe. unfold round in E. destruct (reduce_depth fuel e) as [[e1 c1]|] eqn:Ed; [|discriminate]. injection E as <-. cbn [fst].
    apply zeros_full, ones_full. exact (depth_full _ _ _ Ed Fe).
  Qed.

  Lemma flat_parts : forall e, flat e -> no_ones e -> no_zeros e -> irreducible fs rho0 e.
  Proof.
    intros e A B C s Hs. pose proof (A s Hs) as As. pose proof (B s Hs) as Bs. pose proof (C s Hs) as Cs. destruct s; try exact I; cbn in *.
    - intros m a Hp. destruct (As m a Hp) as [A1 A2]. split; [exact A1|]. split; [exact A2|]. intro L. exact (Cs L m a Hp).
    - intros m a Hp. destruct (As m a Hp) as [A1 A2]. split; [exact A1|]. split; [exact A2|]. intro L. split; [exact (Cs L m a Hp)|exact (Bs L m a Hp)].
  Qed.

  Lemma last_round : forall fuel e e' y, round fs rho0 fuel e = Some (e', O) -> full e -> eval fs rho0 e = Some y ->
    irreducible fs rho0 e' /\ forall fuel', (weight e' < fuel')%nat -> round fs rho0 fuel' e' = Some (e', O).
  Proof.
    intros fuel e e' y E Fe D. unfold round in E. destruct (reduce_depth fuel e) as [[e1 c1]|] eqn:Ed; [|discriminate]. injection E as E Z.
    assert (c1 = O) by lia. subst c1. destruct (depth_0 _ _ _ Ed Fe) as [-> Fl].
    destruct (ones_0 e ltac:(lia)) as [E1 N1]. rewrite E1 in *. destruct (zeros_0 e y Fe Fl D ltac:(lia)) as [[E0 N0]|W].
    - rewrite E0 in E. subst e'. split; [apply flat_parts; assumption|]. intros fuel' Hf.
      destruct (reduce_depth_total fuel' e ltac:(lia)) as [r Hr]. pose proof (depth_flat _ _ _ Hr Fl) as ->.
      unfold round. rewrite Hr, (ones_none e N1). cbn [fst snd]. rewrite E0. do 2 f_equal. lia.
    - destruct W as [m [x [-> [Ex Ez]]]]. rewrite Ez in E. cbn [fst] in E. subst e'. split.
      + intros s Hs. inversion Hs; subst.
        * intros m' a [X|[]]. injection X as <- <-. split; [discriminate|]. split; [discriminate|]. cbn. lia.
        * match goal with X : In _ _ |- _ => destruct X as [X|[]]; injection X as <- <- end.
          match goal with X : subtree _ zero_node |- _ => inversion X; subst; exact I end.
      + intros [|[|[|fuel']]] Hf; cbn in Hf; try lia.
        assert (T : evals_to fs rho0 0 zero_node = true) by (apply evals_to_true; reflexivity).
        change (round fs rho0 (S (S (S fuel'))) (Mul [(true, zero_node)])) with
          (Some (fst (zeros (Mul [(true, zero_node)])), (0 + 0 + snd (zeros (Mul [(true, zero_node)])))%nat)).
        assert (Ez' : zeros (Mul [(true, zero_node)]) = (Mul [(true, zero_node)], O)).
        { cbn [eliminate_zeros existsb snd]. rewrite T. reflexivity. }
        rewrite Ez'. reflexivity.
  Qed.

  Lemma simplify_done : forall fuel e e' y, full e -> eval fs rho0 e = Some y -> simplify fs rho0 fuel e = Some e' ->
    irreducible fs rho0 e' /\ forall fuel', (weight e' < fuel')%nat -> simplify fs rho0 fuel' e' = Some e'.
  Proof.
    induction fuel as [|fuel IH]; intros e e' y Fe D E; [discriminate|]. cbn [simplify] in E.
    destruct (round fs rho0 (S fuel) e) as [[e1 [|c]]|] eqn:Er; [| |discriminate].
    - injection E as <-. destruct (last_round _ _ _ _ Er Fe D) as [A B]. split; [exact A|]. intros [|fuel'] Hf; [lia|].
      cbn [simplify]. rewrite (B _ Hf). reflexivity.
    - apply (IH e1 e' y); [exact (round_full _ _ _ Er Fe)|exact (round_value _ _ _ _ Er D)|exact E].
  Qed.
End Normal.

Lemma nested_given : operands_given nested_tree.
Proof.
  intros s Hs. apply subtrees_complete in Hs. cbn in Hs. repeat (destruct Hs as [<-|Hs]; [split; discriminate|]). destruct Hs.
Qed.
