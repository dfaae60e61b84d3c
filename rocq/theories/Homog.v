(** Homogenize and IsHomogeneous for a variable group. *)
From Coq Require Import List Arith Lia ZArith Bool Ring Field.
From Verif Require Import Base Poly Expr Degree.
Import ListNotations.

(** evaluate a list of fallible results *)
Fixpoint sequence {A : Type} (l : list (option A)) : option (list A) :=
  match l with
  | [] => Some []
  | None :: _ => None
  | Some a :: r => match sequence r with Some s => Some (a :: s) | None => None end
  end.

Section Model.
  Context {F : fld}.

  (** arithmetic.cpp:294-311: an operand of a sum is multiplied by the missing power of the
      homogenizing variable; MultOperator::Make(P, op) multiplies by both *)
  Definition raise_degree (h : nat) (deficiency : Z) (e : expr F) : expr F :=
    if (deficiency <=? 0)%Z then e
    else if (deficiency =? 1)%Z then Mul [(true, Var h); (true, e)]
    else Mul [(true, IPow (Var h) deficiency); (true, e)].

  (** Node::Homogenize; [None] is the exception "asking for homogenization on non-polynomial node".
      The code mutates the tree in place; here the result is a new tree (shared subtrees: see Heap.v). *)
  Fixpoint homogenize (fs : funs F) (rho : env F) (vs : list nat) (h : nat) (e : expr F) : option (expr F) :=
    match e with
    | Num k c => Some (Num k c)                           (* number.hpp:117-120 *)
    | Var x => Some (Var x)                               (* variable.cpp:146-149 *)
    | Sum ops =>                                          (* arithmetic.cpp:264-314 *)
        match sequence (map (fun p => match homogenize fs rho vs h (snd p) with
                                      | Some e' => Some (fst p, e') | None => None end) ops) with
        | None => None
        | Some ops' =>
            let degs := map (fun p => gdegree fs rho vs (snd p)) ops' in
            if existsb (fun d => (d <? 0)%Z) degs then None
            else
              let maxdegree := fold_left Z.max degs 0%Z in
              Some (Sum (map (fun p => (fst p, raise_degree h (maxdegree - gdegree fs rho vs (snd p)) (snd p))) ops'))
        end
    | Mul ops =>                                          (* arithmetic.cpp:832-838 *)
        match sequence (map (fun p => match homogenize fs rho vs h (snd p) with
                                      | Some e' => Some (fst p, e') | None => None end) ops) with
        | None => None
        | Some ops' => Some (Mul ops')
        end
    | Neg e => option_map Neg (homogenize fs rho vs h e)  (* operator.cpp:85-88 *)
    | IPow e n => option_map (fun e' => IPow e' n) (homogenize fs rho vs h e)
    | Pow b e =>                                          (* arithmetic.cpp:1037-1047 *)
        if (gdegree fs rho vs e =? 0)%Z then option_map (fun b' => Pow b' e) (homogenize fs rho vs h b) else None
    | Fun k e => option_map (Fun k) (homogenize fs rho vs h e)
    | Handle e => option_map Handle (homogenize fs rho vs h e) (* function.cpp:163-166 *)
    end.

  (** Node::IsHomogeneous(VariableGroup).  An empty sum, which the public interface cannot build, would
      dereference begin() of an empty vector; it is given the answer true. *)
  Fixpoint is_homogeneous (fs : funs F) (rho : env F) (vs : list nat) (e : expr F) : bool :=
    match e with
    | Num _ _ => true                                     (* number.hpp:135-138 *)
    | Var _ => true                                       (* variable.cpp:159-162 *)
    | Sum ops =>                                          (* arithmetic.cpp:344-370 *)
        forallb (fun p => is_homogeneous fs rho vs (snd p)) ops &&
        match map (fun p => gdegree fs rho vs (snd p)) ops with
        | [] => true
        | d :: r => negb (d <? 0)%Z && forallb (fun x => (x =? d)%Z) r
        end
    | Mul ops => forallb (fun p => is_homogeneous fs rho vs (snd p)) ops (* arithmetic.cpp:854-865 *)
    | Neg e => is_homogeneous fs rho vs e                 (* arithmetic.hpp:320-323 *)
    | IPow e _ => is_homogeneous fs rho vs e              (* arithmetic.hpp:741-744 *)
    | Pow b e =>                                          (* arithmetic.cpp:1064-1076 *)
        if (gdegree fs rho vs e =? 0)%Z then
          match (match eval fs rho e with Some x => as_int fs x | None => None end) with
          | Some n => if (0 <=? n)%Z then is_homogeneous fs rho vs b else false
          | None => false
          end
        else false
    | Fun _ _ => (gdegree fs rho vs e =? 0)%Z             (* operator.cpp:105-113 *)
    | Handle e => is_homogeneous fs rho vs e              (* function.cpp:176-179 *)
    end.

  Local Open Scope fld_scope.

  (** ** Specification *)

  (** multiply the variables of [G] by [t] *)
  Definition scale (t : F) (G : list nat) (rho : env F) : env F :=
    fun x => if in_dec Nat.eq_dec x G then t * rho x else rho x.

  (** the values of [e] scale with degree [d] in the variables of [G], the others keeping their values in [rho] *)
  Definition homogeneous_of_degree (fs : funs F) (rho : env F) (G : list nat) (d : nat) (e : expr F) : Prop :=
    forall rho' t y y', (forall x, ~ In x G -> rho' x = rho x) ->
      eval fs rho' e = Some y -> eval fs (scale t G rho') e = Some y' -> y' = fpow t d * y.

  (** polynomial in each variable of the group, according to Degree(v) *)
  Definition polynomial_in (fs : funs F) (rho : env F) (vs : list nat) (e : expr F) : Prop :=
    forall v, In v vs -> (0 <= degree fs rho v e)%Z.
End Model.

(** ** Proofs *)
Lemma sequence_map_some : forall (A B : Type) (f : A -> option B) l s,
  sequence (map f l) = Some s -> Forall2 (fun a b => f a = Some b) l s.
Proof.
  intros A B f l. induction l as [|a l IH]; intros s H; cbn in H.
  - inversion H. constructor.
  - destruct (f a) as [b|] eqn:E; [|discriminate]. destruct (sequence (map f l)) as [r|] eqn:Er; [|discriminate].
    inversion H. constructor; [assumption|]. apply IH. reflexivity.
Qed.

Lemma fold_max_ge : forall l acc, (acc <= fold_left Z.max l acc)%Z /\ Forall (fun d => (d <= fold_left Z.max l acc)%Z) l.
Proof.
  induction l as [|d l IH]; intro acc; cbn; [split; [lia|constructor]|].
  destruct (IH (Z.max acc d)) as [H1 H2]. split; [lia|]. constructor; [lia|assumption].
Qed.

Lemma sum_degree_max : forall l acc, Forall (fun d => 0 <= d)%Z l -> sum_degree l acc = fold_left Z.max l acc.
Proof.
  induction l as [|d l IH]; intros acc H; cbn; [reflexivity|]. inversion H; subst.
  destruct (Z.ltb_spec d 0); [lia|]. apply IH. assumption.
Qed.

Lemma sum_degree_const : forall l d, (0 <= d)%Z -> l <> [] -> Forall (fun x => x = d) l -> sum_degree l 0 = d.
Proof.
  intros l d Hd. assert (G : forall l acc, (acc = d \/ (l <> [] /\ 0 <= acc <= d)%Z) -> Forall (fun x => x = d) l -> sum_degree l acc = d).
  { clear l. induction l as [|x l IH]; intros acc H Hf; cbn.
    - destruct H as [|[H _]]; [assumption|contradiction].
    - inversion Hf; subst. destruct (Z.ltb_spec d 0); [lia|]. apply IH; [left; lia|assumption]. }
  intros Hne Hf. apply G; [right; split; [assumption|lia]|assumption].
Qed.

Section Proofs.
  Context {F : fld}.
  Local Open Scope fld_scope.
  Add Field homog_field : (f_th F).

  (** *** Setting the homogenizing variable to one *)
  Lemma eval_raise_one : forall (fs : funs F) rho h d e, rho h = 1 -> eval fs rho (raise_degree h d e) = eval fs rho e.
  Proof.
    intros fs rho h d e Hh. unfold raise_degree.
    assert (N : (1 : F) <> 0) by apply f1_neq_f0.
    destruct (Z.leb_spec d 0); [reflexivity|]. destruct (Z.eqb_spec d 1).
    - cbn [eval map mul_val fst snd]. rewrite Hh. destruct (eval fs rho e) as [y|]; [|reflexivity]. f_equal. ring.
    - cbn [eval map mul_val fst snd]. rewrite Hh. rewrite fpowZ_pos by lia. rewrite fpow_1_l.
      destruct (eval fs rho e) as [y|]; [|reflexivity]. f_equal. ring.
  Qed.

  Lemma homogenize_at_one : forall (fs : funs F) rho vs h e e' rho',
    homogenize fs rho vs h e = Some e' -> rho' h = 1 -> eval fs rho' e' = eval fs rho' e.
  Proof.
    intros fs rho vs h e. induction e as [k c|x|ops IH|ops IH|e IH|e n IH|b e IHb IHe|k e IH|e IH] using expr_rect';
      intros e' rho' H Hh; cbn [homogenize] in H.
    - inversion H. reflexivity.
    - inversion H. reflexivity.
    - destruct (sequence _) as [ops'|] eqn:Es; [|discriminate]. apply sequence_map_some in Es.
      destruct (existsb _ _); [discriminate|]. inversion H. clear H e' H1.
      generalize (fold_left Z.max (map (fun p => gdegree fs rho vs (snd p)) ops') 0%Z). intro m.
      cbn [eval]. f_equal. rewrite map_map. cbn [fst snd].
      induction Es as [|[s a] [s' b] l l' Hab Hl IHl]; [reflexivity|]. cbn [map fst snd] in *.
      inversion IH as [|? ? Ia Il]; subst. f_equal; [|apply IHl; assumption].
      destruct (homogenize fs rho vs h a) as [b'|] eqn:Eb; [|discriminate]. inversion Hab; subst. f_equal.
      rewrite eval_raise_one by assumption. apply (Ia b); assumption.
    - destruct (sequence _) as [ops'|] eqn:Es; [|discriminate]. apply sequence_map_some in Es.
      inversion H. clear H e' H1. cbn [eval]. f_equal.
      induction Es as [|[s a] [s' b] l l' Hab Hl IHl]; [reflexivity|]. cbn [map fst snd] in *.
      inversion IH as [|? ? Ia Il]; subst. f_equal; [|apply IHl; assumption].
      destruct (homogenize fs rho vs h a) as [b'|] eqn:Eb; [|discriminate]. inversion Hab; subst. f_equal.
      apply (Ia b); assumption.
    - destruct (homogenize fs rho vs h e) as [a|] eqn:E; [|discriminate]. inversion H. cbn [eval]. rewrite (IH a rho' eq_refl Hh). reflexivity.
    - destruct (homogenize fs rho vs h e) as [a|] eqn:E; [|discriminate]. inversion H. cbn [eval]. rewrite (IH a rho' eq_refl Hh). reflexivity.
    - destruct (Z.eqb_spec (gdegree fs rho vs e) 0); [|discriminate].
      destruct (homogenize fs rho vs h b) as [a|] eqn:E; [|discriminate]. inversion H. cbn [eval]. rewrite (IHb a rho' eq_refl Hh). reflexivity.
    - destruct (homogenize fs rho vs h e) as [a|] eqn:E; [|discriminate]. inversion H. cbn [eval]. rewrite (IH a rho' eq_refl Hh). reflexivity.
    - destruct (homogenize fs rho vs h e) as [a|] eqn:E; [|discriminate]. inversion H. cbn [eval]. apply (IH a rho' eq_refl Hh).
  Qed.

  Lemma homogenize_undone : forall (fs : funs F) rho vs h e e' point,
    homogenize fs rho vs h e = Some e' -> ~ occurs h e ->
    eval fs (upd point h 1) e' = eval fs point e.
  Proof.
    intros fs rho vs h e e' point H Hh. rewrite (homogenize_at_one fs rho vs h e e' _ H) by apply upd_same.
    apply eval_ext. intros x Hx. apply upd_other. intros ->. contradiction.
  Qed.

  (** *** Homogenization does not change degrees in the group *)
  Lemma degree_raise : forall (fs : funs F) rho v h d e, v <> h -> degree fs rho v (raise_degree h d e) = degree fs rho v e.
  Proof.
    intros fs rho v h d e N. unfold raise_degree. destruct (d <=? 0)%Z; [reflexivity|].
    assert (Nat.eqb h v = false) as E by (apply Nat.eqb_neq; congruence).
    destruct (d =? 1)%Z; cbn [degree map mul_degree fst snd]; rewrite E; cbn [Z.ltb Z.eqb negb andb Z.compare].
    - destruct (Z.ltb_spec (degree fs rho v e) 0); [reflexivity|]. rewrite andb_false_r. lia.
    - rewrite Z.mul_0_r. cbn [Z.ltb Z.eqb negb andb Z.compare].
      destruct (Z.ltb_spec (degree fs rho v e) 0); [reflexivity|]. rewrite andb_false_r. lia.
  Qed.

  Lemma gdegree_raise : forall (fs : funs F) rho vs h d e, ~ In h vs -> gdegree fs rho vs (raise_degree h d e) = gdegree fs rho vs e.
  Proof.
    intros fs rho vs h d e N. unfold raise_degree. destruct (d <=? 0)%Z; [reflexivity|].
    assert (E : existsb (Nat.eqb h) vs = false).
    { apply not_true_is_false. intro E. apply existsb_exists in E. destruct E as [x [Hx Ex]]. apply Nat.eqb_eq in Ex. subst. contradiction. }
    destruct (d =? 1)%Z; cbn [gdegree map mul_degree fst snd].
    - rewrite E. cbn [Z.ltb Z.eqb negb andb Z.compare].
      destruct (Z.ltb_spec (gdegree fs rho vs e) 0); [reflexivity|]. rewrite andb_false_r. lia.
    - assert (Ez : unary_group_degree (map (fun v => degree fs rho v (IPow (Var h) d)) vs) = 0%Z).
      { rewrite unary_group_degree_nonneg.
        - apply fold_zero. intros v Hv. cbn [degree]. replace (Nat.eqb h v) with false by (symmetry; apply Nat.eqb_neq; congruence).
          cbn. lia.
        - rewrite Forall_map. apply Forall_forall. intros v Hv. cbn [degree].
          replace (Nat.eqb h v) with false by (symmetry; apply Nat.eqb_neq; congruence). cbn. lia. }
      rewrite Ez. cbn [Z.ltb Z.eqb negb andb Z.compare].
      destruct (Z.ltb_spec (gdegree fs rho vs e) 0); [reflexivity|]. rewrite andb_false_r. lia.
  Qed.

  Lemma homogenize_degree : forall (fs : funs F) rho vs h, ~ In h vs -> forall e e', homogenize fs rho vs h e = Some e' ->
    (forall v, In v vs -> degree fs rho v e' = degree fs rho v e) /\ gdegree fs rho vs e' = gdegree fs rho vs e.
  Proof.
    intros fs rho vs h Hh e.
    induction e as [k c|x|ops IH|ops IH|e IH|e n IH|b e IHb IHe|k e IH|e IH] using expr_rect';
      intros e' H; cbn [homogenize] in H.
    - inversion H. split; reflexivity.
    - inversion H. split; reflexivity.
    - destruct (sequence _) as [ops'|] eqn:Es; [|discriminate]. apply sequence_map_some in Es.
      destruct (existsb _ _); [discriminate|]. inversion H. clear H e' H1.
      generalize (fold_left Z.max (map (fun p => gdegree fs rho vs (snd p)) ops') 0%Z). intro m.
      assert (G : (forall v, In v vs -> map (fun p => degree fs rho v (snd p)) ops' = map (fun p => degree fs rho v (snd p)) ops)
                  /\ map (fun p => gdegree fs rho vs (snd p)) ops' = map (fun p => gdegree fs rho vs (snd p)) ops).
      { induction Es as [|[s a] [s' b] l l' Hab Hl IHl]; [split; reflexivity|]. cbn [map fst snd] in *.
        inversion IH as [|? ? Ia Il]; subst. destruct (homogenize fs rho vs h a) as [b'|] eqn:Eb; [|discriminate].
        inversion Hab; subst. destruct (Ia b Eb) as [A1 A2]. destruct (IHl Il) as [B1 B2]. cbn [snd] in *.
        split; [intros v Hv; rewrite A1, B1 by assumption; reflexivity|rewrite A2, B2; reflexivity]. }
      destruct G as [G1 G2]. split.
      + intros v Hv. cbn [degree]. rewrite map_map. cbn [snd]. rewrite <- (G1 v Hv). f_equal. apply map_ext.
        intros [s a]. cbn [snd]. apply degree_raise. intros ->. contradiction.
      + cbn [gdegree]. rewrite map_map. cbn [snd]. rewrite <- G2. f_equal. apply map_ext.
        intros [s a]. cbn [snd]. apply gdegree_raise. assumption.
    - destruct (sequence _) as [ops'|] eqn:Es; [|discriminate]. apply sequence_map_some in Es.
      inversion H. clear H e' H1.
      assert (G : (forall v, In v vs -> map (fun p => (fst p, degree fs rho v (snd p))) ops' = map (fun p => (fst p, degree fs rho v (snd p))) ops)
                  /\ map (fun p => (fst p, gdegree fs rho vs (snd p))) ops' = map (fun p => (fst p, gdegree fs rho vs (snd p))) ops).
      { induction Es as [|[s a] [s' b] l l' Hab Hl IHl]; [split; reflexivity|]. cbn [map fst snd] in *.
        inversion IH as [|? ? Ia Il]; subst. destruct (homogenize fs rho vs h a) as [b'|] eqn:Eb; [|discriminate].
        inversion Hab; subst. destruct (Ia b Eb) as [A1 A2]. destruct (IHl Il) as [B1 B2]. cbn [snd] in *.
        split; [intros v Hv; rewrite A1, B1 by assumption; reflexivity|rewrite A2, B2; reflexivity]. }
      destruct G as [G1 G2]. split.
      + intros v Hv. cbn [degree]. rewrite (G1 v Hv). reflexivity.
      + cbn [gdegree]. rewrite G2. reflexivity.
    - destruct (homogenize fs rho vs h e) as [a|] eqn:E; [|discriminate]. inversion H. destruct (IH a eq_refl) as [A1 A2].
      split; [intros v Hv; cbn [degree]; apply A1; assumption|].
      cbn [gdegree]. f_equal. apply map_ext_in. intros v Hv. cbn [degree]. apply A1. assumption.
    - destruct (homogenize fs rho vs h e) as [a|] eqn:E; [|discriminate]. inversion H. destruct (IH a eq_refl) as [A1 A2].
      split; [intros v Hv; cbn [degree]; rewrite A1 by assumption; reflexivity|].
      cbn [gdegree]. f_equal. apply map_ext_in. intros v Hv. cbn [degree]. rewrite A1 by assumption. reflexivity.
    - destruct (Z.eqb_spec (gdegree fs rho vs e) 0); [|discriminate].
      destruct (homogenize fs rho vs h b) as [a|] eqn:E; [|discriminate]. inversion H. destruct (IHb a eq_refl) as [A1 A2].
      split; [intros v Hv; cbn [degree]; rewrite A1 by assumption; reflexivity|].
      cbn [gdegree]. f_equal. apply map_ext_in. intros v Hv. cbn [degree]. rewrite A1 by assumption. reflexivity.
    - destruct (homogenize fs rho vs h e) as [a|] eqn:E; [|discriminate]. inversion H. destruct (IH a eq_refl) as [A1 A2].
      split; [intros v Hv; cbn [degree]; rewrite A1 by assumption; reflexivity|].
      cbn [gdegree]. f_equal. apply map_ext_in. intros v Hv. cbn [degree]. rewrite A1 by assumption. reflexivity.
    - destruct (homogenize fs rho vs h e) as [a|] eqn:E; [|discriminate]. inversion H. apply (IH a eq_refl).
  Qed.

  (** *** Trees without group variables *)
  Lemma degree_absent : forall (fs : funs F) rho v e, ~ occurs v e -> (degree fs rho v e <= 0)%Z.
  Proof.
    intros fs rho v e.
    induction e as [k c|x|ops IH|ops IH|e IH|e n IH|b e IHb IHe|k e IH|e IH] using expr_rect'; intro H; cbn [degree].
    - lia.
    - destruct (Nat.eqb_spec x v) as [->|]; [exfalso; apply H; constructor|lia].
    - apply sum_degree_le; [lia|]. rewrite Forall_map. rewrite Forall_forall in *. intros [s e] Hin. cbn.
      apply (IH _ Hin). intro Hx. apply H. econstructor; eassumption.
    - assert (G : Forall (fun p => (snd p <= 0)%Z) (map (fun p => (fst p, degree fs rho v (snd p))) ops)).
      { rewrite Forall_map. rewrite Forall_forall in *. intros [s e] Hin. cbn.
        apply (IH _ Hin). intro Hx. apply H. econstructor; eassumption. }
      clear IH H. revert G. generalize (map (fun p => (fst p, degree fs rho v (snd p))) ops). intros l G.
      assert (K : forall acc, (acc <= 0)%Z -> (mul_degree l acc <= 0)%Z); [|apply K; lia].
      induction G as [|[m d] l Hd G IH]; intros acc Ha; cbn; [assumption|]. cbn in Hd.
      destruct (Z.ltb_spec d 0); [lia|]. destruct (negb (d =? 0)%Z && negb m); [lia|]. apply IH. lia.
    - apply IH. intro Hx. apply H. constructor. assumption.
    - assert (G : (degree fs rho v e <= 0)%Z) by (apply IH; intro Hx; apply H; constructor; assumption).
      destruct (Z.ltb_spec (degree fs rho v e) 0); [lia|]. replace (degree fs rho v e) with 0%Z by lia. lia.
    - assert (G : (degree fs rho v b <= 0)%Z) by (apply IHb; intro Hx; apply H; constructor; assumption).
      destruct (degree fs rho v e =? 0)%Z; [|lia].
      destruct (match eval fs rho e with Some x => as_int fs x | None => None end) as [n|].
      + destruct (n =? 0)%Z; [lia|]. destruct (n <? 0)%Z; [lia|]. destruct (Z.ltb_spec (degree fs rho v b) 0); [lia|].
        replace (degree fs rho v b) with 0%Z by lia. lia.
      + destruct (degree fs rho v b =? 0)%Z; lia.
    - destruct (degree fs rho v e =? 0)%Z; lia.
    - apply IH. intro Hx. apply H. constructor. assumption.
  Qed.

  Variable fs : funs F.
  Hypothesis Hfs : funs_ok fs.
  Variable rho : env F.
  Variable vs : list nat.

  Definition absent (e : expr F) : Prop := forall v, In v vs -> ~ occurs v e.

  Lemma sumdeg_absent : forall e, absent e -> polynomial_in fs rho vs e -> forall v, In v vs -> degree fs rho v e = 0%Z.
  Proof. intros e Ha Hp v Hv. pose proof (degree_absent fs rho v e (Ha v Hv)). pose proof (Hp v Hv). lia. Qed.

  Lemma unary_group_degree_absent : forall l, Forall (fun d => d <= 0)%Z l -> (unary_group_degree l <= 0)%Z.
  Proof.
    intros l H. unfold unary_group_degree. assert (G : forall acc, (acc <= 0)%Z -> (fold_left (fun deg n => if (n <? 0)%Z then n else (deg + n)%Z) l acc <= 0)%Z); [|apply G; lia].
    induction H as [|d l Hd H IH]; intros acc Ha; cbn; [assumption|]. apply IH. destruct (Z.ltb_spec d 0); lia.
  Qed.

  Lemma power_group_degree_absent : forall l, Forall (fun d => d <= 0)%Z l -> (power_group_degree l <= 0)%Z.
  Proof.
    intros l H. unfold power_group_degree. assert (G : forall acc, (acc <= 0)%Z -> (fold_left (fun deg n => if (n <? 0)%Z then (-1)%Z else (deg + n)%Z) l acc <= 0)%Z); [|apply G; lia].
    induction H as [|d l Hd H IH]; intros acc Ha; cbn; [assumption|]. apply IH. destruct (Z.ltb_spec d 0); lia.
  Qed.

  Lemma gdegree_absent : forall e, absent e -> (gdegree fs rho vs e <= 0)%Z.
  Proof.
    intro e. induction e as [k c|x|ops IH|ops IH|e IH|e n IH|b e IHb IHe|k e IH|e IH] using expr_rect'; intro H; cbn [gdegree].
    - lia.
    - destruct (existsb (Nat.eqb x) vs) eqn:E; [|lia]. apply existsb_exists in E. destruct E as [w [Hw Ew]].
      apply Nat.eqb_eq in Ew. subst w. exfalso. apply (H x Hw). constructor.
    - apply sum_degree_le; [lia|]. rewrite Forall_map. rewrite Forall_forall in *. intros [s e] Hin. cbn.
      apply (IH _ Hin). intros v Hv Hx. apply (H v Hv). econstructor; eassumption.
    - assert (G : Forall (fun p => (snd p <= 0)%Z) (map (fun p => (fst p, gdegree fs rho vs (snd p))) ops)).
      { rewrite Forall_map. rewrite Forall_forall in *. intros [s e] Hin. cbn.
        apply (IH _ Hin). intros v Hv Hx. apply (H v Hv). econstructor; eassumption. }
      clear IH H. revert G. generalize (map (fun p => (fst p, gdegree fs rho vs (snd p))) ops). intros l G.
      assert (K : forall acc, (acc <= 0)%Z -> (mul_degree l acc <= 0)%Z); [|apply K; lia].
      induction G as [|[m d] l Hd G IH]; intros acc Ha; cbn; [assumption|]. cbn in Hd.
      destruct (Z.ltb_spec d 0); [lia|]. destruct (negb (d =? 0)%Z && negb m); [lia|]. apply IH. lia.
    - apply unary_group_degree_absent. rewrite Forall_map. apply Forall_forall. intros v Hv. apply degree_absent. apply H. assumption.
    - apply unary_group_degree_absent. rewrite Forall_map. apply Forall_forall. intros v Hv. apply degree_absent. apply H. assumption.
    - apply power_group_degree_absent. rewrite Forall_map. apply Forall_forall. intros v Hv. apply degree_absent. apply H. assumption.
    - apply unary_group_degree_absent. rewrite Forall_map. apply Forall_forall. intros v Hv. apply degree_absent. apply H. assumption.
    - apply IH. intros v Hv Hx. apply (H v Hv). constructor. assumption.
  Qed.

  Lemma homogenize_absent : forall h e e', absent e -> homogenize fs rho vs h e = Some e' -> e' = e.
  Proof.
    intros h e. induction e as [k c|x|ops IH|ops IH|e IH|e n IH|b e IHb IHe|k e IH|e IH] using expr_rect';
      intros e' Ha H; cbn [homogenize] in H.
    - inversion H. reflexivity.
    - inversion H. reflexivity.
    - destruct (sequence _) as [ops'|] eqn:Es; [|discriminate]. apply sequence_map_some in Es.
      destruct (existsb _ _) eqn:Ex; [discriminate|]. inversion H. clear H e' H1.
      assert (ops' = ops) as ->.
      { assert (Ha' : forall s e, In (s, e) ops -> absent e) by (intros s e Hin v Hv Hx; apply (Ha v Hv); econstructor; eassumption).
        clear Ha Ex. induction Es as [|[s a] [s' b] l l' Hab Hl IHl]; [reflexivity|]. cbn [fst snd] in *.
        inversion IH as [|? ? Ia Il]; subst. destruct (homogenize fs rho vs h a) as [b'|] eqn:Eb; [|discriminate].
        inversion Hab; subst. rewrite (Ia b (Ha' _ a (or_introl eq_refl)) Eb). cbn [snd].
        f_equal. apply IHl; [assumption|]. intros; eapply Ha'; right; eassumption. }
      assert (Hz : forall s e, In (s, e) ops -> gdegree fs rho vs e = 0%Z).
      { intros s e Hin. assert ((gdegree fs rho vs e <= 0)%Z).
        { apply gdegree_absent. intros v Hv Hx. apply (Ha v Hv). econstructor; eassumption. }
        assert (Hn : ~ (gdegree fs rho vs e < 0)%Z); [|lia].
        intro Hn. rewrite <- not_true_iff_false in Ex. apply Ex. apply existsb_exists.
        exists (gdegree fs rho vs e). split; [|apply Z.ltb_lt; assumption].
        apply in_map_iff. exists (s, e). split; [reflexivity|assumption]. }
      assert (Hm : (fold_left Z.max (map (fun p => gdegree fs rho vs (snd p)) ops) 0 = 0)%Z).
      { rewrite (map_ext_in _ (fun _ => 0%Z)) by (intros [s e] Hin; eapply Hz; exact Hin).
        clear. induction ops; cbn; [reflexivity|assumption]. }
      rewrite Hm. f_equal. rewrite <- (map_id ops) at 2. apply map_ext_in. intros [s e] Hin. cbn [fst snd].
      rewrite (Hz s e Hin). reflexivity.
    - destruct (sequence _) as [ops'|] eqn:Es; [|discriminate]. apply sequence_map_some in Es.
      inversion H. clear H e' H1.
      assert (ops' = ops) as ->; [|reflexivity].
      { assert (Ha' : forall s e, In (s, e) ops -> absent e) by (intros s e Hin v Hv Hx; apply (Ha v Hv); econstructor; eassumption).
        clear Ha. induction Es as [|[s a] [s' b] l l' Hab Hl IHl]; [reflexivity|]. cbn [fst snd] in *.
        inversion IH as [|? ? Ia Il]; subst. destruct (homogenize fs rho vs h a) as [b'|] eqn:Eb; [|discriminate].
        inversion Hab; subst. rewrite (Ia b (Ha' _ a (or_introl eq_refl)) Eb). cbn [snd].
        f_equal. apply IHl; [assumption|]. intros; eapply Ha'; right; eassumption. }
    - destruct (homogenize fs rho vs h e) as [a|] eqn:E; [|discriminate]. inversion H. f_equal.
      apply IH; [|reflexivity]. intros v Hv Hx. apply (Ha v Hv). constructor. assumption.
    - destruct (homogenize fs rho vs h e) as [a|] eqn:E; [|discriminate]. inversion H. f_equal.
      apply IH; [|reflexivity]. intros v Hv Hx. apply (Ha v Hv). constructor. assumption.
    - destruct (Z.eqb_spec (gdegree fs rho vs e) 0); [|discriminate].
      destruct (homogenize fs rho vs h b) as [a|] eqn:E; [|discriminate]. inversion H. f_equal.
      apply IHb; [|reflexivity]. intros v Hv Hx. apply (Ha v Hv). constructor. assumption.
    - destruct (homogenize fs rho vs h e) as [a|] eqn:E; [|discriminate]. inversion H. f_equal.
      apply IH; [|reflexivity]. intros v Hv Hx. apply (Ha v Hv). constructor. assumption.
    - destruct (homogenize fs rho vs h e) as [a|] eqn:E; [|discriminate]. inversion H. f_equal.
      apply IH; [|reflexivity]. intros v Hv Hx. apply (Ha v Hv). constructor. assumption.
  Qed.

  (** *** The group degree of a tree in one group variable is its degree *)
  Lemma sum_single : forall (f : nat -> Z) l x, NoDup l -> In x l -> (forall v, In v l -> v <> x -> f v = 0%Z) ->
    fold_right Z.add 0%Z (map f l) = f x.
  Proof.
    intros f l x Hnd. induction Hnd as [|a l Ha Hnd IH]; intros Hin H; [contradiction|]. cbn.
    destruct Hin as [->|Hin].
    - rewrite fold_zero; [lia|]. intros v Hv. apply H; [right; assumption|]. intros ->. contradiction.
    - rewrite (H a); [|left; reflexivity|intros ->; contradiction]. rewrite IH; [lia|assumption|]. intros v Hv Hn. apply H; [right; assumption|assumption].
  Qed.

  Hypothesis Hnd : NoDup vs.

  Definition only (x : nat) (e : expr F) : Prop := forall v, In v vs -> v <> x -> ~ occurs v e.

  Lemma only_sumdeg : forall x e, only x e -> polynomial_in fs rho vs e ->
    sumdeg fs rho vs e = (if in_dec Nat.eq_dec x vs then degree fs rho x e else 0)%Z.
  Proof.
    intros x e Ho Hp. unfold sumdeg. destruct (in_dec Nat.eq_dec x vs) as [Hin|Hout].
    - apply (sum_single (fun v => degree fs rho v e)); [exact Hnd|exact Hin|].
      intros v Hv Hn. pose proof (degree_absent fs rho v e (Ho v Hv Hn)). pose proof (Hp v Hv). lia.
    - apply fold_zero. intros v Hv. assert (v <> x) by (intros ->; contradiction).
      pose proof (degree_absent fs rho v e (Ho v Hv H)). pose proof (Hp v Hv). lia.
  Qed.

  Lemma only_gdegree : forall x e, only x e -> polynomial_in fs rho vs e ->
    gdegree fs rho vs e = (if in_dec Nat.eq_dec x vs then degree fs rho x e else 0)%Z.
  Proof.
    intros x e. induction e as [k c|y|ops IH|ops IH|e IH|e n IH|b e IHb IHe|k e IH|e IH] using expr_rect'; intros Ho Hp.
    - cbn. destruct (in_dec Nat.eq_dec x vs); reflexivity.
    - cbn. destruct (existsb (Nat.eqb y) vs) eqn:E.
      + apply existsb_exists in E. destruct E as [w [Hw Ew]]. apply Nat.eqb_eq in Ew. subst w.
        destruct (Nat.eq_dec y x) as [->|N]; [|exfalso; apply (Ho y Hw N); constructor].
        destruct (in_dec Nat.eq_dec x vs); [rewrite Nat.eqb_refl; reflexivity|contradiction].
      + destruct (in_dec Nat.eq_dec x vs) as [Hin|]; [|reflexivity].
        destruct (Nat.eqb_spec y x) as [->|]; [|reflexivity].
        exfalso. rewrite <- not_true_iff_false in E. apply E. apply existsb_exists. exists x. split; [assumption|apply Nat.eqb_refl].
    - assert (G : forall s e, In (s, e) ops -> gdegree fs rho vs e = (if in_dec Nat.eq_dec x vs then degree fs rho x e else 0)%Z).
      { intros s e Hin. rewrite Forall_forall in IH. apply (IH _ Hin).
        - intros v Hv Hn Hx. apply (Ho v Hv Hn). econstructor; eassumption.
        - apply (sum_children fs rho vs ops Hp s e Hin). }
      cbn [gdegree degree]. rewrite (map_ext_in _ (fun p => if in_dec Nat.eq_dec x vs then degree fs rho x (snd p) else 0%Z)) by (intros [s e] Hin; eapply G; exact Hin).
      destruct (in_dec Nat.eq_dec x vs); [reflexivity|]. clear. induction ops; cbn; [reflexivity|assumption].
    - destruct (mul_children fs rho vs ops Hp) as [Hc [Hd _]].
      assert (G : forall s e, In (s, e) ops -> gdegree fs rho vs e = (if in_dec Nat.eq_dec x vs then degree fs rho x e else 0)%Z).
      { intros s e Hin. rewrite Forall_forall in IH. apply (IH _ Hin).
        - intros v Hv Hn Hx. apply (Ho v Hv Hn). econstructor; eassumption.
        - apply (Hc s e Hin). }
      cbn [gdegree degree]. rewrite (map_ext_in _ (fun p => (fst p, if in_dec Nat.eq_dec x vs then degree fs rho x (snd p) else 0%Z))) by (intros [s e] Hin; cbn [fst snd]; f_equal; eapply G; exact Hin).
      destruct (in_dec Nat.eq_dec x vs); [reflexivity|]. clear. induction ops as [|[m e] ops IH]; cbn; [reflexivity|assumption].
    - assert (E : gdegree fs rho vs (Neg e) = sumdeg fs rho vs (Neg e)).
      { cbn [gdegree]. rewrite unary_group_degree_nonneg; [reflexivity|rewrite Forall_map; apply Forall_forall; exact Hp]. }
      rewrite E. apply only_sumdeg; assumption.
    - assert (E : gdegree fs rho vs (IPow e n) = sumdeg fs rho vs (IPow e n)).
      { cbn [gdegree]. rewrite unary_group_degree_nonneg; [reflexivity|rewrite Forall_map; apply Forall_forall; exact Hp]. }
      rewrite E. apply only_sumdeg; assumption.
    - assert (E : gdegree fs rho vs (Pow b e) = sumdeg fs rho vs (Pow b e)).
      { cbn [gdegree]. rewrite power_group_degree_nonneg; [reflexivity|rewrite Forall_map; apply Forall_forall; exact Hp]. }
      rewrite E. apply only_sumdeg; assumption.
    - assert (E : gdegree fs rho vs (Fun k e) = sumdeg fs rho vs (Fun k e)).
      { cbn [gdegree]. rewrite unary_group_degree_nonneg; [reflexivity|rewrite Forall_map; apply Forall_forall; exact Hp]. }
      rewrite E. apply only_sumdeg; assumption.
    - cbn [gdegree degree]. apply IH; [|exact Hp]. intros v Hv Hn Hx. apply (Ho v Hv Hn). constructor. assumption.
  Qed.

  (** *** Scaling lemmas, one per kind of node *)
  Section Scaling.
    Variable G : list nat.
    Let hom := homogeneous_of_degree fs rho G.

    Lemma hom_sum : forall ops d, (forall s e, In (s, e) ops -> hom d e) -> hom d (Sum ops).
    Proof.
      intros ops d H rho' t y y' Hr. cbn [eval]. revert y y'.
      induction ops as [|[s e] ops IH]; intros y y' E E'; cbn [map sum_val fst snd] in *.
      - inversion E; inversion E'; subst. ring.
      - destruct (eval fs rho' e) as [a|] eqn:Ea; [|discriminate].
        destruct (sum_val (map (fun p => (fst p, eval fs rho' (snd p))) ops)) as [b|] eqn:Eb; [|discriminate].
        destruct (eval fs (scale t G rho') e) as [a'|] eqn:Ea'; [|discriminate].
        destruct (sum_val (map (fun p => (fst p, eval fs (scale t G rho') (snd p))) ops)) as [b'|] eqn:Eb'; [|discriminate].
        inversion E; inversion E'; subst.
        rewrite (H s e (or_introl eq_refl) rho' t a a' Hr Ea Ea').
        rewrite (IH (fun s e Hin => H s e (or_intror Hin)) b b' eq_refl eq_refl). destruct s; ring.
    Qed.

    Lemma hom_mul : forall ops (d : expr F -> nat), (forall s e, In (s, e) ops -> hom (d e) e) ->
      (forall e, In (false, e) ops -> d e = O) -> hom (fold_right (fun p n => (d (snd p) + n)%nat) O ops) (Mul ops).
    Proof.
      intros ops d H Hd rho' t y y' Hr. cbn [eval]. revert y y'.
      induction ops as [|[s e] ops IH]; intros y y' E E'; cbn [map mul_val fst snd fold_right] in *.
      - inversion E; inversion E'; subst. cbn. ring.
      - destruct (eval fs rho' e) as [a|] eqn:Ea; [|discriminate].
        destruct (mul_val (map (fun p => (fst p, eval fs rho' (snd p))) ops)) as [b|] eqn:Eb; [|discriminate].
        destruct (eval fs (scale t G rho') e) as [a'|] eqn:Ea'; [|discriminate].
        destruct (mul_val (map (fun p => (fst p, eval fs (scale t G rho') (snd p))) ops)) as [b'|] eqn:Eb'; [|discriminate].
        pose proof (H s e (or_introl eq_refl) rho' t a a' Hr Ea Ea') as Ha.
        pose proof (IH (fun s e Hin => H s e (or_intror Hin)) (fun e Hin => Hd e (or_intror Hin)) b b' eq_refl eq_refl) as Hb.
        rewrite fpow_add. destruct s.
        + inversion E; inversion E'; subst. ring.
        + rewrite (Hd e (or_introl eq_refl)) in *. cbn [fpow] in *. assert (a' = a) as -> by (rewrite Ha; ring).
          destruct (feq_dec a 0) as [|N]; [discriminate|]. inversion E; inversion E'; subst. field. assumption.
    Qed.

    Lemma hom_neg : forall e d, hom d e -> hom d (Neg e).
    Proof.
      intros e d H rho' t y y' Hr E E'. cbn [eval] in *.
      destruct (eval fs rho' e) as [a|] eqn:Ea; [|discriminate].
      destruct (eval fs (scale t G rho') e) as [a'|] eqn:Ea'; [|discriminate].
      inversion E; inversion E'; subst. rewrite (H rho' t a a' Hr Ea Ea'). ring.
    Qed.

    Lemma hom_ipow : forall e n d, hom d e -> (0 <= n)%Z \/ d = O -> hom (Z.to_nat n * d) (IPow e n).
    Proof.
      intros e n d H Hn rho' t y y' Hr E E'. cbn [eval] in *.
      destruct (eval fs rho' e) as [a|] eqn:Ea; [|discriminate].
      destruct (eval fs (scale t G rho') e) as [a'|] eqn:Ea'; [|discriminate].
      pose proof (H rho' t a a' Hr Ea Ea') as Ha. destruct (Z.le_gt_cases 0 n) as [Hp|Hneg].
      - rewrite fpowZ_pos in E, E' by assumption. inversion E; inversion E'; subst.
        rewrite fpow_mul_base, <- fpow_mul. f_equal. f_equal. lia.
      - destruct Hn as [Hn| ->]; [lia|]. rewrite Nat.mul_0_r. cbn [fpow] in *.
        assert (a' = a) as -> by (rewrite Ha; ring). rewrite E in E'. inversion E'. ring.
    Qed.

    Lemma hom_unchanged : forall e, (forall v, In v G -> ~ occurs v e) -> forall rho' t,
      eval fs (scale t G rho') e = eval fs rho' e.
    Proof.
      intros e H rho' t. apply eval_ext. intros x Hx. unfold scale. destruct (in_dec Nat.eq_dec x G); [|reflexivity].
      exfalso. apply (H x); assumption.
    Qed.

    Lemma eval_frozen : forall e, (forall v, In v G -> ~ occurs v e) -> forall rho', (forall x, ~ In x G -> rho' x = rho x) ->
      eval fs rho' e = eval fs rho e.
    Proof. intros e H rho' Hr. apply eval_ext. intros x Hx. apply Hr. intro Hin. apply (H x Hin Hx). Qed.

    Lemma hom_absent : forall e, (forall v, In v G -> ~ occurs v e) -> hom O e.
    Proof. intros e H rho' t y y' Hr E E'. rewrite hom_unchanged in E' by assumption. rewrite E in E'. inversion E'. cbn. ring. Qed.

    Lemma hom_pow_zero : forall b e, (forall v, In v G -> ~ occurs v e) -> hom O b -> hom O (Pow b e).
    Proof.
      intros b e He Hb rho' t y y' Hr E E'. cbn [eval] in *. rewrite (hom_unchanged e He) in E'.
      destruct (eval fs rho' b) as [a|] eqn:Ea; [|discriminate].
      destruct (eval fs (scale t G rho') b) as [a'|] eqn:Ea'; [|discriminate].
      assert (a' = a) as -> by (rewrite (Hb rho' t a a' Hr Ea Ea'); cbn; ring).
      rewrite E in E'. inversion E'. cbn. ring.
    Qed.

    Lemma hom_pow_int : forall b e n d, (forall v, In v G -> ~ occurs v e) ->
      eval fs rho e = Some (fZ (Z.of_nat n)) -> hom d b -> hom (n * d) (Pow b e).
    Proof.
      intros b e n d He Hv Hb rho' t y y' Hr E E'. cbn [eval] in *. rewrite (hom_unchanged e He) in E'.
      rewrite (eval_frozen e He rho' Hr), Hv in E, E'.
      destruct (eval fs rho' b) as [a|] eqn:Ea; [|discriminate].
      destruct (eval fs (scale t G rho') b) as [a'|] eqn:Ea'; [|discriminate].
      pose proof (Hb rho' t a a' Hr Ea Ea') as Ha.
      assert (P : forall z w, pw fs z (fZ (Z.of_nat n)) = Some w -> w = fpow z n).
      { intros z w Ew. destruct n as [|n].
        - cbn [Z.of_nat fZ] in Ew. cbn. destruct (feq_dec z 0) as [->|N].
          + apply (pw_00 fs Hfs). exact Ew.
          + pose proof (pw_int fs Hfs z 0 (or_intror N)) as Hw. cbn [Z.of_nat fZ fpow] in Hw. congruence.
        - rewrite (pw_int fs Hfs z (S n)) in Ew by (left; lia). congruence. }
      apply P in E. apply P in E'. subst. rewrite fpow_mul_base, <- fpow_mul. f_equal. f_equal. lia.
    Qed.
  End Scaling.

  (** the group degree of a negation or power in a tame tree *)
  Lemma tame_gdegree_neg : forall e x, only x e -> polynomial_in fs rho vs e -> gdegree fs rho vs (Neg e) = gdegree fs rho vs e.
  Proof.
    intros e x Ho Hp. rewrite (only_gdegree x e Ho Hp).
    rewrite (only_gdegree x (Neg e)); [reflexivity| |exact Hp].
    intros v Hv Hn Hx. inversion Hx; subst. apply (Ho v Hv Hn). assumption.
  Qed.

  Lemma ipow_child : forall e n, polynomial_in fs rho vs (IPow e n) -> polynomial_in fs rho vs e.
  Proof. intros e n H v Hv. specialize (H v Hv). cbn [degree] in H. destruct (Z.ltb_spec (degree fs rho v e) 0); lia. Qed.

  Lemma tame_gdegree_ipow : forall e n x, only x e -> polynomial_in fs rho vs (IPow e n) ->
    gdegree fs rho vs (IPow e n) = (n * gdegree fs rho vs e)%Z.
  Proof.
    intros e n x Ho Hp. pose proof (ipow_child e n Hp) as Hc. rewrite (only_gdegree x e Ho Hc).
    rewrite (only_gdegree x (IPow e n)); [| |exact Hp].
    - destruct (in_dec Nat.eq_dec x vs) as [Hin|]; [|lia]. cbn [degree]. specialize (Hc x Hin). destruct (Z.ltb_spec (degree fs rho x e) 0); lia.
    - intros v Hv Hn Hx. inversion Hx; subst. apply (Ho v Hv Hn). assumption.
  Qed.

  Lemma gdegree_nonneg : forall e, polynomial_in fs rho vs e -> (0 <= gdegree fs rho vs e)%Z.
  Proof. intros e H. apply (gdegree_le_sumdeg fs rho vs e H). Qed.

  Lemma ipow_sign : forall e n x, only x e -> polynomial_in fs rho vs (IPow e n) -> (0 <= n)%Z \/ gdegree fs rho vs e = 0%Z.
  Proof.
    intros e n x Ho Hp. pose proof (gdegree_nonneg _ Hp) as H1. rewrite (tame_gdegree_ipow e n x Ho Hp) in H1.
    pose proof (gdegree_nonneg _ (ipow_child e n Hp)). destruct (Z.le_gt_cases 0 n); [left; assumption|right; nia].
  Qed.

  Lemma gdegree_zero : forall e, (forall v, In v vs -> degree fs rho v e = 0%Z) -> gdegree fs rho vs e = 0%Z.
  Proof.
    intros e H. pose proof (gdegree_le_sumdeg fs rho vs e (all_nonneg_zero fs rho vs e H)) as G.
    rewrite (sumdeg_zero fs rho vs e H) in G. lia.
  Qed.

  (** group degree of a product *)
  Lemma gdegree_mul : forall ops, polynomial_in fs rho vs (Mul ops) ->
    gdegree fs rho vs (Mul ops) = fold_right (fun p n => (gdegree fs rho vs (snd p) + n)%Z) 0%Z ops
    /\ (forall s e, In (s, e) ops -> polynomial_in fs rho vs e)
    /\ (forall e, In (false, e) ops -> gdegree fs rho vs e = 0%Z).
  Proof.
    intros ops H. destruct (mul_children fs rho vs ops H) as [Hc [Hd Hs]].
    assert (Z0 : forall e, In (false, e) ops -> gdegree fs rho vs e = 0%Z) by (intros e Hin; apply gdegree_zero; apply Hd; assumption).
    split; [|split; assumption]. cbn [gdegree]. rewrite mul_degree_all.
    - unfold sum2. clear. induction ops as [|[s e] ops IHo]; cbn [map fold_right fst snd]; [reflexivity|]. lia.
    - rewrite Forall_map. apply Forall_forall. intros [s e] Hin. cbn [fst snd]. split; [apply gdegree_nonneg; eapply Hc; exact Hin|].
      intros ->. apply Z0. assumption.
  Qed.

  Lemma to_nat_fold : forall ops : list (bool * expr F), (forall s e, In (s, e) ops -> (0 <= gdegree fs rho vs e)%Z) ->
    Z.to_nat (fold_right (fun p n => (gdegree fs rho vs (snd p) + n)%Z) 0%Z ops)
    = fold_right (fun p n => (Z.to_nat (gdegree fs rho vs (snd p)) + n)%nat) O ops.
  Proof.
    intros ops H.
    assert (P : Z.to_nat (fold_right (fun p n => (gdegree fs rho vs (snd p) + n)%Z) 0%Z ops)
    = fold_right (fun p n => (Z.to_nat (gdegree fs rho vs (snd p)) + n)%nat) O ops /\ (0 <= fold_right (fun p n => (gdegree fs rho vs (snd p) + n)%Z) 0%Z ops)%Z); [|apply P].
    induction ops as [|[s e] ops IH]; cbn [fold_right snd]; [split; [reflexivity|lia]|].
    destruct IH as [I1 I2]; [intros; eapply H; right; eassumption|].
    pose proof (H s e (or_introl eq_refl)). split; [|lia]. rewrite Z2Nat.inj_add by lia. rewrite I1. reflexivity.
  Qed.

  Lemma power_shape : forall b e x, only x b -> absent e -> polynomial_in fs rho vs (Pow b e) ->
    (exists n, eval fs rho e = Some (fZ (Z.of_nat n)) /\ (n = O \/ polynomial_in fs rho vs b) /\
       Z.to_nat (gdegree fs rho vs (Pow b e)) = (n * Z.to_nat (gdegree fs rho vs b))%nat)
    \/ (polynomial_in fs rho vs b /\ gdegree fs rho vs b = 0%Z /\ gdegree fs rho vs (Pow b e) = 0%Z)
    \/ vs = [].
  Proof.
    intros b e x Ho Ha Hp.
    assert (Hc : {vs = []} + {vs <> []}) by (destruct vs; [left; reflexivity|right; discriminate]).
    destruct Hc as [Hn|Hne]; [right; right; exact Hn|].
    assert (Eg : gdegree fs rho vs (Pow b e) = sumdeg fs rho vs (Pow b e)).
    { cbn [gdegree]. rewrite power_group_degree_nonneg; [reflexivity|rewrite Forall_map; apply Forall_forall; exact Hp]. }
    destruct (power_cases fs rho vs b e Hp Hne) as [He [[z [n [Ez [En Hn]]]]|Hz]].
    - left. pose proof (as_int_sound fs Hfs _ _ En) as Ezn. subst z. destruct Hn as [->|[Hpos [Hb Hs]]].
      + exists O. split; [exact Ez|]. split; [left; reflexivity|].
        rewrite gdegree_zero; [reflexivity|]. intros v Hv. cbn [degree]. rewrite (He v Hv), Ez, En. reflexivity.
      + exists (Z.to_nat n). rewrite Z2Nat.id by lia. split; [exact Ez|]. split; [right; exact Hb|].
        rewrite Eg, Hs, (only_sumdeg x b Ho Hb), <- (only_gdegree x b Ho Hb).
        pose proof (gdegree_nonneg b Hb). rewrite Z2Nat.inj_mul by lia. reflexivity.
    - right; left. split; [intros v Hv; rewrite (Hz v Hv); lia|]. split; [apply gdegree_zero; exact Hz|].
      apply gdegree_zero. intros v Hv. pose proof (Hp v Hv) as Hd. cbn [degree] in *. rewrite (He v Hv), (Hz v Hv) in *.
      cbn [Z.eqb Z.ltb Z.compare] in *.
      destruct (match eval fs rho e with Some x0 => as_int fs x0 | None => None end) as [n|]; [|reflexivity].
      destruct (n =? 0)%Z; [reflexivity|]. destruct (n <? 0)%Z; [lia|reflexivity].
  Qed.

  (** *** IsHomogeneous *)
  Lemma is_homogeneous_sound : forall e, tame vs e -> polynomial_in fs rho vs e ->
    is_homogeneous fs rho vs e = true -> homogeneous_of_degree fs rho vs (Z.to_nat (gdegree fs rho vs e)) e.
  Proof.
    intro e. induction e as [k c|y|ops IH|ops IH|e IH|e n IH|b e IHb IHe|k e IH|e IH] using expr_rect'; intros Ht Hp Hh.
    - apply hom_absent. intros v Hv Hx. inversion Hx.
    - cbn [gdegree]. destruct (existsb (Nat.eqb y) vs) eqn:E.
      + apply existsb_exists in E. destruct E as [w [Hw Ew]]. apply Nat.eqb_eq in Ew. subst w.
        intros rho' t a a' Hr E1 E2. cbn [eval] in *. unfold scale in E2. destruct (in_dec Nat.eq_dec y vs); [|contradiction].
        injection E1 as <-; injection E2 as <-. change (Z.to_nat 1) with 1%nat. cbn [fpow]. ring.
      + apply hom_absent. intros v Hv Hx. inversion Hx; subst. rewrite <- not_true_iff_false in E. apply E.
        apply existsb_exists. exists y. split; [assumption|apply Nat.eqb_refl].
    - cbn [is_homogeneous] in Hh. apply andb_true_iff in Hh. destruct Hh as [Hall Hdeg]. rewrite forallb_forall in Hall.
      inversion Ht as [| |? Hts| | | | | |]; subst. rewrite Forall_forall in IH, Hts.
      apply hom_sum. intros s e Hin.
      assert (Ed : gdegree fs rho vs (Sum ops) = gdegree fs rho vs e).
      { assert (Hi : In (gdegree fs rho vs e) (map (fun p => gdegree fs rho vs (snd p)) ops)) by (apply in_map_iff; exists (s, e); split; [reflexivity|assumption]).
        cbn [gdegree]. destruct (map (fun p => gdegree fs rho vs (snd p)) ops) as [|d r]; [contradiction|].
        apply andb_true_iff in Hdeg. destruct Hdeg as [H1 H2]. apply negb_true_iff in H1. apply Z.ltb_ge in H1.
        rewrite forallb_forall in H2.
        assert (Ha : Forall (fun x => x = d) (d :: r)).
        { constructor; [reflexivity|]. apply Forall_forall. intros x Hx. apply Z.eqb_eq. apply H2. assumption. }
        rewrite (sum_degree_const (d :: r) d H1 ltac:(discriminate) Ha). symmetry. rewrite Forall_forall in Ha. apply Ha. assumption. }
      rewrite Ed. apply (IH _ Hin); [apply (Hts _ Hin)|apply (sum_children fs rho vs ops Hp s e Hin)|apply (Hall _ Hin)].
    - cbn [is_homogeneous] in Hh. rewrite forallb_forall in Hh.
      inversion Ht as [| | |? Hts| | | | |]; subst. rewrite Forall_forall in IH, Hts.
      destruct (gdegree_mul ops Hp) as [Eg [Hc Hd]]. rewrite Eg.
      rewrite to_nat_fold by (intros s e Hin; apply gdegree_nonneg; eapply Hc; exact Hin).
      apply (hom_mul vs ops (fun e => Z.to_nat (gdegree fs rho vs e))).
      + intros s e Hin. apply (IH _ Hin); [apply (Hts _ Hin)|eapply Hc; exact Hin|apply (Hh _ Hin)].
      + intros e Hin. rewrite (Hd e Hin). reflexivity.
    - inversion Ht as [| | | |? x Ho Hte| | | |]; subst. rewrite (tame_gdegree_neg e x Ho Hp). apply hom_neg. apply IH; assumption.
    - inversion Ht as [| | | | |? ? x Ho Hte| | |]; subst. pose proof (ipow_child e n Hp) as Hc.
      rewrite (tame_gdegree_ipow e n x Ho Hp). pose proof (gdegree_nonneg e Hc) as Hn.
      assert (Es : (0 <= n)%Z \/ Z.to_nat (gdegree fs rho vs e) = O) by (destruct (ipow_sign e n x Ho Hp) as [|E]; [left; assumption|right; rewrite E; reflexivity]).
      replace (Z.to_nat (n * gdegree fs rho vs e)) with (Z.to_nat n * Z.to_nat (gdegree fs rho vs e))%nat.
      + apply hom_ipow; [apply IH; assumption|exact Es].
      + destruct Es as [Es|Es]; [rewrite Z2Nat.inj_mul by lia; reflexivity|].
        replace (gdegree fs rho vs e) with 0%Z by lia. rewrite Z.mul_0_r. cbn. lia.
    - inversion Ht as [| | | | | |? ? x Ho Ha Htb| |]; subst. cbn [is_homogeneous] in Hh.
      destruct (gdegree fs rho vs e =? 0)%Z; [|discriminate].
      destruct (power_shape b e x Ho Ha Hp) as [[n [Ev [Hb Eg]]]|[[Hb [Eb Eg]]|Hnil]].
      + rewrite Eg. destruct Hb as [->|Hb].
        * cbn [Nat.mul].
          (* exponent zero *)
          intros rho' t y y' Hr E E'. cbn [eval] in *. rewrite (hom_unchanged vs e Ha) in E'.
          rewrite (eval_frozen vs e Ha rho' Hr), Ev in E, E'.
          destruct (eval fs rho' b) as [a|]; [|discriminate]. destruct (eval fs (scale t vs rho') b) as [a'|]; [|discriminate].
          assert (P : forall z w, pw fs z (fZ (Z.of_nat 0)) = Some w -> w = 1).
          { intros z w Ew. cbn [Z.of_nat fZ] in Ew. destruct (feq_dec z 0) as [->|N].
            + apply (pw_00 fs Hfs). exact Ew.
            + pose proof (pw_int fs Hfs z 0 (or_intror N)) as Hw. cbn [Z.of_nat fZ fpow] in Hw. congruence. }
          apply P in E. apply P in E'. subst. cbn. ring.
        * apply hom_pow_int; [exact Ha|exact Ev|]. apply IHb; [assumption|assumption|].
          destruct (match eval fs rho e with Some x0 => as_int fs x0 | None => None end) as [m|]; [|discriminate].
          destruct (0 <=? m)%Z; [exact Hh|discriminate].
      + rewrite Eg. apply hom_pow_zero; [exact Ha|]. replace O with (Z.to_nat (gdegree fs rho vs b)) by (rewrite Eb; reflexivity). apply IHb; [assumption|assumption|].
        destruct (match eval fs rho e with Some x0 => as_int fs x0 | None => None end) as [m|]; [|discriminate].
        destruct (0 <=? m)%Z; [exact Hh|discriminate].
      + rewrite (gdegree_zero (Pow b e)) by (intros v Hv; rewrite Hnil in Hv; contradiction).
        apply hom_absent. intros v Hv. rewrite Hnil in Hv. contradiction.
    - inversion Ht as [| | | | | | |? ? Ha|]; subst.
      assert (Ha' : absent (Fun k e)) by (intros v Hv Hx; inversion Hx; subst; apply (Ha v Hv); assumption).
      rewrite gdegree_zero by (apply sumdeg_absent; assumption). apply hom_absent. exact Ha'.
    - inversion Ht; subst. cbn [gdegree]. intros rho' t a a'. cbn [eval]. apply IH; assumption.
  Qed.

  (** *** Homogenize *)
  Variable h : nat.
  Hypothesis Hh : ~ In h vs.
  Let G := h :: vs.

  Lemma raise_hom : forall e d m, (0 <= d <= m)%Z -> homogeneous_of_degree fs rho G (Z.to_nat d) e ->
    homogeneous_of_degree fs rho G (Z.to_nat m) (raise_degree h (m - d) e).
  Proof.
    intros e d m Hd He. unfold raise_degree. destruct (Z.leb_spec (m - d) 0).
    - replace m with d by lia. exact He.
    - assert (Hv : homogeneous_of_degree fs rho G 1 (Var h)).
      { intros rho' t y y' Hr E E'. cbn [eval] in *. unfold scale in E'.
        destruct (in_dec Nat.eq_dec h G) as [|N]; [|exfalso; apply N; left; reflexivity].
        injection E as <-. injection E' as <-. cbn [fpow]. ring. }
      destruct (Z.eqb_spec (m - d) 1).
      + intros rho' t y y' Hr E E'. cbn [eval map mul_val fst snd] in E, E'.
        destruct (eval fs rho' e) as [a|] eqn:Ea; [|discriminate].
        destruct (eval fs (scale t G rho') e) as [a'|] eqn:Ea'; [|discriminate].
        rewrite (He rho' t a a' Hr Ea Ea') in E'.
        rewrite (Hv rho' t (rho' h) (scale t G rho' h) Hr eq_refl eq_refl) in E'.
        replace (Z.to_nat m) with (S (Z.to_nat d)) by lia. injection E as <-. injection E' as <-. cbn [fpow]. ring.
      + intros rho' t y y' Hr E E'. cbn [eval map mul_val fst snd] in E, E'. rewrite fpowZ_pos in E, E' by lia.
        destruct (eval fs rho' e) as [a|] eqn:Ea; [|discriminate].
        destruct (eval fs (scale t G rho') e) as [a'|] eqn:Ea'; [|discriminate].
        rewrite (He rho' t a a' Hr Ea Ea') in E'.
        rewrite (Hv rho' t (rho' h) (scale t G rho' h) Hr eq_refl eq_refl) in E'.
        replace (Z.to_nat m) with (Z.to_nat (m - d) + Z.to_nat d)%nat by lia.
        injection E as <-. injection E' as <-. rewrite fpow_add, fpow_mul_base. cbn [fpow].
        replace (t * 1) with t by ring. ring.
  Qed.

  Lemma homogenize_homogeneous : forall e e', tame vs e -> polynomial_in fs rho vs e -> ~ occurs h e ->
    homogenize fs rho vs h e = Some e' -> homogeneous_of_degree fs rho G (Z.to_nat (gdegree fs rho vs e)) e'.
  Proof.
    intro e. induction e as [k c|y|ops IH|ops IH|e IH|e n IH|b e IHb IHe|k e IH|e IH] using expr_rect'; intros e' Ht Hp Hno H;
      cbn [homogenize] in H.
    - injection H as <-. apply hom_absent. intros v Hv Hx. inversion Hx.
    - injection H as <-. cbn [gdegree]. destruct (existsb (Nat.eqb y) vs) eqn:E.
      + apply existsb_exists in E. destruct E as [w [Hw Ew]]. apply Nat.eqb_eq in Ew. subst w.
        intros rho' t a a' Hr E1 E2. cbn [eval] in *. unfold scale in E2. destruct (in_dec Nat.eq_dec y G) as [|N]; [|exfalso; apply N; right; assumption].
        injection E1 as <-; injection E2 as <-. change (Z.to_nat 1) with 1%nat. cbn [fpow]. ring.
      + apply hom_absent. intros v Hv Hx. inversion Hx; subst. destruct Hv as [Hv|Hv].
        * subst. apply Hno. constructor.
        * rewrite <- not_true_iff_false in E. apply E. apply existsb_exists. exists y. split; [assumption|apply Nat.eqb_refl].
    - destruct (sequence _) as [ops'|] eqn:Es; [|discriminate]. apply sequence_map_some in Es.
      destruct (existsb _ _); [discriminate|]. injection H as <-.
      inversion Ht as [| |? Hts| | | | | |]; subst.
      assert (Ed : map (fun p => gdegree fs rho vs (snd p)) ops' = map (fun p => gdegree fs rho vs (snd p)) ops).
      { clear - Es Hh. induction Es as [|[s a] [s' b] l l' Hab Hl IHl]; [reflexivity|]. cbn [map fst snd] in *.
        destruct (homogenize fs rho vs h a) as [b'|] eqn:Eb; [|discriminate]. inversion Hab; subst.
        rewrite IHl. f_equal. apply (homogenize_degree fs rho vs h Hh a b Eb). }
      assert (Hnn : forall s e, In (s, e) ops -> (0 <= gdegree fs rho vs e)%Z)
        by (intros s e Hin; apply gdegree_nonneg; apply (sum_children fs rho vs ops Hp s e Hin)).
      assert (Em : gdegree fs rho vs (Sum ops) = fold_left Z.max (map (fun p => gdegree fs rho vs (snd p)) ops) 0%Z).
      { cbn [gdegree]. apply sum_degree_max. rewrite Forall_map. apply Forall_forall. intros [s e] Hin. eapply Hnn; exact Hin. }
      rewrite Ed, <- Em. apply hom_sum. intros s e2 Hin. apply in_map_iff in Hin. destruct Hin as [[s0 e1] [Heq Hin]].
      cbn [fst snd] in Heq. inversion Heq; subst.
      (* the operand of the original sum *)
      assert (Hor : exists e0, In (s, e0) ops /\ homogenize fs rho vs h e0 = Some e1).
      { clear - Es Hin. induction Es as [|[s1 a] [s' b] l l' Hab Hl IHl]; [contradiction|]. cbn [fst snd] in *.
        destruct Hin as [Hin|Hin].
        - inversion Hin; subst. destruct (homogenize fs rho vs h a) as [b'|] eqn:Eb; [|discriminate]. inversion Hab; subst.
          exists a. split; [left; reflexivity|assumption].
        - destruct (IHl Hin) as [e0 [H1 H2]]. exists e0. split; [right; assumption|assumption]. }
      destruct Hor as [e0 [Hin0 H0]]. rewrite Forall_forall in IH, Hts.
      assert (Eg : gdegree fs rho vs e1 = gdegree fs rho vs e0) by (apply (homogenize_degree fs rho vs h Hh e0 e1 H0)).
      rewrite Eg. apply raise_hom.
      + split; [eapply Hnn; exact Hin0|]. cbn [gdegree] in Em; rewrite Em.
        destruct (fold_max_ge (map (fun p => gdegree fs rho vs (snd p)) ops) 0%Z) as [_ Hle]. rewrite Forall_forall in Hle.
        apply Hle. apply in_map_iff. exists (s, e0). split; [reflexivity|assumption].
      + apply (IH _ Hin0); [apply (Hts _ Hin0)|apply (sum_children fs rho vs ops Hp s e0 Hin0)| |exact H0].
        intro Hx. apply Hno. econstructor; [exact Hin0|exact Hx].
    - destruct (sequence _) as [ops'|] eqn:Es; [|discriminate]. apply sequence_map_some in Es.
      injection H as <-. inversion Ht as [| | |? Hts| | | | |]; subst.
      destruct (gdegree_mul ops Hp) as [Eg [Hc Hd]]. rewrite Eg. clear Eg.
      rewrite to_nat_fold by (intros s e Hin; apply gdegree_nonneg; eapply Hc; exact Hin).
      assert (Ef : fold_right (fun p n => (Z.to_nat (gdegree fs rho vs (snd p)) + n)%nat) O ops = fold_right (fun p n => (Z.to_nat (gdegree fs rho vs (snd p)) + n)%nat) O ops').
      { clear - Es Hh. induction Es as [|[s a] [s' b] l l' Hab Hl IHl]; [reflexivity|]. cbn [fold_right fst snd] in *.
        destruct (homogenize fs rho vs h a) as [b'|] eqn:Eb; [|discriminate]. inversion Hab; subst.
        rewrite IHl. f_equal. f_equal. symmetry. apply (homogenize_degree fs rho vs h Hh a b Eb). }
      rewrite Ef. rewrite Forall_forall in IH, Hts.
      assert (Hor : forall s e1, In (s, e1) ops' -> exists e0, In (s, e0) ops /\ homogenize fs rho vs h e0 = Some e1).
      { clear - Es. intros s e1 Hin. induction Es as [|[s1 a] [s' b] l l' Hab Hl IHl]; [contradiction|]. cbn [fst snd] in *.
        destruct Hin as [Hin|Hin].
        - inversion Hin; subst. destruct (homogenize fs rho vs h a) as [b'|] eqn:Eb; [|discriminate]. inversion Hab; subst.
          exists a. split; [left; reflexivity|assumption].
        - destruct (IHl Hin) as [e0 [H1 H2]]. exists e0. split; [right; assumption|assumption]. }
      apply (hom_mul G ops' (fun e => Z.to_nat (gdegree fs rho vs e))).
      + intros s e1 Hin. destruct (Hor s e1 Hin) as [e0 [Hin0 H0]].
        replace (gdegree fs rho vs e1) with (gdegree fs rho vs e0) by (symmetry; apply (homogenize_degree fs rho vs h Hh e0 e1 H0)).
        apply (IH _ Hin0); [apply (Hts _ Hin0)|eapply Hc; exact Hin0| |exact H0].
        intro Hx. apply Hno. econstructor; [exact Hin0|exact Hx].
      + intros e1 Hin. destruct (Hor false e1 Hin) as [e0 [Hin0 H0]].
        replace (gdegree fs rho vs e1) with (gdegree fs rho vs e0) by (symmetry; apply (homogenize_degree fs rho vs h Hh e0 e1 H0)).
        rewrite (Hd e0 Hin0). reflexivity.
    - destruct (homogenize fs rho vs h e) as [a|] eqn:E; [|discriminate]. injection H as <-.
      inversion Ht as [| | | |? x Ho Hte| | | |]; subst. rewrite (tame_gdegree_neg e x Ho Hp). apply hom_neg.
      apply IH; [assumption|assumption| |reflexivity]. intro Hx. apply Hno. constructor. assumption.
    - destruct (homogenize fs rho vs h e) as [a|] eqn:E; [|discriminate]. injection H as <-.
      inversion Ht as [| | | | |? ? x Ho Hte| | |]; subst. pose proof (ipow_child e n Hp) as Hc.
      rewrite (tame_gdegree_ipow e n x Ho Hp). pose proof (gdegree_nonneg e Hc) as Hn.
      assert (Es : (0 <= n)%Z \/ Z.to_nat (gdegree fs rho vs e) = O) by (destruct (ipow_sign e n x Ho Hp) as [|E0]; [left; assumption|right; rewrite E0; reflexivity]).
      replace (Z.to_nat (n * gdegree fs rho vs e)) with (Z.to_nat n * Z.to_nat (gdegree fs rho vs e))%nat.
      + apply hom_ipow; [|exact Es]. apply IH; [assumption|assumption| |reflexivity]. intro Hx. apply Hno. constructor. assumption.
      + destruct Es as [Es|Es]; [rewrite Z2Nat.inj_mul by lia; reflexivity|].
        replace (gdegree fs rho vs e) with 0%Z by lia. rewrite Z.mul_0_r. cbn. lia.
    - inversion Ht as [| | | | | |? ? x Ho Ha Htb| |]; subst.
      destruct (gdegree fs rho vs e =? 0)%Z; [|discriminate].
      destruct (homogenize fs rho vs h b) as [b'|] eqn:E; [|discriminate]. injection H as <-.
      assert (HaG : forall v, In v G -> ~ occurs v e).
      { intros v [<-|Hv]; [intro Hx; apply Hno; apply oc_powe; assumption|apply Ha; assumption]. }
      assert (Hnb : ~ occurs h b) by (intro Hx; apply Hno; constructor; assumption).
      destruct (power_shape b e x Ho Ha Hp) as [[n [Ev [Hb Eg]]]|[[Hb [Eb Eg]]|Hnil]].
      + rewrite Eg. destruct Hb as [->|Hb].
        * cbn [Nat.mul]. intros rho' t y y' Hr E1 E'. cbn [eval] in *. rewrite (hom_unchanged G e HaG) in E'.
          rewrite (eval_frozen G e HaG rho' Hr), Ev in E1, E'.
          destruct (eval fs rho' b') as [a|]; [|discriminate]. destruct (eval fs (scale t G rho') b') as [a'|]; [|discriminate].
          assert (P : forall z w, pw fs z (fZ (Z.of_nat 0)) = Some w -> w = 1).
          { intros z w Ew. cbn [Z.of_nat fZ] in Ew. destruct (feq_dec z 0) as [->|N].
            + apply (pw_00 fs Hfs). exact Ew.
            + pose proof (pw_int fs Hfs z 0 (or_intror N)) as Hw. cbn [Z.of_nat fZ fpow] in Hw. congruence. }
          apply P in E1. apply P in E'. subst. cbn. ring.
        * apply hom_pow_int; [exact HaG|exact Ev|]. apply IHb; [assumption|assumption|assumption|reflexivity].
      + rewrite Eg. apply hom_pow_zero; [exact HaG|]. replace O with (Z.to_nat (gdegree fs rho vs b)) by (rewrite Eb; reflexivity).
        apply IHb; [assumption|assumption|assumption|reflexivity].
      + assert (b' = b) as ->.
        { apply (homogenize_absent h b b'); [|exact E]. intros v Hv. rewrite Hnil in Hv. contradiction. }
        rewrite (gdegree_zero (Pow b e)) by (intros v Hv; rewrite Hnil in Hv; contradiction).
        apply hom_absent. intros v [<-|Hv]; [assumption|]. rewrite Hnil in Hv. contradiction.
    - destruct (homogenize fs rho vs h e) as [a|] eqn:E; [|discriminate]. injection H as <-.
      inversion Ht as [| | | | | | |? ? Ha|]; subst.
      assert (a = e) as -> by (apply (homogenize_absent h e a); [exact Ha|exact E]).
      assert (Ha' : absent (Fun k e)) by (intros v Hv Hx; inversion Hx; subst; apply (Ha v Hv); assumption).
      rewrite gdegree_zero by (apply sumdeg_absent; assumption). apply hom_absent.
      intros v [<-|Hv]; [assumption|apply Ha'; assumption].
    - destruct (homogenize fs rho vs h e) as [a|] eqn:E; [|discriminate]. injection H as <-.
      inversion Ht; subst. cbn [gdegree]. intros rho' t y y'. cbn [eval].
      apply IH; [assumption|assumption| |reflexivity]. intro Hx. apply Hno. constructor. assumption.
  Qed.
End Proofs.

(** ** The group degree is attained by homogeneous trees *)
Section Attained.
  Context {F : fld}.
  Local Open Scope fld_scope.
  Add Field attained_field : (f_th F).

  Definition infinite : Prop := forall n, exists l : list F, NoDup l /\ length l = n.

  Lemma vanishing_coefficients : infinite -> forall p : list F, (forall t, t <> 0 -> peval p t = 0) -> Forall (fun a => a = 0) p.
  Proof.
    intros Hinf p. induction p as [|a p IH]; intro H; [constructor|].
    assert (Hall : forall t, peval (a :: p) t = 0).
    { destruct (Hinf (S (length (a :: p)))) as [l [Hnd Hl]].
      apply (poly_too_many_roots (length (a :: p)) _ (remove feq_dec (@f0 F) l)); [reflexivity| | |].
      - clear - Hnd. induction Hnd as [|x l Hx Hnd IHl]; cbn; [constructor|]. destruct (feq_dec (@f0 F) x); [assumption|].
        constructor; [|assumption]. intro Hin. apply in_remove in Hin. apply Hx. apply Hin.
      - assert (L : (length l <= S (length (remove feq_dec (@f0 F) l)))%nat); [|lia].
        clear - Hnd. induction Hnd as [|x l Hx Hnd IHl]; cbn; [lia|]. destruct (feq_dec (@f0 F) x) as [<-|]; cbn; [|lia].
        rewrite notin_remove by assumption. lia.
      - intros b Hb. apply in_remove in Hb. apply H. apply Hb. }
    assert (Ha : a = 0) by (pose proof (Hall 0) as E; cbn in E; rewrite <- E; ring).
    constructor; [exact Ha|]. apply IH. intros t Ht. pose proof (Hall t) as E. cbn in E. rewrite Ha in E.
    assert (E' : t * peval p t = 0) by (rewrite <- E; ring). destruct (fmul_integral _ _ E'); [contradiction|assumption].
  Qed.

  Lemma monomial_degree : infinite -> forall d k (c : F) p, c <> 0 -> is_poly k p -> (forall t, t <> 0 -> p t = fpow t d * c) -> (d <= k)%nat.
  Proof.
    intros Hinf d k c p Hc [q [Hq Hp]] H. destruct (le_lt_dec d k) as [|Hlt]; [assumption|exfalso].
    assert (Hv : Forall (fun a => a = 0) (padd (pscale c (repeat 0 d ++ [1])) (pscale (-(1)) q))).
    { apply vanishing_coefficients; [assumption|]. intros t Ht. rewrite peval_padd, !peval_pscale, peval_monomial, <- Hp, (H t Ht). ring. }
    assert (Hn : nth d (padd (pscale c (repeat 0 d ++ [1])) (pscale (-(1)) q)) 0 = 0).
    { destruct (le_lt_dec (length (padd (pscale c (repeat 0 d ++ [1])) (pscale (-(1)) q))) d) as [L|L].
      - apply nth_overflow. assumption.
      - rewrite Forall_forall in Hv. apply Hv. apply nth_In. assumption. }
    assert (G : forall n (r : list F), (length r <= n)%nat -> nth n (padd (pscale c (repeat 0 n ++ [1])) r) 0 = c).
    { induction n as [|n IHn]; intros r Hr; destruct r as [|a r]; cbn in *; try lia; try ring.
      - assert (E : nth n (pscale c (repeat 0 n ++ [1])) 0 = c); [|exact E].
        clear. induction n; cbn; [ring|assumption].
      - apply IHn. lia. }
    apply Hc. rewrite <- Hn. symmetry. apply G. unfold pscale. rewrite map_length. lia.
  Qed.

  (** a homogeneous tree with a nonzero value has exactly the reported degree along the ray through the point *)
  Lemma group_degree_attained : infinite -> forall (fs : funs F), funs_ok fs -> forall rho vs e y k p, NoDup vs -> tame vs e ->
    polynomial_in fs rho vs e -> is_homogeneous fs rho vs e = true -> eval fs rho e = Some y -> y <> 0 ->
    is_poly k p -> (forall t, t <> 0 -> eval fs (scale t vs rho) e = Some (p t)) -> (gdegree fs rho vs e <= Z.of_nat k)%Z.
  Proof.
    intros Hinf fs Hfs rho vs e y k p Hnd Ht Hp Hh Hy Hy0 Hk Hpt.
    pose proof (gdegree_nonneg fs rho vs e Hp).
    assert ((Z.to_nat (gdegree fs rho vs e) <= k)%nat); [|lia].
    apply (monomial_degree Hinf _ k y p Hy0 Hk). intros t Ht0.
    apply (is_homogeneous_sound fs Hfs rho vs Hnd e Ht Hp Hh rho t y (p t)); [reflexivity|assumption|apply Hpt; assumption].
  Qed.
End Attained.
Arguments infinite : clear implicits.

(** ** Counterexamples over the rational numbers *)

(** -(x+y) + x*y *)
Definition mixed_terms : expr QcF := Sum [(true, Neg (Sum [(true, q_x); (true, q_y)])); (true, Mul [(true, q_x); (true, q_y)])].
(** -(x+y) + x *)
Definition negated_sum_plus_x : expr QcF := Sum [(true, Neg (Sum [(true, q_x); (true, q_y)])); (true, q_x)].
(** its homogenization, -(x+y) + h*x *)
Definition negated_sum_plus_hx : expr QcF := Sum [(true, Neg (Sum [(true, q_x); (true, q_y)])); (true, Mul [(true, Var 2); (true, q_x)])].

Lemma is_homogeneous_wrong : exists (e : expr QcF) rho vs,
  NoDup vs /\ polynomial_in qc_funs rho vs e /\ is_homogeneous qc_funs rho vs e = true /\
  forall d, ~ homogeneous_of_degree qc_funs rho vs d e.
Proof.
  exists mixed_terms, q_env, [0; 1]%nat. split; [|split; [|split]].
  - constructor; [intros [|[]]; discriminate|]. constructor; [intros []|constructor].
  - intros v [<-|[<-|[]]]; vm_compute; discriminate.
  - vm_compute. reflexivity.
  - intros d H. specialize (H q_env (qc 2 1) (qc (-1) 1) (@f0 QcF) (fun _ _ => eq_refl)).
    specialize (H ltac:(vm_compute; reflexivity) ltac:(vm_compute; reflexivity)).
    symmetry in H. apply fmul_integral in H. destruct H as [H|H].
    + apply fpow_eq0 in H. apply (f_equal rq) in H. vm_compute in H. discriminate.
    + apply (f_equal rq) in H. vm_compute in H. discriminate.
Qed.

Lemma homogenize_wrong : exists (e e' : expr QcF) rho vs h,
  NoDup vs /\ ~ In h vs /\ ~ occurs h e /\ polynomial_in qc_funs rho vs e /\
  homogenize qc_funs rho vs h e = Some e' /\ forall d, ~ homogeneous_of_degree qc_funs rho (h :: vs) d e'.
Proof.
  exists negated_sum_plus_x, negated_sum_plus_hx, q_env, [0; 1]%nat, 2%nat. split; [|split; [|split; [|split; [|split]]]].
  - constructor; [intros [|[]]; discriminate|]. constructor; [intros []|constructor].
  - intros [|[|[]]]; discriminate.
  - intro H. apply occursb_spec in H. vm_compute in H. discriminate.
  - intros v [<-|[<-|[]]]; vm_compute; discriminate.
  - vm_cast_no_check (eq_refl (Some negated_sum_plus_hx)).
  - intros d H. specialize (H q_env (qc 2 1) (qc (-1) 1) (@f0 QcF) (fun _ _ => eq_refl)).
    specialize (H ltac:(vm_compute; reflexivity) ltac:(vm_compute; reflexivity)).
    symmetry in H. apply fmul_integral in H. destruct H as [H|H].
    + apply fpow_eq0 in H. apply (f_equal rq) in H. vm_compute in H. discriminate.
    + apply (f_equal rq) in H. vm_compute in H. discriminate.
Qed.

(** a polynomial for which everything works: x^3*y + 2*x + (y^2 - 5) *)
Definition sample_tree : expr QcF :=
  Sum [(true, Mul [(true, IPow q_x 3); (true, q_y)]); (true, Mul [(true, Num KInteger (qc 2 1)); (true, q_x)]);
       (true, Sum [(true, Pow q_y (Num KInteger (qc 2 1))); (false, Num KInteger (qc 5 1))])].

Lemma sample_tame : tame [0; 1]%nat sample_tree.
Proof.
  assert (Hx : tame [0; 1]%nat q_x) by constructor. assert (Hy : tame [0; 1]%nat q_y) by constructor.
  assert (Hn : forall k c, tame [0; 1]%nat (Num k c : expr QcF)) by (intros; constructor).
  assert (Ox : forall v, In v [0; 1]%nat -> v <> 0%nat -> ~ occurs v q_x) by (intros v _ N H; inversion H; subst; apply N; reflexivity).
  assert (Oy : forall v, In v [0; 1]%nat -> v <> 1%nat -> ~ occurs v q_y) by (intros v _ N H; inversion H; subst; apply N; reflexivity).
  apply tame_sum. apply Forall_cons; [|apply Forall_cons; [|apply Forall_cons; [|apply Forall_nil]]]; cbn [snd].
  - apply tame_mul. apply Forall_cons; [|apply Forall_cons; [exact Hy|apply Forall_nil]]. apply tame_ipow with (x := 0%nat); assumption.
  - apply tame_mul. apply Forall_cons; [apply Hn|apply Forall_cons; [exact Hx|apply Forall_nil]].
  - apply tame_sum. apply Forall_cons; [|apply Forall_cons; [apply Hn|apply Forall_nil]].
    apply tame_pow with (x := 1%nat); [assumption| |assumption]. intros v _ H. inversion H.
Qed.

Lemma sample_polynomial : polynomial_in qc_funs q_env [0; 1]%nat sample_tree.
Proof. intros v [<-|[<-|[]]]; vm_compute; discriminate. Qed.

(** its homogenization: x^3*y + h^3*(2*x) + h^2*(y^2 - h^2*5) *)
Definition sample_homogenized : expr QcF :=
  Sum [(true, Mul [(true, IPow q_x 3); (true, q_y)]);
       (true, Mul [(true, IPow (Var 2) 3); (true, Mul [(true, Num KInteger (qc 2 1)); (true, q_x)])]);
       (true, Mul [(true, IPow (Var 2) 2);
                   (true, Sum [(true, Pow q_y (Num KInteger (qc 2 1)));
                               (false, Mul [(true, IPow (Var 2) 2); (true, Num KInteger (qc 5 1))])])])].

Lemma sample_homogenize : homogenize qc_funs q_env [0; 1]%nat 2 sample_tree = Some sample_homogenized.
Proof. vm_cast_no_check (eq_refl (Some sample_homogenized)). Qed.
