(** Whole systems: Homogenize, IsHomogeneous and IsPolynomial of System, and MultiDegree of nodes.
    Models core/src/system/system.cpp:410-486, 491-562 and the MultiDegree functions of the function tree.
    The functions of a system are trees; subtrees shared between functions are the subject of HeapHomog.v. *)
From Coq Require Import List Arith Lia ZArith Bool Ring Field.
From Verif Require Import Base Poly Expr Degree Homog.
Import ListNotations.

(** ** Model *)
Section Model.
  Context {F : fld}.
  Variable fs : funs F.
  Variable rho : env F.   (* the current values of the variables *)

  (** the loop shared by SumOperator::MultiDegree and MultOperator::MultiDegree *)
  Fixpoint zip_with (f : Z -> Z -> Z) (a b : list Z) : list Z :=
    match a, b with x :: a', y :: b' => f x y :: zip_with f a' b' | _, _ => a end.

  (** Node::MultiDegree *)
  Fixpoint multidegree (vs : list nat) (e : expr F) : list Z :=
    match e with
    | Num _ _ => map (fun _ => 0%Z) vs                                  (* number.hpp:106-110 *)
    | Var x => map (fun v => if Nat.eqb x v then 1%Z else 0%Z) vs       (* variable.cpp:134-143 *)
    | Sum ops => fold_left (fun deg p => zip_with Z.max deg (multidegree vs (snd p))) ops (map (fun _ => 0%Z) vs)
                                                                        (* arithmetic.cpp:249-262 *)
    | Mul ops => fold_left (fun deg p => zip_with Z.add deg (multidegree vs (snd p))) ops (map (fun _ => 0%Z) vs)
                                                                        (* arithmetic.cpp:815-828 *)
    | _ => map (fun v => degree fs rho v e) vs       (* operator.cpp:74-83, arithmetic.cpp:1025-1033, function.cpp:151-160 *)
    end.

  (** the members of System used here; [hom_vars] are the homogenizing variables *)
  Record psys := mkPS { fns : list (expr F); groups : list (list nat); hom_groups : list (list nat);
                        ungrouped : list nat; hom_vars : list nat }.

  (** the groups with their homogenizing variables in front; a missing variable would be read out of bounds, which the
      checks on the numbers of variables exclude *)
  Fixpoint with_front (gs : list (list nat)) (hs : list nat) : list (list nat) :=
    match gs, hs with g :: gs', h :: hs' => (h :: g) :: with_front gs' hs' | _, _ => [] end.
  Definition full_groups (s : psys) : list (list nat) :=
    match hom_vars s with [] => groups s | hs => with_front (groups s) hs end.

  (** system.cpp:491-527 IsHomogeneous *)
  Definition is_homogeneous_sys (s : psys) : bool :=
    (length (hom_vars s) =? length (groups s))%nat &&
    forallb (fun f =>
      forallb (fun g => is_homogeneous fs rho g f) (full_groups s) &&
      forallb (fun g => is_homogeneous fs rho g f) (hom_groups s) &&
      match ungrouped s with [] => true | u => is_homogeneous fs rho u f end) (fns s).

  (** system.cpp:530-562 IsPolynomial; [None] is the exception.  Node::IsPolynomial: node.cpp:95-98 *)
  Definition is_polynomial_sys (s : psys) : option bool :=
    if negb (length (hom_vars s) =? 0)%nat && negb (length (hom_vars s) =? length (groups s))%nat then None
    else Some (forallb (fun f =>
      forallb (fun g => (0 <=? gdegree fs rho g f)%Z) (full_groups s) &&
      forallb (fun g => (0 <=? gdegree fs rho g f)%Z) (hom_groups s)) (fns s)).

  (** the loop over the groups, system.cpp:454-478; each group comes with its homogenizing variable *)
  Fixpoint homogenize_all (l : list (list nat * nat)) (fl : list (expr F)) : option (list (expr F)) :=
    match l with
    | [] => Some fl
    | (g, h) :: l' => match sequence (map (homogenize fs rho g h) fl) with
                      | Some fl' => homogenize_all l' fl'
                      | None => None
                      end
    end.

  (** system.cpp:410-486 Homogenize; [None] is an exception; [fresh k] is the new variable HOM_VAR_k *)
  Definition homogenize_sys (fresh : nat -> nat) (s : psys) : option psys :=
    if negb (forallb (fun f => forallb (fun g => is_homogeneous fs rho g f) (hom_groups s)) (fns s)) then None
    else match is_polynomial_sys s with
    | Some true =>
        let hs := match hom_vars s with [] => map fresh (seq 0 (length (groups s))) | hs => hs end in
        match homogenize_all (combine (match hom_vars s with [] => groups s | _ => with_front (groups s) hs end) hs) (fns s) with
        | Some fl => Some (mkPS fl (groups s) (hom_groups s) (ungrouped s) hs)
        | None => None
        end
    | _ => None
    end.

  (** ** Specification *)
  (** no unknown occurs *)
  Definition constant (A : list nat) (e : expr F) : Prop := forall v, In v A -> ~ occurs v e.

  (** trees built from numbers and variables by sums, products, negation and integral powers; division, negative powers
      and functions only of subtrees without unknowns *)
  Inductive pure (A : list nat) : expr F -> Prop :=
  | pu_num : forall k c, pure A (Num k c)
  | pu_var : forall x, pure A (Var x)
  | pu_sum : forall ops, Forall (fun p => pure A (snd p)) ops -> pure A (Sum ops)
  | pu_mul : forall ops, Forall (fun p => pure A (snd p)) ops ->
      Forall (fun p => fst p = false -> constant A (snd p)) ops -> pure A (Mul ops)
  | pu_neg : forall e, pure A e -> pure A (Neg e)
  | pu_ipow : forall e n, pure A e -> (0 <= n)%Z \/ constant A e -> pure A (IPow e n)
  | pu_fun : forall k e, pure A e -> constant A e -> pure A (Fun k e)
  | pu_handle : forall e, pure A e -> pure A (Handle e).

  (** scaling the variables of [G] by [t] multiplies the value by [t^d], at every point *)
  Definition scales (G : list nat) (d : nat) (e : expr F) : Prop :=
    forall point t y y', eval fs point e = Some y -> eval fs (scale t G point) e = Some y' -> y' = (fpow t d * y)%F.

  (** negations and powers contain no sum with unknowns *)
  Inductive monomial (A : list nat) : expr F -> Prop :=
  | mo_const : forall e, constant A e -> monomial A e
  | mo_var : forall x, monomial A (Var x)
  | mo_mul : forall ops, Forall (fun p => monomial A (snd p)) ops -> monomial A (Mul ops)
  | mo_neg : forall e, monomial A e -> monomial A (Neg e)
  | mo_ipow : forall e n, monomial A e -> monomial A (IPow e n)
  | mo_handle : forall e, monomial A e -> monomial A (Handle e).
  Inductive expanded (A : list nat) : expr F -> Prop :=
  | ex_num : forall k c, expanded A (Num k c)
  | ex_var : forall x, expanded A (Var x)
  | ex_sum : forall ops, Forall (fun p => expanded A (snd p)) ops -> expanded A (Sum ops)
  | ex_mul : forall ops, Forall (fun p => expanded A (snd p)) ops -> expanded A (Mul ops)
  | ex_neg : forall e, monomial A e -> expanded A (Neg e)
  | ex_ipow : forall e n, monomial A e -> expanded A (IPow e n)
  | ex_fun : forall k e, expanded A (Fun k e)
  | ex_handle : forall e, expanded A e -> expanded A (Handle e).

  (** a negated subtree or a base of a power mentions at most one variable of the group, or is a product of powers *)
  Definition simple (vs : list nat) (e : expr F) : Prop :=
    (exists x, forall v, In v vs -> v <> x -> ~ occurs v e) \/ monomial vs e.
  Inductive modest (vs : list nat) : expr F -> Prop :=
  | mt_num : forall k c, modest vs (Num k c)
  | mt_var : forall x, modest vs (Var x)
  | mt_sum : forall ops, Forall (fun p => modest vs (snd p)) ops -> modest vs (Sum ops)
  | mt_mul : forall ops, Forall (fun p => modest vs (snd p)) ops -> modest vs (Mul ops)
  | mt_neg : forall e, simple vs e -> modest vs e -> modest vs (Neg e)
  | mt_ipow : forall e n, simple vs e -> modest vs e -> modest vs (IPow e n)
  | mt_fun : forall k e, modest vs (Fun k e)
  | mt_handle : forall e, modest vs e -> modest vs (Handle e).
End Model.
Arguments psys : clear implicits.

(** ** Proofs *)
Section Proofs.
  Context {F : fld}.
  Local Open Scope fld_scope.
  Add Field homsys_field : (f_th F).
  Variable fs : funs F.
  Variable rho : env F.

  (** *** MultiDegree *)
  Lemma zip_length : forall f a b, length a = length b -> length (zip_with f a b) = length a.
  Proof. intros f. induction a as [|x a IH]; intros [|y b] H; cbn in *; try lia. rewrite IH; lia. Qed.

  Lemma zip_nth : forall f a b i x y, nth_error a i = Some x -> nth_error b i = Some y -> nth_error (zip_with f a b) i = Some (f x y).
  Proof.
    intros f. induction a as [|x a IH]; intros [|y b] [|i] u v Hu Hv; cbn in *; try discriminate.
    - congruence.
    - apply IH; assumption.
  Qed.

  Lemma multidegree_length : forall vs e, length (multidegree fs rho vs e) = length vs.
  Proof.
    intros vs e.
    assert (G : forall f ops, Forall (fun p => length (multidegree fs rho vs (snd p)) = length vs) ops -> forall acc, length acc = length vs ->
      length (fold_left (fun deg (p : bool * expr F) => zip_with f deg (multidegree fs rho vs (snd p))) ops acc) = length vs).
    { intros f ops H. induction H as [|p ops Hp H IH]; intros acc Ha; cbn; [assumption|]. apply IH. rewrite zip_length; congruence. }
    induction e as [k c|x|ops IH|ops IH|e IH|e n IH|b e IHb IHe|k e IH|e IH] using expr_rect'; cbn [multidegree];
      try (rewrite map_length; reflexivity); apply G; try assumption; rewrite map_length; reflexivity.
  Qed.

  Lemma multidegree_exact : forall vs e i v, nth_error vs i = Some v -> (0 <= degree fs rho v e)%Z ->
    nth_error (multidegree fs rho vs e) i = Some (degree fs rho v e).
  Proof.
    intros vs e i v Hi.
    induction e as [k c|x|ops IH|ops IH|e IH|e n IH|b e IHb IHe|k e IH|e IH] using expr_rect'; intro Hd; cbn [multidegree];
      try (erewrite map_nth_error by exact Hi; reflexivity).
    - cbn [degree] in *. pose proof (proj1 (sum_degree_nonneg _ 0%Z (Z.le_refl _) Hd)) as Hf.
      assert (Hf' : Forall (fun p => 0 <= degree fs rho v (snd p))%Z ops).
      { rewrite Forall_map in Hf. eapply Forall_impl; [|exact Hf]. cbn. lia. }
      rewrite sum_degree_max by (rewrite Forall_map; exact Hf'). clear Hd Hf.
      assert (G : forall acc a, nth_error acc i = Some a -> nth_error (fold_left (fun deg (p : bool * expr F) => zip_with Z.max deg (multidegree fs rho vs (snd p))) ops acc) i
        = Some (fold_left Z.max (map (fun p => degree fs rho v (snd p)) ops) a)).
      { induction ops as [|p ops IHo]; intros acc a Ha; cbn; [assumption|].
        inversion IH; subst. inversion Hf'; subst. apply IHo; [assumption|assumption|]. apply zip_nth; auto. }
      apply G. erewrite map_nth_error by exact Hi. reflexivity.
    - cbn [degree] in *. destruct (mul_degree_nonneg _ 0%Z (Z.le_refl _) Hd) as [Hf Es]. rewrite Es. clear Es Hd.
      assert (Hf' : Forall (fun p => 0 <= degree fs rho v (snd p))%Z ops).
      { rewrite Forall_map in Hf. eapply Forall_impl; [|exact Hf]. cbn. tauto. }
      clear Hf.
      assert (G : forall acc a, nth_error acc i = Some a -> nth_error (fold_left (fun deg (p : bool * expr F) => zip_with Z.add deg (multidegree fs rho vs (snd p))) ops acc) i
        = Some (a + sum2 (map (fun p => (fst p, degree fs rho v (snd p))) ops))%Z).
      { induction ops as [|p ops IHo]; intros acc a Ha; cbn [fold_left]; [cbn; rewrite Ha; f_equal; lia|].
        inversion IH; subst. inversion Hf'; subst.
        rewrite (IHo H2 H4 _ (a + degree fs rho v (snd p))%Z) by (apply zip_nth; auto). f_equal. unfold sum2. cbn. lia. }
      apply G. erewrite map_nth_error by exact Hi. reflexivity.
  Qed.

  (** *** What Homogenize inserts *)
  Inductive grows (h : nat) : expr F -> expr F -> Prop :=
  | gr_same : forall e, grows h e e
  | gr_sum : forall ops ops', Forall2 (fun p q => fst p = fst q /\ exists e k, grows h (snd p) e /\ snd q = raise_degree h k e) ops ops' ->
      grows h (Sum ops) (Sum ops')
  | gr_mul : forall ops ops', Forall2 (fun p q => fst p = fst q /\ grows h (snd p) (snd q)) ops ops' -> grows h (Mul ops) (Mul ops')
  | gr_neg : forall e e', grows h e e' -> grows h (Neg e) (Neg e')
  | gr_ipow : forall e e' n, grows h e e' -> grows h (IPow e n) (IPow e' n)
  | gr_pow : forall b b' e, grows h b b' -> grows h (Pow b e) (Pow b' e)
  | gr_fun : forall k e e', grows h e e' -> grows h (Fun k e) (Fun k e')
  | gr_handle : forall e e', grows h e e' -> grows h (Handle e) (Handle e').

  Lemma homogenize_grows : forall vs h e e', homogenize fs rho vs h e = Some e' -> grows h e e'.
  Proof.
    intros vs h e. induction e as [k c|x|ops IH|ops IH|e IH|e n IH|b e IHb IHe|k e IH|e IH] using expr_rect';
      intros e' H; cbn [homogenize] in H.
    - injection H as <-. constructor.
    - injection H as <-. constructor.
    - destruct (sequence _) as [ops'|] eqn:Es; [|discriminate]. apply sequence_map_some in Es.
      destruct (existsb _ _); [discriminate|]. injection H as <-. apply gr_sum.
      generalize (fold_left Z.max (map (fun p => gdegree fs rho vs (snd p)) ops') 0%Z). intro m.
      induction Es as [|[s a] [s' b] l l' Hab Hl IHl]; cbn [map fst snd] in *; constructor.
      + inversion IH as [|? ? Ia Il]; subst. destruct (homogenize fs rho vs h a) as [b'|] eqn:Eb; [|discriminate].
        injection Hab as <- <-. cbn [fst snd]. split; [reflexivity|]. exists b'. eexists. split; [apply Ia; exact Eb|reflexivity].
      + inversion IH; subst. apply IHl; assumption.
    - destruct (sequence _) as [ops'|] eqn:Es; [|discriminate]. apply sequence_map_some in Es.
      injection H as <-. apply gr_mul.
      induction Es as [|[s a] [s' b] l l' Hab Hl IHl]; cbn [map fst snd] in *; constructor.
      + inversion IH as [|? ? Ia Il]; subst. destruct (homogenize fs rho vs h a) as [b'|] eqn:Eb; [|discriminate].
        injection Hab as <- <-. cbn [fst snd]. split; [reflexivity|]. apply Ia; exact Eb.
      + inversion IH; subst. apply IHl; assumption.
    - destruct (homogenize fs rho vs h e) as [a|] eqn:E; [|discriminate]. injection H as <-. constructor. apply IH; reflexivity.
    - destruct (homogenize fs rho vs h e) as [a|] eqn:E; [|discriminate]. injection H as <-. constructor. apply IH; reflexivity.
    - destruct (gdegree fs rho vs e =? 0)%Z; [|discriminate].
      destruct (homogenize fs rho vs h b) as [a|] eqn:E; [|discriminate]. injection H as <-. constructor. apply IHb; reflexivity.
    - destruct (homogenize fs rho vs h e) as [a|] eqn:E; [|discriminate]. injection H as <-. constructor. apply IH; reflexivity.
    - destruct (homogenize fs rho vs h e) as [a|] eqn:E; [|discriminate]. injection H as <-. constructor. apply IH; reflexivity.
  Qed.

  (** operands of a grown sum or product *)
  Lemma in_two : forall (A B : Type) (R : A -> B -> Prop) l l', Forall2 R l l' -> forall b, In b l' -> exists a, In a l /\ R a b.
  Proof.
    intros A B R l l' H. induction H as [|a b l l' Hab H IH]; intros x Hx; [contradiction|]. destruct Hx as [<-|Hx].
    - exists a. split; [left; reflexivity|assumption].
    - destruct (IH x Hx) as [y [Hy Hr]]. exists y. split; [right|]; assumption.
  Qed.

  Lemma occurs_raise : forall x h k (e : expr F), occurs x (raise_degree h k e) -> x = h \/ occurs x e.
  Proof.
    intros x h k e H. unfold raise_degree in H. destruct (k <=? 0)%Z; [right; exact H|].
    destruct (k =? 1)%Z; inversion H as [| |? s a Hin Ho| | | | | |]; subst; destruct Hin as [E|[E|[]]]; injection E as <- <-;
      try (right; exact Ho); left; inversion Ho; subst; try reflexivity.
    match goal with H : occurs _ (Var _) |- _ => inversion H; subst; reflexivity end.
  Qed.

  Lemma grows_occurs : forall h x e e', grows h e e' -> occurs x e' -> x = h \/ occurs x e.
  Proof.
    intros h x e. induction e as [k c|y|ops IH|ops IH|e IH|e n IH|b e IHb IHe|k e IH|e IH] using expr_rect';
      intros e' H Ho; inversion H; subst; try (right; assumption).
    - inversion Ho as [|? s a Hin Hx| | | | | | |]; subst. destruct (in_two _ _ _ _ _ H1 _ Hin) as [p [Hp [_ [e1 [k [Hg E]]]]]].
      cbn [snd] in E. subst a. destruct (occurs_raise _ _ _ _ Hx) as [->|Hx']; [left; reflexivity|].
      rewrite Forall_forall in IH. destruct (IH p Hp _ Hg Hx') as [->|Hx2]; [left; reflexivity|right].
      destruct p as [s0 a0]. econstructor; eassumption.
    - inversion Ho as [| |? s a Hin Hx| | | | | |]; subst. destruct (in_two _ _ _ _ _ H1 _ Hin) as [p [Hp [_ Hg]]].
      cbn [snd] in Hg. rewrite Forall_forall in IH. destruct (IH p Hp _ Hg Hx) as [->|Hx2]; [left; reflexivity|right].
      destruct p as [s0 a0]. econstructor; eassumption.
    - inversion Ho; subst. match goal with A : grows _ e ?a, B : occurs x ?a |- _ => destruct (IH _ A B) as [->|] end; [left; reflexivity|right; constructor; assumption].
    - inversion Ho; subst. match goal with A : grows _ e ?a, B : occurs x ?a |- _ => destruct (IH _ A B) as [->|] end; [left; reflexivity|right; constructor; assumption].
    - inversion Ho; subst.
      + match goal with A : grows _ b ?a, B : occurs x ?a |- _ => destruct (IHb _ A B) as [->|] end; [left; reflexivity|right; apply oc_powb; assumption].
      + right. apply oc_powe. assumption.
    - inversion Ho; subst. match goal with A : grows _ e ?a, B : occurs x ?a |- _ => destruct (IH _ A B) as [->|] end; [left; reflexivity|right; constructor; assumption].
    - inversion Ho; subst. match goal with A : grows _ e ?a, B : occurs x ?a |- _ => destruct (IH _ A B) as [->|] end; [left; reflexivity|right; constructor; assumption].
  Qed.

  Lemma grows_constant : forall h A (e e' : expr F), ~ In h A -> grows h e e' -> constant A e -> constant A e'.
  Proof. intros h A e e' N G C v Hv Ho. destruct (grows_occurs h v e e' G Ho) as [->|H]; [contradiction|]. apply (C v Hv H). Qed.

  Lemma raise_pure : forall A h k (e : expr F), pure A e -> pure A (raise_degree h k e).
  Proof.
    intros A h k e H. unfold raise_degree. destruct (Z.leb_spec k 0); [assumption|].
    destruct (Z.eqb_spec k 1); apply pu_mul; repeat (apply Forall_cons || apply Forall_nil); cbn [fst snd]; try discriminate; try assumption; try apply pu_var.
    apply pu_ipow; [apply pu_var|left; lia].
  Qed.

  Lemma grows_pure : forall h A (e e' : expr F), ~ In h A -> grows h e e' -> pure A e -> pure A e'.
  Proof.
    intros h A e e' N. revert e'. induction e as [k c|y|ops IH|ops IH|e IH|e n IH|b e IHb IHe|k e IH|e IH] using expr_rect';
      intros e' H Hp; inversion H; subst; try assumption; inversion Hp; subst.
    - apply pu_sum. apply Forall_forall. intros q Hq. destruct (in_two _ _ _ _ _ H1 _ Hq) as [p [Hin [_ [e1 [k [Hg E]]]]]].
      rewrite E. apply raise_pure. rewrite Forall_forall in IH, H2. apply (IH p Hin); [exact Hg|apply H2; exact Hin].
    - rewrite Forall_forall in IH. match goal with A1 : Forall _ ops, A2 : Forall _ ops |- _ => rewrite Forall_forall in A1, A2; apply pu_mul; apply Forall_forall; intros q Hq; destruct (in_two _ _ _ _ _ H1 _ Hq) as [p [Hin [E Hg]]]; [apply (IH p Hin); [exact Hg|apply A1; exact Hin]|] end.
      rewrite <- E. intro Ef. eapply grows_constant; [exact N|exact Hg|]. auto.
    - constructor. apply IH; assumption.
    - constructor; [apply IH; assumption|]. match goal with A1 : _ \/ _ |- _ => destruct A1; [left; assumption|right] end. eapply grows_constant; eassumption.
    - constructor; [apply IH; assumption|]. eapply grows_constant; eassumption.
    - constructor. apply IH; assumption.
  Qed.

  Lemma grows_only : forall h vs x (e e' : expr F), ~ In h vs -> grows h e e' -> (forall v, In v vs -> v <> x -> ~ occurs v e) ->
    forall v, In v vs -> v <> x -> ~ occurs v e'.
  Proof. intros h vs x e e' N G H v Hv Hn Ho. destruct (grows_occurs h v e e' G Ho) as [->|Hx]; [contradiction|]. apply (H v Hv Hn Hx). Qed.

  Lemma grows_monomial : forall h A (e e' : expr F), ~ In h A -> grows h e e' -> monomial A e -> monomial A e'.
  Proof.
    intros h A e e' N. revert e'. induction e as [k c|y|ops IH|ops IH|e IH|e n IH|b e IHb IHe|k e IH|e IH] using expr_rect';
      intros e' H Hp; pose proof H as Hg; inversion H; subst; try assumption; inversion Hp; subst;
      try (apply mo_const; eapply grows_constant; eassumption).
    - rewrite Forall_forall in IH, H2. apply mo_mul. apply Forall_forall. intros q Hq. destruct (in_two _ _ _ _ _ H1 _ Hq) as [p [Hin [_ Hgp]]].
      apply (IH p Hin); auto.
    - apply mo_neg. auto.
    - apply mo_ipow. auto.
    - apply mo_handle. auto.
  Qed.

  Lemma raise_expanded : forall A h k (e : expr F), expanded A e -> expanded A (raise_degree h k e).
  Proof.
    intros A h k e H. unfold raise_degree. destruct (k <=? 0)%Z; [assumption|].
    destruct (k =? 1)%Z; apply ex_mul; repeat (apply Forall_cons || apply Forall_nil); cbn [snd]; try assumption.
    - apply ex_var.
    - apply ex_ipow. apply mo_var.
  Qed.

  Lemma grows_expanded : forall h A (e e' : expr F), ~ In h A -> grows h e e' -> expanded A e -> expanded A e'.
  Proof.
    intros h A e e' N. revert e'. induction e as [k c|y|ops IH|ops IH|e IH|e n IH|b e IHb IHe|k e IH|e IH] using expr_rect';
      intros e' H Hp; inversion H; subst; try assumption; inversion Hp; subst.
    - apply ex_sum. apply Forall_forall. intros q Hq. destruct (in_two _ _ _ _ _ H1 _ Hq) as [p [Hin [_ [e1 [k [Hg E]]]]]].
      rewrite E. apply raise_expanded. rewrite Forall_forall in *. apply (IH p Hin); auto.
    - rewrite Forall_forall in *. apply ex_mul. apply Forall_forall. intros q Hq. destruct (in_two _ _ _ _ _ H1 _ Hq) as [p [Hin [_ Hg]]].
      apply (IH p Hin); auto.
    - apply ex_neg. eapply grows_monomial; eassumption.
    - apply ex_ipow. eapply grows_monomial; eassumption.
    - apply ex_fun.
    - apply ex_handle. auto.
  Qed.

  Lemma grows_simple : forall h vs (e e' : expr F), ~ In h vs -> grows h e e' -> simple vs e -> simple vs e'.
  Proof.
    intros h vs e e' N G [[x Hx]|H]; [left; exists x; eapply grows_only; eassumption|right; eapply grows_monomial; eassumption].
  Qed.

  Lemma raise_modest : forall vs h k (e : expr F), modest vs e -> modest vs (raise_degree h k e).
  Proof.
    intros vs h k e H. unfold raise_degree. destruct (k <=? 0)%Z; [assumption|].
    destruct (k =? 1)%Z; apply mt_mul; repeat (apply Forall_cons || apply Forall_nil); cbn [snd]; try assumption.
    - apply mt_var.
    - apply mt_ipow; [right; apply mo_var|apply mt_var].
  Qed.

  Lemma grows_modest : forall h vs (e e' : expr F), ~ In h vs -> grows h e e' -> modest vs e -> modest vs e'.
  Proof.
    intros h vs e e' N. revert e'. induction e as [k c|y|ops IH|ops IH|e IH|e n IH|b e IHb IHe|k e IH|e IH] using expr_rect';
      intros e' H Hp; inversion H; subst; try assumption; inversion Hp; subst.
    - apply mt_sum. apply Forall_forall. intros q Hq. destruct (in_two _ _ _ _ _ H1 _ Hq) as [p [Hin [_ [e1 [k [Hg E]]]]]].
      rewrite E. apply raise_modest. rewrite Forall_forall in *. apply (IH p Hin); auto.
    - rewrite Forall_forall in *. apply mt_mul. apply Forall_forall. intros q Hq. destruct (in_two _ _ _ _ _ H1 _ Hq) as [p [Hin [_ Hg]]].
      apply (IH p Hin); auto.
    - apply mt_neg; [eapply grows_simple; eassumption|auto].
    - apply mt_ipow; [eapply grows_simple; eassumption|auto].
    - apply mt_fun.
    - apply mt_handle. auto.
  Qed.

  Lemma grows_degree : forall h e e', grows h e e' -> forall v, v <> h ->
    degree fs rho v e' = degree fs rho v e.
  Proof.
    intros h e. induction e as [k c|y|ops IH|ops IH|e IH|e n IH|b e IHb IHe|k e IH|e IH] using expr_rect';
      intros e' H v Hv; inversion H; subst; try reflexivity; cbn [degree].
    - f_equal. induction H1 as [|p q l l' [E [e1 [k [Hg Eq]]]] Hl IHl]; [reflexivity|]. cbn [map].
      inversion IH; subst. rewrite IHl by (try assumption; constructor; assumption). f_equal. rewrite Eq, degree_raise by assumption.
      apply H2; [exact Hg|exact Hv].
    - f_equal. induction H1 as [|p q l l' [E Hg] Hl IHl]; [reflexivity|]. cbn [map].
      inversion IH; subst. rewrite IHl by (try assumption; constructor; assumption). f_equal. rewrite E. f_equal.
      apply H2; [exact Hg|exact Hv].
    - apply IH; auto.
    - rewrite (IH e'0) by auto. reflexivity.
    - rewrite (IHb b') by auto. reflexivity.
    - rewrite (IH e'0) by auto. reflexivity.
    - apply IH; auto.
  Qed.

  Lemma grows_gdegree : forall h vs e e', ~ In h vs -> grows h e e' -> gdegree fs rho vs e' = gdegree fs rho vs e.
  Proof.
    intros h vs e e' N. revert e'.
    assert (D : forall e e', grows h e e' -> map (fun v => degree fs rho v e') vs = map (fun v => degree fs rho v e) vs).
    { intros a a' G. apply map_ext_in. intros v Hv. eapply grows_degree; [exact G|]. intros ->. contradiction. }
    induction e as [k c|y|ops IH|ops IH|e IH|e n IH|b e IHb IHe|k e IH|e IH] using expr_rect';
      intros e' H; inversion H; subst; try reflexivity; cbn [gdegree].
    - f_equal. clear H. induction H1 as [|p q l l' [E [e1 [k [Hg Eq]]]] Hl IHl]; [reflexivity|]. cbn [map].
      inversion IH; subst. rewrite IHl by assumption. f_equal. rewrite Eq, gdegree_raise by assumption. apply H1. exact Hg.
    - f_equal. clear H. induction H1 as [|p q l l' [E Hg] Hl IHl]; [reflexivity|]. cbn [map].
      inversion IH; subst. rewrite IHl by assumption. f_equal. rewrite E. f_equal. apply H1. exact Hg.
    - f_equal. apply D. exact H.
    - f_equal. apply D. exact H.
    - f_equal. apply D. exact H.
    - f_equal. apply D. exact H.
    - apply IH. assumption.
  Qed.

  (** *** A syntactic certificate of homogeneity which growing does not destroy *)
  Inductive graded (G : list nat) : nat -> expr F -> Prop :=
  | gd_const : forall e, constant G e -> graded G 0 e
  | gd_var : forall x, In x G -> graded G 1 (Var x)
  | gd_sum : forall ops d, Forall (fun p => graded G d (snd p)) ops -> graded G d (Sum ops)
  | gd_mul : forall ops ks, Forall2 (fun p k => graded G k (snd p) /\ (fst p = false -> k = 0%nat)) ops ks ->
      graded G (fold_right Nat.add 0%nat ks) (Mul ops)
  | gd_neg : forall e d, graded G d e -> graded G d (Neg e)
  | gd_ipow : forall e d n, (0 <= n)%Z -> graded G d e -> graded G (Z.to_nat n * d) (IPow e n)
  | gd_handle : forall e d, graded G d e -> graded G d (Handle e).

  Lemma scales_constant : forall G e, constant G e -> scales fs G 0 e.
  Proof.
    intros G e C point t y y' E E'. assert (eval fs (scale t G point) e = eval fs point e).
    { apply eval_ext. intros x Hx. unfold scale. destruct (in_dec Nat.eq_dec x G) as [Hi|]; [|reflexivity]. elim (C x Hi Hx). }
    rewrite H, E in E'. injection E' as <-. cbn. ring.
  Qed.

  Lemma graded_scales : forall G e d, graded G d e -> scales fs G d e.
  Proof.
    intros G e. induction e as [k c|x|ops IH|ops IH|e IH|e n IH|b e IHb IHe|k e IH|e IH] using expr_rect';
      intros d H; inversion H; subst; try (apply scales_constant; assumption).
    - intros point t y y' E E'. cbn [eval] in *. unfold scale in E'. destruct (in_dec Nat.eq_dec x G); [|contradiction].
      injection E as <-. injection E' as <-. cbn. ring.
    - intros point t y y' E E'. eapply (hom_sum fs point G); [|intros; reflexivity|exact E|exact E'].
      intros s e Hin rho' t' a a' _ Ea Ea'. rewrite Forall_forall in *. apply (IH _ Hin d) with (point := rho'); [apply (H2 _ Hin)|exact Ea|exact Ea'].
    - clear H. intros point t. cbn [eval]. induction H2 as [|[s e] k ops ks [Hk Hz] Hl IHl]; intros y y' E E'; cbn [map mul_val fst snd fold_right] in *.
      + injection E as <-. injection E' as <-. cbn. ring.
      + inversion IH; subst. destruct (eval fs point e) as [a|] eqn:Ea; [|discriminate].
        destruct (mul_val (map (fun p => (fst p, eval fs point (snd p))) ops)) as [b|] eqn:Eb; [|discriminate].
        destruct (eval fs (scale t G point) e) as [a'|] eqn:Ea'; [|discriminate].
        destruct (mul_val (map (fun p => (fst p, eval fs (scale t G point) (snd p))) ops)) as [b'|] eqn:Eb'; [|discriminate].
        match goal with A : forall d, graded G d _ -> _ |- _ => pose proof (A k Hk point t a a' Ea Ea') as Xa end.
        match goal with A : Forall _ ops |- _ => pose proof (IHl A b b' eq_refl eq_refl) as Xb end. subst a' b'.
        rewrite fpow_add. destruct s.
        * injection E as <-. injection E' as <-. ring.
        * rewrite (Hz eq_refl) in *. cbn [fpow] in *. replace (1 * a) with a in E' by ring.
          destruct (feq_dec a 0) as [|N]; [discriminate|]. injection E as <-. injection E' as <-. field. assumption.
    - intros point t y y' E E'. eapply (hom_neg fs point G); [|intros; reflexivity|exact E|exact E'].
      intros rho' t' a a' _ Ea Ea'. eapply IH; eassumption.
    - intros point t y y' E E'. eapply (hom_ipow fs point G); [|left; assumption|intros; reflexivity|exact E|exact E'].
      intros rho' t' a a' _ Ea Ea'. eapply IH; eassumption.
    - intros point t y y' E E'. cbn [eval] in *. eapply IH; eassumption.
  Qed.

  Lemma raise_graded_other : forall G h k e d, ~ In h G -> graded G d e -> graded G d (raise_degree h k e).
  Proof.
    intros G h k e d N H. unfold raise_degree. destruct (k <=? 0)%Z; [assumption|].
    replace d with (fold_right Nat.add 0%nat [0; d]%nat) by (cbn; lia).
    destruct (k =? 1)%Z; apply gd_mul; (apply Forall2_cons; [|apply Forall2_cons; [|apply Forall2_nil]]); cbn [fst snd];
      (split; [|discriminate]); try assumption; apply gd_const; intros v Hv Ho; inversion Ho; subst; try contradiction.
    match goal with A : occurs v (Var h) |- _ => inversion A; subst; contradiction end.
  Qed.

  Lemma grows_graded : forall h G e e', ~ In h G -> grows h e e' -> forall d, graded G d e -> graded G d e'.
  Proof.
    intros h G e e' N. revert e'. induction e as [k c|y|ops IH|ops IH|e IH|e n IH|b e IHb IHe|k e IH|e IH] using expr_rect';
      intros e' H d Hp; pose proof H as Hgrow; inversion H; subst; try assumption; inversion Hp; subst;
      try (apply gd_const; eapply grows_constant; eassumption).
    - apply gd_sum. apply Forall_forall. intros q Hq. destruct (in_two _ _ _ _ _ H1 _ Hq) as [p [Hin [_ [e1 [k [Hg E]]]]]].
      rewrite E. apply raise_graded_other; [assumption|]. rewrite Forall_forall in *. apply (IH p Hin); [exact Hg|auto].
    - apply gd_mul. clear Hp H Hgrow. revert ks H3. induction H1 as [|p q l l' [E Hg] Hl IHl]; intros ks Hk; inversion Hk; subst; [constructor|].
      inversion IH; subst. constructor; [|apply IHl; assumption]. rewrite <- E. split; [|tauto]. apply H2; tauto.
    - constructor. apply IH; assumption.
    - constructor; [assumption|]. apply IH; assumption.
    - constructor. apply IH; assumption.
  Qed.

  (** *** Pure trees *)
  Lemma pure_degree : forall A e, pure A e -> forall v, In v A -> (0 <= degree fs rho v e)%Z.
  Proof.
    intros A e H v Hv. induction e as [k c|y|ops IH|ops IH|e IH|e n IH|b e IHb IHe|k e IH|e IH] using expr_rect';
      inversion H; subst; cbn [degree].
    - lia.
    - destruct (Nat.eqb y v); lia.
    - apply sum_degree_all; [lia|]. rewrite Forall_map. rewrite Forall_forall in *. auto.
    - rewrite mul_degree_all.
      + unfold sum2. clear H. induction ops as [|p ops IHo]; cbn; [lia|]. inversion IH; subst.
        repeat match goal with A : Forall _ (_ :: _) |- _ => inversion A; clear A; subst end.
        assert (0 <= degree fs rho v (snd p))%Z by auto. assert (Hr := IHo ltac:(assumption) ltac:(assumption) ltac:(assumption)). cbn in Hr. lia.
      + rewrite Forall_map. rewrite Forall_forall in *. intros p Hp. cbn. split; [auto|]. intro Ef.
        match goal with A : forall x, _ -> fst x = false -> constant _ _ |- _ => pose proof (degree_absent fs rho v (snd p) (A p Hp Ef v Hv)) end. assert (0 <= degree fs rho v (snd p))%Z by auto. lia.
    - auto.
    - assert (Hd : (0 <= degree fs rho v e)%Z) by auto. destruct (Z.ltb_spec (degree fs rho v e) 0); [lia|].
      match goal with A : _ \/ _ |- _ => destruct A as [A|A] end; [nia|]. pose proof (degree_absent fs rho v e (H3 v Hv)).
      replace (degree fs rho v e) with 0%Z by lia. lia.
    - match goal with A : constant _ _ |- _ => pose proof (degree_absent fs rho v e (A v Hv)) end. assert (0 <= degree fs rho v e)%Z by auto.
      replace (degree fs rho v e) with 0%Z by lia. cbn. lia.
    - auto.
  Qed.

  Lemma pure_polynomial : forall A vs e, incl vs A -> pure A e -> polynomial_in fs rho vs e.
  Proof. intros A vs e I H v Hv. eapply pure_degree; [exact H|apply I; exact Hv]. Qed.

  Lemma sequence_total : forall (A B : Type) (f : A -> option B) l, Forall (fun a => exists b, f a = Some b) l -> exists r, sequence (map f l) = Some r.
  Proof.
    intros A B f l H. induction H as [|a l [b Hb] H [r IH]]; cbn; [eauto|]. rewrite Hb, IH. eauto.
  Qed.

  Lemma homogenize_total : forall A vs h e, incl vs A -> ~ In h vs -> pure A e -> exists e', homogenize fs rho vs h e = Some e'.
  Proof.
    intros A vs h e I N. induction e as [k c|y|ops IH|ops IH|e IH|e n IH|b e IHb IHe|k e IH|e IH] using expr_rect';
      intro H; inversion H; subst; cbn [homogenize].
    - eauto.
    - eauto.
    - destruct (sequence_total _ _ (fun p : bool * expr F => match homogenize fs rho vs h (snd p) with Some e' => Some (fst p, e') | None => None end) ops) as [r Er].
      { rewrite Forall_forall in *. intros p Hp. destruct (IH p Hp (H1 p Hp)) as [e' E]. rewrite E. eauto. }
      rewrite Er. destruct (existsb _ _) eqn:Ex; [|eauto]. exfalso. apply existsb_exists in Ex. destruct Ex as [d [Hd Hn]].
      apply in_map_iff in Hd. destruct Hd as [q [<- Hq]]. apply sequence_map_some in Er. destruct (in_two _ _ _ _ _ Er _ Hq) as [p [Hp E]].
      destruct (homogenize fs rho vs h (snd p)) as [e1|] eqn:E1; [|discriminate]. injection E as <-. cbn [snd] in Hn.
      rewrite (proj2 (homogenize_degree fs rho vs h N _ _ E1)) in Hn. rewrite Forall_forall in H1.
      pose proof (gdegree_nonneg fs rho vs (snd p) (pure_polynomial A vs _ I (H1 p Hp))). apply Z.ltb_lt in Hn. lia.
    - destruct (sequence_total _ _ (fun p : bool * expr F => match homogenize fs rho vs h (snd p) with Some e' => Some (fst p, e') | None => None end) ops) as [r Er].
      { rewrite Forall_forall in *. intros p Hp. destruct (IH p Hp (H1 p Hp)) as [e' E]. rewrite E. eauto. }
      rewrite Er. eauto.
    - destruct (IH ltac:(assumption)) as [e' E]. rewrite E. cbn. eauto.
    - destruct (IH ltac:(assumption)) as [e' E]. rewrite E. cbn. eauto.
    - destruct (IH ltac:(assumption)) as [e' E]. rewrite E. cbn. eauto.
    - destruct (IH ltac:(assumption)) as [e' E]. rewrite E. cbn. eauto.
  Qed.

  Lemma raise_graded : forall G h e d m, In h G -> (0 <= d <= m)%Z -> graded G (Z.to_nat d) e ->
    graded G (Z.to_nat m) (raise_degree h (m - d) e).
  Proof.
    intros G h e d m Hi Hd H. unfold raise_degree. destruct (Z.leb_spec (m - d) 0).
    - replace m with d by lia. exact H.
    - destruct (Z.eqb_spec (m - d) 1).
      + replace (Z.to_nat m) with (fold_right Nat.add 0%nat [1%nat; Z.to_nat d]) by (cbn; lia). apply gd_mul.
        apply Forall2_cons; [|apply Forall2_cons; [|apply Forall2_nil]]; cbn [fst snd]; (split; [|discriminate]);
          [apply gd_var; exact Hi|exact H].
      + replace (Z.to_nat m) with (fold_right Nat.add 0%nat [(Z.to_nat (m - d) * 1)%nat; Z.to_nat d]) by (cbn; lia). apply gd_mul.
        apply Forall2_cons; [|apply Forall2_cons; [|apply Forall2_nil]]; cbn [fst snd]; (split; [|discriminate]);
          [apply gd_ipow; [lia|apply gd_var; exact Hi]|exact H].
  Qed.

  Section Group.
    Variable A vs : list nat.
    Variable h : nat.
    Hypothesis Hin : incl vs A.
    Hypothesis Hnd : NoDup vs.
    Hypothesis Hh : ~ In h vs.

    Definition pair_hom (p : bool * expr F) : option (bool * expr F) :=
      match homogenize fs rho vs h (snd p) with Some e' => Some (fst p, e') | None => None end.

    Lemma pair_hom_eq : forall p q, pair_hom p = Some q -> fst p = fst q /\ homogenize fs rho vs h (snd p) = Some (snd q).
    Proof. intros p q H. unfold pair_hom in H. destruct (homogenize _ _ _ _ _); [|discriminate]. injection H as <-. cbn. tauto. Qed.

    Lemma pure_gdegree : forall e, pure A e -> (0 <= gdegree fs rho vs e)%Z.
    Proof. intros e H. apply gdegree_nonneg. eapply pure_polynomial; eassumption. Qed.

    Lemma no_unknown_group : forall e : expr F, constant A e -> forall v, In v vs -> ~ occurs v e.
    Proof. intros e C v Hv. apply C. apply Hin. exact Hv. Qed.

    Lemma fixed_degree : forall e, pure A e -> constant A e -> gdegree fs rho vs e = 0%Z.
    Proof.
      intros e H C. apply gdegree_zero. intros v Hv. pose proof (pure_degree A e H v (Hin v Hv)).
      pose proof (degree_absent fs rho v e (C v (Hin v Hv))). lia.
    Qed.

    Lemma monomial_gdegree : forall e, pure A e -> monomial vs e -> gdegree fs rho vs e = sumdeg fs rho vs e.
    Proof.
      assert (C : forall e, pure A e -> constant vs e -> gdegree fs rho vs e = sumdeg fs rho vs e).
      { intros e Hp Hc. assert (Z0 : forall v, In v vs -> degree fs rho v e = 0%Z).
        { intros v Hv. pose proof (pure_degree A e Hp v (Hin v Hv)). pose proof (degree_absent fs rho v e (Hc v Hv)). lia. }
        rewrite gdegree_zero, sumdeg_zero by exact Z0. reflexivity. }
      intro e. induction e as [k c|y|ops IH|ops IH|e IH|e n IH|b e IHb IHe|k e IH|e IH] using expr_rect'; intros Hp Hm;
        pose proof (pure_polynomial A vs _ Hin Hp) as Hpoly; inversion Hm; subst; try (apply C; assumption).
      - destruct (in_dec Nat.eq_dec y vs) as [Hy|Hy].
        + cbn [gdegree]. rewrite (proj2 (existsb_exists _ _)) by (exists y; split; [exact Hy|apply Nat.eqb_refl]).
          unfold sumdeg. cbn [degree]. rewrite (sum_single (fun v => if Nat.eqb y v then 1%Z else 0%Z) vs y); [rewrite Nat.eqb_refl; reflexivity|assumption|assumption|].
          intros v _ Hn. destruct (Nat.eqb_spec y v); [congruence|reflexivity].
        + apply C; [assumption|]. intros v Hv Hx. inversion Hx; subst. contradiction.
      - destruct (gdegree_mul fs rho vs ops Hpoly) as [Eg [Hc _]]. rewrite Eg.
        destruct (mul_children fs rho vs ops Hpoly) as [_ [_ Es]]. rewrite Es. inversion Hp as [| | |? Hps _| | | |]; subst.
        clear Eg Es Hc Hp Hm Hpoly. induction ops as [|p l IHl]; cbn [fold_right]; [reflexivity|].
        repeat match goal with X : Forall _ (_ :: _) |- _ => inversion X; clear X; subst end. rewrite IHl by assumption. f_equal. auto.
      - cbn [gdegree]. rewrite unary_group_degree_nonneg; [reflexivity|rewrite Forall_map; apply Forall_forall; exact Hpoly].
      - cbn [gdegree]. rewrite unary_group_degree_nonneg; [reflexivity|rewrite Forall_map; apply Forall_forall; exact Hpoly].
      - cbn [gdegree]. inversion Hp; subst. rewrite IH by assumption. reflexivity.
    Qed.

    Lemma simple_gdegree : forall e, pure A e -> simple vs e -> gdegree fs rho vs e = sumdeg fs rho vs e.
    Proof.
      intros e Hp [[x Hx]|Hm]; [|apply monomial_gdegree; assumption].
      pose proof (pure_polynomial A vs _ Hin Hp) as Hpoly.
      rewrite (only_gdegree fs rho vs Hnd x e Hx Hpoly), (only_sumdeg fs rho vs Hnd x e Hx Hpoly). reflexivity.
    Qed.

    Lemma gdegree_neg : forall e, pure A e -> simple vs e -> gdegree fs rho vs (Neg e) = gdegree fs rho vs e.
    Proof.
      intros e Hp H. rewrite (simple_gdegree e Hp H). pose proof (pure_polynomial A vs _ Hin Hp) as Hpoly. cbn [gdegree].
      rewrite unary_group_degree_nonneg; [reflexivity|rewrite Forall_map; apply Forall_forall; exact Hpoly].
    Qed.

    Lemma gdegree_ipow : forall e n, pure A e -> (0 <= n)%Z -> simple vs e -> gdegree fs rho vs (IPow e n) = (n * gdegree fs rho vs e)%Z.
    Proof.
      intros e n Hp Hn H. rewrite (simple_gdegree e Hp H).
      assert (Hpi : pure A (IPow e n)) by (apply pu_ipow; tauto).
      pose proof (pure_polynomial A vs _ Hin Hpi) as Hpoly. pose proof (pure_polynomial A vs _ Hin Hp) as Hpe. cbn [gdegree].
      rewrite unary_group_degree_nonneg; [|rewrite Forall_map; apply Forall_forall; exact Hpoly].
      unfold sumdeg. rewrite <- fold_scale. f_equal. apply map_ext_in. intros v Hv. cbn [degree].
      specialize (Hpe v Hv). destruct (Z.ltb_spec (degree fs rho v e) 0); lia.
    Qed.

    Lemma homogenize_graded : forall e e', pure A e -> modest vs e -> ~ occurs h e ->
      homogenize fs rho vs h e = Some e' -> graded (h :: vs) (Z.to_nat (gdegree fs rho vs e)) e'.
    Proof.
      intro e. induction e as [k c|y|ops IH|ops IH|e IH|e n IH|b e IHb IHe|k e IH|e IH] using expr_rect'; intros e' Hp Ht Hno H;
        pose proof (pure_polynomial A vs _ Hin Hp) as Hpoly; pose proof H as Hhom; cbn [homogenize] in H.
      - injection H as <-. apply gd_const. intros v _ Hx. inversion Hx.
      - injection H as <-. cbn [gdegree]. destruct (existsb (Nat.eqb y) vs) eqn:E.
        + apply existsb_exists in E. destruct E as [w [Hw Ew]]. apply Nat.eqb_eq in Ew. subst w.
          change (Z.to_nat 1) with 1%nat. apply gd_var. right. assumption.
        + apply gd_const. intros v Hv Hx. inversion Hx; subst. destruct Hv as [Hv|Hv].
          * subst. apply Hno. constructor.
          * rewrite <- not_true_iff_false in E. apply E. apply existsb_exists. exists y. split; [assumption|apply Nat.eqb_refl].
      - destruct (sequence _) as [ops'|] eqn:Es; [|discriminate]. apply sequence_map_some in Es.
        destruct (existsb _ _); [discriminate|]. injection H as <-.
        inversion Hp as [| |? Hps| | | | |]; subst. inversion Ht as [| |? Hts| | | | |]; subst.
        assert (Ed : map (fun p => gdegree fs rho vs (snd p)) ops' = map (fun p => gdegree fs rho vs (snd p)) ops).
        { clear - Es Hh. induction Es as [|p q l l' Hab Hl IHl]; [reflexivity|]. cbn [map]. rewrite IHl. f_equal.
          apply (pair_hom_eq p q) in Hab. apply (homogenize_degree fs rho vs h Hh _ _ (proj2 Hab)). }
        rewrite Forall_forall in Hps, Hts, IH.
        assert (Em : gdegree fs rho vs (Sum ops) = fold_left Z.max (map (fun p => gdegree fs rho vs (snd p)) ops) 0%Z).
        { cbn [gdegree]. apply sum_degree_max. rewrite Forall_map. apply Forall_forall. intros p Hi. apply pure_gdegree. auto. }
        rewrite Ed, <- Em. apply gd_sum. apply Forall_forall. intros q Hq. apply in_map_iff in Hq. destruct Hq as [q0 [<- Hq0]]. cbn [snd].
        destruct (in_two _ _ _ _ _ Es _ Hq0) as [p [Hi Hpq]]. apply (pair_hom_eq p q0) in Hpq. destruct Hpq as [_ Hpq].
        rewrite (proj2 (homogenize_degree fs rho vs h Hh _ _ Hpq)). apply raise_graded; [left; reflexivity| |].
        + split; [apply pure_gdegree; auto|]. rewrite Em.
          destruct (fold_max_ge (map (fun p => gdegree fs rho vs (snd p)) ops) 0%Z) as [_ Hle]. rewrite Forall_forall in Hle.
          apply Hle. apply in_map_iff. exists p. split; [reflexivity|assumption].
        + apply (IH p Hi); auto. intro Hx. apply Hno. destruct p. econstructor; eassumption.
      - destruct (sequence _) as [ops'|] eqn:Es; [|discriminate]. apply sequence_map_some in Es. injection H as <-.
        inversion Hp as [| | |? Hps Hcs| | | |]; subst. inversion Ht as [| | |? Hts| | | |]; subst.
        destruct (gdegree_mul fs rho vs ops Hpoly) as [Eg _]. rewrite Eg.
        rewrite to_nat_fold by (intros s e Hi; rewrite Forall_forall in Hps; apply pure_gdegree; apply (Hps _ Hi)).
        replace (fold_right (fun p n => (Z.to_nat (gdegree fs rho vs (snd p)) + n)%nat) O ops)
          with (fold_right Nat.add 0%nat (map (fun p : bool * expr F => Z.to_nat (gdegree fs rho vs (snd p))) ops))
          by (clear; induction ops; cbn; congruence).
        apply gd_mul. assert (Hn : forall p, In p ops -> ~ occurs h (snd p)) by (intros [s a] Hi Hx; apply Hno; econstructor; eassumption).
        clear Hp Ht Hno Hpoly Hhom Eg. induction Es as [|p q l l' Hab Hl IHl]; cbn [map]; [constructor|].
        apply (pair_hom_eq p q) in Hab. destruct Hab as [Ef Hab].
        repeat match goal with X : Forall _ (_ :: _) |- _ => inversion X; clear X; subst end.
        constructor; [|apply IHl; auto; intros; apply Hn; right; assumption]. split.
        + match goal with X : forall e', pure A (snd p) -> _ |- _ => apply X end; auto. apply Hn. left. reflexivity.
        + rewrite <- Ef. intro Es. rewrite fixed_degree; auto.
      - destruct (homogenize fs rho vs h e) as [a|] eqn:E; [|discriminate]. injection H as <-. inversion Hp; subst.
        inversion Ht; subst. rewrite gdegree_neg by assumption.
        apply gd_neg. apply IH; [assumption|assumption| |reflexivity]. intro Hx. apply Hno. constructor. assumption.
      - destruct (homogenize fs rho vs h e) as [a|] eqn:E; [|discriminate]. injection H as <-.
        inversion Hp as [| | | | |? ? Hpe Hs| |]; subst.
        destruct Hs as [Hs|Hs].
        + inversion Ht; subst. rewrite gdegree_ipow by assumption. pose proof (pure_gdegree e Hpe).
          rewrite Z2Nat.inj_mul by lia. apply gd_ipow; [assumption|].
          apply IH; [assumption|assumption| |reflexivity]. intro Hx. apply Hno. constructor. assumption.
        + assert (Hc : constant A (IPow e n)) by (intros v Hv Hx; inversion Hx; subst; eapply Hs; eassumption).
          rewrite (fixed_degree _ Hp Hc). rewrite (homogenize_absent fs rho vs h e a (no_unknown_group e Hs) E).
          apply gd_const. intros v [<-|Hv]; [assumption|apply Hc; apply Hin; assumption].
      - inversion Hp.
      - destruct (homogenize fs rho vs h e) as [a|] eqn:E; [|discriminate]. injection H as <-.
        inversion Hp as [| | | | | |? ? Hpe Hs|]; subst.
        assert (Hc : constant A (Fun k e)) by (intros v Hv Hx; inversion Hx; subst; eapply Hs; eassumption).
        rewrite (fixed_degree _ Hp Hc). rewrite (homogenize_absent fs rho vs h e a (no_unknown_group e Hs) E).
        apply gd_const. intros v [<-|Hv]; [assumption|apply Hc; apply Hin; assumption].
      - destruct (homogenize fs rho vs h e) as [a|] eqn:E; [|discriminate]. injection H as <-.
        inversion Hp; subst. inversion Ht; subst. cbn [gdegree]. apply gd_handle.
        apply IH; [assumption|assumption| |reflexivity]. intro Hx. apply Hno. constructor. assumption.
    Qed.

    Lemma accepted_graded : forall e, pure A e -> modest vs e -> is_homogeneous fs rho vs e = true ->
      graded vs (Z.to_nat (gdegree fs rho vs e)) e.
    Proof.
      intro e. induction e as [k c|y|ops IH|ops IH|e IH|e n IH|b e IHb IHe|k e IH|e IH] using expr_rect'; intros Hp Ht H;
        pose proof (pure_polynomial A vs _ Hin Hp) as Hpoly; pose proof H as Hhom; cbn [is_homogeneous] in H.
      - apply gd_const. intros v _ Hx. inversion Hx.
      - cbn [gdegree]. destruct (existsb (Nat.eqb y) vs) eqn:E.
        + apply existsb_exists in E. destruct E as [w [Hw Ew]]. apply Nat.eqb_eq in Ew. subst w.
          change (Z.to_nat 1) with 1%nat. apply gd_var. assumption.
        + apply gd_const. intros v Hv Hx. inversion Hx; subst.
          rewrite <- not_true_iff_false in E. apply E. apply existsb_exists. exists y. split; [assumption|apply Nat.eqb_refl].
      - apply andb_true_iff in H. destruct H as [Hall Hdeg]. rewrite forallb_forall in Hall.
        inversion Hp as [| |? Hps| | | | |]; subst. inversion Ht as [| |? Hts| | | | |]; subst. rewrite Forall_forall in IH, Hts, Hps.
        apply gd_sum. apply Forall_forall. intros p Hi.
        assert (Ed : gdegree fs rho vs (Sum ops) = gdegree fs rho vs (snd p)).
        { assert (Hi' : In (gdegree fs rho vs (snd p)) (map (fun p => gdegree fs rho vs (snd p)) ops)) by (apply in_map_iff; exists p; split; [reflexivity|assumption]).
          cbn [gdegree]. destruct (map (fun p => gdegree fs rho vs (snd p)) ops) as [|d r]; [contradiction|].
          apply andb_true_iff in Hdeg. destruct Hdeg as [H1 H2]. apply negb_true_iff in H1. apply Z.ltb_ge in H1.
          rewrite forallb_forall in H2.
          assert (Ha : Forall (fun x => x = d) (d :: r)).
          { constructor; [reflexivity|]. apply Forall_forall. intros x Hx. apply Z.eqb_eq. apply H2. assumption. }
          rewrite (sum_degree_const (d :: r) d H1 ltac:(discriminate) Ha). symmetry. rewrite Forall_forall in Ha. apply Ha. assumption. }
        rewrite Ed. apply (IH p Hi); auto.
      - inversion Hp as [| | |? Hps Hcs| | | |]; subst. inversion Ht as [| | |? Hts| | | |]; subst.
        destruct (gdegree_mul fs rho vs ops Hpoly) as [Eg _]. rewrite Eg.
        rewrite to_nat_fold by (intros s e Hi; rewrite Forall_forall in Hps; apply pure_gdegree; apply (Hps _ Hi)).
        replace (fold_right (fun p n => (Z.to_nat (gdegree fs rho vs (snd p)) + n)%nat) O ops)
          with (fold_right Nat.add 0%nat (map (fun p : bool * expr F => Z.to_nat (gdegree fs rho vs (snd p))) ops))
          by (clear; induction ops; cbn; congruence).
        apply gd_mul. clear Hp Ht Hpoly Hhom Eg. induction ops as [|p l IHl]; cbn [map]; [constructor|].
        cbn [forallb] in H. apply andb_true_iff in H. destruct H as [H1 H2].
        repeat match goal with X : Forall _ (_ :: _) |- _ => inversion X; clear X; subst end.
        constructor; [|apply IHl; auto]. split; [auto|]. intro Ef. rewrite fixed_degree; auto.
      - inversion Hp; subst.
        inversion Ht; subst. rewrite gdegree_neg by assumption.
        apply gd_neg. auto.
      - inversion Hp as [| | | | |? ? Hpe Hs| |]; subst. destruct Hs as [Hs|Hs].
        + inversion Ht; subst. rewrite gdegree_ipow by assumption. pose proof (pure_gdegree e Hpe).
          rewrite Z2Nat.inj_mul by lia. apply gd_ipow; [assumption|]. auto.
        + assert (Hc : constant A (IPow e n)) by (intros v Hv Hx; inversion Hx; subst; eapply Hs; eassumption).
          rewrite (fixed_degree _ Hp Hc). apply gd_const. intros v Hv. apply Hc. apply Hin. assumption.
      - inversion Hp.
      - inversion Hp as [| | | | | |? ? Hpe Hs|]; subst.
        assert (Hc : constant A (Fun k e)) by (intros v Hv Hx; inversion Hx; subst; eapply Hs; eassumption).
        rewrite (fixed_degree _ Hp Hc). apply gd_const. intros v Hv. apply Hc. apply Hin. assumption.
      - inversion Hp; subst. inversion Ht; subst. cbn [gdegree]. apply gd_handle. auto.
    Qed.
  End Group.

  (** *** What Homogenize leaves alone *)
  Lemma raise_zero : forall h (e : expr F), raise_degree h 0 e = e.
  Proof. reflexivity. Qed.

  Lemma fold_max_const : forall l m, (0 <= m)%Z -> Forall (fun d => d = m) l -> l <> [] -> fold_left Z.max l 0%Z = m.
  Proof.
    intros l m Hm H N. destruct l as [|d l]; [contradiction|]. inversion H; subst. cbn [fold_left]. replace (Z.max 0 m) with m by lia.
    clear H N. match goal with X : Forall _ l |- _ => induction X as [|d l -> H IH] end; [reflexivity|]. cbn [fold_left]. rewrite Z.max_id. assumption.
  Qed.

  (** a sum whose operands stay and have the same degree *)
  Lemma same_sum : forall vs h ops m, (0 <= m)%Z -> Forall (fun p => homogenize fs rho vs h (snd p) = Some (snd p)) ops ->
    Forall (fun p => gdegree fs rho vs (snd p) = m) ops -> homogenize fs rho vs h (Sum ops) = Some (Sum ops).
  Proof.
    intros vs h ops m Hm H Hd. cbn [homogenize].
    assert (E : sequence (map (fun p : bool * expr F => match homogenize fs rho vs h (snd p) with Some e' => Some (fst p, e') | None => None end) ops) = Some ops).
    { clear Hd. induction H as [|[b e] ops He H IH]; cbn; [reflexivity|]. cbn [snd] in He. rewrite He, IH. reflexivity. }
    rewrite E. assert (X : existsb (fun d => (d <? 0)%Z) (map (fun p => gdegree fs rho vs (snd p)) ops) = false).
    { clear E H. induction Hd as [|p ops Ep H IH]; cbn; [reflexivity|]. rewrite Ep, IH. destruct (Z.ltb_spec m 0); [lia|reflexivity]. }
    rewrite X. f_equal. f_equal. destruct ops as [|p ops]; [reflexivity|].
    rewrite (fold_max_const _ m Hm) by (try discriminate; rewrite Forall_map; exact Hd).
    rewrite <- (map_id (p :: ops)) at 2. apply map_ext_in. intros q Hq. rewrite Forall_forall in Hd. rewrite (Hd q Hq), Z.sub_diag, raise_zero.
    destruct q; reflexivity.
  Qed.

  Lemma same_mul : forall vs h ops, Forall (fun p => homogenize fs rho vs h (snd p) = Some (snd p)) ops ->
    homogenize fs rho vs h (Mul ops) = Some (Mul ops).
  Proof.
    intros vs h ops H. cbn [homogenize].
    assert (E : sequence (map (fun p : bool * expr F => match homogenize fs rho vs h (snd p) with Some e' => Some (fst p, e') | None => None end) ops) = Some ops).
    { induction H as [|[b e] ops He H IH]; cbn; [reflexivity|]. cbn [snd] in He. rewrite He, IH. reflexivity. }
    rewrite E. reflexivity.
  Qed.

  Lemma constant_sum : forall B (ops : list (bool * expr F)), constant B (Sum ops) -> Forall (fun p => constant B (snd p)) ops.
  Proof. intros B ops C. apply Forall_forall. intros [b e] Hi v Hv Hx. apply (C v Hv). econstructor; eassumption. Qed.
  Lemma constant_mul : forall B (ops : list (bool * expr F)), constant B (Mul ops) -> Forall (fun p => constant B (snd p)) ops.
  Proof. intros B ops C. apply Forall_forall. intros [b e] Hi v Hv Hx. apply (C v Hv). econstructor; eassumption. Qed.

  Section Stay.
    Variable B vs : list nat.
    Hypothesis Hin : incl vs B.

    Lemma constant_stays : forall h e, pure B e -> constant B e -> homogenize fs rho vs h e = Some e.
    Proof.
      intros h e. induction e as [k c|y|ops IH|ops IH|e IH|e n IH|b e IHb IHe|k e IH|e IH] using expr_rect'; intros Hp Hc;
        inversion Hp; subst; try reflexivity.
      - pose proof (constant_sum _ _ Hc) as Hcs. rewrite Forall_forall in *. apply same_sum with (m := 0%Z); [lia| |];
          apply Forall_forall; intros p Hi; [auto|]. apply (fixed_degree B vs Hin); auto.
      - pose proof (constant_mul _ _ Hc) as Hcs. rewrite Forall_forall in *. apply same_mul. apply Forall_forall; intros p Hi. auto.
      - cbn [homogenize]. rewrite IH; [reflexivity|assumption|]. intros v Hv Hx. apply (Hc v Hv). constructor. exact Hx.
      - cbn [homogenize]. rewrite IH; [reflexivity|assumption|]. intros v Hv Hx. apply (Hc v Hv). constructor. exact Hx.
      - cbn [homogenize]. rewrite IH; [reflexivity|assumption|assumption].
      - cbn [homogenize]. rewrite IH; [reflexivity|assumption|]. intros v Hv Hx. apply (Hc v Hv). constructor. exact Hx.
    Qed.

    Lemma monomial_stays : forall h e, pure B e -> monomial B e -> homogenize fs rho vs h e = Some e.
    Proof.
      intros h e. induction e as [k c|y|ops IH|ops IH|e IH|e n IH|b e IHb IHe|k e IH|e IH] using expr_rect'; intros Hp Hm;
        inversion Hm; subst; try (apply constant_stays; assumption); inversion Hp; subst; try reflexivity; cbn [homogenize].
      - apply same_mul. rewrite Forall_forall in *. auto.
      - rewrite IH by assumption. reflexivity.
      - rewrite IH by assumption. reflexivity.
      - rewrite IH by assumption. reflexivity.
    Qed.

    Lemma accepted_stays : forall h e, pure B e -> is_homogeneous fs rho vs e = true -> homogenize fs rho vs h e = Some e.
    Proof.
      intros h e. induction e as [k c|y|ops IH|ops IH|e IH|e n IH|b e IHb IHe|k e IH|e IH] using expr_rect'; intros Hp Hh;
        inversion Hp; subst; try reflexivity; cbn [is_homogeneous] in Hh.
      - apply andb_true_iff in Hh. destruct Hh as [Ha Hd]. rewrite forallb_forall in Ha. rewrite Forall_forall in *.
        destruct ops as [|p ops]; [reflexivity|]. cbn [map] in Hd. apply andb_true_iff in Hd. destruct Hd as [Hn He].
        apply negb_true_iff in Hn. apply Z.ltb_ge in Hn. rewrite forallb_forall in He.
        apply same_sum with (m := gdegree fs rho vs (snd p)); [exact Hn| |].
        + apply Forall_forall. auto.
        + constructor; [reflexivity|]. apply Forall_forall. intros q Hq. apply Z.eqb_eq. apply He. apply in_map_iff. exists q. tauto.
      - rewrite forallb_forall in Hh. rewrite Forall_forall in *. apply same_mul. apply Forall_forall. auto.
      - cbn [homogenize]. rewrite IH; auto.
      - cbn [homogenize]. rewrite IH; auto.
      - cbn [homogenize]. rewrite constant_stays by assumption. reflexivity.
      - cbn [homogenize]. rewrite IH; auto.
    Qed.

    Lemma constant_accepted : forall e, pure B e -> constant B e -> is_homogeneous fs rho vs e = true.
    Proof.
      intros e. induction e as [k c|y|ops IH|ops IH|e IH|e n IH|b e IHb IHe|k e IH|e IH] using expr_rect'; intros Hp Hc;
        inversion Hp; subst; try reflexivity; cbn [is_homogeneous].
      - pose proof (constant_sum _ _ Hc) as Hcs. rewrite Forall_forall in *. apply andb_true_iff. split.
        + apply forallb_forall. auto.
        + assert (Z0 : forall p, In p ops -> gdegree fs rho vs (snd p) = 0%Z) by (intros p Hi; apply (fixed_degree B vs Hin); auto).
          clear - Z0. destruct ops as [|p ops]; cbn [map]; [reflexivity|]. rewrite (Z0 p) by (left; reflexivity). cbn.
          apply forallb_forall. intros x Hx. apply in_map_iff in Hx. destruct Hx as [q [<- Hq]]. rewrite Z0 by (right; assumption). reflexivity.
      - pose proof (constant_mul _ _ Hc) as Hcs. rewrite Forall_forall in *. apply forallb_forall. auto.
      - apply IH; [assumption|]. intros v Hv Hx. apply (Hc v Hv). constructor. exact Hx.
      - apply IH; [assumption|]. intros v Hv Hx. apply (Hc v Hv). constructor. exact Hx.
      - apply Z.eqb_eq. apply (fixed_degree B vs Hin); assumption.
      - apply IH; [assumption|]. intros v Hv Hx. apply (Hc v Hv). constructor. exact Hx.
    Qed.

    Lemma monomial_accepted : forall e, pure B e -> monomial B e -> is_homogeneous fs rho vs e = true.
    Proof.
      intros e. induction e as [k c|y|ops IH|ops IH|e IH|e n IH|b e IHb IHe|k e IH|e IH] using expr_rect'; intros Hp Hm;
        inversion Hm; subst; try (apply constant_accepted; assumption); inversion Hp; subst; try reflexivity; cbn [is_homogeneous]; auto.
      rewrite Forall_forall in *. apply forallb_forall. auto.
    Qed.
  End Stay.

  (** *** IsHomogeneous after Homogenize *)
  Lemma constant_cons : forall h A (e : expr F), ~ occurs h e -> constant A e -> constant (h :: A) e.
  Proof. intros h A e N C v [<-|Hv]; [assumption|apply C; assumption]. Qed.

  Lemma pure_cons : forall h A (e : expr F), ~ occurs h e -> pure A e -> pure (h :: A) e.
  Proof.
    intros h A e. induction e as [k c|y|ops IH|ops IH|e IH|e n IH|b e IHb IHe|k e IH|e IH] using expr_rect'; intros N H; inversion H; subst.
    - apply pu_num.
    - apply pu_var.
    - apply pu_sum. rewrite Forall_forall in *. intros [s e] Hi. apply (IH _ Hi); [|apply (H1 _ Hi)]. intro Hx. apply N. econstructor; eassumption.
    - assert (N' : forall p, In p ops -> ~ occurs h (snd p)) by (intros [s e] Hi Hx; apply N; econstructor; eassumption).
      rewrite Forall_forall in *. apply pu_mul; apply Forall_forall; intros p Hi; [auto|]. intro Ef. apply constant_cons; auto.
    - apply pu_neg. apply IH; [|assumption]. intro Hx. apply N. constructor. exact Hx.
    - assert (N' : ~ occurs h e) by (intro Hx; apply N; constructor; exact Hx). apply pu_ipow; [auto|].
      match goal with X : _ \/ _ |- _ => destruct X; [left; assumption|right; apply constant_cons; assumption] end.
    - assert (N' : ~ occurs h e) by (intro Hx; apply N; constructor; exact Hx). apply pu_fun; [auto|apply constant_cons; assumption].
    - apply pu_handle. apply IH; [|assumption]. intro Hx. apply N. constructor. exact Hx.
  Qed.

  Lemma monomial_cons : forall h A (e : expr F), ~ occurs h e -> monomial A e -> monomial (h :: A) e.
  Proof.
    intros h A e. induction e as [k c|y|ops IH|ops IH|e IH|e n IH|b e IHb IHe|k e IH|e IH] using expr_rect'; intros N H; inversion H; subst;
      try (apply mo_const; apply constant_cons; assumption).
    - apply mo_var.
    - apply mo_mul. rewrite Forall_forall in *. intros [s e] Hi. apply (IH _ Hi); [|apply (H1 _ Hi)]. intro Hx. apply N. econstructor; eassumption.
    - apply mo_neg. apply IH; [|assumption]. intro Hx. apply N. constructor. exact Hx.
    - apply mo_ipow. apply IH; [|assumption]. intro Hx. apply N. constructor. exact Hx.
    - apply mo_handle. apply IH; [|assumption]. intro Hx. apply N. constructor. exact Hx.
  Qed.

  (** the subtrees which mention neither functions of unknowns nor the new variable stay free of them *)
  Lemma homogenize_pure : forall A vs h e e', incl vs A -> ~ occurs h e -> pure A e -> homogenize fs rho vs h e = Some e' -> pure (h :: A) e'.
  Proof.
    intros A vs h e e' Hin. revert e'. induction e as [k c|y|ops IH|ops IH|e IH|e n IH|b e IHb IHe|k e IH|e IH] using expr_rect';
      intros e' N Hp H; inversion Hp; subst; cbn [homogenize] in H.
    - injection H as <-. apply pu_num.
    - injection H as <-. apply pu_var.
    - destruct (sequence _) as [ops'|] eqn:Es; [|discriminate]. apply sequence_map_some in Es. destruct (existsb _ _); [discriminate|]. injection H as <-.
      apply pu_sum. rewrite Forall_forall in *. intros q Hq. apply in_map_iff in Hq. destruct Hq as [q0 [<- Hq]]. cbn [snd]. apply raise_pure.
      destruct (in_two _ _ _ _ _ Es _ Hq) as [p [Hi Hpq]]. apply (pair_hom_eq vs h p q0) in Hpq. destruct Hpq as [_ Hpq].
      apply (IH p Hi); auto. intro Hx. apply N. destruct p. econstructor; eassumption.
    - destruct (sequence _) as [ops'|] eqn:Es; [|discriminate]. apply sequence_map_some in Es. injection H as <-.
      rewrite Forall_forall in *. assert (N' : forall p, In p ops -> ~ occurs h (snd p)) by (intros [s e] Hi Hx; apply N; econstructor; eassumption).
      apply pu_mul; apply Forall_forall; intros q Hq; destruct (in_two _ _ _ _ _ Es _ Hq) as [p [Hi Hpq]]; apply (pair_hom_eq vs h p q) in Hpq;
        destruct Hpq as [Ef Hpq].
      + apply (IH p Hi); auto.
      + rewrite <- Ef. intro Ff. rewrite (constant_stays A vs Hin h (snd p)) in Hpq by auto. injection Hpq as <-. apply constant_cons; auto.
    - destruct (homogenize fs rho vs h e) as [a|] eqn:E; [|discriminate]. injection H as <-. apply pu_neg. apply IH; auto.
      intro Hx. apply N. constructor. exact Hx.
    - destruct (homogenize fs rho vs h e) as [a|] eqn:E; [|discriminate]. injection H as <-.
      assert (N' : ~ occurs h e) by (intro Hx; apply N; constructor; exact Hx).
      apply pu_ipow; [apply IH; auto|]. match goal with X : _ \/ _ |- _ => destruct X as [X|X]; [left; assumption|right] end.
      rewrite (constant_stays A vs Hin h e) in E by auto. injection E as <-. apply constant_cons; auto.
    - destruct (homogenize fs rho vs h e) as [a|] eqn:E; [|discriminate]. injection H as <-.
      assert (N' : ~ occurs h e) by (intro Hx; apply N; constructor; exact Hx).
      rewrite (constant_stays A vs Hin h e) in E by auto. injection E as <-. apply pu_fun; [apply pure_cons; assumption|apply constant_cons; auto].
    - destruct (homogenize fs rho vs h e) as [a|] eqn:E; [|discriminate]. injection H as <-. apply pu_handle. apply IH; auto.
      intro Hx. apply N. constructor. exact Hx.
  Qed.

  Lemma unary_front : forall l, unary_group_degree (0%Z :: l) = unary_group_degree l.
  Proof. reflexivity. Qed.

  Lemma fresh_degree : forall A h e, pure A e -> ~ occurs h e -> degree fs rho h e = 0%Z.
  Proof.
    intros A h e Hp N. pose proof (pure_degree (h :: A) e (pure_cons h A e N Hp) h (or_introl eq_refl)). pose proof (degree_absent fs rho h e N). lia.
  Qed.

  Lemma front_raise : forall vs h k e, ~ In h vs -> (0 <= k)%Z -> (0 <= gdegree fs rho (h :: vs) e)%Z ->
    gdegree fs rho (h :: vs) (raise_degree h k e) = (k + gdegree fs rho (h :: vs) e)%Z.
  Proof.
    intros vs h k e N Hk Hg. unfold raise_degree. destruct (Z.leb_spec k 0); [replace k with 0%Z by lia; reflexivity|].
    destruct (Z.eqb_spec k 1).
    - subst k. change (gdegree fs rho (h :: vs) (Mul [(true, Var h); (true, e)]))
        with (mul_degree [(true, gdegree fs rho (h :: vs) (Var h)); (true, gdegree fs rho (h :: vs) e)] 0).
      rewrite mul_degree_all.
      + unfold sum2. cbn [fold_right snd gdegree existsb]. rewrite Nat.eqb_refl. cbn [orb]. lia.
      + constructor; [|constructor; [|constructor]]; cbn [fst snd]; (split; [|discriminate]); [|assumption].
        cbn [gdegree existsb]. rewrite Nat.eqb_refl. cbn. lia.
    - assert (E : gdegree fs rho (h :: vs) (IPow (Var h) k) = k).
      { cbn [gdegree]. rewrite unary_group_degree_nonneg.
        - cbn [map fold_right degree]. rewrite Nat.eqb_refl. cbn [Z.ltb Z.compare].
          rewrite fold_zero; [lia|]. intros v Hv. destruct (Nat.eqb_spec h v); [congruence|]. cbn. lia.
        - rewrite Forall_map. apply Forall_forall. intros v _. cbn [degree]. destruct (Nat.eqb h v); cbn; lia. }
      change (gdegree fs rho (h :: vs) (Mul [(true, IPow (Var h) k); (true, e)]))
        with (mul_degree [(true, gdegree fs rho (h :: vs) (IPow (Var h) k)); (true, gdegree fs rho (h :: vs) e)] 0).
      rewrite E, mul_degree_all.
      + unfold sum2. cbn [fold_right snd]. lia.
      + constructor; [|constructor; [|constructor]]; cbn [fst snd]; (split; [|discriminate]); [lia|assumption].
  Qed.

  Lemma accepted_raise : forall vs h k (e : expr F), is_homogeneous fs rho vs e = true -> is_homogeneous fs rho vs (raise_degree h k e) = true.
  Proof.
    intros vs h k e H. unfold raise_degree. destruct (k <=? 0)%Z; [assumption|]. destruct (k =? 1)%Z; cbn; rewrite H; reflexivity.
  Qed.

  Lemma homogenize_accepted : forall A vs h e e', incl vs A -> ~ In h vs -> ~ occurs h e -> pure A e -> expanded A e ->
    homogenize fs rho vs h e = Some e' ->
    is_homogeneous fs rho (h :: vs) e' = true /\ gdegree fs rho (h :: vs) e' = gdegree fs rho vs e.
  Proof.
    intros A vs h e e' Hin Hh. assert (Hin' : incl (h :: vs) (h :: A)) by (intros v [<-|Hv]; [left; reflexivity|right; auto]).
    revert e'. induction e as [k c|y|ops IH|ops IH|e IH|e n IH|b e IHb IHe|k e IH|e IH] using expr_rect';
      intros e' N Hp He H; cbn [homogenize] in H.
    - injection H as <-. split; reflexivity.
    - injection H as <-. split; [reflexivity|]. cbn [gdegree existsb]. destruct (Nat.eqb_spec y h) as [->|]; [|reflexivity].
      exfalso. apply N. constructor.
    - destruct (sequence _) as [ops'|] eqn:Es; [|discriminate]. apply sequence_map_some in Es. destruct (existsb _ _); [discriminate|].
      injection H as <-. inversion Hp as [| |? Hps| | | | |]; subst. inversion He as [| |? Hes| | | | |]; subst.
      rewrite Forall_forall in IH, Hps, Hes.
      assert (N' : forall p, In p ops -> ~ occurs h (snd p)) by (intros [s e] Hi Hx; apply N; econstructor; eassumption).
      assert (Ed : map (fun p => gdegree fs rho vs (snd p)) ops' = map (fun p => gdegree fs rho vs (snd p)) ops).
      { clear - Es Hh. induction Es as [|p q l l' Hab Hl IHl]; [reflexivity|]. cbn [map]. rewrite IHl. f_equal.
        apply (pair_hom_eq vs h p q) in Hab. apply (homogenize_degree fs rho vs h Hh _ _ (proj2 Hab)). }
      assert (Hnn : forall p, In p ops -> (0 <= gdegree fs rho vs (snd p))%Z) by (intros p Hi; apply (pure_gdegree A vs Hin); auto).
      assert (Em : gdegree fs rho vs (Sum ops) = fold_left Z.max (map (fun p => gdegree fs rho vs (snd p)) ops) 0%Z).
      { cbn [gdegree]. apply sum_degree_max. rewrite Forall_map. apply Forall_forall. auto. }
      rewrite Ed, <- Em. set (m := gdegree fs rho vs (Sum ops)) in *.
      assert (Hm : (0 <= m)%Z) by (apply (pure_gdegree A vs Hin); assumption).
      set (ops2 := map (fun p => (fst p, raise_degree h (m - gdegree fs rho vs (snd p)) (snd p))) ops').
      assert (X : forall q, In q ops2 -> is_homogeneous fs rho (h :: vs) (snd q) = true /\ gdegree fs rho (h :: vs) (snd q) = m).
      { intros q Hq. apply in_map_iff in Hq. destruct Hq as [q0 [<- Hq]]. cbn [snd].
        destruct (in_two _ _ _ _ _ Es _ Hq) as [p [Hi Hpq]]. apply (pair_hom_eq vs h p q0) in Hpq. destruct Hpq as [_ Hpq].
        destruct (IH p Hi _ (N' p Hi) (Hps p Hi) (Hes p Hi) Hpq) as [Xh Xd].
        pose proof (proj2 (homogenize_degree fs rho vs h Hh _ _ Hpq)) as Xv. split; [apply accepted_raise; exact Xh|].
        assert (Hle : (gdegree fs rho vs (snd p) <= m)%Z).
        { rewrite Em. destruct (fold_max_ge (map (fun p => gdegree fs rho vs (snd p)) ops) 0%Z) as [_ Hle]. rewrite Forall_forall in Hle.
          apply Hle. apply in_map_iff. exists p. split; [reflexivity|assumption]. }
        specialize (Hnn p Hi). rewrite front_raise by (try assumption; lia). lia. }
      split.
      + cbn [is_homogeneous]. apply andb_true_iff. split; [apply forallb_forall; intros q Hq; apply (X q Hq)|].
        destruct ops2 as [|q ops2]; [reflexivity|]. cbn [map]. rewrite (proj2 (X q (or_introl eq_refl))). apply andb_true_iff. split.
        * apply negb_true_iff. apply Z.ltb_ge. exact Hm.
        * apply forallb_forall. intros x Hx. apply in_map_iff in Hx. destruct Hx as [r [<- Hr]]. apply Z.eqb_eq. apply X. right. exact Hr.
      + cbn [gdegree]. destruct ops as [|p0 ops].
        * inversion Es; subst. reflexivity.
        * apply sum_degree_const; [exact Hm| |].
          -- inversion Es; subst. discriminate.
          -- rewrite Forall_map. apply Forall_forall. intros q Hq. apply X. exact Hq.
    - destruct (sequence _) as [ops'|] eqn:Es; [|discriminate]. apply sequence_map_some in Es. injection H as <-.
      inversion Hp as [| | |? Hps _| | | |]; subst. inversion He as [| | |? Hes| | | |]; subst.
      rewrite Forall_forall in IH, Hps, Hes.
      assert (N' : forall p, In p ops -> ~ occurs h (snd p)) by (intros [s e] Hi Hx; apply N; econstructor; eassumption).
      assert (X : Forall2 (fun p q => fst p = fst q /\ is_homogeneous fs rho (h :: vs) (snd q) = true /\ gdegree fs rho (h :: vs) (snd q) = gdegree fs rho vs (snd p)) ops ops').
      { clear Hp He N. induction Es as [|p q l l' Hab Hl IHl]; [constructor|]. apply (pair_hom_eq vs h p q) in Hab. destruct Hab as [Ef Hab].
        constructor; [|apply IHl; intros; try (apply IH; auto; right; assumption); auto with datatypes].
        split; [exact Ef|]. apply (IH p (or_introl eq_refl)); auto with datatypes. }
      split.
      + cbn [is_homogeneous]. apply forallb_forall. intros q Hq. destruct (in_two _ _ _ _ _ X _ Hq) as [p [_ [_ [Y _]]]]. exact Y.
      + cbn [gdegree]. f_equal. clear - X. induction X as [|p q l l' [Ef [_ Ed]] Hl IHl]; [reflexivity|]. cbn [map]. rewrite IHl, Ef, Ed. reflexivity.
    - inversion Hp; subst. inversion He; subst. assert (N' : ~ occurs h e) by (intro Hx; apply N; constructor; exact Hx).
      rewrite (monomial_stays A vs Hin h e) in H by assumption. injection H as <-. split.
      + cbn [is_homogeneous]. apply (monomial_accepted (h :: A)); [exact Hin'|apply pure_cons; assumption|apply monomial_cons; assumption].
      + cbn [gdegree map]. rewrite (fresh_degree A h (Neg e) Hp N). apply unary_front.
    - inversion Hp; subst. inversion He; subst. assert (N' : ~ occurs h e) by (intro Hx; apply N; constructor; exact Hx).
      rewrite (monomial_stays A vs Hin h e) in H by assumption. injection H as <-. split.
      + cbn [is_homogeneous]. apply (monomial_accepted (h :: A)); [exact Hin'|apply pure_cons; assumption|apply monomial_cons; assumption].
      + cbn [gdegree map]. rewrite (fresh_degree A h (IPow e n) Hp N). apply unary_front.
    - inversion Hp.
    - inversion Hp as [| | | | | |? ? Hpe Hce|]; subst. assert (N' : ~ occurs h e) by (intro Hx; apply N; constructor; exact Hx).
      rewrite (constant_stays A vs Hin h e) in H by assumption. injection H as <-.
      assert (Hc : constant A (Fun k e)) by (intros v Hv Hx; inversion Hx; subst; apply (Hce v Hv); assumption).
      assert (Z1 : gdegree fs rho (h :: vs) (Fun k e) = 0%Z) by (apply (fixed_degree (h :: A)); [exact Hin'|apply pure_cons; assumption|apply constant_cons; assumption]).
      split; [cbn [is_homogeneous]; rewrite Z1; reflexivity|]. rewrite Z1. symmetry. apply (fixed_degree A); assumption.
    - destruct (homogenize fs rho vs h e) as [a|] eqn:E; [|discriminate]. injection H as <-. inversion Hp; subst. inversion He; subst.
      assert (N' : ~ occurs h e) by (intro Hx; apply N; constructor; exact Hx). cbn [is_homogeneous gdegree]. apply IH; auto.
  Qed.

  Lemma grows_accepted : forall h A G e e', ~ In h G -> pure A e -> grows h e e' -> is_homogeneous fs rho G e = true -> is_homogeneous fs rho G e' = true.
  Proof.
    intros h A G e e' N. revert e'. induction e as [k c|y|ops IH|ops IH|e IH|e n IH|b e IHb IHe|k e IH|e IH] using expr_rect';
      intros e' Hp H Hh; inversion Hp; subst; inversion H; subst; try assumption; cbn [is_homogeneous] in *.
    - apply andb_true_iff in Hh. destruct Hh as [Ha Hd]. rewrite forallb_forall in Ha. rewrite Forall_forall in *. apply andb_true_iff. split.
      + apply forallb_forall. intros q Hq. match goal with X : Forall2 _ ops _ |- _ => destruct (in_two _ _ _ _ _ X _ Hq) as [p [Hi [_ [e1 [k [Hg E]]]]]] end.
        rewrite E. apply accepted_raise. apply (IH p Hi); auto.
      + match goal with X : Forall2 _ ops ?o |- _ => assert (Ed : map (fun p => gdegree fs rho G (snd p)) o = map (fun p => gdegree fs rho G (snd p)) ops);
          [clear - X N; induction X as [|p q l l' [_ [e1 [k [Hg E]]]] Hl IHl]; [reflexivity|]; cbn [map]; rewrite IHl; f_equal;
           rewrite E, gdegree_raise by assumption; apply (grows_gdegree h); assumption|] end.
        rewrite Ed. exact Hd.
    - rewrite forallb_forall in *. rewrite Forall_forall in *. intros q Hq.
      match goal with X : Forall2 _ ops _ |- _ => destruct (in_two _ _ _ _ _ X _ Hq) as [p [Hi [_ Hg]]] end. apply (IH p Hi); auto.
    - auto.
    - auto.
    - apply Z.eqb_eq. apply Z.eqb_eq in Hh. rewrite <- Hh. apply (grows_gdegree h); assumption.
    - auto.
  Qed.

  (** *** The loop over the groups *)
  Inductive grows_many : list nat -> expr F -> expr F -> Prop :=
  | gm_nil : forall e, grows_many [] e e
  | gm_cons : forall h hs e e1 e2, grows h e e1 -> grows_many hs e1 e2 -> grows_many (h :: hs) e e2.

  Definition avoids (hs G : list nat) : Prop := forall h, In h hs -> ~ In h G.

  Lemma avoids_cons : forall h hs G, avoids (h :: hs) G -> ~ In h G /\ avoids hs G.
  Proof. intros h hs G H. split; [apply H; left; reflexivity|]. intros k Hk. apply H. right. exact Hk. Qed.

  Lemma many_graded : forall hs e e', grows_many hs e e' -> forall G d, avoids hs G -> graded G d e -> graded G d e'.
  Proof.
    intros hs e e' H. induction H as [e|h hs e e1 e2 Hg Hm IH]; intros G d Ha Hd; [assumption|].
    apply avoids_cons in Ha. destruct Ha as [N Ha]. apply IH; [assumption|]. eapply grows_graded; eassumption.
  Qed.

  Lemma many_pure : forall hs e e', grows_many hs e e' -> forall B, avoids hs B -> pure B e -> pure B e'.
  Proof.
    intros hs e e' H. induction H as [e|h hs e e1 e2 Hg Hm IH]; intros G Ha Hd; [assumption|].
    apply avoids_cons in Ha. destruct Ha as [N Ha]. apply IH; [assumption|]. eapply grows_pure; eassumption.
  Qed.

  Lemma many_gdegree : forall hs e e', grows_many hs e e' -> forall G, avoids hs G -> gdegree fs rho G e' = gdegree fs rho G e.
  Proof.
    intros hs e e' H. induction H as [e|h hs e e1 e2 Hg Hm IH]; intros G Ha; [reflexivity|].
    apply avoids_cons in Ha. destruct Ha as [N Ha]. rewrite IH by assumption. apply (grows_gdegree h); assumption.
  Qed.

  Lemma many_accepted : forall hs e e', grows_many hs e e' -> forall A G, avoids hs G -> avoids hs A -> pure A e ->
    is_homogeneous fs rho G e = true -> is_homogeneous fs rho G e' = true.
  Proof.
    intros hs e e' H. induction H as [e|h hs e e1 e2 Hg Hm IH]; intros A G Ha Ha' Hp Hh; [assumption|].
    apply avoids_cons in Ha. destruct Ha as [N Ha]. apply avoids_cons in Ha'. destruct Ha' as [N' Ha'].
    apply (IH A); [assumption|assumption|eapply grows_pure; eassumption|]. eapply grows_accepted; eassumption.
  Qed.

  Definition outcome (A : list nat) (l : list (list nat * nat)) (f f' : expr F) : Prop :=
    grows_many (map snd l) f f' /\
    (forall point, (forall h, In h (map snd l) -> point h = 1) -> eval fs point f' = eval fs point f) /\
    (forall g h, In (g, h) l -> graded (h :: g) (Z.to_nat (gdegree fs rho g f)) f' /\ pure (h :: A) f' /\
       (expanded A f -> is_homogeneous fs rho (h :: g) f' = true /\ gdegree fs rho (h :: g) f' = gdegree fs rho g f)).

  Lemma loop_works : forall A l fl, NoDup (map snd l) ->
    (forall g h, In (g, h) l -> incl g A /\ NoDup g /\ ~ In h A) ->
    Forall (fun f => pure A f /\ forall g h, In (g, h) l -> modest g f /\ ~ occurs h f) fl ->
    exists fl', homogenize_all fs rho l fl = Some fl' /\ Forall2 (outcome A l) fl fl'.
  Proof.
    intros A l. induction l as [|[g h] l IH]; intros fl Hnd Hl Hf.
    - exists fl. split; [reflexivity|]. clear Hf. induction fl as [|f fl IHf]; constructor; [|exact IHf].
      split; [constructor|]. split; [reflexivity|]. intros g h [].
    - destruct (Hl g h (or_introl eq_refl)) as [Hin [Hng Hh]]. assert (Hhg : ~ In h g) by (intro X; apply Hh; apply Hin; exact X).
      cbn [map snd] in Hnd. inversion Hnd as [|? ? Hnew Hnd']; subst.
      assert (Hs : exists fl1, sequence (map (homogenize fs rho g h) fl) = Some fl1 /\ Forall2 (fun f f1 => homogenize fs rho g h f = Some f1) fl fl1).
      { clear - Hf Hin Hhg. induction Hf as [|f fl [Hp _] Hf [fl1 [E F2]]]; [exists []; split; [reflexivity|constructor]|].
        destruct (homogenize_total A g h f Hin Hhg Hp) as [f1 E1]. exists (f1 :: fl1). cbn. rewrite E1, E. split; [reflexivity|constructor; assumption]. }
      destruct Hs as [fl1 [E1 F1]].
      destruct (IH fl1 Hnd') as [fl' [E2 F2]].
      { intros g' h' Hi. apply Hl. right. exact Hi. }
      { clear E1 IH. induction F1 as [|f f1 fl fl1 E F1 IHF]; [constructor|]. inversion Hf as [|? ? [Hp Hg] Hf']; subst.
        constructor; [|apply IHF; assumption]. pose proof (homogenize_grows g h f f1 E) as Hgr.
        split; [eapply grows_pure; eassumption|]. intros g' h' Hi. destruct (Hg g' h' (or_intror Hi)) as [Hm Ho].
        destruct (Hl g' h' (or_intror Hi)) as [Hin' _]. split.
        - eapply grows_modest; [|exact Hgr|exact Hm]. intro X. apply Hh. apply Hin'. exact X.
        - intro Hx. destruct (grows_occurs h h' f f1 Hgr Hx) as [->|Hx']; [|apply (Ho Hx')].
          apply Hnew. apply in_map_iff. exists (g', h). split; [reflexivity|exact Hi]. }
      exists fl'. cbn [homogenize_all]. rewrite E1. split; [exact E2|].
      clear E1 E2 IH. revert fl' F2. induction F1 as [|f f1 fl fl1 E F1 IHF]; intros fl' F2; inversion F2 as [|? f' ? fl2 [Hm [H1 Hg']] F2']; subst; [constructor|].
      inversion Hf as [|? ? [Hp Hg] Hf']; subst. constructor; [|apply IHF; assumption]. clear IHF.
      destruct (Hg g h (or_introl eq_refl)) as [Hmod Ho]. pose proof (homogenize_grows g h f f1 E) as Hgr.
      assert (Ha : avoids (map snd l) (h :: A)).
      { intros k Hk [<-|Hk']; [contradiction|]. apply in_map_iff in Hk. destruct Hk as [[g' h'] [<- Hi]]. apply (proj2 (proj2 (Hl g' h' (or_intror Hi)))). exact Hk'. }
      assert (Hag : avoids (map snd l) (h :: g)).
      { intros k Hk [<-|Hk']; [contradiction|]. apply (Ha k Hk). right. apply Hin. exact Hk'. }
      split; [|split].
      + cbn [map snd]. econstructor; [exact Hgr|exact Hm].
      + intros point Hpt. rewrite H1 by (intros k Hk; apply Hpt; right; exact Hk).
        apply (homogenize_at_one fs rho g h f f1 point E). apply Hpt. left. reflexivity.
      + intros g' h' [Eq|Hi].
        * injection Eq as <- <-. split; [|split].
          -- eapply many_graded; [exact Hm|exact Hag|]. eapply homogenize_graded; eassumption.
          -- eapply many_pure; [exact Hm|exact Ha|]. eapply homogenize_pure; eassumption.
          -- intro Hex. destruct (homogenize_accepted A g h f f1 Hin Hhg Ho Hp Hex E) as [X1 X2]. split.
             ++ apply (many_accepted _ _ _ Hm (h :: A)); [exact Hag|exact Ha|eapply homogenize_pure; eassumption|exact X1].
             ++ rewrite (many_gdegree _ _ _ Hm) by exact Hag. exact X2.
        * destruct (Hg' g' h' Hi) as [X1 [X2 X3]].
          assert (Hng' : ~ In h g') by (intro X; apply Hh; apply (proj1 (Hl g' h' (or_intror Hi))); exact X).
          assert (Ed : gdegree fs rho g' f1 = gdegree fs rho g' f) by (apply (grows_gdegree h); assumption).
          rewrite Ed in X1, X3. split; [exact X1|]. split; [exact X2|]. intro Hex. apply X3. eapply grows_expanded; eassumption.
  Qed.
End Proofs.

(** ** Systems *)
Section Systems.
  Context {F : fld}.
  Local Open Scope fld_scope.
  Variable fs : funs F.
  Variable rho : env F.

  (** all variables a user may put into a system *)
  Definition unknowns (s : psys F) : list nat := concat (groups s) ++ concat (hom_groups s) ++ ungrouped s.

  (** a system which has not been homogenized, for which homogenizing makes sense; [fresh k] are the new variables *)
  Definition homogenizable (fresh : nat -> nat) (s : psys F) : Prop :=
    hom_vars s = [] /\
    (forall g, In g (groups s) \/ In g (hom_groups s) -> NoDup g) /\
    (forall i j, fresh i = fresh j -> i = j) /\
    (forall k, ~ In (fresh k) (unknowns s) /\ forall f, In f (fns s) -> ~ occurs (fresh k) f) /\
    (forall f, In f (fns s) -> pure (unknowns s) f /\
       (forall g, In g (groups s) -> modest g f) /\
       (forall g, In g (hom_groups s) -> modest g f /\ is_homogeneous fs rho g f = true)).

  Lemma group_unknowns : forall (s : psys F) g, In g (groups s) -> incl g (unknowns s).
  Proof. intros s g H v Hv. unfold unknowns. apply in_or_app. left. apply in_concat. eauto. Qed.
  Lemma hom_group_unknowns : forall (s : psys F) g, In g (hom_groups s) -> incl g (unknowns s).
  Proof. intros s g H v Hv. unfold unknowns. apply in_or_app. right. apply in_or_app. left. apply in_concat. eauto. Qed.

  Definition numbered (fresh : nat -> nat) (s : psys F) : list (list nat * nat) := combine (groups s) (map fresh (seq 0 (length (groups s)))).

  Lemma numbered_in : forall fresh s g h, In (g, h) (numbered fresh s) -> In g (groups s) /\ exists k, h = fresh k /\ nth_error (groups s) k = Some g.
  Proof.
    intros fresh s g h H. unfold numbered in H. split; [eapply in_combine_l; exact H|].
    apply In_nth_error in H. destruct H as [k Hk]. exists k.
    assert (G : forall (a : list (list nat)) (b : list nat) k g h, nth_error (combine a b) k = Some (g, h) -> nth_error a k = Some g /\ nth_error b k = Some h).
    { clear. induction a as [|x a IH]; intros [|y b] [|k] g h H; cbn in *; try discriminate; [injection H as <- <-; tauto|apply IH; exact H]. }
    apply G in Hk. destruct Hk as [Ha Hb]. split; [|exact Ha]. rewrite nth_error_map in Hb.
    destruct (nth_error (seq 0 (length (groups s))) k) as [i|] eqn:E; [|discriminate]. injection Hb as <-.
    apply (nth_error_nth _ _ 0%nat) in E. rewrite seq_nth in E; [subst; reflexivity|]. apply nth_error_Some. congruence.
  Qed.

  Lemma numbered_nth : forall fresh s k g, nth_error (groups s) k = Some g -> In (g, fresh k) (numbered fresh s).
  Proof.
    intros fresh s k g H. unfold numbered.
    assert (G : forall (a : list (list nat)) (f : nat -> nat) m k g, nth_error a k = Some g -> In (g, f (m + k)%nat) (combine a (map f (seq m (length a))))).
    { clear. induction a as [|x a IH]; intros f m [|k] g H; cbn in *; try discriminate.
      - injection H as <-. left. f_equal. f_equal. lia.
      - right. replace (m + S k)%nat with (S m + k)%nat by lia. apply IH. exact H. }
    apply (G _ fresh 0%nat k g H).
  Qed.

  Lemma numbered_snd : forall fresh s, map snd (numbered fresh s) = map fresh (seq 0 (length (groups s))).
  Proof.
    intros fresh s. unfold numbered. assert (G : forall (a : list (list nat)) (b : list nat), length a = length b -> map snd (combine a b) = b).
    { induction a as [|x a IH]; intros [|y b] H; cbn in *; try discriminate; [reflexivity|]. rewrite IH; [reflexivity|lia]. }
    apply G. rewrite map_length, seq_length. reflexivity.
  Qed.

  Lemma polynomial_before : forall fresh s, homogenizable fresh s -> is_polynomial_sys fs rho s = Some true.
  Proof.
    intros fresh s [H0 [_ [_ [_ Hf]]]]. unfold is_polynomial_sys, full_groups. rewrite H0. cbn [length Nat.eqb negb andb]. f_equal.
    apply forallb_forall. intros f Hi. destruct (Hf f Hi) as [Hp _]. apply andb_true_iff. split; apply forallb_forall; intros g Hg; apply Z.leb_le;
      apply (pure_gdegree fs rho (unknowns s)); try assumption; [apply group_unknowns|apply hom_group_unknowns]; assumption.
  Qed.

  Lemma numbered_avoids : forall fresh s, homogenizable fresh s -> forall G, incl G (unknowns s) -> avoids (map snd (numbered fresh s)) G.
  Proof.
    intros fresh s [_ [_ [_ [Hfr _]]]] G HG h Hh Hi. apply in_map_iff in Hh. destruct Hh as [[g h'] [<- Hin]].
    destruct (numbered_in _ _ _ _ Hin) as [_ [k [-> _]]]. cbn [snd] in Hi. apply (proj1 (Hfr k)). apply HG. exact Hi.
  Qed.

  Lemma homogenize_result : forall fresh s, homogenizable fresh s -> exists s',
    homogenize_sys fs rho fresh s = Some s' /\ groups s' = groups s /\ hom_groups s' = hom_groups s /\ ungrouped s' = ungrouped s /\
    hom_vars s' = map fresh (seq 0 (length (groups s))) /\ Forall2 (outcome fs rho (unknowns s) (numbered fresh s)) (fns s) (fns s').
  Proof.
    intros fresh s H. pose proof H as [H0 [Hnd [Hinj [Hfr Hf]]]].
    destruct (loop_works fs rho (unknowns s) (numbered fresh s) (fns s)) as [fl' [E F2]].
    - rewrite numbered_snd. clear - Hinj. generalize (seq_NoDup (length (groups s)) 0). generalize (seq 0 (length (groups s))).
      intros l Hl. induction Hl as [|x l Hx Hl IH]; cbn; constructor; [|exact IH]. intro Hi. apply in_map_iff in Hi. destruct Hi as [y [Ey Hy]].
      apply Hinj in Ey. subst. contradiction.
    - intros g h Hi. destruct (numbered_in _ _ _ _ Hi) as [Hg [k [-> _]]]. split; [apply group_unknowns; exact Hg|]. split; [apply Hnd; left; exact Hg|apply Hfr].
    - apply Forall_forall. intros f Hi. destruct (Hf f Hi) as [Hp [Hm _]]. split; [exact Hp|]. intros g h Hgh.
      destruct (numbered_in _ _ _ _ Hgh) as [Hg [k [-> _]]]. split; [apply Hm; exact Hg|apply Hfr; exact Hi].
    - exists (mkPS fl' (groups s) (hom_groups s) (ungrouped s) (map fresh (seq 0 (length (groups s))))).
      unfold homogenize_sys.
      assert (Hc : forallb (fun f => forallb (fun g => is_homogeneous fs rho g f) (hom_groups s)) (fns s) = true).
      { apply forallb_forall. intros f Hi. apply forallb_forall. intros g Hg. apply (Hf f Hi). exact Hg. }
      rewrite Hc. cbn [negb]. rewrite (polynomial_before fresh s H), H0. fold (numbered fresh s). rewrite E.
      cbn [groups hom_groups ungrouped hom_vars fns]. repeat split. exact F2.
  Qed.

  (** *** Homogenizing twice *)
  Lemma front_is : forall gs hs, length gs = length hs -> with_front gs hs = map (fun p => snd p :: fst p) (combine gs hs).
  Proof. induction gs as [|g gs IH]; intros [|h hs] H; cbn in *; try discriminate; [reflexivity|]. rewrite IH; [reflexivity|lia]. Qed.

  Lemma front_combine : forall gs hs, combine (with_front gs hs) hs = map (fun p => (snd p :: fst p, snd p)) (combine gs hs).
  Proof. induction gs as [|g gs IH]; intros [|h hs]; cbn; try reflexivity. rewrite IH. reflexivity. Qed.

  Lemma all_stay : forall l fl, (forall g h f, In (g, h) l -> In f fl -> homogenize fs rho g h f = Some f) -> homogenize_all fs rho l fl = Some fl.
  Proof.
    induction l as [|[g h] l IH]; intros fl H; [reflexivity|]. cbn [homogenize_all].
    assert (E : sequence (map (homogenize fs rho g h) fl) = Some fl).
    { assert (X : forall f, In f fl -> homogenize fs rho g h f = Some f) by (intros f Hf; apply H; [left; reflexivity|exact Hf]).
      clear - X. induction fl as [|f fl IH]; [reflexivity|]. cbn. rewrite X by (left; reflexivity). rewrite IH; [reflexivity|]. intros; apply X; right; assumption. }
    rewrite E. apply IH. intros; apply H; [right|]; assumption.
  Qed.

  Lemma two_in : forall (X Y : Type) (R : X -> Y -> Prop) l l', Forall2 R l l' -> forall b, In b l' -> exists a, In a l /\ R a b.
  Proof. intros X Y R l l' H b Hb. eapply (in_two X Y R); eassumption. Qed.

  Lemma after : forall fresh s s', homogenizable fresh s -> homogenize_sys fs rho fresh s = Some s' ->
    (forall f, In f (fns s) -> expanded (unknowns s) f) ->
    (ungrouped s <> [] -> forall f, In f (fns s) -> is_homogeneous fs rho (ungrouped s) f = true) ->
    is_homogeneous_sys fs rho s' = true /\ is_polynomial_sys fs rho s' = Some true /\
    forall fresh', homogenize_sys fs rho fresh' s' = Some s'.
  Proof.
    intros fresh s s' H E Hex Hun. destruct (homogenize_result fresh s H) as [s2 [E2 [Hg [Hhg [Hu [Hv Hf]]]]]].
    rewrite E in E2. injection E2 as <-. pose proof H as [_ [_ [_ [_ Hfs]]]].
    assert (Hlen : length (hom_vars s') = length (groups s')) by (rewrite Hv, Hg, map_length, seq_length; reflexivity).
    assert (Hfull : full_groups s' = map (fun p => snd p :: fst p) (numbered fresh s)).
    { unfold full_groups. destruct (hom_vars s') as [|h0 hs] eqn:Ev.
      - rewrite Hg. rewrite Hg in Hlen. unfold numbered. destruct (groups s); [reflexivity|discriminate].
      - rewrite <- Ev in *. rewrite front_is by (symmetry; exact Hlen). rewrite Hv, Hg. reflexivity. }
    assert (HG : forall f', In f' (fns s') -> forall G, In G (full_groups s') -> is_homogeneous fs rho G f' = true /\ (0 <= gdegree fs rho G f')%Z).
    { intros f' Hi G HGi. destruct (two_in _ _ _ _ _ Hf f' Hi) as [f [Hif [_ [_ Ho]]]]. rewrite Hfull in HGi. apply in_map_iff in HGi.
      destruct HGi as [[g h] [<- Hgh]]. cbn [fst snd]. destruct (Ho g h Hgh) as [_ [_ Hx]]. destruct (Hx (Hex f Hif)) as [X1 X2].
      split; [exact X1|]. rewrite X2. apply (pure_gdegree fs rho (unknowns s)); [apply group_unknowns; apply (numbered_in _ _ _ _ Hgh)|apply Hfs; exact Hif]. }
    assert (HH : forall f', In f' (fns s') -> forall g, In g (hom_groups s') -> is_homogeneous fs rho g f' = true /\ (0 <= gdegree fs rho g f')%Z).
    { intros f' Hi g Hgi. destruct (two_in _ _ _ _ _ Hf f' Hi) as [f [Hif [Hm _]]]. rewrite Hhg in Hgi. destruct (Hfs f Hif) as [Hp [_ Hh]].
      pose proof (hom_group_unknowns s g Hgi) as Hinc. split.
      - apply (many_accepted fs rho _ _ _ Hm (unknowns s)); [| |exact Hp|apply Hh; exact Hgi]; apply (numbered_avoids fresh s H); [exact Hinc|apply incl_refl].
      - rewrite (many_gdegree fs rho _ _ _ Hm) by (apply (numbered_avoids fresh s H); exact Hinc). apply (pure_gdegree fs rho (unknowns s)); assumption. }
    assert (HU : ungrouped s <> [] -> forall f', In f' (fns s') -> is_homogeneous fs rho (ungrouped s) f' = true).
    { intros Hne f' Hi. destruct (two_in _ _ _ _ _ Hf f' Hi) as [f [Hif [Hm _]]]. destruct (Hfs f Hif) as [Hp _].
      apply (many_accepted fs rho _ _ _ Hm (unknowns s)).
      - apply (numbered_avoids fresh s H). intros v Hv'. unfold unknowns. apply in_or_app. right. apply in_or_app. right. exact Hv'.
      - apply (numbered_avoids fresh s H). apply incl_refl.
      - exact Hp.
      - apply Hun; assumption. }
    assert (HP : is_polynomial_sys fs rho s' = Some true).
    { unfold is_polynomial_sys. rewrite Hlen, Nat.eqb_refl, andb_false_r. f_equal. apply forallb_forall. intros f' Hi. apply andb_true_iff.
      split; apply forallb_forall; intros G HGi; apply Z.leb_le; [apply (HG f' Hi G HGi)|apply (HH f' Hi G HGi)]. }
    split; [|split; [exact HP|]].
    - unfold is_homogeneous_sys. rewrite Hlen, Nat.eqb_refl. cbn [andb]. apply forallb_forall. intros f' Hi.
      apply andb_true_iff. split; [apply andb_true_iff; split; apply forallb_forall; intros G HGi; [apply (HG f' Hi G HGi)|apply (HH f' Hi G HGi)]|].
      rewrite Hu. destruct (ungrouped s) as [|u us] eqn:Eu; [reflexivity|]. apply HU; [discriminate|exact Hi].
    - intro fresh'. unfold homogenize_sys.
      assert (Hc : forallb (fun f => forallb (fun g => is_homogeneous fs rho g f) (hom_groups s')) (fns s') = true).
      { apply forallb_forall. intros f Hi. apply forallb_forall. intros g Hgi. apply (HH f Hi g Hgi). }
      rewrite Hc, HP. cbn [negb]. destruct (hom_vars s') as [|h0 hs] eqn:Ev.
      + rewrite Hg in *. destruct (groups s); [|discriminate]. cbn. destruct s'; cbn in *. subst. reflexivity.
      + rewrite <- Ev in *.
        assert (Es : homogenize_all fs rho (combine (with_front (groups s') (hom_vars s')) (hom_vars s')) (fns s') = Some (fns s')).
        { apply all_stay. intros G h f' HGi Hi. rewrite front_combine in HGi. apply in_map_iff in HGi. destruct HGi as [[g k] [Eq Hgk]].
          cbn [fst snd] in Eq. injection Eq as <- <-. rewrite Hv, Hg in Hgk. fold (numbered fresh s) in Hgk.
          destruct (two_in _ _ _ _ _ Hf f' Hi) as [f [Hif [_ [_ Ho]]]]. destruct (Ho g k Hgk) as [_ [Hp Hx]].
          apply (accepted_stays fs rho (k :: unknowns s)); [|exact Hp|apply Hx; apply Hex; exact Hif].
          intros v [<-|Hv']; [left; reflexivity|right]. apply (group_unknowns s g); [apply (numbered_in _ _ _ _ Hgk)|exact Hv']. }
        rewrite Es. destruct s'; reflexivity.
  Qed.

  Lemma two_weaken : forall (X Y : Type) (R Q : X -> Y -> Prop) l l', Forall2 R l l' -> (forall a b, In a l -> R a b -> Q a b) -> Forall2 Q l l'.
  Proof.
    intros X Y R Q l l' H. induction H as [|a b l l' Hab H IH]; intro W; constructor; [apply W; [left; reflexivity|exact Hab]|].
    apply IH. intros; apply W; [right|]; assumption.
  Qed.

  Lemma homogenize_meaning : forall fresh s, homogenizable fresh s -> exists s',
    homogenize_sys fs rho fresh s = Some s' /\ groups s' = groups s /\ hom_groups s' = hom_groups s /\ ungrouped s' = ungrouped s /\
    hom_vars s' = map fresh (seq 0 (length (groups s))) /\
    Forall2 (fun f f' =>
      (forall point, (forall k, (k < length (groups s))%nat -> point (fresh k) = 1) -> eval fs point f' = eval fs point f) /\
      (forall k g, nth_error (groups s) k = Some g -> scales fs (fresh k :: g) (Z.to_nat (gdegree fs rho g f)) f') /\
      (forall g, In g (hom_groups s) -> scales fs g (Z.to_nat (gdegree fs rho g f)) f')) (fns s) (fns s').
  Proof.
    intros fresh s H. destruct (homogenize_result fresh s H) as [s' [E [Hg [Hh [Hu [Hv Hf]]]]]].
    exists s'. do 5 (split; [assumption|]). pose proof H as [_ [Hnd [_ [_ Hfs]]]].
    eapply two_weaken; [exact Hf|]. intros f f' Hi [Hm [H1 Ho]]. destruct (Hfs f Hi) as [Hp [_ Hhm]]. split; [|split].
    - intros point Hpt. apply H1. intros h Hx. rewrite numbered_snd in Hx. apply in_map_iff in Hx. destruct Hx as [k [<- Hk]].
      apply in_seq in Hk. apply Hpt. lia.
    - intros k g Hk. apply graded_scales. apply (Ho g (fresh k)). apply numbered_nth. exact Hk.
    - intros g Hgi. apply graded_scales. pose proof (hom_group_unknowns s g Hgi) as Hinc.
      apply (many_graded _ _ _ Hm); [apply (numbered_avoids fresh s H); exact Hinc|].
      destruct (Hhm g Hgi) as [Hmod Hacc]. apply (accepted_graded fs rho (unknowns s) g); try assumption. apply Hnd. right. exact Hgi.
  Qed.
End Systems.
