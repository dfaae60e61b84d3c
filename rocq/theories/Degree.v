(** Degree with respect to a variable and with respect to a variable group. *)
From Coq Require Import List Arith Lia ZArith Bool Ring Field.
From Verif Require Import Base Poly Expr.
Import ListNotations.
Local Open Scope Z_scope.

(** ** Model *)

(** arithmetic.cpp:217-247: the loop of SumOperator::Degree *)
Fixpoint sum_degree (l : list Z) (deg : Z) : Z :=
  match l with
  | [] => deg
  | d :: r => if d <? 0 then d else sum_degree r (Z.max deg d)
  end.

(** arithmetic.cpp:763-813: the loop of MultOperator::Degree (without the special case
    for Differential nodes, which occur only in Jacobian trees) *)
Fixpoint mul_degree (l : list (bool * Z)) (deg : Z) : Z :=
  match l with
  | [] => deg
  | (m, d) :: r =>
      if d <? 0 then d
      else if negb (d =? 0) && negb m then -1
      else mul_degree r (deg + d)
  end.

(** operator.cpp:61-72 UnaryOperator::Degree(VariableGroup): the accumulation over the multidegree *)
Definition unary_group_degree (l : list Z) : Z :=
  fold_left (fun deg n => if n <? 0 then n else deg + n) l 0.

(** arithmetic.cpp:1011-1023 PowerOperator::Degree(VariableGroup) *)
Definition power_group_degree (l : list Z) : Z :=
  fold_left (fun deg n => if n <? 0 then -1 else deg + n) l 0.

Section Model.
  Context {F : fld}.
  Local Open Scope Z_scope.

  (** Node::Degree(v); [rho] are the current values of the variables (PowerOperator::Degree evaluates
      its exponent).  int overflow is not modelled. *)
  Fixpoint degree (fs : funs F) (rho : env F) (v : nat) (e : expr F) : Z :=
    match e with
    | Num _ _ => 0                                        (* number.hpp:84-102 *)
    | Var x => if Nat.eqb x v then 1 else 0               (* variable.cpp:109-121 *)
    | Sum ops => sum_degree (map (fun p => degree fs rho v (snd p)) ops) 0
    | Mul ops => mul_degree (map (fun p => (fst p, degree fs rho v (snd p))) ops) 0
    | Neg e => degree fs rho v e                          (* operator.cpp:53-56 *)
    | IPow e n =>                                         (* arithmetic.cpp:1166-1174 *)
        let d := degree fs rho v e in if d <? 0 then d else n * d
    | Pow b e =>                                          (* arithmetic.cpp:965-1009 *)
        let db := degree fs rho v b in
        if degree fs rho v e =? 0 then
          match (match eval fs rho e with Some x => as_int fs x | None => None end) with
          | Some n =>
              if n =? 0 then 0 else if n <? 0 then -1 else if db <? 0 then -1 else db * n
          | None => if db =? 0 then 0 else -1
          end
        else -1
    | Fun _ e => if degree fs rho v e =? 0 then 0 else -1 (* trig.cpp:33-43, arithmetic.cpp:1219-1228, 1300-1308, 1375-1383 *)
    | Handle e => degree fs rho v e                       (* function.cpp:140-143 *)
    end.

  (** Node::Degree(VariableGroup) *)
  Fixpoint gdegree (fs : funs F) (rho : env F) (vs : list nat) (e : expr F) : Z :=
    match e with
    | Num _ _ => 0
    | Var x => if existsb (Nat.eqb x) vs then 1 else 0    (* variable.cpp:124-132 *)
    | Sum ops => sum_degree (map (fun p => gdegree fs rho vs (snd p)) ops) 0
    | Mul ops => mul_degree (map (fun p => (fst p, gdegree fs rho vs (snd p))) ops) 0
    | Neg _ | IPow _ _ | Fun _ _ => unary_group_degree (map (fun v => degree fs rho v e) vs)
    | Pow _ _ => power_group_degree (map (fun v => degree fs rho v e) vs)
    | Handle e => gdegree fs rho vs e                     (* function.cpp:146-149 *)
    end.

  (** ** Specification *)

  (** a partially defined function which agrees with a polynomial of degree at most [d] *)
  Definition poly_where_defined (d : nat) (f : F -> option F) : Prop :=
    exists p, is_poly d p /\ forall t y, f t = Some y -> y = p t.
End Model.

(** ** Proofs *)
Lemma sum_degree_nonneg : forall l acc, 0 <= acc -> 0 <= sum_degree l acc ->
  Forall (fun d => 0 <= d <= sum_degree l acc) l /\ acc <= sum_degree l acc.
Proof.
  induction l as [|d l IH]; intros acc Ha H; cbn [sum_degree] in *.
  - split; [constructor|lia].
  - destruct (Z.ltb_spec d 0); [lia|].
    destruct (IH (Z.max acc d) ltac:(lia) H) as [Hf Hm]. split; [|lia].
    constructor; [lia|exact Hf].
Qed.

Lemma sum_degree_all : forall l acc, 0 <= acc -> Forall (fun d => 0 <= d) l -> 0 <= sum_degree l acc.
Proof.
  induction l as [|d l IH]; intros acc Ha H; cbn [sum_degree]; [assumption|].
  inversion H; subst. destruct (Z.ltb_spec d 0); [lia|]. apply IH; [lia|assumption].
Qed.

Lemma sum_degree_le : forall l acc b, acc <= b -> Forall (fun d => d <= b) l -> sum_degree l acc <= b.
Proof.
  induction l as [|d l IH]; intros acc b Ha H; cbn [sum_degree]; [assumption|].
  inversion H; subst. destruct (Z.ltb_spec d 0); [lia|]. apply IH; [lia|assumption].
Qed.

Definition sum2 (l : list (bool * Z)) : Z := fold_right (fun p a => snd p + a) 0 l.

Lemma mul_degree_nonneg : forall l acc, 0 <= acc -> 0 <= mul_degree l acc ->
  Forall (fun p => 0 <= snd p /\ (fst p = false -> snd p = 0)) l /\ mul_degree l acc = acc + sum2 l.
Proof.
  induction l as [|[m d] l IH]; intros acc Ha H; cbn [mul_degree] in *.
  - split; [constructor|unfold sum2; cbn; lia].
  - destruct (Z.ltb_spec d 0); [lia|].
    destruct (negb (d =? 0) && negb m) eqn:E; [lia|].
    destruct (IH (acc + d) ltac:(lia) H) as [Hf Hs]. split.
    + constructor; [|exact Hf]. cbn. split; [lia|]. intros ->. destruct (Z.eqb_spec d 0); [assumption|discriminate].
    + unfold sum2 in *. cbn. lia.
Qed.

Lemma mul_degree_all : forall l acc, Forall (fun p => 0 <= snd p /\ (fst p = false -> snd p = 0)) l ->
  mul_degree l acc = acc + sum2 l.
Proof.
  induction l as [|[m d] l IH]; intros acc H; cbn [mul_degree].
  - unfold sum2; cbn; lia.
  - inversion H as [|? ? [H1 H2] H3]; subst. cbn in H1, H2. destruct (Z.ltb_spec d 0); [lia|].
    destruct (negb (d =? 0) && negb m) eqn:E.
    + apply andb_true_iff in E. destruct E as [E1 E2]. destruct m; [discriminate|]. rewrite H2 in E1 by reflexivity. discriminate.
    + rewrite IH by assumption. unfold sum2. cbn. lia.
Qed.

Lemma unary_group_degree_nonneg : forall l, Forall (fun d => 0 <= d) l ->
  unary_group_degree l = fold_right Z.add 0 l.
Proof.
  unfold unary_group_degree. intros l H.
  assert (G : forall acc, fold_left (fun deg n => if n <? 0 then n else deg + n) l acc = acc + fold_right Z.add 0 l).
  { induction H as [|d l Hd H IH]; intro acc; cbn; [lia|]. destruct (Z.ltb_spec d 0); [lia|]. rewrite IH. lia. }
  rewrite G. lia.
Qed.

Lemma power_group_degree_nonneg : forall l, Forall (fun d => 0 <= d) l ->
  power_group_degree l = fold_right Z.add 0 l.
Proof.
  unfold power_group_degree. intros l H.
  assert (G : forall acc, fold_left (fun deg n => if n <? 0 then -1 else deg + n) l acc = acc + fold_right Z.add 0 l).
  { induction H as [|d l Hd H IH]; intro acc; cbn; [lia|]. destruct (Z.ltb_spec d 0); [lia|]. rewrite IH. lia. }
  rewrite G. lia.
Qed.

Section Proofs.
  Context {F : fld}.
  Local Open Scope fld_scope.
  Add Field degree_field : (f_th F).
  Variable fs : funs F.
  Hypothesis Hfs : funs_ok fs.

  Lemma pwd_le : forall d d' (f : F -> option F), (d <= d')%nat -> poly_where_defined d f -> poly_where_defined d' f.
  Proof. intros d d' f H [p [Hp Hf]]. exists p. split; [eapply is_poly_le; eassumption|assumption]. Qed.

  Lemma pwd_const : forall (f : F -> option F), poly_where_defined 0 f -> exists c, forall t y, f t = Some y -> y = c.
  Proof.
    intros f [p [[q [Hq Hp]] Hf]]. exists (peval q 0). intros t y H. rewrite (Hf t y H), Hp.
    destruct q as [|a [|b q]]; cbn in *; [reflexivity|ring|lia].
  Qed.

  Lemma pwd_of_const : forall d (f : F -> option F) c, (forall t y, f t = Some y -> y = c) -> poly_where_defined d f.
  Proof. intros d f c H. exists (fun _ => c). split; [apply is_poly_const|exact H]. Qed.

  Lemma pwd_sum : forall (A : Type) (l : list (bool * A)) (g : A -> F -> option F) d,
    (forall s a, In (s, a) l -> poly_where_defined d (g a)) ->
    poly_where_defined d (fun t => sum_val (map (fun p => (fst p, g (snd p) t)) l)).
  Proof.
    intros A l g d. induction l as [|[s a] l IH]; intro H.
    - apply pwd_of_const with (c := 0). intros t y E. cbn in E. congruence.
    - destruct (H s a (or_introl eq_refl)) as [p [Hp Hf]].
      destruct IH as [q [Hq Hg]]; [intros; eapply H; right; eassumption|].
      exists (fun t => (if s then p t else - p t) + q t). split.
      + apply is_poly_add; [|assumption]. destruct s; [assumption|]. apply is_poly_opp. assumption.
      + intros t y E. cbn [map sum_val fst snd] in E.
        destruct (g a t) as [x|] eqn:E1; [|discriminate].
        destruct (sum_val (map (fun p0 => (fst p0, g (snd p0) t)) l)) as [z|] eqn:E2; [|discriminate].
        inversion E. rewrite (Hf t x E1), (Hg t z E2). destruct s; reflexivity.
  Qed.

  (** product of factors of degrees [d a]; dividing factors have degree 0 *)
  Lemma pwd_mul : forall (A : Type) (l : list (bool * A)) (g : A -> F -> option F) (d : A -> nat),
    (forall s a, In (s, a) l -> poly_where_defined (d a) (g a)) ->
    (forall a, In (false, a) l -> d a = O) ->
    poly_where_defined (fold_right (fun p n => (d (snd p) + n)%nat) O l)
      (fun t => mul_val (map (fun p => (fst p, g (snd p) t)) l)).
  Proof.
    intros A l g d. induction l as [|[s a] l IH]; intros H Hdiv.
    - apply pwd_of_const with (c := 1). intros t y E. cbn in E. congruence.
    - pose proof (H s a (or_introl eq_refl)) as Ha.
      destruct IH as [q [Hq Hg]]; [intros; eapply H; right; eassumption|intros; apply Hdiv; right; assumption|].
      cbn [fold_right snd]. destruct s.
      + destruct Ha as [p [Hp Hf]]. exists (fun t => p t * q t). split; [apply is_poly_mul; assumption|].
        intros t y E. cbn [map mul_val fst snd] in E.
        destruct (g a t) as [x|] eqn:E1; [|discriminate].
        destruct (mul_val (map (fun p0 => (fst p0, g (snd p0) t)) l)) as [z|] eqn:E2; [|discriminate].
        inversion E. rewrite (Hf t x E1), (Hg t z E2). reflexivity.
      + rewrite (Hdiv a (or_introl eq_refl)) in *. destruct (pwd_const _ Ha) as [c Hc].
        exists (fun t => finv c * q t). split; [apply is_poly_scale; assumption|].
        intros t y E. cbn [map mul_val fst snd] in E.
        destruct (g a t) as [x|] eqn:E1; [|discriminate].
        destruct (mul_val (map (fun p0 => (fst p0, g (snd p0) t)) l)) as [z|] eqn:E2; [|discriminate].
        destruct (feq_dec x 0) as [|N]; [discriminate|]. inversion E.
        rewrite <- (Hg t z E2). pose proof (Hc t x E1). subst c. field. assumption.
  Qed.

  Variable rho : env F.
  Variable vs : list nat.
  Variable path : F -> env F.
  Variable t0 : F.
  Hypothesis path_out : forall x t, ~ In x vs -> path t x = rho x.
  Hypothesis path_in : forall x, In x vs -> is_poly 1 (fun t => path t x).
  Hypothesis path_t0 : forall x, path t0 x = rho x.

  Definition sumdeg (e : expr F) : Z := fold_right Z.add 0%Z (map (fun v => degree fs rho v e) vs).
  Definition all_nonneg (e : expr F) : Prop := forall v, In v vs -> (0 <= degree fs rho v e)%Z.

  Lemma sumdeg_nonneg : forall e, all_nonneg e -> (0 <= sumdeg e)%Z.
  Proof.
    intros e H. unfold sumdeg, all_nonneg in *. clear path_out path_in. induction vs as [|v l IH]; cbn; [lia|].
    pose proof (H v (or_introl eq_refl)). specialize (IH (fun w Hw => H w (or_intror Hw))). lia.
  Qed.

  Lemma fold_le : forall (f g : nat -> Z) l, (forall v, In v l -> (f v <= g v)%Z) ->
    (fold_right Z.add 0 (map f l) <= fold_right Z.add 0 (map g l))%Z.
  Proof.
    intros f g l. induction l as [|v l IH]; intro H; cbn; [lia|].
    pose proof (H v (or_introl eq_refl)). specialize (IH (fun w Hw => H w (or_intror Hw))). lia.
  Qed.

  Lemma fold_scale : forall (f : nat -> Z) n l,
    fold_right Z.add 0%Z (map (fun v => (n * f v)%Z) l) = (n * fold_right Z.add 0 (map f l))%Z.
  Proof. intros f n l. induction l as [|v l IH]; cbn; [lia|]. rewrite IH. lia. Qed.

  Lemma fold_zero : forall (f : nat -> Z) l, (forall v, In v l -> f v = 0%Z) -> fold_right Z.add 0%Z (map f l) = 0%Z.
  Proof.
    intros f l. induction l as [|v l IH]; intro H; cbn; [reflexivity|].
    rewrite (H v (or_introl eq_refl)), IH by (intros; apply H; right; assumption). reflexivity.
  Qed.

  Lemma fold_zero_inv : forall (f : nat -> Z) l, (forall v, In v l -> (0 <= f v)%Z) ->
    fold_right Z.add 0%Z (map f l) = 0%Z -> forall v, In v l -> f v = 0%Z.
  Proof.
    intros f l. induction l as [|w l IH]; intros H E v Hv; cbn in *; [contradiction|].
    assert (Hs : (0 <= fold_right Z.add 0 (map f l))%Z).
    { clear - H. assert (G : forall v, In v l -> (0 <= f v)%Z) by (intros; apply H; right; assumption).
      clear H. induction l; cbn; [lia|]. pose proof (G a (or_introl eq_refl)). specialize (IHl (fun v Hv => G v (or_intror Hv))). lia. }
    pose proof (H w (or_introl eq_refl)).
    destruct Hv as [->|Hv]; [lia|]. apply IH; [intros; apply H; right; assumption|lia|assumption].
  Qed.

  Lemma fold_var : forall (x : nat) l, In x l ->
    (1 <= fold_right Z.add 0 (map (fun v => if Nat.eqb x v then 1 else 0) l))%Z.
  Proof.
    intros x l. assert (P : forall l, (0 <= fold_right Z.add 0 (map (fun v => if Nat.eqb x v then 1 else 0) l))%Z).
    { intro l'. induction l' as [|a l' IH]; cbn [map fold_right]; [lia|]. destruct (Nat.eqb x a); lia. }
    induction l as [|v l IH]; intro H; [contradiction|]. cbn [map fold_right]. pose proof (P l).
    destruct H as [->|H]; [rewrite Nat.eqb_refl; lia|]. specialize (IH H). destruct (Nat.eqb x v); lia.
  Qed.

  Lemma eval_rho : forall e, eval fs (path t0) e = eval fs rho e.
  Proof. intro e. apply eval_ext. intros x _. apply path_t0. Qed.

  (** the children of a sum: all nonnegative and bounded *)
  Lemma sum_children : forall ops, all_nonneg (Sum ops) -> forall s e, In (s, e) ops ->
    all_nonneg e /\ (sumdeg e <= sumdeg (Sum ops))%Z.
  Proof.
    intros ops H s e Hin.
    assert (G : forall v, In v vs -> (0 <= degree fs rho v e <= degree fs rho v (Sum ops))%Z).
    { intros v Hv. specialize (H v Hv). cbn [degree] in H |- *.
      apply sum_degree_nonneg in H; [|lia]. destruct H as [H _]. rewrite Forall_forall in H.
      apply H. apply in_map_iff. exists (s, e). split; [reflexivity|assumption]. }
    split.
    - intros v Hv. apply G; assumption.
    - unfold sumdeg. apply fold_le. intros v Hv. apply G; assumption.
  Qed.

  Lemma mul_children : forall ops, all_nonneg (Mul ops) ->
    (forall s e, In (s, e) ops -> all_nonneg e) /\
    (forall e, In (false, e) ops -> forall v, In v vs -> degree fs rho v e = 0%Z) /\
    sumdeg (Mul ops) = fold_right (fun p n => (sumdeg (snd p) + n)%Z) 0%Z ops.
  Proof.
    intros ops H.
    assert (G : forall v, In v vs ->
       Forall (fun p => (0 <= degree fs rho v (snd p))%Z /\ (fst p = false -> degree fs rho v (snd p) = 0%Z)) ops
       /\ degree fs rho v (Mul ops) = fold_right (fun p n => (degree fs rho v (snd p) + n)%Z) 0%Z ops).
    { intros v Hv. specialize (H v Hv). cbn [degree] in H |- *.
      apply mul_degree_nonneg in H; [|lia]. destruct H as [H1 H2]. split.
      - rewrite Forall_map in H1. apply Forall_impl with (2 := H1). intros [s e]; cbn. auto.
      - rewrite H2. unfold sum2. clear. induction ops as [|[s e] ops IH]; cbn; [reflexivity|]. lia. }
    split; [|split].
    - intros s e Hin v Hv. destruct (G v Hv) as [Hf _]. rewrite Forall_forall in Hf. apply (Hf _ Hin).
    - intros e Hin v Hv. destruct (G v Hv) as [Hf _]. rewrite Forall_forall in Hf. apply (Hf _ Hin). reflexivity.
    - unfold sumdeg.
      rewrite (map_ext_in _ (fun v => fold_right (fun p n => (degree fs rho v (snd p) + n)%Z) 0%Z ops)) by (intros v Hv; apply G; assumption).
      clear. induction ops as [|[s e] ops IH]; cbn [fold_right snd].
      + apply fold_zero. reflexivity.
      + rewrite <- IH. clear. induction vs as [|v l IHl]; cbn [map fold_right]; [lia|]. rewrite IHl. lia.
  Qed.

  (** the shape of the degrees of a power *)
  Lemma power_cases : forall b e, all_nonneg (Pow b e) -> vs <> [] ->
    (forall v, In v vs -> degree fs rho v e = 0%Z) /\
    ((exists x n, eval fs rho e = Some x /\ as_int fs x = Some n /\
        (n = 0%Z \/ (0 < n)%Z /\ all_nonneg b /\ sumdeg (Pow b e) = (n * sumdeg b)%Z))
     \/ (forall v, In v vs -> degree fs rho v b = 0%Z)).
  Proof.
    intros b e H Hne.
    assert (He : forall v, In v vs -> degree fs rho v e = 0%Z).
    { intros v Hv. specialize (H v Hv). cbn [degree] in H.
      destruct (Z.eqb_spec (degree fs rho v e) 0); [assumption|lia]. }
    split; [exact He|].
    destruct (match eval fs rho e with Some x => as_int fs x | None => None end) as [n|] eqn:E.
    - left. destruct (eval fs rho e) as [x|] eqn:Ee; [|discriminate]. exists x, n.
      split; [reflexivity|]. split; [exact E|].
      destruct (Z.eq_dec n 0) as [|Nn]; [left; assumption|right].
      assert (G : forall v, In v vs -> (0 < n)%Z /\ (0 <= degree fs rho v b)%Z /\ degree fs rho v (Pow b e) = (n * degree fs rho v b)%Z).
      { intros v Hv. specialize (H v Hv). cbn [degree] in H |- *. rewrite Ee, E in *.
        rewrite (He v Hv) in *. cbn [Z.eqb] in *.
        destruct (Z.eqb_spec n 0); [contradiction|]. destruct (Z.ltb_spec n 0); [lia|].
        destruct (Z.ltb_spec (degree fs rho v b) 0); [lia|]. split; [lia|]. split; lia. }
      split; [|split].
      + clear path_out path_in. destruct vs as [|v l]; [contradiction|]. apply (G v). left; reflexivity.
      + intros v Hv. apply G; assumption.
      + unfold sumdeg. rewrite <- fold_scale. f_equal. apply map_ext_in. intros v Hv. apply G; assumption.
    - right. intros v Hv. specialize (H v Hv). cbn [degree] in H. rewrite E in H. rewrite (He v Hv) in H. cbn [Z.eqb] in H.
      destruct (Z.eqb_spec (degree fs rho v b) 0); [assumption|lia].
  Qed.

  Lemma fpowZ_pos : forall (x : F) n, (0 <= n)%Z -> fpowZ x n = Some (fpow x (Z.to_nat n)).
  Proof. intros x [|p|p] H; cbn; [reflexivity|reflexivity|lia]. Qed.

  Lemma sumdeg_zero : forall e, (forall v, In v vs -> degree fs rho v e = 0%Z) -> sumdeg e = 0%Z.
  Proof. intros e H. unfold sumdeg. apply fold_zero. exact H. Qed.

  Lemma all_nonneg_zero : forall e, (forall v, In v vs -> degree fs rho v e = 0%Z) -> all_nonneg e.
  Proof. intros e H v Hv. rewrite (H v Hv). lia. Qed.

  (** along the path the value is a polynomial of degree at most the sum of the degrees *)
  Lemma path_poly : vs <> [] -> forall e, all_nonneg e -> poly_where_defined (Z.to_nat (sumdeg e)) (fun t => eval fs (path t) e).
  Proof.
    intros Hne e. induction e as [k c|x|ops IH|ops IH|e IH|e n IH|b e IHb IHe|k e IH|e IH] using expr_rect'; intro H; cbn [eval].
    - apply pwd_of_const with (c := c). intros; congruence.
    - destruct (in_dec Nat.eq_dec x vs) as [Hin|Hout].
      + apply pwd_le with (d := 1%nat).
        * assert (G : (1 <= sumdeg (Var x))%Z).
          { unfold sumdeg. cbn [degree]. apply fold_var. assumption. }
          lia.
        * exists (fun t => path t x). split; [apply path_in; assumption|]. intros; congruence.
      + apply pwd_of_const with (c := rho x). intros t y E. rewrite path_out in E by assumption. congruence.
    - apply (pwd_sum _ ops (fun e t => eval fs (path t) e)). intros s e Hin. rewrite Forall_forall in IH.
      destruct (sum_children ops H s e Hin) as [Hn Hle]. apply pwd_le with (d := Z.to_nat (sumdeg e)).
      + lia.
      + apply (IH _ Hin). exact Hn.
    - destruct (mul_children ops H) as [Hc [Hd Hs]]. rewrite Forall_forall in IH.
      apply pwd_le with (d := fold_right (fun p n => (Z.to_nat (sumdeg (snd p)) + n)%nat) O ops).
      + rewrite Hs. clear - Hc.
        assert (G : forall l : list (bool * expr F), (forall s e, In (s, e) l -> all_nonneg e) ->
           (fold_right (fun p n => (Z.to_nat (sumdeg (snd p)) + n)%nat) O l <= Z.to_nat (fold_right (fun p n => (sumdeg (snd p) + n)%Z) 0%Z l))%nat
           /\ (0 <= fold_right (fun p n => (sumdeg (snd p) + n)%Z) 0%Z l)%Z).
        { induction l as [|[s e] l IHl]; intro Hc0; cbn [fold_right snd]; [split; lia|].
          destruct IHl as [I1 I2]; [intros; eapply Hc0; right; eassumption|].
          pose proof (sumdeg_nonneg e (Hc0 s e (or_introl eq_refl))). split; lia. }
        apply G. exact Hc.
      + apply (pwd_mul _ ops (fun e t => eval fs (path t) e) (fun e => Z.to_nat (sumdeg e))).
        * intros s e Hin. apply (IH _ Hin). eapply Hc; eassumption.
        * intros e Hin. rewrite sumdeg_zero; [reflexivity|]. apply Hd. assumption.
    - destruct (IH H) as [p [Hp Hf]]. exists (fun t => - p t). split.
      + change (sumdeg (Neg e)) with (sumdeg e). apply is_poly_opp. exact Hp.
      + intros t y E. destruct (eval fs (path t) e) as [z|] eqn:Ez; [|discriminate]. inversion E. rewrite (Hf t z Ez). reflexivity.
    - (* integer power *)
      assert (Hn : all_nonneg e).
      { intros v Hv. specialize (H v Hv). cbn [degree] in H. destruct (Z.ltb_spec (degree fs rho v e) 0); lia. }
      assert (Hd : sumdeg (IPow e n) = (n * sumdeg e)%Z).
      { unfold sumdeg. rewrite <- fold_scale. f_equal. apply map_ext_in. intros v Hv. cbn [degree].
        specialize (Hn v Hv). destruct (Z.ltb_spec (degree fs rho v e) 0); lia. }
      destruct (Z.le_gt_cases 0 n) as [Hpos|Hneg].
      + destruct (IH Hn) as [p [Hp Hf]]. exists (fun t => fpow (p t) (Z.to_nat n)). split.
        * rewrite Hd. pose proof (sumdeg_nonneg e Hn).
          replace (Z.to_nat (n * sumdeg e)) with (Z.to_nat n * Z.to_nat (sumdeg e))%nat by (rewrite Z2Nat.inj_mul by lia; reflexivity).
          apply is_poly_pow. exact Hp.
        * intros t y E. destruct (eval fs (path t) e) as [z|] eqn:Ez; [|discriminate].
          rewrite fpowZ_pos in E by assumption. inversion E. rewrite (Hf t z Ez). reflexivity.
      + (* a negative exponent forces degree 0 *)
        assert (Hz : forall v, In v vs -> degree fs rho v e = 0%Z).
        { intros v Hv. pose proof (Hn v Hv). specialize (H v Hv). cbn [degree] in H.
          destruct (Z.ltb_spec (degree fs rho v e) 0); [lia|]. nia. }
        pose proof (IH Hn) as Hp. rewrite (sumdeg_zero e Hz) in Hp. destruct (pwd_const _ Hp) as [c Hc].
        destruct (fpowZ c n) as [w|] eqn:Ew.
        * apply pwd_of_const with (c := w). intros t y E. destruct (eval fs (path t) e) as [z|] eqn:Ez; [|discriminate].
          rewrite (Hc t z Ez) in E. congruence.
        * apply pwd_of_const with (c := 0). intros t y E. destruct (eval fs (path t) e) as [z|] eqn:Ez; [|discriminate].
          rewrite (Hc t z Ez) in E. congruence.
    - (* general power *)
      destruct (power_cases b e H Hne) as [He Hcase].
      pose proof (IHe (all_nonneg_zero e He)) as Pe. rewrite (sumdeg_zero e He) in Pe.
      destruct (pwd_const _ Pe) as [ce Hce].
      destruct Hcase as [[x [n [Ex [En Hn]]]]|Hb].
      + assert (ce = x) as -> by (symmetry; apply (Hce t0); rewrite eval_rho; exact Ex).
        apply (as_int_sound fs Hfs) in En. subst x.
        destruct Hn as [->|[Hpos [Hb Hs]]].
        * apply pwd_of_const with (c := 1). intros t y E.
          destruct (eval fs (path t) b) as [z|] eqn:Ez; [|discriminate].
          destruct (eval fs (path t) e) as [w|] eqn:Ewv; [|discriminate].
          rewrite (Hce t w Ewv) in E. cbn [fZ] in E. destruct (feq_dec z 0) as [->|Nz].
          -- apply (pw_00 fs Hfs). exact E.
          -- pose proof (pw_int fs Hfs z 0 (or_intror Nz)) as Hpw. cbn in Hpw. rewrite Hpw in E. congruence.
        * destruct (IHb Hb) as [p [Hp Hf]]. exists (fun t => fpow (p t) (Z.to_nat n)). split.
          -- rewrite Hs. pose proof (sumdeg_nonneg b Hb).
             replace (Z.to_nat (n * sumdeg b)) with (Z.to_nat n * Z.to_nat (sumdeg b))%nat by (rewrite Z2Nat.inj_mul by lia; reflexivity).
             apply is_poly_pow. exact Hp.
          -- intros t y E.
             destruct (eval fs (path t) b) as [z|] eqn:Ez; [|discriminate].
             destruct (eval fs (path t) e) as [w|] eqn:Ewv; [|discriminate].
             rewrite (Hce t w Ewv) in E. assert (Hnn : Z.to_nat n <> O) by lia. pose proof (pw_int fs Hfs z (Z.to_nat n) (or_introl Hnn)) as Hpw.
             rewrite Z2Nat.id in Hpw by lia. rewrite Hpw in E. inversion E. rewrite (Hf t z Ez). reflexivity.
      + pose proof (IHb (all_nonneg_zero b Hb)) as Pb. rewrite (sumdeg_zero b Hb) in Pb.
        destruct (pwd_const _ Pb) as [cb Hcb].
        destruct (pw fs cb ce) as [w|] eqn:Ew.
        * apply pwd_of_const with (c := w). intros t y E.
          destruct (eval fs (path t) b) as [z|] eqn:Ez; [|discriminate].
          destruct (eval fs (path t) e) as [u|] eqn:Eu; [|discriminate].
          rewrite (Hce t u Eu), (Hcb t z Ez) in E. congruence.
        * apply pwd_of_const with (c := 0). intros t y E.
          destruct (eval fs (path t) b) as [z|] eqn:Ez; [|discriminate].
          destruct (eval fs (path t) e) as [u|] eqn:Eu; [|discriminate].
          rewrite (Hce t u Eu), (Hcb t z Ez) in E. congruence.
    - (* function *)
      assert (He : forall v, In v vs -> degree fs rho v e = 0%Z).
      { intros v Hv. specialize (H v Hv). cbn [degree] in H. destruct (Z.eqb_spec (degree fs rho v e) 0); [assumption|lia]. }
      pose proof (IH (all_nonneg_zero e He)) as Pe. rewrite (sumdeg_zero e He) in Pe.
      destruct (pwd_const _ Pe) as [ce Hce].
      destruct (fn fs k ce) as [w|] eqn:Ew.
      + apply pwd_of_const with (c := w). intros t y E. destruct (eval fs (path t) e) as [z|] eqn:Ez; [|discriminate].
        rewrite (Hce t z Ez) in E. congruence.
      + apply pwd_of_const with (c := 0). intros t y E. destruct (eval fs (path t) e) as [z|] eqn:Ez; [|discriminate].
        rewrite (Hce t z Ez) in E. congruence.
    - apply IH. exact H.
  Qed.

  (** the group degree never exceeds the sum of the degrees *)
  Lemma gdegree_le_sumdeg : forall e, all_nonneg e -> (0 <= gdegree fs rho vs e <= sumdeg e)%Z.
  Proof.
    intro e. induction e as [k c|x|ops IH|ops IH|e IH|e n IH|b e IHb IHe|k e IH|e IH] using expr_rect'; intro H; cbn [gdegree].
    - unfold sumdeg. cbn [degree]. rewrite fold_zero by reflexivity. lia.
    - destruct (existsb (Nat.eqb x) vs) eqn:E.
      + split; [lia|]. apply existsb_exists in E. destruct E as [w [Hin Hw]]. apply Nat.eqb_eq in Hw. subst w.
        unfold sumdeg. cbn [degree]. apply fold_var. assumption.
      + split; [lia|]. apply sumdeg_nonneg. exact H.
    - rewrite Forall_forall in IH. split.
      + apply sum_degree_all; [lia|]. rewrite Forall_map. apply Forall_forall. intros [s e] Hin. cbn.
        apply (IH _ Hin). apply (sum_children ops H s e Hin).
      + apply sum_degree_le; [apply sumdeg_nonneg; exact H|]. rewrite Forall_map. apply Forall_forall. intros [s e] Hin. cbn.
        destruct (sum_children ops H s e Hin) as [Hn Hle]. pose proof (IH _ Hin Hn). cbn in *. lia.
    - destruct (mul_children ops H) as [Hc [Hd Hs]]. rewrite Forall_forall in IH.
      rewrite mul_degree_all.
      + unfold sum2. rewrite Hs. clear - IH Hc. induction ops as [|[s e] ops IHo]; cbn [map fold_right snd fst]; [lia|].
        pose proof (IH (s, e) (or_introl eq_refl) (Hc s e (or_introl eq_refl))). cbn [snd] in *.
        assert (A : forall x, In x ops -> all_nonneg (snd x) -> (0 <= gdegree fs rho vs (snd x) <= sumdeg (snd x))%Z) by (intros; apply IH; [right|]; assumption).
        assert (B : forall s e, In (s, e) ops -> all_nonneg e) by (intros; eapply Hc; right; eassumption).
        specialize (IHo A B). lia.
      + rewrite Forall_map. apply Forall_forall. intros [s e] Hin. cbn [fst snd].
        pose proof (IH _ Hin (Hc s e Hin)) as G. cbn [snd] in G. split; [lia|].
        intros ->. rewrite (sumdeg_zero e (Hd e Hin)) in G. lia.
    - rewrite unary_group_degree_nonneg; [|rewrite Forall_map; apply Forall_forall; exact H].
      pose proof (sumdeg_nonneg _ H). unfold sumdeg in *. lia.
    - rewrite unary_group_degree_nonneg; [|rewrite Forall_map; apply Forall_forall; exact H].
      pose proof (sumdeg_nonneg _ H). unfold sumdeg in *. lia.
    - rewrite power_group_degree_nonneg; [|rewrite Forall_map; apply Forall_forall; exact H].
      pose proof (sumdeg_nonneg _ H). unfold sumdeg in *. lia.
    - rewrite unary_group_degree_nonneg; [|rewrite Forall_map; apply Forall_forall; exact H].
      pose proof (sumdeg_nonneg _ H). unfold sumdeg in *. lia.
    - apply IH. exact H.
  Qed.

  (** along the path the value is a polynomial of degree at most the group degree *)
  Lemma path_poly_group : vs <> [] -> forall e, all_nonneg e ->
    poly_where_defined (Z.to_nat (gdegree fs rho vs e)) (fun t => eval fs (path t) e).
  Proof.
    intros Hne e. induction e as [k c|x|ops IH|ops IH|e IH|e n IH|b e IHb IHe|k e IH|e IH] using expr_rect'; intro H.
    - apply pwd_of_const with (c := c). cbn; intros; congruence.
    - cbn [eval gdegree]. destruct (in_dec Nat.eq_dec x vs) as [Hin|Hout].
      + replace (existsb (Nat.eqb x) vs) with true.
        * exists (fun t => path t x). split; [apply path_in; assumption|]. intros; congruence.
        * symmetry. apply existsb_exists. exists x. split; [assumption|apply Nat.eqb_refl].
      + apply pwd_of_const with (c := rho x). intros t y E. rewrite path_out in E by assumption. congruence.
    - cbn [eval]. rewrite Forall_forall in IH.
      apply (pwd_sum _ ops (fun e t => eval fs (path t) e)). intros s e Hin.
      destruct (sum_children ops H s e Hin) as [Hn _]. eapply pwd_le; [|apply (IH _ Hin); exact Hn].
      apply Z2Nat.inj_le; [apply gdegree_le_sumdeg; assumption|apply gdegree_le_sumdeg; exact H|].
      cbn [gdegree snd].
      assert (G : (0 <= gdegree fs rho vs (Sum ops))%Z) by (apply gdegree_le_sumdeg; exact H).
      cbn [gdegree] in G. apply sum_degree_nonneg in G; [|lia]. destruct G as [G _]. rewrite Forall_forall in G.
      apply G. apply in_map_iff. exists (s, e). split; [reflexivity|assumption].
    - destruct (mul_children ops H) as [Hc [Hd Hs]]. rewrite Forall_forall in IH.
      assert (E : gdegree fs rho vs (Mul ops) = fold_right (fun p n => (gdegree fs rho vs (snd p) + n)%Z) 0%Z ops).
      { cbn [gdegree]. rewrite mul_degree_all.
        - unfold sum2. clear. induction ops as [|[s e] ops IHo]; cbn [map fold_right fst snd]; [reflexivity|]. lia.
        - rewrite Forall_map. apply Forall_forall. intros [s e] Hin. cbn [fst snd].
          pose proof (gdegree_le_sumdeg e (Hc s e Hin)). split; [lia|].
          intros ->. rewrite (sumdeg_zero e (Hd e Hin)) in *. lia. }
      rewrite E. apply pwd_le with (d := fold_right (fun p n => (Z.to_nat (gdegree fs rho vs (snd p)) + n)%nat) O ops).
      + clear - Hc.
        assert (G : forall l : list (bool * expr F), (forall s e, In (s, e) l -> all_nonneg e) ->
           (fold_right (fun p n => (Z.to_nat (gdegree fs rho vs (snd p)) + n)%nat) O l <= Z.to_nat (fold_right (fun p n => (gdegree fs rho vs (snd p) + n)%Z) 0%Z l))%nat
           /\ (0 <= fold_right (fun p n => (gdegree fs rho vs (snd p) + n)%Z) 0%Z l)%Z).
        { induction l as [|[s e] l IHl]; intro Hc0; cbn [fold_right snd]; [split; lia|].
          destruct IHl as [I1 I2]; [intros; eapply Hc0; right; eassumption|].
          pose proof (gdegree_le_sumdeg e (Hc0 s e (or_introl eq_refl))). split; lia. }
        apply G. exact Hc.
      + cbn [eval]. apply (pwd_mul _ ops (fun e t => eval fs (path t) e) (fun e => Z.to_nat (gdegree fs rho vs e))).
        * intros s e Hin. apply (IH _ Hin). eapply Hc; eassumption.
        * intros e Hin. pose proof (gdegree_le_sumdeg e (Hc _ e Hin)). rewrite (sumdeg_zero e (Hd e Hin)) in *.
          replace (gdegree fs rho vs e) with 0%Z by lia. reflexivity.
    - assert (E : gdegree fs rho vs (Neg e) = sumdeg (Neg e)).
      { cbn [gdegree]. rewrite unary_group_degree_nonneg; [reflexivity|rewrite Forall_map; apply Forall_forall; exact H]. }
      rewrite E. apply path_poly; assumption.
    - assert (E : gdegree fs rho vs (IPow e n) = sumdeg (IPow e n)).
      { cbn [gdegree]. rewrite unary_group_degree_nonneg; [reflexivity|rewrite Forall_map; apply Forall_forall; exact H]. }
      rewrite E. apply path_poly; assumption.
    - assert (E : gdegree fs rho vs (Pow b e) = sumdeg (Pow b e)).
      { cbn [gdegree]. rewrite power_group_degree_nonneg; [reflexivity|rewrite Forall_map; apply Forall_forall; exact H]. }
      rewrite E. apply path_poly; assumption.
    - assert (E : gdegree fs rho vs (Fun k e) = sumdeg (Fun k e)).
      { cbn [gdegree]. rewrite unary_group_degree_nonneg; [reflexivity|rewrite Forall_map; apply Forall_forall; exact H]. }
      rewrite E. apply path_poly; assumption.
    - cbn [eval gdegree]. apply IH. exact H.
  Qed.
End Proofs.

(** ** The properties *)
Section Final.
  Context {F : fld}.
  Local Open Scope fld_scope.
  Add Field degree_final : (f_th F).

  Lemma degree_bounds : forall (fs : funs F), funs_ok fs -> forall rho v e, (0 <= degree fs rho v e)%Z ->
    poly_where_defined (Z.to_nat (degree fs rho v e)) (fun t => eval fs (upd rho v t) e).
  Proof.
    intros fs Hfs rho v e H.
    assert (G : poly_where_defined (Z.to_nat (sumdeg fs rho [v] e)) (fun t => eval fs (upd rho v t) e)).
    { apply (path_poly fs Hfs rho [v] (fun t => upd rho v t) (rho v)).
      - intros x t Hx. apply upd_other. intro E. apply Hx. left. symmetry. exact E.
      - intros x [E|[]]. subst x. apply is_poly_ext with (f := fun t => t); [intro t; symmetry; apply upd_same|apply is_poly_id].
      - intro x. apply upd_id.
      - discriminate.
      - intros w [E|[]]. subst w. exact H. }
    unfold sumdeg in G. cbn in G. rewrite Z.add_0_r in G. exact G.
  Qed.

  (** a line through the current values, moving the variables of the group only *)
  Definition line (rho : env F) (vs : list nat) (b : nat -> F) (t : F) : env F :=
    fun x => if in_dec Nat.eq_dec x vs then rho x + t * b x else rho x.

  Lemma group_degree_bounds : forall (fs : funs F), funs_ok fs -> forall rho vs (b : nat -> F) e,
    (forall v, In v vs -> (0 <= degree fs rho v e)%Z) ->
    (0 <= gdegree fs rho vs e)%Z /\
    poly_where_defined (Z.to_nat (gdegree fs rho vs e)) (fun t => eval fs (line rho vs b t) e).
  Proof.
    intros fs Hfs rho vs b e H. split; [apply (gdegree_le_sumdeg fs rho vs e H)|].
    destruct vs as [|v vs].
    - destruct (eval fs rho e) as [w|] eqn:E.
      + apply pwd_of_const with (c := w). intros t y Ey. change (line rho [] b t) with rho in Ey. congruence.
      + apply pwd_of_const with (c := 0). intros t y Ey. change (line rho [] b t) with rho in Ey. congruence.
    - apply (path_poly_group fs Hfs rho (v :: vs) (fun t => line rho (v :: vs) b t) 0).
      + intros x t Hx. unfold line. destruct (in_dec Nat.eq_dec x (v :: vs)); [contradiction|reflexivity].
      + intros x Hx. unfold line. destruct (in_dec Nat.eq_dec x (v :: vs)); [|contradiction].
        apply is_poly_ext with (f := fun t => rho x + b x * t); [intro t; ring|].
        apply is_poly_add; [apply is_poly_const|]. apply is_poly_scale. apply is_poly_id.
      + intro x. unfold line. destruct (in_dec Nat.eq_dec x (v :: vs)); ring.
      + discriminate.
      + exact H.
  Qed.

  (** every node other than a sum, a product, a variable or a function handle mentions at most one
      variable of the group: there the group degree is exact *)
  Inductive tame (vs : list nat) : expr F -> Prop :=
  | tame_num : forall k c, tame vs (Num k c)
  | tame_var : forall x, tame vs (Var x)
  | tame_sum : forall ops, Forall (fun p => tame vs (snd p)) ops -> tame vs (Sum ops)
  | tame_mul : forall ops, Forall (fun p => tame vs (snd p)) ops -> tame vs (Mul ops)
  | tame_neg : forall e x, (forall v, In v vs -> v <> x -> ~ occurs v e) -> tame vs e -> tame vs (Neg e)
  | tame_ipow : forall e n x, (forall v, In v vs -> v <> x -> ~ occurs v e) -> tame vs e -> tame vs (IPow e n)
  | tame_pow : forall b e x, (forall v, In v vs -> v <> x -> ~ occurs v b) -> (forall v, In v vs -> ~ occurs v e) ->
      tame vs b -> tame vs (Pow b e)
  | tame_fun : forall k e, (forall v, In v vs -> ~ occurs v e) -> tame vs (Fun k e)
  | tame_handle : forall e, tame vs e -> tame vs (Handle e).
  (** (x+y)^2 has degree 2 along every line *)
  Lemma square_of_sum_degree : forall (fs : funs F) rho (b : nat -> F),
    poly_where_defined 2 (fun t => eval fs (line rho [0; 1]%nat b t) (IPow (Sum [(true, Var 0); (true, Var 1)]) 2)).
  Proof.
    intros fs rho b. exists (fun t => fpow ((rho 0%nat + b 0%nat * t) + (rho 1%nat + b 1%nat * t)) 2). split.
    - change 2%nat with (2 * 1)%nat at 1.
      apply (is_poly_pow 1 (fun t => (rho 0%nat + b 0%nat * t) + (rho 1%nat + b 1%nat * t)) 2).
      apply is_poly_add; (apply is_poly_add; [apply is_poly_const|apply is_poly_scale; apply is_poly_id]).
    - intros t y E. cbn [eval map sum_val fst snd fpowZ] in E. injection E as <-.
      change (Pos.to_nat 2) with 2%nat. apply (f_equal (fun z => fpow z 2)). change (line rho [0; 1]%nat b t 0%nat) with (rho 0%nat + t * b 0%nat).
      change (line rho [0; 1]%nat b t 1%nat) with (rho 1%nat + t * b 1%nat). ring.
  Qed.
End Final.

(** ** Counterexamples over the rational numbers *)
Definition q_env : env QcF := fun _ => qc 1 1.
Definition q_x : expr QcF := Var 0.
Definition q_y : expr QcF := Var 1.

(** (x+y)^2 *)
Definition square_of_sum : expr QcF := IPow (Sum [(true, q_x); (true, q_y)]) 2.
(** -(1/x + y) *)
Definition negated_reciprocal : expr QcF := Neg (Sum [(true, Mul [(true, Num KInteger (qc 1 1)); (false, q_x)]); (true, q_y)]).

Lemma group_degree_too_large : exists (e : expr QcF) vs d,
  (forall rho v, In v vs -> (0 <= degree qc_funs rho v e)%Z) /\
  (forall rho b, poly_where_defined d (fun t => eval qc_funs (line rho vs b t) e)) /\
  forall rho, (Z.of_nat d < gdegree qc_funs rho vs e)%Z.
Proof.
  exists square_of_sum, [0; 1]%nat, 2%nat. split; [|split].
  - intros rho v [<-|[<-|[]]]; vm_compute; discriminate.
  - intros rho b. apply square_of_sum_degree.
  - intro rho. vm_compute. reflexivity.
Qed.

Lemma group_degree_accepts_nonpolynomial : exists (e : expr QcF) rho vs b,
  (0 <= gdegree qc_funs rho vs e)%Z /\
  ~ poly_where_defined (Z.to_nat (gdegree qc_funs rho vs e)) (fun t => eval qc_funs (line rho vs b t) e).
Proof.
  exists negated_reciprocal, q_env, [0; 1]%nat, (fun x => if Nat.eqb x 0 then qc 1 1 else qc 0 1).
  split; [vm_compute; discriminate|]. intro H.
  change (Z.to_nat (gdegree qc_funs q_env [0; 1]%nat negated_reciprocal)) with 0%nat in H.
  apply pwd_const in H. destruct H as [c Hc].
  assert (E0 : qc (-2) 1 = c) by (apply (Hc (qc 0 1)); vm_compute; reflexivity).
  assert (E1 : qc (-3) 2 = c) by (apply (Hc (qc 1 1)); vm_compute; reflexivity).
  rewrite <- E1 in E0. apply (f_equal rq) in E0. vm_compute in E0. discriminate.
Qed.
