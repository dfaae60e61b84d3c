(** Differentiate, and the derivative of an arithmetic tree by dual numbers. *)
From Coq Require Import List Arith Lia ZArith Bool Ring Field.
From Verif Require Import Base Expr.
Import ListNotations.

Section Diff.
  Context {F : fld}.
  Local Open Scope fld_scope.
  Add Field diff_field : (f_th F).

  (** symbols/special_number.cpp:107-115 One, Zero *)
  Definition zero_node : expr F := Num KInteger 0.
  Definition one_node : expr F := Num KInteger 1.
  (** Integer::Make, number.hpp:172-245 *)
  Definition int_node (n : Z) : expr F := Num KInteger (fZ n).
  (** Rational::Make(mpq_rational(n,d),0), number.hpp:322-400 *)
  Definition half_node : expr F := Num KRational (1 / (1 + 1)).
  Definition minus_half_node : expr F := Num KRational (- (1 / (1 + 1))).

  Definition is_number (e : expr F) : bool := match e with Num _ _ => true | _ => false end.

  (** a Number node whose value is zero (arithmetic.cpp:201-204) *)
  Definition number_eq0 (e : expr F) : bool := match e with Num _ c => feqb c 0 | _ => false end.

  (** a Float node with a given value (arithmetic.cpp:727-731, 742-744); other numbers are not Floats *)
  Definition float_eq (c : F) (e : expr F) : bool := match e with Num KFloat x => feqb x c | _ => false end.

  (** arithmetic.cpp:190-215: the operands of the sum built by SumOperator::Differentiate; each triple
      is (sign, operand, derivative of the operand) *)
  Definition sum_terms (l : list (bool * expr F * expr F)) : list (bool * expr F) :=
    flat_map (fun q => match q with (s, e, d) =>
      if is_number e then [] else if number_eq0 d then [] else [(s, d)] end) l.

  (** arithmetic.cpp:716-760: the terms of the product rule; [pre] holds the operands before position ii *)
  Fixpoint mul_terms (pre : list (bool * expr F)) (l : list (bool * expr F * expr F)) : list (bool * expr F) :=
    match l with
    | [] => []
    | (m, e, d) :: r =>
        let rest := map fst r in
        (if float_eq 0 d then [] else if float_eq 1 d then [] else
         [(m, Mul ((true, d) :: pre ++ rest ++ (if m then [] else [(false, IPow e 2)])))])
        ++ mul_terms (pre ++ [(m, e)]) r
    end.

  (** both functions start from Zero() and replace it by a sum when the first term arrives *)
  Definition sum_or_zero (l : list (bool * expr F)) : expr F :=
    match l with [] => zero_node | _ => Sum l end.

  (** operator* of two nodes of which the first is not an integer power, arithmetic.hpp:1302-1333 *)
  Definition times (a b : expr F) : expr F := Mul [(true, a); (true, b)].
  (** operator/, arithmetic.hpp:1343-1385 *)
  Definition over (a b : expr F) : expr F := Mul [(true, a); (false, b)].

  (** Node::Differentiate(v): number.cpp:50-53, variable.cpp:94-100, arithmetic.cpp:190-215 (sum),
      474-477 (negation), 716-760 (product), 954-962 (power), 1146-1164 (integer power), 1211-1217
      (sqrt), 1294-1297 (exp), 1369-1372 (log), trig.cpp:63,108,154,200,246,292, function.cpp:132-135
      (Handle).  The variant with no variable (Differential nodes) is not modelled. *)
  Fixpoint differentiate (v : nat) (e : expr F) : expr F :=
    match e with
    | Num _ _ => zero_node
    | Var x => if Nat.eqb x v then one_node else zero_node
    | Sum ops => sum_or_zero (sum_terms (map (fun p => (p, differentiate v (snd p))) ops))
    | Mul ops => sum_or_zero (mul_terms [] (map (fun p => (p, differentiate v (snd p))) ops))
    | Neg e => Neg (differentiate v e)
    | IPow e n =>
        if (n =? 0)%Z then int_node 0
        else if (n =? 1)%Z then differentiate v e
        else if (n =? 2)%Z then Mul [(true, int_node 2); (true, e); (true, differentiate v e)]
        else Mul [(true, int_node n); (true, IPow e (n - 1)); (true, differentiate v e)]
    | Pow b e => Mul [(true, differentiate v b); (true, e);
                      (true, Pow b (Sum [(true, e); (false, int_node 1)]))]
    | Fun k e =>
        let d := differentiate v e in
        match k with
        | KSqrt => Mul [(true, Pow e minus_half_node); (true, d); (true, half_node)]
        | KExp => times (Fun KExp e) d
        | KLog => Mul [(false, e); (true, d)]
        | KSin => times (Fun KCos e) d
        | KAsin => over d (Fun KSqrt (Sum [(true, int_node 1); (false, IPow e 2)]))
        | KCos => times (Neg (Fun KSin e)) d
        | KAcos => over (Neg d) (Fun KSqrt (Sum [(true, int_node 1); (false, IPow e 2)]))
        | KTan => over d (IPow (Fun KCos e) 2)
        | KAtan => over d (Sum [(true, int_node 1); (true, IPow e 2)])
        end
    | Handle e => differentiate v e
    end.

  (** *** Derivatives are never Float nodes, so the two Float tests of the product rule never fire *)
  Definition not_float (e : expr F) : Prop := forall c, e <> Num KFloat c.

  Lemma differentiate_not_float : forall v e, not_float (differentiate v e).
  Proof.
    intros v e. induction e as [k c|x|ops IH|ops IH|e IH|e n IH|b e IHb IHe|k e IH|e IH] using expr_rect';
      cbn [differentiate]; intro c0.
    - discriminate.
    - destruct (Nat.eqb x v); discriminate.
    - destruct (sum_terms _); discriminate.
    - destruct (mul_terms _ _); discriminate.
    - discriminate.
    - destruct (n =? 0)%Z; [discriminate|]. destruct (n =? 1)%Z; [apply IH|]. destruct (n =? 2)%Z; discriminate.
    - discriminate.
    - destruct k; discriminate.
    - apply IH.
  Qed.

  Lemma float_eq_not : forall c e, not_float e -> float_eq c e = false.
  Proof. intros c [k x| | | | | | | |] H; try reflexivity. destruct k; try reflexivity. destruct (H x eq_refl). Qed.

  (** *** The specification: dual numbers.  [(a, a')] stands for [a + a' eps] with [eps * eps = 0]; the
      value of a function at [x + eps] is its value and its derivative at [x]. *)
  Definition dual : Type := (F * F)%type.
  Definition dadd (x y : dual) : dual := (fst x + fst y, snd x + snd y).
  Definition dneg (x : dual) : dual := (- fst x, - snd x).
  Definition dmul (x y : dual) : dual := (fst x * fst y, fst x * snd y + snd x * fst y).
  Definition dconst (c : F) : dual := (c, 0).
  (** the unique dual number [z] with [z * y = x], if [y] is invertible *)
  Definition ddiv (x y : dual) : option dual :=
    if feq_dec (fst y) 0 then None
    else Some (fst x / fst y, (snd x * fst y - fst x * snd y) / (fst y * fst y)).
  Fixpoint dpow (x : dual) (n : nat) : dual :=
    match n with O => dconst 1 | S n => dmul x (dpow x n) end.
  Definition dpowZ (x : dual) (n : Z) : option dual :=
    match n with
    | Z0 => Some (dconst 1)
    | Zpos p => Some (dpow x (Pos.to_nat p))
    | Zneg p => ddiv (dconst 1) (dpow x (Pos.to_nat p))
    end.

  Fixpoint dsum (l : list (bool * option dual)) : option dual :=
    match l with
    | [] => Some (dconst 0)
    | (s, Some x) :: r => match dsum r with Some y => Some (dadd (if s then x else dneg x) y) | None => None end
    | (_, None) :: _ => None
    end.
  Fixpoint dprod (l : list (bool * option dual)) : option dual :=
    match l with
    | [] => Some (dconst 1)
    | (m, Some x) :: r => match dprod r with Some y => if m then Some (dmul x y) else ddiv y x | None => None end
    | (_, None) :: _ => None
    end.

  (** the value of an arithmetic tree at the point [rho] with the coordinate [v] moved by [eps] *)
  Fixpoint deval (rho : env F) (v : nat) (e : expr F) : option dual :=
    match e with
    | Num _ c => Some (dconst c)
    | Var x => Some (rho x, if Nat.eqb x v then 1 else 0)
    | Sum ops => dsum (map (fun p => (fst p, deval rho v (snd p))) ops)
    | Mul ops => dprod (map (fun p => (fst p, deval rho v (snd p))) ops)
    | Neg e => option_map dneg (deval rho v e)
    | IPow e n => match deval rho v e with Some x => dpowZ x n | None => None end
    | Handle e => deval rho v e
    | Pow _ _ | Fun _ _ => None
    end.

  (** division of dual numbers is the inverse of multiplication *)
  Lemma ddiv_spec : forall x y z, ddiv x y = Some z <-> (fst y <> 0 /\ dmul z y = x).
  Proof.
    intros [x x'] [y y'] [z z']. unfold ddiv, dmul. cbn [fst snd]. destruct (feq_dec y 0) as [E|E].
    - split; [discriminate|]. intros [H _]. contradiction.
    - split.
      + intro H. injection H as <- <-. split; [assumption|]. f_equal; field; assumption.
      + intros [_ H]. injection H as <- <-. do 2 f_equal; field; assumption.
  Qed.

  (** the trees of the claim: numbers, variables, sums, products, quotients, negation, integer powers *)
  Inductive arith : expr F -> Prop :=
  | ar_num : forall k c, arith (Num k c)
  | ar_var : forall x, arith (Var x)
  | ar_sum : forall ops, (forall s e, In (s, e) ops -> arith e) -> arith (Sum ops)
  | ar_mul : forall ops, (forall s e, In (s, e) ops -> arith e) -> arith (Mul ops)
  | ar_neg : forall e, arith e -> arith (Neg e)
  | ar_ipow : forall e n, arith e -> arith (IPow e n)
  | ar_handle : forall e, arith e -> arith (Handle e).

  (** what is to be shown of a tree [e] with value [y] *)
  Definition diff_ok (fs : funs F) (rho : env F) (v : nat) (e : expr F) : Prop :=
    forall y, eval fs rho e = Some y ->
      exists y', deval rho v e = Some (y, y') /\ eval fs rho (differentiate v e) = Some y'.

  Lemma sum_val_app : forall l1 l2 x y, sum_val l1 = Some x -> sum_val l2 = Some y ->
    sum_val (l1 ++ l2) = Some (x + y : F).
  Proof.
    induction l1 as [|[s [a|]] l1 IH]; intros l2 x y H1 H2; cbn in *; try discriminate.
    - injection H1 as <-. rewrite H2. f_equal. ring.
    - destruct (sum_val l1) as [b|] eqn:E; [|discriminate]. injection H1 as <-.
      rewrite (IH _ _ _ eq_refl H2). f_equal. ring.
  Qed.

  Lemma mul_val_app : forall l1 l2 x y, mul_val l1 = Some x -> mul_val l2 = Some y ->
    mul_val (l1 ++ l2) = Some (x * y : F).
  Proof.
    induction l1 as [|[s [a|]] l1 IH]; intros l2 x y H1 H2; cbn in *; try discriminate.
    - injection H1 as <-. rewrite H2. f_equal. ring.
    - destruct (mul_val l1) as [b|] eqn:E; [|discriminate].
      rewrite (IH _ _ _ eq_refl H2). destruct s.
      + injection H1 as <-. f_equal. ring.
      + destruct (feq_dec a 0); [discriminate|]. injection H1 as <-. f_equal. field. assumption.
  Qed.

  Lemma eval_sum_or_zero : forall fs rho l y,
    sum_val (map (fun p => (fst p, eval fs rho (snd p))) l) = Some y ->
    eval fs rho (sum_or_zero l) = Some y.
  Proof. intros fs rho [|p l] y H; cbn in *; exact H. Qed.

  Lemma fst_dpow : forall x n, fst (dpow x n) = fpow (fst x) n.
  Proof. induction n; cbn; [reflexivity|]. rewrite IHn. reflexivity. Qed.

  (** the derivative of a natural power *)
  Lemma snd_dpow : forall x n, snd (dpow x (S n)) = fnat (S n) * fpow (fst x) n * snd x.
  Proof.
    intros x. induction n as [|n IH].
    - cbn. ring.
    - change (dpow x (S (S n))) with (dmul x (dpow x (S n))). unfold dmul. cbn [snd].
      rewrite IH, fst_dpow. cbn [fnat fpow]. ring.
  Qed.

  Lemma sum_rule : forall fs rho v ops, Forall (fun p => diff_ok fs rho v (snd p)) ops ->
    forall y, sum_val (map (fun p => (fst p, eval fs rho (snd p))) ops) = Some y ->
    exists y', dsum (map (fun p => (fst p, deval rho v (snd p))) ops) = Some (y, y') /\
      sum_val (map (fun p => (fst p, eval fs rho (snd p)))
        (sum_terms (map (fun p => (p, differentiate v (snd p))) ops))) = Some y'.
  Proof.
    intros fs rho v ops H. induction H as [|[s e] ops He H IH]; intros y Hy.
    - cbn in *. injection Hy as <-. exists 0. split; reflexivity.
    - cbn [map fst snd] in *. cbn [sum_val] in Hy. destruct (eval fs rho e) as [x|] eqn:Ex; [|discriminate].
      destruct (sum_val (map (fun p => (fst p, eval fs rho (snd p))) ops)) as [z|] eqn:Ez; [|discriminate].
      injection Hy as <-. destruct (He x Ex) as [x' [Hd He']]. destruct (IH z eq_refl) as [z' [Hz Hz']].
      exists ((if s then x' else - x') + z'). split.
      + cbn [dsum]. rewrite Hd, Hz. unfold dadd, dneg. destruct s; reflexivity.
      + unfold sum_terms. cbn [flat_map]. fold (sum_terms (map (fun p => (p, differentiate v (snd p))) ops)).
        destruct (is_number e) eqn:En.
        * destruct e; try discriminate. cbn [deval] in Hd. injection Hd as <- <-. cbn [app]. rewrite Hz'.
          f_equal. destruct s; ring.
        * destruct (number_eq0 (differentiate v e)) eqn:E0.
          -- destruct (differentiate v e); try discriminate. cbn in E0. apply feqb_eq in E0. subst.
             cbn in He'. injection He' as <-. cbn [app]. rewrite Hz'. f_equal. destruct s; ring.
          -- cbn [app map fst snd sum_val]. rewrite He', Hz'. reflexivity.
  Qed.

  Lemma map_fst_pair : forall (A B : Type) (f : A -> B) l, map fst (map (fun p => (p, f p)) l) = l.
  Proof. induction l as [|a l IH]; [reflexivity|]. cbn. f_equal. assumption. Qed.

  Lemma prod_rule : forall fs rho v ops, Forall (fun p => diff_ok fs rho v (snd p)) ops ->
    forall pre P y, mul_val (map (fun p => (fst p, eval fs rho (snd p))) pre) = Some P ->
    mul_val (map (fun p => (fst p, eval fs rho (snd p))) ops) = Some y ->
    exists y', dprod (map (fun p => (fst p, deval rho v (snd p))) ops) = Some (y, y') /\
      sum_val (map (fun p => (fst p, eval fs rho (snd p)))
        (mul_terms pre (map (fun p => (p, differentiate v (snd p))) ops))) = Some (P * y').
  Proof.
    intros fs rho v ops H. induction H as [|[m e] ops He H IH]; intros pre P y HP Hy.
    - cbn in *. injection Hy as <-. exists 0. split; [reflexivity|]. f_equal. ring.
    - cbn [map fst snd] in *. cbn [mul_val] in Hy. destruct (eval fs rho e) as [x|] eqn:Ex; [|discriminate].
      destruct (mul_val (map (fun p => (fst p, eval fs rho (snd p))) ops)) as [z|] eqn:Ez; [|discriminate].
      destruct (He x Ex) as [x' [Hd He']].
      cbn [mul_terms]. rewrite !float_eq_not by apply differentiate_not_float. rewrite map_fst_pair.
      cbn [dprod]. rewrite Hd. cbn [app map fst snd].
      destruct m.
      + injection Hy as <-.
        destruct (IH (pre ++ [(true, e)]) (P * x) z) as [z' [Hz Hz']]; [|reflexivity|].
        { rewrite map_app. rewrite (mul_val_app _ _ P (x * 1)); [f_equal; ring|assumption|].
          cbn. rewrite Ex. reflexivity. }
        exists (x * z' + x' * z). rewrite Hz. split; [reflexivity|].
        cbn [sum_val]. rewrite Hz'. rewrite app_nil_r. cbn [eval map fst snd mul_val].
        rewrite He', map_app, (mul_val_app _ _ _ _ HP Ez). f_equal. ring.
      + destruct (feq_dec x 0) as [E0|E0]; [discriminate|]. injection Hy as <-.
        destruct (IH (pre ++ [(false, e)]) (P / x) z) as [z' [Hz Hz']]; [|reflexivity|].
        { rewrite map_app. rewrite (mul_val_app _ _ P (1 / x)); [f_equal; field; assumption|assumption|].
          cbn. rewrite Ex. destruct (feq_dec x 0); [contradiction|]. reflexivity. }
        exists ((z' * x - z * x') / (x * x)). rewrite Hz. unfold ddiv. cbn [fst snd].
        destruct (feq_dec x 0); [contradiction|]. split; [reflexivity|].
        cbn [sum_val]. rewrite Hz'. cbn [eval map fst snd mul_val].
        rewrite He', !map_app.
        rewrite (mul_val_app _ _ P (z * (1 / (x * x)))); [f_equal; field; assumption|assumption|].
        apply mul_val_app; [assumption|]. cbn [map fst snd mul_val eval]. rewrite Ex.
        change (fpowZ x 2) with (Some (x * (x * 1))). cbv iota beta.
        match goal with |- context [feq_dec ?a ?b] => destruct (feq_dec a b) as [E1|E1] end.
        * exfalso. apply fmul_integral in E1. destruct E1 as [E1|E1]; [contradiction|].
          apply fmul_integral in E1. destruct E1 as [E1|E1]; [contradiction|]. exact (f1_neq_f0 E1).
        * apply f_equal. field. assumption.
  Qed.

  Lemma fZ_pos : forall p, fZ (Zpos p) = fnat (Pos.to_nat p) :> F.
  Proof. reflexivity. Qed.
  Lemma fZ_neg : forall p, fZ (Zneg p) = - fnat (Pos.to_nat p) :> F.
  Proof. reflexivity. Qed.

  (** the power rule for every integer exponent, negative ones included *)
  Lemma power_rule : forall x n y, fpowZ (fst x) n = Some y ->
    exists y', dpowZ x n = Some (y, y') /\
      (n <> 0%Z -> exists q, fpowZ (fst x) (n - 1) = Some q /\ y' = fZ n * (q * snd x)) /\
      (n = 0%Z -> y' = 0).
  Proof.
    intros [x x'] [|p|p] y H; cbn [fst snd] in *.
    - injection H as <-. exists 0. split; [reflexivity|]. split; [congruence|reflexivity].
    - injection H as <-. destruct (Pos2Nat.is_succ p) as [k Hk].
      exists (snd (dpow (x, x') (Pos.to_nat p))). split.
      { cbn [dpowZ]. rewrite (surjective_pairing (dpow (x, x') (Pos.to_nat p))) at 1.
        rewrite fst_dpow. reflexivity. }
      split; [intros _|discriminate]. exists (fpow x k).
      assert (Ep : (Z.pos p - 1)%Z = Z.of_nat k) by (rewrite <- (positive_nat_Z p); lia).
      split.
      { rewrite Ep. destruct k; [reflexivity|]. cbn [Z.of_nat fpowZ]. rewrite SuccNat2Pos.id_succ. reflexivity. }
      rewrite fZ_pos, Hk, snd_dpow. cbn [fst snd]. ring.
    - cbn [fpowZ] in H. destruct (feq_dec x 0) as [E|E]; [discriminate|]. injection H as <-.
      destruct (Pos2Nat.is_succ p) as [k Hk].
      exists (- fnat (S k) * (1 / (fpow x (S (S k))) * x')).
      cbn [dpowZ]. unfold ddiv. rewrite fst_dpow. cbn [fst snd].
      assert (Hx : fpow x k <> 0) by (apply fpow_neq0; assumption).
      destruct (feq_dec (fpow x (Pos.to_nat p)) 0) as [E0|E0].
      { exfalso. apply E. exact (fpow_eq0 _ _ E0). }
      split.
      { f_equal. f_equal. unfold dconst. cbn [fst snd]. rewrite Hk, snd_dpow. cbn [fst snd fpow]. field. auto. }
      split; [intros _|discriminate]. exists (1 / fpow x (S (S k))). split.
      { change (Z.neg p - 1)%Z with (Z.neg (p + 1)). cbn [fpowZ]. destruct (feq_dec x 0); [contradiction|].
        rewrite Pos2Nat.inj_add, Hk. change (Pos.to_nat 1) with 1%nat. rewrite Nat.add_1_r. reflexivity. }
      rewrite fZ_neg, Hk. reflexivity.
  Qed.

  Lemma fZ_2 : fZ 2 = 1 + 1 :> F.
  Proof. unfold fZ. change (Pos.to_nat 2) with 2%nat. cbn [fnat]. ring. Qed.

  Theorem differentiate_arith : forall fs rho v e, arith e -> diff_ok fs rho v e.
  Proof.
    intros fs rho v e. induction e as [k c|x|ops IH|ops IH|e IH|e n IH|b e IHb IHe|k e IH|e IH] using expr_rect';
      intros Ha y Hy.
    - cbn in *. injection Hy as <-. exists 0. split; reflexivity.
    - cbn in *. injection Hy as <-. destruct (Nat.eqb x v); eexists; split; reflexivity.
    - cbn [eval deval differentiate] in *.
      destruct (sum_rule fs rho v ops) with (y := y) as [y' [H1 H2]]; [|assumption|].
      + rewrite Forall_forall in *. intros [s e] Hin. apply (IH _ Hin). inversion Ha; subst. eauto.
      + exists y'. split; [assumption|]. apply eval_sum_or_zero. assumption.
    - cbn [eval deval differentiate] in *.
      destruct (prod_rule fs rho v ops) with (y := y) (pre := @nil (bool * expr F)) (P := 1 : F) as [y' [H1 H2]];
        [|reflexivity|assumption|].
      + rewrite Forall_forall in *. intros [s e] Hin. apply (IH _ Hin). inversion Ha; subst. eauto.
      + exists y'. split; [assumption|]. apply eval_sum_or_zero. rewrite H2. f_equal. ring.
    - cbn [eval deval differentiate] in *. destruct (eval fs rho e) as [x|] eqn:Ex; [|discriminate].
      injection Hy as <-. inversion Ha; subst. destruct (IH H0 x Ex) as [x' [H1 H2]].
      exists (- x'). rewrite H1, H2. split; reflexivity.
    - cbn [eval deval differentiate] in *. destruct (eval fs rho e) as [x|] eqn:Ex; [|discriminate].
      inversion Ha; subst. destruct (IH H0 x Ex) as [x' [H1 H2]]. rewrite H1.
      destruct (power_rule (x, x') n y Hy) as [y' [Hd [Hn H0']]]. exists y'. split; [assumption|].
      cbn [fst snd] in Hn. destruct (Z.eqb_spec n 0) as [E|E].
      { rewrite (H0' E). reflexivity. }
      destruct (Hn E) as [q [Hq ->]]. destruct (Z.eqb_spec n 1) as [E1|E1].
      { subst n. cbn in Hq. injection Hq as <-. rewrite H2. f_equal. change (fZ 1 : F) with (1 + 0 : F). ring. }
      destruct (Z.eqb_spec n 2) as [E2|E2].
      { subst n. change (2 - 1)%Z with 1%Z in Hq. cbn [fpowZ] in Hq. change (Pos.to_nat 1) with 1%nat in Hq. cbn [fpow] in Hq.
        injection Hq as <-. cbn [eval map fst snd mul_val int_node]. rewrite Ex, H2.
        f_equal. ring. }
      cbn [eval map fst snd mul_val int_node]. rewrite Ex, H2, Hq. f_equal. ring.
    - inversion Ha.
    - inversion Ha.
    - inversion Ha; subst. cbn [eval deval differentiate] in *. apply IH; assumption.
  Qed.
End Diff.
Arguments dual : clear implicits.
