(** Differentiate() without a variable, and the evaluation of its result for a variable (Jacobian nodes).
    Models core/src/function_tree/symbols/differential.cpp, roots/jacobian.cpp and the Differentiate functions called
    with the default argument [nullptr].  That stored values are not used for the wrong variable is Jacobian::EvalJ's
    call of Reset; it is not modelled here. *)
From Coq Require Import List Arith Lia ZArith Bool Ring Field.
From Verif Require Import Base Expr Diff.
Import ListNotations.

Section Differential.
  Context {F : fld}.
  Local Open Scope fld_scope.
  Add Field differential_field : (f_th F).

  (** Differentiate(): as [differentiate] (Diff.v), except that a variable gives a Differential node
      (variable.cpp:94-100).  The Differential of the variable [x] is represented by the leaf [Var (d x)]. *)
  Fixpoint differentials (d : nat -> nat) (e : expr F) : expr F :=
    match e with
    | Num _ _ => zero_node
    | Var x => Var (d x)
    | Sum ops => sum_or_zero (sum_terms (map (fun p => (p, differentials d (snd p))) ops))
    | Mul ops => sum_or_zero (mul_terms [] (map (fun p => (p, differentials d (snd p))) ops))
    | Neg e => Neg (differentials d e)
    | IPow e n =>
        if (n =? 0)%Z then int_node 0
        else if (n =? 1)%Z then differentials d e
        else if (n =? 2)%Z then Mul [(true, int_node 2); (true, e); (true, differentials d e)]
        else Mul [(true, int_node n); (true, IPow e (n - 1)); (true, differentials d e)]
    | Pow b e => Mul [(true, differentials d b); (true, e);
                      (true, Pow b (Sum [(true, e); (false, int_node 1)]))]
    | Fun k e =>
        let de := differentials d e in
        match k with
        | KSqrt => Mul [(true, Pow e minus_half_node); (true, de); (true, half_node)]
        | KExp => times (Fun KExp e) de
        | KLog => Mul [(false, e); (true, de)]
        | KSin => times (Fun KCos e) de
        | KAsin => over de (Fun KSqrt (Sum [(true, int_node 1); (false, IPow e 2)]))
        | KCos => times (Neg (Fun KSin e)) de
        | KAcos => over (Neg de) (Fun KSqrt (Sum [(true, int_node 1); (false, IPow e 2)]))
        | KTan => over de (IPow (Fun KCos e) 2)
        | KAtan => over de (Sum [(true, int_node 1); (true, IPow e 2)])
        end
    | Handle e => differentials d e
    end.

  (** Eval with a differentiation variable [v]: Differential::FreshEval_d, differential.cpp:109-157.  The environment
      [rho'] has the values of the variables and those of the Differentials. *)
  Definition evaluates_for (d : nat -> nat) (v : nat) (rho rho' : env F) (x : nat) : Prop :=
    rho' x = rho x /\ rho' (d x) = if Nat.eqb x v then 1 else 0.

  Lemma differentials_not_float : forall d e, not_float (differentials d e).
  Proof.
    intros d e. induction e as [k c|x|ops IH|ops IH|e IH|e n IH|b e IHb IHe|k e IH|e IH] using expr_rect';
      cbn [differentials]; intro c0.
    - discriminate.
    - discriminate.
    - destruct (sum_terms _); discriminate.
    - destruct (mul_terms _ _); discriminate.
    - discriminate.
    - destruct (n =? 0)%Z; [discriminate|]. destruct (n =? 1)%Z; [apply IH|]. destruct (n =? 2)%Z; discriminate.
    - discriminate.
    - destruct k; discriminate.
    - apply IH.
  Qed.

  Lemma eval_sum_or_zero_val : forall fs rho (l : list (bool * expr F)), eval fs rho (sum_or_zero l)
    = sum_val (map (fun p => (fst p, eval fs rho (snd p))) l).
  Proof. intros fs rho [|p l]; reflexivity. Qed.

  (** a Number among the derivatives has the same value in both trees *)
  Lemma number_eq0_eval : forall fs rho (e : expr F), number_eq0 e = true -> eval fs rho e = Some 0.
  Proof. intros fs rho e H. destruct e; try discriminate. cbn in *. apply feqb_eq in H. now subst. Qed.

  Lemma sum_val_zero : forall (l : list (bool * option F)) s, sum_val ((s, Some 0) :: l) = sum_val l.
  Proof. intros l s. cbn. destruct (sum_val l); [|reflexivity]. f_equal. destruct s; ring. Qed.

  Lemma sum_terms_val : forall fs rho (f : bool * expr F -> expr F) ops,
    sum_val (map (fun p => (fst p, eval fs rho (snd p))) (sum_terms (map (fun p => (p, f p)) ops)))
    = sum_val (map (fun p => (fst p, if is_number (snd p) then Some 0 else eval fs rho (f p))) ops).
  Proof.
    intros fs rho f. induction ops as [|[s e] ops IH]; [reflexivity|].
    cbn [map fst snd]. unfold sum_terms. cbn [flat_map]. fold (sum_terms (map (fun p => (p, f p)) ops)).
    destruct (is_number e).
    - cbn [app]. now rewrite sum_val_zero.
    - destruct (number_eq0 (f (s, e))) eqn:E.
      + cbn [app]. rewrite (number_eq0_eval _ _ _ E). now rewrite sum_val_zero.
      + cbn [app map fst snd]. cbn [sum_val]. now rewrite IH.
  Qed.

  Lemma mul_terms_val : forall fs rho rho' (f g : bool * expr F -> expr F) ops pre,
    (forall p, In p ops -> not_float (f p)) -> (forall p, In p ops -> not_float (g p)) ->
    (forall p, In p ops -> eval fs rho' (f p) = eval fs rho (g p)) ->
    (forall p, In p (pre ++ ops) -> eval fs rho' (snd p) = eval fs rho (snd p)) ->
    map (fun p => (fst p, eval fs rho' (snd p))) (mul_terms pre (map (fun p => (p, f p)) ops))
    = map (fun p => (fst p, eval fs rho (snd p))) (mul_terms pre (map (fun p => (p, g p)) ops)).
  Proof.
    intros fs rho rho' f g. induction ops as [|[m e] ops IH]; intros pre Nf Ng Efg Epre; [reflexivity|].
    cbn [map mul_terms]. rewrite !(float_eq_not _ (f (m, e))) by (apply Nf; now left).
    rewrite !(float_eq_not _ (g (m, e))) by (apply Ng; now left). cbn [app map fst snd]. f_equal.
    - f_equal. cbn [eval]. f_equal. cbn [map fst snd]. rewrite (Efg (m, e)) by now left. f_equal.
      rewrite !map_map. cbn [fst]. rewrite !map_id, !map_app. f_equal; [|f_equal].
      + apply map_ext_in. intros p I. f_equal. apply Epre, in_or_app. now left.
      + apply map_ext_in. intros p I. f_equal. apply Epre, in_or_app. right. now right.
      + destruct m; [reflexivity|]. cbn [map fst snd eval].
        pose proof (Epre (false, e)) as Ee. cbn [snd] in Ee. rewrite Ee by (apply in_or_app; right; now left). reflexivity.
    - apply IH.
      + intros p I. apply Nf. now right.
      + intros p I. apply Ng. now right.
      + intros p I. apply Efg. now right.
      + intros p I. apply Epre. rewrite <- app_assoc in I. exact I.
  Qed.

  (** The tree with Differentials, evaluated for [v], has the value of the derivative with respect to [v]; one is
      defined where the other is. *)
  Theorem differentials_agree : forall fs d v rho rho' (e : expr F),
    (forall x, occurs x e -> evaluates_for d v rho rho' x) ->
    eval fs rho' (differentials d e) = eval fs rho (differentiate v e).
  Proof.
    intros fs d v rho rho' e. induction e as [k c|x|ops IH|ops IH|e IH|e n IH|b e IHb IHe|k e IH|e IH] using expr_rect'; intro H.
    - reflexivity.
    - destruct (H x (oc_var x)) as [_ E]. cbn. rewrite E. destruct (Nat.eqb x v); reflexivity.
    - rewrite Forall_forall in IH. cbn [differentials differentiate]. rewrite !eval_sum_or_zero_val, !sum_terms_val. f_equal.
      apply map_ext_in. intros [s e] I. cbn [fst snd]. f_equal. destruct (is_number e); [reflexivity|].
      apply (IH (s, e) I). intros x O. apply H. econstructor; eassumption.
    - rewrite Forall_forall in IH. cbn [differentials differentiate]. rewrite !eval_sum_or_zero_val. f_equal. apply mul_terms_val.
      + intros p _. apply differentials_not_float.
      + intros p _. apply differentiate_not_float.
      + intros [s e] I. apply (IH (s, e) I). intros x O. apply H. econstructor; eassumption.
      + intros [s e] I. cbn [snd]. apply eval_ext. intros x O. apply (H x). econstructor; eassumption.
    - cbn. rewrite IH; [reflexivity|]. intros x O. apply H. now constructor.
    - assert (Ee : eval fs rho' e = eval fs rho e) by (apply eval_ext; intros x O; apply (H x); now constructor).
      assert (Ed : eval fs rho' (differentials d e) = eval fs rho (differentiate v e)) by (apply IH; intros x O; apply H; now constructor).
      cbn [differentials differentiate]. destruct (n =? 0)%Z; [reflexivity|]. destruct (n =? 1)%Z; [exact Ed|].
      destruct (n =? 2)%Z; cbn [eval map fst snd]; now rewrite Ee, Ed.
    - assert (Eb : eval fs rho' b = eval fs rho b) by (apply eval_ext; intros x O; apply (H x); now apply oc_powb).
      assert (Ee : eval fs rho' e = eval fs rho e) by (apply eval_ext; intros x O; apply (H x); now apply oc_powe).
      assert (Ed : eval fs rho' (differentials d b) = eval fs rho (differentiate v b)) by (apply IHb; intros x O; apply H; now apply oc_powb).
      cbn [differentials differentiate eval map fst snd]. now rewrite Eb, Ee, Ed.
    - assert (Ee : eval fs rho' e = eval fs rho e) by (apply eval_ext; intros x O; apply (H x); now constructor).
      assert (Ed : eval fs rho' (differentials d e) = eval fs rho (differentiate v e)) by (apply IH; intros x O; apply H; now constructor).
      cbn [differentials differentiate]. destruct k; unfold times, over; cbn [eval map fst snd]; now rewrite Ee, Ed.
    - cbn. apply IH. intros x O. apply H. now constructor.
  Qed.
End Differential.

Section Corollary.
  Context {F : fld}.
  Local Open Scope fld_scope.
  Lemma differentials_derivative : forall (fs : funs F) d v (rho rho' : env F) e y,
    (forall x, occurs x e -> evaluates_for d v rho rho' x) -> arith e -> eval fs rho e = Some y ->
    exists y', deval rho v e = Some (y, y') /\ eval fs rho' (differentials d e) = Some y'.
  Proof.
    intros fs d v rho rho' e y H A E. destruct (differentiate_arith fs rho v e A y E) as (y' & D & Ed).
    exists y'. split; [exact D|]. rewrite (differentials_agree fs d v rho rho' e H). exact Ed.
  Qed.
End Corollary.

(** x^2 y + y / x; the Differentials of x and y are the leaves 2 and 3 *)
Definition two_tree : expr QcF :=
  Sum [(true, Mul [(true, IPow (Var 0) 2); (true, Var 1)]); (true, Mul [(true, Var 1); (false, Var 0)])].
Definition two_env (v : nat) : env QcF := fun y =>
  match y with
  | 0 => qc 2 1
  | 1 => qc 3 1
  | S (S x) => if Nat.eqb x v then qc 1 1 else qc 0 1
  end.
Lemma two_env_ok : forall v x, In x [0; 1] -> two_env v x = (if Nat.eqb x 0 then qc 2 1 else qc 3 1) /\
  two_env v (x + 2) = if Nat.eqb x v then qc 1 1 else qc 0 1.
Proof. intros v x [<-|[<-|[]]]; split; reflexivity. Qed.
Lemma two_tree_values :
  eval qc_funs (two_env 0) (differentials (fun x => x + 2) two_tree) = Some (qc 45 4) /\
  eval qc_funs (two_env 1) (differentials (fun x => x + 2) two_tree) = Some (qc 9 2).
Proof. vm_compute. auto. Qed.
