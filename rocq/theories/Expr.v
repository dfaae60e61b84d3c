(** Function trees as immutable expressions, and their evaluation.

    Models the node classes of core/include/bertini2/function_tree/.  Simplifications: nodes are
    values (sharing and caching are modelled separately in Heap.v); the vectors operands_ and signs_
    (resp. mult_or_div_) are one list of pairs; numbers of every class carry their exact value;
    evaluation is exact.  A value which is not a finite number (division by zero, logarithm of zero)
    is [None]. *)
From Coq Require Import List Arith Lia ZArith Bool Ring Field QArith Qcanon.
From Verif Require Import Base.
Import ListNotations.

(** classes derived from Number: symbols/number.hpp, symbols/special_number.hpp *)
Inductive num_kind := KInteger | KFloat | KRational | KSpecial.

(** unary function classes: operators/arithmetic.hpp (SqrtOperator, ExpOperator, LogOperator) and
    operators/trig.hpp *)
Inductive fun_kind := KSqrt | KExp | KLog | KSin | KCos | KTan | KAsin | KAcos | KAtan.

Inductive expr {F : fld} :=
| Num (k : num_kind) (c : F)
| Var (x : nat)                      (* symbols/variable.hpp; variables are identified by address *)
| Sum (ops : list (bool * expr))     (* operators/arithmetic.hpp:79-259 SumOperator, true = add *)
| Mul (ops : list (bool * expr))     (* operators/arithmetic.hpp:371-524 MultOperator, true = multiply *)
| Neg (e : expr)                     (* operators/arithmetic.hpp:280-347 NegateOperator *)
| IPow (e : expr) (n : Z)            (* operators/arithmetic.hpp:689-806 IntegerPowerOperator *)
| Pow (b e : expr)                   (* operators/arithmetic.hpp:538-665 PowerOperator *)
| Fun (k : fun_kind) (e : expr)
| Handle (e : expr).                 (* roots/function.hpp: Handle, Function *)
Arguments expr : clear implicits.

(** induction with hypotheses for the operands *)
Section ExprInd.
  Context {F : fld}.
  Variable P : expr F -> Prop.
  Hypothesis HNum : forall k c, P (Num k c).
  Hypothesis HVar : forall x, P (Var x).
  Hypothesis HSum : forall ops, Forall (fun p => P (snd p)) ops -> P (Sum ops).
  Hypothesis HMul : forall ops, Forall (fun p => P (snd p)) ops -> P (Mul ops).
  Hypothesis HNeg : forall e, P e -> P (Neg e).
  Hypothesis HIPow : forall e n, P e -> P (IPow e n).
  Hypothesis HPow : forall b e, P b -> P e -> P (Pow b e).
  Hypothesis HFun : forall k e, P e -> P (Fun k e).
  Hypothesis HHandle : forall e, P e -> P (Handle e).

  Fixpoint expr_rect' (e : expr F) : P e :=
    let go := fix go (ops : list (bool * expr F)) : Forall (fun p => P (snd p)) ops :=
        match ops with
        | [] => Forall_nil _
        | p :: r => Forall_cons p (expr_rect' (snd p)) (go r)
        end in
    match e with
    | Num k c => HNum k c
    | Var x => HVar x
    | Sum ops => HSum ops (go ops)
    | Mul ops => HMul ops (go ops)
    | Neg e => HNeg e (expr_rect' e)
    | IPow e n => HIPow e n (expr_rect' e)
    | Pow b e => HPow b e (expr_rect' b) (expr_rect' e)
    | Fun k e => HFun k e (expr_rect' e)
    | Handle e => HHandle e (expr_rect' e)
    end.
End ExprInd.

Section Eval.
  Context {F : fld}.
  Local Open Scope fld_scope.
  Add Field expr_field : (f_th F).

  (** the elementary functions of the number type: values of unary functions, of complex powers, and
      the test of PowerOperator::Degree whether an exponent is an integer (arithmetic.cpp:982-985;
      the tolerance of 10 epsilon is idealised to an exact test) *)
  Record funs := mkFuns {
    fn : fun_kind -> F -> option F;
    pw : F -> F -> option F;
    as_int : F -> option Z
  }.

  Record funs_ok (fs : funs) : Prop := {
    as_int_sound : forall x n, as_int fs x = Some n -> x = fZ n;
    pw_int : forall b n, n <> O \/ b <> 0 -> pw fs b (fZ (Z.of_nat n)) = Some (fpow b n);
    pw_00 : forall y, pw fs 0 0 = Some y -> y = 1
  }.

  (** integer power, undefined for a negative power of zero *)
  Definition fpowZ (x : F) (n : Z) : option F :=
    match n with
    | Z0 => Some 1
    | Zpos p => Some (fpow x (Pos.to_nat p))
    | Zneg p => if feq_dec x 0 then None else Some (1 / fpow x (Pos.to_nat p))
    end.

  (** arithmetic.cpp:381-397 SumOperator::FreshEval_d *)
  Fixpoint sum_val (l : list (bool * option F)) : option F :=
    match l with
    | [] => Some 0
    | (s, v) :: r =>
        match v, sum_val r with
        | Some x, Some y => Some ((if s then x else - x) + y)
        | _, _ => None
        end
    end.

  (** arithmetic.cpp:874-891 MultOperator::FreshEval_d *)
  Fixpoint mul_val (l : list (bool * option F)) : option F :=
    match l with
    | [] => Some 1
    | (m, v) :: r =>
        match v, mul_val r with
        | Some x, Some y =>
            if m then Some (x * y) else if feq_dec x 0 then None else Some (y / x)
        | _, _ => None
        end
    end.

  Definition env := nat -> F.

  (** Node::Eval with no cached values: the FreshEval_d / FreshEval_mp functions *)
  Fixpoint eval (fs : funs) (rho : env) (e : expr F) : option F :=
    match e with
    | Num _ c => Some c
    | Var x => Some (rho x)
    | Sum ops => sum_val (map (fun p => (fst p, eval fs rho (snd p))) ops)
    | Mul ops => mul_val (map (fun p => (fst p, eval fs rho (snd p))) ops)
    | Neg e => match eval fs rho e with Some v => Some (- v) | None => None end
    | IPow e n => match eval fs rho e with Some v => fpowZ v n | None => None end
    | Pow b e => match eval fs rho b, eval fs rho e with
                 | Some x, Some y => pw fs x y
                 | _, _ => None
                 end
    | Fun k e => match eval fs rho e with Some v => fn fs k v | None => None end
    | Handle e => eval fs rho e
    end.

  Definition upd (rho : env) (x : nat) (v : F) : env := fun y => if Nat.eq_dec y x then v else rho y.

  (** the variable [x] occurs in the tree *)
  Inductive occurs (x : nat) : expr F -> Prop :=
  | oc_var : occurs x (Var x)
  | oc_sum : forall ops s e, In (s, e) ops -> occurs x e -> occurs x (Sum ops)
  | oc_mul : forall ops s e, In (s, e) ops -> occurs x e -> occurs x (Mul ops)
  | oc_neg : forall e, occurs x e -> occurs x (Neg e)
  | oc_ipow : forall e n, occurs x e -> occurs x (IPow e n)
  | oc_powb : forall b e, occurs x b -> occurs x (Pow b e)
  | oc_powe : forall b e, occurs x e -> occurs x (Pow b e)
  | oc_fun : forall k e, occurs x e -> occurs x (Fun k e)
  | oc_handle : forall e, occurs x e -> occurs x (Handle e).

  (** the value depends only on the variables which occur *)
  Lemma eval_ext : forall fs rho rho' e, (forall x, occurs x e -> rho x = rho' x) ->
    eval fs rho e = eval fs rho' e.
  Proof.
    intros fs rho rho' e. induction e as [k c|x|ops IH|ops IH|e IH|e n IH|b e IHb IHe|k e IH|e IH] using expr_rect';
      intro H; cbn [eval].
    - reflexivity.
    - f_equal. apply H. constructor.
    - f_equal. apply map_ext_in. intros [s e] Hin. cbn [fst snd]. f_equal.
      rewrite Forall_forall in IH. apply (IH _ Hin). intros x Hx. apply H. econstructor; eassumption.
    - f_equal. apply map_ext_in. intros [s e] Hin. cbn [fst snd]. f_equal.
      rewrite Forall_forall in IH. apply (IH _ Hin). intros x Hx. apply H. econstructor; eassumption.
    - rewrite IH; [reflexivity|]. intros x Hx; apply H; constructor; assumption.
    - rewrite IH; [reflexivity|]. intros x Hx; apply H; constructor; assumption.
    - rewrite IHb, IHe; [reflexivity| |]; intros x Hx; apply H; [apply oc_powe|apply oc_powb]; assumption.
    - rewrite IH; [reflexivity|]. intros x Hx; apply H; constructor; assumption.
    - rewrite IH; [reflexivity|]. intros x Hx; apply H; constructor; assumption.
  Qed.

  Lemma upd_same : forall rho x v, upd rho x v x = v.
  Proof. intros. unfold upd. destruct (Nat.eq_dec x x); congruence. Qed.

  Lemma upd_other : forall rho x v y, y <> x -> upd rho x v y = rho y.
  Proof. intros. unfold upd. destruct (Nat.eq_dec y x); congruence. Qed.

  Lemma upd_id : forall rho x y, upd rho x (rho x) y = rho y.
  Proof. intros. unfold upd. destruct (Nat.eq_dec y x); congruence. Qed.

  (** decidable occurrence, used by the fragments *)
  Fixpoint occursb (x : nat) (e : expr F) : bool :=
    match e with
    | Num _ _ => false
    | Var y => Nat.eqb y x
    | Sum ops => existsb (fun p => occursb x (snd p)) ops
    | Mul ops => existsb (fun p => occursb x (snd p)) ops
    | Neg e => occursb x e
    | IPow e _ => occursb x e
    | Pow b e => occursb x b || occursb x e
    | Fun _ e => occursb x e
    | Handle e => occursb x e
    end.

  Lemma occursb_spec : forall x e, occursb x e = true <-> occurs x e.
  Proof.
    intros x e. induction e as [k c|y|ops IH|ops IH|e IH|e n IH|b e IHb IHe|k e IH|e IH] using expr_rect'; cbn [occursb].
    - split; [discriminate|intro H; inversion H].
    - rewrite Nat.eqb_eq. split; [intros ->; constructor|intro H; inversion H; reflexivity].
    - rewrite existsb_exists. rewrite Forall_forall in IH. split.
      + intros [[s e] [Hin H]]. econstructor; [exact Hin|]. apply (IH _ Hin). exact H.
      + intro H. inversion H as [|? s e Hin He| | | | | | |]; subst. exists (s, e). split; [assumption|]. apply (IH _ Hin). exact He.
    - rewrite existsb_exists. rewrite Forall_forall in IH. split.
      + intros [[s e] [Hin H]]. econstructor; [exact Hin|]. apply (IH _ Hin). exact H.
      + intro H. inversion H as [| |? s e Hin He| | | | | |]; subst. exists (s, e). split; [assumption|]. apply (IH _ Hin). exact He.
    - rewrite IH. split; [intro; constructor; assumption|intro H; inversion H; assumption].
    - rewrite IH. split; [intro; constructor; assumption|intro H; inversion H; assumption].
    - rewrite orb_true_iff, IHb, IHe. split.
      + intros [H|H]; [apply oc_powb|apply oc_powe]; assumption.
      + intro H; inversion H; auto.
    - rewrite IH. split; [intro; constructor; assumption|intro H; inversion H; assumption].
    - rewrite IH. split; [intro; constructor; assumption|intro H; inversion H; assumption].
  Qed.

  Lemma sum_val_some : forall l v, sum_val l = Some v -> Forall (fun p => exists x, snd p = Some x) l.
  Proof.
    induction l as [|[s [x|]] l IH]; intros v H; cbn in H; try discriminate; [constructor|].
    destruct (sum_val l) as [y|]; [|discriminate]. constructor; [exists x; reflexivity|]. eapply IH; reflexivity.
  Qed.

  Lemma mul_val_some : forall l v, mul_val l = Some v -> Forall (fun p => exists x, snd p = Some x) l.
  Proof.
    induction l as [|[s [x|]] l IH]; intros v H; cbn in H; try discriminate; [constructor|].
    destruct (mul_val l) as [y|]; [|discriminate]. constructor; [exists x; reflexivity|]. eapply IH; reflexivity.
  Qed.
End Eval.
Arguments funs : clear implicits.
Arguments env : clear implicits.

(** ** A rational instance: complex powers with natural exponents, no other functions *)
Definition rat_as_int (x : QcF) : option Z :=
  match rq x with QArith_base.Qmake n d => if Pos.eqb d 1 then Some n else None end.

Definition rat_pw (b e : QcF) : option QcF :=
  match rat_as_int e with
  | Some n => if (n <? 0)%Z then fpowZ b n else Some (fpow b (Z.to_nat n))
  | None => None
  end.

Definition qc_funs : funs QcF := mkFuns (fun _ _ => None) rat_pw rat_as_int.

Lemma rq_fnat : forall n, rq (fnat (F := QcF) n) = QArith_base.inject_Z (Z.of_nat n).
Proof.
  induction n as [|n IH]; [reflexivity|].
  cbn [fnat]. cbn [QcF fadd f1]. unfold rat_add. rewrite IH. unfold to_rat. cbn [rq].
  transitivity (Qreduction.Qred (QArith_base.inject_Z (Z.of_nat (S n)))).
  - apply Qreduction.Qred_complete. rewrite Nat2Z.inj_succ. generalize (Z.of_nat n). intro z.
    unfold QArith_base.Qeq, QArith_base.Qplus, QArith_base.inject_Z. cbn [QArith_base.Qnum QArith_base.Qden rq to_rat QcF f1].
    change (Qreduction.Qred (QArith_base.Qmake 1 1)) with (QArith_base.Qmake 1 1). cbn [QArith_base.Qnum QArith_base.Qden Pos.mul]. lia.
  - apply Qcanon.Qred_identity. apply Z.gcd_1_r.
Qed.

Lemma rat_as_int_fZ : forall z, rat_as_int (fZ z) = Some z.
Proof.
  intros [|p|p]; unfold rat_as_int.
  - reflexivity.
  - cbn [fZ]. rewrite rq_fnat. cbn [QArith_base.inject_Z]. rewrite positive_nat_Z. reflexivity.
  - cbn [fZ]. cbn [QcF fopp]. unfold rat_opp. rewrite rq_fnat, positive_nat_Z. unfold to_rat. cbn [rq].
    replace (Qreduction.Qred (QArith_base.Qopp (QArith_base.inject_Z (Z.pos p)))) with (QArith_base.inject_Z (Z.neg p)).
    + reflexivity.
    + symmetry. change (QArith_base.Qopp (QArith_base.inject_Z (Z.pos p))) with (QArith_base.inject_Z (Z.neg p)).
      apply Qcanon.Qred_identity. apply Z.gcd_1_r.
Qed.

Lemma rat_as_int_sound : forall x n, rat_as_int x = Some n -> x = fZ n.
Proof.
  intros x n H. apply rat_ext.
  assert (E : rq x = QArith_base.inject_Z n).
  { unfold rat_as_int in H. destruct (rq x) as [a d]. destruct (Pos.eqb_spec d 1); [|discriminate]. inversion H; subst. reflexivity. }
  rewrite E. pose proof (rat_as_int_fZ n) as G. unfold rat_as_int in G.
  destruct (rq (@fZ QcF n)) as [a d]. destruct (Pos.eqb_spec d 1); [|discriminate]. inversion G; subst. reflexivity.
Qed.

Lemma qc_funs_ok : funs_ok qc_funs.
Proof.
  constructor.
  - exact rat_as_int_sound.
  - intros b n _. cbn [pw qc_funs]. unfold rat_pw. rewrite rat_as_int_fZ.
    destruct (Z.ltb_spec (Z.of_nat n) 0); [lia|]. rewrite Nat2Z.id. reflexivity.
  - intros y H. vm_compute in H. inversion H. apply rat_ext. reflexivity.
Qed.
