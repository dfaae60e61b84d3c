(** Base definitions shared by the whole model: an abstract field with
    decidable equality, its rational instance, and iterated operations.

    Simplification: the C++ code computes with [double], [mpfr_float] and the
    corresponding complex types (core/include/bertini2/num_traits.hpp,
    core/include/bertini2/mpfr_complex.hpp).  Rounding is not modelled: the
    number type is an arbitrary field with decidable equality. *)
From Coq Require Import List Arith Lia ZArith QArith Qcanon Ring Field Bool.
Import ListNotations.

Record fld := mkFld {
  fcar :> Type;
  f0 : fcar;
  f1 : fcar;
  fadd : fcar -> fcar -> fcar;
  fmul : fcar -> fcar -> fcar;
  fsub : fcar -> fcar -> fcar;
  fopp : fcar -> fcar;
  fdiv : fcar -> fcar -> fcar;
  finv : fcar -> fcar;
  f_th : field_theory f0 f1 fadd fmul fsub fopp fdiv finv (@eq fcar);
  feq_dec : forall x y : fcar, {x = y} + {x <> y}
}.

Arguments f0 {_}.
Arguments f1 {_}.
Arguments fadd {_} _ _.
Arguments fmul {_} _ _.
Arguments fsub {_} _ _.
Arguments fopp {_} _.
Arguments fdiv {_} _ _.
Arguments finv {_} _.
Arguments feq_dec {_} _ _.

Declare Scope fld_scope.
Delimit Scope fld_scope with F.
Notation "0" := f0 : fld_scope.
Notation "1" := f1 : fld_scope.
Infix "+" := fadd : fld_scope.
Infix "*" := fmul : fld_scope.
Infix "-" := fsub : fld_scope.
Infix "/" := fdiv : fld_scope.
Notation "- x" := (fopp x) : fld_scope.

(** natural power by repeated multiplication *)
Fixpoint fpow {F : fld} (x : F) (n : nat) : F :=
  match n with
  | O => f1
  | S k => fmul x (fpow x k)
  end.

(** sum of a list *)
Fixpoint fsum {F : fld} (l : list F) : F :=
  match l with
  | [] => f0
  | x :: r => fadd x (fsum r)
  end.

(** product of a list *)
Fixpoint fprod {F : fld} (l : list F) : F :=
  match l with
  | [] => f1
  | x :: r => fmul x (fprod r)
  end.

(** image of a natural number *)
Fixpoint fnat {F : fld} (n : nat) : F :=
  match n with
  | O => f0
  | S k => fadd f1 (fnat k)
  end.

Definition fZ {F : fld} (z : Z) : F :=
  match z with
  | Z0 => f0
  | Zpos p => fnat (Pos.to_nat p)
  | Zneg p => fopp (fnat (Pos.to_nat p))
  end.

Definition feqb {F : fld} (x y : F) : bool := if feq_dec x y then true else false.

Lemma feqb_eq : forall (F : fld) (x y : F), feqb x y = true <-> x = y.
Proof. intros; unfold feqb; destruct (feq_dec x y); split; congruence. Qed.

Lemma feqb_neq : forall (F : fld) (x y : F), feqb x y = false <-> x <> y.
Proof. intros; unfold feqb; destruct (feq_dec x y); split; congruence. Qed.

(** ** Canonical rationals
    Fractions in lowest terms.  Same as [Qcanon.Qc], but with a boolean canonicity proof which reduces
    to [eq_refl], so that closed computations can be compared by reflexivity. *)
Definition canonb (q : Q) : bool := Z.eqb (Z.gcd (Qnum q) (Zpos (Qden q))) 1.

Record rat := mkRat { rq : Q; rok : canonb rq = true }.

Definition force (b : bool) : b = true -> b = true :=
  match b with true => fun _ => eq_refl | false => fun H => H end.

Lemma Qred_canonb : forall q, canonb (Qred q) = true.
Proof.
  intro q. unfold canonb. apply Z.eqb_eq. apply Qred_identity2.
  apply Qred_complete. apply Qred_correct.
Qed.

Definition to_rat (q : Q) : rat := mkRat (Qred q) (force _ (Qred_canonb q)).

Lemma rat_ext : forall a b : rat, rq a = rq b -> a = b.
Proof.
  intros [a Ha] [b Hb] E; cbn in E; subst. f_equal. apply Eqdep_dec.UIP_dec. apply Bool.bool_dec.
Qed.

Lemma rat_eq : forall a b : rat, rq a == rq b -> a = b.
Proof.
  intros a b E. apply rat_ext.
  rewrite <- (Qred_identity (rq a)) by (apply Z.eqb_eq; exact (rok a)).
  rewrite <- (Qred_identity (rq b)) by (apply Z.eqb_eq; exact (rok b)).
  apply Qred_complete. exact E.
Qed.

Definition rat_eq_dec (a b : rat) : {a = b} + {a <> b}.
Proof.
  destruct (Z.eq_dec (Qnum (rq a)) (Qnum (rq b))) as [E1|N1].
  - destruct (Pos.eq_dec (Qden (rq a)) (Qden (rq b))) as [E2|N2].
    + left. apply rat_ext. destruct (rq a), (rq b); cbn in *; subst; reflexivity.
    + right. intro E; subst; apply N2; reflexivity.
  - right. intro E; subst; apply N1; reflexivity.
Defined.

Definition rat_add a b := to_rat (rq a + rq b).
Definition rat_mul a b := to_rat (rq a * rq b).
Definition rat_sub a b := to_rat (rq a - rq b).
Definition rat_opp a := to_rat (- rq a).
Definition rat_inv a := to_rat (/ rq a).
Definition rat_div a b := to_rat (rq a / rq b).

Lemma rat_field : field_theory (to_rat 0) (to_rat 1) rat_add rat_mul rat_sub rat_opp rat_div rat_inv (@eq rat).
Proof.
  constructor; [constructor|..]; intros;
    try (apply rat_eq; unfold rat_add, rat_mul, rat_sub, rat_opp, rat_div, rat_inv, to_rat; cbn [rq];
         rewrite ?Qred_correct; ring).
  - intro E. apply (f_equal (fun r => Qnum (rq r))) in E. cbn in E. discriminate.
  - apply rat_eq. unfold rat_add, rat_mul, rat_sub, rat_opp, rat_div, rat_inv, to_rat; cbn [rq].
    rewrite ?Qred_correct. reflexivity.
  - apply rat_eq. unfold rat_add, rat_mul, rat_sub, rat_opp, rat_div, rat_inv, to_rat; cbn [rq].
    rewrite ?Qred_correct. rewrite Qmult_comm. apply Qmult_inv_r.
    intro E. apply H. apply rat_eq. unfold to_rat; cbn [rq]. rewrite Qred_correct. exact E.
Qed.

Definition QcF : fld :=
  mkFld rat (to_rat 0) (to_rat 1) rat_add rat_mul rat_sub rat_opp rat_div rat_inv rat_field rat_eq_dec.

(** a rational literal n/d *)
Definition qc (n : Z) (d : positive) : QcF := to_rat (n # d).

Section FieldFacts.
  Context {F : fld}.
  Local Open Scope fld_scope.
  Add Field fld_field : (f_th F).

  Lemma f1_neq_f0 : (1 : F) <> 0.
  Proof. apply (F_1_neq_0 (f_th F)). Qed.

  Lemma fmul_integral : forall x y : F, x * y = 0 -> x = 0 \/ y = 0.
  Proof.
    intros x y H. destruct (feq_dec x 0) as [|n]; [left; assumption|right].
    assert (E : y = (x * y) / x) by (field; exact n).
    rewrite E, H. field; exact n.
  Qed.

  Lemma fmul_neq0 : forall x y : F, x <> 0 -> y <> 0 -> x * y <> 0.
  Proof. intros x y Hx Hy H. destruct (fmul_integral _ _ H); auto. Qed.

  Lemma fpow_add : forall (x : F) n m, fpow x (n + m) = fpow x n * fpow x m.
  Proof. intros x n m. induction n; simpl. - ring. - rewrite IHn; ring. Qed.

  Lemma fpow_mul_base : forall (x y : F) n, fpow (x * y) n = fpow x n * fpow y n.
  Proof. intros x y n. induction n; simpl. - ring. - rewrite IHn; ring. Qed.

  Lemma fpow_mul : forall (x : F) n m, fpow x (n * m) = fpow (fpow x n) m.
  Proof.
    intros x n m. induction m; simpl.
    - rewrite Nat.mul_0_r. reflexivity.
    - rewrite Nat.mul_succ_r, Nat.add_comm, fpow_add, IHm. reflexivity.
  Qed.

  Lemma fpow_1_l : forall n, fpow (1 : F) n = 1.
  Proof. induction n; simpl; [reflexivity|]. rewrite IHn; ring. Qed.

  Lemma fpow_neq0 : forall (x : F) n, x <> 0 -> fpow x n <> 0.
  Proof.
    intros x n Hx. induction n; simpl; [apply f1_neq_f0|].
    apply fmul_neq0; assumption.
  Qed.

  Lemma fpow_eq0 : forall (x : F) n, fpow x n = 0 -> x = 0.
  Proof.
    intros x n H. destruct (feq_dec x 0) as [|Hx]; [assumption|].
    exfalso; exact (fpow_neq0 x n Hx H).
  Qed.

  Lemma fsum_app : forall l1 l2 : list F, fsum (l1 ++ l2) = fsum l1 + fsum l2.
  Proof. induction l1; intros; simpl. - ring. - rewrite IHl1; ring. Qed.

  Lemma fprod_app : forall l1 l2 : list F, fprod (l1 ++ l2) = fprod l1 * fprod l2.
  Proof. induction l1; intros; simpl. - ring. - rewrite IHl1; ring. Qed.

  Lemma fsum_map_mul : forall (A : Type) (c : F) (f : A -> F) l,
    fsum (map (fun a => c * f a) l) = c * fsum (map f l).
  Proof. induction l; simpl. - ring. - rewrite IHl; ring. Qed.

  Lemma fsum_map_mul_r : forall (A : Type) (c : F) (f : A -> F) l,
    fsum (map (fun a => f a * c) l) = fsum (map f l) * c.
  Proof. induction l; simpl. - ring. - rewrite IHl; ring. Qed.

  Lemma fsum_map_add : forall (A : Type) (f g : A -> F) l,
    fsum (map (fun a => f a + g a) l) = fsum (map f l) + fsum (map g l).
  Proof. induction l; simpl. - ring. - rewrite IHl; ring. Qed.

  Lemma fsum_map_sub : forall (A : Type) (f g : A -> F) l,
    fsum (map (fun a => f a - g a) l) = fsum (map f l) - fsum (map g l).
  Proof. induction l; simpl. - ring. - rewrite IHl; ring. Qed.

  Lemma fsum_map_0 : forall (A : Type) (l : list A), fsum (map (fun _ => 0 : F) l) = 0.
  Proof. induction l; simpl. - reflexivity. - rewrite IHl; ring. Qed.

  Lemma fprod_eq0 : forall l : list F, fprod l = 0 <-> In 0 l.
  Proof.
    induction l; simpl; split; intro H.
    - exfalso; exact (f1_neq_f0 H).
    - contradiction.
    - destruct (fmul_integral _ _ H) as [E|E]; [left; exact E|right; apply IHl; exact E].
    - destruct H as [E|E]; [subst; ring|]. apply IHl in E; rewrite E; ring.
  Qed.

  Lemma fnat_add : forall n m, fnat (n + m) = (fnat n + fnat m : F).
  Proof. induction n; intros; simpl. - ring. - rewrite IHn; ring. Qed.

  Lemma fnat_mul : forall n m, fnat (n * m) = (fnat n * fnat m : F).
  Proof. induction n; intros; simpl. - ring. - rewrite fnat_add, IHn; ring. Qed.
End FieldFacts.

(** ** List facts missing from the standard library *)
Lemma skipn_add : forall (A : Type) n m (x : list A), skipn m (skipn n x) = skipn (n + m) x.
Proof. intros A n. induction n as [|n IH]; intros m [|a x]; cbn; auto using skipn_nil. Qed.

Lemma firstn_app_exact : forall (A : Type) (a b : list A), firstn (length a) (a ++ b) = a.
Proof. intros. rewrite firstn_app, Nat.sub_diag, firstn_O, app_nil_r. apply firstn_all. Qed.

Lemma skipn_app_exact : forall (A : Type) (a b : list A), skipn (length a) (a ++ b) = b.
Proof. intros. rewrite skipn_app, Nat.sub_diag, skipn_all. reflexivity. Qed.

Lemma nth_error_nth_eq : forall (A : Type) (l1 l2 : list A),
  (forall n, nth_error l1 n = nth_error l2 n) -> l1 = l2.
Proof.
  induction l1 as [|a l1 IH]; intros [|b l2] H; try reflexivity.
  - specialize (H 0%nat); discriminate.
  - specialize (H 0%nat); discriminate.
  - pose proof (H 0%nat) as H0; cbn in H0; inversion H0; subst. f_equal.
    apply IH. intro n. exact (H (S n)).
Qed.

Lemma fmul_zero_l : forall (F : fld) (x : F), fmul f0 x = f0.
Proof.
  intros F x. pose proof (f_th F) as T.
  assert (A := ARmul_0_l (Rth_ARth (Eqsth F) (Eq_ext _ _ _) (F_R T))). apply A.
Qed.
