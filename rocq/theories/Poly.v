(** One-variable polynomials over a field, as coefficient lists (constant term first).
    Specification vocabulary only: nothing here models code. *)
From Coq Require Import List Arith Lia ZArith Bool Ring Field.
From Verif Require Import Base.
Import ListNotations.

Section Poly.
  Context {F : fld}.
  Local Open Scope fld_scope.
  Add Field poly_field : (f_th F).

  (** value at [t] *)
  Fixpoint peval (p : list F) (t : F) : F :=
    match p with
    | [] => 0
    | a :: r => a + t * peval r t
    end.

  (** [f] is a polynomial function of degree at most [d] *)
  Definition is_poly (d : nat) (f : F -> F) : Prop :=
    exists p, (length p <= S d)%nat /\ forall t, f t = peval p t.

  Fixpoint padd (p q : list F) : list F :=
    match p, q with
    | [], _ => q
    | _, [] => p
    | a :: p', b :: q' => (a + b) :: padd p' q'
    end.

  Definition pscale (c : F) (p : list F) : list F := map (fmul c) p.

  Fixpoint pmul (p q : list F) : list F :=
    match p with
    | [] => []
    | a :: p' => padd (pscale a q) (0 :: pmul p' q)
    end.

  Lemma peval_padd : forall p q t, peval (padd p q) t = peval p t + peval q t.
  Proof.
    induction p as [|a p IH]; intros [|b q] t; cbn; try ring. rewrite IH. ring.
  Qed.

  Lemma peval_pscale : forall c p t, peval (pscale c p) t = c * peval p t.
  Proof. unfold pscale. induction p as [|a p IH]; intro t; cbn; [ring|]. rewrite IH. ring. Qed.

  Lemma peval_pmul : forall p q t, peval (pmul p q) t = peval p t * peval q t.
  Proof.
    induction p as [|a p IH]; intros q t; cbn [pmul peval]; [ring|].
    rewrite peval_padd, peval_pscale. cbn [peval]. rewrite IH. ring.
  Qed.

  Lemma padd_length : forall p q, length (padd p q) = Nat.max (length p) (length q).
  Proof. induction p as [|a p IH]; intros [|b q]; cbn; try reflexivity. rewrite IH. reflexivity. Qed.

  Lemma pscale_length : forall c p, length (pscale c p) = length p.
  Proof. intros. apply map_length. Qed.

  Lemma pmul_length : forall p q, q <> [] -> (length (pmul p q) <= length p + length q - 1)%nat.
  Proof.
    induction p as [|a p IH]; intros q Hq; [cbn; lia|].
    assert (1 <= length q)%nat by (destruct q; [congruence|cbn; lia]).
    cbn [pmul length]. rewrite padd_length, pscale_length. cbn [length].
    specialize (IH q Hq). destruct p; cbn [length pmul] in *; lia.
  Qed.

  Lemma is_poly_const : forall c d, is_poly d (fun _ => c).
  Proof. intros c d. exists [c]. split; [cbn; lia|]. intro t. cbn. ring. Qed.

  Lemma is_poly_id : is_poly 1 (fun t => t).
  Proof. exists [0; 1]. split; [cbn; lia|]. intro t. cbn. ring. Qed.

  Lemma is_poly_ext : forall d f g, (forall t, f t = g t) -> is_poly d f -> is_poly d g.
  Proof. intros d f g E [p [Hl Hp]]. exists p. split; [assumption|]. intro t. rewrite <- E. apply Hp. Qed.

  Lemma is_poly_le : forall d e f, (d <= e)%nat -> is_poly d f -> is_poly e f.
  Proof. intros d e f H [p [Hl Hp]]. exists p. split; [lia|assumption]. Qed.

  Lemma is_poly_add : forall d f g, is_poly d f -> is_poly d g -> is_poly d (fun t => f t + g t).
  Proof.
    intros d f g [p [Hl Hp]] [q [Hm Hq]]. exists (padd p q). split.
    - rewrite padd_length. lia.
    - intro t. rewrite Hp, Hq, peval_padd. reflexivity.
  Qed.

  Lemma is_poly_scale : forall d c f, is_poly d f -> is_poly d (fun t => c * f t).
  Proof.
    intros d c f [p [Hl Hp]]. exists (pscale c p). split.
    - rewrite pscale_length. assumption.
    - intro t. rewrite Hp, peval_pscale. reflexivity.
  Qed.

  Lemma is_poly_opp : forall d f, is_poly d f -> is_poly d (fun t => - f t).
  Proof.
    intros d f H. apply is_poly_ext with (fun t => - (1) * f t); [intro; ring|].
    apply is_poly_scale; assumption.
  Qed.

  Lemma is_poly_sub : forall d f g, is_poly d f -> is_poly d g -> is_poly d (fun t => f t - g t).
  Proof.
    intros d f g Hf Hg. apply is_poly_ext with (fun t => f t + - g t); [intro; ring|].
    apply is_poly_add; [assumption|]. apply is_poly_opp; assumption.
  Qed.

  Lemma is_poly_mul : forall d e f g, is_poly d f -> is_poly e g -> is_poly (d + e) (fun t => f t * g t).
  Proof.
    intros d e f g [p [Hl Hp]] [q [Hm Hq]].
    destruct q as [|b q'].
    { exists []. split; [cbn; lia|]. intro t. rewrite Hq. cbn. ring. }
    exists (pmul p (b :: q')). split.
    - pose proof (pmul_length p (b :: q')). specialize (H ltac:(discriminate)). lia.
    - intro t. rewrite Hp, Hq, peval_pmul. reflexivity.
  Qed.

  Lemma is_poly_pow : forall d f n, is_poly d f -> is_poly (n * d) (fun t => fpow (f t) n).
  Proof.
    intros d f n H. induction n as [|n IH]; cbn [fpow Nat.mul].
    - apply is_poly_const.
    - apply is_poly_mul; assumption.
  Qed.

  (** Synthetic division: [p t = p a + (t - a) * (pdiv p a) t]. *)
  Fixpoint pdivide (p : list F) (a : F) : list F :=
    match p with
    | [] => []
    | _ :: r => match r with [] => [] | _ => peval r a :: pdivide r a end
    end.

  Lemma pdivide_spec : forall p a t, peval p t = peval p a + (t - a) * peval (pdivide p a) t.
  Proof.
    induction p as [|c p IH]; intros a t; [cbn; ring|].
    destruct p as [|b p'].
    - cbn. ring.
    - change (pdivide (c :: b :: p') a) with (peval (b :: p') a :: pdivide (b :: p') a).
      change (peval (c :: b :: p') t) with (c + t * peval (b :: p') t).
      change (peval (c :: b :: p') a) with (c + a * peval (b :: p') a).
      change (peval (peval (b :: p') a :: pdivide (b :: p') a) t)
        with (peval (b :: p') a + t * peval (pdivide (b :: p') a) t).
      rewrite (IH a t). ring.
  Qed.

  Lemma pdivide_length : forall p a, length (pdivide p a) = (length p - 1)%nat.
  Proof.
    induction p as [|c p IH]; intro a; [reflexivity|].
    destruct p as [|b p']; [reflexivity|].
    change (pdivide (c :: b :: p') a) with (peval (b :: p') a :: pdivide (b :: p') a).
    cbn [length] in *. rewrite IH. cbn. lia.
  Qed.

  (** A polynomial vanishing at more points than its degree vanishes everywhere. *)
  Lemma poly_too_many_roots : forall n p roots,
    length p = n -> NoDup roots -> (n <= length roots)%nat ->
    (forall a, In a roots -> peval p a = 0) -> forall t, peval p t = 0.
  Proof.
    induction n as [|n IH]; intros p roots Hp Hnd Hl Hr t.
    - destruct p; [reflexivity|discriminate].
    - destruct roots as [|a roots]; [cbn in Hl; lia|].
      inversion Hnd; subst.
      rewrite (pdivide_spec p a t), (Hr a (or_introl eq_refl)).
      assert (E : peval (pdivide p a) t = 0).
      { apply (IH (pdivide p a) roots).
        - rewrite pdivide_length. lia.
        - assumption.
        - cbn in Hl. lia.
        - intros b Hb.
          pose proof (Hr b (or_intror Hb)) as Eb. rewrite (pdivide_spec p a b), (Hr a (or_introl eq_refl)) in Eb.
          assert (Em : (b - a) * peval (pdivide p a) b = 0) by (rewrite <- Eb; ring).
          destruct (fmul_integral _ _ Em) as [Eba|]; [|assumption].
          exfalso. assert (b = a) by (transitivity (b - a + a); [ring|rewrite Eba; ring]).
          subst. contradiction. }
      rewrite E. ring.
  Qed.

  (** the power [t^n] and [t^n - c] as coefficient lists *)
  Definition ppow_minus (n : nat) (c : F) : list F := (- c) :: repeat 0 (n - 1) ++ [1].

  Lemma peval_monomial : forall n (t : F), peval (repeat 0 n ++ [1]) t = fpow t n.
  Proof. induction n; intro t; cbn; [ring|]. rewrite IHn. ring. Qed.

  Lemma peval_ppow_minus : forall n (c t : F), (1 <= n)%nat -> peval (ppow_minus n c) t = fpow t n - c.
  Proof.
    intros n c t H. unfold ppow_minus. cbn [peval]. rewrite peval_monomial.
    destruct n as [|n]; [lia|]. cbn [fpow]. replace (S n - 1)%nat with n by lia. ring.
  Qed.

  (** [x^n = c] has at most [n] solutions *)
  Lemma pow_eq_at_most : forall n (c : F) l, (1 <= n)%nat -> NoDup l ->
    (forall a, In a l -> fpow a n = c) -> (length l <= n)%nat.
  Proof.
    intros n c l Hn Hnd H.
    destruct (le_lt_dec (length l) n) as [|Hgt]; [assumption|exfalso].
    assert (Hz : forall t, peval (ppow_minus n c) t = 0).
    { apply (poly_too_many_roots (S n) _ l).
      - unfold ppow_minus. cbn [length]. rewrite app_length, repeat_length. cbn. lia.
      - assumption.
      - lia.
      - intros a Ha. rewrite peval_ppow_minus by assumption. rewrite (H a Ha). ring. }
    pose proof (Hz 0) as H0. pose proof (Hz 1) as H1.
    rewrite peval_ppow_minus in H0, H1 by assumption.
    rewrite fpow_1_l in H1. destruct n as [|n]; [lia|]. cbn [fpow] in H0.
    apply (@f1_neq_f0 F). transitivity ((1 - c) - (0 * fpow 0 n - c)); [ring|]. rewrite H0, H1. ring.
  Qed.
End Poly.
