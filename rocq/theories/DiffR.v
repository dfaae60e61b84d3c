(** Differentiate at real points: the analytic derivative, for every elementary function. *)
From Coq Require Import List Arith Lia ZArith Bool Reals Lra.
From Coquelicot Require Import Coquelicot.
From Verif Require Import Base Expr Diff.
Import ListNotations.
Local Open Scope R_scope.

Definition RF : fld := mkFld R 0 1 Rplus Rmult Rminus Ropp Rdiv Rinv Rfield Req_EM_T.

Ltac toR := cbn; match goal with |- @eq _ ?a ?b => change (@eq R a b) end.

(** the real functions on the interior of their real domains; [None] outside *)
Definition real_fn (k : fun_kind) (x : RF) : option RF :=
  match k with
  | KSqrt => if Rlt_dec 0 x then Some (sqrt x) else None
  | KExp => Some (exp x)
  | KLog => if Rlt_dec 0 x then Some (ln x) else None
  | KSin => Some (sin x)
  | KCos => Some (cos x)
  | KTan => if Req_EM_T (cos x) 0 then None else Some (tan x)
  | KAsin => if Rlt_dec (-1) x then if Rlt_dec x 1 then Some (asin x) else None else None
  | KAcos => if Rlt_dec (-1) x then if Rlt_dec x 1 then Some (acos x) else None else None
  | KAtan => Some (atan x)
  end.

(** an exponent which is an integer *)
Definition real_as_int (x : RF) : option Z := if Req_EM_T x (IZR (Int_part x)) then Some (Int_part x) else None.

(** real powers: of a positive base, or with an integer exponent (except at zero with an exponent below 1,
    where the function is not differentiable or not defined on both sides) *)
Definition real_pw (b e : RF) : option RF :=
  if Rlt_dec 0 b then Some (Rpower b e)
  else match real_as_int e with
       | Some n => if Z_lt_le_dec n 1 then (if Req_EM_T b 0 then None else fpowZ b n) else fpowZ b n
       | None => None
       end.

Definition real_funs : funs RF := mkFuns real_fn real_pw real_as_int.

Lemma RF_fnat : forall n, fnat (F := RF) n = INR n.
Proof.
  induction n as [|n IH]; [reflexivity|]. cbn [fnat]. rewrite IH, S_INR. toR. ring.
Qed.

Lemma RF_fZ : forall z, fZ (F := RF) z = IZR z.
Proof.
  intros [|p|p]; cbn [fZ].
  - reflexivity.
  - rewrite RF_fnat, INR_IZR_INZ, positive_nat_Z. reflexivity.
  - rewrite RF_fnat, INR_IZR_INZ, positive_nat_Z. cbn [RF fopp]. rewrite <- opp_IZR. reflexivity.
Qed.

Lemma RF_fpow : forall x n, fpow (F := RF) x n = x ^ n.
Proof. intros x n. induction n as [|n IH]; [reflexivity|]. cbn [fpow pow]. rewrite IH. reflexivity. Qed.

Lemma real_as_int_IZR : forall n, real_as_int (IZR n) = Some n.
Proof.
  intro n. unfold real_as_int. assert (E : n = Int_part (IZR n)) by (unfold Int_part; rewrite <- (tech_up (IZR n) (n + 1)); rewrite ?plus_IZR; [lia|lra|lra]).
  destruct (Req_EM_T (IZR n) (IZR (Int_part (IZR n)))) as [H|H]; [f_equal; symmetry; assumption|].
  exfalso. apply H. congruence.
Qed.

Lemma real_as_int_sound : forall x n, real_as_int x = Some n -> x = IZR n.
Proof.
  intros x n H. unfold real_as_int in H. destruct (Req_EM_T x (IZR (Int_part x))); [|discriminate].
  injection H as <-. assumption.
Qed.

Lemma real_funs_ok : funs_ok real_funs.
Proof.
  constructor; cbn [as_int pw real_funs].
  - intros x n H. rewrite RF_fZ. apply real_as_int_sound. exact H.
  - intros b n H. rewrite RF_fZ. unfold real_pw. destruct (Rlt_dec 0 b) as [Hb|Hb].
    + rewrite <- INR_IZR_INZ, Rpower_pow by assumption. rewrite RF_fpow. reflexivity.
    + rewrite real_as_int_IZR. destruct (Z_lt_le_dec (Z.of_nat n) 1) as [Hn|Hn].
      * assert (n = 0%nat) by lia. subst n. destruct (Req_EM_T b 0) as [E|E].
        { exfalso. destruct H as [H|H]; [congruence|]. apply H. exact E. }
        reflexivity.
      * destruct n as [|n]; [lia|]. cbn [Z.of_nat fpowZ]. rewrite SuccNat2Pos.id_succ. reflexivity.
  - intros y H. unfold real_pw in H. cbn [RF f0] in H. destruct (Rlt_dec 0 0) as [G|G]; [lra|].
    change 0 with (IZR 0) in H at 1. rewrite real_as_int_IZR in H.
    destruct (Z_lt_le_dec 0 1); [|lia]. destruct (Req_EM_T 0 0); [discriminate|]. congruence.
Qed.

Section Deriv.
  Variable rho : env RF.
  Variable v : nat.

  Definition at_ (t : R) (e : expr RF) : option RF := eval real_funs (upd rho v t) e.

  Lemma at_here : forall e, at_ (rho v) e = eval real_funs rho e.
  Proof. intro e. unfold at_. apply eval_ext. intros x _. apply upd_id. Qed.

  (** [e] is, near the point, a function of the coordinate [v] with derivative the value of the tree
      returned by Differentiate *)
  Definition derives (e : expr RF) : Prop :=
    exists (f : R -> R) (d : R),
      locally (rho v) (fun t => at_ t e = Some (f t)) /\
      is_derive f (rho v) d /\
      eval real_funs rho (differentiate v e) = Some d.

  Definition spec_ok (e : expr RF) : Prop := forall y, eval real_funs rho e = Some y -> derives e.

  Lemma derives_value : forall e f y, eval real_funs rho e = Some y ->
    locally (rho v) (fun t => at_ t e = Some (f t)) -> f (rho v) = y.
  Proof.
    intros e f y Hy H. apply locally_singleton in H. rewrite at_here, Hy in H. congruence.
  Qed.

  Lemma locally_of_continuous : forall (f : R -> R) (P : R -> Prop) d, is_derive f (rho v) d ->
    locally (f (rho v)) P -> locally (rho v) (fun t => P (f t)).
  Proof.
    intros f P d Hd HP. assert (Hc : continuous f (rho v)).
    { apply (ex_derive_continuous f). exists d. exact Hd. }
    exact (Hc P HP).
  Qed.

  Lemma locally_pos : forall x, 0 < x -> locally x (fun y => 0 < y).
  Proof. intros x Hx. apply (open_gt 0 x Hx). Qed.
  Lemma locally_neg : forall x, x < 0 -> locally x (fun y => y < 0).
  Proof. intros x Hx. apply (open_lt 0 x Hx). Qed.
  Lemma locally_neq0 : forall x, x <> 0 -> locally x (fun y => y <> 0).
  Proof. intros x Hx. apply (open_neq 0 x Hx). Qed.

  (** *** chain rule for a unary function *)
  Lemma derive_fun : forall k e f d y g dg,
    locally (rho v) (fun t => at_ t e = Some (f t)) -> is_derive f (rho v) d ->
    f (rho v) = y -> locally y (fun z => real_fn k z = Some (g z)) -> is_derive g y dg ->
    exists h, locally (rho v) (fun t => at_ t (Fun k e) = Some (h t)) /\ is_derive h (rho v) (d * dg).
  Proof.
    intros k e f d y g dg Hf Hd <- Hk Hg. exists (fun t => g (f t)). split.
    - pose proof (locally_of_continuous f _ d Hd Hk) as Hk'.
      generalize (filter_and _ _ Hf Hk'). apply filter_imp. intros t [H1 H2].
      unfold at_ in *. cbn [eval]. rewrite H1. exact H2.
    - exact (is_derive_comp g f (rho v) dg d Hg Hd).
  Qed.

  (** *** integer powers *)
  Definition powR (x : R) (n : Z) : R := match n with
    | Z0 => 1 | Zpos p => x ^ Pos.to_nat p | Zneg p => 1 / x ^ Pos.to_nat p end.

  Lemma fpowZ_powR : forall (x : R) n, ((n < 0)%Z -> x <> 0) -> fpowZ (F := RF) x n = Some (powR x n).
  Proof.
    intros x [|p|p] H; cbn [fpowZ powR].
    - reflexivity.
    - rewrite RF_fpow. reflexivity.
    - destruct (@feq_dec RF x f0) as [E|E]; [exfalso; apply H; [lia|exact E]|]. rewrite RF_fpow. reflexivity.
  Qed.

  Lemma fpowZ_defined : forall (x : R) n y, fpowZ (F := RF) x n = Some y -> ((n < 0)%Z -> x <> 0).
  Proof.
    intros x [|p|p] y H Hn; [lia|lia|]. cbn [fpowZ] in H. destruct (@feq_dec RF x f0) as [E|E]; [discriminate|exact E].
  Qed.

  Lemma powR_derive : forall (x : R) n, ((n < 0)%Z -> x <> 0) -> n <> 0%Z ->
    is_derive (fun z => powR z n) x (IZR n * powR x (n - 1)).
  Proof.
    intros x [|p|p] H Hn; [lia| |].
    - cbn [powR]. destruct (Pos2Nat.is_succ p) as [k Hk]. rewrite Hk.
      assert (E : powR x (Z.pos p - 1) = x ^ k).
      { assert (Ep : (Z.pos p - 1)%Z = Z.of_nat k) by (rewrite <- (positive_nat_Z p); lia). rewrite Ep.
        destruct k; [reflexivity|]. cbn [Z.of_nat powR]. rewrite SuccNat2Pos.id_succ. reflexivity. }
      rewrite E. replace (IZR (Z.pos p)) with (INR (S k)) by (rewrite INR_IZR_INZ, <- Hk, positive_nat_Z; reflexivity).
      auto_derive; [trivial|]. cbn [Init.Nat.pred]. rewrite S_INR. destruct k; toR; ring.
    - specialize (H ltac:(lia)). cbn [powR]. destruct (Pos2Nat.is_succ p) as [k Hk].
      change (Z.neg p - 1)%Z with (Z.neg (p + 1)). cbn [powR].
      rewrite Pos2Nat.inj_add, Hk. change (Pos.to_nat 1) with 1%nat. rewrite Nat.add_1_r.
      replace (IZR (Z.neg p)) with (- INR (S k))
        by (rewrite INR_IZR_INZ, <- Hk, positive_nat_Z, <- opp_IZR; reflexivity).
      assert (Hx : x ^ k <> 0) by (apply pow_nonzero; assumption).
      evar_last.
      { apply (is_derive_div (fun _ => 1) (fun z => z ^ S k)).
        - apply is_derive_const.
        - apply (is_derive_pow (fun z => z) (S k) x 1). exact (@is_derive_id R_AbsRing x).
        - apply pow_nonzero. assumption. }
      cbn [Init.Nat.pred]. cbn [pow]. toR. field. auto.
  Qed.

  (** *** sums *)
  Lemma derive_sum : forall ops, List.Forall (fun p => spec_ok (snd p)) ops ->
    forall y, sum_val (map (fun p => (fst p, eval real_funs rho (snd p))) ops) = Some y ->
    exists (f : R -> R) (d : R), locally (rho v) (fun t => sum_val (map (fun p => (fst p, at_ t (snd p))) ops) = Some (f t)) /\
      is_derive f (rho v) d /\
      sum_val (map (fun p => (fst p, eval real_funs rho (snd p)))
        (sum_terms (map (fun p => (p, differentiate v (snd p))) ops))) = Some d.
  Proof.
    intros ops H. induction H as [|[s e] ops He H IH]; intros y Hy.
    - exists (fun _ => 0), 0. split; [|split].
      + apply filter_forall. reflexivity.
      + exact (@is_derive_const R_AbsRing R_NormedModule _ _).
      + reflexivity.
    - cbn [map fst snd] in *. cbn [sum_val] in Hy. destruct (eval real_funs rho e) as [x|] eqn:Ex; [|discriminate].
      destruct (sum_val (map (fun p => (fst p, eval real_funs rho (snd p))) ops)) as [z|] eqn:Ez; [|discriminate].
      destruct (He x Ex) as [f [d [Hf [Hd He']]]]. destruct (IH z eq_refl) as [g [d2 [Hg [Hd2 Hz']]]].
      exists (fun t => (if s then f t else - f t) + g t), ((if s then d else - d) + d2). split; [|split].
      + generalize (filter_and _ _ Hf Hg). apply filter_imp. intros t [H1 H2]. cbn [sum_val]. rewrite H1, H2. reflexivity.
      + apply (is_derive_plus (fun t => if s then f t else - f t) g); [|assumption].
        destruct s; [assumption|]. apply (is_derive_opp f). assumption.
      + unfold sum_terms. cbn [flat_map]. fold (sum_terms (map (fun p => (p, differentiate v (snd p))) ops)).
        destruct (is_number e) eqn:En.
        * destruct e as [k c| | | | | | | |]; try discriminate. cbn in He'. injection He' as <-. cbn [app]. rewrite Hz'.
          f_equal. destruct s; toR; ring.
        * destruct (number_eq0 (differentiate v e)) eqn:E0.
          -- destruct (differentiate v e); try discriminate. cbn in E0. apply feqb_eq in E0. subst.
             cbn in He'. injection He' as <-. cbn [app]. rewrite Hz'. f_equal. destruct s; toR; ring.
          -- cbn [app map fst snd sum_val]. rewrite He', Hz'. reflexivity.
  Qed.

  (** *** products and quotients *)
  Lemma derive_mul : forall ops, List.Forall (fun p => spec_ok (snd p)) ops ->
    forall pre P y, mul_val (map (fun p => (fst p, eval real_funs rho (snd p))) pre) = Some P ->
    mul_val (map (fun p => (fst p, eval real_funs rho (snd p))) ops) = Some y ->
    exists (f : R -> R) (d : R), locally (rho v) (fun t => mul_val (map (fun p => (fst p, at_ t (snd p))) ops) = Some (f t)) /\
      is_derive f (rho v) d /\
      sum_val (map (fun p => (fst p, eval real_funs rho (snd p)))
        (mul_terms pre (map (fun p => (p, differentiate v (snd p))) ops))) = Some (P * d).
  Proof.
    intros ops H. induction H as [|[m e] ops He H IH]; intros pre P y HP Hy.
    - exists (fun _ => 1), 0. split; [|split].
      + apply filter_forall. reflexivity.
      + exact (@is_derive_const R_AbsRing R_NormedModule _ _).
      + cbn. f_equal. toR. ring.
    - cbn [map fst snd] in *. cbn [mul_val] in Hy. destruct (eval real_funs rho e) as [x|] eqn:Ex; [|discriminate].
      destruct (mul_val (map (fun p => (fst p, eval real_funs rho (snd p))) ops)) as [z|] eqn:Ez; [|discriminate].
      destruct (He x Ex) as [f [d [Hf [Hd He']]]]. pose proof (derives_value _ _ _ Ex Hf) as Hfx.
      cbn [mul_terms]. rewrite !float_eq_not by apply differentiate_not_float. rewrite map_fst_pair.
      cbn [app map fst snd].
      destruct m.
      + destruct (IH (pre ++ [(true, e)]) (P * x) z) as [g [d2 [Hg [Hd2 Hz']]]]; [|reflexivity|].
        { rewrite map_app. rewrite (mul_val_app _ _ P (x * 1)); [f_equal; toR; ring|assumption|].
          cbn. rewrite Ex. reflexivity. }
        assert (Hgz : g (rho v) = z).
        { apply locally_singleton in Hg. erewrite map_ext in Hg; [rewrite Ez in Hg; congruence|].
          intros [s e2]. cbn [fst snd]. rewrite at_here. reflexivity. }
        exists (fun t => f t * g t), (d * z + x * d2). split; [|split].
        * generalize (filter_and _ _ Hf Hg). apply filter_imp. intros t [H1 H2]. cbn [mul_val]. rewrite H1, H2. reflexivity.
        * rewrite <- Hfx, <- Hgz. apply (is_derive_mult f g); [assumption|assumption|]. intros; apply Rmult_comm.
        * cbn [sum_val]. rewrite Hz'. rewrite app_nil_r. cbn [eval map fst snd mul_val].
          rewrite He', map_app, (mul_val_app _ _ _ _ HP Ez). f_equal. toR. ring.
      + destruct (feq_dec x f0) as [E0|E0]; [discriminate|]. cbn [RF f0] in E0.
        destruct (IH (pre ++ [(false, e)]) (P / x) z) as [g [d2 [Hg [Hd2 Hz']]]]; [|reflexivity|].
        { rewrite map_app. rewrite (mul_val_app _ _ P (1 / x)); [f_equal; toR; field; assumption|assumption|].
          cbn [map fst snd mul_val]. rewrite Ex. destruct (feq_dec x f0); [contradiction|]. reflexivity. }
        assert (Hgz : g (rho v) = z).
        { apply locally_singleton in Hg. erewrite map_ext in Hg; [rewrite Ez in Hg; congruence|].
          intros [s e2]. cbn [fst snd]. rewrite at_here. reflexivity. }
        exists (fun t => g t / f t), ((d2 * x - z * d) / (x * x)). split; [|split].
        * assert (Hn : locally (rho v) (fun t => f t <> 0)).
          { apply (locally_of_continuous f (fun z => z <> 0) d Hd). rewrite Hfx. apply locally_neq0. assumption. }
          generalize (filter_and _ _ Hn (filter_and _ _ Hf Hg)). apply filter_imp. intros t [H0 [H1 H2]].
          cbn [mul_val]. rewrite H1, H2. destruct (@feq_dec RF (f t) f0) as [E|E]; [destruct (H0 E)|]. reflexivity.
        * evar_last. { apply (is_derive_div g f); [exact Hd2|exact Hd|]. rewrite Hfx. assumption. }
          rewrite Hfx, Hgz. toR. field. assumption.
        * cbn [sum_val]. rewrite Hz'. cbn [eval map fst snd mul_val].
          rewrite He', !map_app.
          rewrite (mul_val_app _ _ P (z * (1 / (x * x)))); [f_equal; toR; field; assumption|assumption|].
          apply (mul_val_app (F := RF) _ _ z (1 / (x * x))); [assumption|]. cbn [map fst snd mul_val eval]. rewrite Ex.
          rewrite (fpowZ_powR x 2) by lia. cbv iota beta.
          match goal with |- context [@feq_dec RF ?a ?b] => destruct (@feq_dec RF a b) as [E1|E1] end.
          -- exfalso. change (x ^ 2 = 0) in E1. apply (pow_nonzero x 2 E0). exact E1.
          -- f_equal. change (1 / x ^ 2 = 1 / (x * x)). field. assumption.
  Qed.

  (** the domain of the claim: in a general power the exponent does not contain [v] and the base is not
      zero at the point *)
  Inductive good : expr RF -> Prop :=
  | gd_num : forall k c, good (Num k c)
  | gd_var : forall x, good (Var x)
  | gd_sum : forall ops, (forall s e, In (s, e) ops -> good e) -> good (Sum ops)
  | gd_mul : forall ops, (forall s e, In (s, e) ops -> good e) -> good (Mul ops)
  | gd_neg : forall e, good e -> good (Neg e)
  | gd_ipow : forall e n, good e -> good (IPow e n)
  | gd_pow : forall b e, good b -> ~ occurs v e -> eval real_funs rho b <> Some 0 -> good (Pow b e)
  | gd_fun : forall k e, good e -> good (Fun k e)
  | gd_handle : forall e, good e -> good (Handle e).

  Lemma is_derive_asin : forall x, -1 < x < 1 -> is_derive asin x (/ sqrt (1 - x ^ 2)).
  Proof.
    intros x H. apply is_derive_Reals. pose proof (derive_pt_asin x H) as E.
    destruct (derivable_pt_asin x H) as [l Hl]. cbn in E. replace (/ sqrt (1 - x ^ 2)) with l; [exact Hl|].
    rewrite E. unfold Rsqr, Rdiv. rewrite Rmult_1_l. do 3 f_equal. ring.
  Qed.

  Lemma is_derive_acos : forall x, -1 < x < 1 -> is_derive acos x (- / sqrt (1 - x ^ 2)).
  Proof.
    intros x H. apply is_derive_Reals. pose proof (derive_pt_acos x H) as E.
    destruct (derivable_pt_acos x H) as [l Hl]. cbn in E. replace (- / sqrt (1 - x ^ 2)) with l; [exact Hl|].
    rewrite E. unfold Rsqr. replace (1 - x * x) with (1 - x ^ 2) by ring. unfold Rdiv. ring.
  Qed.

  Lemma locally_unit : forall x, -1 < x < 1 -> locally x (fun y => -1 < y < 1).
  Proof.
    intros x [H1 H2]. apply filter_and; [apply (open_gt (-1) x H1)|apply (open_lt 1 x H2)].
  Qed.

  Lemma one_minus_pos : forall x, -1 < x < 1 -> 0 < 1 - x ^ 2.
  Proof. intros x H. nra. Qed.

  Lemma Rpower_minus_half : forall x, 0 < x -> Rpower x (- (1 / (1 + 1))) = / sqrt x.
  Proof. intros x H. rewrite Rpower_Ropp. f_equal. replace (1 / (1 + 1)) with (/ 2) by lra. apply Rpower_sqrt. assumption. Qed.

  Lemma unary_rule : forall k e, spec_ok e -> spec_ok (Fun k e).
  Proof.
    intros k e IH y Hy. cbn [eval] in Hy. destruct (eval real_funs rho e) as [x|] eqn:Ex; [|discriminate].
    destruct (IH x Ex) as [f [d [Hf [Hd He']]]]. pose proof (derives_value _ _ _ Ex Hf) as Hfx.
    cbn [fn real_funs] in Hy. unfold derives.
    assert (Step : forall g dg, locally x (fun z => real_fn k z = Some (g z)) -> is_derive g x dg ->
      eval real_funs rho (differentiate v (Fun k e)) = Some (d * dg) ->
      exists f d, locally (rho v) (fun t => at_ t (Fun k e) = Some (f t)) /\ is_derive f (rho v) d /\
        eval real_funs rho (differentiate v (Fun k e)) = Some d).
    { intros g dg H1 H2 H3. destruct (derive_fun k e f d x g dg Hf Hd Hfx H1 H2) as [h [Hh Hh']].
      exists h, (d * dg). auto. }
    destruct k; cbn [real_fn] in Hy.
    - (* sqrt *)
      destruct (Rlt_dec 0 x) as [Hx|]; [|discriminate].
      apply (Step sqrt (1 / (2 * sqrt x))).
      + generalize (locally_pos x Hx). apply filter_imp. intros z Hz. cbn [real_fn]. destruct (Rlt_dec 0 z); [reflexivity|contradiction].
      + exact (is_derive_sqrt (fun z => z) x 1 (@is_derive_id R_AbsRing x) Hx).
      + cbn [differentiate eval map fst snd mul_val half_node minus_half_node]. rewrite Ex, He'.
        cbn [pw real_funs]. unfold real_pw. destruct (Rlt_dec 0 x); [|contradiction]. f_equal.
        change (Rpower x (- (1 / (1 + 1))) * (d * (1 / (1 + 1) * 1)) = d * (1 / (2 * sqrt x))).
        rewrite Rpower_minus_half by assumption. pose proof (sqrt_lt_R0 x Hx). field. lra.
    - (* exp *)
      apply (Step exp (exp x)).
      + apply filter_forall. reflexivity.
      + apply is_derive_exp.
      + cbn [differentiate eval map fst snd mul_val times]. rewrite Ex, He'. cbn [fn real_funs real_fn].
        f_equal. toR. ring.
    - (* log *)
      destruct (Rlt_dec 0 x) as [Hx|]; [|discriminate].
      apply (Step ln (/ x)).
      + generalize (locally_pos x Hx). apply filter_imp. intros z Hz. cbn [real_fn]. destruct (Rlt_dec 0 z); [reflexivity|contradiction].
      + apply is_derive_ln. assumption.
      + cbn [differentiate eval map fst snd mul_val]. rewrite Ex, He'.
        destruct (feq_dec x f0) as [E|E]; [exfalso; cbn in E; lra|]. f_equal. toR. field. exact E.
    - (* sin *)
      apply (Step sin (cos x)).
      + apply filter_forall. reflexivity.
      + apply is_derive_sin.
      + cbn [differentiate eval map fst snd mul_val times]. rewrite Ex, He'. cbn [fn real_funs real_fn].
        f_equal. toR. ring.
    - (* cos *)
      apply (Step cos (- sin x)).
      + apply filter_forall. reflexivity.
      + apply is_derive_cos.
      + cbn [differentiate eval map fst snd mul_val times]. rewrite Ex, He'. cbn [fn real_funs real_fn].
        f_equal. toR. ring.
    - (* tan *)
      destruct (Req_EM_T (cos x) 0) as [|Hx]; [discriminate|].
      apply (Step tan (1 / (cos x * cos x))).
      + assert (Hc : continuous cos x) by (apply (ex_derive_continuous cos); exists (- sin x); apply is_derive_cos).
        generalize (Hc (fun z => z <> 0) (locally_neq0 _ Hx)). unfold filtermap. apply filter_imp. intros z Hz. cbn [real_fn].
        destruct (Req_EM_T (cos z) 0); [contradiction|reflexivity].
      + unfold tan. evar_last. { apply (is_derive_div sin cos); [apply is_derive_sin|apply is_derive_cos|assumption]. }
        pose proof (sin2_cos2 x) as E. unfold Rsqr in E. replace (1 / (cos x * cos x)) with ((sin x * sin x + cos x * cos x) / (cos x * cos x)) by (rewrite E; reflexivity).
        field. assumption.
      + cbn [differentiate eval map fst snd mul_val over]. rewrite Ex, He'. cbn [fn real_funs real_fn].
        rewrite (fpowZ_powR (cos x) 2) by lia. cbv iota beta.
        match goal with |- context [@feq_dec RF ?a ?b] => destruct (@feq_dec RF a b) as [E1|E1] end.
        * exfalso. change (cos x ^ 2 = 0) in E1. exact (pow_nonzero _ 2 Hx E1).
        * f_equal. change (d * (1 / cos x ^ 2) = d * (1 / (cos x * cos x))). field. assumption.
    - (* asin *)
      destruct (Rlt_dec (-1) x) as [Hx1|]; [|discriminate]. destruct (Rlt_dec x 1) as [Hx2|]; [|discriminate].
      assert (Hx : -1 < x < 1) by lra. apply (Step asin (/ sqrt (1 - x ^ 2))).
      + generalize (locally_unit x Hx). apply filter_imp. intros z [Hz1 Hz2]. cbn [real_fn].
        destruct (Rlt_dec (-1) z); [|contradiction]. destruct (Rlt_dec z 1); [reflexivity|contradiction].
      + apply is_derive_asin. assumption.
      + cbn [differentiate eval map fst snd mul_val sum_val over int_node]. rewrite Ex, He'.
        rewrite (fpowZ_powR x 2) by lia. cbn [fn real_funs real_fn].
        match goal with |- context [Rlt_dec 0 ?a] => change a with ((1 + 0) + (- x ^ 2 + 0)) end.
        replace ((1 + 0) + (- x ^ 2 + 0)) with (1 - x ^ 2) by ring.
        pose proof (one_minus_pos x Hx) as Hp. destruct (Rlt_dec 0 (1 - x ^ 2)); [|contradiction].
        pose proof (sqrt_lt_R0 _ Hp) as Hs.
        match goal with |- context [@feq_dec RF ?a ?b] => destruct (@feq_dec RF a b) as [E1|E1] end.
        * exfalso. change (sqrt (1 - x ^ 2) = 0) in E1. lra.
        * f_equal. change (d * (1 / sqrt (1 - x ^ 2)) = d * / sqrt (1 - x ^ 2)). field. exact E1.
    - (* acos *)
      destruct (Rlt_dec (-1) x) as [Hx1|]; [|discriminate]. destruct (Rlt_dec x 1) as [Hx2|]; [|discriminate].
      assert (Hx : -1 < x < 1) by lra. apply (Step acos (- / sqrt (1 - x ^ 2))).
      + generalize (locally_unit x Hx). apply filter_imp. intros z [Hz1 Hz2]. cbn [real_fn].
        destruct (Rlt_dec (-1) z); [|contradiction]. destruct (Rlt_dec z 1); [reflexivity|contradiction].
      + apply is_derive_acos. assumption.
      + cbn [differentiate eval map fst snd mul_val sum_val over int_node]. rewrite Ex, He'.
        rewrite (fpowZ_powR x 2) by lia. cbn [fn real_funs real_fn].
        match goal with |- context [Rlt_dec 0 ?a] => change a with ((1 + 0) + (- x ^ 2 + 0)) end.
        replace ((1 + 0) + (- x ^ 2 + 0)) with (1 - x ^ 2) by ring.
        pose proof (one_minus_pos x Hx) as Hp. destruct (Rlt_dec 0 (1 - x ^ 2)); [|contradiction].
        pose proof (sqrt_lt_R0 _ Hp) as Hs.
        match goal with |- context [@feq_dec RF ?a ?b] => destruct (@feq_dec RF a b) as [E1|E1] end.
        * exfalso. change (sqrt (1 - x ^ 2) = 0) in E1. lra.
        * f_equal. change (- d * (1 / sqrt (1 - x ^ 2)) = d * - / sqrt (1 - x ^ 2)). field. exact E1.
    - (* atan *)
      apply (Step atan (/ (1 + x ^ 2))).
      + apply filter_forall. reflexivity.
      + apply is_derive_Reals. apply derivable_pt_lim_atan.
      + cbn [differentiate eval map fst snd mul_val sum_val over int_node]. rewrite Ex, He'.
        rewrite (fpowZ_powR x 2) by lia. cbv iota beta.
        assert (Hp : 0 < 1 + x ^ 2) by nra.
        match goal with |- context [@feq_dec RF ?a ?b] => change a with ((1 + 0) + (x ^ 2 + 0)) end.
        replace ((1 + 0) + (x ^ 2 + 0)) with (1 + x ^ 2) by ring.
        match goal with |- context [@feq_dec RF ?a ?b] => destruct (@feq_dec RF a b) as [E1|E1] end.
        * exfalso. change (1 + x ^ 2 = 0) in E1. lra.
        * f_equal. change (d * (1 / (1 + x ^ 2)) = d * / (1 + x ^ 2)). field. exact E1.
  Qed.


  Lemma real_pw_neg : forall b n, b < 0 -> real_pw b (IZR n) = Some (powR b n).
  Proof.
    intros b n H. unfold real_pw. destruct (Rlt_dec 0 b); [lra|]. rewrite real_as_int_IZR.
    assert (E : fpowZ (F := RF) b n = Some (powR b n)) by (apply fpowZ_powR; intros; lra).
    destruct (Z_lt_le_dec n 1); [|exact E]. destruct (Req_EM_T b 0); [lra|exact E].
  Qed.

  (** a power with exponent independent of [v] *)
  Lemma power_rule_real : forall b e, spec_ok b -> ~ occurs v e -> eval real_funs rho b <> Some 0 ->
    spec_ok (Pow b e).
  Proof.
    intros b e IH Hv Hb0 y Hy. cbn [eval] in Hy.
    destruct (eval real_funs rho b) as [x|] eqn:Ex; [|discriminate].
    destruct (eval real_funs rho e) as [c|] eqn:Ec; [|discriminate].
    destruct (IH x Ex) as [f [d [Hf [Hd He']]]]. pose proof (derives_value _ _ _ Ex Hf) as Hfx.
    cbn [pw real_funs] in Hy. unfold derives.
    assert (Hc : forall t, at_ t e = Some c).
    { intro t. unfold at_. rewrite <- Ec. apply eval_ext. intros z Hz. apply upd_other. intros ->. contradiction. }
    assert (Hx0 : x <> 0) by (intros ->; apply Hb0; reflexivity).
    assert (Step : forall g dg, locally x (fun z => real_pw z c = Some (g z)) -> is_derive g x dg ->
      eval real_funs rho (differentiate v (Pow b e)) = Some (d * dg) ->
      exists f d, locally (rho v) (fun t => at_ t (Pow b e) = Some (f t)) /\ is_derive f (rho v) d /\
        eval real_funs rho (differentiate v (Pow b e)) = Some d).
    { intros g dg H1 H2 H3. exists (fun t => g (f t)), (d * dg). split; [|split].
      - rewrite <- Hfx in H1. pose proof (locally_of_continuous f _ d Hd H1) as H1'.
        generalize (filter_and _ _ Hf H1'). apply filter_imp. intros t [Ha Hb].
        specialize (Hc t). unfold at_ in *. cbn [eval]. rewrite Ha, Hc. exact Hb.
      - rewrite <- Hfx in H2. exact (is_derive_comp g f (rho v) dg d H2 Hd).
      - exact H3. }
    destruct (Rlt_dec 0 x) as [Hx|Hx].
    - apply (Step (fun z => Rpower z c) (c * Rpower x (c - 1))).
      + generalize (locally_pos x Hx). apply filter_imp. intros z Hz. unfold real_pw.
        destruct (Rlt_dec 0 z); [reflexivity|contradiction].
      + apply is_derive_Reals. apply derivable_pt_lim_power. assumption.
      + cbn [differentiate eval map fst snd mul_val sum_val int_node]. rewrite Ex, Ec, He'. cbn [pw real_funs].
        match goal with |- context [real_pw x ?a] => change a with (c + (- (1 + 0) + 0)) end.
        replace (c + (- (1 + 0) + 0)) with (c - 1) by ring. unfold real_pw.
        destruct (Rlt_dec 0 x); [|contradiction]. f_equal. toR. ring.
    - unfold real_pw in Hy. destruct (Rlt_dec 0 x) as [|_]; [contradiction|].
      destruct (real_as_int c) as [n|] eqn:En; [|discriminate]. apply real_as_int_sound in En.
      assert (Hneg : x < 0) by (destruct (Rtotal_order x 0) as [|[|]]; [assumption|contradiction|contradiction]).
      apply (Step (fun z => powR z n) (c * powR x (n - 1))).
      + generalize (locally_neg x Hneg). apply filter_imp. intros z Hz. rewrite En. apply real_pw_neg. assumption.
      + destruct (Z.eq_dec n 0) as [E0|E0].
        * subst n. cbn [powR]. replace (c * _) with 0 by (rewrite En; ring).
          exact (@is_derive_const R_AbsRing R_NormedModule _ _).
        * rewrite En. apply powR_derive; [intros; assumption|assumption].
      + cbn [differentiate eval map fst snd mul_val sum_val int_node]. rewrite Ex, Ec, He'. cbn [pw real_funs].
        match goal with |- context [real_pw x ?a] => change a with (c + (- (1 + 0) + 0)) end.
        replace (c + (- (1 + 0) + 0)) with (IZR (n - 1)) by (rewrite En, minus_IZR; ring).
        rewrite real_pw_neg by assumption. f_equal. toR. ring.
  Qed.

  Lemma differentiate_real_ok : forall e, good e -> spec_ok e.
  Proof.
    intro e. induction e as [k c|x|ops IH|ops IH|e IH|e n IH|b e IHb IHe|k e IH|e IH] using expr_rect';
      intro Hg.
    - intros y Hy. exists (fun _ => c), 0. split; [|split].
      + apply filter_forall. reflexivity.
      + exact (@is_derive_const R_AbsRing R_NormedModule _ _).
      + reflexivity.
    - intros y Hy. unfold derives, at_. cbn [eval differentiate]. destruct (Nat.eqb_spec x v) as [->|E].
      + exists (fun t => t), 1. split; [|split].
        * apply filter_forall. intro t. rewrite upd_same. reflexivity.
        * exact (@is_derive_id R_AbsRing _).
        * reflexivity.
      + exists (fun _ => rho x), 0. split; [|split].
        * apply filter_forall. intro t. rewrite upd_other by assumption. reflexivity.
        * exact (@is_derive_const R_AbsRing R_NormedModule _ _).
        * reflexivity.
    - intros y Hy. cbn [eval] in Hy. destruct (derive_sum ops) with (y := y) as [f [d [H1 [H2 H3]]]]; [|exact Hy|].
      + rewrite Forall_forall in *. intros [s e] Hin. apply (IH _ Hin). inversion Hg; subst. eauto.
      + exists f, d. split; [exact H1|split; [exact H2|]]. cbn [differentiate]. apply (@eval_sum_or_zero RF). exact H3.
    - intros y Hy. cbn [eval] in Hy.
      destruct (derive_mul ops) with (y := y) (pre := @nil (bool * expr RF)) (P := 1 : RF) as [f [d [H1 [H2 H3]]]];
        [|reflexivity|exact Hy|].
      + rewrite Forall_forall in *. intros [s e] Hin. apply (IH _ Hin). inversion Hg; subst. eauto.
      + exists f, d. split; [exact H1|split; [exact H2|]]. cbn [differentiate]. apply (@eval_sum_or_zero RF). rewrite H3.
        apply (f_equal (@Some R)). toR. ring.
    - inversion Hg; subst. intros y Hy. cbn [eval] in Hy. destruct (eval real_funs rho e) as [x|] eqn:Ex; [|discriminate].
      destruct (IH H0 x Ex) as [f [d [Hf [Hd He']]]]. exists (fun t => - f t), (- d). split; [|split].
      + generalize Hf. apply filter_imp. intros t Ht. unfold at_ in *. cbn [eval]. rewrite Ht. reflexivity.
      + apply (is_derive_opp f). assumption.
      + cbn [differentiate eval]. rewrite He'. reflexivity.
    - inversion Hg; subst. intros y Hy. cbn [eval] in Hy. destruct (eval real_funs rho e) as [x|] eqn:Ex; [|discriminate].
      destruct (IH H0 x Ex) as [f [d [Hf [Hd He']]]]. pose proof (derives_value _ _ _ Ex Hf) as Hfx.
      pose proof (fpowZ_defined _ _ _ Hy) as Hdef.
      assert (Hloc : locally (rho v) (fun t => at_ t (IPow e n) = Some (powR (f t) n))).
      { destruct (Z_lt_le_dec n 0) as [Hn|Hn].
        - specialize (Hdef Hn). rewrite <- Hfx in Hdef.
          generalize (filter_and _ _ Hf (locally_of_continuous f _ d Hd (locally_neq0 _ Hdef))).
          apply filter_imp. intros t [H1 H2]. unfold at_ in *. cbn [eval]. rewrite H1. apply fpowZ_powR. auto.
        - generalize Hf. apply filter_imp. intros t H1. unfold at_ in *. cbn [eval]. rewrite H1. apply fpowZ_powR. lia. }
      destruct (Z.eq_dec n 0) as [E0|E0].
      { subst n. exists (fun t => powR (f t) 0), 0. split; [exact Hloc|split].
        - exact (@is_derive_const R_AbsRing R_NormedModule _ _).
        - reflexivity. }
      exists (fun t => powR (f t) n), (d * (IZR n * powR x (n - 1))). split; [exact Hloc|split].
      { apply (is_derive_comp (fun z => powR z n) f (rho v)); [|assumption]. rewrite Hfx. apply powR_derive; assumption. }
      assert (Hdef' : (n - 1 < 0)%Z -> x <> 0) by (intro; apply Hdef; lia).
      cbn [differentiate]. destruct (Z.eqb_spec n 0) as [|_]; [contradiction|].
      destruct (Z.eqb_spec n 1) as [->|E1].
      { rewrite He'. f_equal. change (d = d * (1 * 1)). ring. }
      destruct (Z.eqb_spec n 2) as [->|E2].
      { cbn [eval map fst snd mul_val int_node]. rewrite Ex, He'. f_equal.
        change (2 - 1)%Z with 1%Z. unfold powR. change (Pos.to_nat 1) with 1%nat.
        change ((1 + (1 + 0)) * (x * (d * 1)) = d * (2 * (x * 1))). ring. }
      cbn [eval map fst snd mul_val int_node]. rewrite Ex, He', fpowZ_powR by exact Hdef'. f_equal.
      rewrite RF_fZ. toR. ring.
    - inversion Hg; subst. apply power_rule_real; auto.
    - inversion Hg; subst. apply unary_rule. auto.
    - inversion Hg; subst. intros y Hy. destruct (IH H0 y Hy) as [f [d [H1 [H2 H3]]]]. exists f, d.
      split; [exact H1|split; [exact H2|exact H3]].
  Qed.
End Deriv.

(** Differentiate(v) is the derivative, at every real point of the domain *)
Theorem differentiate_real : forall rho v e y, good rho v e -> eval real_funs rho e = Some y ->
  exists (f : R -> R) (d : R),
    locally (rho v) (fun t => eval real_funs (upd rho v t) e = Some (f t)) /\
    is_derive f (rho v) d /\
    eval real_funs rho (differentiate v e) = Some d.
Proof. intros rho v e y Hg Hy. exact (differentiate_real_ok rho v e Hg y Hy). Qed.

(** a power with the variable in the exponent: 2^x at 1 *)
Definition two_to_x : expr RF := Pow (Num KInteger (2 : RF)) (Var 0).

Lemma two_to_x_wrong : exists (f : R -> R) (d d' : R),
    locally 1 (fun t => eval real_funs (upd (fun _ => (1 : RF)) 0%nat t) two_to_x = Some (f t)) /\
    is_derive f 1 d /\
    eval real_funs (fun _ => (1 : RF)) (differentiate 0 two_to_x) = Some d' /\ d <> d'.
Proof.
  exists (fun t => Rpower 2 t), (2 * ln 2), 0. split; [|split; [|split]].
  - apply filter_forall. intro t. unfold two_to_x. cbn [eval pw real_funs]. rewrite upd_same. unfold real_pw.
    destruct (Rlt_dec 0 2); [reflexivity|lra].
  - unfold Rpower. auto_derive; [trivial|]. replace (exp (1 * ln 2)) with 2; [ring|].
    rewrite Rmult_1_l, exp_ln; lra.
  - unfold two_to_x. cbn [differentiate eval map fst snd mul_val sum_val zero_node int_node pw real_funs].
    unfold real_pw. destruct (Rlt_dec 0 2); [|lra]. f_equal. toR. ring.
  - pose proof (ln_lt_2) as H. lra.
Qed.

(** the claim covers a tree using every function *)
Definition sample_functions : expr RF :=
  Sum [(true, Mul [(true, Fun KExp (Fun KSin (Var 0))); (false, Fun KSqrt (Sum [(true, Num KInteger (2 : RF)); (true, Var 0)]))]);
       (false, Fun KLog (Sum [(true, Fun KCos (Var 0)); (true, Num KInteger (3 : RF))]));
       (true, Fun KAsin (Var 0)); (true, Fun KAcos (Neg (Var 0))); (true, Fun KTan (Var 0));
       (true, Fun KAtan (IPow (Var 0) 3)); (true, Pow (Sum [(true, Var 0); (false, Num KInteger (5 : RF))]) (Num KInteger (-3 : RF)))].

Lemma sample_functions_good : good (fun _ => (0 : RF)) 0%nat sample_functions
  /\ exists y, eval real_funs (fun _ => (0 : RF)) sample_functions = Some y.
Proof.
  split.
  - unfold sample_functions.
    repeat match goal with
    | |- good _ _ (Pow _ _) => apply gd_pow
    | |- good _ _ _ => constructor
    | |- forall s e, In (s, e) _ -> _ => intros s e H; cbn [In] in H
    | H : _ \/ _ |- _ => destruct H as [H|H]
    | H : False |- _ => destruct H
    | H : (_, _) = (_, _) |- _ => injection H as <- <-
    | |- ~ occurs _ _ => intro Hocc; inversion Hocc
    | |- eval _ _ _ <> _ => cbn; intro H; injection H; lra
    end.
  - unfold sample_functions.
    cbn [eval map fst snd sum_val mul_val fn real_funs real_fn pw fpowZ].
    cbn [RF f0 f1 fadd fmul fsub fopp fdiv].
    rewrite sin_0, cos_0.
    repeat match goal with
    | |- context [Rlt_dec ?a ?b] => destruct (Rlt_dec a b); [|exfalso; lra]
    | |- context [Req_EM_T ?a ?b] => destruct (Req_EM_T a b); [exfalso; lra|]
    end.
    match goal with |- context [if ?c then None else _] => destruct c as [E|E] end.
    + exfalso. change (sqrt (2 + (0 + 0)) = 0) in E. pose proof (sqrt_lt_R0 (2 + (0 + 0)) ltac:(lra)). lra.
    + unfold real_pw. destruct (Rlt_dec 0 _) as [H|H]; [eexists; reflexivity|].
      change (-3) with (IZR (-3)). rewrite real_as_int_IZR. destruct (Z_lt_le_dec (-3) 1); [|lia].
      destruct (Req_EM_T _ 0) as [H1|H1]; [exfalso; lra|].
      rewrite fpowZ_powR by (intros _; exact H1). eexists; reflexivity.
Qed.
