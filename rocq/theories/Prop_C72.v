(** C72: a predictor uses the method, system and precision asked for last, and reports truthfully. *)
From Coq Require Import List Arith Lia Bool.
From Verif Require Import Base Newton RK RKTables Predictor.
Import ListNotations.

(** After construction and any sequence of changes of method, system and precision, as long as only methods with a
    table are asked for, the predictor has the coefficients, the order, the number of stages and the error weights of
    the last method, storage for the last system, and everything has the last precision. *)
Theorem C72_ready_partial : forall d m sys l, supported m = true -> forallb supported_op l = true ->
  snd (construct d m sys) = true /\
  let w := prun (d, fst (construct d m sys)) l in
  ready (snd w) (last_method m l) (last_system sys l) (last_precision d l) /\ fst w = last_precision d l.
Proof.
  intros d m sys l Sm Sl. destruct (construct_ready d m sys Sm) as [A B]. split; [exact A|]. now apply run_ready.
Qed.
Print Assumptions C72_ready_partial.

(** The coefficients of a method with a table satisfy the order conditions (Butcher) up to the order it reports, and not
    both its weights and those of the solution it is compared with satisfy them up to one more; there are error weights
    exactly if it claims to have an error estimate. *)
Theorem C72_order : forall m T, table_of m = Some T ->
  order_conditions T (b_at T) (order m) /\
  ~ (order_conditions T (b_at T) (S (order m)) /\ order_conditions T (fun i => fsub (b_at T i) (d_at T i)) (S (order m))) /\
  (has_error m = true <-> td T <> []).
Proof.
  intros m T E. destruct m; try discriminate; injection E as <-;
    (split; [apply check_order_sound; vm_compute; reflexivity|]);
    (split; [|cbn; split; congruence]); intros [A B];
    first [refine (check_fails_sound _ _ _ _ A); vm_compute; reflexivity|refine (check_fails_sound _ _ _ _ B); vm_compute; reflexivity].
Qed.
Print Assumptions C72_order.

(** Two of the methods a user can ask for have no table. Asking for one throws, but the predictor then already reports
    that method and its order while it still has the coefficients of the old one, *)
Theorem C72_ready_refuted : forall d sys m T, table_of m = Some T ->
  let r := predictor_method d Heun (fst (construct d m sys)) in
  snd r = false /\ meth (fst r) = Heun /\ ord (fst r) = 2 /\ tab (fst r) = Some T.
Proof.
  intros d sys m T H. pose proof (construct_ready d m sys (table_supported m T H)) as [_ R].
  destruct R as (_ & _ & C & _). unfold predictor_method. cbn [table_of fst snd meth ord tab order].
  repeat split. now rewrite C.
Qed.
Print Assumptions C72_ready_refuted.

(** and it claims to have an error estimate although the error weights were never filled: the estimate would read
    outside the table. *)
Theorem C72_norsett_refuted : forall d sys m, supported m = true -> has_error m = false ->
  let s := fst (predictor_method d RKNorsett34 (fst (construct d m sys))) in
  has_error (meth s) = true /\ dtab s = None.
Proof.
  intros d [nf nv] m Sm Hm. destruct m; try discriminate; split; reflexivity.
Qed.
Print Assumptions C72_norsett_refuted.

Section Predict.
  Context {X Tm NE : Type}.
  Variables (xzero : X) (xadd : X -> X -> X) (xscale : QcF -> X -> X) (xdt : X -> X) (t : Tm) (tm : QcF -> Tm).
  Variables (rhs : X -> Tm -> option X) (times : NE -> NE -> NE) (norm_err : X -> NE) (prop_err : NE -> nat -> NE).
  Variables (prop_K : list X -> nat -> NE) (normJ : NE) (draw : nat -> NE).
  Variables (criterionA : NE -> NE -> bool) (criterionC : NE -> bool).
  Notation predict := (predict xzero xadd xscale xdt t tm rhs times norm_err prop_err prop_K normJ draw criterionA criterionC).
  Notation step := (full_step xzero xadd xscale xdt t tm rhs).

  (** A tracker's prediction never throws.  It succeeds exactly if the Runge-Kutta step succeeded and both precision
      criteria hold, and then returns the prediction of the step; more precision is asked for exactly if the step
      succeeded and a criterion fails; otherwise the code is that of the step, and there is no prediction. *)
  Theorem C72_codes : forall m T freq k x n, exists r,
    predict m T freq k x n = Some r /\
    let good := criterionA (pnormJ r) (pnormJinv r) && criterionC (pnormJinv r) in
    (pcode r = Success <-> fst (step T x) = Success /\ good = true) /\
    (pcode r = HigherPrecisionNecessary <-> fst (step T x) = Success /\ good = false) /\
    (fst (step T x) <> Success -> pcode r = fst (step T x) /\ next_space r = None) /\
    (fst (step T x) = Success -> exists y K, step T x = (Success, Some (y, K)) /\ next_space r = Some y).
  Proof.
    intros m T freq k x n.
    destruct (predict_total xzero xadd xscale xdt t tm rhs times norm_err prop_err prop_K normJ draw criterionA criterionC
                m T freq k x n) as [r (E & A & B & C & _ & D)].
    exists r. split; [exact E|]. rewrite B, C. cbn zeta in D.
    destruct (full_step_agrees xzero xadd xscale xdt t tm rhs T x) as (F & G & _).
    pose proof (full_step_codes xzero xadd xscale xdt t tm rhs T x) as H.
    assert (Some_iff : fst (step T x) = Success -> exists y K, step T x = (Success, Some (y, K))).
    { unfold full_step. destruct (stages T =? 0)%nat; [intros _; eauto|]. destruct (rhs x t); [|discriminate].
      destruct (fill xzero xadd xscale xdt tm rhs T (stages T - 1) 1 x [x0]); [intros _; eauto|discriminate]. }
    assert (None_iff : fst (step T x) <> Success -> snd (step T x) = None).
    { unfold full_step. destruct (stages T =? 0)%nat; [intros Q; now destruct Q|]. destruct (rhs x t); [|reflexivity].
      destruct (fill xzero xadd xscale xdt tm rhs T (stages T - 1) 1 x [x0]); [intros Q; now destruct Q|reflexivity]. }
    rewrite F in D, H. rewrite G in A. cbn zeta in H.
    split; [|split; [|split]].
    - rewrite D. destruct H as [H|[H|H]]; rewrite H; cbn [is_success negb];
        destruct (criterionA _ _ && criterionC _); split; try (intros [? ?]); intros; try split; congruence.
    - rewrite D. destruct H as [H|[H|H]]; rewrite H; cbn [is_success negb];
        destruct (criterionA _ _ && criterionC _); split; try (intros [? ?]); intros; try split; congruence.
    - intros Q. rewrite D, A, (None_iff Q). split; [|reflexivity]. destruct H as [H|[H|H]]; [now destruct Q|..]; now rewrite H.
    - intros Q. destruct (Some_iff Q) as (y & K & R). exists y, K. split; [exact R|]. rewrite A, R. reflexivity.
  Qed.

  (** The condition number over a run of predictions: recomputed by every prediction if the counter of the tracker has
      reached the frequency at the start, never otherwise. *)
  Theorem C72_condition_partial : forall m T freq xs n, exists l,
    predict_run xzero xadd xscale xdt t tm rhs times norm_err prop_err prop_K normJ draw criterionA criterionC
      m T freq 0 xs n = Some l /\ length l = length xs /\
    forall j v, nth_error l j = Some v ->
      (freq <= counter n -> cond v = times normJ (draw (2 * j + 1))) /\ (counter n < freq -> cond v = cond n).
  Proof.
    intros m T freq xs n.
    destruct (predict_run_cond xzero xadd xscale xdt t tm rhs times norm_err prop_err prop_K normJ draw criterionA criterionC
                m T freq xs 0 n) as [l (A & B & C)].
    exists l. split; [exact A|]. split; [exact B|]. intros j v H. destruct (C j v H) as [_ D]. rewrite D. split; intros Q.
    - apply Nat.leb_le in Q. rewrite Q. f_equal. f_equal. lia.
    - apply Nat.leb_gt in Q. now rewrite Q.
  Qed.

  (** Documented: the number of steps between two estimates ([freq]) is taken between them, counting from the counter,
      which is then reset to 1.  That fails for every frequency above 1, from a counter that has reached it (the second
      prediction recomputes although only one step was taken) and from one that has not (it never is recomputed). *)
  Fixpoint documented (freq c : nat) (j : nat) : bool :=   (* does the j-th prediction recompute? *)
    match j with
    | O => (freq <=? c)%nat
    | S j' => documented freq (if (freq <=? c)%nat then 1 else S c) j'
    end.
  Theorem C72_condition_refuted : forall m T freq c v x, 1 < freq ->
    (freq <= c ->
      documented freq c 1 = false /\ exists a b,
      predict_run xzero xadd xscale xdt t tm rhs times norm_err prop_err prop_K normJ draw criterionA criterionC
        m T freq 0 [x; x] (mkN v c) = Some [a; b] /\ cond b = times normJ (draw 3)) /\
    (c < freq ->
      documented freq c (freq - c) = true /\
      forall xs l, predict_run xzero xadd xscale xdt t tm rhs times norm_err prop_err prop_K normJ draw criterionA criterionC
        m T freq 0 xs (mkN v c) = Some l -> Forall (fun a => cond a = v) l).
  Proof.
    intros m T freq c v x Hf. split; intros H.
    - split.
      + cbn [documented]. apply Nat.leb_le in H. rewrite H. apply Nat.leb_gt. exact Hf.
      + destruct (C72_condition_partial m T freq [x; x] (mkN v c)) as [l (A & B & C)].
        destruct l as [|a [|b [|? ?]]]; cbn [length] in B; try lia. exists a, b. split; [exact A|].
        destruct (C 1 b eq_refl) as [D _]. rewrite D; [reflexivity|exact H].
    - split.
      + assert (G : forall k c, c + k = freq -> documented freq c k = true).
        { induction k as [|k IH]; intros c' E; cbn [documented]; [apply Nat.leb_le; lia|].
          destruct (freq <=? c') eqn:Q; [apply Nat.leb_le in Q; lia|]. apply IH. lia. }
        apply G. lia.
      + intros xs l E. destruct (C72_condition_partial m T freq xs (mkN v c)) as [l' (A & B & C)].
        assert (l' = l) by congruence. subst l'. apply Forall_forall. intros a Ha. apply In_nth_error in Ha.
        destruct Ha as [j Hj]. destruct (C j a Hj) as [_ D]. now apply D.
  Qed.

  (** The constant predictor returns the point itself when it succeeds, *)
  Theorem C72_constant_partial : forall freq k x n r,
    (forall k, xscale (f0 : QcF) k = xzero) -> xadd xzero xzero = xzero -> xdt xzero = xzero -> (forall y, xadd y xzero = y) ->
    predict Constant Constant_table freq k x n = Some r -> pcode r = Success -> next_space r = Some x.
  Proof.
    intros freq k x n r H0 H1 H2 H3 E S.
    destruct (C72_codes Constant Constant_table freq k x n) as [r' (E' & A & _ & _ & D)].
    assert (r' = r) by congruence. subst r'. apply A in S. destruct S as [S _]. destruct (D S) as (y & K & G & ->).
    unfold full_step in G. cbn [stages Constant_table Nat.eqb] in G. destruct (rhs x t); [|discriminate].
    cbn [Nat.sub fill] in G. assert (Q : y = xadd x (xdt (lin xadd xscale (b_at Constant_table) 0 xzero [x0]))) by congruence.
    rewrite Q. cbn [lin]. unfold b_at. cbn [Constant_table tb nth]. now rewrite H0, H1, H2, H3.
  Qed.
End Predict.
Print Assumptions C72_codes.
Print Assumptions C72_condition_partial.
Print Assumptions C72_condition_refuted.
Print Assumptions C72_constant_partial.

(** but it does not always succeed: it has one stage, so it fails wherever the Jacobian cannot be factored, although no
    derivative is needed. *)
Theorem C72_constant_refuted : exists (rhs : QcF -> QcF -> option QcF), forall x n, exists r,
  predict (f0 : QcF) (fadd (f:=QcF)) (fmul (f:=QcF)) (fun a => a) (f0 : QcF) (fun c => c) rhs
    (fmul (f:=QcF)) (fun a => a) (fun a _ => a) (fun _ _ => (f0 : QcF)) (f0 : QcF) (fun _ => (f0 : QcF))
    (fun _ _ => true) (fun _ => true) Constant Constant_table 1 0 x n = Some r /\
  pcode r = MatrixSolveFailureFirstPartOfPrediction /\ next_space r = None.
Proof. exists (fun _ _ => None). intros x n. eexists. split; [reflexivity|]. split; reflexivity. Qed.
Print Assumptions C72_constant_refuted.

(** a history with every kind of change *)
Example C72_example :
  let w := prun (16, fst (construct 16 Euler (3, 3))) [UsePrecision 30; UseMethod RKF45; UseSystem 4 4; UsePrecision 50] in
  (fst w, meth (snd w), ord (snd w), nst (snd w), kdim (snd w), k_prec (snd w)) = (50, RKF45, 4, 6, (4, 6), 50).
Proof. reflexivity. Qed.
