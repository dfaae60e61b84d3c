(** C75: a tracker is configured as its user asked, whatever happens to other trackers. *)
From Coq Require Import List Arith Lia Bool Reals Lra ZArith.
From Verif Require Import Base Newton RK RKTables Predictor Trackers.
Import ListNotations.

(** For all histories of any number of trackers being made, copied, assigned and configured, in which method and
    system are changed only of trackers without (other) copies, only methods with a table are asked for and Setup gets
    positive tolerances: every tracker has the system, method and order, storage for its system, tolerance, truncation
    threshold, step and Newton settings asked for last. *)
Theorem C75_as_wished_partial : forall (St Nw : Type) (st0 : St) (nw0 : Nw) (dims : nat -> nat * nat) (d : nat) l,
  careful_run (0, []) l ->
  length (trs (trun st0 nw0 dims d empty l)) = length (wishes st0 nw0 l) /\
  forall i a, nth_error (wishes st0 nw0 l) i = Some a -> as_wished dims d (trun st0 nw0 dims d empty l) i a.
Proof. intros. now apply run_as_wished. Qed.
Print Assumptions C75_as_wished_partial.

(** In general it fails: a copy shares the predictor with its original.  Choosing a method for the copy changes that
    of the original, which goes on with the order of its old method, *)
Theorem C75_copy_refuted : forall (St Nw : Type) (st0 : St) (nw0 : Nw) (dims : nat -> nat * nat) (d s : nat) m,
  supported m = true ->
  exists t p, let w := trun st0 nw0 dims d empty [New s; Copy 0; SetPredictor 1 m] in
    nth_error (trs w) 0 = Some t /\ nth_error (preds w) (pred t) = Some p /\
    meth p = m /\ ord p = order m /\ porder t = 4.
Proof.
  intros St Nw st0 nw0 dims d s m Sm.
  destruct m; try discriminate; eexists; eexists; cbn zeta; (split; [reflexivity|]); (split; [reflexivity|]); repeat split.
Qed.
Print Assumptions C75_copy_refuted.

(** and giving the copy another system leaves the original with its old system and a predictor and a corrector whose
    storage has the sizes of the new one. *)
Theorem C75_copy_system_refuted : forall (St Nw : Type) (st0 : St) (nw0 : Nw) (dims : nat -> nat * nat) (d s s' : nat),
  exists t p c, let w := trun st0 nw0 dims d empty [New s; Copy 0; SetSystem 1 s'] in
    nth_error (trs w) 0 = Some t /\ nth_error (preds w) (pred t) = Some p /\ nth_error (corrs w) (corr t) = Some c /\
    system t = s /\ jdim p = dims s' /\ nfun p = fst (dims s') /\ cdims c = dims s'.
Proof.
  intros. cbn [trun fold_left tstep fst make empty preds corrs trs app length on nth_error copy]. unfold set_system.
  cbn [pred corr preds corrs nth_error fst put firstn skipn app trs].
  eexists. eexists. eexists. split; [reflexivity|]. split; [reflexivity|]. split; [reflexivity|]. repeat split.
Qed.
Print Assumptions C75_copy_system_refuted.

(** The documented requirement of positive thresholds is enforced by SetInfiniteTruncationTolerance, not by Setup. *)
Theorem C75_threshold_refuted : forall (St Nw : Type) (st0 : St) (nw0 : Nw) (dims : nat -> nat * nat) (d s : nat) x th st nw,
  (0 < x)%R -> (th <= 0)%R ->
  let w := trun st0 nw0 dims d empty [New s] in
  snd (tstep st0 nw0 dims d w (SetTrunc 0 th)) = false /\ fst (tstep st0 nw0 dims d w (SetTrunc 0 th)) = w /\
  snd (tstep st0 nw0 dims d w (Setup 0 RKF45 x th st nw)) = true /\
  exists t, nth_error (trs (fst (tstep st0 nw0 dims d w (Setup 0 RKF45 x th st nw)))) 0 = Some t /\ trunc t = th.
Proof.
  intros St Nw st0 nw0 dims d s x th st nw X Th w.
  assert (C : careful_run (St := St) (Nw := Nw) (0, []) [New s; Setup 0 RKF45 x th st nw]).
  { cbn [careful_run careful family_step snd fst app]. repeat split; auto. intros j a _ H. destruct j as [|[|j]]; [reflexivity|discriminate..]. }
  destruct (run_as_wished st0 nw0 dims d _ C) as [_ R]. specialize (R 0 _ eq_refl).
  destruct R as (t & p & c & Et & _ & _ & _ & _ & _ & _ & _ & Tr & _).
  split; [|split; [|split]].
  - cbn. unfold set_trunc. destruct (Rle_dec th 0); [reflexivity|lra].
  - cbn. unfold set_trunc. destruct (Rle_dec th 0); [reflexivity|lra].
  - destruct C as [C1 [C2 _]]. pose proof (step_inv st0 nw0 dims d empty [] (0, []) (New s) (empty_inv dims d) C1) as I.
    apply (setup_ok st0 nw0 dims d _ _ _ _ _ _ _ _ _ I); [cbn; lia|exact C2].
  - exists t. split; [exact Et|exact Tr].
Qed.
Print Assumptions C75_threshold_refuted.

(** Setup with a tolerance that is not positive throws, but only after it changed the predictor. *)
Theorem C75_setup_refuted : forall (St Nw : Type) (st0 : St) (nw0 : Nw) (dims : nat -> nat * nat) (d s : nat) x th st nw,
  (x <= 0)%R ->
  let w := trun st0 nw0 dims d empty [New s] in
  let r := tstep st0 nw0 dims d w (Setup 0 RKVerner67 x th st nw) in
  snd r = false /\
  exists t p, nth_error (trs (fst r)) 0 = Some t /\ nth_error (preds (fst r)) (pred t) = Some p /\
    meth p = RKVerner67 /\ porder t = 6 /\ trunc t = 100000%R /\ stepping t = st0.
Proof.
  intros St Nw st0 nw0 dims d s x th st nw X w r.
  assert (E : exists w', r = (w', false) /\ exists t p, nth_error (trs w') 0 = Some t /\ nth_error (preds w') (pred t) = Some p /\
    meth p = RKVerner67 /\ porder t = 6 /\ trunc t = 100000%R /\ stepping t = st0).
  { subst r w. unfold tstep, on. cbn [trun fold_left tstep fst make empty preds corrs trs app length nth_error].
    unfold setup. match goal with |- context [set_predictor ?a ?b ?c ?e ?f] => destruct (set_predictor a b c e f) as [w1 ok] eqn:E1 end.
    cbn in E1. injection E1 as <- <-. cbn [nth_error trs]. unfold set_tol. destruct (Rle_dec x 0); [|lra].
    eexists. split; [reflexivity|]. eexists. eexists. split; [reflexivity|]. split; [reflexivity|]. repeat split. }
  destruct E as (w' & -> & E). split; [reflexivity|exact E].
Qed.
Print Assumptions C75_setup_refuted.

(** The number of digits stored for a tolerance below 10 is the least number of decimals that resolves it; *)
Theorem C75_digits_partial : forall x, (0 < x < 10)%R -> exists z, tol_digits x = Some z /\ (0 <= z)%Z /\
  (Rpower 10 (- IZR z) <= x)%R /\ (x < Rpower 10 (1 - IZR z))%R.
Proof. apply tol_digits_some. Qed.
Print Assumptions C75_digits_partial.

(** for tolerances of 10 and more, which are accepted, the conversion is undefined. *)
Theorem C75_digits_refuted : forall x, (10 <= x)%R -> tol_digits x = None.
Proof.
  intros x H. unfold tol_digits. assert (L10 : (0 < ln 10)%R) by (rewrite <- ln_1; apply ln_increasing; lra).
  assert (1 <= log10 x)%R.
  { unfold log10. apply Rmult_le_reg_r with (ln 10); [exact L10|]. unfold Rdiv. rewrite Rmult_assoc, Rinv_l by lra.
    rewrite Rmult_1_r, Rmult_1_l. destruct H as [H| <-]; [left; now apply ln_increasing; lra|right; reflexivity]. }
  destruct (base_Int_part (log10 x)) as [B1 B2]. assert (0 < Int_part (log10 x))%Z by (apply lt_IZR; lra).
  destruct (Z.ltb_spec (- Int_part (log10 x)) 0); [reflexivity|lia].
Qed.
Print Assumptions C75_digits_refuted.

(** Two trackers, a copy, and changes of all settings *)
Example C75_example :
  let l : list (top (St := nat) (Nw := nat)) :=
    [New 0; New 1; Setup 0 RK4 (1 / 100)%R 5%R 7 8; Copy 1; SetTol 2 (1 / 2)%R; SetSystem 0 1; SetNewton 1 9; SetTrunc 1 (-1)%R] in
  careful_run (0, []) l /\
  wishes 3 4 l = [mkWish 1 RK4 (1 / 100)%R 5%R 7 8; mkWish 1 RKF45 (1 / 100000)%R 100000%R 3 9; mkWish 1 RKF45 (1 / 2)%R 100000%R 3 4].
Proof.
  split.
  - cbn [careful_run careful family_step snd fst app nth_error]. repeat split; try lra.
    + intros [|[|j]] a H H'; cbn in H, H'; [reflexivity|congruence|destruct j; discriminate].
    + intros [|[|[|j]]] a H H'; cbn in H, H'; [reflexivity|congruence|congruence|destruct j; discriminate].
  - unfold wishes. cbn [fold_left wish_step app nth_error put firstn skipn w_system w_method w_tol w_trunc w_stepping w_newton].
    destruct (Rle_dec (1 / 2) 0); [lra|]. cbn [fold_left wish_step app nth_error put firstn skipn w_system w_method w_tol w_trunc w_stepping w_newton].
    destruct (Rle_dec (-1) 0); [reflexivity|lra].
Qed.
Print Assumptions C75_example.
