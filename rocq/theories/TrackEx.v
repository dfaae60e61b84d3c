(** Runs of the trackers of Track.v and Amp.v on concrete settings, along the real segment from 1 to 0,
    and the corrector of Newton.v as the trackers call it. *)
From Coq Require Import List ZArith Lia Reals Lra Bool Arith.
From Coquelicot Require Import Complex.
From Verif Require Import Newton Track AmpCost Amp.
Import ListNotations.
Local Open Scope R_scope.

(** Tracker::Correct, base_tracker.hpp and newton_corrector.hpp: in round n, at time t, the corrector
    runs Newton's method from the predicted point; the linear solver and the precision criteria may
    answer anything. *)
Definition newton_corrector {P : Type} (add : P -> P -> P) (norm : P -> R)
  (solve : nat -> C -> nat -> P -> option P) (criteria : nat -> C -> nat -> P -> bool)
  (tol : R) (min max : Z) (n : nat) (y : P) (t : C) : code * P :=
  let '(c, x, _) := newton add norm (solve n t) (criteria n t) tol min max y in (c, x).

Lemma newton_corrector_codes : forall P (add : P -> P -> P) norm solve criteria tol min max,
  newton_codes_only (newton_corrector add norm solve criteria tol min max).
Proof.
  intros P add norm solve criteria tol min max n y t. unfold newton_corrector.
  pose proof (newton_codes add norm (solve n t) (criteria n t) tol min max y) as H.
  destruct (newton _ _ _ _ _ _ _ _) as [[c x] k]. exact H.
Qed.

Lemma newton_corrector_no_infinity : forall P (add : P -> P -> P) norm solve criteria tol min max n y t,
  fst (newton_corrector add norm solve criteria tol min max n y t) <> GoingToInfinity.
Proof.
  intros. pose proof (newton_corrector_codes _ add norm solve criteria tol min max n y t) as H.
  intro E. rewrite E in H. cbn in H. intuition discriminate.
Qed.

(* ------------------------------------------------------------------ geometry on the real line *)
Lemma close_zero : forall e, close 0 0 e = true.
Proof. intro e. apply close_within. left. reflexivity. Qed.

Lemma close_real : forall r e, 0 < r -> e < 1 -> close (RtoC r) 0 e = false.
Proof.
  intros r e Hr He. destruct (close (RtoC r) 0 e) eqn:E; [|reflexivity]. exfalso.
  apply close_within in E. destruct E as [E|[[_ E]|[E _]]].
  - apply RtoC_inj in E. lra.
  - replace (RtoC r - 0)%C with (RtoC r) in E by ring. rewrite Cmod_R, Rabs_pos_eq in E by lra. nra.
  - apply E. reflexivity.
Qed.

Lemma next_delta_real : forall r h, 0 < r -> 0 <= h -> next_delta (RtoC r) 0 h = RtoC (- Rmin h r).
Proof.
  intros r h Hr Hh. unfold next_delta.
  assert (M : Cmod (0 - RtoC r)%C = r).
  { replace (0 - RtoC r)%C with (- RtoC r)%C by ring. rewrite Cmod_opp, Cmod_R. apply Rabs_pos_eq. lra. }
  rewrite M, (Rabs_pos_eq h) by lra. destruct (Rlt_dec r h) as [L|L].
  - rewrite Rmin_right by lra. rewrite RtoC_opp. ring.
  - rewrite Rmin_left by lra. rewrite RtoC_opp. field. intro E. apply RtoC_inj in E. lra.
Qed.

Lemma togo_real : forall r, 0 <= r -> Cmod (RtoC r - 0)%C = r.
Proof. intros r Hr. replace (RtoC r - 0)%C with (RtoC r) by ring. rewrite Cmod_R. apply Rabs_pos_eq. exact Hr. Qed.

(* ------------------------------------------------------------------ settings *)
Definition demo : stepping := mkStepping 1 1 (1/100) 2 (1/2) 5 1 100.
Definition tiny_eps (_ : Z) : R := / 1000.

(** A predictor that always succeeds; a corrector that fails in the first round and then succeeds,
    counting its successes in the point. *)
Definition keep (_ : nat) (x : nat) (_ _ : C) : code * nat := (Success, x).
Definition fail_once (n : nat) (x : nat) (_ : C) : code * nat :=
  match n with O => (FailedToConverge, x) | _ => (Success, S x) end.
Definition never (_ : nat) (_ : nat) : bool := false.

Lemma demo_first : first_step demo true 0 1 0 = 1.
Proof.
  unfold first_step. cbn [min_num_steps demo Nat.eqb initial_step_size].
  rewrite (togo_real 1) by lra. cbn [INR]. apply Rmin_left. lra.
Qed.

Definition demo_at (t : R) (x : nat) (h d : R) (ns nf cs cf : nat) : st nat :=
  mkSt (RtoC t) x h (RtoC d) ns nf cs cf 0 16 0 0.

Lemma demo_init : fixed_init demo 0 true 0 16 1 0%nat = demo_at 1 0 1 0 0 0 0 0.
Proof. unfold fixed_init. rewrite demo_first. reflexivity. Qed.

Lemma demo_turn_fail : turn 0 tiny_eps true never (fixed_pre demo) (fixed_iterate demo keep fail_once) fixed_on_fail 0
   (demo_at 1 0 1 0 0 0 0 0) = Go (demo_at 1 0 (1/2) (-1) 0 1 0 1).
Proof.
  unfold turn. cbn [time demo_at prec step].
  rewrite close_real by (unfold tiny_eps; lra).
  unfold fixed_pre. cbn [max_num_steps demo nsucc demo_at Nat.leb step min_step_size].
  destruct (Rlt_dec 1 (1/100)); [lra|]. cbn [is_success].
  rewrite next_delta_real by lra. rewrite Rmin_left by lra.
  unfold fixed_iterate, keep. cbn [is_success negb fail_once space set_delta demo_at].
  cbn [never space set_step set_delta demo_at andb is_success].
  unfold fixed_on_fail, base_fail, set_step, set_delta, demo_at.
  cbn [time space step delta nsucc nfail csucc cfail since_inc prec since_decr ndecr fail_factor demo].
  do 2 f_equal. lra.
Qed.

Lemma demo_turn_ok : forall n t x d ns nf cs cf, 1/2 <= t -> (ns < 100)%nat ->
  turn 0 tiny_eps true never (fixed_pre demo) (fixed_iterate demo keep fail_once) fixed_on_fail (S n)
   (demo_at t x (1/2) d ns nf cs cf) = Go (demo_at (t - 1/2) (S x) (1/2) (-(1/2)) (S ns) nf (S cs) 0).
Proof.
  intros n t x d ns nf cs cf Ht Hns. unfold turn. cbn [time demo_at prec step].
  rewrite close_real by (unfold tiny_eps; lra).
  unfold fixed_pre. cbn [max_num_steps demo nsucc demo_at step min_step_size].
  destruct (Nat.leb_spec 100 ns); [lia|].
  destruct (Rlt_dec (1/2) (1/100)); [lra|]. cbn [is_success].
  rewrite next_delta_real by lra. rewrite Rmin_left by lra.
  unfold fixed_iterate, keep. cbn [is_success negb fail_once space set_delta demo_at].
  cbn [never space set_space set_delta demo_at andb is_success].
  unfold on_success, set_space, set_delta, demo_at.
  cbn [time space step delta nsucc nfail csucc cfail since_inc prec since_decr ndecr].
  do 2 f_equal. rewrite <- RtoC_plus. reflexivity.
Qed.

Lemma demo_run : fixed_track demo 0 tiny_eps true never keep fail_once 4 true 0 16 1 0%nat
  = ([demo_at 1 0 1 0 0 0 0 0; demo_at 1 0 (1/2) (-1) 0 1 0 1;
      demo_at (1 - 1/2) 1 (1/2) (-(1/2)) 1 1 1 0; demo_at (1 - 1/2 - 1/2) 2 (1/2) (-(1/2)) 2 1 2 0],
     Finished Success (demo_at (1 - 1/2 - 1/2) 2 (1/2) (-(1/2)) 2 1 2 0)).
Proof.
  unfold fixed_track. rewrite demo_init. cbn [run]. rewrite demo_turn_fail.
  rewrite demo_turn_ok by (try lra; lia). rewrite demo_turn_ok by (try lra; lia).
  unfold turn. cbn [time demo_at prec]. replace (1 - 1/2 - 1/2) with 0 by lra. rewrite close_zero. reflexivity.
Qed.

(* ------------------------------------------------------------------ settings that never stop *)
Definition fail_always (_ : nat) (x : nat) (_ : C) : code * nat := (FailedToConverge, x).

(** A failure factor of one. *)
Definition no_shrink : stepping := mkStepping 1 1 (1/100) 2 1 5 0 100.
(** No positive minimum for the step size. *)
Definition no_minimum : stepping := mkStepping 1 1 0 2 (1/2) 5 0 100.

Lemma fails_forever : forall cfg, min_num_steps cfg = 0%nat -> initial_step_size cfg = 1 -> (0 < max_num_steps cfg)%nat ->
  0 <= min_step_size cfg <= 1 -> 0 <= fail_factor cfg ->
  (forall k, min_step_size cfg <= fail_factor cfg ^ k) ->
  forall fuel, exists s, snd (fixed_track cfg 0 tiny_eps true never keep fail_always fuel true 0 16 1 0%nat) = Running s.
Proof.
  intros cfg H1 H2 H3 H4 H5 H6 fuel. unfold fixed_track.
  assert (G : forall fuel n k (s : st nat), time s = 1 -> nsucc s = 0%nat -> step s = fail_factor cfg ^ k ->
    exists s', snd (run 0 tiny_eps true never (fixed_pre cfg) (fixed_iterate cfg keep fail_always) fixed_on_fail fuel n s) = Running s').
  { clear fuel. induction fuel as [|fuel IH]; intros n k s T N St; cbn [run]; [eexists; reflexivity|].
    assert (E : exists s', turn 0 tiny_eps true never (fixed_pre cfg) (fixed_iterate cfg keep fail_always) fixed_on_fail n s = Go s'
               /\ time s' = 1 /\ nsucc s' = 0%nat /\ step s' = fail_factor cfg ^ S k).
    { unfold turn. rewrite T. rewrite (close_real 1) by (unfold tiny_eps; lra).
      unfold fixed_pre. rewrite N. destruct (Nat.leb_spec (max_num_steps cfg) 0); [lia|].
      destruct (Rlt_dec (step s) (min_step_size cfg)) as [L|L]; [specialize (H6 k); lra|].
      cbn [is_success]. unfold fixed_iterate. cbn. eexists. split; [reflexivity|]. cbn.
      repeat match goal with |- _ /\ _ => split end; try assumption. rewrite St. reflexivity. }
    destruct E as [s' [E [T' [N' S']]]]. rewrite E. specialize (IH (S n) (S k) s' T' N' S').
    destruct (run _ _ _ _ _ _ _ fuel (S n) s') as [l o]. exact IH. }
  apply (G fuel 0%nat 0%nat); cbn; try reflexivity. unfold first_step. rewrite H1, H2. reflexivity.
Qed.

Lemma no_shrink_forever : forall fuel, exists s,
  snd (fixed_track no_shrink 0 tiny_eps true never keep fail_always fuel true 0 16 1 0%nat) = Running s.
Proof.
  apply fails_forever; cbn; try lra; try lia; try reflexivity. intro k. rewrite pow1. lra.
Qed.

Lemma no_minimum_forever : forall fuel, exists s,
  snd (fixed_track no_minimum 0 tiny_eps true never keep fail_always fuel true 0 16 1 0%nat) = Running s.
Proof.
  apply fails_forever; cbn; try lra; try lia; try reflexivity. intro k. apply pow_le. lra.
Qed.

(* ------------------------------------------------------------------ adaptive precision *)
Definition demo_amp : amp_config := mkAmp 300 10 10 2 4 6 11.
Definition no_digits (_ : nat) : Z := 0%Z.
Definition no_interval (_ : nat) (_ _ _ : R) : Z := 0%Z.
Definition same (_ : Z) (x : nat) : nat := x.
Definition refined (_ : nat) (x : nat) (_ : C) : code * nat := (Success, x).

(** One round of the adaptive precision tracker from the start, with a failing corrector or
    predictor. *)
Definition needs_precision (_ : nat) (x : nat) (_ : C) : code * nat := (HigherPrecisionNecessary, x).
Definition no_tangent (_ : nat) (x : nat) (_ _ : C) : code * nat := (MatrixSolveFailureFirstPartOfPrediction, x).
Definition succeed (_ : nat) (x : nat) (_ : C) : code * nat := (Success, S x).

(** Largest allowed step 10^-14. *)
Definition small_max : stepping :=
  mkStepping (powerRZ 10 (-14)) (powerRZ 10 (-14)) (powerRZ 10 (-100)) 2 (1/2) 5 1 100.

Lemma ten_pow_pos : forall z, 0 < powerRZ 10 z.
Proof. intro z. apply powerRZ_lt. lra. Qed.

Lemma ten_succ : forall z, powerRZ 10 (z + 1) = 10 * powerRZ 10 z.
Proof. intro z. rewrite powerRZ_add by lra. rewrite powerRZ_1. ring. Qed.

Lemma ten_le : forall a b, (a <= b)%Z -> powerRZ 10 a <= powerRZ 10 b.
Proof.
  intros a b H. replace b with (a + Z.of_nat (Z.to_nat (b - a)))%Z by lia.
  rewrite powerRZ_add, <- (pow_powerRZ 10 (Z.to_nat _)) by lra.
  assert (1 <= 10 ^ Z.to_nat (b - a)) by (apply pow_R1_Rle; lra).
  pose proof (ten_pow_pos a). nra.
Qed.

Lemma small_max_first : first_step small_max true 0 1 0 = powerRZ 10 (-14).
Proof.
  unfold first_step. cbn [min_num_steps small_max Nat.eqb initial_step_size].
  rewrite (togo_real 1) by lra. cbn [INR]. apply Rmin_left.
  replace (1 / 1) with (powerRZ 10 0) by (rewrite powerRZ_O; lra). apply ten_le. lia.
Qed.

Lemma small_max_exceeded :
  exists s s', fst (amp_track small_max demo_amp 0 tiny_eps true never keep needs_precision no_digits no_digits
                     no_interval same refined 1 true 0 16 1 0%nat) = [s; s']
             /\ max_step_size small_max < step s'.
Proof.
  assert (E : exists s', turn 0 tiny_eps true never (amp_pre small_max demo_amp)
      (amp_iterate small_max demo_amp 0 keep needs_precision no_digits no_digits no_interval same) amp_on_fail 0
      (mkSt (RtoC 1) 0%nat (powerRZ 10 (-14)) (RtoC 0) 0 0 0 0 0 16 0 0) = Go s' /\ max_step_size small_max < step s').
  { unfold turn. cbn [time prec step]. rewrite close_real by (unfold tiny_eps; lra).
    unfold amp_pre. cbn [max_num_steps small_max nsucc Nat.leb step min_step_size].
    destruct (Rlt_dec (powerRZ 10 (-14)) (powerRZ 10 (-100))) as [L|L];
      [pose proof (ten_le (-100) (-14) ltac:(lia)); lra|].
    change (maximum_precision demo_amp <? 16)%Z with false. cbn [is_success].
    unfold amp_iterate, keep, needs_precision. cbn [never andb is_success].
    eexists. split; [reflexivity|].
    change (step (amp_on_fail ?x)) with (step x).
    set (s0 := set_delta _ _). 
    assert (F : prec s0 = 16%Z /\ step s0 = powerRZ 10 (-14) /\ time s0 = RtoC 1) by (repeat split).
    destruct F as [F1 [F2 F3]]. clearbody s0.
    assert (M : min_step_for_precision 16 1 = powerRZ 10 (-13)).
    { unfold min_step_for_precision. cbv zeta. change (3 - 16)%Z with (-13)%Z. rewrite Rmult_1_r.
      destruct (Rlt_dec (powerRZ 10 (-13)) (powerRZ 10 (-150))) as [L2|L2];
        [pose proof (ten_le (-150) (-13) ltac:(lia)); lra|]. rewrite andb_false_r. reflexivity. }
    assert (T : togo 0 s0 = 1). { unfold togo. rewrite F3. apply togo_real. lra. }
    pose proof (ten_pow_pos (-14)) as Q1. pose proof (ten_succ (-14)) as Q2. change (-14 + 1)%Z with (-13)%Z in Q2.
    unfold amp_criterion_error. cbv zeta. rewrite T, F1, F2, M.
    cbn [fail_factor small_max max_step_size].
    destruct (Rlt_dec (powerRZ 10 (-14) * (1 / 2)) (powerRZ 10 (-13))) as [L2|L2]; [|lra].
    rewrite (proj1 (proj2 (proj2 (proj2 (proj2 (update_frame same _ _ _)))))).
    apply Rlt_le_trans with (2 := Rmax_r _ _). lra. }
  destruct E as [s' [E H]].
  unfold amp_track. unfold initial_refinement, refine_stored, refined. cbn [is_success space].
  unfold set_space. cbn [time step delta nsucc nfail csucc cfail since_inc prec since_decr ndecr].
  cbn [is_success]. rewrite small_max_first. cbn [run]. rewrite E. cbn [fst]. eauto.
Qed.

(** A failed step that leaves the step size alone. *)
Lemma demo_not_shrunk :
  exists s s', fst (amp_track demo demo_amp 0 tiny_eps true never no_tangent succeed no_digits no_digits
                     no_interval same refined 1 true 0 16 1 0%nat) = [s; s']
             /\ nfail s' = 1%nat /\ step s' = step s.
Proof.
  unfold amp_track. unfold initial_refinement, refine_stored, refined. cbn [is_success space].
  unfold set_space. cbn [time step delta nsucc nfail csucc cfail since_inc prec since_decr ndecr].
  cbn [is_success]. rewrite demo_first. cbn [run].
  assert (E : exists s', turn 0 tiny_eps true never (amp_pre demo demo_amp)
      (amp_iterate demo demo_amp 0 no_tangent succeed no_digits no_digits no_interval same) amp_on_fail 0
      (mkSt (RtoC 1) 0%nat 1 (RtoC 0) 0 0 0 0 0 16 0 0) = Go s' /\ nfail s' = 1%nat /\ step s' = 1).
  { unfold turn. cbn [time prec step]. rewrite close_real by (unfold tiny_eps; lra).
    unfold amp_pre. cbn [max_num_steps demo nsucc Nat.leb step min_step_size].
    destruct (Rlt_dec 1 (1/100)); [lra|].
    change (maximum_precision demo_amp <? 16)%Z with false. cbn [is_success].
    unfold amp_iterate, no_tangent. cbn [never andb is_success].
    eexists. split; [reflexivity|]. split; reflexivity. }
  destruct E as [s' [E H]]. rewrite E. cbn [fst]. eexists. eexists. split; [reflexivity|exact H].
Qed.

(** With a failure factor of zero the loop in NewtonConvergenceError never ends. *)
Definition zero_factor : stepping := mkStepping 1 1 (1/100) 2 0 5 1 100.

Lemma zero_factor_hangs : forall fuel p, (16 <= p)%Z -> raise_precision fuel p 0 1 = None.
Proof.
  induction fuel as [|fuel IH]; intros p Hp; cbn [raise_precision]; [reflexivity|].
  destruct (Rlt_dec 0 (min_step_for_precision p 1)) as [L|L].
  - apply IH. unfold DoublePrecision, LowestMultiplePrecision, PrecisionIncrement. destruct (Z.eqb_spec p 16); lia.
  - exfalso. apply L. unfold min_step_for_precision. cbv zeta. destruct (_ && _); [apply ten_pow_pos|].
    pose proof (ten_pow_pos (3 - p)). nra.
Qed.

Lemma zero_factor_hung :
  snd (amp_track zero_factor demo_amp 0 tiny_eps true never keep fail_always no_digits no_digits
         no_interval same refined 1 true 0 16 1 0%nat) = Hung.
Proof.
  unfold amp_track. unfold initial_refinement, refine_stored, refined. cbn [is_success space].
  unfold set_space. cbn [time step delta nsucc nfail csucc cfail since_inc prec since_decr ndecr].
  cbn [is_success].
  assert (F : first_step zero_factor true 0 1 0 = 1).
  { unfold first_step. cbn [min_num_steps zero_factor Nat.eqb initial_step_size].
    rewrite (togo_real 1) by lra. cbn [INR]. apply Rmin_left. lra. }
  rewrite F. cbn [run].
  assert (E : turn 0 tiny_eps true never (amp_pre zero_factor demo_amp)
      (amp_iterate zero_factor demo_amp 0 keep fail_always no_digits no_digits no_interval same) amp_on_fail 0
      (mkSt (RtoC 1) 0%nat 1 (RtoC 0) 0 0 0 0 0 16 0 0) = Hang).
  { unfold turn. cbn [time prec step]. rewrite close_real by (unfold tiny_eps; lra).
    unfold amp_pre. cbn [max_num_steps zero_factor nsucc Nat.leb step min_step_size].
    destruct (Rlt_dec 1 (1/100)); [lra|].
    change (maximum_precision demo_amp <? 16)%Z with false. cbn [is_success].
    unfold amp_iterate, keep, fail_always, newton_convergence_error. cbv zeta.
    unfold togo. cbn [time set_delta prec step fail_factor zero_factor].
    rewrite togo_real by lra. rewrite Rmult_0_l, zero_factor_hangs by lia. reflexivity. }
  rewrite E. reflexivity.
Qed.

(* ------------------------------------------------------------------ the precision cap *)
Section Cap.
Context {P : Type}.
Variable cfg : stepping.
Variable amp : amp_config.
Variable endt : C.
Variable eps : Z -> R.
Variable truncation : bool.
Variable going : nat -> P -> bool.
Variable predict : nat -> P -> C -> C -> code * P.
Variable correct : nat -> P -> C -> code * P.
Variables digits_B digits_C : nat -> Z.
Variable digits_interval : nat -> R -> R -> R -> Z.
Variable convert : Z -> P -> P.
Variable refine : nat -> P -> C -> code * P.
Local Notation aturn := (turn endt eps truncation going (amp_pre cfg amp)
   (amp_iterate cfg amp endt predict correct digits_B digits_C digits_interval convert) amp_on_fail).

Lemma amp_turn_go_pre : forall n s s', aturn n s = Go s' -> amp_pre cfg amp s = Success.
Proof.
  intros n s s' E. unfold turn in E. destruct (close _ _ _); [discriminate|].
  destruct (is_success (amp_pre cfg amp s)) eqn:I; [apply is_success_true; exact I|discriminate].
Qed.

(** Whenever one state follows another, the first was at a precision within the cap. *)
Lemma amp_track_cap : forall fuel re h p start x0,
  chain (fun s _ => (prec s <= maximum_precision amp)%Z)
        (fst (amp_track cfg amp endt eps truncation going predict correct digits_B digits_C digits_interval
                        convert refine fuel re h p start x0)).
Proof.
  intros. unfold amp_track. destruct (initial_refinement _ _ _ _) as [[c s]|]; [|exact I].
  destruct (is_success c); [|exact I]. apply run_chain. intros n s1 s2 E.
  apply amp_turn_go_pre in E. apply amp_pre_success in E. apply E.
Qed.
End Cap.

(** A successful track with adaptive precision. *)
Lemma demo_amp_run : exists s s',
  amp_track demo demo_amp 0 tiny_eps true never keep succeed no_digits no_digits no_interval same refined
            2 true 0 16 1 0%nat = ([s; s'], Finished Success s')
  /\ time s = 1 /\ time s' = 0 /\ space s' = 1%nat.
Proof.
  unfold amp_track. unfold initial_refinement, refine_stored, refined. cbn [is_success space].
  unfold set_space. cbn [time step delta nsucc nfail csucc cfail since_inc prec since_decr ndecr].
  cbn [is_success]. rewrite demo_first. cbn [run].
  assert (E : exists s', turn 0 tiny_eps true never (amp_pre demo demo_amp)
      (amp_iterate demo demo_amp 0 keep succeed no_digits no_digits no_interval same) amp_on_fail 0
      (mkSt (RtoC 1) 0%nat 1 (RtoC 0) 0 0 0 0 0 16 0 0) = Go s' /\ time s' = 0 /\ space s' = 1%nat).
  { unfold turn. cbn [time prec step]. rewrite close_real by (unfold tiny_eps; lra).
    unfold amp_pre. cbn [max_num_steps demo nsucc Nat.leb step min_step_size].
    destruct (Rlt_dec 1 (1/100)); [lra|].
    change (maximum_precision demo_amp <? 16)%Z with false. cbn [is_success].
    unfold amp_iterate, keep, succeed. cbn [never andb is_success].
    eexists. split; [reflexivity|]. 
    match goal with |- context [adjust_success ?a ?b ?c ?d ?e ?f ?x] =>
      destruct (adjust_frame a b c d e f x) as [A [B [_ D]]] end.
    unfold on_success. cbn [time space]. rewrite A, B. split.
    - unfold set_space, set_delta. cbn [time delta]. rewrite next_delta_real by lra.
      rewrite Rmin_left by lra. rewrite <- RtoC_plus. f_equal. lra.
    - clear A B. cbn [space set_space] in D. revert D.
      match goal with |- _ -> space ?x = _ => generalize (space x) end. intros x D.
      assert (K : forall a b, converted same a b -> b = a) by (induction 1; [reflexivity|assumption]).
      apply K. exact D. }
  destruct E as [s' [E [T S']]]. rewrite E. eexists. exists s'.
  unfold turn. rewrite T, close_zero. split; [reflexivity|]. split; [reflexivity|]. split; [reflexivity|assumption].
Qed.

Lemma demo_settings : 0 < fail_factor demo < 1 /\ 0 < min_step_size demo /\ 0 < success_factor demo
  /\ 0 < max_step_size demo <= 1 /\ max_step_usable demo 0 1 /\ first_step demo true 0 1 0 <= max_step_size demo
  /\ (0 <= predictor_order demo_amp < 2 ^ 32 - 1)%Z
  /\ (DoublePrecision <= maximum_precision demo_amp <= MaxPrecisionAllowed)%Z
  /\ newton_codes_only succeed.
Proof.
  repeat match goal with |- _ /\ _ => split end;
    try (cbn [fail_factor demo min_step_size success_factor max_step_size]; lra).
  - split; cbn [max_step_size demo].
    + rewrite togo_real by lra.
      change (3 - DoublePrecision)%Z with (-13)%Z. rewrite Rmult_1_r, <- (powerRZ_O 10). apply ten_le. lia.
    + rewrite <- (powerRZ_O 10). apply ten_le. lia.
  - rewrite demo_first. cbn. lra.
  - cbn. lia.
  - cbn. lia.
  - unfold DoublePrecision. cbn. lia.
  - unfold MaxPrecisionAllowed. cbn. lia.
  - intros n y t. left. reflexivity.
Qed.
