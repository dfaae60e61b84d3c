(** The predictor object: choosing a method, a system and a precision, and what a prediction returns.
    Models core/include/bertini2/trackers/explicit_predictors.hpp:83-150, 212-228, 238-346, 357-412,
    459-600, 685-755, 768-827 and core/include/bertini2/trackers/amp_criteria.hpp:49-74, 181-209. *)
From Coq Require Import List Arith Lia Bool.
From Verif Require Import Base Newton Butcher RK RKTables.
Import ListNotations.

(** config.hpp:55-67 *)
Inductive method := Constant | Euler | Heun | RK4 | HeunEuler | RKNorsett34 | RKF45 | RKCashKarp45
  | RKDormandPrince56 | RKVerner67.

(** explicit_predictors.hpp:83-113 *)
Definition order (m : method) : nat :=
  match m with
  | Constant => 0 | Euler => 1 | Heun => 2 | HeunEuler => 2 | RKNorsett34 => 3 | RK4 => 4 | RKF45 => 4
  | RKCashKarp45 => 4 | RKDormandPrince56 => 5 | RKVerner67 => 6
  end.
(** explicit_predictors.hpp:121-150 *)
Definition has_error (m : method) : bool :=
  match m with
  | Constant | Euler | Heun | RK4 => false
  | HeunEuler | RKNorsett34 | RKF45 | RKCashKarp45 | RKDormandPrince56 | RKVerner67 => true
  end.
(** the tables of the switch of explicit_predictors.hpp:242-344; the methods without a case throw *)
Definition table_of (m : method) : option table :=
  match m with
  | Constant => Some Constant_table
  | Euler => Some Euler_table
  | HeunEuler => Some HeunEuler_table
  | RK4 => Some RK4_table
  | RKF45 => Some RKF45_table
  | RKCashKarp45 => Some RKCK45_table
  | RKDormandPrince56 => Some RKDP56_table
  | RKVerner67 => Some RKV67_table
  | Heun | RKNorsett34 => None
  end.

(** ** The members, explicit_predictors.hpp:1027-1049
    The tables [a_], [b_], [c_] are always filled together: one table.  [b_minus_bstar_] is filled only by
    methods with an error estimate and otherwise keeps what it had.  [kdim], [jdim]: sizes of the stage
    matrix and of the Jacobians. *)
Record pstate := mkPS {
  meth : method; ord : nat; nst : nat; tab : option table; dtab : option table; embedded : bool;
  nfun : nat; nvar : nat; jdim : nat * nat; kdim : nat * nat;
  cur_prec : nat; tab_prec : nat; k_prec : nat; j_prec : nat
}.

(** explicit_predictors.hpp:373-377: resizing to another size makes new numbers, which have the default precision; the same
    size leaves them alone (Eigen) *)
Definition resize_K (d : nat) (s : pstate) : pstate :=
  let dim := (nfun s, nst s) in
  let same := (fst dim =? fst (kdim s)) && (snd dim =? snd (kdim s)) in
  mkPS (meth s) (ord s) (nst s) (tab s) (dtab s) (embedded s) (nfun s) (nvar s) (jdim s) dim
       (cur_prec s) (tab_prec s) (if same then k_prec s else d) (j_prec s).

(** explicit_predictors.hpp:357-370 *)
Definition change_system (d : nat) (sys : nat * nat) (s : pstate) : pstate :=
  let same := (fst sys =? fst (jdim s)) && (snd sys =? snd (jdim s)) in
  resize_K d
    (mkPS (meth s) (ord s) (nst s) (tab s) (dtab s) (embedded s) (fst sys) (snd sys) sys (kdim s)
          (cur_prec s) (tab_prec s) (k_prec s) (if same then j_prec s else d)).

(** explicit_predictors.hpp:238-346: the method and its order are set first; [false]: an exception was thrown.  The numbers of
    the tables are made with the default precision. *)
Definition predictor_method (d : nat) (m : method) (s : pstate) : pstate * bool :=
  let s1 := mkPS m (order m) (nst s) (tab s) (dtab s) (embedded s) (nfun s) (nvar s) (jdim s) (kdim s)
                 (cur_prec s) (tab_prec s) (k_prec s) (j_prec s) in
  match table_of m with
  | None => (s1, false)
  | Some T =>
      (resize_K d (mkPS m (order m) (stages T) (Some T) (if has_error m then Some T else dtab s) (has_error m)
                        (nfun s) (nvar s) (jdim s) (kdim s) (cur_prec s) d (k_prec s) (j_prec s)), true)
  end.

(** explicit_predictors.hpp:394-412: everything gets the new precision, then the tables are filled anew *)
Definition change_precision (d p : nat) (s : pstate) : pstate * bool :=
  let s1 := mkPS (meth s) (ord s) (nst s) (tab s) (dtab s) (embedded s) (nfun s) (nvar s) (jdim s) (kdim s)
                 (cur_prec s) p p p in
  let (s2, ok) := predictor_method d (meth s1) s1 in
  if ok then (mkPS (meth s2) (ord s2) (nst s2) (tab s2) (dtab s2) (embedded s2) (nfun s2) (nvar s2) (jdim s2) (kdim s2)
                   p (tab_prec s2) (k_prec s2) (j_prec s2), true)
  else (s2, false).

(** explicit_predictors.hpp:212-228: nothing filled yet, no stages, sizes 0 *)
Definition blank (d : nat) : pstate := mkPS Constant 0 0 None None false 0 0 (0, 0) (0, 0) d d d d.
Definition construct (d : nat) (m : method) (sys : nat * nat) : pstate * bool :=
  predictor_method d m (change_system d sys (blank d)).

Inductive pop :=
| UseMethod (m : method)
| UseSystem (nf nv : nat)
| UsePrecision (p : nat).   (* DefaultPrecision(p), then ChangePrecision(p) *)

(** the world: the default precision and the predictor; exceptions are caught by the caller *)
Definition pstep (w : nat * pstate) (o : pop) : nat * pstate :=
  let (d, s) := w in
  match o with
  | UseMethod m => (d, fst (predictor_method d m s))
  | UseSystem nf nv => (d, change_system d (nf, nv) s)
  | UsePrecision p => (p, fst (change_precision p p s))
  end.
Definition prun (w : nat * pstate) (l : list pop) : nat * pstate := fold_left pstep l w.

(** ** Specification *)
Definition supported (m : method) : bool := match m with Heun | RKNorsett34 => false | _ => true end.
Definition supported_op (o : pop) : bool := match o with UseMethod m => supported m | _ => true end.
(** what was asked for last *)
Definition last_method (m : method) (l : list pop) : method :=
  fold_left (fun m o => match o with UseMethod m' => m' | _ => m end) l m.
Definition last_system (sys : nat * nat) (l : list pop) : nat * nat :=
  fold_left (fun x o => match o with UseSystem nf nv => (nf, nv) | _ => x end) l sys.
Definition last_precision (d : nat) (l : list pop) : nat :=
  fold_left (fun x o => match o with UsePrecision p => p | _ => x end) l d.

(** ready to predict with a method, on a system, at a precision *)
Definition ready (s : pstate) (m : method) (sys : nat * nat) (p : nat) : Prop :=
  meth s = m /\ ord s = order m /\ tab s = table_of m /\
  (exists T, table_of m = Some T /\ nst s = stages T) /\
  (has_error m = true -> dtab s = table_of m) /\ embedded s = has_error m /\
  (nfun s, nvar s) = sys /\ jdim s = sys /\ kdim s = (fst sys, nst s) /\
  cur_prec s = p /\ tab_prec s = p /\ k_prec s = p /\ j_prec s = p.

(** Some tree with p vertices has the wrong weight. *)
Definition check_fails (T : table) (w : nat -> QcF) (p : nat) : bool :=
  existsb (fun t => (torder t =? p) && negb (feqb (tree_sum T w t) (1 / tdensity t)%F)) (trees p).
Lemma check_fails_sound T w p : check_fails T w p = true -> ~ order_conditions T w p.
Proof.
  intros H C. unfold check_fails in H. apply existsb_exists in H. destruct H as (t & _ & H).
  apply andb_prop in H. destruct H as [A B]. apply Nat.eqb_eq in A. apply negb_true_iff in B.
  rewrite (proj2 (feqb_eq _ _ _) (C t (Nat.eq_le_incl _ _ A))) in B. discriminate.
Qed.

(** ** Proofs *)
Lemma supported_table m : supported m = true -> exists T, table_of m = Some T.
Proof. destruct m; cbn [supported table_of]; intros H; try discriminate; eexists; reflexivity. Qed.

Lemma table_supported m T : table_of m = Some T -> supported m = true.
Proof. destruct m; cbn [supported table_of]; intros H; try discriminate; reflexivity. Qed.

Lemma method_ready d m s sys : supported m = true ->
  (nfun s, nvar s) = sys -> jdim s = sys -> cur_prec s = d -> k_prec s = d -> j_prec s = d ->
  snd (predictor_method d m s) = true /\ ready (fst (predictor_method d m s)) m sys d.
Proof.
  intros Sup E1 E2 E3 E4 E5. destruct (supported_table m Sup) as [T HT].
  unfold predictor_method. rewrite HT. cbn [fst snd]. split; [reflexivity|].
  unfold ready, resize_K. cbn [meth ord nst tab dtab embedded nfun nvar jdim kdim cur_prec tab_prec k_prec j_prec].
  repeat split; auto.
  - exists T. auto.
  - intros ->. congruence.
  - now rewrite <- E1.
  - now destruct (_ && _).
Qed.

Lemma system_ready d m s sys nf nv : ready s m sys d -> ready (change_system d (nf, nv) s) m (nf, nv) d.
Proof.
  intros (A & B & C & D & E & F & G & H & I & J & K & L & M).
  unfold change_system, resize_K, ready.
  cbn [meth ord nst tab dtab embedded nfun nvar jdim kdim cur_prec tab_prec k_prec j_prec fst snd].
  repeat split; auto; now destruct (_ && _).
Qed.

Lemma precision_ready d p m s sys : ready s m sys d ->
  snd (change_precision p p s) = true /\ ready (fst (change_precision p p s)) m sys p.
Proof.
  intros (A & B & C & D & E & F & G & H & I & J & K & L & M).
  destruct D as [T [HT HS]].
  unfold change_precision, predictor_method, resize_K, ready.
  cbn [meth ord nst tab dtab embedded nfun nvar jdim kdim cur_prec tab_prec k_prec j_prec fst snd].
  rewrite A, HT. cbn [fst snd meth ord nst tab dtab embedded nfun nvar jdim kdim cur_prec tab_prec k_prec j_prec].
  split; [reflexivity|]. repeat split; auto.
  - exists T. auto.
  - intros ->. congruence.
  - now rewrite <- G.
  - now destruct (_ && _).
Qed.

Lemma run_ready l : forall d s m sys, supported m = true -> forallb supported_op l = true -> ready s m sys d ->
  ready (snd (prun (d, s) l)) (last_method m l) (last_system sys l) (last_precision d l) /\
  fst (prun (d, s) l) = last_precision d l.
Proof.
  induction l as [|o r IH]; intros d s m sys Sm Sl R; [split; [exact R|reflexivity]|].
  cbn [forallb] in Sl. apply andb_prop in Sl. destruct Sl as [So Sr].
  unfold prun, last_method, last_system, last_precision. cbn [fold_left].
  destruct o as [m'|nf nv|p]; cbn [pstep supported_op] in *.
  - apply IH; [exact So|exact Sr|].
    destruct R as (A & B & C & D & E & F & G & H & I & J & K & L & M).
    apply method_ready; auto.
  - apply IH; [exact Sm|exact Sr|]. now apply system_ready with (sys := sys).
  - apply IH; [exact Sm|exact Sr|]. now apply precision_ready with (d := d).
Qed.

Lemma construct_ready d m sys : supported m = true ->
  snd (construct d m sys) = true /\ ready (fst (construct d m sys)) m sys d.
Proof.
  intros Sup. unfold construct. destruct sys as [nf nv]. apply method_ready; try exact Sup; try reflexivity.
  - unfold change_system, resize_K, blank. cbn [k_prec]. now destruct (_ && _).
  - unfold change_system, resize_K, blank. cbn [j_prec]. now destruct (_ && _).
Qed.

(** ** A prediction *)
Section Predict.
  Context {X Tm NE : Type}.
  Variables (xzero : X) (xadd : X -> X -> X) (xscale : QcF -> X -> X) (xdt : X -> X).
  Variables (current_time : Tm) (tm : QcF -> Tm).
  Variable rhs : X -> Tm -> option X.
  (** double precision numbers for norms: [norm_err v] the norm of an error vector, [prop_err e p] the error
      [e] over the step length to the power [p + 1], [prop_K K p] the largest entry of the stages over the
      step length to the power [p]; [normJ] the norm of the Jacobian of the first stage, [draw k] the norm of
      the solution of its factorisation for the k-th random vector *)
  Variables (times : NE -> NE -> NE) (norm_err : X -> NE) (prop_err : NE -> nat -> NE) (prop_K : list X -> nat -> NE).
  Variables (normJ : NE) (draw : nat -> NE).
  (** amp_criteria.hpp:70-74 and 205-209 *)
  Variables (criterionA : NE -> NE -> bool) (criterionC : NE -> bool).

  Variables (m : method) (T : table).

  (** FullStep with the stages as they are left (explicit_predictors.hpp:685-731; line 704: zero at first) *)
  Fixpoint fill_K (n i : nat) (x : X) (K : list X) : bool * list X :=
    match n with
    | O => (true, K)
    | S n' =>
        match rhs (xadd x (xdt (lin xadd xscale (a_at T i) 0 xzero K))) (tm (c_at T i)) with
        | None => (false, K ++ repeat xzero n)
        | Some k => fill_K n' (S i) x (K ++ [k])
        end
    end.
  Definition full_step_K (x : X) : code * option X * list X :=
    if stages T =? 0 then (Success, Some x, [])
    else match rhs x current_time with
         | None => (MatrixSolveFailureFirstPartOfPrediction, None, repeat xzero (stages T))
         | Some k0 =>
             let (ok, K) := fill_K (stages T - 1) 1 x [k0] in
             if ok then (Success, Some (xadd x (xdt (lin xadd xscale (b_at T) 0 xzero K))), K)
             else (MatrixSolveFailure, None, K)
         end.

  (** SetNormsCond, explicit_predictors.hpp:734-755; the counter is a parameter passed by value, so what is written to it is lost *)
  Record tracker_numbers := mkN { cond : NE; counter : nat }.
  Definition set_norms (freq k : nat) (n : tracker_numbers) : NE * NE * tracker_numbers :=
    (normJ, draw k, mkN (if freq <=? counter n then times normJ (draw k) else cond n) (counter n)).

  (** explicit_predictors.hpp:768-790 and 807-827 *)
  Definition error_estimate (K : list X) : NE := norm_err (error_vector xzero xadd xscale xdt T K).
  Definition size_proportion (K : list X) : NE :=
    if has_error m then prop_err (error_estimate K) (order m) else prop_K K (order m).

  (** explicit_predictors.hpp:459-476 *)
  Definition predict1 (freq k : nat) (x : X) (n : tracker_numbers) : code * option X * list X * tracker_numbers :=
    let '(c, nx, K) := full_step_K x in
    let '(_, _, n') := set_norms freq k n in (c, nx, K, n').

  Record prediction := mkPr { pcode : code; next_space : option X; perror : option NE; pprop : NE;
                              pnormJ : NE; pnormJinv : NE; pnum : tracker_numbers }.
  (** explicit_predictors.hpp:502-544: a random vector for the first call, another for the second *)
  Definition predict2 (freq k : nat) (x : X) (n : tracker_numbers) : prediction * list X :=
    let '(c, nx, K, n1) := predict1 freq k x n in
    let '(nJ, nJi, n2) := set_norms freq (S k) n1 in
    let c' := if negb (is_success c) then c
              else if negb (criterionA nJ nJi) then HigherPrecisionNecessary
              else if negb (criterionC nJi) then HigherPrecisionNecessary
              else c in
    (mkPr c' nx None (size_proportion K) nJ nJi n2, K).
  (** explicit_predictors.hpp:570-600; [None]: an exception *)
  Definition predict3 (freq k : nat) (x : X) (n : tracker_numbers) : option prediction :=
    if negb (has_error m) then None
    else let (r, K) := predict2 freq k x n in
         Some (mkPr (pcode r) (next_space r) (Some (error_estimate K)) (pprop r) (pnormJ r) (pnormJinv r) (pnum r)).

  (** amp_tracker.hpp:1084-1110: the trackers' choice between the two *)
  Definition predict (freq k : nat) (x : X) (n : tracker_numbers) : option prediction :=
    if has_error m then predict3 freq k x n else Some (fst (predict2 freq k x n)).

  Lemma fill_K_fill n : forall i x K,
    fst (fill_K n i x K) = match fill xzero xadd xscale xdt tm rhs T n i x K with Some _ => true | None => false end /\
    (forall K', fill xzero xadd xscale xdt tm rhs T n i x K = Some K' -> snd (fill_K n i x K) = K').
  Proof.
    induction n as [|n IH]; intros i x K; cbn [fill_K fill].
    - cbn [fst snd]. split; [reflexivity|]. intros K' H. congruence.
    - destruct (rhs _ _); [apply IH|]. cbn [fst snd]. split; [reflexivity|discriminate].
  Qed.

  Lemma full_step_agrees x :
    let r := full_step xzero xadd xscale xdt current_time tm rhs T x in
    fst (fst (full_step_K x)) = fst r /\ snd (fst (full_step_K x)) = option_map fst (snd r) /\
    (forall y K, snd r = Some (y, K) -> snd (full_step_K x) = K).
  Proof.
    unfold full_step, full_step_K. destruct (stages T =? 0); cbn [fst snd option_map].
    - split; [reflexivity|]. split; [reflexivity|]. intros y K H. congruence.
    - destruct (rhs x current_time) as [k0|]; cbn [fst snd option_map].
      + destruct (fill_K_fill (stages T - 1) 1 x [k0]) as [A B].
        destruct (fill_K (stages T - 1) 1 x [k0]) as [ok K]. cbn [fst snd] in *.
        destruct (fill xzero xadd xscale xdt tm rhs T (stages T - 1) 1 x [k0]) as [K'|].
        * subst ok. specialize (B K' eq_refl). subst K'. cbn [fst snd option_map].
          split; [reflexivity|]. split; [reflexivity|]. intros y K' H. congruence.
        * subst ok. cbn [fst snd option_map]. split; [reflexivity|]. split; [reflexivity|discriminate].
      + split; [reflexivity|]. split; [reflexivity|discriminate].
  Qed.

  Lemma full_step_codes x : let c := fst (fst (full_step_K x)) in
    c = Success \/ c = MatrixSolveFailureFirstPartOfPrediction \/ c = MatrixSolveFailure.
  Proof.
    unfold full_step_K. destruct (stages T =? 0); cbn [fst]; [auto|]. destruct (rhs x current_time); cbn [fst]; [|auto].
    destruct (fill_K _ _ _ _) as [[|] K]; cbn [fst]; auto.
  Qed.

  Lemma predict_total freq k x n : exists r, predict freq k x n = Some r /\
    let c := fst (fst (full_step_K x)) in
    next_space r = snd (fst (full_step_K x)) /\
    pnormJ r = normJ /\ pnormJinv r = draw (S k) /\
    pnum r = mkN (if freq <=? counter n then times normJ (draw (S k)) else cond n) (counter n) /\
    pcode r = (if negb (is_success c) then c
               else if criterionA normJ (draw (S k)) && criterionC (draw (S k)) then Success
               else HigherPrecisionNecessary).
  Proof.
    unfold predict, predict3.
    assert (Q : let c := fst (fst (full_step_K x)) in let r := fst (predict2 freq k x n) in
      next_space r = snd (fst (full_step_K x)) /\ pnormJ r = normJ /\ pnormJinv r = draw (S k) /\
      pnum r = mkN (if freq <=? counter n then times normJ (draw (S k)) else cond n) (counter n) /\
      pcode r = (if negb (is_success c) then c
               else if criterionA normJ (draw (S k)) && criterionC (draw (S k)) then Success
               else HigherPrecisionNecessary)).
    { unfold predict2, predict1, set_norms. destruct (full_step_K x) as [[c nx] K]. cbn [fst snd cond counter].
      cbn [next_space pnormJ pnormJinv pnum pcode]. repeat split.
      - f_equal. now destruct (freq <=? counter n).
      - destruct c; cbn [is_success negb]; try reflexivity.
        destruct (criterionA _ _); cbn [negb andb]; [|reflexivity]. now destruct (criterionC _). }
    destruct (has_error m); cbn [negb].
    - destruct (predict2 freq k x n) as [r K]. cbn [fst] in Q. eexists. split; [reflexivity|]. exact Q.
    - eexists. split; [reflexivity|]. exact Q.
  Qed.

  (** a run of predictions; the k-th uses the random vectors from [2 k] on *)
  Fixpoint predict_run (freq : nat) (k : nat) (xs : list X) (n : tracker_numbers) : option (list tracker_numbers) :=
    match xs with
    | [] => Some []
    | x :: r => match predict freq (2 * k) x n with
                | Some p => option_map (cons (pnum p)) (predict_run freq (S k) r (pnum p))
                | None => None
                end
    end.

  Lemma predict_run_cond freq xs : forall k n, exists l, predict_run freq k xs n = Some l /\ length l = length xs /\
    forall j v, nth_error l j = Some v -> counter v = counter n /\
      cond v = (if freq <=? counter n then times normJ (draw (S (2 * (k + j)))) else cond n).
  Proof.
    induction xs as [|x r IH]; intros k n; cbn [predict_run].
    - exists []. split; [reflexivity|]. split; [reflexivity|]. intros [|j] v H; discriminate.
    - destruct (predict_total freq (2 * k) x n) as [p [-> (_ & _ & _ & E & _)]].
      destruct (IH (S k) (pnum p)) as [l [-> [L H]]]. exists (pnum p :: l).
      split; [reflexivity|]. split; [cbn [length]; lia|]. intros [|j] v Hv; cbn [nth_error] in Hv.
      + injection Hv as <-. rewrite E. cbn [counter cond]. rewrite Nat.add_0_r. split; reflexivity.
      + destruct (H j v Hv) as [A B]. rewrite E in A, B. cbn [counter cond] in A, B. split; [exact A|].
        rewrite B. destruct (freq <=? counter n); [|reflexivity]. replace (S k + j) with (k + S j) by lia. reflexivity.
  Qed.
End Predict.
