(** The Butcher tables of core/src/tracking/explicit_predictors.cpp, transcribed entry by entry, and
    the choice of predictor, explicit_predictors.hpp. *)
From Coq Require Import List Arith Lia ZArith QArith Bool Ring Field.
From Verif Require Import Base Newton Butcher RK.
Import ListNotations.
Local Open Scope fld_scope.
Add Field qf3 : (f_th QcF).

(** explicit_predictors.cpp:50-58; no embedded estimator: the table does not set b - bstar *)
Definition Euler_table : table := mkTable 1
    [qc 0 1]
    [qc 1 1]
    []
    [qc 0 1].

(** explicit_predictors.cpp:73-86 *)
Definition HeunEuler_table : table := mkTable 2
    [qc 0 1; qc 1 1;
     qc 0 1; qc 0 1]
    [qc 1 2; qc 1 2]
    [qc (-1) 2; qc 1 2]
    [qc 0 1; qc 1 1].

(** explicit_predictors.cpp:102-116; no embedded estimator: the table does not set b - bstar *)
Definition RK4_table : table := mkTable 4
    [qc 0 1; qc 1 2; qc 0 1; qc 0 1;
     qc 0 1; qc 0 1; qc 1 2; qc 0 1;
     qc 0 1; qc 0 1; qc 0 1; qc 1 1;
     qc 0 1; qc 0 1; qc 0 1; qc 0 1]
    [qc 1 6; qc 1 3; qc 1 3; qc 1 6]
    []
    [qc 0 1; qc 1 2; qc 1 2; qc 1 1].

(** explicit_predictors.cpp:128-157 *)
Definition RKF45_table : table := mkTable 6
    [qc 0 1; qc 1 4; qc 3 32; qc 1932 2197; qc 439 216; qc (-8) 27;
     qc 0 1; qc 0 1; qc 9 32; qc (-7200) 2197; qc (-8) 1; qc 2 1;
     qc 0 1; qc 0 1; qc 0 1; qc 7296 2197; qc 3680 513; qc (-3544) 2565;
     qc 0 1; qc 0 1; qc 0 1; qc 0 1; qc (-845) 4104; qc 1859 4104;
     qc 0 1; qc 0 1; qc 0 1; qc 0 1; qc 0 1; qc (-11) 40;
     qc 0 1; qc 0 1; qc 0 1; qc 0 1; qc 0 1; qc 0 1]
    [qc 16 135; qc 0 1; qc 6656 12825; qc 28561 56430; qc (-9) 50; qc 2 55]
    [qc 1 360; qc 0 1; qc (-128) 4275; qc (-2197) 75240; qc 1 50; qc 2 55]
    [qc 0 1; qc 1 4; qc 3 8; qc 12 13; qc 1 1; qc 1 2].

(** explicit_predictors.cpp:169-198 *)
Definition RKCK45_table : table := mkTable 6
    [qc 0 1; qc 1 5; qc 3 40; qc 3 10; qc (-11) 54; qc 1631 55296;
     qc 0 1; qc 0 1; qc 9 40; qc (-9) 10; qc 5 2; qc 175 512;
     qc 0 1; qc 0 1; qc 0 1; qc 6 5; qc (-70) 27; qc 575 13824;
     qc 0 1; qc 0 1; qc 0 1; qc 0 1; qc 35 27; qc 44275 110592;
     qc 0 1; qc 0 1; qc 0 1; qc 0 1; qc 0 1; qc 253 4096;
     qc 0 1; qc 0 1; qc 0 1; qc 0 1; qc 0 1; qc 0 1]
    [qc 37 378; qc 0 1; qc 250 621; qc 125 594; qc 0 1; qc 512 1771]
    [qc (-277) 64512; qc 0 1; qc 6925 370944; qc (-6925) 202752; qc (-277) 14336; qc 277 7084]
    [qc 0 1; qc 1 5; qc 3 10; qc 3 5; qc 1 1; qc 7 8].

(** explicit_predictors.cpp:210-243 *)
Definition RKDP56_table : table := mkTable 8
    [qc 0 1; qc 1 10; qc (-2) 81; qc 615 1372; qc 3243 5500; qc (-26492) 37125; qc 5561 2376; qc 465467 266112;
     qc 0 1; qc 0 1; qc 20 81; qc (-270) 343; qc (-54) 55; qc 72 55; qc (-35) 11; qc (-2945) 1232;
     qc 0 1; qc 0 1; qc 0 1; qc 1053 1372; qc 50949 71500; qc 2808 23375; qc (-24117) 31603; qc (-5610201) 14158144;
     qc 0 1; qc 0 1; qc 0 1; qc 0 1; qc 4998 17875; qc (-24206) 37125; qc 899983 200772; qc 10513573 3212352;
     qc 0 1; qc 0 1; qc 0 1; qc 0 1; qc 0 1; qc 338 459; qc (-5225) 1836; qc (-424325) 205632;
     qc 0 1; qc 0 1; qc 0 1; qc 0 1; qc 0 1; qc 0 1; qc 3925 4056; qc 376225 454272;
     qc 0 1; qc 0 1; qc 0 1; qc 0 1; qc 0 1; qc 0 1; qc 0 1; qc 0 1;
     qc 0 1; qc 0 1; qc 0 1; qc 0 1; qc 0 1; qc 0 1; qc 0 1; qc 0 1]
    [qc 821 10800; qc 0 1; qc 19683 71825; qc 175273 912600; qc 395 3672; qc 785 2704; qc 3 50; qc 0 1]
    [qc 13 2400; qc 0 1; qc (-19683) 618800; qc 2401 31200; qc (-65) 816; qc 15 416; qc 521 5600; qc (-1) 10]
    [qc 0 1; qc 1 10; qc 2 9; qc 3 7; qc 3 5; qc 4 5; qc 1 1; qc 1 1].

(** explicit_predictors.cpp:256-293 *)
Definition RKV67_table : table := mkTable 10
    [qc 0 1; qc 1 12; qc 0 1; qc 1 16; qc 21 16; qc 1344688 250563; qc (-559) 384; qc (-625) 224; qc (-12253) 99144; qc 30517 2512;
     qc 0 1; qc 0 1; qc 1 6; qc 0 1; qc 0 1; qc 0 1; qc 0 1; qc 0 1; qc 0 1; qc 0 1;
     qc 0 1; qc 0 1; qc 0 1; qc 3 16; qc (-81) 16; qc (-1709184) 83521; qc 6 1; qc 12 1; qc 16 27; qc (-7296) 157;
     qc 0 1; qc 0 1; qc 0 1; qc 0 1; qc 9 2; qc 1365632 83521; qc (-204) 47; qc (-456) 47; qc 16 459; qc 268728 7379;
     qc 0 1; qc 0 1; qc 0 1; qc 0 1; qc 0 1; qc (-78208) 250563; qc 14 39; qc 48 91; qc 29072 161109; qc 2472 2041;
     qc 0 1; qc 0 1; qc 0 1; qc 0 1; qc 0 1; qc 0 1; qc (-4913) 78208; qc 14739 136864; qc (-2023) 75816; qc (-3522621) 10743824;
     qc 0 1; qc 0 1; qc 0 1; qc 0 1; qc 0 1; qc 0 1; qc 0 1; qc 6 7; qc 112 12393; qc 132 157;
     qc 0 1; qc 0 1; qc 0 1; qc 0 1; qc 0 1; qc 0 1; qc 0 1; qc 0 1; qc 0 1; qc 0 1;
     qc 0 1; qc 0 1; qc 0 1; qc 0 1; qc 0 1; qc 0 1; qc 0 1; qc 0 1; qc 0 1; qc (-12393) 4396;
     qc 0 1; qc 0 1; qc 0 1; qc 0 1; qc 0 1; qc 0 1; qc 0 1; qc 0 1; qc 0 1; qc 0 1]
    [qc 2881 40320; qc 0 1; qc 0 1; qc 1216 2961; qc (-2624) 4095; qc 24137569 57482880; qc (-4) 21; qc 0 1; qc 4131 3920; qc (-157) 1260]
    [qc (-17) 2688; qc 0 1; qc 0 1; qc 272 4935; qc (-272) 273; qc 24137569 57482880; qc (-34) 105; qc (-7) 90; qc 4131 3920; qc (-157) 1260]
    [qc 0 1; qc 1 12; qc 1 6; qc 1 4; qc 3 4; qc 16 17; qc 1 2; qc 1 1; qc 2 3; qc 1 1].
(** explicit_predictors.hpp:244-262, PredictorMethod for Predictor::Constant *)
Definition Constant_table : table := mkTable 1 [qc 0 1] [qc 0 1] [] [qc 0 1].

(** trackers/config.hpp:55-67 *)
Inductive predictor : Set :=
| PConstant | PEuler | PHeun | PRK4 | PHeunEuler | PRKNorsett34 | PRKF45 | PRKCashKarp45
| PRKDormandPrince56 | PRKVerner67.

(** predict::Order, explicit_predictors.hpp:83-113 *)
Definition order (p : predictor) : nat :=
  match p with
  | PConstant => 0 | PEuler => 1 | PHeun => 2 | PHeunEuler => 2 | PRKNorsett34 => 3 | PRK4 => 4
  | PRKF45 => 4 | PRKCashKarp45 => 4 | PRKDormandPrince56 => 5 | PRKVerner67 => 6
  end%nat.

(** predict::HasErrorEstimate, explicit_predictors.hpp:121-150 *)
Definition has_error_estimate (p : predictor) : bool :=
  match p with
  | PConstant | PEuler | PHeun | PRK4 => false
  | PHeunEuler | PRKNorsett34 | PRKF45 | PRKCashKarp45 | PRKDormandPrince56 | PRKVerner67 => true
  end.

(** The table chosen by PredictorMethod(method), explicit_predictors.hpp:238-346; None: it throws. *)
Definition table_of (p : predictor) : option table :=
  match p with
  | PConstant => Some Constant_table
  | PEuler => Some Euler_table
  | PHeunEuler => Some HeunEuler_table
  | PRK4 => Some RK4_table
  | PRKF45 => Some RKF45_table
  | PRKCashKarp45 => Some RKCK45_table
  | PRKDormandPrince56 => Some RKDP56_table
  | PRKVerner67 => Some RKV67_table
  | PHeun | PRKNorsett34 => None
  end.

(** A predictor object: predictor_, p_ and the table members. *)
Record pred := mkPred { p_method : predictor; p_order : nat; p_table : table }.

(** PredictorMethod(method), explicit_predictors.hpp:238-346: predictor_ and p_ are assigned before the
    switch, the members after; tables without embedded estimator leave b_minus_bstar_ as it was.
    The second component tells whether the call threw. *)
Definition set_method (m : predictor) (s : pred) : pred * bool :=
  match table_of m with
  | None => (mkPred m (order m) (p_table s), true)
  | Some T =>
      (mkPred m (order m)
         (if has_error_estimate m then T
          else mkTable (stages T) (ta T) (tb T) (td (p_table s)) (tc T)), false)
  end.

(** The constructors: an object with no stages, then PredictorMethod; explicit_predictors.hpp:212-228.
    None: the constructor throws. *)
Definition new_predictor (m : predictor) : option pred :=
  let (s, threw) := set_method m (mkPred m 0 (mkTable 0 [] [] [] [])) in if threw then None else Some s.

(* ------------------------------------------------------------------ what the tables satisfy *)
Lemma tables_rows : forall m T, table_of m = Some T -> row_sums T /\ (1 <= stages T)%nat.
Proof.
  intros m T E. destruct m; try discriminate; injection E as <-;
    (split; [apply check_rows_sound; vm_compute; reflexivity | cbn; lia]).
Qed.

Lemma tables_order : forall m T, table_of m = Some T -> order_conditions T (b_at T) (order m).
Proof.
  intros m T E. destruct m; try discriminate; injection E as <-; apply check_order_sound; vm_compute; reflexivity.
Qed.

(** The order of the difference of the two embedded solutions. *)
Definition estimate_order (p : predictor) : nat := match p with PHeunEuler => 1 | _ => order p end%nat.

Lemma tables_estimate : forall m T, table_of m = Some T -> has_error_estimate m = true ->
  vanishing_conditions T (d_at T) (estimate_order m).
Proof.
  intros m T E H. destruct m; try discriminate; injection E as <-; apply check_vanishing_sound; vm_compute; reflexivity.
Qed.

(** The weights of the methods of higher order than reported. *)
Lemma tables_order_b : order_conditions RKF45_table (b_at RKF45_table) 5
  /\ order_conditions RKCK45_table (b_at RKCK45_table) 5
  /\ order_conditions RKV67_table (b_at RKV67_table) 7
  /\ order_conditions RKDP56_table (fun i => b_at RKDP56_table i - d_at RKDP56_table i) 6.
Proof.
  repeat split; apply check_order_sound; vm_compute; reflexivity.
Qed.

Lemma set_method_same : forall m s s', set_method m s = (s', false) ->
  exists T, table_of m = Some T /\ p_order s' = order m /\ p_method s' = m
    /\ stages (p_table s') = stages T /\ ta (p_table s') = ta T /\ tb (p_table s') = tb T /\ tc (p_table s') = tc T
    /\ (has_error_estimate m = true -> p_table s' = T).
Proof.
  intros m s s' E. unfold set_method in E. destruct (table_of m) as [T|]; [|discriminate].
  exists T. injection E as <-. cbn [p_order p_method p_table].
  destruct (has_error_estimate m); cbn [stages ta tb tc]; repeat match goal with |- _ /\ _ => split end;
    try reflexivity; intros; congruence.
Qed.

Lemma phi_same : forall T T', stages T = stages T' -> ta T = ta T' -> forall t i, phi T t i = phi T' t i.
Proof.
  intros T T' E1 E2 t. induction t as [l IH] using tree_rect'. intro i. cbn [phi]. f_equal. apply map_ext_in.
  intros u Hu. f_equal. apply map_ext. intro j. rewrite IH by exact Hu. unfold a_at. rewrite E1, E2. reflexivity.
Qed.

(** The predictor object after a successful PredictorMethod. *)
Lemma predictor_rows : forall m s s', set_method m s = (s', false) ->
  row_sums (p_table s') /\ (1 <= stages (p_table s'))%nat.
Proof.
  intros m s s' E. destruct (set_method_same m s s' E) as [T [ET [_ [_ [E1 [E2 [_ [E4 _]]]]]]]].
  destruct (tables_rows m T ET) as [R L]. rewrite E1. split; [|exact L].
  intros i Hi. rewrite E1 in Hi. specialize (R i Hi). unfold c_at, a_at in *. rewrite E1, E2, E4. exact R.
Qed.

Lemma predictor_order_ok : forall m s s', set_method m s = (s', false) ->
  order_conditions (p_table s') (b_at (p_table s')) (p_order s').
Proof.
  intros m s s' E. destruct (set_method_same m s s' E) as [T [ET [Eo [_ [E1 [E2 [E3 [E4 _]]]]]]]].
  rewrite Eo. intros t Lt. rewrite <- (tables_order m T ET t Lt). unfold tree_sum. rewrite E1. f_equal. apply map_ext.
  intro i. unfold b_at. rewrite E3. rewrite (phi_same _ T E1 E2). reflexivity.
Qed.
