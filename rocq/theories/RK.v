(** The explicit Runge-Kutta predictor, core/include/bertini2/trackers/explicit_predictors.hpp.
    Table entries are exact rationals (the code converts them to double or mpfr_float). *)
From Coq Require Import List Arith Lia ZArith QArith Bool Ring Field.
From Verif Require Import Base Newton Butcher.
Import ListNotations.
Local Open Scope fld_scope.
Add Field qf2 : (f_th QcF).

(** A Butcher table as stored in src/tracking/explicit_predictors.cpp: a column by column (the storage
    order of Eigen matrices), the weights b, the differences b - bstar and the nodes c. *)
Record table := mkTable { stages : nat; ta : list QcF; tb : list QcF; td : list QcF; tc : list QcF }.

(** entries after FillButcherTable, explicit_predictors.hpp:931-1014 *)
Definition a_at (T : table) (i j : nat) : QcF := nth (j * stages T + i) (ta T) 0.
Definition b_at (T : table) (i : nat) : QcF := nth i (tb T) 0.
Definition d_at (T : table) (i : nat) : QcF := nth i (td T) 0.
Definition c_at (T : table) (i : nat) : QcF := nth i (tc T) 0.

Section Step.
Context {X Tm : Type}.
Variables (xzero : X) (xadd : X -> X -> X) (xscale : QcF -> X -> X).
Variable xdt : X -> X.                 (* multiplication by delta_t *)
Variable current_time : Tm.
Variable tm : QcF -> Tm.               (* current_time + c * delta_t *)
Variable rhs : X -> Tm -> option X.    (* EvalRHS: minus the inverse Jacobian times the time derivative,
                                          or failure of the factorisation; explicit_predictors.hpp:844-899 *)
Variable T : table.

(** temp += w(jj) * K.col(jj), jj = 0, 1, ... *)
Fixpoint lin (w : nat -> QcF) (j : nat) (acc : X) (K : list X) : X :=
  match K with
  | [] => acc
  | k :: K' => lin w (S j) (xadd acc (xscale (w j) k)) K'
  end.

(** the loop over the stages, explicit_predictors.hpp:714-724 *)
Fixpoint fill (n i : nat) (x : X) (K : list X) : option (list X) :=
  match n with
  | O => Some K
  | S n' =>
      match rhs (xadd x (xdt (lin (a_at T i) 0 xzero K))) (tm (c_at T i)) with
      | None => None
      | Some k => fill n' (S i) x (K ++ [k])
      end
  end.

(** FullStep, explicit_predictors.hpp:685-734: the code, and the prediction with the stages. *)
Definition full_step (x : X) : code * option (X * list X) :=
  if (stages T =? 0)%nat then (Success, Some (x, []))
  else match rhs x current_time with
       | None => (MatrixSolveFailureFirstPartOfPrediction, None)
       | Some k0 =>
           match fill (stages T - 1) 1 x [k0] with
           | None => (MatrixSolveFailure, None)
           | Some K => (Success, Some (xadd x (xdt (lin (b_at T) 0 xzero K)), K))
           end
       end.

(** SetErrorEstimate, explicit_predictors.hpp:769-790, before taking the norm. *)
Definition error_vector (K : list X) : X := xdt (lin (d_at T) 0 xzero K).
End Step.

(* ------------------------------------------------------------------ elementary weights *)
(** The weight of a tree at stage i of a table: for a root with subtrees u, the product of
    sum_{j<i} a_ij weight_j(u). *)
Fixpoint phi (T : table) (t : tree) (i : nat) : QcF :=
  match t with Node l => fprod (map (fun u => fsum (map (fun j => a_at T i j * phi T u j) (seq 0 i))) l) end.

Definition tree_sum (T : table) (w : nat -> QcF) (t : tree) : QcF :=
  fsum (map (fun i => w i * phi T t i) (seq 0 (stages T))).

(** Order conditions up to p (Butcher): for every tree with at most p vertices the weight is the
    inverse of the density. *)
Definition order_conditions (T : table) (w : nat -> QcF) (p : nat) : Prop :=
  forall t, (torder t <= p)%nat -> tree_sum T w t = 1 / tdensity t.
Definition vanishing_conditions (T : table) (w : nat -> QcF) (p : nat) : Prop :=
  forall t, (torder t <= p)%nat -> tree_sum T w t = 0.

(** Deciding them. *)
Definition check_order (T : table) (w : nat -> QcF) (p : nat) : bool :=
  forallb (fun n => forallb (fun t => feqb (tree_sum T w t) (1 / tdensity t)) (trees n)) (seq 1 p).
Definition check_vanishing (T : table) (w : nat -> QcF) (p : nat) : bool :=
  forallb (fun n => forallb (fun t => feqb (tree_sum T w t) 0) (trees n)) (seq 1 p).
Definition row_sums (T : table) : Prop :=
  forall i, (i < stages T)%nat -> fsum (map (a_at T i) (seq 0 i)) = c_at T i.
Definition check_rows (T : table) : bool :=
  forallb (fun i => feqb (fsum (map (a_at T i) (seq 0 i))) (c_at T i)) (seq 0 (stages T)).

Lemma check_order_sound : forall T w p, check_order T w p = true -> order_conditions T w p.
Proof.
  intros T w p H t L. unfold check_order in H. rewrite forallb_forall in H.
  specialize (H (torder t)). rewrite forallb_forall in H.
  apply feqb_eq. apply H; [|apply trees_complete]. apply in_seq. pose proof (torder_pos t). lia.
Qed.

Lemma check_vanishing_sound : forall T w p, check_vanishing T w p = true -> vanishing_conditions T w p.
Proof.
  intros T w p H t L. unfold check_vanishing in H. rewrite forallb_forall in H.
  specialize (H (torder t)). rewrite forallb_forall in H.
  apply feqb_eq. apply H; [|apply trees_complete]. apply in_seq. pose proof (torder_pos t). lia.
Qed.

Lemma check_rows_sound : forall T, check_rows T = true -> row_sums T.
Proof.
  intros T H i L. unfold check_rows in H. rewrite forallb_forall in H. apply feqb_eq. apply H. apply in_seq. lia.
Qed.

(* ------------------------------------------------------------------ the step as a power series *)
(** V x Q as a rational vector space *)
Definition pairadd (V : qmod) (x y : V * QcF) : V * QcF := (vadd (fst x) (fst y), fadd (snd x) (snd y)).
Definition pairscale (V : qmod) (a : QcF) (x : V * QcF) : V * QcF := (vscale a (fst x), fmul a (snd x)).
Lemma pair_eq : forall (V : qmod) (x y : V * QcF), fst x = fst y -> snd x = snd y -> x = y.
Proof. intros V [a b] [c d]; cbn [fst snd]; intros -> ->. reflexivity. Qed.
Definition prodmod (V : qmod) : qmod.
Proof.
  refine (mkQmod (V * QcF) (v0, f0) (pairadd V) (pairscale V) _ _ _ _ _ _ _ _);
  intros; apply pair_eq; unfold pairadd, pairscale; cbn [fst snd].
  - apply vadd_comm. - ring. - apply vadd_assoc. - ring. - apply vadd_0. - ring. - apply vscale_1. - ring.
  - apply vscale_0. - ring. - apply vscale_mul. - ring. - apply vscale_add. - ring. - apply vscale_vadd. - ring.
Defined.

Section Formal.
Variable V : qmod.
(** The derivatives at the current point and time of the right hand side f(x, t): D [(u1,s1);...] is the
    k-th one in the directions (u1,s1), ..., (uk,sk). *)
Variable D : list (prodmod V) -> V.
Hypothesis D_add : forall l1 (u v : prodmod V) l2,
  D (l1 ++ vadd u v :: l2) = vadd (D (l1 ++ u :: l2)) (D (l1 ++ v :: l2)).
Hypothesis D_scale : forall l1 a (u : prodmod V) l2, D (l1 ++ vscale a u :: l2) = vscale a (D (l1 ++ u :: l2)).
Variable x0 : V.

(** A power series in delta_t; its displacement from its constant term, paired with that of the time
    current_time + c * delta_t. *)
Definition displacement (x : nat -> V) (c : QcF) (n : nat) : prodmod V :=
  match n with O => v0 | 1%nat => (x 1%nat, c) | _ => (x n, f0) end.

(** The coefficients of f(x(delta_t), current_time + c * delta_t), by Taylor's formula at the current
    point (the constant term of x). *)
Definition taylor (x : nat -> V) (c : QcF) : nat -> V := fun n =>
  vsum (map (fun k => vscale (1 / qfact (length k)) (D (map (displacement x c) k))) (comps n)).

(** The solution of x' = f(x, t) through the current point: its power series. *)
Definition exact_solution (x : nat -> V) : Prop :=
  x 0%nat = x0 /\ forall n, vscale (fnat (S n)) (x (S n)) = taylor x 1 n.

(** FullStep on power series: multiplication by delta_t is a shift. *)
Definition s_zero : nat -> V := fun _ => v0.
Definition s_add (x y : nat -> V) : nat -> V := fun n => vadd (x n) (y n).
Definition s_scale (a : QcF) (x : nat -> V) : nat -> V := fun n => vscale a (x n).
Definition s_dt (x : nat -> V) : nat -> V := fun n => match n with O => v0 | S k => x k end.
Definition s_const (x : V) : nat -> V := fun n => match n with O => x | _ => v0 end.

Definition series_step (T : table) : code * option ((nat -> V) * list (nat -> V)) :=
  full_step s_zero s_add s_scale s_dt (f0 : QcF) (fun c => c) (fun x c => Some (taylor x c)) T (s_const x0).

(* the autonomous field on V x Q *)
Definition D' (l : list (prodmod V)) : prodmod V := (D l, match l with [] => f1 | _ => f0 end).

Lemma D'_ml : multilinear D'.
Proof.
  split; intros; apply pair_eq; cbn [vadd vscale prodmod pairadd pairscale fst snd D'].
  - apply D_add. - destruct l1; cbn [app]; ring.
  - apply D_scale. - destruct l1; cbn [app]; ring.
Qed.

Lemma vsum_fst : forall {A} (f : A -> prodmod V) l, fst (vsum (map f l)) = vsum (map (fun x => fst (f x)) l).
Proof. intros A f l. induction l as [|x l IH]; [reflexivity|]. cbn [map vsum]. rewrite <- IH. reflexivity. Qed.
Lemma vsum_snd : forall {A} (f : A -> prodmod V) l, snd (vsum (map f l)) = fsum (map (fun x => snd (f x)) l).
Proof. intros A f l. induction l as [|x l IH]; [reflexivity|]. cbn [map vsum fsum]. rewrite <- IH. reflexivity. Qed.

Lemma comps_0 : comps 0 = [[]]. Proof. reflexivity. Qed.

Lemma compose_aug : forall x c n,
  compose D' (displacement x c) n = (taylor x c n, match n with O => f1 | _ => f0 end).
Proof.
  intros x c n. unfold compose. apply pair_eq; cbn [fst snd].
  - rewrite vsum_fst. unfold taylor. reflexivity.
  - rewrite vsum_snd. destruct n as [|n]; [reflexivity|].
    transitivity (fsum (map (fun _ : list nat => (f0 : QcF)) (comps (S n)))).
    + f_equal. apply map_ext_in. intros k Hk. apply comps_spec in Hk. destruct Hk as [Sk _].
      destruct k as [|m k]; [discriminate|]. cbn [vscale prodmod pairscale snd D' map]. ring.
    + apply fsum_map_0.
Qed.

Definition aug (K : nat -> V) (n : nat) : prodmod V := (K n, match n with O => f1 | _ => f0 end).

(** linear combinations, unrolled *)
Lemma lin_value : forall (w : nat -> QcF) (K : list (nat -> V)) j acc n,
  lin s_add s_scale w j acc K n
  = vadd (acc n) (vsum (map (fun i => vscale (w (j + i)%nat) (nth i K s_zero n)) (seq 0 (length K)))).
Proof.
  intros w K. induction K as [|k K IH]; intros j acc n; cbn [lin length seq map vsum].
  - rewrite vadd_comm, vadd_0. reflexivity.
  - rewrite IH. unfold s_add at 1, s_scale at 1. rewrite <- vadd_assoc. f_equal. rewrite Nat.add_0_r. f_equal.
    rewrite <- seq_shift, map_map. apply vsum_ext. intros i _. replace (S j + i)%nat with (j + S i)%nat by lia. reflexivity.
Qed.

Lemma bseries_lin : forall (alpha : nat -> tree -> QcF) (w : nat -> QcF) m n l,
  vsum (map (fun i => vscale (w i) (bseries D' (alpha i) n)) (seq m l))
  = bseries D' (fun t => fsum (map (fun i => w i * alpha i t) (seq m l))) n.
Proof.
  intros alpha w m n l. revert m. induction l as [|l IH]; intro m; cbn [seq map vsum fsum].
  - unfold bseries. symmetry. rewrite (vsum_ext _ _ (fun _ => vscale 0 v0)) by (intros; rewrite !vscale_0; reflexivity).
    rewrite vsum_scale. apply vscale_0.
  - rewrite IH. unfold bseries. rewrite <- vsum_scale, <- vsum_vadd. apply vsum_ext. intros t _.
    rewrite vscale_add, vscale_mul. reflexivity.
Qed.

Definition stage_alpha (T : table) (i : nat) (t : tree) : QcF := tweight t * phi T t i.

Definition good_stages (T : table) (K : list (nat -> V)) : Prop :=
  forall i, (i < length K)%nat -> forall n, aug (nth i K s_zero) n = bseries D' (stage_alpha T i) (S n).

(** sums of stages, as series over trees *)
Lemma good_lin : forall T K, good_stages T K -> forall (w : nat -> QcF) n,
  (lin s_add s_scale w 0 s_zero K n,
   match n with O => fsum (map w (seq 0 (length K))) | _ => f0 end)
  = bseries D' (fun t => tweight t * fsum (map (fun j => w j * phi T t j) (seq 0 (length K)))) (S n).
Proof.
  intros T K G w n.
  assert (E : bseries D' (fun t => tweight t * fsum (map (fun j => w j * phi T t j) (seq 0 (length K)))) (S n)
            = vsum (map (fun i => vscale (w i) (aug (nth i K s_zero) n)) (seq 0 (length K)))).
  { rewrite (vsum_ext _ _ (fun i => vscale (w i) (bseries D' (stage_alpha T i) (S n)))).
    - rewrite bseries_lin. unfold bseries. apply vsum_ext. intros t _. f_equal.
      rewrite <- fsum_map_mul. f_equal. apply map_ext. intro i. unfold stage_alpha. ring.
    - intros i Hi. apply in_seq in Hi. rewrite G by lia. reflexivity. }
  rewrite E. apply pair_eq; cbn [fst snd].
  - rewrite vsum_fst, lin_value. unfold s_zero at 1. rewrite vadd_0. reflexivity.
  - rewrite vsum_snd. destruct n as [|n]; cbn [aug vscale prodmod pairscale snd].
    + f_equal. apply map_ext. intro i. ring.
    + transitivity (fsum (map (fun _ : nat => (f0 : QcF)) (seq 0 (length K)))); [symmetry; apply fsum_map_0|].
      f_equal. apply map_ext. intro i. ring.
Qed.

Lemma stage_good : forall T K, row_sums T -> good_stages T K -> (length K < stages T)%nat ->
  forall x, x 0%nat = x0 -> (forall n, x (S n) = lin s_add s_scale (a_at T (length K)) 0 s_zero K n) ->
  good_stages T (K ++ [taylor x (c_at T (length K))]).
Proof.
  intros T K R G L x Hx0 Hx i Hi n. rewrite app_length in Hi. cbn [length] in Hi.
  destruct (Nat.eq_dec i (length K)) as [->|Ne].
  2:{ rewrite app_nth1 by lia. apply G. lia. }
  rewrite app_nth2 by lia. rewrite Nat.sub_diag. cbn [nth]. set (s := length K) in *.
  set (c := c_at T s). unfold aug. rewrite <- (compose_aug x c n).
  rewrite (compose_bseries _ D' D'_ml (fun t => tweight t * fsum (map (fun j => a_at T s j * phi T t j) (seq 0 s)))).
  - unfold bseries. apply vsum_ext. intros [l] _. f_equal. unfold stage_alpha. cbn [tweight phi].
    assert (P : forall l, fprod (map (fun t => tweight t * fsum (map (fun j => a_at T s j * phi T t j) (seq 0 s))) l)
                = fprod (map tweight l) * fprod (map (fun u => fsum (map (fun j => a_at T s j * phi T u j) (seq 0 s))) l)).
    { induction l0 as [|u l0 IH]; cbn [map fprod]; [ring|]. rewrite IH. ring. }
    rewrite P. ring.
  - intros m Hm. destruct m as [|m]; [lia|]. pose proof (good_lin T K G (a_at T s) m) as GL. fold s in GL.
    etransitivity; [|exact GL]. rewrite <- Hx. rewrite (R s L). unfold displacement, c. destruct m as [|m]; reflexivity.
Qed.

Lemma fill_good : forall T, row_sums T -> forall n K, good_stages T K -> (length K + n = stages T)%nat ->
  exists K', fill s_zero s_add s_scale s_dt (fun c : QcF => c) (fun x c => Some (taylor x c)) T n (length K) (s_const x0) K
             = Some K'
     /\ good_stages T K' /\ length K' = stages T.
Proof.
  intros T R n. induction n as [|n IH]; intros K G L; cbn [fill].
  - exists K. split; [reflexivity|]. split; [exact G|lia].
  - match goal with |- context [K ++ [?k]] => pose (kk := k); change k with kk end.
    assert (G' : good_stages T (K ++ [kk])).
    { apply stage_good; [exact R|exact G|lia| |].
      - unfold s_add, s_dt, s_const. rewrite vadd_comm, vadd_0. reflexivity.
      - intro m. unfold s_add at 1, s_dt, s_const. rewrite vadd_0. reflexivity. }
    specialize (IH (K ++ [kk]) G'). rewrite app_length in IH. cbn [length] in IH.
    replace (length K + 1)%nat with (S (length K)) in IH by lia. apply IH. lia.
Qed.

(** The step succeeds, and its series is the one over trees with weights sum b_i phi_i. *)
Lemma series_step_value : forall T, row_sums T -> (1 <= stages T)%nat ->
  exists x K, series_step T = (Success, Some (x, K)) /\ good_stages T K /\ length K = stages T
    /\ x 0%nat = x0
    /\ forall n, (x (S n), match n with O => fsum (map (b_at T) (seq 0 (stages T))) | _ => f0 end)
                 = bseries D' (fun t => tweight t * tree_sum T (b_at T) t) (S n).
Proof.
  intros T R L. unfold series_step, full_step. destruct (Nat.eqb_spec (stages T) 0) as [E|_]; [lia|].
  assert (G0 : good_stages T ([] ++ [taylor (s_const x0) (c_at T (length (@nil (nat -> V))))])).
  { apply stage_good; [exact R|intros i Hi; cbn in Hi; lia|cbn; lia|reflexivity|reflexivity]. }
  assert (C0 : c_at T 0 = 0). { rewrite <- (R 0%nat) by lia. reflexivity. }
  cbn [app length] in G0. rewrite C0 in G0.
  destruct (fill_good T R (stages T - 1) _ G0) as [K [E [G Lk]]]; [cbn; lia|]. cbn [length] in E. rewrite E.
  eexists. exists K. split; [reflexivity|]. split; [exact G|]. split; [exact Lk|]. split.
  - unfold s_add, s_dt, s_const. rewrite vadd_comm, vadd_0. reflexivity.
  - intro n. unfold s_add at 1, s_dt, s_const. rewrite vadd_0. rewrite <- Lk.
    rewrite (good_lin T K G (b_at T) n). unfold tree_sum. rewrite Lk. reflexivity.
Qed.

Lemma exact_aug : forall x, exact_solution x -> forall n,
  displacement x 1 (S n) = bseries D' exact_alpha (S n).
Proof.
  intros x [_ Hx] n. apply (solution_bseries _ D' D'_ml); [|lia]. split; [reflexivity|].
  intro m. rewrite compose_aug. rewrite <- Hx. apply pair_eq.
  - destruct m as [|m]; reflexivity.
  - destruct m as [|m]; cbn [displacement vscale prodmod pairscale fst snd fnat]; ring.
Qed.

(** With the order conditions up to p the prediction agrees with the solution in the powers of
    delta_t up to p. *)
Theorem order_of_step : forall T p, row_sums T -> (1 <= stages T)%nat -> order_conditions T (b_at T) p ->
  forall x, exact_solution x ->
  exists y K, series_step T = (Success, Some (y, K)) /\ forall n, (n <= p)%nat -> y n = x n.
Proof.
  intros T p R L O x Hx. destruct (series_step_value T R L) as [y [K [E [_ [_ [Y0 Y]]]]]].
  exists y, K. split; [exact E|]. intros [|n] Hn; [rewrite Y0, (proj1 Hx); reflexivity|].
  specialize (Y n). apply (f_equal fst) in Y. cbn [fst] in Y. rewrite Y.
  pose proof (exact_aug x Hx n) as Ex. 
  assert (B : bseries D' (fun t => tweight t * tree_sum T (b_at T) t) (S n) = bseries D' exact_alpha (S n)).
  { unfold bseries. apply vsum_ext. intros t Ht. apply trees_sound in Ht. f_equal. rewrite O by lia.
    unfold exact_alpha. field. apply tdensity_neq0. }
  rewrite B, <- Ex. destruct n; reflexivity.
Qed.

(** If the weights of b - bstar vanish up to p, so does the error estimate. *)
Theorem order_of_estimate : forall T p, row_sums T -> (1 <= stages T)%nat -> vanishing_conditions T (d_at T) p ->
  exists y K, series_step T = (Success, Some (y, K))
    /\ forall n, (n <= p)%nat -> error_vector s_zero s_add s_scale s_dt T K n = v0.
Proof.
  intros T p R L O. destruct (series_step_value T R L) as [y [K [E [G [Lk _]]]]].
  exists y, K. split; [exact E|]. intros [|n] Hn; [reflexivity|]. unfold error_vector. cbn [s_dt].
  pose proof (good_lin T K G (d_at T) n) as Y. apply (f_equal fst) in Y. cbn [fst] in Y. rewrite Y, Lk.
  fold (tree_sum T (d_at T)).
  assert (Z : bseries D' (fun t => tweight t * tree_sum T (d_at T) t) (S n) = v0).
  { unfold bseries. rewrite (vsum_ext _ _ (fun t => vscale 0 v0)).
    - rewrite vsum_scale. apply vscale_0.
    - intros t Ht. apply trees_sound in Ht. rewrite O by lia. replace (tweight t * 0) with (0 : QcF) by ring.
      rewrite !vscale_0. reflexivity. }
  unfold tree_sum in Z. rewrite Z. reflexivity.
Qed.
End Formal.
