(** Runge-Kutta predictors on x' = p(t), the codes of FullStep, and witnesses. *)
From Coq Require Import List Arith Lia ZArith QArith Bool Ring Field.
From Verif Require Import Base Poly Newton Butcher RK RKTables.
Import ListNotations.
Local Open Scope fld_scope.

(* ------------------------------------------------------------------ the codes *)
Section Codes.
Context {X Tm : Type}.
Variables (xzero : X) (xadd : X -> X -> X) (xscale : QcF -> X -> X) (xdt : X -> X) (current_time : Tm) (tm : QcF -> Tm).
Variable rhs : X -> Tm -> option X.
Variable T : table.
Notation step := (full_step xzero xadd xscale xdt current_time tm rhs T).
Notation fillT := (fill xzero xadd xscale xdt tm rhs T).

(** What the stages have to be: K_0 at the current point and time, K_i at the point displaced by the
    stages before it. *)
Definition stage_of (x : X) (K : list X) (i : nat) : Prop :=
  nth_error K i = match i with
                  | O => rhs x current_time
                  | _ => rhs (xadd x (xdt (lin xadd xscale (a_at T i) 0 xzero (firstn i K)))) (tm (c_at T i))
                  end.

Lemma fill_prefix : forall n i x K K', fillT n i x K = Some K' -> length K = i ->
  firstn i K' = K /\ length K' = (i + n)%nat.
Proof.
  induction n as [|n IH]; intros i x K K' E L; cbn [fill] in E.
  - injection E as <-. split; [rewrite <- L; apply firstn_all|lia].
  - destruct (rhs _ _) as [k|]; [|discriminate].
    destruct (IH (S i) x (K ++ [k]) K' E) as [F L']; [rewrite app_length; cbn; lia|].
    split; [|lia]. rewrite <- (firstn_firstn K' i (S i)) at 1 || idtac.
    assert (Q : firstn i (firstn (S i) K') = firstn i K') by (rewrite firstn_firstn; f_equal; lia).
    rewrite <- Q, F. rewrite firstn_app. replace (i - length K)%nat with 0%nat by lia. cbn [firstn].
    rewrite app_nil_r. rewrite <- L. apply firstn_all.
Qed.

Lemma fill_stages : forall n i x K K', fillT n i x K = Some K' -> length K = i -> (1 <= i)%nat ->
  forall j, (i <= j < i + n)%nat -> stage_of x K' j.
Proof.
  induction n as [|n IH]; intros i x K K' E L P j Hj; [lia|].
  pose proof E as E0. cbn [fill] in E. destruct (rhs _ _) as [k|] eqn:Ek; [|discriminate].
  assert (L1 : length (K ++ [k]) = S i) by (rewrite app_length; cbn; lia).
  destruct (Nat.eq_dec j i) as [->|Ne].
  2:{ apply (IH (S i) x (K ++ [k]) K' E L1); lia. }
  destruct (fill_prefix _ _ _ _ _ E L1) as [F L'].
  destruct (fill_prefix _ _ _ _ _ E0 L) as [F0 _].
  unfold stage_of. rewrite F0. destruct i as [|i]; [lia|]. rewrite Ek.
  assert (Q : nth_error (firstn (S (S i)) K') (S i) = nth_error K' (S i)).
  { rewrite <- (firstn_skipn (S (S i)) K') at 2. rewrite nth_error_app1; [reflexivity|]. rewrite firstn_length. lia. }
  rewrite <- Q, F. rewrite nth_error_app2 by lia. replace (S i - length K)%nat with 0%nat by lia. reflexivity.
Qed.

Lemma step_success : forall x y K, step x = (Success, Some (y, K)) ->
  length K = stages T /\ (forall i, (i < stages T)%nat -> stage_of x K i)
  /\ (stages T = 0%nat -> y = x)
  /\ ((1 <= stages T)%nat -> y = xadd x (xdt (lin xadd xscale (b_at T) 0 xzero K))).
Proof.
  intros x y K E. unfold full_step in E. destruct (Nat.eqb_spec (stages T) 0) as [Z|NZ].
  - injection E as <- <-. rewrite Z. repeat match goal with |- _ /\ _ => split end; intros; try reflexivity; lia.
  - destruct (rhs x current_time) as [k0|] eqn:E0; [|discriminate].
    destruct (fillT (stages T - 1) 1 x [k0]) as [K'|] eqn:EF; [|discriminate]. injection E as <- <-.
    destruct (fill_prefix _ _ _ _ _ EF eq_refl) as [F L].
    repeat match goal with |- _ /\ _ => split end; try lia; [|reflexivity].
    intros i Hi. destruct i as [|i].
    + unfold stage_of. rewrite E0. destruct K' as [|k K'']; [cbn in L; lia|]. cbn [firstn] in F. injection F as ->. reflexivity.
    + apply (fill_stages _ _ _ _ _ EF); cbn; lia.
Qed.

Lemma step_code : forall x, let c := fst (step x) in
  (c = Success \/ c = MatrixSolveFailureFirstPartOfPrediction \/ c = MatrixSolveFailure)
  /\ (c = MatrixSolveFailureFirstPartOfPrediction <-> (1 <= stages T)%nat /\ rhs x current_time = None)
  /\ (c = Success <-> exists y K, step x = (Success, Some (y, K))).
Proof.
  intros x c. unfold c, full_step. destruct (Nat.eqb_spec (stages T) 0) as [Z|NZ]; cbn [fst].
  - split; [tauto|]. split; [split; [discriminate|intros [H _]; lia]|]. split; [|tauto]. intros _. eauto.
  - destruct (rhs x current_time) as [k0|] eqn:E0; cbn [fst].
    + destruct (fillT (stages T - 1) 1 x [k0]) as [K'|] eqn:EF; cbn [fst].
      * split; [tauto|]. split; [split; [discriminate|intros [_ H]; discriminate]|]. split; [|tauto]. intros _. eauto.
      * split; [tauto|]. split; [split; [discriminate|intros [_ H]; discriminate]|].
        split; [discriminate|]. intros [y [K H]]. discriminate.
    + split; [tauto|]. split; [split; [split; [lia|reflexivity]|reflexivity]|].
      split; [discriminate|]. intros [y [K H]]. discriminate.
Qed.
End Codes.

(* ------------------------------------------------------------------ moments *)
Section Moments.
Add Field qf4 : (f_th QcF).
Definition bush (k : nat) : tree := Node (repeat (Node []) k).

Lemma torder_bush : forall k, torder (bush k) = S k.
Proof. intro k. unfold bush. cbn [torder]. f_equal. induction k as [|k IH]; [reflexivity|]. cbn [repeat map nsum torder]. rewrite IH. reflexivity. Qed.

Lemma tdensity_bush : forall k, tdensity (bush k) = fnat (S k).
Proof.
  intro k. unfold bush. cbn [tdensity].
  assert (P : fprod (map tdensity (repeat (Node []) k)) = (1 : QcF)).
  { induction k as [|k IH]; [reflexivity|]. cbn [repeat map fprod]. rewrite IH. cbn [tdensity map nsum fnat fprod]. apply rat_eq. reflexivity. }
  rewrite P. change (Node (repeat (Node []) k)) with (bush k). rewrite torder_bush. ring.
Qed.

Lemma phi_bush : forall T k i, row_sums T -> (i < stages T)%nat -> phi T (bush k) i = fpow (c_at T i) k.
Proof.
  intros T k i R L. unfold bush. cbn [phi]. induction k as [|k IH]; [reflexivity|].
  cbn [repeat map fprod fpow]. rewrite IH. f_equal. rewrite <- (R i L). f_equal. apply map_ext. intro j.
  cbn [phi map fprod]. ring.
Qed.

Lemma moments : forall T w p, row_sums T -> order_conditions T w p ->
  forall k, (k < p)%nat -> fnat (S k) * fsum (map (fun i => w i * fpow (c_at T i) k) (seq 0 (stages T))) = 1.
Proof.
  intros T w p R O k L. specialize (O (bush k)). rewrite torder_bush, tdensity_bush in O. specialize (O ltac:(lia)).
  unfold tree_sum in O.
  rewrite (map_ext_in _ (fun i => w i * fpow (c_at T i) k)) in O.
  - rewrite O. field. apply qnat_neq0.
  - intros i Hi. apply in_seq in Hi. rewrite phi_bush by (exact R || lia). reflexivity.
Qed.
End Moments.

(* ------------------------------------------------------------------ quadrature *)
Section Quadrature.
Variable F : fld.
Add Field ff : (f_th F).
(** Rationals in the field of the coordinates. *)
Variable e : QcF -> F.
Hypothesis e_1 : e 1 = 1.
Hypothesis e_add : forall a b, e (a + b) = e a + e b.
Hypothesis e_mul : forall a b, e (a * b) = e a * e b.
(** One component for each index. *)
Variable J : Type.
Variable p : J -> list F.   (* polynomials *)
Variables t0 h : F.

(** Formal derivative of a polynomial, lowest coefficient first. *)
Fixpoint pderiv_from (n : nat) (q : list F) : list F :=
  match q with [] => [] | a :: q' => fnat n * a :: pderiv_from (S n) q' end.
Definition pderiv (q : list F) : list F := match q with [] => [] | _ :: q' => pderiv_from 1 q' end.

Definition quad_step (T : table) (x : J -> F) : code * option ((J -> F) * list (J -> F)) :=
  full_step (fun _ => 0) (fun x y j => x j + y j) (fun a x j => e a * x j) (fun x j => h * x j)
            t0 (fun c => t0 + e c * h) (fun _ t => Some (fun j => peval (pderiv (p j)) t)) T x.

Lemma e_0 : e 0 = 0.
Proof.
  assert (H : e 0 = e 0 + e 0) by (rewrite <- e_add; f_equal; apply rat_eq; reflexivity).
  assert (K : e 0 = (e 0 + e 0) - e 0) by ring. rewrite <- H in K. rewrite K. ring.
Qed.
Lemma e_fsum : forall l, e (fsum l) = fsum (map e l).
Proof. induction l as [|a l IH]; cbn [fsum map]; [apply e_0|]. rewrite e_add, IH. reflexivity. Qed.
Lemma e_fpow : forall a n, e (fpow a n) = fpow (e a) n.
Proof. induction n as [|n IH]; cbn [fpow]; [exact e_1|]. rewrite e_mul, IH. reflexivity. Qed.
Lemma e_fnat : forall n, e (fnat n) = fnat n.
Proof. induction n as [|n IH]; cbn [fnat]; [exact e_0|]. rewrite e_add, e_1, IH. reflexivity. Qed.

(* derivative, evaluated by the product rule *)
Fixpoint dev (q : list F) (t : F) : F := match q with [] => 0 | a :: q' => peval q' t + t * dev q' t end.

Lemma pderiv_from_eval : forall q n t, peval (pderiv_from (S n) q) t = peval (pderiv_from n q) t + peval q t.
Proof.
  induction q as [|a q IH]; intros n t; cbn [pderiv_from peval]; [ring|]. rewrite IH. cbn [fnat]. ring.
Qed.
Lemma pderiv_from0 : forall q t, peval (pderiv_from 0 q) t = t * dev q t.
Proof.
  induction q as [|a q IH]; intro t; cbn [pderiv_from peval dev fnat]; [ring|]. rewrite pderiv_from_eval, IH. ring.
Qed.
Lemma pderiv_dev : forall q t, peval (pderiv q) t = dev q t.
Proof. intros [|a q] t; cbn [pderiv dev]; [reflexivity|]. rewrite pderiv_from_eval, pderiv_from0. ring. Qed.

(* Taylor shift *)
Fixpoint shift (q : list F) : list F :=
  match q with [] => [] | a :: q' => padd [a] (padd (pscale t0 (shift q')) (0 :: shift q')) end.

Lemma dev_padd : forall a b t, dev (padd a b) t = dev a t + dev b t.
Proof.
  induction a as [|x a IH]; intros b t; cbn [padd dev]; [ring|]. destruct b as [|y b]; cbn [padd dev]; [ring|].
  rewrite IH, peval_padd. ring.
Qed.
Lemma dev_pscale : forall c a t, dev (pscale c a) t = c * dev a t.
Proof.
  intros c a t. induction a as [|x a IH]; cbn [pscale map dev]; [ring|].
  change (map (fmul c) a) with (pscale c a). rewrite IH, peval_pscale. ring.
Qed.
Lemma shift_eval : forall q s, peval (shift q) s = peval q (t0 + s).
Proof.
  induction q as [|a q IH]; intro s; cbn [shift peval]; [reflexivity|].
  rewrite !peval_padd, peval_pscale. cbn [peval]. rewrite IH. ring.
Qed.
Lemma shift_dev : forall q s, dev (shift q) s = dev q (t0 + s).
Proof.
  induction q as [|a q IH]; intro s; cbn [shift dev]; [reflexivity|].
  rewrite !dev_padd, dev_pscale. cbn [dev peval]. rewrite IH, shift_eval. ring.
Qed.
Lemma padd_length : forall a b : list F, length (padd a b) = Nat.max (length a) (length b).
Proof.
  induction a as [|x a IH]; intros b; cbn [padd length]; [reflexivity|]. destruct b as [|y b]; cbn [padd length]; [reflexivity|].
  rewrite IH. reflexivity.
Qed.
Lemma shift_length : forall q, length (shift q) = length q.
Proof.
  induction q as [|a q IH]; [reflexivity|]. cbn [shift length]. rewrite !padd_length. cbn [length].
  unfold pscale. rewrite map_length, IH. lia.
Qed.

(* quadrature of a polynomial from its moments *)
Variable T : table.
Variable w : nat -> QcF.
Notation Sm := (seq 0 (stages T)).
Lemma quadrature_from : forall q n,
  (forall k, (k < n + length q)%nat -> (1 <= k)%nat -> fnat k * fsum (map (fun i => w i * fpow (c_at T i) (k - 1)) Sm) = 1) ->
  (1 <= n)%nat ->
  fsum (map (fun i => e (w i) * (fpow (e (c_at T i)) (n - 1) * peval (pderiv_from n q) (e (c_at T i) * h))) Sm)
  = peval q h.
Proof.
  induction q as [|a q IH]; intros n M P; cbn [pderiv_from peval].
  - rewrite (map_ext _ (fun _ => 0 : F)) by (intro i; ring). apply fsum_map_0.
  - pose proof (M n ltac:(cbn; lia) P) as Mn.
    rewrite (map_ext _ (fun i => (a * fnat n) * (e (w i) * fpow (e (c_at T i)) (n - 1))
        + h * (e (w i) * (fpow (e (c_at T i)) (S n - 1) * peval (pderiv_from (S n) q) (e (c_at T i) * h))))).
    2:{ intro i. replace (S n - 1)%nat with (S (n - 1)) by lia. cbn [fpow]. ring. }
    rewrite fsum_map_add, !fsum_map_mul. rewrite (IH (S n)); [|intros k Hk Hk1; apply M; cbn [length]; lia|lia].
    assert (Q : fnat n * fsum (map (fun i => e (w i) * fpow (e (c_at T i)) (n - 1)) Sm) = (1 : F)).
    { rewrite <- e_1, <- Mn, e_mul, e_fnat, e_fsum, map_map. f_equal. f_equal. apply map_ext. intro i.
      rewrite e_mul, e_fpow. reflexivity. }
    transitivity (a * (fnat n * fsum (map (fun i => e (w i) * fpow (e (c_at T i)) (n - 1)) Sm)) + h * peval q h); [ring|].
    rewrite Q. ring.
Qed.

Lemma quadrature : forall q m, (length q <= S m)%nat ->
  (forall k, (k < m)%nat -> fnat (S k) * fsum (map (fun i => w i * fpow (c_at T i) k) Sm) = 1) ->
  h * fsum (map (fun i => e (w i) * peval (pderiv q) (t0 + e (c_at T i) * h)) Sm) = peval q (t0 + h) - peval q t0.
Proof.
  intros q m L M.
  rewrite (map_ext _ (fun i => e (w i) * peval (pderiv (shift q)) (e (c_at T i) * h))).
  2:{ intro i. rewrite !pderiv_dev, shift_dev. reflexivity. }
  replace (peval q t0) with (peval (shift q) 0) by (rewrite shift_eval; f_equal; ring).
  rewrite <- (shift_eval q h). pose proof (shift_length q) as SL. destruct (shift q) as [|a r]; cbn [pderiv peval].
  - rewrite (map_ext _ (fun _ => 0 : F)) by (intro i; ring). rewrite fsum_map_0. ring.
  - pose proof (quadrature_from r 1) as Q. cbn [length] in SL.
    rewrite (map_ext _ (fun i => e (w i) * (fpow (e (c_at T i)) (1 - 1) * peval (pderiv_from 1 r) (e (c_at T i) * h)))).
    2:{ intro i. cbn [Nat.sub fpow]. ring. }
    rewrite Q; [ring| |lia].
    intros k Hk Hk1. specialize (M (k - 1)%nat ltac:(lia)). replace (S (k - 1)) with k in M by lia. exact M.
Qed.

(* the step *)
Lemma quad_fill : forall n i x K, fill (fun _ => 0) (fun x y j => x j + y j) (fun a x j => e a * x j) (fun x j => h * x j)
    (fun c => t0 + e c * h) (fun _ t => Some (fun j => peval (pderiv (p j)) t)) T n i x K
  = Some (K ++ map (fun k j => peval (pderiv (p j)) (t0 + e (c_at T k) * h)) (seq i n)).
Proof.
  induction n as [|n IH]; intros i x K; cbn [fill seq map]; [rewrite app_nil_r; reflexivity|].
  rewrite IH, <- app_assoc. reflexivity.
Qed.

Lemma quad_lin : forall u (f : nat -> J -> F) (j : J) n i acc,
  lin (fun (x y : J -> F) j => x j + y j) (fun a x j => e a * x j) u i acc (map f (seq i n)) j
  = acc j + fsum (map (fun k => e (u k) * f k j) (seq i n)).
Proof.
  intros u f j n. induction n as [|n IH]; intros i acc; cbn [seq map lin fsum]; [ring|]. rewrite IH. ring.
Qed.

Lemma quad_step_value : forall x, row_sums T -> (1 <= stages T)%nat ->
  exists y, quad_step T x = (Success, Some (y, map (fun k j => peval (pderiv (p j)) (t0 + e (c_at T k) * h)) Sm))
    /\ forall j, y j = x j + h * fsum (map (fun i => e (b_at T i) * peval (pderiv (p j)) (t0 + e (c_at T i) * h)) Sm).
Proof.
  intros x R L. unfold quad_step, full_step. destruct (Nat.eqb_spec (stages T) 0) as [Z|NZ]; [lia|]. rewrite quad_fill.
  assert (C0 : c_at T 0 = 0). { rewrite <- (R 0%nat) by lia. reflexivity. }
  assert (E : Sm = 0%nat :: seq 1 (stages T - 1)). { destruct (stages T) as [|s]; [lia|]. cbn [seq Nat.sub]. rewrite Nat.sub_0_r. reflexivity. }
  assert (EK : map (fun k (j : J) => peval (pderiv (p j)) (t0 + e (c_at T k) * h)) Sm
    = [fun j => peval (pderiv (p j)) t0] ++ map (fun k (j : J) => peval (pderiv (p j)) (t0 + e (c_at T k) * h)) (seq 1 (stages T - 1))).
  { rewrite E. cbn [map app]. rewrite C0, e_0. replace (t0 + 0 * h) with t0 by ring. reflexivity. }
  rewrite <- EK. eexists. split; [reflexivity|].
  intro j. cbn beta. rewrite quad_lin. ring.
Qed.
End Quadrature.

Lemma quad_exact : forall (F : fld) (e : QcF -> F), e f1 = f1 -> (forall a b, e (fadd a b) = fadd (e a) (e b)) ->
  (forall a b, e (fmul a b) = fmul (e a) (e b)) ->
  forall T m, row_sums T -> (1 <= stages T)%nat -> order_conditions T (b_at T) m ->
  forall (J : Type) (p : J -> list F) (t0 h : F) (x : J -> F), (forall j, (length (p j) <= S m)%nat) ->
  exists y K, quad_step F e J p t0 h T x = (Success, Some (y, K))
    /\ forall j, y j = x j + (peval (p j) (t0 + h) - peval (p j) t0).
Proof.
  intros F e E1 EA EM T m R L O J p t0 h x LP. destruct (quad_step_value F e EA J p t0 h T x R L) as [y [E Y]].
  eexists. eexists. split; [exact E|]. intro j. rewrite Y. f_equal.
  apply (quadrature F e E1 EA EM t0 h T (b_at T) (p j) m (LP j)). apply moments; assumption.
Qed.

(* ------------------------------------------------------------------ solutions exist *)
Add Field qf5 : (f_th QcF).
Lemma exact_solution_exists : forall (V : qmod) (D : list (prodmod V) -> V),
  (forall l1 (u v : prodmod V) l2, D (l1 ++ vadd u v :: l2) = vadd (D (l1 ++ u :: l2)) (D (l1 ++ v :: l2))) ->
  (forall l1 a (u : prodmod V) l2, D (l1 ++ vscale a u :: l2) = vscale a (D (l1 ++ u :: l2))) ->
  forall x0 : V, exists x, exact_solution V D x0 x.
Proof.
  intros V D DA DS x0. destruct (solution_exists (prodmod V) (D' V D) (D'_ml V D DA DS)) as [y [Y0 Y]].
  pose (x := fun n => match n with O => x0 | _ => fst (y n) end).
  assert (S1 : forall n, snd (y (S n)) = match n with O => f1 | _ => f0 end).
  { intro n. specialize (Y n). apply (f_equal snd) in Y. unfold compose in Y. rewrite vsum_snd in Y.
    cbn [vscale prodmod pairscale snd] in Y.
    assert (Z : fsum (map (fun k : list nat => fmul (fdiv f1 (qfact (length k))) (snd (D' V D (map y k)))) (comps n))
                = match n with O => f1 | _ => f0 end :> QcF).
    { destruct n as [|n]; [vm_compute; reflexivity|].
      rewrite (map_ext_in _ (fun _ => f0 : QcF)); [apply fsum_map_0|]. intros k Hk. apply comps_spec in Hk.
      destruct k as [|m k]; [destruct Hk as [H _]; discriminate|]. cbn [D' map snd]. ring. }
    rewrite Z in Y. clear Z. pose proof (qnat_neq0 n) as NZ. destruct n as [|n].
    - cbn [fnat] in Y. rewrite <- Y. ring.
    - apply (f_equal (fun z => fdiv z (fnat (S (S n))))) in Y.
      transitivity (fdiv (fmul (fnat (S (S n))) (snd (y (S (S n))))) (fnat (S (S n)))); [field; exact NZ|].
      rewrite Y. field. exact NZ. }
  exists x. split; [reflexivity|]. intro n. specialize (Y n). apply (f_equal fst) in Y. cbn [vscale prodmod pairscale fst] in Y.
  cbn [x]. rewrite Y. unfold compose, taylor. rewrite vsum_fst. apply vsum_ext. intros k _. cbn [vscale prodmod pairscale fst D'].
  f_equal. f_equal. apply map_ext. intro m. unfold displacement. destruct m as [|[|m]].
  - exact Y0.
  - apply pair_eq; cbn [fst snd]; [reflexivity|]. exact (S1 0%nat).
  - apply pair_eq; cbn [fst snd]; [reflexivity|]. exact (S1 (S m)).
Qed.

(* ------------------------------------------------------------------ witnesses *)
(** The rationals as a vector space. *)
Definition qself : qmod.
Proof.
  refine (mkQmod QcF f0 fadd fmul _ _ _ _ _ _ _ _); intros; ring.
Defined.

(** x' = x from x = 1: the derivatives of (x, t) -> x at (1, t0). *)
Definition growth (l : list (prodmod qself)) : qself :=
  match l with [] => f1 | [u] => fst u | _ => f0 end.
Lemma growth_add : forall l1 (u v : prodmod qself) l2,
  growth (l1 ++ vadd u v :: l2) = vadd (growth (l1 ++ u :: l2)) (growth (l1 ++ v :: l2)).
Proof.
  intros l1 u v l2. destruct l1 as [|a [|b l1]]; cbn [app growth]; try destruct l2; cbn [vadd qself prodmod pairadd fst];
    match goal with |- @eq _ ?a ?b => change (@eq QcF a b) end; ring.
Qed.
Lemma growth_scale : forall l1 a (u : prodmod qself) l2,
  growth (l1 ++ vscale a u :: l2) = vscale a (growth (l1 ++ u :: l2)).
Proof.
  intros l1 a u l2. destruct l1 as [|c [|b l1]]; cbn [app growth]; try destruct l2; cbn [vscale qself prodmod pairscale fst];
    match goal with |- @eq _ ?a ?b => change (@eq QcF a b) end; ring.
Qed.

Definition coeff (r : code * option ((nat -> qself) * list (nat -> qself))) (n : nat) : option rat :=
  match r with (_, Some (y, _)) => Some (y n) | _ => None end.
Definition est_coeff (T : table) (r : code * option ((nat -> qself) * list (nat -> qself))) (n : nat) : option rat :=
  match r with (_, Some (_, K)) => Some (error_vector (s_zero qself) (s_add qself) (s_scale qself) (s_dt qself) T K n) | _ => None end.

Lemma heun_euler_estimate : est_coeff HeunEuler_table (series_step qself growth f1 HeunEuler_table) 2 = Some (qc 1 2).
Proof. vm_compute. reflexivity. Qed.
