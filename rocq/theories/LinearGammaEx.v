(** Targets for the examples of C95. *)
From Coq Require Import List ZArith Lia Reals Lra Bool Arith Ring Field.
From Coquelicot Require Import Complex.
From Verif Require Import Base ComplexField Poly Expr Degree Homog HomogSys Track TrackEx LinearTree LinearPath LinearPathEx
  Patch StartIndex DegreeAll TotalDegree SolveSetup SolveSetupEx LinearSolve LinearSolveEx LinearGamma.
Import ListNotations.

(** x - 1, one variable *)
Definition single : psys CF := mkPS [Sum [(true, Var 0); (false, number 1)]] [[0%nat]] [] [] [].
(** the patch is h = 1 *)
Definition draw_first (_ k : nat) : CF := if Nat.eqb k 0 then f1 else f0.

Add Field CFlgx : (f_th CF).
Local Opaque CF.
Local Open Scope fld_scope.

Lemma single_ready : forall fs rho, ready fs rho fresh10 single [0%nat].
Proof.
  intros fs rho. assert (N : forall n, pure [0%nat] (number n) /\ modest [0%nat] (number n)) by (intro n; split; constructor).
  assert (G : forall a, In a (fns single) -> pure [0%nat] a /\ modest [0%nat] a /\ (forall v, occurs v a -> In v [0%nat]) /\ (1 <= gdegree fs rho [0%nat] a)%Z /\
    forall point, exists y, eval fs point a = Some y).
  { intros a [<-|[]]; (split; [trees; apply N|]); (split; [trees; apply N|]); (split; [intros v Hv; apply occursb_spec in Hv; destruct v as [|v]; cbn in *; try tauto; discriminate|]);
      (split; [discriminate|]); intro point; cbn; eexists; reflexivity. }
  unfold ready. split; [|split; [reflexivity|split; [discriminate|split; [reflexivity|split; [reflexivity|split; [reflexivity|split; [|reflexivity]]]]]]].
  - split; [reflexivity|]. split; [|split; [|split]].
    + intros l [[<-|[]]|[]]; repeat constructor; cbn; lia.
    + intros i j E. unfold fresh10 in E. lia.
    + intro k. split; [cbn; unfold fresh10; lia|]. intros a Ha Hx. destruct (G a Ha) as (_ & _ & Oc & _). apply Oc in Hx. cbn in Hx. unfold fresh10 in Hx. lia.
    + intros a Ha. destruct (G a Ha) as (P & M & _). split; [exact P|]. split; [intros l [<-|[]]; exact M|intros l []].
  - intros a Ha. destruct (G a Ha) as (_ & _ & Oc & D & E). auto.
Qed.

Lemma single_linear : Forall (linear [0%nat]) (fns single).
Proof.
  constructor; [|constructor]. apply li_sum. constructor; [apply li_var|]. constructor; [|constructor]. apply li_coefficient. split; [constructor|]. intros v _ Hx. inversion Hx.
Qed.

Lemma single_setup : forall fs rho g, exists z, system_setup fs rho fresh10 draw_first ones g single = Value z /\
  forall t h x, homotopy_values fs rho z [h; x] t = Some [(1 - t) * (x - h) + g * t * (x - h)].
Proof.
  intros fs rho g. eexists. split; [reflexivity|]. intros t h x. unfold homotopy_values. cbn -[fZ]. unfold number, fZ.
  change (Pos.to_nat 1) with 1%nat. cbn [fnat]. unfold ones. cbn [fpow]. f_equal. f_equal. ring.
Qed.

Lemma single_solution : forall fs rho a, length a = 1%nat -> (solves fs rho (fns single) [0%nat] a <-> a = [1]).
Proof.
  intros fs rho a La. destruct a as [|x [|]]; try discriminate. split.
  - intro H. inversion H as [|? ? H1 _]; subst. cbn -[fZ] in H1. unfold fZ in H1. change (Pos.to_nat 1) with 1%nat in H1. cbn [fnat] in H1.
    assert (E := f_equal (fun o => match o with Some q => q | None => f0 end) H1). cbn beta iota in E. f_equal. transitivity ((x + (- (1 + 0) + 0)) + 1); [ring|]. rewrite E. ring.
  - intros ->. constructor; [|constructor]. cbn -[fZ]. unfold fZ. change (Pos.to_nat 1) with 1%nat. cbn [fnat]. f_equal. ring.
Qed.

Lemma first_patch : forall h x : CF, Patch.inner (map (draw_first 0) (seq 0 2)) [h; x] = h.
Proof. intros. unfold Patch.inner. cbn. ring. Qed.

(** the points of the patch with any second coordinate have the same values at the time 1/2 *)
Definition half : CF := RtoC (/ 2).
Lemma half_on : on_segment (RtoC 1) (RtoC 0) half.
Proof. exists (/ 2)%R. split; [lra|]. unfold half. change (RtoC (/ 2) = (RtoC 1 + RtoC (/ 2) * (RtoC 0 - RtoC 1))%C). rewrite <- RtoC_minus, <- RtoC_mult, <- RtoC_plus. f_equal. lra. Qed.
Lemma half_twice : half + half = 1.
Proof. change ((RtoC (/ 2) + RtoC (/ 2))%C = RtoC 1). rewrite <- RtoC_plus. f_equal. lra. Qed.

Lemma single_unlucky : forall fs rho z, system_setup fs rho fresh10 draw_first ones (- (1)) single = Value z ->
  ~ determined fs rho z (map (draw_first 0) (seq 0 2)) half.
Proof.
  intros fs rho z Hz D. destruct (single_setup fs rho (- (1))) as (z' & Hz' & V). rewrite Hz in Hz'. injection Hz' as <-.
  assert (E : [1; 0] = [1; 1] :> list CF).
  { apply D; [reflexivity|reflexivity| |rewrite !first_patch; reflexivity]. rewrite !V. f_equal. f_equal. transitivity (half + half - 1); [ring|]. rewrite half_twice. ring. }
  apply (@f1_neq_f0 CF). exact (eq_sym (f_equal (fun l => nth 1 l 0) E)).
Qed.
Lemma single_patch : Patch.inner (map (draw_first 0) (seq 0 2)) (1 :: [1]) <> 0 /\ Patch.inner (map (draw_first 0) (seq 0 2)) (1 :: map ones (seq 0 1)) <> 0.
Proof. cbn [map seq]. rewrite !first_patch. split; apply (@f1_neq_f0 CF). Qed.

Lemma meeting_only : forall fs rho a, length a = 2%nat -> solves fs rho (fns meeting) [0; 1]%nat a -> a = [1; 1 + 1].
Proof.
  intros fs rho a La H. destruct a as [|x [|y [|]]]; try discriminate. inversion H as [|? ? H1 H2]; subst. inversion H2 as [|? ? H3 _]; subst. clear H H2.
  cbn -[fZ] in H1, H3. unfold number, fZ in H1, H3. change (Pos.to_nat 1) with 1%nat in *. change (Pos.to_nat 3) with 3%nat in *. cbn [fnat] in H1, H3.
  assert (E1 := f_equal (fun o => match o with Some q => q | None => f0 end) H1). assert (E2 := f_equal (fun o => match o with Some q => q | None => f0 end) H3). cbn beta iota in E1, E2.
  assert (Ey : (1 + 1) * (y - (1 + 1)) = 0).
  { transitivity ((x + (y + (- (1 + (1 + (1 + 0))) + 0))) + (y + (- x + (- (1 + 0) + 0)))); [ring|]. rewrite E1, E2. ring. }
  destruct (Pencil.zero_product _ _ Ey) as [Z|Z]; [elim (two_not_zero Z)|]. assert (Hy : y = 1 + 1) by (transitivity (y - (1 + 1) + (1 + 1)); [ring|]; rewrite Z; ring).
  rewrite Hy in E1 |- *. f_equal. transitivity ((x + (1 + 1 + (- (1 + (1 + (1 + 0))) + 0))) + 1); [ring|]. rewrite E1. ring.
Qed.
Lemma meeting_patch : Patch.inner (map (draw_last 0) (seq 0 3)) (1 :: [1; 1 + 1]) <> 0 /\ Patch.inner (map (draw_last 0) (seq 0 3)) (1 :: map ones (seq 0 2)) <> 0.
Proof. cbn [map seq]. rewrite !patch_last. split; [exact two_not_zero|apply (@f1_neq_f0 CF)]. Qed.
Lemma minus_one : - (1) <> (0 : CF).
Proof. intro E. apply (@f1_neq_f0 CF). transitivity (- - (1 : CF)); [ring|]. rewrite E. ring. Qed.

(** ** Every finite set of directions leaves others *)
Local Transparent CF.
Definition direction (k : nat) : CF := (1, INR k)%R.

Lemma direction_ray : forall b k l r q, (0 < r)%R -> (0 < q)%R -> direction k = fmul (RtoC r : CF) b -> direction l = fmul (RtoC q : CF) b -> k = l.
Proof.
  intros [x y] k l r q Hr Hq Hk Hl. unfold direction in *. cbn in Hk, Hl. unfold Cmult, RtoC in Hk, Hl. cbn in Hk, Hl. injection Hk as A1 A2. injection Hl as B1 B2.
  apply INR_eq. assert (E : (r = q)%R) by (assert ((r - q) * x = 0)%R by lra; destruct (Rmult_integral _ _ H) as [|Hx]; [lra|rewrite Hx in A1; lra]). subst q. lra.
Qed.

Lemma direction_not_zero : forall k, direction k <> (0 : CF).
Proof. intros k E. unfold direction in E. cbn in E. unfold RtoC in E. injection E as E. lra. Qed.

Lemma direction_free : forall rays, exists k, ~ on_rays rays (direction k).
Proof.
  intro rays. assert (H : exists ks : list nat, forall k, on_rays rays (direction k) -> In k ks).
  { induction rays as [|b rays [ks IH]]; [exists []; intros k (b & r & [] & _)|].
    destruct (Classical_Prop.classic (exists k r, (0 < r)%R /\ direction k = fmul (RtoC r : CF) b)) as [(k0 & r0 & P0 & E0)|N].
    - exists (k0 :: ks). intros k (b' & r & [<-|Hb] & P & E); [left; exact (direction_ray b k0 k r0 r P0 P E0 E)|right; apply IH; exists b', r; auto].
    - exists ks. intros k (b' & r & [<-|Hb] & P & E); [elim N; exists k, r; auto|apply IH; exists b', r; auto]. }
  destruct H as [ks H]. exists (S (list_max ks)). intro B. apply H in B. pose proof (proj1 (list_max_le ks (list_max ks)) (Nat.le_refl _)) as M.
  rewrite Forall_forall in M. specialize (M _ B). lia.
Qed.
Local Opaque CF.
