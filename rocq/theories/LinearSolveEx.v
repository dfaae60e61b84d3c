(** Two linear targets for LinearSolve.v: two lines which meet, and two parallel lines. *)
From Coq Require Import List ZArith Lia Reals Lra Bool Arith Ring Field.
From Coquelicot Require Import Complex.
From Verif Require Import Base ComplexField Poly Expr Degree Homog HomogSys Track TrackEx LinearTree LinearPath LinearPathEx
  Patch StartIndex DegreeAll TotalDegree SolveSetup SolveSetupEx LinearSolve.
Import ListNotations.

(** x + y - 3 and y - x - 1; x + y - 1 and x + y - 2; x and y are the variables 0 and 1 *)
Definition meeting : psys CF :=
  mkPS [Sum [(true, Var 0); (true, Var 1); (false, number 3)]; Sum [(true, Var 1); (false, Var 0); (false, number 1)]] [[0; 1]%nat] [] [] [].
Definition parallel : psys CF :=
  mkPS [Sum [(true, Var 0); (true, Var 1); (false, number 1)]; Sum [(true, Var 0); (true, Var 1); (false, number 2)]] [[0; 1]%nat] [] [] [].
(** the patch is y = 1, and the other random numbers are 1 *)
Definition draw_last (_ k : nat) : CF := if Nat.eqb k 2 then f1 else f0.
Definition ones (_ : nat) : CF := f1.

Add Field CFlsx : (f_th CF).
Local Opaque CF.
Local Open Scope fld_scope.

Lemma pair_ready : forall fs rho s f g, fns s = [f; g] -> s = meeting \/ s = parallel -> ready fs rho fresh10 s [0; 1]%nat.
Proof.
  intros fs rho s f g Es H. assert (N : forall n, pure [0; 1]%nat (number n) /\ modest [0; 1]%nat (number n)) by (intro n; split; constructor).
  assert (G : forall a, In a (fns s) -> pure [0; 1]%nat a /\ modest [0; 1]%nat a /\ (forall v, occurs v a -> In v [0; 1]%nat) /\ (1 <= gdegree fs rho [0; 1]%nat a)%Z /\
    forall point, exists y, eval fs point a = Some y).
  { destruct H as [-> | ->]; intros a [<-|[<-|[]]]; (split; [trees; apply N|]); (split; [trees; apply N|]); (split; [intros v Hv; apply occursb_spec in Hv; destruct v as [|[|v]]; cbn in *; try tauto; discriminate|]);
      (split; [discriminate|]); intro point; cbn; eexists; reflexivity. }
  assert (Hg : groups s = [[0; 1]%nat] /\ hom_groups s = [] /\ ungrouped s = [] /\ hom_vars s = [] /\ length (fns s) = 2%nat /\ (num_cells (map (gdegree fs rho [0; 1]%nat) (fns s)) < 2 ^ 64)%Z)
    by (destruct H as [-> | ->]; repeat split; reflexivity).
  destruct Hg as (G1 & G2 & G3 & G4 & G5 & G6).
  assert (U : unknowns s = [0; 1]%nat) by (unfold unknowns; rewrite G1, G2, G3; reflexivity).
  unfold ready. split; [|split; [exact G1|split; [discriminate|split; [exact G2|split; [exact G3|split; [exact G5|split; [|exact G6]]]]]]].
  - split; [exact G4|]. rewrite G1, G2. split; [|split; [|split]].
    + intros l [[<-|[]]|[]]; repeat constructor; cbn; lia.
    + intros i j E. unfold fresh10 in E. lia.
    + intro k. rewrite U. split; [cbn; unfold fresh10; lia|]. intros a Ha Hx. destruct (G a Ha) as (_ & _ & Oc & _). apply Oc in Hx. cbn in Hx. unfold fresh10 in Hx. lia.
    + intros a Ha. rewrite U. destruct (G a Ha) as (P & M & _). split; [exact P|]. split; [intros l [<-|[]]; exact M|intros l []].
  - intros a Ha. destruct (G a Ha) as (_ & _ & Oc & D & E). auto.
Qed.

Lemma pair_linear : Forall (linear [0; 1]%nat) (fns meeting) /\ Forall (linear [0; 1]%nat) (fns parallel).
Proof.
  assert (N : forall n, linear [0; 1]%nat (number n)) by (intro n; apply li_coefficient; split; [constructor|intros v _ Hx; inversion Hx]).
  split; (constructor; [|constructor; [|constructor]]); apply li_sum; repeat (apply Forall_cons; [cbn [snd]; try apply N; apply li_var|]); apply Forall_nil.
Qed.

Lemma meeting_setup : forall fs rho, exists z, system_setup fs rho fresh10 draw_last ones 1 meeting = Value z /\
  forall t h x y, homotopy_values fs rho z [h; x; y] t =
    Some [(1 - t) * (x + (y - h * (1 + (1 + 1)))) + t * (x - h); (1 - t) * (y - x - h) + t * (y - h)].
Proof.
  intros fs rho. eexists. split; [reflexivity|]. intros t h x y. unfold homotopy_values. cbn -[fZ]. unfold number, fZ.
  change (Pos.to_nat 1) with 1%nat. change (Pos.to_nat 3) with 3%nat. cbn [fnat]. unfold ones. cbn [fpow]. f_equal. f_equal; [ring|f_equal; ring].
Qed.
Lemma parallel_setup : forall fs rho, exists z, system_setup fs rho fresh10 draw_last ones 1 parallel = Value z /\
  forall t h x y, homotopy_values fs rho z [h; x; y] t =
    Some [(1 - t) * (x + y - h) + t * (x - h); (1 - t) * (x + y - h * (1 + 1)) + t * (y - h)].
Proof.
  intros fs rho. eexists. split; [reflexivity|]. intros t h x y. unfold homotopy_values. cbn -[fZ]. unfold number, fZ.
  change (Pos.to_nat 1) with 1%nat. change (Pos.to_nat 2) with 2%nat. cbn [fnat]. unfold ones. cbn [fpow]. f_equal. f_equal; [ring|f_equal; ring].
Qed.

Lemma patch_last : forall x y h : CF, Patch.inner (map (draw_last 0) (seq 0 3)) [h; x; y] = y.
Proof. intros. unfold Patch.inner. cbn. ring. Qed.

Local Open Scope R_scope.

Lemma meeting_form : forall l : R, (1 + RtoC l + (RtoC l * RtoC l + RtoC l * RtoC l) <> 0)%C.
Proof.
  intros l E. replace (1 + RtoC l + (RtoC l * RtoC l + RtoC l * RtoC l))%C with (RtoC (1 + l + (l * l + l * l))) in E by (rewrite !RtoC_plus, !RtoC_mult; reflexivity).
  apply RtoC_inj in E. nra.
Qed.

Lemma meeting_determined : forall (s h x k u : C) (y : C), (1 + s + (s * s + s * s) <> 0)%C ->
  (s * (x + (y - h * (1 + (1 + 1)))) + (1 - s) * (x - h) = s * (u + (y - k * (1 + (1 + 1)))) + (1 - s) * (u - k))%C ->
  (s * (y - x - h) + (1 - s) * (y - h) = s * (y - u - k) + (1 - s) * (y - k))%C -> h = k /\ x = u.
Proof.
  intros s h x k u y N E1 E2.
  assert (A : ((x - u) - (1 + (s + s)) * (h - k) = 0)%C).
  { transitivity ((s * (x + (y - h * (1 + (1 + 1)))) + (1 - s) * (x - h)) - (s * (u + (y - k * (1 + (1 + 1)))) + (1 - s) * (u - k)))%C; [ring|]. rewrite E1. ring. }
  assert (B : (s * (x - u) + (h - k) = 0)%C).
  { transitivity ((s * (y - u - k) + (1 - s) * (y - k)) - (s * (y - x - h) + (1 - s) * (y - h)))%C; [ring|]. rewrite E2. ring. }
  assert (H : ((1 + s + (s * s + s * s)) * (h - k) = 0)%C).
  { transitivity ((s * (x - u) + (h - k)) - s * ((x - u) - (1 + (s + s)) * (h - k)))%C; [ring|]. rewrite A, B. ring. }
  assert (H0 : (h - k = 0)%C).
  { transitivity (((1 + s + (s * s + s * s)) * (h - k)) * / (1 + s + (s * s + s * s)))%C; [field; exact N|]. rewrite H. ring. }
  rewrite H0 in A. split; [apply sub_zero; exact H0|]. apply sub_zero. rewrite <- A. ring.
Qed.

Lemma parallel_determined : forall (s h x k u : C) (y : C),
  (s * (x + y - h) + (1 - s) * (x - h) = s * (u + y - k) + (1 - s) * (u - k))%C ->
  (s * (x + y - h * (1 + 1)) + (1 - s) * (y - h) = s * (u + y - k * (1 + 1)) + (1 - s) * (y - k))%C -> h = k /\ x = u.
Proof.
  intros s h x k u y E1 E2.
  assert (A : ((x - u) - (h - k) = 0)%C).
  { transitivity ((s * (x + y - h) + (1 - s) * (x - h)) - (s * (u + y - k) + (1 - s) * (u - k)))%C; [ring|]. rewrite E1. ring. }
  assert (B : (s * (x - u) - (1 + s) * (h - k) = 0)%C).
  { transitivity ((s * (x + y - h * (1 + 1)) + (1 - s) * (y - h)) - (s * (u + y - k * (1 + 1)) + (1 - s) * (y - k)))%C; [ring|]. rewrite E2. ring. }
  assert (H0 : (h - k = 0)%C).
  { transitivity (s * ((x - u) - (h - k)) - (s * (x - u) - (1 + s) * (h - k)))%C; [ring|]. rewrite A, B. ring. }
  rewrite H0 in A. split; [apply sub_zero; exact H0|]. apply sub_zero. rewrite <- A. ring.
Qed.

Lemma first_two : forall (a b c d : CF), Some [a; b] = Some [c; d] -> a = c /\ b = d.
Proof.
  intros a b c d E. split; [exact (f_equal (fun o => match o with Some (z :: _) => z | _ => f0 end) E)|].
  exact (f_equal (fun o => match o with Some (_ :: z :: _) => z | _ => f0 end) E).
Qed.

Lemma meeting_regular : forall fs rho z, system_setup fs rho fresh10 draw_last ones f1 meeting = Value z ->
  forall t, on_segment (RtoC 1) (RtoC 0) t -> regular_at fs rho (homotopy_rows z 2) (order (prepared z)) 2 accepts_all t.
Proof.
  intros fs rho z Hz t [l [_ Et]].
  assert (Es : (t = 1 - RtoC l)%C) by (rewrite Et; ring). clear Et.
  assert (Hr : ready fs rho fresh10 meeting [0; 1]%nat) by (eapply pair_ready; [reflexivity|left; reflexivity]).
  apply (rows_regular fs rho fresh10 draw_last ones f1 meeting [0; 1]%nat z 2 Hr Hz); [cbn; unfold fresh10; lia| |reflexivity].
  intros X Y HX HY E P. destruct X as [|h [|x [|y [|]]]]; try discriminate. destruct Y as [|k [|u [|v [|]]]]; try discriminate.
  cbn [length] in P. rewrite !patch_last in P. subst v.
  destruct (meeting_setup fs rho) as [z' [Hz' V]]. rewrite Hz in Hz'. injection Hz' as <-. rewrite !V in E. apply first_two in E. destruct E as [E1 E2].
  destruct (meeting_determined (RtoC l) h x k u y (meeting_form l)) as [A B].
  - replace (RtoC l) with (1 - t)%C by (rewrite Es; ring). replace (1 - (1 - t))%C with t by ring. exact E1.
  - replace (RtoC l) with (1 - t)%C by (rewrite Es; ring). replace (1 - (1 - t))%C with t by ring. exact E2.
  - rewrite A, B. reflexivity.
Qed.

Lemma parallel_regular : forall fs rho z, system_setup fs rho fresh10 draw_last ones f1 parallel = Value z ->
  forall t, on_segment (RtoC 1) (RtoC 0) t -> regular_at fs rho (homotopy_rows z 2) (order (prepared z)) 2 accepts_all t.
Proof.
  intros fs rho z Hz t [l [_ Et]].
  assert (Es : (t = 1 - RtoC l)%C) by (rewrite Et; ring). clear Et.
  assert (Hr : ready fs rho fresh10 parallel [0; 1]%nat) by (eapply pair_ready; [reflexivity|right; reflexivity]).
  apply (rows_regular fs rho fresh10 draw_last ones f1 parallel [0; 1]%nat z 2 Hr Hz); [cbn; unfold fresh10; lia| |reflexivity].
  intros X Y HX HY E P. destruct X as [|h [|x [|y [|]]]]; try discriminate. destruct Y as [|k [|u [|v [|]]]]; try discriminate.
  cbn [length] in P. rewrite !patch_last in P. subst v.
  destruct (parallel_setup fs rho) as [z' [Hz' V]]. rewrite Hz in Hz'. injection Hz' as <-. rewrite !V in E. apply first_two in E. destruct E as [E1 E2].
  destruct (parallel_determined (RtoC l) h x k u y) as [A B].
  - replace (RtoC l) with (1 - t)%C by (rewrite Es; ring). replace (1 - (1 - t))%C with t by ring. exact E1.
  - replace (RtoC l) with (1 - t)%C by (rewrite Es; ring). replace (1 - (1 - t))%C with t by ring. exact E2.
  - rewrite A, B. reflexivity.
Qed.

Local Open Scope fld_scope.
(** the solution of the first, and that the second has none *)
Lemma meeting_solution : forall fs rho, solves fs rho (fns meeting) [0; 1]%nat [1; 1 + 1].
Proof.
  intros fs rho. constructor; [|constructor; [|constructor]]; cbn -[fZ]; unfold number, fZ; change (Pos.to_nat 1) with 1%nat; change (Pos.to_nat 3) with 3%nat; cbn [fnat]; f_equal; ring.
Qed.
Lemma parallel_nothing : forall fs rho a, length a = 2%nat -> ~ solves fs rho (fns parallel) [0; 1]%nat a.
Proof.
  intros fs rho a La H. destruct a as [|x [|y [|]]]; try discriminate. inversion H as [|? ? H1 H2]; subst. inversion H2 as [|? ? H3 _]; subst. clear H H2.
  cbn -[fZ] in H1, H3. unfold number, fZ in H1, H3. change (Pos.to_nat 1) with 1%nat in *. change (Pos.to_nat 2) with 2%nat in *. cbn [fnat] in H1, H3.
  assert (E1 := f_equal (fun o => match o with Some q => q | None => f0 end) H1). assert (E2 := f_equal (fun o => match o with Some q => q | None => f0 end) H3). cbn beta iota in E1, E2.
  apply (@f1_neq_f0 CF). transitivity ((x + (y + (- (1 + 0) + 0))) - (x + (y + (- (1 + (1 + 0)) + 0)))); [ring|]. rewrite E1, E2. ring.
Qed.
