(** C51: NumStartPoints of a multihomogeneous start system is the multihomogeneous Bezout number. *)
From Coq Require Import List ZArith Lia.
From Verif Require Import StartIndex MHom.
Import ListNotations.
Local Open Scope Z_scope.

(** Holds for a target with affine groups only which has not been homogenized. *)
Theorem C51_affine_unhomogenized_partial : forall degs (gs : list group),
  Forall (fun g => fst g = AffineGroup /\ 0 <= snd g) gs ->
  degs <> [] -> Forall (fun r => length r = length gs) degs ->
  Forall (Forall (fun d => 0 <= d)) degs ->
  fold_right Z.add 0 (map snd gs) = Z.of_nat (length degs) -> mhom_bezout degs gs < 2 ^ 64 ->
  exists fuel, forall fuel', (fuel <= fuel')%nat ->
    mhom_num_start_points degs gs false fuel' = Some (mhom_bezout degs gs).
Proof. exact num_start_points_bezout. Qed.
Print Assumptions C51_affine_unhomogenized_partial.

(** Fails once the target has been homogenized, as the zero dimensional solve does: two functions
    bilinear in two groups of one variable have 2 solutions, but 4 start points are made. *)
Theorem C51_homogenized_refuted : exists degs (gs : list group) k,
  Forall (fun g => fst g = AffineGroup) gs /\ fold_right Z.add 0 (map snd gs) = Z.of_nat (length degs)
  /\ (forall fuel', (50 <= fuel')%nat -> mhom_num_start_points degs gs true fuel' = Some k)
  /\ mhom_bezout degs gs <> k.
Proof.
  exists [[1; 1]; [1; 1]], [(AffineGroup, 1); (AffineGroup, 1)], 4.
  split; [repeat (apply Forall_cons; [reflexivity|]); apply Forall_nil|].
  split; [reflexivity|]. split; [|vm_compute; discriminate].
  intros f Hf. replace f with (50 + (f - 50))%nat by lia.
  unfold mhom_num_start_points.
  set (s0 := minit _ _).
  assert (H : exists s k, steps [[1; 1]; [1; 1]] 2 s0 s k /\ (k <= 50)%nat /\ row s = -1 /\ num_mhom_points [[1; 1]; [1; 1]] (found s) = Some 4).
  { eexists. eexists. split.
    - do 9 (eapply steps_S; [reflexivity|vm_compute; reflexivity|]). apply steps_0.
    - split; [lia|]. split; vm_compute; reflexivity. }
  destruct H as [s [k [Hs [Hk [Hr Hn]]]]].
  replace (50 + (f - 50))%nat with (k + (f - k))%nat by lia.
  cbn [length]. rewrite (steps_run _ _ _ _ _ Hs).
  destruct (f - k)%nat; cbn [mrun]; rewrite Hr; cbn [Z.leb Z.compare]; exact Hn.
Qed.
Print Assumptions C51_homogenized_refuted.

(** Fails when an affine group is declared before a homogeneous one: the sizes are listed in the order
    of declaration, the columns with homogeneous groups first. *)
Theorem C51_group_order_refuted : exists degs (gs : list group) k fuel,
  fold_right Z.add 0 (map group_dimension gs) = Z.of_nat (length degs)
  /\ mhom_num_start_points degs gs false fuel = Some k /\ mhom_bezout degs gs <> k.
Proof.
  exists [[1; 1]; [1; 1]; [1; 1]], [(AffineGroup, 1); (HomGroup, 3)], 4, 100%nat.
  split; [reflexivity|]. split; [vm_compute; reflexivity|vm_compute; discriminate].
Qed.
Print Assumptions C51_group_order_refuted.

Example C51_hypotheses_met :
  mhom_num_start_points [[1; 2]; [0; 3]; [2; 1]] [(AffineGroup, 1); (AffineGroup, 2)] false 100 = Some 15
  /\ mhom_bezout [[1; 2]; [0; 3]; [2; 1]] [(AffineGroup, 1); (AffineGroup, 2)] = 15.
Proof. split; vm_compute; reflexivity. Qed.
