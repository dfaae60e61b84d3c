(** C21: total degree start points are the distinct roots of the start system. *)
From Coq Require Import List ZArith.
From Verif Require Import Base StartIndex Patch ComplexField TotalDegree.
Import ListNotations.
Local Open Scope fld_scope.

(** The number of start points is the product of the degrees (while that fits in 64 bits). *)
Theorem C21_num_start_points : forall ds,
  Forall (fun d => 1 <= d)%nat ds -> (num_cells (map Z.of_nat ds) < 2 ^ 64)%Z ->
  num_start_points ds = num_cells (map Z.of_nat ds).
Proof. exact num_start_points_ok. Qed.
Print Assumptions C21_num_start_points.

(** Affine target: each index below the Bezout number gives a zero of all functions of the start
    system, one function per variable. *)
Theorem C21_start_points_are_zeros : forall s index,
  plain s -> homogenized s = false -> patch_of s = None ->
  (bezout s < 2 ^ 64)%Z -> (0 <= index < bezout s)%Z ->
  exists x, start_point s index = Value x /\ length x = length (kinds s)
            /\ length (start_system_values s x) = length (kinds s) /\ all_zero (start_system_values s x).
Proof. exact start_point_is_zero. Qed.
Print Assumptions C21_start_points_are_zeros.

(** Different indices give different points. *)
Theorem C21_start_points_distinct : forall s i j x,
  plain s -> homogenized s = false -> patch_of s = None ->
  Forall (fun r => r <> 0) (randoms s) ->
  (bezout s < 2 ^ 64)%Z -> (0 <= i < bezout s)%Z -> (0 <= j < bezout s)%Z ->
  start_point s i = Value x -> start_point s j = Value x -> i = j.
Proof. exact start_points_distinct. Qed.
Print Assumptions C21_start_points_distinct.

(** Every zero of the start system is a start point: none is missed. *)
Theorem C21_start_points_complete : forall s x,
  plain s -> homogenized s = false -> patch_of s = None ->
  (bezout s < 2 ^ 64)%Z -> length x = length (kinds s) -> all_zero (start_system_values s x) ->
  exists index, (0 <= index < bezout s)%Z /\ start_point s index = Value x.
Proof. exact start_points_complete. Qed.
Print Assumptions C21_start_points_complete.

(** Homogenized and patched target: every start point which is produced is on the patch and a zero of
    the homogenized start system ... *)
Theorem C21_patched_start_points_are_zeros : forall s c index x,
  plain s -> homogenized s = true ->
  patch_of s = Some [c] -> length c = S (length (kinds s)) ->
  (bezout s < 2 ^ 64)%Z -> (0 <= index < bezout s)%Z -> start_point s index = Value x ->
  length x = S (length (kinds s)) /\ all_zero (start_system_values s x) /\ on_patch [c] x.
Proof. exact patched_start_point_is_zero. Qed.
Print Assumptions C21_patched_start_points_are_zeros.

(** ... and different indices give different projective points. *)
Theorem C21_patched_start_points_distinct : forall s c i j x y,
  plain s -> homogenized s = true ->
  patch_of s = Some [c] -> length c = S (length (kinds s)) -> Forall (fun r => r <> 0) (randoms s) ->
  (bezout s < 2 ^ 64)%Z -> (0 <= i < bezout s)%Z -> (0 <= j < bezout s)%Z ->
  start_point s i = Value x -> start_point s j = Value y ->
  same_projective_point [c] x y -> i = j.
Proof. exact patched_start_points_distinct. Qed.
Print Assumptions C21_patched_start_points_distinct.

(** With an ungrouped variable, which the constructor accepts, start points need not be zeros. *)
Theorem C21_ungrouped_refuted : exists x, start_point ungrouped_example 0 = Value x /\
  length x = 2%nat /\ length (start_system_values ungrouped_example x) = 1%nat /\
  ~ all_zero (start_system_values ungrouped_example x).
Proof. exact ungrouped_not_zero. Qed.
Print Assumptions C21_ungrouped_refuted.

(** A square homogenized target without a patch gets points with an unset coordinate. *)
Theorem C21_unpatched_homogenized_refuted : forall r1 r2,
  start_point (mkStructure [Affine] [1; 1]%nat [r1; r2] true None) 0 = UB.
Proof. exact unpatched_hom_ub. Qed.
Print Assumptions C21_unpatched_homogenized_refuted.

(** The count is taken modulo 2^64. *)
Theorem C21_count_overflow_refuted :
  exists ds, Forall (fun d => 1 <= d)%nat ds /\ num_start_points ds = 0%Z.
Proof. exact num_start_points_wraps. Qed.
Print Assumptions C21_count_overflow_refuted.

(** A concrete system, three functions of degrees 3, 1 and 2, meets the hypotheses. *)
Definition C21_example : structure :=
  mkStructure [Affine; Affine; Affine] [3; 1; 2]%nat [1; 1; 1] false None.
Example C21_hypotheses_met :
  plain C21_example /\ (bezout C21_example < 2 ^ 64)%Z /\ bezout C21_example = 6%Z /\
  num_start_points (degrees C21_example) = 6%Z /\ Forall (fun r => r <> 0) (randoms C21_example).
Proof.
  split; [|split; [vm_compute; reflexivity|split; [vm_compute; reflexivity|split; [vm_compute; reflexivity|]]]].
  - split; [discriminate|]. split; [repeat constructor|]. split; [reflexivity|]. split; [reflexivity|].
    repeat constructor.
  - repeat (apply Forall_cons; [apply f1_neq_f0|]). apply Forall_nil.
Qed.

(** The patched hypotheses: the patch 1*h + 0*x on one variable of degree 1. *)
Example C21_patched_hypotheses_met :
  let s := mkStructure [Affine] [1]%nat [1] true (Some [[1; 0]]) in
  plain s /\ exists x, start_point s 0 = Value x.
Proof.
  split.
  - split; [discriminate|]. split; [repeat constructor|]. split; [reflexivity|]. split; [reflexivity|].
    repeat constructor.
  - exact patched_example_defined.
Qed.
