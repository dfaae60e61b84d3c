(** C18: patch evaluation and Jacobian. *)
From Coq Require Import List ZArith.
From Verif Require Import Base StartIndex Patch.
Import ListNotations.
Local Open Scope fld_scope.

(** The matrix returned by [Jacobian] is the derivative of [Eval]: the patch function is affine and
    moving the point by [d] changes its value by exactly the matrix times [d]. *)
Theorem C18_jacobian_is_derivative : forall (F : fld) (p : patch (F := F)) x d,
  length x = num_vars p -> length d = num_vars p ->
  exists J v v', patch_jacobian p = Value J /\ patch_eval p x = Value v /\ patch_eval p (vadd x d) = Value v'
    /\ v' = vadd v (mat_vec J d).
Proof. exact @patch_jacobian_is_derivative. Qed.
Print Assumptions C18_jacobian_is_derivative.

(** Evaluation writes coefficients . block - 1 in the last rows only. *)
Theorem C18_eval_in_place : forall (F : fld) (p : patch (F := F)) fv x,
  length x = num_vars p -> (num_groups p <= length fv)%nat ->
  patch_eval_in_place p fv x
  = Value (firstn (length fv - num_groups p) fv
           ++ map (fun q => inner (fst q) (snd q) - 1) (combine p (blocks (sizes_of p) x))).
Proof. exact @patch_eval_in_place_ok. Qed.
Print Assumptions C18_eval_in_place.

Theorem C18_eval_frame : forall (F : fld) (p : patch (F := F)) fv x fv',
  patch_eval_in_place p fv x = Value fv' ->
  length fv' = length fv /\ firstn (length fv - num_groups p) fv' = firstn (length fv - num_groups p) fv.
Proof. exact @patch_eval_in_place_frame. Qed.
Print Assumptions C18_eval_frame.

Theorem C18_eval_too_short_throws : forall (F : fld) (p : patch (F := F)) fv x,
  (length fv < num_groups p)%nat -> patch_eval_in_place p fv x = Throws.
Proof. exact @patch_eval_in_place_throws. Qed.
Print Assumptions C18_eval_too_short_throws.

(** [JacobianInPlace] never touches rows other than the last ones. *)
Theorem C18_jacobian_frame : forall (F : fld) (p : patch (F := F)) J J',
  patch_jacobian_in_place p J = Value J' ->
  length J' = length J /\ firstn (length J - num_groups p) J' = firstn (length J - num_groups p) J.
Proof. exact @jacobian_frame. Qed.
Print Assumptions C18_jacobian_frame.

(** In place the rows come out right when they were zero before ... *)
Theorem C18_jacobian_in_place_zeroed_partial : forall (F : fld) (p : patch (F := F)) top Jp,
  patch_jacobian p = Value Jp ->
  patch_jacobian_in_place p (top ++ repeat (repeat 0 (num_vars p)) (num_groups p)) = Value (top ++ Jp).
Proof. exact @jacobian_in_place_zero_rows. Qed.
Print Assumptions C18_jacobian_in_place_zeroed_partial.

(** ... or when there is a single variable group. *)
Theorem C18_jacobian_in_place_single_partial : forall (F : fld) (c : list F) J,
  J <> [] -> Forall (fun r => length r = length c) J ->
  patch_jacobian_in_place [c] J = Value (firstn (length J - 1) J ++ [c]).
Proof. exact @jacobian_in_place_single. Qed.
Print Assumptions C18_jacobian_in_place_single_partial.

(** With several groups and a matrix which was not zeroed (System::Jacobian allocates it without
    initialising it, system.hpp:534, 588, 650) the rows written are not the derivative. *)
Theorem C18_jacobian_in_place_refuted :
  exists (p : patch (F := QcF)) (J J' : list (list QcF)) (x d v v' : list QcF),
    length x = num_vars p /\ length d = num_vars p /\ length J = num_groups p /\
    Forall (fun r => length r = num_vars p) J /\
    patch_jacobian_in_place p J = Value J' /\ patch_eval p x = Value v /\
    patch_eval p (vadd (F := QcF) x d) = Value v' /\ v' <> vadd (F := QcF) v (mat_vec (F := QcF) J' d).
Proof. exact jacobian_in_place_garbage. Qed.
Print Assumptions C18_jacobian_in_place_refuted.

Example C18_concrete :
  let p : patch (F := QcF) := [[qc 1 1; qc 2 1]; [qc 3 1]] in
  patch_eval p [qc 1 1; qc 1 1; qc 1 1] = Value [qc 2 1; qc 2 1] /\
  patch_jacobian p = Value [[qc 1 1; qc 2 1; qc 0 1]; [qc 0 1; qc 0 1; qc 3 1]] /\
  patch_eval_in_place p [qc 9 1; qc 8 1; qc 7 1] [qc 1 1; qc 1 1; qc 1 1] = Value [qc 9 1; qc 2 1; qc 2 1].
Proof. vm_compute. repeat split. Qed.
