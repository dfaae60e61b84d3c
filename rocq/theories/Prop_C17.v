(** C17: rescaling a point puts it on the patch. *)
From Coq Require Import List ZArith.
From Verif Require Import Base StartIndex Patch.
Import ListNotations.
Local Open Scope fld_scope.

(** If rescaling succeeds, the result satisfies every patch equation and represents the same
    multiprojective point. *)
Theorem C17_rescaled_point_on_patch : forall (F : fld) (p : patch (F := F)) x y,
  rescale p x = Some y -> on_patch p y /\ same_projective_point p x y.
Proof. intros F p x y H. exact (proj2 (proj2 (rescale_spec p x y H))). Qed.
Print Assumptions C17_rescaled_point_on_patch.

(** Being on the patch is the same as the patch's own evaluation returning zeros. *)
Theorem C17_on_patch_iff_eval_zero : forall (F : fld) (p : patch (F := F)) x,
  length x = num_vars p -> (on_patch p x <-> patch_eval p x = Value (repeat 0 (num_groups p))).
Proof. exact @on_patch_iff_eval. Qed.
Print Assumptions C17_on_patch_iff_eval_zero.

(** Rescaling a point of the right length fails exactly when a group's block is orthogonal to its
    coefficients (division by zero in the code). *)
Theorem C17_rescale_defined_iff : forall (F : fld) (p : patch (F := F)) x,
  length x = num_vars p ->
  (rescale p x = None <->
   Exists (fun q => inner (fst q) (snd q) = 0) (combine p (blocks (sizes_of p) x))).
Proof. exact @rescale_none_iff. Qed.
Print Assumptions C17_rescale_defined_iff.

(** A point on the patch is left alone; in particular rescaling twice is rescaling once. *)
Theorem C17_rescale_fixes_patch_points : forall (F : fld) (p : patch (F := F)) x,
  on_patch p x -> rescale p x = Some x.
Proof. exact @rescale_on_patch_id. Qed.
Print Assumptions C17_rescale_fixes_patch_points.

Theorem C17_rescale_idempotent : forall (F : fld) (p : patch (F := F)) x y,
  rescale p x = Some y -> rescale p y = Some y.
Proof. intros F p x y H. exact (rescale_on_patch_id p y (proj1 (proj2 (proj2 (rescale_spec p x y H))))). Qed.
Print Assumptions C17_rescale_idempotent.

(** The result does not depend on which representative of the multiprojective point is given. *)
Theorem C17_rescale_invariant : forall (F : fld) (p : patch (F := F)) x x',
  same_projective_point p x x' -> rescale p x = rescale p x'.
Proof. exact @rescale_scale_invariant. Qed.
Print Assumptions C17_rescale_invariant.

(** A patch on groups of sizes 2 and 3, and a point not on it. *)
Example C17_concrete :
  let p : patch (F := QcF) := [[qc 1 1; qc 2 1]; [qc 1 2; qc (-1) 1; qc 3 1]] in
  let x := [qc 1 1; qc 1 1; qc 2 1; qc 0 1; qc 1 1] in
  rescale p x = Some [qc 1 3; qc 1 3; qc 1 2; qc 0 1; qc 1 4].
Proof. vm_compute. reflexivity. Qed.
