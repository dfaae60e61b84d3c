(** C53: automatic patches normalise the variable groups. *)
From Coq Require Import ZArith List.
From Verif Require Import Base StartIndex Patch SysVars.
Import ListNotations.

(** After any history in which no group follows an ungrouped variable, the equations of an automatic patch are, in
    order, one for each group: its coefficients times the variables of the group, minus 1. *)
Theorem C53_patch_follows_groups_partial : forall (F : fld) h, never_cleared h -> half_homogenized (layout h) = false ->
  ungrouped_last (layout h) = true ->
  exists s o, state_of h = Some s /\ variables s = Value o /\
  forall (p : patch (F := F)) (value : nat -> F), auto_patched s p ->
  patch_eval p (map value o)
  = Value (map (fun q => patch_equation value (fst q) (snd q)) (combine p (filter is_group (layout h)))).
Proof. exact @patch_of_history. Qed.
Print Assumptions C53_patch_follows_groups_partial.

(** With an ungrouped variable before a group this fails: the equation of the group involves other variables. *)
Theorem C53_ungrouped_first_refuted : exists h s (p : patch (F := QcF)) (value : nat -> QcF),
  state_of h = Some s /\ auto_patched s p /\ filter is_group (layout h) = [AffineBlock (Some 10) [0; 1]] /\
  patch_at h p value = Some (Value [qc 1 1]) /\
  map (fun q => patch_equation value (fst q) (snd q)) (combine p (filter is_group (layout h))) = [qc 0 1].
Proof. exact patch_refuted. Qed.
Print Assumptions C53_ungrouped_first_refuted.

Example C53_hypotheses_met : never_cleared grouped_history /\ half_homogenized (layout grouped_history) = false /\
  ungrouped_last (layout grouped_history) = true /\
  filter is_group (layout grouped_history) = [AffineBlock (Some 10) [0; 1]; HomogeneousBlock [3; 4]] /\
  exists s, state_of grouped_history = Some s /\ auto_patched s [[qc 1 1; qc 2 1; qc 3 1]; [qc 1 1; qc 2 1]].
Proof. exact grouped_example. Qed.
