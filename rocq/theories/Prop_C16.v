(** C16: dehomogenizing points. *)
From Coq Require Import ZArith List.
From Verif Require Import Base StartIndex SysVars.
Import ListNotations.

(** After any history without [ClearVariables], a point with the right number of coordinates is dehomogenized block by
    block, provided that the homogeneous groups have one size, and so have the affine groups if not homogenized;
    a point with another number of coordinates is refused. *)
Theorem C16_dehomogenize_partial : forall (F : fld) h, never_cleared h -> half_homogenized (layout h) = false ->
  uniform_groups (layout h) -> forall x : list F, exists s, state_of h = Some s /\
  (length x = length (flat_map block_variables (layout h)) ->
     exists y, dehomogenize_point s x = Value y /\ natural_coordinates (layout h) x y) /\
  (length x <> length (flat_map block_variables (layout h)) -> dehomogenize_point s x = Throws).
Proof. exact @dehomogenize_of_history. Qed.
Print Assumptions C16_dehomogenize_partial.

(** Systems all of whose groups are affine and homogenized, with ungrouped variables anywhere, need no condition on
    sizes. *)
Theorem C16_affine_homogenized : forall (F : fld) h, never_cleared h ->
  Forall (fun b => match b with AffineBlock (Some _) _ | UngroupedBlock _ => True | _ => False end) (layout h) ->
  forall x : list F, length x = length (flat_map block_variables (layout h)) ->
  exists s y, state_of h = Some s /\ dehomogenize_point s x = Value y /\ natural_coordinates (layout h) x y.
Proof. exact @dehomogenize_affine. Qed.
Print Assumptions C16_affine_homogenized.

(** With homogeneous groups of different sizes, or affine groups of different sizes in a system which is not
    homogenized, coordinates of the result are not set, or the result is written out of range. *)
Theorem C16_group_sizes_refuted : exists h1 h2 h3,
  layout h1 = [HomogeneousBlock [0; 1]; HomogeneousBlock [2; 3; 4]] /\
  dehomogenized h1 [qc 1 1; qc 2 1; qc 3 1; qc 4 1; qc 5 1]
  = Value [Number (qc 1 1); Number (qc 2 1); Number (qc 3 1); Number (qc 4 1); Indeterminate] /\
  layout h2 = [AffineBlock None [0]; AffineBlock None [1; 2]] /\
  dehomogenized h2 [qc 1 1; qc 2 1; qc 3 1] = Value [Number (qc 1 1); Number (qc 2 1); Indeterminate] /\
  layout h3 = [AffineBlock None [0; 1]; AffineBlock None [2]] /\
  dehomogenized h3 [qc 1 1; qc 2 1; qc 3 1] = UB.
Proof. exact dehomogenize_refuted. Qed.
Print Assumptions C16_group_sizes_refuted.

(** The hypotheses are met by a system with two affine groups, a homogeneous group and an ungrouped variable. *)
Example C16_hypotheses_met : never_cleared mixed_history /\ half_homogenized (layout mixed_history) = false /\
  uniform_groups (layout mixed_history) /\
  dehomogenized mixed_history [qc 2 1; qc 4 1; qc 6 1; qc 1 1; qc 7 1; qc 3 1; qc 5 1; qc 10 1]
  = Value [Number (qc 2 1); Number (qc 3 1); Number (qc 1 1); Number (qc 7 1); Number (qc 3 1); Number (qc 2 1)].
Proof. exact (conj (proj1 mixed_example) (conj (proj1 (proj2 mixed_example)) (conj mixed_uniform dehomogenize_mixed))). Qed.
