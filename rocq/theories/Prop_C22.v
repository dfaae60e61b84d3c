(** C22: the multihomogeneous partitions are enumerated exactly once. *)
From Coq Require Import List ZArith Lia.
From Verif Require Import StartIndex MHom.
Import ListNotations.
Local Open Scope Z_scope.

(** The backtracking search terminates without undefined behaviour, and the list it leaves behind
    contains the valid partitions, all of them, each once. *)
Theorem C22_enumerates_exactly_the_valid_partitions : forall degs sizes, well_formed degs sizes ->
  exists fuel s,
    (forall fuel', (fuel <= fuel')%nat -> mrun degs (length sizes) fuel' (minit (length degs) sizes) = Done s)
    /\ NoDup (found s)
    /\ forall p, In p (found s) <-> valid_partition degs sizes p.
Proof.
  intros degs sizes H. destruct (run_enumerates degs sizes H) as [fuel [s [_ [Ef Hr]]]].
  exists fuel, s. split; [exact Hr|]. rewrite Ef. split; [apply enum_nodup|].
  intro p. apply enum_valid; apply H.
Qed.
Print Assumptions C22_enumerates_exactly_the_valid_partitions.

(** When the sizes add up to the number of functions every group is used exactly as often as its
    size says. *)
Theorem C22_groups_used_exactly : forall degs sizes p,
  valid_partition degs sizes p -> fold_right Z.add 0 sizes = Z.of_nat (length degs) ->
  forall j k, nth_error sizes j = Some k -> Z.of_nat (count_occ Z.eq_dec p (Z.of_nat j)) = k.
Proof.
  intros degs sizes p [Hl [Hd Hk]] Hs. apply valid_exact; [|exact Hk|unfold sumZ; rewrite Hs; lia].
  intros c Hc. apply In_nth_error in Hc. destruct Hc as [i Hi].
  destruct (nth_error degs i) as [r|] eqn:Er.
  - apply (Hd i r c Er Hi).
  - apply nth_error_None in Er. assert (i < length p)%nat by (apply nth_error_Some; congruence). lia.
Qed.
Print Assumptions C22_groups_used_exactly.

(** NumStartPoints is the sum over the partitions of the products of the chosen degrees, in unsigned
    64 bit arithmetic. *)
Theorem C22_number_is_sum_of_products : forall degs sizes ps,
  (forall p, In p ps -> valid_partition degs sizes p) ->
  exists k, num_mhom_points degs ps = Some k
    /\ wrap64 k = wrap64 (fold_right Z.add 0 (map (product_for degs) ps)).
Proof. exact num_mhom_points_ok. Qed.
Print Assumptions C22_number_is_sum_of_products.

(** A 3 function example with groups of sizes 1 and 2. *)
Example C22_hypotheses_met :
  well_formed [[1; 2]; [0; 3]; [2; 1]] [1; 2]
  /\ (exists s, mrun [[1; 2]; [0; 3]; [2; 1]] 2 100 (minit 3 [1; 2]) = Done s
      /\ found s = [[0; 1; 1]; [1; 1; 0]])
  /\ num_mhom_points [[1; 2]; [0; 3]; [2; 1]] [[0; 1; 1]; [1; 1; 0]] = Some 15.
Proof.
  split; [|split].
  - split; [discriminate|]. split.
    + repeat (apply Forall_cons; [reflexivity|]). apply Forall_nil.
    + repeat (apply Forall_cons; [discriminate|]). apply Forall_nil.
  - eexists. split; vm_compute; reflexivity.
  - vm_compute; reflexivity.
Qed.
