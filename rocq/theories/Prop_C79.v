(** C79: saving systems and functions to an archive, and loading them. *)
From Coq Require Import String Ascii List Arith Lia Bool ZArith.
From Verif Require Import Base Expr Chars Archive Serial.
Import ListNotations.

(** A saved system loads, and what is loaded is the system saved: there is a correspondence between the nodes it reaches and
    the nodes loaded, one to one (what was shared is shared, what was not is not), under which the two systems have the same
    members and corresponding nodes the same class and members.  The current values of the variables are not saved. *)
Theorem C79_round_trip_partial : forall (F : fld) (G : list (snode F)) y ts seen,
  save_system G y = Ok (ts, seen) -> (forall a n, In a seen -> nth_error G a = Some n -> whole n = true) ->
  exists (s : nat -> nat) h,
    load_system ts = Some (move_system s y, h) /\
    (forall a, In a (system_roots y) -> In a seen) /\
    (forall a n b, In a seen -> nth_error G a = Some n -> In b (node_pointers n) -> In b seen) /\
    (forall a b, In a seen -> In b seen -> s a = s b -> a = b) /\
    (forall a, In a seen -> exists n, nth_error G a = Some n /\ lookup h (s a) = Some (move s n)).
Proof.
  intros F G y ts seen S W. destruct (system_round_trip G y ts seen S) as (h & L & N & R & A).
  exists (number_of seen), h. split; [exact L|]. split; [exact R|]. split.
  { intros a n b I E J. destruct (A a I) as (n' & E' & P & _). assert (n' = n) by congruence. subst n'. now apply P. }
  split; [intros; eapply number_inj; eauto|].
  intros a I. destruct (A a I) as (n & E & _ & H). exists n. split; [exact E|]. rewrite H, (remains_whole n); [reflexivity|].
  now apply (W a).
Qed.
Print Assumptions C79_round_trip_partial.

(** So every function and derivative of the loaded system has the value of the one saved, at any point. *)
Theorem C79_values_partial : forall (F : fld) (G : list (snode F)) y ts seen,
  save_system G y = Ok (ts, seen) -> (forall a n, In a seen -> nth_error G a = Some n -> whole n = true) ->
  exists (s : nat -> nat) h, load_system ts = Some (move_system s y, h) /\
    (forall a b, In a seen -> In b seen -> s a = s b -> a = b) /\
    forall fs pi_ e_ complex rho rho' dv dv' fuel a,
      (forall x, In x seen -> rho' (s x) = rho x) -> In a (system_roots y) ->
      value fs pi_ e_ complex (lookup h) fuel rho' dv' (Some (s a)) = value fs pi_ e_ complex (nth_error G) fuel rho dv (Some a).
Proof.
  intros F G y ts seen S W. destruct (C79_round_trip_partial F G y ts seen S W) as (s & h & L & R & C & I & A).
  exists s, h. split; [exact L|]. split; [exact I|]. intros fs pi_ e_ complex rho rho' dv dv' fuel a Rho Ra.
  apply (value_moved fs pi_ e_ complex (nth_error G) (lookup h) s seen rho rho' dv dv') with (p := Some a).
  - intros b Ib. destruct (A b Ib) as (n & E & H). exists n. split; [exact E|]. split; [now apply (W b)|].
    split; [|exact H]. intros c. now apply (C b n c Ib E).
  - exact Rho.
  - intros b E. injection E as <-. now apply R.
Qed.
Print Assumptions C79_values_partial.

(** Saving a system does not fail, as long as pointers are to nodes made before and no node is a derivative of a linear
    product: *)
Theorem C79_saves : forall (F : fld) (G : list (snode F)) y,
  well_formed G -> (forall n, In n G -> forall vars hom c, n <> NDiffLinear vars hom c) ->
  (forall a, In a (system_roots y) -> a < List.length G) ->
  (forall a, hd_error (system_roots y) = Some a -> exists name p, nth_error G a = Some (NVariable name) \/ nth_error G a = Some (NFunction name p)) ->
  exists ts seen, save_system G y = Ok (ts, seen).
Proof.
  intros F G y W D B H. apply save_ok; [exact W| |exact (fun a E n En => ltac:(destruct (H a E) as (name & p & [X|X]); rewrite X in En; injection En as <-; reflexivity))|exact B].
  intros n I. destruct n; try reflexivity. now destruct (D _ I vars hom coeffs).
Qed.
Print Assumptions C79_saves.

(** the same holds of any number of pointers to nodes, *)
Theorem C79_nodes_partial : forall (F : fld) (G : list (snode F)) (l : list nat), well_formed G ->
  (forall n, In n G -> whole n = true) -> (forall a, In a l -> a < List.length G) ->
  (forall a, hd_error l = Some a -> forall p, nth_error G a <> Some (NUnary KLog p)) ->
  exists ts seen (s : nat -> nat) h,
    save G (map (fun a => FPtr (Some a)) l) = Ok (ts, seen) /\
    load (map (fun _ => TPtr) l) ts = Some (map (fun a => FPtr (Some (s a))) l, h) /\
    (forall a, In a l -> In a seen) /\
    (forall a b, In a seen -> In b seen -> s a = s b -> a = b) /\
    (forall a, In a seen -> exists n, nth_error G a = Some n /\ lookup h (s a) = Some (move s n) /\
       forall b, In b (node_pointers n) -> In b seen).
Proof.
  intros F G l Wf W B H.
  assert (Rt : flat_map pointers (map (fun a => FPtr (F := F) (Some a)) l) = l).
  { clear. induction l as [|a l IH]; [reflexivity|]. cbn. now rewrite IH. }
  destruct (save_ok G (map (fun a => FPtr (Some a)) l) Wf) as (ts & seen & S).
  - intros n I. specialize (W n I). destruct n; try reflexivity; discriminate.
  - rewrite Rt. intros a E n En. specialize (H a E). assert (whole n = true) by (apply W; eapply nth_error_In; eauto).
    destruct n; try reflexivity; try discriminate. destruct k; try reflexivity. now destruct (H a0).
  - now rewrite Rt.
  - destruct (round_trip G _ ts seen S) as (h & L & N & R & A). exists ts, seen, (number_of seen), h.
    split; [exact S|]. split; [rewrite !map_map in L; exact L|]. split.
    { intros a I. apply (R (FPtr (Some a))); [apply in_map_iff; now exists a|now left]. }
    split; [intros; eapply number_inj; eauto|].
    intros a I. destruct (A a I) as (n & E & P & Q). exists n. split; [exact E|]. split; [|exact P].
    rewrite Q, remains_whole; [reflexivity|]. apply W. eapply nth_error_In; eauto.
Qed.
Print Assumptions C79_nodes_partial.

(** but not if the first is a logarithm, whose class is not exported: this throws, always, *)
Theorem C79_logarithm_refuted : forall (F : fld) (G : list (snode F)) a p l, nth_error G a = Some (NUnary KLog p) ->
  save G (FPtr (Some a) :: l) = Unregistered.
Proof. intros F G a p l E. unfold save. cbn. now rewrite E. Qed.
Print Assumptions C79_logarithm_refuted.

(** and a derivative of a linear product cannot be saved at all. *)
Theorem C79_derivative_refuted : forall (F : fld) (G : list (snode F)) k seen a vars hom c,
  nth_error G a = Some (NDiffLinear vars hom c) -> ~ In a seen ->
  forall ts seen', save_ptr G k seen (Some a) <> Ok (ts, seen').
Proof.
  intros F G k seen a vars hom c E I ts seen'. apply index_none in I. destruct k; cbn; rewrite I; [discriminate|].
  rewrite E. cbn. rewrite andb_false_r. discriminate.
Qed.
Print Assumptions C79_derivative_refuted.

(** Not all nodes are saved whole.  Whatever the system, a loaded differential has forgotten its variable, *)
Theorem C79_differential_refuted : forall (F : fld) (G : list (snode F)) y ts seen a name v,
  save_system G y = Ok (ts, seen) -> In a seen -> nth_error G a = Some (NDifferential name (Some v)) ->
  exists s h, load_system ts = Some (move_system s y, h) /\
    lookup h (s a) = Some (NDifferential name None) /\
    forall fs pi_ e_ complex rho rho' d,
      value fs pi_ e_ complex (nth_error G) 1 rho (Some v) (Some a) = Some (Some f1) /\
      value fs pi_ e_ complex (lookup h) 1 rho' (Some d) (Some (s a)) = Some (Some f0).
Proof.
  intros F G y ts seen a name v S I E. destruct (system_round_trip G y ts seen S) as (h & L & _ & _ & A).
  exists (number_of seen), h. split; [exact L|]. destruct (A a I) as (n & E' & _ & H).
  assert (n = NDifferential name (Some v)) by congruence. subst n. split; [exact H|].
  intros. cbn [value]. rewrite E, H. cbn. now rewrite Nat.eqb_refl.
Qed.
Print Assumptions C79_differential_refuted.

(** and a loaded linear product has no variables: evaluating it dereferences a null pointer. *)
Theorem C79_linear_product_refuted : forall (F : fld) (G : list (snode F)) y ts seen a vars hom c,
  save_system G y = Ok (ts, seen) -> In a seen -> nth_error G a = Some (NLinearProduct vars hom c) ->
  exists s h, load_system ts = Some (move_system s y, h) /\
    forall fs pi_ e_ complex rho dv fuel, value fs pi_ e_ complex (lookup h) fuel rho dv (Some (s a)) = None.
Proof.
  intros F G y ts seen a vars hom c S I E. destruct (system_round_trip G y ts seen S) as (h & L & _ & _ & A).
  exists (number_of seen), h. split; [exact L|]. destruct (A a I) as (n & E' & _ & H).
  assert (n = NLinearProduct vars hom c) by congruence. subst n.
  intros. destruct fuel as [|k]; [reflexivity|]. cbn [value]. rewrite H. cbn. destruct k; reflexivity.
Qed.
Print Assumptions C79_linear_product_refuted.

(** A total degree start system is loaded as it was saved, with its random values and degrees. *)
Theorem C79_total_degree : forall (F : fld) (G : list (snode F)) t ts seen,
  save G (total_fields t) = Ok (ts, seen) ->
  exists (s : nat -> nat) t' h, load_total ts = Some (t', h) /\
    td_system t' = move_system s (td_system t) /\ td_degrees t' = td_degrees t /\
    td_values t' = map (option_map s) (td_values t) /\
    (forall a b, In a seen -> In b seen -> s a = s b -> a = b) /\
    forall i a, nth_error (td_values t) i = Some (Some a) -> exists n, nth_error G a = Some n /\ lookup h (s a) = Some (move s (remains n)).
Proof.
  intros F G t ts seen S. destruct (total_round_trip G t ts seen S) as (h & L & N & R & A).
  exists (number_of seen). eexists. exists h. split; [exact L|]. cbn [td_system td_degrees td_values].
  split; [reflexivity|]. split; [reflexivity|]. split; [reflexivity|].
  split; [intros; eapply number_inj; eauto|].
  intros i a E. destruct (A a) as (n & En & _ & H); [|now exists n].
  apply R. unfold total_fields. rewrite flat_map_app. apply in_or_app. right. cbn. rewrite app_nil_r. apply in_addresses.
  eapply nth_error_In; eauto.
Qed.
Print Assumptions C79_total_degree.

(** A multihomogeneous start system is not: however many start points it had, which are for each partition as many as the
    product of the degrees chosen, and all of which it could give, it has none after loading, and asking for any throws. *)
Theorem C79_multihomogeneous_refuted : forall (F : fld) (G : list (snode F)) t ts seen,
  save G (mhom_fields t) = Ok (ts, seen) ->
  exists t' h, load_mhom ts = Some (t', h) /\ start_points t' = 0 /\
    (forall i, which_partition t' i = None) /\
    (forall i, i < start_points t -> which_partition t i <> None) /\
    ((forall p, In p (mh_partitions t) -> List.length p = List.length (mh_matrix t)) ->
       start_points t = list_sum (map (chosen_product (mh_matrix t)) (mh_partitions t))).
Proof.
  intros F G t ts seen S. destruct (mhom_round_trip G t ts seen S) as (h & L). eexists _, h. split; [exact L|].
  split; [reflexivity|]. split; [reflexivity|]. split.
  - intros i H. destruct (find_partition_some (mh_matrix t) (mh_partitions t) i H) as (p & j & E & _). unfold which_partition.
    rewrite E. discriminate.
  - intros H. unfold start_points, list_sum. f_equal. apply map_ext_in. intros p I. apply partition_points_product.
    rewrite (H p I). apply le_n.
Qed.
Print Assumptions C79_multihomogeneous_refuted.

Definition no_patch : spatch (F := QcF) := mkPatch 16 [] [] [] [].
Definition no_program : sslp (F := QcF) := mkSlp 16 false [] [] [] [] [] [] [] false.

(** x*log(x) - y and (x*log(x))^2 over the group {x, y}: the product is shared. *)
Definition example_nodes : list (snode QcF) :=
  [ NVariable (txt "x"); NVariable (txt "y"); NUnary KLog (Some 0); NMult [Some 0; Some 2] [true; true];
    NSum [Some 3; Some 1] [true; false]; NFunction (txt "f") (Some 4); NIntegerPower (Some 3) 2; NFunction (txt "g") (Some 6) ].
Definition example_system : ssystem (F := QcF) :=
  mkSystem [] [[Some 0; Some 1]] [] [] false None [] [] [] [] [Some 5; Some 7]
    no_patch false false 0 0 true 16 false [] [] [] no_program [1%Z] false [] [].

Example C79_case : exists ts seen h, save_system example_nodes example_system = Ok (ts, seen) /\
  seen = [0; 1; 5; 4; 3; 2; 7; 6] /\ well_formed example_nodes /\
  (forall a n, In a seen -> nth_error example_nodes a = Some n -> whole n = true) /\
  exists y, load_system ts = Some (y, h) /\ y_functions y = [Some 2; Some 6] /\
    lookup h 3 = Some (NSum [Some 4; Some 1] [true; false]) /\ lookup h 7 = Some (NIntegerPower (Some 4) 2).
Proof.
  eexists _, _, _. split; [reflexivity|]. split; [reflexivity|]. split.
  { intros a n b E I. do 8 (destruct a as [|a]; [injection E as <-; cbn in I; intuition lia|]). destruct a; discriminate. }
  split.
  { intros a n _ E. do 8 (destruct a as [|a]; [injection E as <-; reflexivity|]). destruct a; discriminate. }
  eexists. repeat split.
Qed.

(** x with its derivative by the Jacobian method, and a linear product. *)
Example C79_lost_case :
  let G : list (snode QcF) := [ NVariable (txt "x"); NFunction (txt "f") (Some 0); NDifferential (txt "dx") (Some 0); NJacobian (txt "j") (Some 2);
             NLinearProduct [Some 0] (Some 0) [[f1; f1]]; NFunction (txt "g") (Some 4) ] in
  let y := mkSystem [] [[Some 0]] [] [] false None [] [] [] [] [Some 1; Some 5]
             no_patch false false 0 0 true 16 true [Some 3] [] [] no_program [1%Z] false [] [] in
  exists ts seen, save_system G y = Ok (ts, seen) /\ In 2 seen /\ In 4 seen.
Proof. eexists _, _. split; [reflexivity|]. cbn. tauto. Qed.

Example C79_start_case :
  let t := mkMhom example_system [2%Z; 2%Z] [[1; 1]; [1; 1]] [[0; 1]; [1; 0]] in
  let d := mkTotal example_system [Some 8] [2%Z; 3%Z] in
  start_points t = 2 /\ which_partition t 1 = Some ([1; 0], 0) /\
  (exists ts seen, save example_nodes (mhom_fields t) = Ok (ts, seen)) /\
  (exists ts seen, save (example_nodes ++ [NRational (qc 1 3) (qc 2 5)]) (total_fields d) = Ok (ts, seen)).
Proof. repeat split; eexists _, _; reflexivity. Qed.
