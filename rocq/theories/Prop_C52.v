(** C52: the multihomogeneous start points are the zeros of the start system. *)
From Coq Require Import List ZArith QArith Lia Ring Field.
From Verif Require Import Base StartIndex MHom Lu MHomPoint.
Import ListNotations.
Close Scope Q_scope.

(** A point which solves the linear system made for an index is a zero of every function of the start
    system: each function is a product of linear forms, one of which was set to zero.  (Affine groups,
    not homogenized; the linear solve itself is the hypothesis [solves].) *)
Theorem C52_start_points_are_zeros_partial : forall (F : fld) sizes (cf : nat -> nat -> nat -> list F) degs ps index p sub x,
  length sizes <> 0%nat -> degs <> [] ->
  (forall p, In p ps -> valid_partition degs (map Z.of_nat sizes) p) -> NoDup ps ->
  Forall (Forall (fun d => 0 <= d)%Z) degs -> (total_points degs ps < 2 ^ 31)%Z ->
  (0 <= index < total_points degs ps)%Z ->
  start_choice degs ps index = Value (p, sub) -> solves sizes cf p sub x ->
  forall i, (i < length degs)%nat -> start_function sizes cf degs i x = @f0 F.
Proof.
  intros F sizes cf degs ps index p sub x Hs Hne Hv Hnd Hp Ht Hi E Hsol.
  destruct (start_choice_in_range degs _ ps index Hne Hv Hnd Hp Ht Hi) as [p' [sub' [E' [Hl _]]]].
  rewrite E in E'. inversion E'; subst p' sub'.
  exact (choice_solution_is_zero sizes cf degs ps p sub x Hs Hv Hl Hsol).
Qed.
Print Assumptions C52_start_points_are_zeros_partial.

(** Conversely, for coefficients in general position, every zero of the start system is the solution
    belonging to exactly one index of the linear system made for that index. *)
Theorem C52_all_zeros_are_found_partial : forall (F : fld) sizes (cf : nat -> nat -> nat -> list F) degs ps x,
  degs <> [] -> Forall (fun r => length r = length sizes) degs ->
  (forall p, In p ps <-> valid_partition degs (map Z.of_nat sizes) p) -> NoDup ps ->
  Forall (Forall (fun d => 0 <= d)%Z) degs -> (total_points degs ps < 2 ^ 31)%Z ->
  general_position sizes cf degs -> length x = fold_right Nat.add 0%nat sizes ->
  (forall i, (i < length degs)%nat -> start_function sizes cf degs i x = @f0 F) ->
  exists index p sub, (0 <= index < total_points degs ps)%Z
    /\ start_choice degs ps index = Value (p, sub) /\ solves sizes cf p sub x.
Proof.
  intros F sizes cf degs ps x Hne Hw Hps Hnd Hp Ht Hgp Hx Hz.
  destruct (zero_is_choice_solution sizes cf degs ps x Hw Hps Hgp Hx Hz) as [p [sub [Hl Hsol]]].
  destruct (start_choice_onto degs (map Z.of_nat sizes) ps p sub Hne (fun q Hq => proj1 (Hps q) Hq) Hnd Hp Ht Hl)
    as [index [Hi [E _]]].
  exists index, p, sub. split; [exact Hi|]. split; assumption.
Qed.
Print Assumptions C52_all_zeros_are_found_partial.

(** The same for StartPoint(index) as the code computes it, from the enumeration of the partitions to the
    elimination, for any choice of pivots which takes a nonzero entry whenever there is one: every index
    below the Bezout number gives a point, and it is a zero of every function of the start system.
    Affine groups only, not homogenized, and the first group has at least two variables. *)
Theorem C52_start_point_partial : forall (F : fld) (pick : list F -> nat) cf degs (gs : list group) s0 rest,
  picks_nonzero pick ->
  Forall (fun g => fst g = AffineGroup /\ (0 <= snd g)%Z) gs -> degs <> [] ->
  Forall (fun r => length r = length gs) degs -> Forall (Forall (fun d => 0 <= d)%Z) degs ->
  num_natural_variables gs = length degs -> (mhom_bezout degs gs < 2 ^ 31)%Z ->
  independent cf degs (column_sizes gs) ->
  column_sizes gs = s0 :: rest -> (2 <= s0)%nat ->
  exists fuel, forall fuel' index, (fuel <= fuel')%nat -> (0 <= index < mhom_bezout degs gs)%Z ->
    exists x, mhom_start_point pick cf degs gs false fuel' index = Value x
      /\ length x = num_variables gs false
      /\ forall i, (i < length degs)%nat -> start_function (column_sizes gs) cf degs i x = @f0 F.
Proof.
  intros F pick cf degs gs s0 rest Hp Hg Hne Hw Hpos Hsq Hb Hind Es H2.
  destruct (affine_points pick cf degs gs Hg Hne Hw Hpos Hsq) as [fuel [ps [Hps [Hnd [Ht Hrun]]]]].
  exists fuel. intros fuel' index Hf Hi. rewrite (Hrun fuel' index Hf).
  assert (Hv : all_valid degs (map Z.of_nat (column_sizes gs)) ps) by (intros p Hin; apply Hps; exact Hin).
  destruct (start_choice_in_range degs _ ps index Hne Hv Hnd Hpos ltac:(lia) ltac:(lia)) as [p [sub [E [Hl _]]]].
  rewrite E. pose proof (choice_of_legal degs (column_sizes gs) ps p sub Hv Hl) as Hc.
  assert (Hlen : length p = length degs) by apply Hc.
  destruct (point_of_choice_ok pick cf Hp (column_sizes gs) s0 rest p sub Es H2) as [x [Ex [Hx _]]].
  - rewrite Hlen. symmetry. exact Hsq.
  - apply Hc.
  - rewrite Hlen. apply Hind. exact Hc.
  - exists x. split; [exact Ex|]. split.
    + destruct Hx as [Hx _]. rewrite Hx. unfold num_variables, num_natural_variables, nvars. lia.
    + apply (choice_solution_is_zero (column_sizes gs) cf degs ps p sub x); try assumption. rewrite Es. discriminate.
Qed.
Print Assumptions C52_start_point_partial.

(** And for coefficients in general position every zero of the start system is StartPoint(index) for one
    index below the Bezout number, and for no other. *)
Theorem C52_each_zero_once_partial : forall (F : fld) (pick : list F -> nat) cf degs (gs : list group) s0 rest,
  picks_nonzero pick ->
  Forall (fun g => fst g = AffineGroup /\ (0 <= snd g)%Z) gs -> degs <> [] ->
  Forall (fun r => length r = length gs) degs -> Forall (Forall (fun d => 0 <= d)%Z) degs ->
  num_natural_variables gs = length degs -> (mhom_bezout degs gs < 2 ^ 31)%Z ->
  independent cf degs (column_sizes gs) -> general_position (column_sizes gs) cf degs ->
  simple_zeros cf degs (column_sizes gs) ->
  column_sizes gs = s0 :: rest -> (2 <= s0)%nat ->
  exists fuel, forall fuel', (fuel <= fuel')%nat ->
    forall x, length x = num_variables gs false ->
    (forall i, (i < length degs)%nat -> start_function (column_sizes gs) cf degs i x = @f0 F) ->
    exists! index, (0 <= index < mhom_bezout degs gs)%Z
      /\ mhom_start_point pick cf degs gs false fuel' index = Value x.
Proof.
  intros F pick cf degs gs s0 rest Hp Hg Hne Hw Hpos Hsq Hb Hind Hgp Hsz Es H2.
  destruct (affine_points pick cf degs gs Hg Hne Hw Hpos Hsq) as [fuel [ps [Hps [Hnd [Ht Hrun]]]]].
  exists fuel. intros fuel' Hf x Hx Hz.
  assert (Hx' : length x = nvars (column_sizes gs)).
  { rewrite Hx. unfold num_variables, num_natural_variables, nvars. lia. }
  assert (Hv : all_valid degs (map Z.of_nat (column_sizes gs)) ps) by (intros p Hin; apply Hps; exact Hin).
  destruct (affine_sizes gs Hg) as [_ Hcl].
  assert (Hw' : Forall (fun r => length r = length (column_sizes gs)) degs) by (rewrite Hcl; exact Hw).
  assert (Hpt : forall p sub, legal_choice degs ps p sub -> exists y,
            point_of_choice pick cf (column_sizes gs) p sub = Value y
            /\ solves (column_sizes gs) cf p sub y /\ forall z, solves (column_sizes gs) cf p sub z -> z = y).
  { intros p sub Hl. pose proof (choice_of_legal degs (column_sizes gs) ps p sub Hv Hl) as Hc.
    assert (Hlen : length p = length degs) by apply Hc.
    apply (point_of_choice_ok pick cf Hp (column_sizes gs) s0 rest p sub Es H2).
    - rewrite Hlen. symmetry. exact Hsq.
    - apply Hc.
    - rewrite Hlen. apply Hind. exact Hc. }
  destruct (zero_is_choice_solution (column_sizes gs) cf degs ps x Hw' Hps Hgp Hx' Hz) as [p [sub [Hl Hsol]]].
  destruct (start_choice_onto degs (map Z.of_nat (column_sizes gs)) ps p sub Hne Hv Hnd Hpos ltac:(lia) Hl)
    as [index [Hi [E Hu]]].
  exists index. split.
  - split; [lia|]. rewrite (Hrun fuel' index Hf), E.
    destruct (Hpt p sub Hl) as [y [Ey [_ Hy]]]. rewrite Ey, <- (Hy x Hsol). reflexivity.
  - intros i' [Hi' Ei']. rewrite (Hrun fuel' i' Hf) in Ei'. symmetry. apply Hu; [lia|].
    destruct (start_choice_in_range degs _ ps i' Hne Hv Hnd Hpos ltac:(lia) ltac:(lia)) as [p' [sub' [E' [Hl' _]]]].
    rewrite E' in Ei' |- *. destruct (Hpt p' sub' Hl') as [y [Ey [Hy _]]]. rewrite Ey in Ei'. inversion Ei'; subst y.
    destruct (choice_of_legal degs _ ps p sub Hv Hl) as [Hvp [Hsl Hsb]].
    destruct (choice_of_legal degs _ ps p' sub' Hv Hl') as [Hvp' [Hsl' Hsb']].
    assert (G : forall i, (i < length degs)%nat -> nth_error p i = nth_error p' i /\ nth_error sub i = nth_error sub' i).
    { intros i Hil. pose proof (proj1 Hvp) as L. pose proof (proj1 Hvp') as L'.
      pose proof (nth_error_nth' p 0%Z (n := i) ltac:(lia)) as Ep.
      pose proof (nth_error_nth' sub 0%Z (n := i) ltac:(lia)) as Esb.
      pose proof (nth_error_nth' p' 0%Z (n := i) ltac:(lia)) as Ep'.
      pose proof (nth_error_nth' sub' 0%Z (n := i) ltac:(lia)) as Esb'.
      pose proof (nth_error_nth' degs [] (n := i) Hil) as Er.
      set (c := nth i p 0%Z) in *. set (c' := nth i p' 0%Z) in *. set (s := nth i sub 0%Z) in *. set (s' := nth i sub' 0%Z) in *.
      destruct (proj1 (proj2 Hvp) i _ c Er Ep) as [Hc [d [Hd _]]].
      destruct (proj1 (proj2 Hvp') i _ c' Er Ep') as [Hc' [d' [Hd' _]]].
      rewrite map_length in Hc, Hc'.
      pose proof (Hsb i c s d Ep Esb Hd) as Hs. pose proof (Hsb' i c' s' d' Ep' Esb' Hd') as Hs'.
      destruct (Hsz x Hx' Hz i (Z.to_nat c) (Z.to_nat s) (Z.to_nat c') (Z.to_nat s') Hil ltac:(lia) ltac:(lia)) as [A B].
      - rewrite (nth_error_nth _ _ _ Hd). lia.
      - rewrite (nth_error_nth _ _ _ Hd'). lia.
      - apply row_vanishes; [lia|assumption|]. apply (proj2 Hsol i c s Ep Esb).
      - apply row_vanishes; [lia|assumption|]. apply (proj2 Hy i c' s' Ep' Esb').
      - rewrite Ep, Ep', Esb, Esb'. split; f_equal; lia. }
    assert (Ext : forall (A : Type) (a b : list A), length a = length b ->
              (forall i, (i < length a)%nat -> nth_error a i = nth_error b i) -> a = b).
    { clear. intros A. induction a as [|u a IH]; intros [|v b] L H; try discriminate; [reflexivity|].
      pose proof (H 0%nat ltac:(cbn; lia)) as H0. cbn in H0. inversion H0; subst. f_equal.
      apply IH; [cbn in L; lia|]. intros i Hi. apply (H (S i)). cbn. lia. }
    pose proof (proj1 Hvp) as L. pose proof (proj1 Hvp') as L'.
    rewrite (Ext _ p p'), (Ext _ sub sub'); [reflexivity|lia|intros i H; apply G; lia|lia|intros i H; apply G; lia].
Qed.
Print Assumptions C52_each_zero_once_partial.

(** If the first group has one variable no index gives a point: the code reads the second variable of
    that group. *)
Theorem C52_first_group_of_one_variable_refuted : forall (F : fld) (pick : list F -> nat) cf degs (gs : list group)
  homogenized fuel index rest,
  column_sizes gs = 1%nat :: rest ->
  forall x, mhom_start_point pick cf degs gs homogenized fuel index <> Value x.
Proof.
  intros F pick cf degs gs hg fuel index rest Es x E.
  destruct (point_inv pick cf degs gs hg fuel index x E) as [ps [p [sub [_ Ex]]]].
  unfold point_of_choice in Ex. rewrite Es in Ex.
  destruct (length p =? fold_right Nat.add 0 (1%nat :: rest))%nat; discriminate.
Qed.
Print Assumptions C52_first_group_of_one_variable_refuted.

(** If the target was homogenized, as the zero dimensional solve does, no point returned has a coordinate
    for each variable of the start system: the homogenizing variables are left out. *)
Theorem C52_homogenized_refuted : forall (F : fld) (pick : list F -> nat) cf degs (gs : list group) fuel index x,
  (exists g, In g gs /\ fst g = AffineGroup) ->
  mhom_start_point pick cf degs gs true fuel index = Value x ->
  length x = num_natural_variables gs /\ (length x < num_variables gs true)%nat.
Proof.
  intros F pick cf degs gs fuel index x [g [Hg Hga]] E.
  destruct (point_inv pick cf degs gs true fuel index x E) as [ps [p [sub [_ Ex]]]].
  assert (Hl : length x = num_natural_variables gs).
  { unfold point_of_choice in Ex.
    destruct (Nat.eqb_spec (length p) (fold_right Nat.add 0 (column_sizes gs))%nat) as [Hl|]; [|discriminate].
    destruct (column_sizes gs) as [|s0 rest] eqn:Es; [discriminate|].
    destruct ((2 <=? s0) && _)%bool; [|discriminate]. inversion Ex; subst x.
    rewrite lu_length, matrix_length. unfold num_natural_variables. rewrite Es. exact Hl. }
  split; [exact Hl|]. rewrite Hl. unfold num_variables.
  assert (0 < length (filter (fun g => negb (is_hom g)) gs))%nat; [|lia].
  assert (Hin : In g (filter (fun g => negb (is_hom g)) gs)).
  { apply filter_In. split; [exact Hg|]. unfold is_hom. rewrite Hga. reflexivity. }
  destruct (filter (fun g => negb (is_hom g)) gs); [destruct Hin|cbn; lia].
Qed.
Print Assumptions C52_homogenized_refuted.

(** If there are projective groups and the target is patched, so that there is one function less for each
    such group, no index gives a point: the linear system is not square. *)
Theorem C52_projective_patched_refuted : forall (F : fld) (pick : list F -> nat) cf degs (gs : list group)
  homogenized fuel index,
  (length degs + length (filter is_hom gs) = num_natural_variables gs)%nat -> filter is_hom gs <> [] ->
  forall x, mhom_start_point pick cf degs gs homogenized fuel index <> Value x.
Proof.
  intros F pick cf degs gs hg fuel index Hsq Hh x E.
  destruct (point_inv pick cf degs gs hg fuel index x E) as [ps [p [sub [Ec Ex]]]].
  pose proof (choice_dims degs ps index p sub Ec) as Hl.
  unfold point_of_choice in Ex.
  destruct (Nat.eqb_spec (length p) (fold_right Nat.add 0 (column_sizes gs))%nat) as [Hl'|]; [|discriminate].
  unfold num_natural_variables in Hsq. destruct (filter is_hom gs); [congruence|]. cbn in Hsq. lia.
Qed.
Print Assumptions C52_projective_patched_refuted.

(** If the target is not patched there are as many functions as variables, and a point computed from
    independent factors has all coordinates of every projective group equal to zero, which is no point of
    a projective space. *)
Theorem C52_projective_refuted : forall (F : fld) (pick : list F -> nat) cf degs (gs : list group) sizes j p sub x,
  picks_nonzero pick -> column_sizes gs = sizes -> (j < length (filter is_hom gs))%nat ->
  (forall i l, nth (nth j sizes 0%nat) (cf i j l) f0 = @f0 F) ->
  choice degs sizes p sub -> regular (length degs) (matrix_of cf sizes p sub) ->
  point_of_choice pick cf sizes p sub = Value x ->
  forall k, (k < nth j sizes 0)%nat -> nth (offset sizes j + k) x f0 = @f0 F.
Proof.
  intros F pick cf degs gs sizes j p sub x Hp Es Hj Hcf [Hv [Hsl Hsb]] Hr E k Hk.
  destruct Hv as [Hlen [Hd _]].
  assert (Hcol : forall i, (i < length p)%nat -> (0 <= nth i p 0 < Z.of_nat (length sizes))%Z).
  { intros i Hi. destruct (nth_error degs i) as [r|] eqn:Er; [|apply nth_error_None in Er; lia].
    destruct (Hd i r (nth i p 0%Z) Er (nth_error_nth' p 0%Z Hi)) as [Hc _]. rewrite map_length in Hc. exact Hc. }
  apply (projective_zero pick cf Hp sizes p sub x j); try assumption.
  - rewrite <- Es. unfold column_sizes, columns. rewrite map_length, app_length. lia.
  - apply Forall_forall. intros c Hc. apply In_nth with (d := 0%Z) in Hc. destruct Hc as [i [Hi <-]]. apply Hcol. exact Hi.
  - intros i Hi. specialize (Hcol i Hi). lia.
  - rewrite Hlen. exact Hr.
Qed.
Print Assumptions C52_projective_refuted.

(** One group of one variable and one function of degree 2: factors 2 x + 4 and 3 x - 3. *)
Definition ex_cf (i j l : nat) : list QcF :=
  match l with O => [qc 2 1; qc 4 1] | _ => [qc 3 1; qc (-3) 1] end.

Example C52_hypotheses_met :
  start_choice [[2%Z]] [[0%Z]] 1 = Value ([0%Z], [1%Z])
  /\ solves (F := QcF) [1%nat] ex_cf [0%Z] [1%Z] [qc 1 1]
  /\ start_function (F := QcF) [1%nat] ex_cf [[2%Z]] 0 [qc 1 1] = @f0 QcF
  /\ total_points [[2%Z]] [[0%Z]] = 2%Z
  /\ general_position (F := QcF) [1%nat] ex_cf [[2%Z]].
Proof.
  split; [vm_compute; reflexivity|]. split.
  - split; [reflexivity|]. intros [|[|i]] c s Hc Hs; cbn in Hc, Hs; try discriminate; inversion Hc; inversion Hs; subst.
    vm_compute. reflexivity.
  - split; [vm_compute; reflexivity|]. split; [vm_compute; reflexivity|].
    intros p sub x Hp _ _ j k Hk. destruct j as [|[|j]]; cbn in Hk; try discriminate. inversion Hk; subst.
    rewrite count_occ_bound. cbn in Hp. rewrite Hp. reflexivity.
Qed.

(** Two variables in one group, functions x (x - 1) and y - 1: the start points are (0,1) and (1,1). *)
Add Field ex2_field : (f_th QcF).
Definition ex2_cf (i j l : nat) : list QcF :=
  match i, l with
  | O, O => [qc 1 1; qc 0 1; qc 0 1]
  | O, _ => [qc 1 1; qc 0 1; qc (-1) 1]
  | _, _ => [qc 0 1; qc 1 1; qc (-1) 1]
  end.

Lemma ex2_first : forall a b : QcF, fadd (fmul f1 a) (fadd (fmul f0 b) f0) = a.
Proof. intros. ring. Qed.
Lemma ex2_second : forall a b : QcF, fadd (fmul f0 a) (fadd (fmul f1 b) f0) = b.
Proof. intros. ring. Qed.
Lemma ex2_apart : forall a b : QcF,
  factor_value [2%nat] ex2_cf 0 0 0 [a; b] = f0 -> factor_value [2%nat] ex2_cf 0 0 1 [a; b] = f0 -> False.
Proof.
  intros a b H0 H1. unfold factor_value in *. cbn [seq map nth size_of offset firstn fold_right Nat.add fsum ex2_cf] in H0, H1.
  assert (Z0 : qc 0 1 = @f0 QcF) by (vm_compute; reflexivity).
  assert (O1 : qc 1 1 = @f1 QcF) by (vm_compute; reflexivity).
  assert (M1 : qc (-1) 1 = fopp (@f1 QcF)) by (vm_compute; reflexivity).
  unfold fsum in H0, H1. cbn [fold_right] in H0, H1.
  rewrite Z0, O1 in H0. rewrite Z0, O1, M1 in H1.
  apply (F_1_neq_0 (f_th QcF)).
  match type of H0 with ?u = _ => match type of H1 with ?v = _ => transitivity (fsub u v); [ring|] end end.
  rewrite H0, H1. ring.
Qed.

Example C52_points_met :
  let gs := [(AffineGroup, 2%Z)] in let degs := [[2%Z]; [1%Z]] in
  picks_nonzero (F := QcF) first_nonzero
  /\ independent ex2_cf degs (column_sizes gs) /\ general_position (column_sizes gs) ex2_cf degs
  /\ simple_zeros ex2_cf degs (column_sizes gs) /\ mhom_bezout degs gs = 2%Z
  /\ match mhom_start_point first_nonzero ex2_cf degs gs false 100 0 with Value x => map rq x = [0; 1]%Q | _ => False end
  /\ match mhom_start_point first_nonzero ex2_cf degs gs false 100 1 with Value x => map rq x = [1; 1]%Q | _ => False end.
Proof.
  cbv zeta. split; [apply first_nonzero_picks|]. split; [|split; [|split; [|split; [|split]]]].
  - intros p sub [Hv [Hl Hs]] y Hy Hk.
    destruct Hv as [Hp [Hd _]]. destruct p as [|c0 [|c1 [|c2 p]]]; try discriminate.
    destruct sub as [|s0 [|s1 [|s2 sub]]]; try discriminate.
    destruct y as [|a [|b [|c y]]]; try discriminate.
    destruct (Hd 0%nat [2%Z] c0 eq_refl eq_refl) as [H0 _]. cbn in H0. assert (c0 = 0%Z) by lia. subst c0.
    destruct (Hd 1%nat [1%Z] c1 eq_refl eq_refl) as [H1 _]. cbn in H1. assert (c1 = 0%Z) by lia. subst c1.
    pose proof (Hs 0%nat 0%Z s0 2%Z eq_refl eq_refl eq_refl) as B0.
    pose proof (Hs 1%nat 0%Z s1 1%Z eq_refl eq_refl eq_refl) as B1. assert (s1 = 0%Z) by lia. subst s1.
    assert (Hr0 : inner [qc 1 1; qc 0 1] [a; b] = @f0 QcF).
    { apply Hk. left. assert (s0 = 0 \/ s0 = 1)%Z as [->| ->] by lia; reflexivity. }
    assert (Hr1 : inner [qc 0 1; qc 1 1] [a; b] = @f0 QcF) by (apply Hk; right; left; reflexivity).
    cbn [inner] in Hr0, Hr1.
    assert (Z0 : qc 0 1 = @f0 QcF) by (vm_compute; reflexivity).
    assert (O1 : qc 1 1 = @f1 QcF) by (vm_compute; reflexivity).
    rewrite Z0, O1 in Hr0, Hr1.
    assert (Ea : a = @f0 QcF) by exact (eq_trans (eq_sym (ex2_first a b)) Hr0).
    assert (Eb : b = @f0 QcF) by exact (eq_trans (eq_sym (ex2_second a b)) Hr1).
    rewrite Ea, Eb. reflexivity.
  - intros p sub x Hp _ _ j k Hk. destruct j as [|[|j]]; cbn in Hk; try discriminate. inversion Hk; subst.
    rewrite count_occ_bound. cbn in Hp. rewrite Hp. cbn. lia.
  - intros x Hx _ i j l j' l' Hi Hj Hj' Hl Hl' Hf Hf'. cbn [column_sizes columns map length] in Hj, Hj'.
    cbn in Hj, Hj'. assert (j = 0%nat) by lia. assert (j' = 0%nat) by lia. subst j j'. split; [reflexivity|].
    destruct i as [|[|i]]; [| |cbn in Hi; lia]; cbn in Hl, Hl'; [|lia].
    destruct x as [|a [|b [|c x]]]; try discriminate.
    assert (l = 0 \/ l = 1)%nat as [->| ->] by lia; assert (l' = 0 \/ l' = 1)%nat as [->| ->] by lia; try reflexivity; exfalso.
    + exact (ex2_apart _ _ Hf Hf').
    + exact (ex2_apart _ _ Hf' Hf).
  - vm_compute. reflexivity.
  - vm_compute. reflexivity.
  - vm_compute. reflexivity.
Qed.

(** The same groups homogenized: three variables, two coordinates.  One projective group of two variables
    and two linear functions, a and b: the point is (0, 0). *)
Definition ex3_cf (i j l : nat) : list QcF :=
  match i with O => [qc 1 1; qc 0 1; qc 0 1] | _ => [qc 0 1; qc 1 1; qc 0 1] end.

Example C52_refutations_met :
  match mhom_start_point first_nonzero ex2_cf [[2%Z]; [1%Z]] [(AffineGroup, 2%Z)] true 100 1 with
  | Value x => map rq x = [1; 1]%Q | _ => False end
  /\ num_variables [(AffineGroup, 2%Z)] true = 3%nat
  /\ match mhom_start_point first_nonzero ex3_cf [[1%Z]; [1%Z]] [(HomGroup, 2%Z)] false 100 0 with
     | Value x => map rq x = [0; 0]%Q | _ => False end
  /\ mhom_start_point first_nonzero ex2_cf [[2%Z]] [(AffineGroup, 1%Z)] false 100 0 = UB.
Proof. repeat split; vm_compute; reflexivity. Qed.
