(** The start points of a multihomogeneous start system, from the index to the vector of coordinates.
    Models core/src/system/start/mhom.cpp:341-432 on top of the numbering of MHom.v. *)
From Coq Require Import List Arith Lia ZArith Bool Ring Field.
From Verif Require Import Base StartIndex MHom Lu.
Import ListNotations.

(** ** Model *)

Section Points.
  Context {F : fld}.
  Local Open Scope fld_scope.
  Add Field mhom_point_field : (f_th F).

  (** pivot choice of the linear solver (Lu.v) *)
  Variable pick : list F -> nat.
  (** [cf i j l]: coefficients of factor [l] of entry (i,j) of the matrix of linear products
      (linear_product.hpp:410-422) *)
  Variable cf : nat -> nat -> nat -> list F.

  (** mhom.cpp:152-155: numbers of variables of the groups, in the order of the columns *)
  Definition column_sizes (gs : list group) : list nat := map (fun g => Z.to_nat (snd g)) (columns gs).

  (** system.cpp:171-189 without ungrouped variables: the natural variables, and with the homogenizing
      variables, one for each affine group of a homogenized system *)
  Definition num_natural_variables (gs : list group) : nat := fold_right Nat.add 0%nat (column_sizes gs).
  Definition num_variables (gs : list group) (homogenized : bool) : nat :=
    (num_natural_variables gs + if homogenized then length (filter (fun g => negb (is_hom g)) gs) else 0)%nat.

  (** mhom.cpp:386-404: the rows of A and the entries of b *)
  Definition matrix_of (sizes : list nat) (p sub : list Z) : list (list F) :=
    map (fun i => row_A sizes cf i (Z.to_nat (nth i p 0%Z)) (Z.to_nat (nth i sub 0%Z))) (seq 0 (length p)).
  Definition rhs_of (sizes : list nat) (p sub : list Z) : list F :=
    map (fun i => entry_b sizes cf i (Z.to_nat (nth i p 0%Z)) (Z.to_nat (nth i sub 0%Z))) (seq 0 (length p)).

  (** mhom.cpp:386-410.  A is not square: Eigen's assertion for partialPivLu fails, taken as undefined
      behaviour.  The last two statements read var_groups_[0][0], var_groups_[0][1] and the first two
      entries of the point, without a check. *)
  Definition point_of_choice (sizes : list nat) (p sub : list Z) : outcome (list F) :=
    if (length p =? fold_right Nat.add 0 sizes)%nat then
      let x := lu_solve pick (matrix_of sizes p sub) (rhs_of sizes p sub) in
      match sizes with
      | s0 :: _ => if ((2 <=? s0) && (2 <=? length x))%nat then Value x else UB
      | [] => UB
      end
    else UB.

  (** mhom.cpp:40-62 and 341-432: StartPoint(index) of the start system made for a target with variable
      groups [gs] and degree matrix [degs].  [fuel] bounds the enumeration of partitions. *)
  Definition mhom_start_point (degs : list (list Z)) (gs : list group) (homogenized : bool) (fuel : nat)
    (index : Z) : outcome (list F) :=
    match mrun degs (length gs) fuel (minit (length degs) (group_sizes_fifo gs homogenized)) with
    | Done s =>
        match start_choice degs (found s) index with
        | Value (p, sub) => point_of_choice (column_sizes gs) p sub
        | Throws => Throws
        | UB => UB
        end
    | _ => UB
    end.

  (** ** Specification *)

  (** a choice of one factor for each function, no group being chosen more often than it has variables *)
  Definition choice (degs : list (list Z)) (sizes : list nat) (p sub : list Z) : Prop :=
    valid_partition degs (map Z.of_nat sizes) p /\ length sub = length p
    /\ forall i c s d, nth_error p i = Some c -> nth_error sub i = Some s ->
         nth_error (nth i degs []) (Z.to_nat c) = Some d -> (0 <= s < d)%Z.

  (** the linear parts of the factors of every choice are independent *)
  Definition independent (degs : list (list Z)) (sizes : list nat) : Prop :=
    forall p sub, choice degs sizes p sub -> regular (length degs) (matrix_of sizes p sub).

  (** no zero of the start system makes two factors of one function vanish *)
  Definition simple_zeros (degs : list (list Z)) (sizes : list nat) : Prop :=
    forall x, length x = fold_right Nat.add 0%nat sizes ->
      (forall i, (i < length degs)%nat -> start_function sizes cf degs i x = 0) ->
      forall i j l j' l',
        (i < length degs)%nat -> (j < length sizes)%nat -> (j' < length sizes)%nat ->
        (Z.of_nat l < nth j (nth i degs []) 0)%Z -> (Z.of_nat l' < nth j' (nth i degs []) 0)%Z ->
        factor_value sizes cf i j l x = 0 -> factor_value sizes cf i j' l' x = 0 -> j = j' /\ l = l'.

  (** ** Proofs *)

  Lemma dot_inner : forall a x : list F, dot a x = inner a x.
  Proof.
    unfold dot, fsum. induction a as [|p a IH]; intros [|q x]; cbn; try reflexivity. rewrite <- IH. reflexivity.
  Qed.

  Lemma matrix_length : forall sizes p sub, length (matrix_of sizes p sub) = length p.
  Proof. intros. unfold matrix_of. rewrite map_length, seq_length. reflexivity. Qed.
  Lemma rhs_length : forall sizes p sub, length (rhs_of sizes p sub) = length p.
  Proof. intros. unfold rhs_of. rewrite map_length, seq_length. reflexivity. Qed.
  Lemma row_length : forall sizes i j l, length (row_A sizes cf i j l) = fold_right Nat.add 0%nat sizes.
  Proof. intros. unfold row_A. rewrite map_length, seq_length. reflexivity. Qed.
  Lemma matrix_shape : forall sizes p sub n, fold_right Nat.add 0%nat sizes = n ->
    Forall (fun r => length r = n) (matrix_of sizes p sub).
  Proof.
    intros sizes p sub n <-. apply Forall_forall. intros r Hr. unfold matrix_of in Hr.
    apply in_map_iff in Hr. destruct Hr as [i [<- _]]. apply row_length.
  Qed.

  Lemma nth_error_map_seq : forall (A : Type) (f : nat -> A) n i, (i < n)%nat ->
    nth_error (map f (seq 0 n)) i = Some (f i).
  Proof.
    intros A f n i H. rewrite nth_error_map.
    rewrite (nth_error_nth' (seq 0 n) 0%nat) by (rewrite seq_length; exact H). rewrite seq_nth by exact H. reflexivity.
  Qed.

  Lemma inner_solves : forall sizes p sub x, length sub = length p ->
    length x = fold_right Nat.add 0%nat sizes ->
    ((forall i r c, nth_error (matrix_of sizes p sub) i = Some r -> nth_error (rhs_of sizes p sub) i = Some c ->
        inner r x = c) <-> solves sizes cf p sub x).
  Proof.
    intros sizes p sub x Hl Hx. split.
    - intro H. split; [exact Hx|]. intros i c s Hc Hs. rewrite dot_inner.
      assert (Hi : (i < length p)%nat) by (apply nth_error_Some; congruence).
      pose proof (H i _ _ (nth_error_map_seq _ _ _ i Hi) (nth_error_map_seq _ _ _ i Hi)) as E.
      rewrite (nth_error_nth _ _ _ Hc), (nth_error_nth _ _ _ Hs) in E. exact E.
    - intros [_ H] i r c Hr Hc.
      assert (Hi : (i < length p)%nat).
      { rewrite <- (matrix_length sizes p sub). apply nth_error_Some. congruence. }
      unfold matrix_of in Hr. unfold rhs_of in Hc. rewrite nth_error_map_seq in Hr, Hc by exact Hi.
      inversion Hr; inversion Hc; subst. rewrite <- dot_inner.
      apply H; apply nth_error_nth'; lia.
  Qed.

  Lemma choice_of_legal : forall degs sizes ps p sub, all_valid degs (map Z.of_nat sizes) ps ->
    legal_choice degs ps p sub -> choice degs sizes p sub.
  Proof.
    intros degs sizes ps p sub Hv [Hin [dims [Ed Hs]]]. pose proof (Hv p Hin) as Hvp.
    split; [exact Hvp|].
    assert (G : length sub = length p /\ forall i c s d, nth_error p i = Some c -> nth_error sub i = Some s ->
               nth_error (nth i degs []) (Z.to_nat c) = Some d -> (0 <= s < d)%Z).
    { clear Hv Hin Hvp. revert p dims sub Ed Hs.
      induction degs as [|r degs IH]; intros [|c0 p] dims sub Ed Hs; cbn in Ed; try discriminate.
      - inversion Ed; subst. inversion Hs; subst. split; [reflexivity|]. intros [|i] c s d H; discriminate.
      - destruct (nth_error r (Z.to_nat c0)) as [d0|] eqn:E0; [|discriminate].
        destruct (dims_of degs p) as [k|] eqn:Ek; [|discriminate]. inversion Ed; subst.
        inversion Hs as [|? ? ? sub' Hb Hs']; subst. destruct (IH p k sub' Ek Hs') as [Hl Hq].
        split; [cbn; congruence|]. intros [|i] c s d Hc Hs0 Hd; cbn in Hc, Hs0, Hd.
        + inversion Hc; inversion Hs0; subst. rewrite E0 in Hd. inversion Hd; subst. exact Hb.
        + apply (Hq i c s d); assumption. }
    exact G.
  Qed.

  (** the point computed for a choice is the one which solves its linear system *)
  Lemma point_of_choice_ok : picks_nonzero pick -> forall sizes s0 rest p sub,
    sizes = s0 :: rest -> (2 <= s0)%nat -> length p = fold_right Nat.add 0%nat sizes -> length sub = length p ->
    regular (length p) (matrix_of sizes p sub) ->
    exists x, point_of_choice sizes p sub = Value x /\ solves sizes cf p sub x
      /\ forall y, solves sizes cf p sub y -> y = x.
  Proof.
    intros Hp sizes s0 rest p sub Es H2 Hl Hsub Hr.
    destruct (lu_solve_ok pick Hp (length p) (matrix_of sizes p sub) (rhs_of sizes p sub)
                (matrix_length _ _ _) (rhs_length _ _ _) (matrix_shape _ _ _ _ (eq_sym Hl)) Hr) as [Hx Hs].
    set (x := lu_solve pick (matrix_of sizes p sub) (rhs_of sizes p sub)) in *.
    exists x. split; [|split].
    - unfold point_of_choice. rewrite Hl, Nat.eqb_refl. fold x. rewrite Hx. rewrite Es.
      destruct (Nat.leb_spec 2 s0); [|lia]. rewrite Hl, Es. cbn [fold_right].
      destruct (Nat.leb_spec 2 (s0 + fold_right Nat.add 0 rest)%nat); [reflexivity|lia].
    - apply inner_solves; [assumption|lia|exact Hs].
    - intros y Hy. apply (regular_unique (length p) (matrix_of sizes p sub)); try assumption.
      + apply matrix_shape. lia.
      + destruct Hy as [Hy _]. unfold nvars in Hy. lia.
      + intros r Hin. apply In_nth_error in Hin. destruct Hin as [i Hi].
        assert (Hlt : (i < length p)%nat).
        { rewrite <- (matrix_length sizes p sub). apply nth_error_Some. congruence. }
        assert (Hc : exists c, nth_error (rhs_of sizes p sub) i = Some c).
        { destruct (nth_error (rhs_of sizes p sub) i) eqn:E; [eauto|]. apply nth_error_None in E. rewrite rhs_length in E. lia. }
        destruct Hc as [c Hc]. rewrite (Hs i r c Hi Hc).
        apply (proj2 (inner_solves sizes p sub y Hsub (proj1 Hy)) Hy i r c Hi Hc).
  Qed.

  (** affine groups which were not homogenized: what the code enumerates *)
  Lemma affine_sizes : forall gs : list group, Forall (fun g => fst g = AffineGroup /\ (0 <= snd g)%Z) gs ->
    group_sizes_fifo gs false = map Z.of_nat (column_sizes gs) /\ length (column_sizes gs) = length gs.
  Proof.
    intros gs H.
    assert (Ha : Forall (fun g => fst g = AffineGroup) gs)
      by (apply Forall_impl with (2 := H); intros g [H' _]; exact H').
    unfold column_sizes. rewrite (columns_affine gs Ha), map_length, map_map. split; [|reflexivity].
    unfold group_sizes_fifo. apply map_ext_in. intros g Hg. rewrite Forall_forall in H.
    destruct (H g Hg) as [E E']. rewrite E. lia.
  Qed.

  Lemma sum_sizes : forall l : list nat, sumZ (map Z.of_nat l) = Z.of_nat (fold_right Nat.add 0%nat l).
  Proof. unfold sumZ. induction l as [|a l IH]; cbn [map fold_right]; [reflexivity|]. rewrite IH. lia. Qed.

  Lemma affine_points : forall degs (gs : list group),
    Forall (fun g => fst g = AffineGroup /\ (0 <= snd g)%Z) gs -> degs <> [] ->
    Forall (fun r => length r = length gs) degs -> Forall (Forall (fun d => 0 <= d)%Z) degs ->
    num_natural_variables gs = length degs ->
    exists fuel ps, (forall p, In p ps <-> valid_partition degs (map Z.of_nat (column_sizes gs)) p) /\ NoDup ps
      /\ total_points degs ps = mhom_bezout degs gs
      /\ forall fuel' index, (fuel <= fuel')%nat ->
           mhom_start_point degs gs false fuel' index
           = match start_choice degs ps index with
             | Value (p, sub) => point_of_choice (column_sizes gs) p sub
             | Throws => Throws
             | UB => UB
             end.
  Proof.
    intros degs gs Hg Hne Hw Hpos Hsq. destruct (affine_sizes gs Hg) as [Es Hlen].
    assert (Hnn : nonneg (map Z.of_nat (column_sizes gs))).
    { unfold nonneg. rewrite Forall_map. apply Forall_forall. intros a _. lia. }
    assert (Hwf : well_formed degs (map Z.of_nat (column_sizes gs))).
    { split; [assumption|]. split; [|exact Hnn]. rewrite map_length, Hlen. exact Hw. }
    destruct (run_enumerates _ _ Hwf) as [fuel [s [_ [Ef Hr]]]].
    exists fuel, (found s). rewrite Ef.
    assert (Hw' : Forall (fun r => length r = length (map Z.of_nat (column_sizes gs))) degs)
      by (rewrite map_length, Hlen; exact Hw).
    split; [intro p; apply enum_valid; assumption|]. split; [apply enum_nodup|]. split.
    - unfold mhom_bezout, total_points. rewrite (enum_bezout degs _ Hnn Hw').
      + f_equal. assert (Ha : Forall (fun g => fst g = AffineGroup) gs)
          by (apply Forall_impl with (2 := Hg); intros g [H' _]; exact H').
        rewrite <- Es. rewrite (columns_affine gs Ha). apply sizes_affine. exact Ha.
      + rewrite sum_sizes. unfold num_natural_variables in Hsq. rewrite Hsq. reflexivity.
    - intros fuel' index Hf. unfold mhom_start_point. rewrite Es.
      rewrite map_length, Hlen in Hr. rewrite (Hr fuel' Hf), Ef. reflexivity.
  Qed.

  (** the coordinates of a projective group are zero: its rows have right hand side zero *)
  Lemma projective_zero : picks_nonzero pick -> forall sizes p sub x j,
    (forall i l, nth (nth j sizes 0%nat) (cf i j l) 0 = 0) -> (j < length sizes)%nat ->
    Forall (fun c => 0 <= c)%Z p -> length sub = length p ->
    (forall i, (i < length p)%nat -> (Z.to_nat (nth i p 0%Z) < length sizes)%nat) ->
    regular (length p) (matrix_of sizes p sub) -> point_of_choice sizes p sub = Value x ->
    forall k, (k < nth j sizes 0)%nat -> nth (offset sizes j + k) x 0 = 0.
  Proof.
    intros Hp sizes p sub x j Hcf Hj Hnn Hsub Hlt Hr E k Hk.
    unfold point_of_choice in E.
    destruct (Nat.eqb_spec (length p) (fold_right Nat.add 0 sizes)%nat) as [Hl|]; [|discriminate].
    set (x0 := lu_solve pick (matrix_of sizes p sub) (rhs_of sizes p sub)) in *.
    assert (Ex : x0 = x).
    { destruct sizes as [|s0 rest]; [discriminate|]. destruct ((2 <=? s0) && (2 <=? length x0))%nat; [|discriminate]. congruence. }
    destruct (lu_solve_ok pick Hp (length p) (matrix_of sizes p sub) (rhs_of sizes p sub)
                (matrix_length _ _ _) (rhs_length _ _ _) (matrix_shape _ _ _ _ (eq_sym Hl)) Hr) as [Hx Hs].
    fold x0 in Hx, Hs. rewrite Ex in Hx, Hs. clear E Ex x0.
    set (inj v := ((offset sizes j <=? v) && (v <? offset sizes j + nth j sizes 0))%nat).
    set (y := map (fun v => if inj v then nth v x 0 else 0) (seq 0 (length x))).
    assert (Hyl : length y = length p) by (unfold y; rewrite map_length, seq_length; exact Hx).
    assert (Hy : y = repeat 0 (length p)).
    { apply Hr; [exact Hyl|]. intros r Hin. apply In_nth_error in Hin. destruct Hin as [i Hi].
      assert (Hli : (i < length p)%nat) by (rewrite <- (matrix_length sizes p sub); apply nth_error_Some; congruence).
      pose proof Hi as Hi'. unfold matrix_of in Hi'. rewrite nth_error_map_seq in Hi' by exact Hli.
      assert (Er : row_A sizes cf i (Z.to_nat (nth i p 0%Z)) (Z.to_nat (nth i sub 0%Z)) = r) by congruence.
      set (c := Z.to_nat (nth i p 0%Z)) in *. set (l := Z.to_nat (nth i sub 0%Z)) in *.
      assert (Ey : inner r y = fsum (map (fun v => nth v r 0 * nth v y 0) (seq 0 (length x)))).
      { rewrite <- dot_inner. rewrite <- Er at 1. unfold row_A.
        replace (nvars sizes) with (length y) by (unfold nvars; lia). rewrite (dot_map_seq _ y 0).
        replace (length y) with (length x) by lia. f_equal. apply map_ext_in. intros v Hv. apply in_seq in Hv.
        rewrite Nat.sub_0_r. f_equal. rewrite <- Er. unfold row_A.
        symmetry. apply nth_error_nth. rewrite nth_error_map_seq by (unfold nvars; lia). reflexivity. }
      assert (Exx : inner r x = fsum (map (fun v => nth v r 0 * nth v x 0) (seq 0 (length x)))).
      { rewrite <- dot_inner. rewrite <- Er at 1. unfold row_A.
        replace (nvars sizes) with (length x) by (unfold nvars; lia). rewrite (dot_map_seq _ x 0).
        f_equal. apply map_ext_in. intros v Hv. apply in_seq in Hv.
        rewrite Nat.sub_0_r. f_equal. rewrite <- Er. unfold row_A.
        symmetry. apply nth_error_nth. rewrite nth_error_map_seq by (unfold nvars; lia). reflexivity. }
      assert (Hrv : forall v, (v < length x)%nat ->
                nth v r 0 = if ((offset sizes c <=? v) && (v <? offset sizes c + nth c sizes 0))%nat
                            then nth (v - offset sizes c) (cf i c l) 0 else 0).
      { intros v Hv. rewrite <- Er. unfold row_A. apply nth_error_nth. rewrite nth_error_map_seq by (unfold nvars; lia). reflexivity. }
      assert (Hyv : forall v, (v < length x)%nat -> nth v y 0 = if inj v then nth v x 0 else 0).
      { intros v Hv. unfold y. apply nth_error_nth. rewrite nth_error_map_seq by exact Hv. reflexivity. }
      destruct (Nat.eq_dec c j) as [Ecj|Ncj].
      - rewrite Ey. rewrite (map_ext_in _ (fun v => nth v r 0 * nth v x 0)).
        + rewrite <- Exx.
          assert (Hc : nth_error (rhs_of sizes p sub) i = Some (entry_b sizes cf i c l)).
          { unfold rhs_of. rewrite nth_error_map_seq by exact Hli. reflexivity. }
          rewrite (Hs i r _ Hi Hc). unfold entry_b. rewrite Ecj. unfold size_of. rewrite Hcf. ring.
        + intros v Hv. apply in_seq in Hv. rewrite Hyv by lia. unfold inj. rewrite Hrv by lia. rewrite Ecj.
          destruct ((offset sizes j <=? v) && (v <? offset sizes j + nth j sizes 0))%nat; ring.
      - rewrite Ey. apply fsum_zero. intros v Hv. apply in_seq in Hv.
        rewrite Hyv, Hrv by lia. unfold inj.
        destruct ((offset sizes c <=? v) && (v <? offset sizes c + nth c sizes 0))%nat eqn:E1; [|ring].
        destruct ((offset sizes j <=? v) && (v <? offset sizes j + nth j sizes 0))%nat eqn:E2; [|ring].
        exfalso. apply andb_true_iff in E1, E2. rewrite Nat.leb_le, Nat.ltb_lt in E1, E2.
        assert (Hdis : forall a b, (a < b)%nat -> (b < length sizes)%nat -> (offset sizes a + nth a sizes 0 <= offset sizes b)%nat).
        { clear. unfold offset. induction sizes as [|s0 rest IH]; intros a b Hab Hb; [cbn in Hb; lia|].
          destruct b as [|b]; [lia|]. destruct a as [|a]; cbn [firstn fold_right nth]; [lia|].
          cbn [length] in Hb. specialize (IH a b ltac:(lia) ltac:(lia)). lia. }
        specialize (Hlt i Hli). fold c in Hlt.
        destruct (Nat.lt_ge_cases c j); [pose proof (Hdis c j ltac:(lia) ltac:(lia))|pose proof (Hdis j c ltac:(lia) ltac:(lia))]; lia. }
    pose proof (offset_bound sizes j Hj) as Hb. unfold size_of, nvars in Hb.
    assert (E1 : nth (offset sizes j + k) y 0 = 0) by (rewrite Hy; apply nth_repeat).
    transitivity (nth (offset sizes j + k) y 0); [|exact E1]. unfold y. symmetry. apply nth_error_nth. rewrite nth_error_map_seq by lia.
    unfold inj. destruct (Nat.leb_spec (offset sizes j) (offset sizes j + k)%nat); [|lia].
    destruct (Nat.ltb_spec (offset sizes j + k)%nat (offset sizes j + nth j sizes 0)%nat); [reflexivity|lia].
  Qed.

  Lemma point_inv : forall degs gs homogenized fuel index x,
    mhom_start_point degs gs homogenized fuel index = Value x ->
    exists ps p sub, start_choice degs ps index = Value (p, sub) /\ point_of_choice (column_sizes gs) p sub = Value x.
  Proof.
    intros degs gs hg fuel index x E. unfold mhom_start_point in E.
    destruct (mrun degs (length gs) fuel (minit (length degs) (group_sizes_fifo gs hg))) as [s| |]; try discriminate.
    destruct (start_choice degs (found s) index) as [[p sub]| |] eqn:Ec; try discriminate.
    exists (found s), p, sub. split; assumption.
  Qed.

  Lemma choice_dims : forall degs ps index p sub, start_choice degs ps index = Value (p, sub) ->
    length p = length degs.
  Proof.
    intros degs ps index p sub E. unfold start_choice in E. destruct ps as [|p0 ps]; [discriminate|].
    destruct (find_partition degs (p0 :: ps) 0 index) as [[q i]| |]; try discriminate.
    destruct (dims_of degs q) as [dims|] eqn:Ed; [|discriminate].
    destruct (index_to_subscript i dims); try discriminate. inversion E; subst.
    clear - Ed. revert p dims Ed. induction degs as [|r degs IH]; intros [|c p] dims Ed; cbn in Ed; try discriminate; [reflexivity|].
    destruct (nth_error r (Z.to_nat c)); [|discriminate]. destruct (dims_of degs p) eqn:E; [|discriminate].
    cbn. f_equal. eapply IH. exact E.
  Qed.

  Lemma lu_length : forall A b, length (lu_solve pick A b) = length A.
  Proof.
    intros A b. unfold lu_solve. generalize (combine A b). induction (length A) as [|n IH]; intro rows; [reflexivity|].
    cbn [eliminate length]. rewrite IH. reflexivity.
  Qed.
End Points.
