(** The total degree start system.
    Models core/src/system/start/total_degree.cpp. *)
From Coq Require Import List Arith Lia ZArith Bool Ring Field Reals Lra.
From Verif Require Import Base Poly StartIndex Patch ComplexField.
Import ListNotations.
Local Open Scope fld_scope.

Add Field CFf : (f_th CF).
Local Opaque CF.

(** total_degree.cpp:61-67 (unsigned long long arithmetic) *)
Definition num_start_points (degrees : list nat) : Z :=
  fold_left (fun n d => wrap64 (n * Z.of_nat d)) degrees 1%Z.

(** a natural variable of the target is in its single affine group or ungrouped (the constructor's
    checks, total_degree.cpp:137-153, exclude hom groups but not ungrouped variables) *)
Inductive kind := Affine | Ungrouped.

(** what the constructor copies from the target, total_degree.cpp:37-50: the natural variables in
    their order, the degrees and random values (one per function), whether there is a homogenizing
    variable, and the patch. *)
Record structure := mkStructure {
  kinds : list kind;
  degrees : list nat;
  randoms : list CF;
  homogenized : bool;
  patch_of : option (patch (F := CF))
}.

(** total_degree.cpp:86 and 115-121: one coordinate *)
Definition coordinate (d : nat) (index : Z) (r : CF) : CF := unit_root d (Z.to_nat index) * croot d r.

(** total_degree.cpp:85-86 / 113-122: the loop over the natural variables.  Reading past the end of
    one of the vectors is undefined behaviour ([None]). *)
Fixpoint coordinates (nvars : list kind) (indices : list Z) (ds : list nat) (rs : list CF) : option (list CF) :=
  match nvars with
  | [] => Some []
  | _ :: nv =>
      match indices, ds, rs with
      | i :: is', d :: ds', r :: rs' =>
          match coordinates nv is' ds' rs' with
          | None => None
          | Some l => Some (coordinate d i r :: l)
          end
      | _, _, _ => None
      end
  end.

(** total_degree.cpp:71-92 / 95-128.  The vector has NumVariables() entries; entry 0 is set to 1 and
    the others shifted only if the system is patched.  Leaving an entry unset, writing out of range, or
    dividing by zero when rescaling is [UB]. *)
Definition start_point (s : structure) (index : Z) : outcome (list CF) :=
  match index_to_subscript index (map Z.of_nat (degrees s)) with
  | Throws => Throws
  | UB => UB
  | Value indices =>
      match coordinates (kinds s) indices (degrees s) (randoms s) with
      | None => UB
      | Some l =>
          match patch_of s, homogenized s with
          | None, false => Value l
          | Some p, true =>
              match rescale p (1 :: l) with None => UB | Some y => Value y end
          | _, _ => UB
          end
      end
  end.

(** the values of the variables of the affine group, picked from a point in variable order *)
Fixpoint affine_values (ks : list kind) (x : list CF) : list CF :=
  match ks, x with
  | Affine :: k', a :: x' => a :: affine_values k' x'
  | Ungrouped :: k', _ :: x' => affine_values k' x'
  | _, _ => []
  end.

(** total_degree.cpp:170-176: x^d - r for each variable of the affine group *)
Fixpoint function_values (xs : list CF) (ds : list nat) (rs : list CF) : list CF :=
  match xs, ds, rs with
  | x :: xs', d :: ds', r :: rs' => (fpow x d - r) :: function_values xs' ds' rs'
  | _, _, _ => []
  end.

(** the same after Homogenize (total_degree.cpp:45-46): the constant term is multiplied by the d-th
    power of the homogenizing variable *)
Fixpoint hom_function_values (h : CF) (xs : list CF) (ds : list nat) (rs : list CF) : list CF :=
  match xs, ds, rs with
  | x :: xs', d :: ds', r :: rs' => (fpow x d - r * fpow h d) :: hom_function_values h xs' ds' rs'
  | _, _, _ => []
  end.

(** values of the natural functions of the start system at a point in variable order *)
Definition start_system_values (s : structure) (x : list CF) : list CF :=
  if homogenized s then
    match x with
    | h :: x' => hom_function_values h (affine_values (kinds s) x') (degrees s) (randoms s)
    | [] => []
    end
  else function_values (affine_values (kinds s) x) (degrees s) (randoms s).

(** ** Specification *)

(** the target has one affine group and nothing else, one function per variable, positive degrees *)
Definition plain (s : structure) : Prop :=
  kinds s <> [] /\ Forall (fun k => k = Affine) (kinds s) /\
  length (degrees s) = length (kinds s) /\ length (randoms s) = length (kinds s) /\
  Forall (fun d => 1 <= d)%nat (degrees s).

(** the Bezout number *)
Definition bezout (s : structure) : Z := num_cells (map Z.of_nat (degrees s)).

Definition all_zero (l : list CF) : Prop := Forall (fun v => v = 0) l.

(** ** Lemmas *)

Lemma num_start_points_ok : forall ds,
  Forall (fun d => 1 <= d)%nat ds -> (num_cells (map Z.of_nat ds) < 2 ^ 64)%Z ->
  num_start_points ds = num_cells (map Z.of_nat ds).
Proof.
  unfold num_start_points. intros ds Hd Hlt.
  assert (G : forall ds k, Forall (fun d => 1 <= d)%nat ds -> (1 <= k)%Z ->
     (k * num_cells (map Z.of_nat ds) < 2 ^ 64)%Z ->
     fold_left (fun n d => wrap64 (n * Z.of_nat d)) ds k = (k * num_cells (map Z.of_nat ds))%Z).
  { clear. induction ds as [|d ds IH]; intros k Hd Hk Hlt.
    - unfold num_cells; cbn. lia.
    - inversion Hd; subst. unfold num_cells in *. cbn [map fold_right fold_left] in *.
      assert (1 <= fold_right Z.mul 1 (map Z.of_nat ds))%Z.
      { apply num_cells_pos. clear - H2. induction H2; cbn; constructor; [lia|assumption]. }
      rewrite wrap64_small by nia.
      rewrite IH; [lia|assumption|nia|]. nia. }
  rewrite G; [lia|assumption|lia|lia].
Qed.

Lemma dims_pos : forall ds, Forall (fun d => 1 <= d)%nat ds -> Forall (fun d => 1 <= d)%Z (map Z.of_nat ds).
Proof. induction 1; cbn; constructor; [lia|assumption]. Qed.

Lemma coordinates_ok : forall ks is' ds rs,
  length is' = length ks -> length ds = length ks -> length rs = length ks ->
  exists l, coordinates ks is' ds rs = Some l /\ length l = length ks.
Proof.
  induction ks as [|k ks IH]; intros [|i is'] [|d ds] [|r rs] H1 H2 H3; try discriminate; cbn.
  - eexists; split; reflexivity.
  - cbn in *. destruct (IH is' ds rs) as [l [E El]]; try lia. rewrite E. eexists; split; [reflexivity|]. cbn; lia.
Qed.

Lemma coordinate_pow : forall d i r, (1 <= d)%nat -> fpow (coordinate d i r) d = r.
Proof.
  intros. unfold coordinate. rewrite fpow_mul_base, unit_root_pow, croot_pow by assumption. ring.
Qed.

Lemma coordinates_zero : forall ks is' ds rs l,
  Forall (fun k => k = Affine) ks -> Forall (fun d => 1 <= d)%nat ds ->
  coordinates ks is' ds rs = Some l -> affine_values ks l = l /\
  Forall2 (fun x dr => fpow x (fst dr) = snd dr) l (combine (firstn (length ks) ds) (firstn (length ks) rs)).
Proof.
  induction ks as [|k ks IH]; intros is' ds rs l Hk Hd H; cbn in H.
  - inversion H; subst. split; [reflexivity|constructor].
  - destruct is' as [|i is']; [discriminate|]. destruct ds as [|d ds]; [discriminate|].
    destruct rs as [|r rs]; [discriminate|].
    destruct (coordinates ks is' ds rs) as [l'|] eqn:E; [|discriminate]. inversion H; subst.
    destruct (IH _ _ _ _ (Forall_inv_tail Hk) (Forall_inv_tail Hd) E) as [A B].
    pose proof (Forall_inv Hk); pose proof (Forall_inv Hd). cbn beta in *. subst k.
    cbn [affine_values length firstn combine]. split; [rewrite A; reflexivity|].
    constructor; [cbn [fst snd]; apply coordinate_pow; assumption|exact B].
Qed.

Lemma function_values_zero : forall xs ds rs,
  length ds = length xs -> length rs = length xs ->
  (all_zero (function_values xs ds rs) <->
   Forall2 (fun x dr => fpow x (fst dr) = snd dr) xs (combine ds rs)).
Proof.
  unfold all_zero. induction xs as [|x xs IH]; intros [|d ds] [|r rs] H1 H2; try discriminate; cbn.
  - split; constructor.
  - cbn in *. specialize (IH ds rs ltac:(lia) ltac:(lia)). split; intro H.
    + pose proof (Forall_inv H) as Ha. cbn beta in Ha.
      constructor; [|apply IH; exact (Forall_inv_tail H)].
      cbn. transitivity (fpow x d - r + r); [ring|]. rewrite Ha. ring.
    + inversion H as [|? ? ? ? Ha Hb]; subst.
      constructor; [|apply IH; exact Hb]. cbn [fst snd] in *. rewrite Ha. ring.
Qed.

Lemma function_values_length : forall xs ds rs,
  length ds = length xs -> length rs = length xs -> length (function_values xs ds rs) = length xs.
Proof.
  induction xs as [|x xs IH]; intros [|d ds] [|r rs] H1 H2; try discriminate; cbn in *; auto.
Qed.

(** the subscript of an in-range index *)
Lemma td_subscript : forall s index, plain s -> (bezout s < 2 ^ 64)%Z -> (0 <= index < bezout s)%Z ->
  exists sub l, index_to_subscript index (map Z.of_nat (degrees s)) = Value sub
    /\ legal_subscript (map Z.of_nat (degrees s)) sub
    /\ cell_position (map Z.of_nat (degrees s)) sub = index
    /\ coordinates (kinds s) sub (degrees s) (randoms s) = Some l
    /\ length l = length (kinds s).
Proof.
  intros s index [Hne [Hk [Hd [Hr Hp]]]] Hlt Hi.
  destruct (index_to_subscript_in_range (map Z.of_nat (degrees s)) index) as [sub [E [Hl Hc]]];
    try assumption.
  - intro H. apply map_eq_nil in H. rewrite H in Hd. cbn in Hd. destruct (kinds s); [congruence|discriminate].
  - apply dims_pos; assumption.
  - assert (Hls : length sub = length (kinds s)).
    { apply legal_length in Hl. rewrite map_length in Hl. lia. }
    destruct (coordinates_ok (kinds s) sub (degrees s) (randoms s) Hls Hd Hr) as [l [El Hll]].
    exists sub, l. auto.
Qed.

Lemma start_point_is_zero : forall s index, plain s -> homogenized s = false -> patch_of s = None ->
  (bezout s < 2 ^ 64)%Z -> (0 <= index < bezout s)%Z ->
  exists x, start_point s index = Value x /\ length x = length (kinds s)
            /\ length (start_system_values s x) = length (kinds s) /\ all_zero (start_system_values s x).
Proof.
  intros s index Hs Hh Hpn Hlt Hi. destruct (td_subscript s index Hs Hlt Hi) as [sub [l [E [_ [_ [El Hll]]]]]].
  destruct Hs as [Hne [Hk [Hd [Hr Hp]]]].
  exists l. unfold start_point, start_system_values. rewrite E, El, Hpn, Hh.
  destruct (coordinates_zero _ _ _ _ _ Hk Hp El) as [A B]. rewrite A.
  split; [reflexivity|]. split; [assumption|].
  split; [rewrite function_values_length; [assumption|lia|lia]|].
  apply function_values_zero; [lia|lia|].
  rewrite <- Hd in B at 1. rewrite <- Hr in B. rewrite !firstn_all in B. exact B.
Qed.

Lemma fmul_cancel_r : forall a b c : CF, c <> 0 -> a * c = b * c -> a = b.
Proof.
  intros a b c Hc E. transitivity (a * c / c); [field; exact Hc|]. rewrite E. field. exact Hc.
Qed.

Lemma coordinates_inj : forall ks ds rs s1 s2 l,
  length ds = length ks -> length rs = length ks ->
  Forall (fun r => r <> 0) rs ->
  legal_subscript (map Z.of_nat ds) s1 -> legal_subscript (map Z.of_nat ds) s2 ->
  coordinates ks s1 ds rs = Some l -> coordinates ks s2 ds rs = Some l -> s1 = s2.
Proof.
  unfold legal_subscript.
  induction ks as [|k ks IH]; intros [|d ds] [|r rs] s1 s2 l Hd Hr Hnz L1 L2 E1 E2; try discriminate.
  - inversion L1; inversion L2; reflexivity.
  - inversion L1 as [|? a ? s1' Ha L1']; subst. inversion L2 as [|? b ? s2' Hb L2']; subst.
    cbn in E1, E2.
    destruct (coordinates ks s1' ds rs) as [l1|] eqn:F1; [|discriminate].
    destruct (coordinates ks s2' ds rs) as [l2|] eqn:F2; [|discriminate].
    rewrite <- E1 in E2. clear E1.
    assert (E3 := f_equal (fun o => match o with Some (h :: _) => h | _ => 0 end) E2).
    assert (E4 := f_equal (fun o => match o with Some (_ :: t) => t | _ => [] end) E2).
    cbn beta iota in E3, E4. subst l2. clear E2.
    pose proof (Forall_inv Hnz) as Hr0. cbn beta in Hr0. apply Forall_inv_tail in Hnz.
    f_equal.
    + unfold coordinate in E3. apply fmul_cancel_r in E3; [|apply croot_neq0; [lia|assumption]].
      apply unit_root_inj in E3; lia.
    + eapply (IH ds rs s1' s2' l1); try eassumption; cbn in *; lia.
Qed.

Lemma start_points_distinct : forall s i j x, plain s -> homogenized s = false -> patch_of s = None ->
  Forall (fun r => r <> 0) (randoms s) ->
  (bezout s < 2 ^ 64)%Z -> (0 <= i < bezout s)%Z -> (0 <= j < bezout s)%Z ->
  start_point s i = Value x -> start_point s j = Value x -> i = j.
Proof.
  intros s i j x Hs Hh Hpn Hnz Hlt Hi Hj Ei Ej.
  destruct (td_subscript s i Hs Hlt Hi) as [s1 [l1 [E1 [L1 [C1 [F1 _]]]]]].
  destruct (td_subscript s j Hs Hlt Hj) as [s2 [l2 [E2 [L2 [C2 [F2 _]]]]]].
  unfold start_point in Ei, Ej. rewrite E1, F1, Hpn, Hh in Ei. rewrite E2, F2, Hpn, Hh in Ej.
  inversion Ei; inversion Ej; subst.
  destruct Hs as [Hne [Hk [Hd [Hr Hp]]]].
  assert (s1 = s2) by (eapply coordinates_inj; eassumption). subst. congruence.
Qed.

(** every solution of x^d = r is one of the coordinates *)
Lemma coordinate_complete : forall d r x, (1 <= d)%nat -> fpow x d = r ->
  exists i, (0 <= i < Z.of_nat d)%Z /\ coordinate d i r = x.
Proof.
  intros d r x Hd Hx.
  destruct (feq_dec r 0) as [E0|N0].
  - exists 0%Z. split; [lia|]. unfold coordinate, croot.
    destruct (C_dec r _) as [_|N]; [|contradiction].
    rewrite E0 in Hx. apply fpow_eq0 in Hx. rewrite Hx.
    rewrite CF_zero. ring.
  - set (L := map (fun k => coordinate d (Z.of_nat k) r) (seq 0 d)).
    assert (HL : NoDup L).
    { unfold L.
      assert (G : forall ks, NoDup ks -> (forall k, In k ks -> (k < d)%nat) ->
                  NoDup (map (fun k => coordinate d (Z.of_nat k) r) ks)).
      { induction ks as [|k ks IH]; intros Hn Hb; cbn; [constructor|].
        inversion Hn; subst. constructor.
        - intro Hin. apply in_map_iff in Hin. destruct Hin as [j [Ej Hj]].
          unfold coordinate in Ej. apply fmul_cancel_r in Ej; [|apply croot_neq0; assumption].
          rewrite !Nat2Z.id in Ej.
          apply unit_root_inj in Ej; [subst; contradiction|apply Hb; right; assumption|apply Hb; left; reflexivity].
        - apply IH; [assumption|]. intros k0 Hk0. apply Hb. right; assumption. }
      apply G; [apply seq_NoDup|]. intros k Hk. apply in_seq in Hk. lia. }
    destruct (in_dec (@feq_dec CF) x L) as [Hin|Hout].
    + unfold L in Hin. apply in_map_iff in Hin. destruct Hin as [k [Ek Hk]]. apply in_seq in Hk.
      exists (Z.of_nat k). split; [lia|assumption].
    + exfalso. assert (length (x :: L) <= d)%nat.
      { apply (pow_eq_at_most d r); [assumption|constructor; assumption|].
        intros a [Ha|Ha]; [subst; reflexivity|].
        unfold L in Ha. apply in_map_iff in Ha. destruct Ha as [k [Ek Hk]]. rewrite <- Ek.
        apply coordinate_pow. assumption. }
      cbn [length] in H. unfold L in H. rewrite map_length, seq_length in H. lia.
Qed.

Lemma coordinates_complete : forall ks ds rs x,
  length ds = length ks -> length rs = length ks -> Forall (fun d => 1 <= d)%nat ds ->
  length x = length ks ->
  Forall2 (fun x dr => fpow x (fst dr) = snd dr) x (combine ds rs) ->
  exists sub, legal_subscript (map Z.of_nat ds) sub /\ coordinates ks sub ds rs = Some x.
Proof.
  unfold legal_subscript.
  induction ks as [|k ks IH]; intros [|d ds] [|r rs] [|a x] Hd Hr Hp Hx H; try discriminate.
  - exists []. split; constructor.
  - inversion H as [|? ? ? ? Ha Hb]; subst. cbn [fst snd] in Ha.
    pose proof (Forall_inv Hp) as Hd1. cbn beta in Hd1. apply Forall_inv_tail in Hp. cbn in *.
    destruct (IH ds rs x ltac:(lia) ltac:(lia) Hp ltac:(lia) Hb) as [sub [Hl Hc]].
    destruct (coordinate_complete d r a Hd1 Ha) as [i [Hi Ei]].
    exists (i :: sub). split; [constructor; assumption|]. rewrite Hc, Ei. reflexivity.
Qed.

Lemma affine_values_id : forall ks x, Forall (fun k => k = Affine) ks -> length x = length ks ->
  affine_values ks x = x.
Proof.
  induction ks as [|k ks IH]; intros [|a x] H Hl; try discriminate; [reflexivity|].
  inversion H; subst. cbn. rewrite IH; [reflexivity|assumption|cbn in Hl; lia].
Qed.

Lemma start_points_complete : forall s x, plain s -> homogenized s = false -> patch_of s = None ->
  (bezout s < 2 ^ 64)%Z -> length x = length (kinds s) -> all_zero (start_system_values s x) ->
  exists index, (0 <= index < bezout s)%Z /\ start_point s index = Value x.
Proof.
  intros s x [Hne [Hk [Hd [Hr Hp]]]] Hh Hpn Hlt Hx Hz.
  unfold start_system_values in Hz. rewrite Hh, affine_values_id in Hz by assumption.
  apply function_values_zero in Hz; [|lia|lia].
  destruct (coordinates_complete (kinds s) (degrees s) (randoms s) x Hd Hr Hp Hx Hz) as [sub [Hl Hc]].
  exists (cell_position (map Z.of_nat (degrees s)) sub). split.
  - apply cell_position_bound. exact Hl.
  - unfold start_point. rewrite index_to_subscript_onto; try assumption.
    + rewrite Hc, Hpn, Hh. reflexivity.
    + intro H. apply map_eq_nil in H. rewrite H in Hd. cbn in Hd. destruct (kinds s); [congruence|discriminate].
Qed.

(** *** Homogenized and patched *)

Lemma hom_function_values_scale : forall l xs ds rs, length ds = length xs -> length rs = length xs ->
  Forall2 (fun x dr => fpow x (fst dr) = snd dr) xs (combine ds rs) ->
  all_zero (hom_function_values l (map (fmul l) xs) ds rs).
Proof.
  unfold all_zero. intros l. induction xs as [|x xs IH]; intros [|d ds] [|r rs] H1 H2 H; try discriminate; cbn.
  - constructor.
  - inversion H as [|? ? ? ? Ha Hb]; subst. cbn [fst snd] in Ha. cbn in H1, H2.
    constructor; [|apply IH; [lia|lia|exact Hb]].
    rewrite fpow_mul_base, Ha. ring.
Qed.

Lemma blocks_single : forall (F : fld) n (x : list F), length x = n -> blocks [n] x = [x].
Proof. intros. cbn. rewrite <- H, firstn_all. reflexivity. Qed.

(** rescaling with one group is multiplication by one nonzero factor *)
Lemma rescale_single : forall (c x y : list CF), rescale [c] x = Some y ->
  exists l, l <> 0 /\ y = map (fmul l) x.
Proof.
  intros c x y H. destruct (rescale_spec _ _ _ H) as [Hx [Hy [_ [_ [_ [fs [Hf1 [Hf2 Hf3]]]]]]]].
  unfold num_vars in Hx, Hy. cbn in Hx, Hy.
  destruct fs as [|l [|? ?]]; try discriminate. inversion Hf2; subst.
  exists l. split; [assumption|]. unfold sizes_of in Hf3. cbn [map] in Hf3.
  rewrite !blocks_single in Hf3 by lia. cbn in Hf3. inversion Hf3. reflexivity.
Qed.

Lemma patched_start_point_is_zero : forall s c index x, plain s -> homogenized s = true ->
  patch_of s = Some [c] -> length c = S (length (kinds s)) ->
  (bezout s < 2 ^ 64)%Z -> (0 <= index < bezout s)%Z -> start_point s index = Value x ->
  length x = S (length (kinds s)) /\ all_zero (start_system_values s x) /\ on_patch [c] x.
Proof.
  intros s c index x Hs Hh Hpc Hc Hlt Hi H.
  destruct (td_subscript s index Hs Hlt Hi) as [sub [l [E [_ [_ [El Hll]]]]]].
  destruct Hs as [Hne [Hk [Hd [Hr Hp]]]].
  unfold start_point in H. rewrite E, El, Hpc, Hh in H.
  destruct (rescale [c] (1 :: l)) as [y|] eqn:Ey; [|discriminate]. inversion H; subst y; clear H.
  destruct (rescale_single _ _ _ Ey) as [m [Hm Hy]].
  destruct (rescale_spec _ _ _ Ey) as [_ [_ [Hon _]]].
  subst x. cbn [map length]. rewrite map_length. split; [lia|]. split; [|exact Hon].
  unfold start_system_values. rewrite Hh.
  assert (Em : m * 1 = m) by ring. rewrite Em.
  rewrite affine_values_id by (rewrite ?map_length; assumption).
  destruct (coordinates_zero _ _ _ _ _ Hk Hp El) as [A B].
  apply hom_function_values_scale; [lia|lia|].
  rewrite <- Hd in B at 1. rewrite <- Hr in B. rewrite !firstn_all in B. exact B.
Qed.

Lemma patched_start_points_distinct : forall s c i j x y, plain s -> homogenized s = true ->
  patch_of s = Some [c] -> length c = S (length (kinds s)) -> Forall (fun r => r <> 0) (randoms s) ->
  (bezout s < 2 ^ 64)%Z -> (0 <= i < bezout s)%Z -> (0 <= j < bezout s)%Z ->
  start_point s i = Value x -> start_point s j = Value y ->
  same_projective_point [c] x y -> i = j.
Proof.
  intros s c i j x y Hs Hh Hpc Hc Hnz Hlt Hi Hj Ei Ej Hsame.
  destruct (td_subscript s i Hs Hlt Hi) as [s1 [l1 [E1 [L1 [C1 [F1 G1]]]]]].
  destruct (td_subscript s j Hs Hlt Hj) as [s2 [l2 [E2 [L2 [C2 [F2 G2]]]]]].
  destruct Hs as [Hne [Hk [Hd [Hr Hp]]]].
  unfold start_point in Ei, Ej. rewrite E1, F1, Hpc, Hh in Ei. rewrite E2, F2, Hpc, Hh in Ej.
  destruct (rescale [c] (1 :: l1)) as [x'|] eqn:R1; [|discriminate]. inversion Ei; subst x'; clear Ei.
  destruct (rescale [c] (1 :: l2)) as [y'|] eqn:R2; [|discriminate]. inversion Ej; subst y'; clear Ej.
  assert (x = y).
  { pose proof (rescale_scale_invariant _ _ _ Hsame) as Hr'.
    destruct (rescale_spec _ _ _ R1) as [_ [_ [O1 _]]].
    destruct (rescale_spec _ _ _ R2) as [_ [_ [O2 _]]].
    rewrite (rescale_on_patch_id _ _ O1), (rescale_on_patch_id _ _ O2) in Hr'. congruence. }
  subst y.
  destruct (rescale_single _ _ _ R1) as [a [Ha Hx]]. destruct (rescale_single _ _ _ R2) as [b [Hb Hy]].
  rewrite Hy in Hx. cbn [map] in Hx. assert (Hab := f_equal (hd 0) Hx). assert (Hl := f_equal (@tl CF) Hx). cbn [hd tl] in Hab, Hl.
  assert (b = a) by (transitivity (b * 1); [ring|]; rewrite Hab; ring). subst b.
  assert (l1 = l2).
  { clear - Ha Hl. revert l2 Hl. induction l1 as [|u l1 IH]; intros [|v l2] H; try discriminate; [reflexivity|].
    cbn [map] in H. assert (Hu := f_equal (hd 0) H). assert (Ht := f_equal (@tl CF) H). cbn [hd tl] in Hu, Ht.
    f_equal; [|apply IH; congruence].
    apply (fmul_cancel_r u v a Ha).
    rewrite (Rmul_comm (F_R (f_th CF)) u a), (Rmul_comm (F_R (f_th CF)) v a). congruence. }
  subst l2. assert (s1 = s2) by (apply (coordinates_inj (kinds s) (degrees s) (randoms s) s1 s2 l1); assumption). subst. congruence.
Qed.

(** *** Ungrouped variables *)

(** one ungrouped variable declared before one affine variable, degrees 2 and 1 *)
Definition ungrouped_example : structure :=
  mkStructure [Ungrouped; Affine] [2; 1]%nat [1; 1 + 1] false None.

Lemma ungrouped_not_zero : exists x, start_point ungrouped_example 0 = Value x /\
  length x = 2%nat /\ length (start_system_values ungrouped_example x) = 1%nat /\
  ~ all_zero (start_system_values ungrouped_example x).
Proof.
  exists [coordinate 2 0 1; coordinate 1 0 (1 + 1)].
  split; [reflexivity|]. split; [reflexivity|]. split; [reflexivity|].
  intro H. unfold start_system_values in H.
  assert (H0 : coordinate 1 0 (1 + 1) * (coordinate 1 0 (1 + 1) * 1) - 1 = 0) by exact (Forall_inv H).
  clear H. rename H0 into H.
  pose proof (coordinate_pow 1 0 (1 + 1) (le_n 1)) as E. cbn [fpow] in E.
  assert (E' : coordinate 1 0 (1 + 1) = 1 + 1) by (transitivity (coordinate 1 0 (1 + 1) * 1); [ring|exact E]).
  rewrite E' in H.
  assert (T : (1 + 1 + 1 : CF) = 0).
  { rewrite <- H. cbn [fpow]. ring. }
  assert (T' := f_equal (fun z : CF => fst (z : Complex.C)) T).
  rewrite <- CF_one, <- CF_zero, !CF_plus in T'. cbn in T'.
  rewrite CF_plus in T'. cbn in T'. lra.
Qed.

(** a homogenized but unpatched square target: the last coordinate is never set *)
Lemma unpatched_hom_ub : forall r1 r2, start_point (mkStructure [Affine] [1; 1]%nat [r1; r2] true None) 0 = UB.
Proof. reflexivity. Qed.

(** 64 quadrics: the number of start points wraps around to zero *)
Lemma num_start_points_wraps : exists ds, Forall (fun d => 1 <= d)%nat ds /\ num_start_points ds = 0%Z.
Proof.
  exists (repeat 2%nat 64). split.
  - apply Forall_forall. intros x Hx. apply repeat_spec in Hx. lia.
  - vm_compute. reflexivity.
Qed.

Lemma patched_example_defined :
  exists x, start_point (mkStructure [Affine] [1]%nat [1] true (Some [[1; 0]])) 0 = Value x.
Proof.
  unfold start_point. cbn [degrees map patch_of homogenized randoms kinds coordinates].
  replace (index_to_subscript 0 [Z.of_nat 1]) with (Value [0%Z]) by (vm_compute; reflexivity).
  cbn [coordinates].
  destruct (rescale [[1; 0]] [1; coordinate 1 0 1]) as [y|] eqn:E; [eexists; reflexivity|exfalso].
  apply rescale_none_iff in E; [|reflexivity].
  inversion E as [? ? H|? ? H]; subst; [|inversion H].
  apply (@f1_neq_f0 CF). rewrite <- H. unfold inner. cbn [sizes_of map blocks length firstn combine fst snd fsum].
  ring.
Qed.
