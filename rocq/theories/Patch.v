(** Patches: random affine normalisations of the variable groups.
    Models core/include/bertini2/system/patch.hpp. *)
From Coq Require Import List Arith Lia ZArith Bool Ring Field.
From Verif Require Import Base StartIndex.
Import ListNotations.

Section Patch.
  Context {F : fld}.
  Local Open Scope fld_scope.
  Add Field patch_field : (f_th F).

  (** patch.hpp:513-519 (members).  A patch is the list of its coefficient vectors, one per variable
      group.  Simplification: the member [variable_group_sizes_] is the list of their lengths, which
      both constructors (patch.hpp:102-135, 147-185) establish. *)
  Definition patch := list (list F).

  (** patch.hpp:444-447 *)
  Definition num_groups (p : patch) : nat := length p.

  (** patch.hpp:453-459 *)
  Definition num_vars (p : patch) : nat := fold_right Nat.add 0%nat (map (@length F) p).

  (** patch.hpp:322-326, the inner loop over one group; [None] is an out-of-range read of [x]. *)
  Fixpoint group_value (value : F) (c x : list F) (counter : nat) : option (F * nat) :=
    match c with
    | [] => Some (value, counter)
    | cj :: c' =>
        match nth_error x counter with
        | None => None
        | Some xj => group_value (value + xj * cj) c' x (S counter)
        end
    end.

  (** patch.hpp:317-327, the outer loop, the values in order *)
  Fixpoint eval_rows (p : patch) (x : list F) (counter : nat) : option (list F) :=
    match p with
    | [] => Some []
    | c :: p' =>
        match group_value (- (1)) c x counter with
        | None => None
        | Some (v, counter') =>
            match eval_rows p' x counter' with
            | None => None
            | Some r => Some (v :: r)
            end
        end
    end.

  (** patch.hpp:297-328.  The throw is lines 302-307. *)
  Definition patch_eval_in_place (p : patch) (function_values x : list F) : outcome (list F) :=
    if length function_values <? num_groups p then Throws
    else
      let offset := (length function_values - num_groups p)%nat in
      match eval_rows p x 0 with
      | None => UB
      | Some r => Value (firstn offset function_values ++ r)
      end.

  (** patch.hpp:337-342 *)
  Definition patch_eval (p : patch) (x : list F) : outcome (list F) :=
    patch_eval_in_place p (repeat 0 (num_groups p)) x.

  (** writing one entry of a row; [None] is an out-of-range column *)
  Fixpoint set_nth (row : list F) (n : nat) (v : F) : option (list F) :=
    match row, n with
    | [], _ => None
    | _ :: r, O => Some (v :: r)
    | a :: r, S k => match set_nth r k v with None => None | Some r' => Some (a :: r') end
    end.

  (** patch.hpp:374-375, the inner loop on one row *)
  Fixpoint write_row (row : list F) (counter : nat) (c : list F) : option (list F * nat) :=
    match c with
    | [] => Some (row, counter)
    | cj :: c' =>
        match set_nth row counter cj with
        | None => None
        | Some row' => write_row row' (S counter) c'
        end
    end.

  (** patch.hpp:373-375, the outer loop on the last rows of the matrix *)
  Fixpoint write_rows (p : patch) (rows : list (list F)) (counter : nat) : option (list (list F)) :=
    match p, rows with
    | [], _ => Some rows
    | _ :: _, [] => None
    | c :: p', row :: rows' =>
        match write_row row counter c with
        | None => None
        | Some (row', counter') =>
            match write_rows p' rows' counter' with
            | None => None
            | Some r => Some (row' :: r)
            end
        end
    end.

  (** patch.hpp:355-376; matrices are lists of rows.  The assertions of lines 361-362 (enough rows,
      right number of columns) are disabled in release builds: violating them is UB. *)
  Definition patch_jacobian_in_place (p : patch) (J : list (list F)) : outcome (list (list F)) :=
    if length J <? num_groups p then UB
    else
      let offset := (length J - num_groups p)%nat in
      match write_rows p (skipn offset J) 0 with
      | None => UB
      | Some r => Value (firstn offset J ++ r)
      end.

  (** patch.hpp:385-390 *)
  Definition patch_jacobian (p : patch) : outcome (list (list F)) :=
    patch_jacobian_in_place p (repeat (repeat 0 (num_vars p)) (num_groups p)).

  (** [subvec.transpose() * coefficients[ii]], patch.hpp:419 *)
  Fixpoint dot (c x : list F) : F :=
    match c, x with
    | a :: c', b :: x' => b * a + dot c' x'
    | _, _ => 0
    end.

  (** patch.hpp:415-421.  Segment by segment from the front.  A zero divisor (which in C++ produces
      infinities or NaNs) and a point of the wrong length (assertion, line 407) are [None]. *)
  Fixpoint rescale (p : patch) (x : list F) : option (list F) :=
    match p with
    | [] => match x with [] => Some [] | _ => None end
    | c :: p' =>
        let seg := firstn (length c) x in
        if length seg <? length c then None
        else if feqb (dot c seg) 0 then None
        else match rescale p' (skipn (length c) x) with
             | None => None
             | Some r => Some (map (fun xi => xi / dot c seg) seg ++ r)
             end
    end.

  (** ** Specification *)

  (** [blocks sizes x]: [x] cut into consecutive blocks of the given sizes *)
  Fixpoint blocks (sizes : list nat) (x : list F) : list (list F) :=
    match sizes with
    | [] => []
    | n :: r => firstn n x :: blocks r (skipn n x)
    end.

  Definition sizes_of (p : patch) : list nat := map (@length F) p.

  (** sum of products of two vectors *)
  Definition inner (c x : list F) : F := fsum (map (fun q => fst q * snd q) (combine c x)).

  (** the point satisfies every patch equation: coefficients . block = 1 *)
  Definition on_patch (p : patch) (x : list F) : Prop :=
    length x = num_vars p /\
    Forall2 (fun c b => inner c b = 1) p (blocks (sizes_of p) x).

  (** [y] is obtained from [x] by multiplying each block by its own nonzero factor *)
  Definition same_projective_point (p : patch) (x y : list F) : Prop :=
    length x = num_vars p /\ length y = num_vars p /\
    exists factors, length factors = num_groups p /\ Forall (fun l => l <> 0) factors /\
      blocks (sizes_of p) y
      = map (fun q => map (fmul (fst q)) (snd q)) (combine factors (blocks (sizes_of p) x)).

  (** entrywise sum of two vectors, matrix times vector *)
  Definition vadd (x y : list F) : list F := map (fun q => fst q + snd q) (combine x y).
  Definition mat_vec (M : list (list F)) (d : list F) : list F := map (fun r => inner r d) M.

  (** ** Lemmas *)

  Lemma dot_inner : forall c x, dot c x = inner c x.
  Proof.
    unfold inner. induction c as [|a c IH]; intros [|b x]; cbn; try reflexivity.
    rewrite IH. ring.
  Qed.

  Lemma nth_error_skipn0 : forall (A : Type) (x : list A) n a,
    nth_error x n = Some a -> skipn n x = a :: skipn (S n) x.
  Proof.
    intros A x. induction x as [|b x IH]; intros [|n] a H; cbn in *; try discriminate.
    - inversion H; reflexivity.
    - rewrite (IH n a H). reflexivity.
  Qed.

  Lemma group_value_ok : forall c x v k,
    (k + length c <= length x)%nat ->
    group_value v c x k = Some (v + inner c (firstn (length c) (skipn k x)), (k + length c)%nat).
  Proof.
    induction c as [|a c IH]; intros x v k H; cbn [group_value length].
    - unfold inner; cbn. f_equal. f_equal; [ring|lia].
    - cbn [length] in H.
      destruct (nth_error x k) as [xk|] eqn:E.
      2:{ apply nth_error_None in E. lia. }
      rewrite IH by lia.
      rewrite (nth_error_skipn0 _ _ _ _ E). cbn [firstn].
      unfold inner at 2. cbn [combine map fsum fst snd]. fold (inner c (firstn (length c) (skipn (S k) x))).
      f_equal. f_equal; [ring|lia].
  Qed.

  Lemma group_value_none : forall c x v k,
    (length x < k + length c)%nat -> c <> [] -> group_value v c x k = None.
  Proof.
    induction c as [|a c IH]; intros x v k H Hne; [congruence|].
    cbn [group_value]. cbn [length] in H.
    destruct (nth_error x k) as [xk|] eqn:E; [|reflexivity].
    assert (k < length x)%nat by (apply nth_error_Some; congruence).
    destruct c as [|b c]; [cbn in H; lia|].
    apply IH; [cbn in *; lia|discriminate].
  Qed.

  Lemma eval_rows_ok : forall p x k,
    (k + num_vars p <= length x)%nat ->
    eval_rows p x k
    = Some (map (fun q => inner (fst q) (snd q) - 1) (combine p (blocks (sizes_of p) (skipn k x)))).
  Proof.
    induction p as [|c p IH]; intros x k H; [reflexivity|].
    unfold num_vars in H; cbn [map fold_right] in H; fold (num_vars p) in H.
    cbn [eval_rows]. rewrite group_value_ok by lia.
    rewrite IH by lia.
    unfold sizes_of; cbn [map blocks combine fst snd].
    rewrite skipn_add. f_equal. f_equal. ring.
  Qed.

  Lemma blocks_length : forall sizes x, length (blocks sizes x) = length sizes.
  Proof. induction sizes; intros; cbn; auto. Qed.

  Lemma patch_eval_in_place_ok : forall p fv x,
    length x = num_vars p -> (num_groups p <= length fv)%nat ->
    patch_eval_in_place p fv x
    = Value (firstn (length fv - num_groups p) fv
             ++ map (fun q => inner (fst q) (snd q) - 1) (combine p (blocks (sizes_of p) x))).
  Proof.
    intros p fv x Hx Hf. unfold patch_eval_in_place.
    destruct (Nat.ltb_spec (length fv) (num_groups p)); [lia|].
    rewrite eval_rows_ok by lia. reflexivity.
  Qed.

  Lemma patch_eval_ok : forall p x, length x = num_vars p ->
    patch_eval p x = Value (map (fun q => inner (fst q) (snd q) - 1) (combine p (blocks (sizes_of p) x))).
  Proof.
    intros p x Hx. unfold patch_eval.
    rewrite patch_eval_in_place_ok; [|assumption|rewrite repeat_length; lia].
    rewrite repeat_length, Nat.sub_diag. reflexivity.
  Qed.

  Lemma patch_eval_in_place_throws : forall p fv x,
    (length fv < num_groups p)%nat -> patch_eval_in_place p fv x = Throws.
  Proof.
    intros p fv x H. unfold patch_eval_in_place.
    destruct (Nat.ltb_spec (length fv) (num_groups p)); [reflexivity|lia].
  Qed.

  Lemma patch_eval_in_place_frame : forall p fv x fv',
    patch_eval_in_place p fv x = Value fv' ->
    length fv' = length fv /\
    firstn (length fv - num_groups p) fv' = firstn (length fv - num_groups p) fv.
  Proof.
    intros p fv x fv' H. unfold patch_eval_in_place in H.
    destruct (Nat.ltb_spec (length fv) (num_groups p)); [discriminate|].
    destruct (eval_rows p x 0) as [r|] eqn:E; [|discriminate]. inversion H; subst.
    assert (Hr : length r = num_groups p).
    { clear - E. revert r E. generalize 0%nat. induction p as [|c p IH]; intros k r E; cbn in E.
      - inversion E; reflexivity.
      - destruct (group_value _ _ _ _) as [[v k']|]; [|discriminate].
        destruct (eval_rows p x k') as [r'|] eqn:E'; [|discriminate].
        inversion E; subst. cbn. f_equal. eapply IH; eassumption. }
    assert (Hl : length (firstn (length fv - num_groups p) fv) = (length fv - num_groups p)%nat)
      by (apply firstn_length_le; lia).
    split.
    - rewrite app_length, Hl. lia.
    - rewrite <- Hl at 1. apply firstn_app_exact.
  Qed.

  (** on the patch = all patch values zero *)
  Lemma on_patch_iff_eval : forall p x, length x = num_vars p ->
    (on_patch p x <-> patch_eval p x = Value (repeat 0 (num_groups p))).
  Proof.
    intros p x Hx. rewrite patch_eval_ok by assumption. unfold on_patch.
    assert (E : forall x, Forall2 (fun c b => inner c b = 1) p (blocks (sizes_of p) x)
       <-> map (fun q => inner (fst q) (snd q) - 1) (combine p (blocks (sizes_of p) x))
           = repeat 0 (num_groups p)).
    { clear. induction p as [|c p IH]; intros x; cbn [sizes_of map blocks combine repeat num_groups length].
      - split; [reflexivity|constructor].
      - fold (sizes_of p). fold (num_groups p). cbn [fst snd]. split; intro H.
        + inversion H; subst. f_equal; [rewrite H3; ring|]. apply IH; assumption.
        + injection H as H1 H2. constructor; [|apply IH; exact H2].
          transitivity (inner c (firstn (length c) x) - 1 + 1); [ring|]. rewrite H1. ring. }
    rewrite E. split; [intros [_ H]; rewrite H; reflexivity|].
    intro H; inversion H. split; [assumption|reflexivity].
  Qed.

  (** *** Rescaling *)

  Lemma inner_scale : forall l c x, inner c (map (fmul l) x) = l * inner c x.
  Proof.
    unfold inner. intros l c. induction c as [|a c IH]; intros [|b x]; cbn; try ring.
    rewrite IH. ring.
  Qed.

  Lemma map_div_scale : forall s (x : list F), s <> 0 ->
    map (fun xi => xi / s) x = map (fmul (1 / s)) x.
  Proof. intros s x Hs. apply map_ext. intro a. field. exact Hs. Qed.

  Lemma rescale_none_iff : forall p x, length x = num_vars p ->
    (rescale p x = None <-> Exists (fun q => inner (fst q) (snd q) = 0) (combine p (blocks (sizes_of p) x))).
  Proof.
    induction p as [|c p IH]; intros x Hx.
    - destruct x; [|discriminate]. cbn. split; [discriminate|intro H; inversion H].
    - unfold num_vars in Hx; cbn [map fold_right] in Hx; fold (num_vars p) in Hx.
      cbn [rescale sizes_of map blocks combine]. fold (sizes_of p).
      assert (Hf : length (firstn (length c) x) = length c) by (apply firstn_length_le; lia).
      destruct (Nat.ltb_spec (length (firstn (length c) x)) (length c)); [lia|].
      rewrite dot_inner.
      assert (Hs : length (skipn (length c) x) = num_vars p) by (rewrite skipn_length; lia).
      specialize (IH _ Hs).
      destruct (feqb (inner c (firstn (length c) x)) 0) eqn:E.
      + apply feqb_eq in E. split; [intros _; left; exact E|reflexivity].
      + apply feqb_neq in E.
        destruct (rescale p (skipn (length c) x)) as [r|] eqn:Er.
        * split; [discriminate|]. intro H'; inversion H'; subst; [cbn in H1; contradiction|].
          apply IH in H1; discriminate.
        * split; [intros _; right; apply IH; reflexivity|reflexivity].
  Qed.

  Lemma rescale_spec : forall p x y, rescale p x = Some y ->
    length x = num_vars p /\ length y = num_vars p /\ on_patch p y /\ same_projective_point p x y.
  Proof.
    induction p as [|c p IH]; intros x y H.
    - destruct x; [|discriminate]. inversion H; subst. cbn.
      repeat split; try constructor. exists []. repeat split; constructor.
    - cbn [rescale] in H.
      destruct (Nat.ltb_spec (length (firstn (length c) x)) (length c)) as [|Hl]; [discriminate|].
      rewrite dot_inner in H.
      destruct (feqb (inner c (firstn (length c) x)) 0) eqn:E; [discriminate|].
      apply feqb_neq in E.
      destruct (rescale p (skipn (length c) x)) as [r|] eqn:Er; [|discriminate].
      inversion H; subst; clear H.
      destruct (IH _ _ Er) as [H1 [H2 [[_ H3] [_ [_ [fs [Hf1 [Hf2 Hf3]]]]]]]].
      assert (Hfl : length (firstn (length c) x) = length c).
      { pose proof (firstn_le_length (length c) x). lia. }
      assert (Hx : length x = num_vars (c :: p)).
      { unfold num_vars; cbn [map fold_right]; fold (num_vars p). rewrite <- H1, skipn_length.
        rewrite firstn_length in Hfl. lia. }
      set (seg := firstn (length c) x) in *. set (s := inner c seg) in *.
      assert (Hml : length (map (fun xi => xi / s) seg) = length c) by (rewrite map_length; exact Hfl).
      assert (Hy : length (map (fun xi => xi / s) seg ++ r) = num_vars (c :: p)).
      { rewrite app_length, Hml, H2. reflexivity. }
      assert (Hb : blocks (sizes_of (c :: p)) (map (fun xi => xi / s) seg ++ r)
                   = map (fun xi => xi / s) seg :: blocks (sizes_of p) r).
      { cbn [sizes_of map blocks]. fold (sizes_of p).
        rewrite <- Hml at 1 2. rewrite firstn_app_exact, skipn_app_exact. reflexivity. }
      split; [exact Hx|]. split; [exact Hy|]. split.
      + split; [exact Hy|]. rewrite Hb. constructor; [|exact H3].
        rewrite map_div_scale by exact E. rewrite inner_scale. fold s. field. exact E.
      + split; [exact Hx|]. split; [exact Hy|]. exists (1 / s :: fs).
        split; [cbn; f_equal; exact Hf1|]. split.
        * constructor; [|exact Hf2]. intro Hz. apply (@f1_neq_f0 F).
          transitivity (1 / s * s); [field; exact E|]. rewrite Hz. ring.
        * rewrite Hb, Hf3. cbn [sizes_of map blocks combine fst snd]. fold (sizes_of p).
          rewrite map_div_scale by exact E. reflexivity.
  Qed.

  Lemma rescale_on_patch_id : forall p x, on_patch p x -> rescale p x = Some x.
  Proof.
    induction p as [|c p IH]; intros x [Hx Ho].
    - destruct x; [reflexivity|discriminate].
    - unfold num_vars in Hx; cbn [map fold_right] in Hx; fold (num_vars p) in Hx.
      cbn [sizes_of map blocks] in Ho. fold (sizes_of p) in Ho. inversion Ho; subst.
      cbn [rescale].
      assert (Hf : length (firstn (length c) x) = length c) by (apply firstn_length_le; lia).
      destruct (Nat.ltb_spec (length (firstn (length c) x)) (length c)); [lia|].
      rewrite dot_inner, H2.
      destruct (feqb 1 0) eqn:E; [apply feqb_eq in E; exfalso; exact (f1_neq_f0 E)|].
      rewrite IH; [|split; [rewrite skipn_length; lia|assumption]].
      f_equal. transitivity (firstn (length c) x ++ skipn (length c) x); [|apply firstn_skipn].
      f_equal. rewrite <- map_id. apply map_ext. intro a. field. apply f1_neq_f0.
  Qed.

  Lemma blocks_app_join : forall sizes x,
    length x = fold_right Nat.add 0%nat sizes -> concat (blocks sizes x) = x.
  Proof.
    induction sizes as [|n s IH]; intros x H; cbn in *.
    - destruct x; [reflexivity|discriminate].
    - rewrite IH; [apply firstn_skipn|]. rewrite skipn_length. lia.
  Qed.

  Lemma rescale_scale_invariant : forall p x x',
    same_projective_point p x x' -> rescale p x = rescale p x'.
  Proof.
    induction p as [|c p IH]; intros x x' [Hx [Hx' [fs [Hl [Hnz Hb]]]]].
    - destruct x, x'; try discriminate; reflexivity.
    - destruct fs as [|l fs]; [discriminate|].
      unfold num_vars in Hx, Hx'; cbn [map fold_right] in Hx, Hx'; fold (num_vars p) in Hx, Hx'.
      cbn [sizes_of map blocks combine fst snd] in Hb. fold (sizes_of p) in Hb.
      inversion Hb as [[Hseg Hrest]]. clear Hb.
      cbn [rescale]. rewrite !dot_inner, Hseg, map_length.
      assert (Hf : length (firstn (length c) x) = length c) by (apply firstn_length_le; lia).
      destruct (Nat.ltb_spec (length (firstn (length c) x)) (length c)); [lia|].
      rewrite inner_scale.
      inversion Hnz; subst.
      set (seg := firstn (length c) x) in *. set (s := inner c seg).
      assert (Hr : rescale p (skipn (length c) x) = rescale p (skipn (length c) x')).
      { apply IH. split; [rewrite skipn_length; lia|]. split; [rewrite skipn_length; lia|].
        exists fs. split; [unfold num_groups in *; cbn in Hl; lia|]. split; assumption. }
      destruct (feqb s 0) eqn:E.
      + apply feqb_eq in E. rewrite E.
        destruct (feqb (l * 0) 0) eqn:E2; [reflexivity|]. apply feqb_neq in E2. exfalso; apply E2; ring.
      + apply feqb_neq in E.
        destruct (feqb (l * s) 0) eqn:E2.
        { apply feqb_eq in E2. destruct (fmul_integral _ _ E2); contradiction. }
        rewrite Hr. destruct (rescale p (skipn (length c) x')); [|reflexivity].
        f_equal. f_equal. rewrite map_map. apply map_ext. intro a. field. split; assumption.
  Qed.

  (** *** Jacobian *)

  (** what a row looks like after its block was written *)
  Lemma set_nth_ok : forall row n v, (n < length row)%nat ->
    set_nth row n v = Some (firstn n row ++ v :: skipn (S n) row).
  Proof.
    induction row as [|a row IH]; intros [|n] v H; cbn in H; try lia; [reflexivity|].
    cbn [set_nth]. rewrite IH by lia. reflexivity.
  Qed.

  Lemma set_nth_none : forall row n v, (length row <= n)%nat -> set_nth row n v = None.
  Proof.
    induction row as [|a row IH]; intros [|n] v H; cbn in *; try reflexivity; try lia.
    rewrite IH by lia. reflexivity.
  Qed.

  Lemma write_row_ok : forall c row k, (k + length c <= length row)%nat ->
    write_row row k c = Some (firstn k row ++ c ++ skipn (k + length c) row, (k + length c)%nat).
  Proof.
    induction c as [|a c IH]; intros row k H; cbn [write_row length].
    - rewrite Nat.add_0_r. cbn [app]. rewrite firstn_skipn. reflexivity.
    - cbn [length] in H. rewrite set_nth_ok by lia.
      assert (Hfl : length (firstn k row) = k) by (apply firstn_length_le; lia).
      set (pre := firstn k row ++ [a]).
      assert (Hpre : length pre = S k) by (unfold pre; rewrite app_length, Hfl; cbn; lia).
      replace (firstn k row ++ a :: skipn (S k) row) with (pre ++ skipn (S k) row)
        by (unfold pre; rewrite <- app_assoc; reflexivity).
      rewrite IH by (rewrite app_length, Hpre, skipn_length; lia).
      f_equal. f_equal; [|lia].
      rewrite <- skipn_add. rewrite <- Hpre at 1 3. rewrite firstn_app_exact, skipn_app_exact.
      rewrite skipn_add. unfold pre. rewrite <- app_assoc. cbn [app].
      f_equal. f_equal. f_equal. f_equal. lia.
  Qed.

  (** the rows after writing: block of each group overwritten, the rest kept *)
  Fixpoint written (p : patch) (rows : list (list F)) (k : nat) : list (list F) :=
    match p, rows with
    | c :: p', row :: rows' =>
        (firstn k row ++ c ++ skipn (k + length c) row) :: written p' rows' (k + length c)
    | _, _ => rows
    end.

  Lemma write_rows_ok : forall p rows k n,
    (length p <= length rows)%nat -> Forall (fun r => length r = n) rows ->
    (k + num_vars p <= n)%nat -> write_rows p rows k = Some (written p rows k).
  Proof.
    induction p as [|c p IH]; intros rows k n Hl Hr Hk; [destruct rows; reflexivity|].
    destruct rows as [|row rows]; [cbn in Hl; lia|].
    unfold num_vars in Hk; cbn [map fold_right] in Hk; fold (num_vars p) in Hk.
    inversion Hr; subst. cbn [write_rows written].
    rewrite write_row_ok by lia.
    rewrite (IH rows (k + length c)%nat (length row)); [reflexivity|cbn in Hl; lia|assumption|lia].
  Qed.

  Lemma write_rows_length : forall p rows k r, write_rows p rows k = Some r -> length r = length rows.
  Proof.
    induction p as [|c p IH]; intros [|row rows] k r H; cbn in H; try discriminate; try (inversion H; reflexivity).
    destruct (write_row row k c) as [[row' k']|]; [|discriminate].
    destruct (write_rows p rows k') as [r'|] eqn:E; [|discriminate].
    inversion H; subst. cbn. f_equal. eapply IH; eassumption.
  Qed.

  Lemma jacobian_frame : forall p J J', patch_jacobian_in_place p J = Value J' ->
    length J' = length J /\
    firstn (length J - num_groups p) J' = firstn (length J - num_groups p) J.
  Proof.
    intros p J J' H. unfold patch_jacobian_in_place in H.
    destruct (Nat.ltb_spec (length J) (num_groups p)); [discriminate|].
    destruct (write_rows _ _ _) as [r|] eqn:E; [|discriminate]. inversion H; subst.
    apply write_rows_length in E. rewrite skipn_length in E.
    assert (Hl : length (firstn (length J - num_groups p) J) = (length J - num_groups p)%nat)
      by (apply firstn_length_le; lia).
    split; [rewrite app_length, Hl; lia|].
    rewrite <- Hl at 1. apply firstn_app_exact.
  Qed.

  Lemma inner_app : forall a b x, inner (a ++ b) x
    = inner a (firstn (length a) x) + inner b (skipn (length a) x).
  Proof.
    unfold inner. induction a as [|u a IH]; intros b x; cbn [app length firstn skipn].
    - cbn. ring.
    - destruct x as [|v x]; cbn [combine map fsum firstn skipn fst snd].
      + rewrite combine_nil. cbn. destruct b; cbn; ring.
      + rewrite IH. ring.
  Qed.

  Lemma inner_repeat0 : forall n x, inner (repeat 0 n) x = 0.
  Proof.
    unfold inner. induction n; intros [|b x]; cbn; try ring. rewrite IHn. ring.
  Qed.

  Lemma inner_vadd : forall c x y, length x = length y -> inner c (vadd x y) = inner c x + inner c y.
  Proof.
    unfold inner, vadd. induction c as [|a c IH]; intros [|b x] [|d y] H; cbn in *; try ring; try discriminate.
    rewrite IH by lia. ring.
  Qed.

  Lemma blocks_vadd : forall sizes x y, length x = length y ->
    blocks sizes (vadd x y) = map (fun q => vadd (fst q) (snd q)) (combine (blocks sizes x) (blocks sizes y)).
  Proof.
    induction sizes as [|n s IH]; intros x y H; cbn [blocks combine map fst snd]; [reflexivity|].
    assert (E1 : firstn n (vadd x y) = vadd (firstn n x) (firstn n y)).
    { unfold vadd. rewrite firstn_map, combine_firstn. reflexivity. }
    assert (E2 : skipn n (vadd x y) = vadd (skipn n x) (skipn n y)).
    { clear. unfold vadd. revert n y. induction x as [|a x IH]; intros [|n] [|b y]; cbn; try reflexivity.
      - destruct (skipn n x); reflexivity.
      - apply IH. }
    rewrite E1, E2, IH by (rewrite !skipn_length; lia). reflexivity.
  Qed.

  Lemma inner_firstn_len : forall c x, inner c (firstn (length c) x) = inner c x.
  Proof.
    unfold inner. induction c as [|a c IH]; intros [|b x]; cbn; try reflexivity. rewrite IH; reflexivity.
  Qed.

  Lemma vadd_cons : forall a x b y, vadd (a :: x) (b :: y) = (a + b) :: vadd x y.
  Proof. reflexivity. Qed.

  Lemma vadd_length : forall x y, length x = length y -> length (vadd x y) = length x.
  Proof. intros. unfold vadd. rewrite map_length, combine_length. lia. Qed.

  (** if the incoming patch rows are zero outside the blocks, the rows applied to [d] give the block sums *)
  Lemma written_zero_mat_vec : forall p k m d,
    mat_vec (written p (repeat (repeat 0 (k + num_vars p + m)) (num_groups p)) k) d
    = map (fun q => inner (fst q) (snd q)) (combine p (blocks (sizes_of p) (skipn k d))).
  Proof.
    induction p as [|c p IH]; intros k m d; [reflexivity|].
    cbn [num_groups length repeat written mat_vec map sizes_of blocks combine fst snd].
    fold (sizes_of p). fold (num_groups p).
    f_equal.
    - rewrite inner_app.
      assert (E : forall n j, firstn j (repeat (0 : F) n) = repeat 0 (Nat.min j n)).
      { clear. induction n; intros [|j]; cbn; try reflexivity. rewrite IHn. reflexivity. }
      assert (E' : forall n j, skipn j (repeat (0 : F) n) = repeat 0 (n - j)).
      { clear. induction n; intros [|j]; cbn; try reflexivity. rewrite IHn. reflexivity. }
      rewrite E, repeat_length, inner_repeat0, inner_app, E', inner_repeat0.
      unfold num_vars; cbn [map fold_right]; fold (num_vars p).
      rewrite Nat.min_l by lia.
      ring.
    - unfold num_vars; cbn [map fold_right]; fold (num_vars p).
      replace (k + (length c + num_vars p) + m)%nat with ((k + length c) + num_vars p + m)%nat by lia.
      fold (mat_vec (written p (repeat (repeat 0 (k + length c + num_vars p + m)) (num_groups p)) (k + length c)) d).
      rewrite IH, skipn_add. reflexivity.
  Qed.

  Lemma Forall_repeat : forall (A : Type) (P : A -> Prop) a n, P a -> Forall P (repeat a n).
  Proof. induction n; cbn; constructor; auto. Qed.

  Lemma patch_jacobian_ok : forall p, exists J, patch_jacobian p = Value J /\
    forall d, mat_vec J d = map (fun q => inner (fst q) (snd q)) (combine p (blocks (sizes_of p) d)).
  Proof.
    intro p. unfold patch_jacobian, patch_jacobian_in_place.
    rewrite repeat_length. destruct (Nat.ltb_spec (num_groups p) (num_groups p)); [lia|].
    rewrite Nat.sub_diag. cbn [skipn firstn app].
    erewrite write_rows_ok.
    - eexists; split; [reflexivity|]. intro d.
      replace (num_vars p) with (0 + num_vars p + 0)%nat by lia.
      rewrite written_zero_mat_vec. reflexivity.
    - rewrite repeat_length. apply Nat.le_refl.
    - apply Forall_repeat. apply repeat_length.
    - lia.
  Qed.

  (** the Jacobian is the exact linear part of the (affine) patch function *)
  Lemma patch_jacobian_is_derivative : forall p x d, length x = num_vars p -> length d = num_vars p ->
    exists J v v', patch_jacobian p = Value J /\ patch_eval p x = Value v /\ patch_eval p (vadd x d) = Value v'
      /\ v' = vadd v (mat_vec J d).
  Proof.
    intros p x d Hx Hd. destruct (patch_jacobian_ok p) as [J [EJ HJ]].
    exists J. rewrite !patch_eval_ok by (rewrite ?vadd_length; congruence).
    do 2 eexists. split; [exact EJ|]. split; [reflexivity|]. split; [reflexivity|].
    rewrite HJ, blocks_vadd by congruence.
    assert (Hlen : (num_vars p <= length x /\ num_vars p <= length d)%nat) by lia.
    assert (Hl : length x = length d) by congruence. clear Hx Hd EJ HJ J.
    revert x d Hlen Hl. induction p as [|c p IH]; intros x d Hlen Hl; [reflexivity|].
    unfold num_vars in Hlen; cbn [map fold_right] in Hlen; fold (num_vars p) in Hlen.
    cbn [sizes_of map blocks combine fst snd]. fold (sizes_of p). rewrite vadd_cons.
    f_equal.
    - rewrite inner_vadd by (rewrite !firstn_length; lia). ring.
    - apply IH; [rewrite !skipn_length; lia|rewrite !skipn_length; lia].
  Qed.

  (** with a single group the whole row is overwritten, whatever the matrix held before *)
  Lemma jacobian_in_place_single : forall c J, J <> [] -> Forall (fun r => length r = length c) J ->
    patch_jacobian_in_place [c] J = Value (firstn (length J - 1) J ++ [c]).
  Proof.
    intros c J Hne Hc. unfold patch_jacobian_in_place. cbn [num_groups length].
    destruct J as [|r0 J0] eqn:EJ; [congruence|]. rewrite <- EJ in *.
    assert (1 <= length J)%nat by (rewrite EJ; cbn; lia).
    destruct (Nat.ltb_spec (length J) 1); [lia|].
    assert (Hs : length (skipn (length J - 1) J) = 1%nat) by (rewrite skipn_length; lia).
    assert (Hall : Forall (fun r => length r = length c) (skipn (length J - 1) J)).
    { apply Forall_forall. intros r Hr. rewrite Forall_forall in Hc. apply Hc.
      rewrite <- (firstn_skipn (length J - 1) J). apply in_or_app. right; exact Hr. }
    rewrite (write_rows_ok [c] _ 0 (length c)); [|rewrite Hs; cbn; lia|exact Hall|unfold num_vars; cbn; lia].
    destruct (skipn (length J - 1) J) as [|row [|? ?]]; try discriminate.
    inversion Hall; subst. cbn [written firstn app Nat.add].
    rewrite <- H3, skipn_all, app_nil_r. reflexivity.
  Qed.
End Patch.

Section PatchSystem.
  Context {F : fld}.
  Local Open Scope fld_scope.

  (** in place on a matrix whose patch rows are zero *)
  Lemma jacobian_in_place_zero_rows : forall (p : patch (F := F)) top Jp,
    patch_jacobian p = Value Jp ->
    patch_jacobian_in_place p (top ++ repeat (repeat 0 (num_vars p)) (num_groups p)) = Value (top ++ Jp).
  Proof.
    intros p top Jp H. unfold patch_jacobian, patch_jacobian_in_place in *.
    rewrite repeat_length in H. rewrite app_length, repeat_length.
    destruct (Nat.ltb_spec (num_groups p) (num_groups p)); [lia|].
    destruct (Nat.ltb_spec (length top + num_groups p) (num_groups p)); [lia|].
    rewrite Nat.sub_diag in H. cbn [skipn firstn app] in H.
    rewrite Nat.add_sub, skipn_app_exact, firstn_app_exact.
    destruct (write_rows _ _ _); [|discriminate]. inversion H; reflexivity.
  Qed.
End PatchSystem.

(** two groups of size one: entries outside the blocks keep what the matrix held before *)
Lemma jacobian_in_place_garbage :
  exists (p : patch (F := QcF)) (J J' : list (list QcF)) (x d v v' : list QcF),
    length x = num_vars p /\ length d = num_vars p /\ length J = num_groups p /\
    Forall (fun r => length r = num_vars p) J /\
    patch_jacobian_in_place p J = Value J' /\ patch_eval p x = Value v /\
    patch_eval p (vadd (F := QcF) x d) = Value v' /\ v' <> vadd (F := QcF) v (mat_vec (F := QcF) J' d).
Proof.
  exists [[qc 1 1]; [qc 2 1]], [[qc 5 1; qc 7 1]; [qc 11 1; qc 13 1]], [[qc 1 1; qc 7 1]; [qc 11 1; qc 2 1]],
    [qc 1 1; qc 1 1], [qc 1 1; qc 1 1], [qc 0 1; qc 1 1], [qc 1 1; qc 3 1].
  repeat split; try (vm_compute; reflexivity).
  - repeat constructor.
  - vm_compute. intro H. inversion H.
Qed.
