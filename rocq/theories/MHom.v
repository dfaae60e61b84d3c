(** The multihomogeneous start system: enumeration of partitions and numbering of start points.
    Models core/src/system/start/mhom.cpp. *)
From Coq Require Import List Arith Lia ZArith Bool FinFun.
From Verif Require Import Base StartIndex.
Import ListNotations.
Local Open Scope Z_scope.

(** ** Model *)

(** entry [i] of an int vector plus [d]; out of range is undefined behaviour *)
Fixpoint bump (l : list Z) (i : nat) (d : Z) : option (list Z) :=
  match l, i with
  | [], _ => None
  | a :: r, O => Some ((a + d) :: r)
  | a :: r, S k => match bump r k d with None => None | Some r' => Some (a :: r') end
  end.

(** assigning entry [i] of an int vector *)
Fixpoint assign (l : list Z) (i : nat) (v : Z) : option (list Z) :=
  match l, i with
  | [], _ => None
  | _ :: r, O => Some (v :: r)
  | a :: r, S k => match assign r k v with None => None | Some r' => Some (a :: r') end
  end.

(** mhom.cpp:307-336, the search loop from column [col]; [remaining] is the number of columns at or
    right of [col] (so [remaining = 0] is [col == NumTotalVariableGroups()]). *)
Fixpoint scan (degrow counter : list Z) (remaining : nat) (col : nat) : option nat :=
  match remaining with
  | O => Some col
  | S k =>
      match nth_error degrow col, nth_error counter col with
      | Some d, Some c => if (d =? 0) || (c =? 0) then scan degrow counter k (S col) else Some col
      | _, _ => None
      end
  end.

(** mhom.cpp:297-339 ChooseColumnInRow; [m] is NumTotalVariableGroups(), [degrow] the row of the
    degree matrix.  Returns the column and the updated counters. *)
Definition choose_column (m : nat) (degrow counter : list Z) (column : Z) : option (Z * list Z) :=
  let col := column + 1 in
  match (if -1 <? col - 1 then bump counter (Z.to_nat (col - 1)) 1 else Some counter) with
  | None => None
  | Some counter1 =>
      match scan degrow counter1 (m - Z.to_nat col) (Z.to_nat col) with
      | None => None
      | Some c =>
          if (c <? m)%nat then
            match bump counter1 c (-1) with
            | None => None
            | Some counter2 => Some (Z.of_nat c, counter2)
            end
          else Some (Z.of_nat c, counter1)
      end
  end.

(** mhom.cpp:222-237: the local variables of GenerateValidPartitions and the result vector *)
Record mstate := mkM {
  row : Z;
  part : list Z;
  counter : list Z;
  found : list (list Z)
}.

(** mhom.cpp:220-237 (initial values); the counter starts from the group sizes *)
Definition minit (n : nat) (sizes : list Z) : mstate := mkM 0 (repeat (-1) n) sizes [].

(** mhom.cpp:242-270: one pass of the while loop.  [None] is undefined behaviour. *)
Definition mstep (degs : list (list Z)) (m : nat) (s : mstate) : option mstate :=
  let n := length degs in
  match nth_error (part s) (Z.to_nat (row s)), nth_error degs (Z.to_nat (row s)) with
  | Some column, Some degrow =>
      match choose_column m degrow (counter s) column with
      | None => None
      | Some (col, counter') =>
          match assign (part s) (Z.to_nat (row s)) col with
          | None => None
          | Some part' =>
              if col =? Z.of_nat m
              then Some (mkM (row s - 1) part' counter' (found s))
              else
                let row' := row s + 1 in
                if row' <? Z.of_nat n
                then match assign part' (Z.to_nat row') (-1) with
                     | None => None
                     | Some part'' => Some (mkM row' part'' counter' (found s))
                     end
                else Some (mkM (row' - 1) part' counter' (found s ++ [part']))
          end
      end
  | _, _ => None
  end.

(** mhom.cpp:240: while (row > -1).  Fuel exhaustion and undefined behaviour are explicit. *)
Inductive mresult := Done (s : mstate) | Undefined | OutOfFuel.

Fixpoint mrun (degs : list (list Z)) (m fuel : nat) (s : mstate) : mresult :=
  if row s <=? -1 then Done s
  else match fuel with
       | O => OutOfFuel
       | S k => match mstep degs m s with
                | None => Undefined
                | Some s' => mrun degs m k s'
                end
       end.

(** mhom.cpp:445-454, unsigned long long arithmetic *)
Fixpoint points_for_partition (degs : list (list Z)) (p : list Z) : option Z :=
  match degs, p with
  | [], [] => Some 1
  | r :: degs', c :: p' =>
      match nth_error r (Z.to_nat c), points_for_partition degs' p' with
      | Some d, Some k => Some (wrap64 (d * k))
      | _, _ => None
      end
  | _, _ => None
  end.

(** mhom.cpp:122-130 *)
Fixpoint num_mhom_points (degs : list (list Z)) (ps : list (list Z)) : option Z :=
  match ps with
  | [] => Some 0
  | p :: r =>
      match points_for_partition degs p, num_mhom_points degs r with
      | Some a, Some b => Some (wrap64 (a + b))
      | _, _ => None
      end
  end.

(** ** Specification *)

(** a choice of one column per row such that the chosen entries are nonzero and no column is chosen
    more often than its size *)
Definition valid_partition (degs : list (list Z)) (sizes : list Z) (p : list Z) : Prop :=
  length p = length degs /\
  (forall i r c, nth_error degs i = Some r -> nth_error p i = Some c ->
     0 <= c < Z.of_nat (length sizes) /\ exists d, nth_error r (Z.to_nat c) = Some d /\ d <> 0) /\
  (forall j k, nth_error sizes j = Some k -> Z.of_nat (count_occ Z.eq_dec p (Z.of_nat j)) <= k).

(** every row has one entry per column, sizes are not negative *)
Definition well_formed (degs : list (list Z)) (sizes : list Z) : Prop :=
  degs <> [] /\ Forall (fun r => length r = length sizes) degs /\ Forall (fun k => 0 <= k) sizes.

(** coefficient of the monomial with exponents [k] in the product over the rows of the linear forms
    sum_j d_ij * alpha_j: the multihomogeneous Bezout number *)
Fixpoint lower (k : list Z) (j : nat) : list Z :=
  match k, j with
  | [], _ => []
  | a :: r, O => (a - 1) :: r
  | a :: r, S j' => a :: lower r j'
  end.

Fixpoint bezout_coefficient (degs : list (list Z)) (k : list Z) : Z :=
  match degs with
  | [] => if forallb (Z.eqb 0) k then 1 else 0
  | r :: degs' =>
      fold_right Z.add 0
        (map (fun j => if 0 <? nth j k 0 then nth j r 0 * bezout_coefficient degs' (lower k j) else 0)
             (seq 0 (length k)))
  end.

(** ** Proofs *)

(** recursive enumeration, in the order of the search *)
Fixpoint enum (degs : list (list Z)) (c : list Z) : list (list Z) :=
  match degs with
  | [] => [[]]
  | r :: degs' =>
      flat_map (fun j => if (nth j r 0 =? 0) || (nth j c 0 =? 0) then []
                         else map (cons (Z.of_nat j)) (enum degs' (lower c j)))
               (seq 0 (length c))
  end.

Lemma bump_ok : forall l i d, (i < length l)%nat ->
  exists l', bump l i d = Some l' /\ length l' = length l /\
    nth i l' 0 = nth i l 0 + d /\ forall j, j <> i -> nth j l' 0 = nth j l 0.
Proof.
  induction l as [|a l IH]; intros [|i] d H; cbn in H; try lia.
  - cbn. eexists; split; [reflexivity|]. split; [reflexivity|]. split; [reflexivity|].
    intros [|j] Hj; [congruence|reflexivity].
  - destruct (IH i d ltac:(lia)) as [l' [E [El [Ei Ej]]]]. cbn. rewrite E.
    eexists; split; [reflexivity|]. split; [cbn; lia|]. split; [exact Ei|].
    intros [|j] Hj; [reflexivity|]. cbn. apply Ej. congruence.
Qed.

Lemma bump_lower : forall l i, (i < length l)%nat -> bump l i (-1) = Some (lower l i).
Proof.
  induction l as [|a l IH]; intros [|i] H; cbn in H; try lia; cbn.
  - reflexivity.
  - rewrite IH by lia. reflexivity.
Qed.

Lemma bump_raise : forall l i, (i < length l)%nat -> bump (lower l i) i 1 = Some l.
Proof.
  induction l as [|a l IH]; intros [|i] H; cbn in H; try lia; cbn.
  - do 2 f_equal. lia.
  - rewrite IH by lia. reflexivity.
Qed.

Lemma lower_length : forall l i, length (lower l i) = length l.
Proof. induction l as [|a l IH]; intros [|i]; cbn; auto. Qed.

Lemma lower_nth : forall l i j, (i < length l)%nat ->
  nth j (lower l i) 0 = if Nat.eq_dec j i then nth j l 0 - 1 else nth j l 0.
Proof.
  induction l as [|a l IH]; intros [|i] [|j] H; cbn [length] in H; try lia; cbn [lower nth]; try reflexivity.
  rewrite IH by lia. destruct (Nat.eq_dec j i), (Nat.eq_dec (S j) (S i)); try lia; reflexivity.
Qed.

Definition nonneg (l : list Z) : Prop := Forall (fun k => 0 <= k) l.

Lemma nonneg_nth : forall l j, nonneg l -> 0 <= nth j l 0.
Proof.
  unfold nonneg. intros l j H. revert j. induction H; intros [|j]; cbn; try lia; auto.
Qed.

Lemma lower_nonneg : forall l i, nonneg l -> nth i l 0 <> 0 -> nonneg (lower l i).
Proof.
  unfold nonneg. intros l i H. revert i. induction H as [|a l Ha H IH]; intros [|i] Hi; cbn in *; constructor; auto.
  lia.
Qed.

Lemma assign_app : forall pfx x junk v, assign (pfx ++ x :: junk) (length pfx) v = Some (pfx ++ v :: junk).
Proof. induction pfx; intros; cbn; [reflexivity|]. rewrite IHpfx. reflexivity. Qed.

Lemma nth_error_app_mid : forall (A : Type) (pfx : list A) x junk, nth_error (pfx ++ x :: junk) (length pfx) = Some x.
Proof. induction pfx; intros; cbn; [reflexivity|]. apply IHpfx. Qed.

Lemma nth_error_nth0 : forall (l : list Z) j, (j < length l)%nat -> nth_error l j = Some (nth j l 0).
Proof. intros. apply nth_error_nth'. assumption. Qed.

Definition good (r c : list Z) (j : nat) : bool := negb ((nth j r 0 =? 0) || (nth j c 0 =? 0)).

Lemma scan_spec : forall r c k col, (col + k)%nat = length c -> length r = length c ->
  exists j, scan r c k col = Some j /\ (col <= j <= length c)%nat /\
    (forall i, (col <= i < j)%nat -> good r c i = false) /\ ((j < length c)%nat -> good r c j = true).
Proof.
  intros r c k. induction k as [|k IH]; intros col Hk Hr; cbn [scan].
  - exists col. split; [reflexivity|]. split; [lia|]. split; [intros; lia|intros; lia].
  - rewrite !nth_error_nth0 by lia.
    destruct ((nth col r 0 =? 0) || (nth col c 0 =? 0)) eqn:E.
    + destruct (IH (S col) ltac:(lia) Hr) as [j [Ej [Hj [Hb Hg]]]].
      exists j. split; [exact Ej|]. split; [lia|]. split; [|exact Hg].
      intros i Hi. destruct (Nat.eq_dec i col); [subst; unfold good; rewrite E; reflexivity|].
      apply Hb. lia.
    + exists col. split; [reflexivity|]. split; [lia|]. split; [intros; lia|].
      intros _. unfold good. rewrite E. reflexivity.
Qed.

(** contributions of the columns from [x] on *)
Definition contrib (degs' : list (list Z)) (r c : list Z) (j : nat) : list (list Z) :=
  if (nth j r 0 =? 0) || (nth j c 0 =? 0) then [] else map (cons (Z.of_nat j)) (enum degs' (lower c j)).

Lemma contrib_bad : forall degs' r c j, good r c j = false -> contrib degs' r c j = [].
Proof.
  intros degs' r c j H. unfold contrib, good in *.
  destruct ((nth j r 0 =? 0) || (nth j c 0 =? 0)); [reflexivity|discriminate].
Qed.

Lemma flat_map_skip : forall degs' r c x j, (x <= j <= length c)%nat ->
  (forall i, (x <= i < j)%nat -> good r c i = false) ->
  flat_map (contrib degs' r c) (seq x (length c - x)) = flat_map (contrib degs' r c) (seq j (length c - j)).
Proof.
  intros degs' r c x j. remember (j - x)%nat as d eqn:Ed. revert x Ed.
  induction d as [|d IH]; intros x Ed Hx Hb.
  - replace x with j by lia. reflexivity.
  - replace (length c - x)%nat with (S (length c - S x)) by lia.
    cbn [seq flat_map]. rewrite contrib_bad by (apply Hb; lia). cbn [app].
    apply IH; [lia|lia|]. intros i Hi. apply Hb. lia.
Qed.

(** iterating the step function *)
Inductive steps (degs : list (list Z)) (m : nat) : mstate -> mstate -> nat -> Prop :=
| steps_0 : forall s, steps degs m s s 0
| steps_S : forall s s' s'' k, -1 < row s -> mstep degs m s = Some s' -> steps degs m s' s'' k ->
    steps degs m s s'' (S k).

Lemma steps_trans : forall degs m a b c i j, steps degs m a b i -> steps degs m b c j -> steps degs m a c (i + j).
Proof. intros degs m a b c i j H. revert c j. induction H; intros; cbn; [assumption|]. econstructor; eauto. Qed.

Lemma steps_run : forall degs m a b k, steps degs m a b k ->
  forall fuel, mrun degs m (k + fuel) a = mrun degs m fuel b.
Proof.
  intros degs m a b k H. induction H as [s|s s' s'' k Hr Hs H IH]; intro fuel; [reflexivity|].
  cbn [Nat.add mrun]. destruct (Z.leb_spec (row s) (-1)); [lia|]. rewrite Hs. apply IH.
Qed.

(** exploring one row: see the comment in the statement *)
Lemma explore : forall suf pre c pfx junk fnd,
  length pfx = length pre -> S (length junk) = length suf -> nonneg c ->
  Forall (fun r => length r = length c) suf ->
  exists k junk' x',
    length junk' = length junk /\
    steps (pre ++ suf) (length c)
      (mkM (Z.of_nat (length pre)) (pfx ++ (-1) :: junk) c fnd)
      (mkM (Z.of_nat (length pre) - 1) (pfx ++ x' :: junk') c (fnd ++ map (app pfx) (enum suf c))) k.
Proof.
  induction suf as [|r suf IHs]; intros pre c pfx junk fnd Hp Hj Hc Hw; [discriminate|].
  pose proof (Forall_inv Hw) as Hr. cbn beta in Hr. pose proof (Forall_inv_tail Hw) as Hw'.
  (* the state after having tried column x-1, for every x *)
  assert (Inner : forall d x junk fnd, (x + d = length c)%nat -> length junk = length suf ->
     exists k junk' x', length junk' = length junk /\
       steps (pre ++ r :: suf) (length c)
         (mkM (Z.of_nat (length pre)) (pfx ++ (Z.of_nat x - 1) :: junk)
              (match x with O => c | S y => lower c y end) fnd)
         (mkM (Z.of_nat (length pre) - 1) (pfx ++ x' :: junk') c
              (fnd ++ map (app pfx) (flat_map (contrib suf r c) (seq x (length c - x))))) k).
  { induction d as [d IHd] using lt_wf_ind; intros x junk0 fnd0 Hx Hj0.
    (* what choose_column does here *)
    destruct (scan_spec r c (length c - x) x ltac:(lia) Hr) as [j [Ej [Hj1 [Hb Hg]]]].
    assert (Hch : choose_column (length c) r (match x with O => c | S y => lower c y end) (Z.of_nat x - 1)
                  = if (j <? length c)%nat then Some (Z.of_nat j, lower c j) else Some (Z.of_nat j, c)).
    { unfold choose_column.
      replace (Z.of_nat x - 1 + 1) with (Z.of_nat x) by lia.
      assert (Hb1 : (if -1 <? Z.of_nat x - 1 then bump (match x with O => c | S y => lower c y end)
                        (Z.to_nat (Z.of_nat x - 1)) 1 else Some (match x with O => c | S y => lower c y end)) = Some c).
      { destruct x as [|y].
        - reflexivity.
        - destruct (Z.ltb_spec (-1) (Z.of_nat (S y) - 1)); [|lia].
          replace (Z.to_nat (Z.of_nat (S y) - 1)) with y by lia. apply bump_raise. lia. }
      rewrite Hb1. rewrite Nat2Z.id, Ej.
      destruct (Nat.ltb_spec j (length c)); [|reflexivity].
      rewrite bump_lower by assumption. reflexivity. }
    assert (Hn1 : nth_error (pfx ++ (Z.of_nat x - 1) :: junk0) (Z.to_nat (Z.of_nat (length pre))) = Some (Z.of_nat x - 1)).
    { rewrite Nat2Z.id, <- Hp. apply nth_error_app_mid. }
    assert (Hn2 : nth_error (pre ++ r :: suf) (Z.to_nat (Z.of_nat (length pre))) = Some r).
    { rewrite Nat2Z.id. apply nth_error_app_mid. }
    assert (Ha : forall v, assign (pfx ++ (Z.of_nat x - 1) :: junk0) (Z.to_nat (Z.of_nat (length pre))) v
                 = Some (pfx ++ v :: junk0)).
    { intro v. rewrite Nat2Z.id, <- Hp. apply assign_app. }
    rewrite (flat_map_skip suf r c x j Hj1 Hb).
    destruct (Nat.ltb_spec j (length c)) as [Hlt|Hge].
    - (* a column is found *)
      specialize (Hg Hlt).
      assert (Hcj : nth j c 0 <> 0).
      { unfold good in Hg. destruct (Z.eqb_spec (nth j c 0) 0); [rewrite orb_true_r in Hg; discriminate|assumption]. }
      replace (length c - j)%nat with (S (length c - S j)) by lia.
      cbn [seq flat_map].
      assert (Hcon : contrib suf r c j = map (cons (Z.of_nat j)) (enum suf (lower c j))).
      { unfold contrib, good in *. destruct ((nth j r 0 =? 0) || (nth j c 0 =? 0)); [discriminate|reflexivity]. }
      rewrite Hcon, map_app, app_assoc.
      destruct suf as [|r2 suf2].
      + (* last row: a partition is complete *)
        cbn [enum map].
        destruct junk0 as [|? ?]; [|discriminate].
        destruct (IHd (length c - S j)%nat ltac:(lia) (S j) [] (fnd0 ++ [pfx ++ [Z.of_nat j]]) ltac:(lia) eq_refl)
          as [k [junk' [x' [Hl Hst]]]].
        exists (S k), junk', x'. split; [exact Hl|].
        econstructor; [cbn [row]; lia| |].
        * unfold mstep. cbn [part row counter found]. rewrite Hn1, Hn2, Hch.
          rewrite (Ha (Z.of_nat j)).
          destruct (Z.eqb_spec (Z.of_nat j) (Z.of_nat (length c))); [lia|].
          rewrite app_length. cbn [length].
          destruct (Z.ltb_spec (Z.of_nat (length pre) + 1) (Z.of_nat (length pre + 1))); [lia|].
          reflexivity.
        * replace (Z.of_nat (length pre) + 1 - 1) with (Z.of_nat (length pre)) by lia.
          replace (Z.of_nat (S j) - 1) with (Z.of_nat j) in Hst by lia.
          exact Hst.
      + (* go down one row, come back, continue *)
        destruct junk0 as [|y junk0]; [discriminate|].
        destruct (IHs (pre ++ [r]) (lower c j) (pfx ++ [Z.of_nat j]) junk0 fnd0) as [k1 [junk1 [x1 [Hl1 Hst1]]]].
        * rewrite !app_length. cbn. lia.
        * cbn in *. lia.
        * apply lower_nonneg; assumption.
        * rewrite lower_length. exact Hw'.
        * destruct (IHd (length c - S j)%nat ltac:(lia) (S j) (x1 :: junk1)
              (fnd0 ++ map (app (pfx ++ [Z.of_nat j])) (enum (r2 :: suf2) (lower c j))) ltac:(lia))
            as [k2 [junk2 [x2 [Hl2 Hst2]]]].
          { cbn in *. lia. }
          exists (S (k1 + k2)), junk2, x2. split; [cbn in *; lia|].
          econstructor; [cbn [row]; lia| |].
          { unfold mstep. cbn [part row counter found]. rewrite Hn1, Hn2, Hch.
            rewrite (Ha (Z.of_nat j)).
            destruct (Z.eqb_spec (Z.of_nat j) (Z.of_nat (length c))); [lia|].
            rewrite app_length. cbn [length].
            destruct (Z.ltb_spec (Z.of_nat (length pre) + 1) (Z.of_nat (length pre + S (S (length suf2))))); [|lia].
            replace (Z.to_nat (Z.of_nat (length pre) + 1)) with (length (pfx ++ [Z.of_nat j]))
              by (rewrite app_length; cbn; lia).
            replace (pfx ++ Z.of_nat j :: y :: junk0) with ((pfx ++ [Z.of_nat j]) ++ y :: junk0)
              by (rewrite <- app_assoc; reflexivity).
            rewrite assign_app. reflexivity. }
          eapply steps_trans.
          { rewrite lower_length in Hst1.
            replace (pre ++ r :: r2 :: suf2) with ((pre ++ [r]) ++ r2 :: suf2) by (rewrite <- app_assoc; reflexivity).
            replace (Z.of_nat (length pre) + 1) with (Z.of_nat (length (pre ++ [r]))) by (rewrite app_length; cbn; lia).
            exact Hst1. }
          replace (pre ++ r :: r2 :: suf2) with ((pre ++ [r]) ++ r2 :: suf2) in Hst2 by (rewrite <- app_assoc; reflexivity).
          replace (Z.of_nat (length (pre ++ [r])) - 1) with (Z.of_nat (length pre)) by (rewrite app_length; cbn; lia).
          replace (Z.of_nat (S j) - 1) with (Z.of_nat j) in Hst2 by lia.
          replace ((pfx ++ [Z.of_nat j]) ++ x1 :: junk1) with (pfx ++ Z.of_nat j :: x1 :: junk1)
            by (rewrite <- app_assoc; reflexivity).
          replace (pre ++ r :: r2 :: suf2) with ((pre ++ [r]) ++ r2 :: suf2) by (rewrite <- app_assoc; reflexivity).
          replace (map (app pfx) (map (cons (Z.of_nat j)) (enum (r2 :: suf2) (lower c j))))
            with (map (app (pfx ++ [Z.of_nat j])) (enum (r2 :: suf2) (lower c j))).
          2:{ rewrite map_map. apply map_ext. intro a. rewrite <- app_assoc. reflexivity. }
          exact Hst2.
    - (* the row is exhausted *)
      assert (j = length c) by lia. subst j.
      rewrite Nat.sub_diag. cbn [seq flat_map map]. rewrite app_nil_r.
      exists 1%nat, junk0, (Z.of_nat (length c)). split; [reflexivity|].
      econstructor; [cbn [row]; lia| |constructor].
      unfold mstep. cbn [part row counter found]. rewrite Hn1, Hn2, Hch, (Ha (Z.of_nat (length c))).
      rewrite Z.eqb_refl. reflexivity. }
  destruct (Inner (length c) 0%nat junk fnd ltac:(lia) ltac:(cbn in Hj; lia)) as [k [junk' [x' [Hl Hst]]]].
  exists k, junk', x'. split; [exact Hl|].
  cbn [Z.of_nat] in Hst. replace (0 - 1) with (-1) in Hst by lia.
  rewrite Nat.sub_0_r in Hst. exact Hst.
Qed.

Lemma run_enumerates : forall degs sizes, well_formed degs sizes ->
  exists fuel s, mrun degs (length sizes) fuel (minit (length degs) sizes) = Done s
    /\ found s = enum degs sizes /\
    forall fuel', (fuel <= fuel')%nat -> mrun degs (length sizes) fuel' (minit (length degs) sizes) = Done s.
Proof.
  intros degs sizes [Hne [Hw Hnn]].
  destruct degs as [|r degs]; [congruence|].
  destruct (explore (r :: degs) [] sizes [] (repeat (-1) (length degs)) [] eq_refl) as [k [junk' [x' [_ Hst]]]].
  - rewrite repeat_length. reflexivity.
  - exact Hnn.
  - exact Hw.
  - cbn [app length Z.of_nat] in Hst.
    exists k. eexists. pose proof (steps_run _ _ _ _ _ Hst) as Hrun.
    assert (Hdone : forall f, mrun (r :: degs) (length sizes) (k + f) (minit (length (r :: degs)) sizes)
       = Done (mkM (0 - 1) (x' :: junk') sizes (map (app []) (enum (r :: degs) sizes)))).
    { intro f. unfold minit. cbn [length repeat]. rewrite Hrun. destruct f; reflexivity. }
    split; [|split].
    + rewrite <- (Nat.add_0_r k). apply Hdone.
    + cbn [found]. rewrite map_id. reflexivity.
    + intros f' Hf. replace f' with (k + (f' - k))%nat by lia. apply Hdone.
Qed.

(** the enumeration is exactly the valid partitions, without repetition *)
Lemma count_occ_cons_Z : forall (c : Z) p j,
  Z.of_nat (count_occ Z.eq_dec (c :: p) j) = (if Z.eq_dec c j then 1 else 0) + Z.of_nat (count_occ Z.eq_dec p j).
Proof. intros. cbn. destruct (Z.eq_dec c j); lia. Qed.

Lemma nth_error_lower : forall l i j k, nth_error (lower l i) j = Some k -> (i < length l)%nat ->
  nth_error l j = Some (if Nat.eq_dec j i then k + 1 else k).
Proof.
  induction l as [|a l IH]; intros [|i] [|j] k H Hi; cbn [length nth_error lower] in *; try discriminate; try lia.
  - inversion H. destruct (Nat.eq_dec 0 0); [|congruence]. f_equal. lia.
  - exact H.
  - exact H.
  - rewrite (IH _ _ _ H) by lia. destruct (Nat.eq_dec j i), (Nat.eq_dec (S j) (S i)); try lia; reflexivity.
Qed.

Lemma nth_error_lower_fwd : forall l i j k, nth_error l j = Some k -> (i < length l)%nat ->
  nth_error (lower l i) j = Some (if Nat.eq_dec j i then k - 1 else k).
Proof.
  induction l as [|a l IH]; intros [|i] [|j] k H Hi; cbn [length nth_error lower] in *; try discriminate; try lia.
  - inversion H. reflexivity.
  - exact H.
  - exact H.
  - rewrite (IH _ _ _ H) by lia. destruct (Nat.eq_dec j i), (Nat.eq_dec (S j) (S i)); try lia; reflexivity.
Qed.

Lemma enum_valid : forall degs c p, nonneg c -> Forall (fun r => length r = length c) degs ->
  (In p (enum degs c) <-> valid_partition degs c p).
Proof.
  induction degs as [|r degs IH]; intros c p Hc Hw.
  - cbn. split.
    + intros [E|[]]. subst. split; [reflexivity|]. split.
      * intros i r c0 H. destruct i; discriminate.
      * intros j k H. cbn. apply nth_error_In in H. unfold nonneg in Hc. rewrite Forall_forall in Hc. apply Hc; assumption.
    + intros [Hl _]. destruct p; [left; reflexivity|discriminate].
  - pose proof (Forall_inv Hw) as Hr. cbn beta in Hr. pose proof (Forall_inv_tail Hw) as Hw'.
    cbn [enum]. rewrite in_flat_map. split.
    + intros [j [Hj Hp]]. apply in_seq in Hj.
      destruct ((nth j r 0 =? 0) || (nth j c 0 =? 0)) eqn:E; [contradiction|].
      apply orb_false_iff in E. destruct E as [E1 E2]. apply Z.eqb_neq in E1. apply Z.eqb_neq in E2.
      apply in_map_iff in Hp. destruct Hp as [q [Eq Hq]]. subst p.
      apply IH in Hq; [|apply lower_nonneg; assumption|rewrite lower_length; assumption].
      destruct Hq as [Hl [Hd Hk]]. split; [cbn; lia|]. split.
      * intros [|i] r0 c0 H1 H2; cbn in H1, H2.
        { inversion H1; inversion H2; subst. split; [lia|]. exists (nth j r0 0). rewrite Nat2Z.id.
          split; [apply nth_error_nth0; lia|assumption]. }
        { destruct (Hd i r0 c0 H1 H2) as [Hb He]. rewrite lower_length in Hb. auto. }
      * intros i k Hi. rewrite count_occ_cons_Z.
        pose proof (Hk i _ (nth_error_lower_fwd _ j _ _ Hi ltac:(lia))) as Hk'.
        destruct (Nat.eq_dec i j), (Z.eq_dec (Z.of_nat j) (Z.of_nat i)); try lia.
    + intros [Hl [Hd Hk]]. destruct p as [|c0 p]; [discriminate|].
      destruct (Hd 0%nat r c0 eq_refl eq_refl) as [Hb [d [Hd0 Hdn]]].
      exists (Z.to_nat c0). split; [apply in_seq; lia|].
      assert (Hdr : nth (Z.to_nat c0) r 0 = d) by (apply nth_error_nth; assumption).
      assert (Hce : nth_error c (Z.to_nat c0) = Some (nth (Z.to_nat c0) c 0)) by (apply nth_error_nth0; lia).
      pose proof (Hk _ _ Hce) as Hk0. rewrite count_occ_cons_Z in Hk0.
      rewrite Z2Nat.id in Hk0 by lia. destruct (Z.eq_dec c0 c0); [|congruence].
      assert (E1 : (nth (Z.to_nat c0) r 0 =? 0) = false) by (apply Z.eqb_neq; congruence).
      assert (E2 : (nth (Z.to_nat c0) c 0 =? 0) = false) by (apply Z.eqb_neq; lia).
      rewrite E1, E2. cbn [orb].
      apply in_map_iff. exists p. rewrite Z2Nat.id by lia. split; [reflexivity|].
      apply IH; [apply lower_nonneg; [assumption|apply Z.eqb_neq; assumption]|rewrite lower_length; assumption|].
      split; [cbn in Hl; lia|]. split.
      * intros i r0 c1 H1 H2. destruct (Hd (S i) r0 c1 H1 H2) as [Hb1 He]. rewrite lower_length. auto.
      * intros i k Hi. apply nth_error_lower in Hi; [|lia].
        pose proof (Hk _ _ Hi) as Hki. rewrite count_occ_cons_Z in Hki.
        destruct (Nat.eq_dec i (Z.to_nat c0)), (Z.eq_dec c0 (Z.of_nat i)); try lia.
Qed.

Lemma NoDup_flat_map_cons : forall (f : nat -> list (list Z)) l,
  NoDup l -> (forall j, NoDup (f j)) ->
  (forall j p, In p (f j) -> exists q, p = Z.of_nat j :: q) -> NoDup (flat_map f l).
Proof.
  intros f l Hl Hf Hh. induction Hl as [|j l Hj Hl IH]; cbn; [constructor|].
  assert (G : forall a b : list (list Z), NoDup a -> NoDup b -> (forall x, In x a -> ~ In x b) -> NoDup (a ++ b)).
  { clear. induction a as [|x a IH]; intros b Ha Hb Hd; cbn; [assumption|].
    inversion Ha; subst. constructor.
    - rewrite in_app_iff. intros [H|H]; [contradiction|]. exact (Hd x (or_introl eq_refl) H).
    - apply IH; [assumption|assumption|]. intros y Hy. apply Hd. right; assumption. }
  apply G; [apply Hf|assumption|].
  intros p Hp Hin. apply in_flat_map in Hin. destruct Hin as [i [Hi Hpi]].
  destruct (Hh _ _ Hp) as [q Eq]. destruct (Hh _ _ Hpi) as [q' Eq']. subst p. inversion Eq'.
  apply Nat2Z.inj in H0. subst. contradiction.
Qed.

Lemma enum_nodup : forall degs c, NoDup (enum degs c).
Proof.
  induction degs as [|r degs IH]; intro c; cbn [enum].
  - constructor; [intros []|constructor].
  - apply NoDup_flat_map_cons; [apply seq_NoDup| |].
    + intro j. destruct ((nth j r 0 =? 0) || (nth j c 0 =? 0)); [constructor|].
      apply FinFun.Injective_map_NoDup; [|apply IH]. intros a b E. inversion E. reflexivity.
    + intros j p Hp. destruct ((nth j r 0 =? 0) || (nth j c 0 =? 0)); [contradiction|].
      apply in_map_iff in Hp. destruct Hp as [q [E _]]. exists q. congruence.
Qed.

(** products and sums *)
Fixpoint product_for (degs : list (list Z)) (p : list Z) : Z :=
  match degs, p with
  | r :: degs', c :: p' => nth (Z.to_nat c) r 0 * product_for degs' p'
  | _, _ => 1
  end.

Lemma wrap64_mul_wrap : forall a b, wrap64 (a * wrap64 b) = wrap64 (a * b).
Proof. intros. unfold wrap64. apply Z.mul_mod_idemp_r. lia. Qed.

Lemma wrap64_add_wrap : forall a b, wrap64 (wrap64 a + wrap64 b) = wrap64 (a + b).
Proof. intros. unfold wrap64. symmetry. apply Z.add_mod. lia. Qed.

Lemma wrap64_idem : forall a, wrap64 (wrap64 a) = wrap64 a.
Proof. intros. unfold wrap64. apply Z.mod_mod. lia. Qed.

Lemma points_for_partition_ok : forall degs c p, valid_partition degs c p ->
  exists k, points_for_partition degs p = Some k /\ wrap64 k = wrap64 (product_for degs p).
Proof.
  induction degs as [|r degs IH]; intros c p [Hl [Hd Hk]]; destruct p as [|c0 p]; try discriminate.
  - exists 1. split; reflexivity.
  - destruct (Hd 0%nat r c0 eq_refl eq_refl) as [Hb [d [Hd0 Hdn]]].
    destruct (IH c p) as [k [Ek Wk]].
    { split; [cbn in Hl; lia|]. split.
      - intros i r1 c1 H1 H2. apply (Hd (S i) r1 c1 H1 H2).
      - intros j k Hj. specialize (Hk j k Hj). rewrite count_occ_cons_Z in Hk. destruct (Z.eq_dec c0 (Z.of_nat j)); lia. }
    cbn [points_for_partition product_for]. rewrite Hd0, Ek.
    exists (wrap64 (d * k)). split; [reflexivity|].
    rewrite (nth_error_nth _ _ 0 Hd0). rewrite wrap64_idem.
    rewrite <- wrap64_mul_wrap, Wk, wrap64_mul_wrap. reflexivity.
Qed.

Definition sumZ (l : list Z) : Z := fold_right Z.add 0 l.

Lemma sumZ_app : forall a b, sumZ (a ++ b) = sumZ a + sumZ b.
Proof. unfold sumZ. induction a; intros; cbn; [lia|]. rewrite IHa. lia. Qed.

Lemma num_mhom_points_ok : forall degs c ps, (forall p, In p ps -> valid_partition degs c p) ->
  exists k, num_mhom_points degs ps = Some k /\ wrap64 k = wrap64 (sumZ (map (product_for degs) ps)).
Proof.
  intros degs c. induction ps as [|p ps IH]; intro H.
  - exists 0. split; reflexivity.
  - destruct (points_for_partition_ok degs c p (H p (or_introl eq_refl))) as [a [Ea Wa]].
    destruct IH as [b [Eb Wb]]; [intros; apply H; right; assumption|].
    cbn [num_mhom_points map sumZ fold_right]. rewrite Ea, Eb. eexists; split; [reflexivity|].
    rewrite wrap64_idem, <- wrap64_add_wrap, Wa, Wb, wrap64_add_wrap. reflexivity.
Qed.

Lemma sumZ_flat_map : forall (A : Type) (f : A -> list (list Z)) (g : list Z -> Z) l,
  sumZ (map g (flat_map f l)) = sumZ (map (fun a => sumZ (map g (f a))) l).
Proof.
  intros A f g. induction l as [|a l IH]; [reflexivity|].
  cbn [flat_map map]. rewrite map_app, sumZ_app, IH. reflexivity.
Qed.

Lemma sumZ_map_mul : forall (A : Type) k (f : A -> Z) l, sumZ (map (fun a => k * f a) l) = k * sumZ (map f l).
Proof. intros A k f. unfold sumZ. induction l; cbn; [lia|]. rewrite IHl. lia. Qed.

Lemma lower_sum : forall c j, (j < length c)%nat -> sumZ (lower c j) = sumZ c - 1.
Proof.
  unfold sumZ. induction c as [|a c IH]; intros [|j] H; cbn in *; try lia. rewrite IH by lia. lia.
Qed.

(** if the sizes add up to the number of rows, the sum of products is the Bezout coefficient *)
Lemma enum_bezout : forall degs c, nonneg c -> Forall (fun r => length r = length c) degs ->
  sumZ c = Z.of_nat (length degs) -> sumZ (map (product_for degs) (enum degs c)) = bezout_coefficient degs c.
Proof.
  induction degs as [|r degs IH]; intros c Hc Hw Hs.
  - cbn. assert (E : forallb (Z.eqb 0) c = true).
    { clear - Hc Hs. unfold nonneg in Hc. induction Hc as [|a c Ha Hc IH]; cbn in *; [reflexivity|].
      assert (0 <= sumZ c) by (clear - Hc; induction Hc; unfold sumZ in *; cbn; lia).
      unfold sumZ in *. assert (a = 0) by lia. subst a. cbn [Z.eqb andb]. apply IH. lia. }
    rewrite E. reflexivity.
  - pose proof (Forall_inv Hw) as Hr. cbn beta in Hr. pose proof (Forall_inv_tail Hw) as Hw'.
    cbn [enum bezout_coefficient]. rewrite sumZ_flat_map. unfold sumZ at 1. f_equal.
    apply map_ext_in. intros j Hj. apply in_seq in Hj.
    pose proof (nonneg_nth c j Hc) as Hnn.
    destruct (Z.ltb_spec 0 (nth j c 0)) as [Hpos|Hnp].
    + destruct (Z.eqb_spec (nth j c 0) 0); [lia|]. rewrite orb_false_r.
      destruct (Z.eqb_spec (nth j r 0) 0) as [E0|N0].
      * rewrite E0. cbn [map]. unfold sumZ. cbn. lia.
      * rewrite map_map. cbn [product_for].
        rewrite (map_ext _ (fun p => nth j r 0 * product_for degs p)).
        2:{ intro p. rewrite Nat2Z.id. reflexivity. }
        rewrite sumZ_map_mul. f_equal. apply IH.
        -- apply lower_nonneg; assumption.
        -- rewrite lower_length. assumption.
        -- rewrite lower_sum by lia. cbn [length] in Hs. lia.
    + assert (E : nth j c 0 = 0) by lia. rewrite E. cbn [Z.eqb]. rewrite orb_true_r. reflexivity.
Qed.

(** when the sizes add up to the number of rows every column is used exactly its size *)
Lemma valid_exact : forall sizes p,
  (forall c, In c p -> 0 <= c < Z.of_nat (length sizes)) ->
  (forall j k, nth_error sizes j = Some k -> Z.of_nat (count_occ Z.eq_dec p (Z.of_nat j)) <= k) ->
  sumZ sizes = Z.of_nat (length p) ->
  forall j k, nth_error sizes j = Some k -> Z.of_nat (count_occ Z.eq_dec p (Z.of_nat j)) = k.
Proof.
  intros sizes p Hin Hle Hsum.
  (* sum of the counts is the length *)
  assert (Hcount : sumZ (map (fun j => Z.of_nat (count_occ Z.eq_dec p (Z.of_nat j))) (seq 0 (length sizes)))
                   = Z.of_nat (length p)).
  { clear Hle Hsum. induction p as [|c p IH].
    - cbn [length]. rewrite (map_ext _ (fun _ => 0)); [|intro; reflexivity].
      unfold sumZ. induction (seq 0 (length sizes)); cbn; [reflexivity|]. exact IHl.
    - rewrite (map_ext _ (fun j => (if Z.eq_dec c (Z.of_nat j) then 1 else 0) + Z.of_nat (count_occ Z.eq_dec p (Z.of_nat j))))
        by (intro; apply count_occ_cons_Z).
      assert (Hadd : forall (f g : nat -> Z) l, sumZ (map (fun j => f j + g j) l) = sumZ (map f l) + sumZ (map g l)).
      { clear. unfold sumZ. intros f g. induction l; cbn; [reflexivity|]. rewrite IHl. lia. }
      rewrite Hadd, IH by (intros; apply Hin; right; assumption).
      assert (Hone : forall n x, (x < n)%nat -> forall b, sumZ (map (fun j => if Z.eq_dec (Z.of_nat (b + x)) (Z.of_nat j) then 1 else 0) (seq b n)) = 1).
      { clear. unfold sumZ. induction n as [|n IHn]; intros x Hx b; [lia|]. cbn [seq map fold_right].
        destruct x as [|x].
        - rewrite Nat.add_0_r. destruct (Z.eq_dec (Z.of_nat b) (Z.of_nat b)); [|congruence].
          assert (Hz : forall n b', (b < b')%nat -> fold_right Z.add 0 (map (fun j => if Z.eq_dec (Z.of_nat b) (Z.of_nat j) then 1 else 0) (seq b' n)) = 0).
          { clear. induction n; intros b' Hb; cbn; [reflexivity|].
            destruct (Z.eq_dec (Z.of_nat b) (Z.of_nat b')); [lia|]. rewrite IHn by lia. reflexivity. }
          rewrite Hz by lia. reflexivity.
        - destruct (Z.eq_dec (Z.of_nat (b + S x)) (Z.of_nat b)); [lia|].
          replace (b + S x)%nat with (S b + x)%nat by lia. rewrite IHn by lia. reflexivity. }
      specialize (Hin c (or_introl eq_refl)).
      specialize (Hone (length sizes) (Z.to_nat c) ltac:(lia) 0%nat).
      cbn [Nat.add] in Hone. rewrite Z2Nat.id in Hone by lia. rewrite Hone. cbn [length]. lia. }
  assert (Hsz : sumZ (map (fun j => nth j sizes 0) (seq 0 (length sizes))) = sumZ sizes).
  { clear. assert (G : forall l b pre, length pre = b -> map (fun j => nth j (pre ++ l) 0) (seq b (length l)) = l).
    { clear. induction l as [|a l IH]; intros b pre Hb; cbn [length seq map]; [reflexivity|].
      f_equal.
      - rewrite app_nth2 by lia. replace (b - length pre)%nat with 0%nat by lia. reflexivity.
      - replace (pre ++ a :: l) with ((pre ++ [a]) ++ l) by (rewrite <- app_assoc; reflexivity).
        apply IH. rewrite app_length. cbn. lia. }
    pose proof (G sizes 0%nat [] eq_refl) as E. cbn [app] in E. rewrite E. reflexivity. }
  rewrite <- Hsz in Hsum. rewrite <- Hcount in Hsum.
  intros j k Hj.
  assert (Hjl : (j < length sizes)%nat) by (apply nth_error_Some; congruence).
  assert (Hk : nth j sizes 0 = k) by (apply nth_error_nth; assumption).
  (* termwise <= and equal sums imply termwise = *)
  assert (G : forall (f g : nat -> Z) l, (forall i, In i l -> f i <= g i) -> sumZ (map g l) = sumZ (map f l) ->
              forall i, In i l -> f i = g i).
  { clear. unfold sumZ. intros f g. induction l as [|a l IH]; intros Hle Heq i Hi; [contradiction|].
    assert (Hs : forall l, (forall i, In i l -> f i <= g i) ->
                 fold_right Z.add 0 (map f l) <= fold_right Z.add 0 (map g l)).
    { clear. induction l; intros H; cbn; [lia|]. pose proof (H a (or_introl eq_refl)).
      specialize (IHl (fun i Hi => H i (or_intror Hi))). lia. }
    cbn in Heq. pose proof (Hle a (or_introl eq_refl)).
    pose proof (Hs l (fun i Hi => Hle i (or_intror Hi))).
    destruct Hi as [->|Hi]; [lia|]. apply IH; [intros; apply Hle; right; assumption|lia|assumption]. }
  rewrite <- Hk.
  apply (G (fun j => Z.of_nat (count_occ Z.eq_dec p (Z.of_nat j))) (fun j => nth j sizes 0) (seq 0 (length sizes))).
  - intros i Hi. apply in_seq in Hi. apply Hle. apply nth_error_nth0. lia.
  - exact Hsum.
  - apply in_seq. lia.
Qed.

(** ** Which start point has which index *)

(** conversion of an unsigned long long to int, and back *)
Definition to_int (x : Z) : Z := (x + 2 ^ 31) mod 2 ^ 32 - 2 ^ 31.

(** mhom.cpp:352-369: which partition, and the index within that partition *)
Fixpoint find_partition (degs : list (list Z)) (ps : list (list Z)) (counter index : Z)
  : outcome (list Z * Z) :=
  match ps with
  | [] => Throws
  | p :: r =>
      match points_for_partition degs p with
      | None => UB
      | Some k =>
          let counter1 := to_int (wrap64 (counter + k)) in
          if index <? wrap64 counter1
          then Value (p, wrap64 (index - to_int (wrap64 (counter1 - k))))
          else find_partition degs r counter1 index
      end
  end.

(** mhom.cpp:373-378: the degrees chosen by the partition *)
Fixpoint dims_of (degs : list (list Z)) (p : list Z) : option (list Z) :=
  match degs, p with
  | [], [] => Some []
  | r :: degs', c :: p' =>
      match nth_error r (Z.to_nat c), dims_of degs' p' with
      | Some d, Some k => Some (d :: k)
      | _, _ => None
      end
  | _, _ => None
  end.

(** mhom.cpp:346-380 *)
Definition start_choice (degs : list (list Z)) (ps : list (list Z)) (index : Z)
  : outcome (list Z * list Z) :=
  match ps with
  | [] => Throws
  | _ =>
      match find_partition degs ps 0 index with
      | Value (p, i) =>
          match dims_of degs p with
          | None => UB
          | Some dims =>
              match index_to_subscript i dims with
              | Value sub => Value (p, sub)
              | Throws => Throws
              | UB => UB
              end
          end
      | Throws => Throws
      | UB => UB
      end
  end.

(** specification: a start point is a partition from the list and one linear factor per function *)
Definition legal_choice (degs : list (list Z)) (ps : list (list Z)) (p sub : list Z) : Prop :=
  In p ps /\ exists dims, dims_of degs p = Some dims /\ legal_subscript dims sub.

Definition total_points (degs : list (list Z)) (ps : list (list Z)) : Z :=
  sumZ (map (product_for degs) ps).

Definition degrees_positive (degs : list (list Z)) : Prop := Forall (Forall (fun d => 0 <= d)) degs.

Lemma to_int_small : forall x, 0 <= x < 2 ^ 31 -> to_int (wrap64 x) = x.
Proof.
  intros x H. unfold to_int, wrap64.
  rewrite (Z.mod_small x (2 ^ 64)) by lia. rewrite Z.mod_small by lia. lia.
Qed.

Lemma valid_tail : forall r degs c c0 p, valid_partition (r :: degs) c (c0 :: p) -> valid_partition degs c p.
Proof.
  intros r degs c c0 p [Hl [Hd Hk]]. split; [cbn in Hl; lia|]. split.
  - intros i r1 c1 H1 H2. apply (Hd (S i) r1 c1 H1 H2).
  - intros j k Hj. specialize (Hk j k Hj). rewrite count_occ_cons_Z in Hk. destruct (Z.eq_dec c0 (Z.of_nat j)); lia.
Qed.

Lemma dims_of_ok : forall degs c p, valid_partition degs c p -> degrees_positive degs ->
  exists dims, dims_of degs p = Some dims /\ Forall (fun d => 1 <= d) dims /\ num_cells dims = product_for degs p
    /\ length dims = length degs.
Proof.
  induction degs as [|r degs IH]; intros c p Hv Hpos; destruct p as [|c0 p]; try (destruct Hv; discriminate).
  - exists []. split; [reflexivity|]. split; [constructor|]. split; reflexivity.
  - destruct Hv as [Hl [Hd Hk]] eqn:E; clear E.
    destruct (Hd 0%nat r c0 eq_refl eq_refl) as [Hb [d [Hd0 Hdn]]].
    destruct (IH c p (valid_tail _ _ _ _ _ Hv) (Forall_inv_tail Hpos)) as [dims [E [Hf [Hc Hlen]]]].
    pose proof (Forall_inv Hpos) as Hr. cbn beta in Hr.
    assert (0 <= d) by (rewrite Forall_forall in Hr; apply Hr; apply nth_error_In with (1 := Hd0)).
    cbn [dims_of product_for]. rewrite Hd0, E. exists (d :: dims). split; [reflexivity|].
    split; [apply Forall_cons; [lia|assumption]|]. split; [|cbn; lia].
    rewrite (nth_error_nth _ _ 0 Hd0). unfold num_cells in *. cbn. rewrite Hc. reflexivity.
Qed.

Lemma product_pos : forall degs c p, valid_partition degs c p -> degrees_positive degs -> 1 <= product_for degs p.
Proof.
  intros degs c p Hv Hp. destruct (dims_of_ok _ _ _ Hv Hp) as [dims [_ [Hf [Hc _]]]].
  rewrite <- Hc. apply num_cells_pos. assumption.
Qed.

Lemma points_exact : forall degs c p, valid_partition degs c p -> degrees_positive degs ->
  product_for degs p < 2 ^ 64 -> points_for_partition degs p = Some (product_for degs p).
Proof.
  induction degs as [|r degs IH]; intros c p Hv Hpos Hlt; destruct p as [|c0 p]; try (destruct Hv; discriminate).
  - reflexivity.
  - destruct Hv as [Hl [Hd Hk]] eqn:E; clear E.
    destruct (Hd 0%nat r c0 eq_refl eq_refl) as [Hb [d [Hd0 Hdn]]].
    pose proof (Forall_inv Hpos) as Hr. cbn beta in Hr.
    assert (0 <= d) by (rewrite Forall_forall in Hr; apply Hr; apply nth_error_In with (1 := Hd0)).
    pose proof (product_pos _ _ _ (valid_tail _ _ _ _ _ Hv) (Forall_inv_tail Hpos)) as Hpp.
    cbn [points_for_partition product_for] in *. rewrite Hd0. rewrite (nth_error_nth _ _ 0 Hd0) in *.
    rewrite (IH c p (valid_tail _ _ _ _ _ Hv) (Forall_inv_tail Hpos)) by nia.
    f_equal. apply wrap64_small. nia.
Qed.

Definition all_valid (degs : list (list Z)) (sizes : list Z) (ps : list (list Z)) : Prop :=
  forall p, In p ps -> valid_partition degs sizes p.

Lemma total_nonneg : forall degs c ps, all_valid degs c ps -> degrees_positive degs -> 0 <= total_points degs ps.
Proof.
  intros degs c ps H Hp. unfold total_points, sumZ. induction ps as [|p ps IH]; cbn; [lia|].
  pose proof (product_pos _ _ _ (H p (or_introl eq_refl)) Hp).
  specialize (IH (fun q Hq => H q (or_intror Hq))). lia.
Qed.

Lemma find_partition_spec : forall degs c ps counter index,
  all_valid degs c ps -> degrees_positive degs -> 0 <= counter -> counter <= index -> index < 2 ^ 64 ->
  counter + total_points degs ps < 2 ^ 31 ->
  (index < counter + total_points degs ps /\
   exists pre p post i, ps = pre ++ p :: post /\ find_partition degs ps counter index = Value (p, i)
      /\ 0 <= i < product_for degs p /\ index = counter + total_points degs pre + i)
  \/ (counter + total_points degs ps <= index /\ find_partition degs ps counter index = Throws).
Proof.
  intros degs c. induction ps as [|p ps IH]; intros counter index Hv Hp Hc Hci Hi Ht.
  - right. unfold total_points, sumZ in *. cbn in *. split; [lia|reflexivity].
  - pose proof (Hv p (or_introl eq_refl)) as Hvp.
    assert (Hv' : all_valid degs c ps) by (intros q Hq; apply Hv; right; assumption).
    pose proof (product_pos _ _ _ Hvp Hp) as Hpp.
    pose proof (total_nonneg _ _ _ Hv' Hp) as Htn.
    assert (Et : total_points degs (p :: ps) = product_for degs p + total_points degs ps) by reflexivity.
    rewrite Et in *. cbn [find_partition].
    rewrite (points_exact _ _ _ Hvp Hp) by lia.
    rewrite (to_int_small (counter + product_for degs p)) by lia.
    rewrite (wrap64_small (counter + product_for degs p)) by lia.
    destruct (Z.ltb_spec index (counter + product_for degs p)).
    + left. split; [lia|]. exists [], p, ps, (index - counter). split; [reflexivity|]. split.
      * replace (counter + product_for degs p - product_for degs p) with counter by lia.
        rewrite to_int_small by lia. rewrite wrap64_small by lia. reflexivity.
      * split; [lia|]. unfold total_points, sumZ. cbn. lia.
    + destruct (IH (counter + product_for degs p) index Hv' Hp ltac:(lia) ltac:(lia) Hi ltac:(lia)) as
        [[Hlt [pre [q [post [i [Eps [Ef [Hib Hidx]]]]]]]] | [Hge Ef]].
      * left. split; [lia|]. exists (p :: pre), q, post, i. split; [cbn; congruence|]. split; [exact Ef|].
        split; [assumption|]. unfold total_points, sumZ in *. cbn. lia.
      * right. split; [lia|exact Ef].
Qed.

(** number of the choice (p, sub): points of the earlier partitions plus the position in this one *)
Fixpoint choice_number (degs : list (list Z)) (ps : list (list Z)) (p sub : list Z) : Z :=
  match ps with
  | [] => 0
  | q :: r =>
      if list_eq_dec Z.eq_dec q p
      then match dims_of degs p with Some dims => cell_position dims sub | None => 0 end
      else product_for degs q + choice_number degs r p sub
  end.

Lemma choice_number_app : forall degs pre p post sub, ~ In p pre ->
  choice_number degs (pre ++ p :: post) p sub =
  total_points degs pre + match dims_of degs p with Some dims => cell_position dims sub | None => 0 end.
Proof.
  intros degs. induction pre as [|q pre IH]; intros p post sub Hn; unfold total_points, sumZ in *; cbn [app choice_number map fold_right].
  - destruct (list_eq_dec Z.eq_dec p p); [lia|congruence].
  - destruct (list_eq_dec Z.eq_dec q p) as [->|]; [exfalso; apply Hn; left; reflexivity|].
    rewrite IH by (intro; apply Hn; right; assumption). lia.
Qed.

Lemma total_app : forall degs a b, total_points degs (a ++ b) = total_points degs a + total_points degs b.
Proof. intros. unfold total_points. rewrite map_app. apply sumZ_app. Qed.

Lemma start_choice_in_range : forall degs sizes ps index,
  degs <> [] -> all_valid degs sizes ps -> NoDup ps -> degrees_positive degs -> total_points degs ps < 2 ^ 31 ->
  0 <= index < total_points degs ps ->
  exists p sub, start_choice degs ps index = Value (p, sub) /\ legal_choice degs ps p sub
    /\ choice_number degs ps p sub = index.
Proof.
  intros degs sizes ps index Hne Hv Hnd Hp Ht Hi.
  assert (Hps : ps <> []) by (intro; subst; unfold total_points, sumZ in Hi; cbn in Hi; lia).
  destruct (find_partition_spec degs sizes ps 0 index Hv Hp ltac:(lia) ltac:(lia) ltac:(lia) ltac:(lia)) as
    [[Hlt [pre [p [post [i [Eps [Ef [Hib Hidx]]]]]]]] | [Hge _]]; [|lia].
  assert (Hin : In p ps) by (rewrite Eps; apply in_or_app; right; left; reflexivity).
  destruct (dims_of_ok _ _ _ (Hv p Hin) Hp) as [dims [Ed [Hf [Hc Hlen]]]].
  assert (Hprod : product_for degs p < 2 ^ 31).
  { rewrite Eps, total_app in Ht. unfold total_points at 2 in Ht. cbn [map sumZ fold_right] in Ht.
    pose proof (total_nonneg degs sizes pre (fun q Hq => Hv q ltac:(rewrite Eps; apply in_or_app; left; exact Hq)) Hp).
    pose proof (total_nonneg degs sizes post (fun q Hq => Hv q ltac:(rewrite Eps; apply in_or_app; right; right; exact Hq)) Hp).
    unfold total_points, sumZ in *. lia. }
  destruct (index_to_subscript_in_range dims i) as [sub [Es [Hl Hpos]]].
  - intro; subst dims. destruct degs; [congruence|discriminate].
  - assumption.
  - lia.
  - lia.
  - exists p, sub. split.
    + unfold start_choice. destruct ps; [congruence|]. rewrite Ef, Ed, Es. reflexivity.
    + split; [split; [assumption|]; exists dims; split; assumption|].
      rewrite Eps in *. rewrite choice_number_app.
      * rewrite Ed. lia.
      * apply NoDup_remove_2 in Hnd. intro. apply Hnd. apply in_or_app. left; assumption.
Qed.

Lemma legal_choice_number_bound : forall degs sizes ps p sub,
  all_valid degs sizes ps -> NoDup ps -> degrees_positive degs -> legal_choice degs ps p sub ->
  0 <= choice_number degs ps p sub < total_points degs ps.
Proof.
  intros degs sizes ps p sub Hv Hnd Hp [Hin [dims [Ed Hl]]].
  pose proof (cell_position_bound _ _ Hl) as Hb.
  destruct (dims_of_ok _ _ _ (Hv p Hin) Hp) as [dims' [Ed' [_ [Hc _]]]].
  rewrite Ed in Ed'. inversion Ed'; subst dims'.
  apply in_split in Hin. destruct Hin as [pre [post E]]. subst ps.
  rewrite choice_number_app.
  2:{ apply NoDup_remove_2 in Hnd. intro. apply Hnd. apply in_or_app. left; assumption. }
  rewrite Ed, total_app.
  pose proof (total_nonneg degs sizes pre (fun q Hq => Hv q ltac:(apply in_or_app; left; exact Hq)) Hp).
  pose proof (total_nonneg degs sizes post (fun q Hq => Hv q ltac:(apply in_or_app; right; right; exact Hq)) Hp).
  unfold total_points, sumZ in *. cbn [map fold_right] in *. lia.
Qed.

Lemma choice_number_inj : forall degs sizes ps p sub p' sub',
  all_valid degs sizes ps -> NoDup ps -> degrees_positive degs ->
  legal_choice degs ps p sub -> legal_choice degs ps p' sub' ->
  choice_number degs ps p sub = choice_number degs ps p' sub' -> p = p' /\ sub = sub'.
Proof.
  intros degs sizes. induction ps as [|q ps IH]; intros p sub p' sub' Hv Hnd Hp [Hin [dims [Ed Hl]]] [Hin' [dims' [Ed' Hl']]] E.
  - contradiction.
  - assert (Hv' : all_valid degs sizes ps) by (intros x Hx; apply Hv; right; assumption).
    inversion Hnd as [|? ? Hq Hnd']; subst.
    pose proof (cell_position_bound _ _ Hl) as Hb. pose proof (cell_position_bound _ _ Hl') as Hb'.
    destruct (dims_of_ok _ _ _ (Hv p Hin) Hp) as [d1 [E1 [_ [Hc1 _]]]]. rewrite Ed in E1. inversion E1; subst d1.
    destruct (dims_of_ok _ _ _ (Hv p' Hin') Hp) as [d2 [E2 [_ [Hc2 _]]]]. rewrite Ed' in E2. inversion E2; subst d2.
    cbn [choice_number] in E.
    destruct (list_eq_dec Z.eq_dec q p) as [Eq|Nq]; destruct (list_eq_dec Z.eq_dec q p') as [Eq'|Nq'].
    + subst. split; [congruence|]. rewrite Ed, Ed' in *. inversion Ed'; subst.
      eapply cell_position_inj; [exact Hl|exact Hl'|exact E].
    + destruct Hin' as [|Hin']; [contradiction|]. subst q. rewrite Ed in E.
      pose proof (legal_choice_number_bound degs sizes ps p' sub' Hv' Hnd' Hp (conj Hin' (ex_intro _ dims' (conj Ed' Hl')))). lia.
    + destruct Hin as [|Hin]; [contradiction|]. subst q. rewrite Ed' in E.
      pose proof (legal_choice_number_bound degs sizes ps p sub Hv' Hnd' Hp (conj Hin (ex_intro _ dims (conj Ed Hl)))). lia.
    + destruct Hin as [|Hin]; [contradiction|]. destruct Hin' as [|Hin']; [contradiction|].
      apply IH; auto.
      * split; [assumption|exists dims; split; assumption].
      * split; [assumption|exists dims'; split; assumption].
      * lia.
Qed.

Lemma start_choice_onto : forall degs sizes ps p sub,
  degs <> [] -> all_valid degs sizes ps -> NoDup ps -> degrees_positive degs -> total_points degs ps < 2 ^ 31 ->
  legal_choice degs ps p sub ->
  exists index, 0 <= index < total_points degs ps /\ start_choice degs ps index = Value (p, sub) /\
    forall index', 0 <= index' < total_points degs ps -> start_choice degs ps index' = Value (p, sub) -> index' = index.
Proof.
  intros degs sizes ps p sub Hne Hv Hnd Hp Ht Hlc.
  pose proof (legal_choice_number_bound degs sizes ps p sub Hv Hnd Hp Hlc) as Hb.
  exists (choice_number degs ps p sub). split; [assumption|].
  split.
  - destruct (start_choice_in_range degs sizes ps _ Hne Hv Hnd Hp Ht Hb) as [p' [sub' [E [Hl' Hn]]]].
    destruct (choice_number_inj degs sizes ps p' sub' p sub Hv Hnd Hp Hl' Hlc Hn) as [-> ->]. exact E.
  - intros i Hi E. destruct (start_choice_in_range degs sizes ps i Hne Hv Hnd Hp Ht Hi) as [p' [sub' [E' [_ Hn]]]].
    rewrite E in E'. inversion E'; subst. reflexivity.
Qed.

Lemma start_choice_out_of_range : forall degs sizes ps index,
  all_valid degs sizes ps -> degrees_positive degs -> total_points degs ps < 2 ^ 31 ->
  total_points degs ps <= index < 2 ^ 64 -> start_choice degs ps index = Throws.
Proof.
  intros degs sizes ps index Hv Hp Ht Hi. unfold start_choice.
  pose proof (total_nonneg _ _ _ Hv Hp).
  destruct (find_partition_spec degs sizes ps 0 index Hv Hp ltac:(lia) ltac:(lia) ltac:(lia) ltac:(lia)) as
    [[Hlt _] | [_ Ef]]; [lia|]. rewrite Ef. destruct ps; reflexivity.
Qed.

(** ** The start points are the zeros of the start system *)

Section Zeros.
  Context {F : fld}.
  Local Open Scope fld_scope.
  Add Field mhom_field : (f_th F).

  (** [sizes]: variables per column, [cf i j l]: coefficients of factor [l] of the linear product in
      entry (i,j), the last one being the constant (linear_product.hpp, GetCoeffs) *)
  Variable sizes : list nat.
  Variable cf : nat -> nat -> nat -> list F.

  Definition nvars : nat := fold_right Nat.add 0%nat sizes.

  (** mhom.cpp:167-172: the positions of the variables of group [j] are consecutive *)
  Definition offset (j : nat) : nat := fold_right Nat.add 0%nat (firstn j sizes).
  Definition size_of (j : nat) : nat := nth j sizes 0%nat.

  (** value at [x] of linear factor [l] of entry (i,j), the homogenizing variable not being present
      (linear_product.hpp: sum of coefficient times variable plus the last coefficient) *)
  Definition factor_value (i j l : nat) (x : list F) : F :=
    fsum (map (fun k => nth k (cf i j l) 0 * nth (offset j + k) x 0) (seq 0 (size_of j)))
    + nth (size_of j) (cf i j l) 0.

  (** mhom.cpp:64-90: function [i] of the start system is the product of the linear products of row i *)
  Definition start_function (degs : list (list Z)) (i : nat) (x : list F) : F :=
    fprod (map (fun j => fprod (map (fun l => factor_value i j l x)
                                   (seq 0 (Z.to_nat (nth j (nth i degs []) 0%Z)))))
               (seq 0 (length sizes))).

  (** mhom.cpp:391-403: row of A and entry of b for factor [l] of entry (i,j) *)
  Definition row_A (i j l : nat) : list F :=
    map (fun v => if ((offset j <=? v) && (v <? offset j + size_of j))%nat
                  then nth (v - offset j) (cf i j l) 0 else 0) (seq 0 nvars).
  Definition entry_b (i j l : nat) : F := - nth (size_of j) (cf i j l) 0.

  Definition dot (a x : list F) : F := fsum (map (fun p => fst p * snd p) (combine a x)).

  (** mhom.cpp:406: x solves the linear system of the choice *)
  Definition solves (p sub : list Z) (x : list F) : Prop :=
    length x = nvars /\
    forall i c s, nth_error p i = Some c -> nth_error sub i = Some s ->
      dot (row_A i (Z.to_nat c) (Z.to_nat s)) x = entry_b i (Z.to_nat c) (Z.to_nat s).

  Lemma dot_map_seq : forall (g : nat -> F) (x : list F) b,
    dot (map g (seq b (length x))) x = fsum (map (fun v => g v * nth (v - b) x 0) (seq b (length x))).
  Proof.
    unfold dot. intros g x. induction x as [|a x IH]; intro b; [reflexivity|].
    cbn [length seq map combine fsum fst snd]. unfold fsum in *. cbn [fold_right].
    rewrite Nat.sub_diag. cbn [nth]. f_equal. rewrite IH. f_equal.
    apply map_ext_in. intros v Hv. apply in_seq in Hv.
    replace (v - b)%nat with (S (v - S b)) by lia. reflexivity.
  Qed.

  Lemma fsum_zero : forall (A : Type) (f : A -> F) l, (forall a, In a l -> f a = 0) -> fsum (map f l) = 0.
  Proof.
    intros A f l. unfold fsum. induction l as [|a l IH]; intro H; cbn; [reflexivity|].
    rewrite (H a (or_introl eq_refl)), IH by (intros; apply H; right; assumption). ring.
  Qed.

  Lemma fsum_app' : forall a b : list F, fsum (a ++ b) = fsum a + fsum b.
  Proof. intros. apply fsum_app. Qed.

  Lemma fsum_window : forall (h : nat -> F) n o s, (o + s <= n)%nat ->
    fsum (map (fun v => if ((o <=? v) && (v <? o + s))%nat then h v else 0) (seq 0 n))
    = fsum (map (fun k => h (o + k)%nat) (seq 0 s)).
  Proof.
    intros h n o s H.
    replace n with (o + (s + (n - o - s)))%nat by lia.
    rewrite !seq_app, !map_app, !fsum_app'. cbn [Nat.add].
    rewrite fsum_zero.
    2:{ intros v Hv. apply in_seq in Hv. destruct (Nat.leb_spec o v); [lia|reflexivity]. }
    rewrite (fsum_zero _ _ (seq (o + s) (n - o - s))).
    2:{ intros v Hv. apply in_seq in Hv. destruct (Nat.ltb_spec v (o + s)); [lia|]. rewrite andb_false_r. reflexivity. }
    assert (E : map (fun v => if ((o <=? v) && (v <? o + s))%nat then h v else 0) (seq o s)
              = map (fun k => h (o + k)%nat) (seq 0 s)).
    { clear. assert (G : forall t q, map (fun v => if ((o <=? v) && (v <? o + (q + t)))%nat then h v else 0) (seq (o + q) t)
                             = map (fun k => h (o + k)%nat) (seq q t)).
      { induction t as [|t IH]; intro q; cbn [seq map]; [reflexivity|].
        destruct (Nat.leb_spec o (o + q)); [|lia]. destruct (Nat.ltb_spec (o + q) (o + (q + S t))); [|lia].
        cbn [andb]. f_equal. specialize (IH (S q)).
        replace (S q + t)%nat with (q + S t)%nat in IH by lia.
        replace (o + S q)%nat with (S (o + q)) in IH by lia. exact IH. }
      specialize (G s 0%nat). rewrite Nat.add_0_r in G. exact G. }
    rewrite E. ring.
  Qed.

  Lemma offset_bound : forall j, (j < length sizes)%nat -> (offset j + size_of j <= nvars)%nat.
  Proof.
    unfold offset, size_of, nvars. induction sizes as [|a l IH]; intros j H; [cbn in H; lia|].
    destruct j as [|j]; cbn [length firstn nth fold_right] in *; [lia|].
    specialize (IH j ltac:(lia)). lia.
  Qed.

  Lemma row_vanishes : forall i j l x, (j < length sizes)%nat -> length x = nvars ->
    (dot (row_A i j l) x = entry_b i j l <-> factor_value i j l x = 0).
  Proof.
    intros i j l x Hj Hx. unfold row_A, entry_b, factor_value. rewrite <- Hx.
    rewrite (dot_map_seq _ x 0).
    assert (E : fsum (map (fun v : nat => (if ((offset j <=? v) && (v <? offset j + size_of j))%nat
                       then nth (v - offset j) (cf i j l) 0 else 0) * nth (v - 0) x 0) (seq 0 (length x)))
              = fsum (map (fun k => nth k (cf i j l) 0 * nth (offset j + k) x 0) (seq 0 (size_of j)))).
    { rewrite (map_ext _ (fun v => if ((offset j <=? v) && (v <? offset j + size_of j))%nat
                           then nth (v - offset j) (cf i j l) 0 * nth v x 0 else 0)).
      2:{ intro v. rewrite Nat.sub_0_r. destruct ((offset j <=? v) && (v <? offset j + size_of j))%nat; [reflexivity|ring]. }
      rewrite (fsum_window (fun v => nth (v - offset j) (cf i j l) 0 * nth v x 0)).
      2:{ rewrite Hx. apply offset_bound. assumption. }
      f_equal. apply map_ext. intro k. replace (offset j + k - offset j)%nat with k by lia. reflexivity. }
    rewrite E. split; intro H; [rewrite H; ring|].
    revert H. generalize (nth (size_of j) (cf i j l) 0).
    generalize (fsum (map (fun k => nth k (cf i j l) 0 * nth (offset j + k) x 0) (seq 0 (size_of j)))).
    intros a c H. transitivity ((a + c) - c); [ring|]. rewrite H. ring.
  Qed.

  (** a solution of the linear system of a legal choice is a zero of every start function *)
  Lemma choice_solution_is_zero : forall degs ps p sub x, length sizes <> 0%nat ->
    all_valid degs (map Z.of_nat sizes) ps -> legal_choice degs ps p sub -> solves p sub x ->
    forall i, (i < length degs)%nat -> start_function degs i x = 0.
  Proof.
    intros degs ps p sub x Hs Hv [Hin [dims [Ed Hl]]] [Hx Hsol] i Hi.
    destruct (Hv p Hin) as [Hlen [Hd _]].
    destruct (nth_error degs i) as [r|] eqn:Er; [|apply nth_error_None in Er; lia].
    destruct (nth_error p i) as [c|] eqn:Ec; [|apply nth_error_None in Ec; lia].
    destruct (Hd i r c Er Ec) as [Hc [d [Hdr Hdn]]]. rewrite map_length in Hc.
    (* the subscript of row i is below the degree *)
    assert (Hs1 : exists s, nth_error sub i = Some s /\ (0 <= s < d)%Z).
    { assert (Hdims : nth_error dims i = Some d).
      { clear - Ed Er Ec Hdr. revert p dims i Ed Er Ec. induction degs as [|r0 degs IH]; intros p dims i Ed Er Ec.
        - destruct i; discriminate.
        - destruct p as [|c0 p]; [destruct i; discriminate|]. cbn in Ed.
          destruct (nth_error r0 (Z.to_nat c0)) eqn:E0; [|discriminate].
          destruct (dims_of degs p) eqn:E1; [|discriminate]. inversion Ed; subst.
          destruct i as [|i]; cbn in Er, Ec |- *.
          + inversion Er; inversion Ec; subst. congruence.
          + eapply IH; eassumption. }
      clear - Hl Hdims. unfold legal_subscript in Hl. revert i Hdims.
      induction Hl as [|d0 s0 dims sub Hb Hl IH]; intros i Hd; [destruct i; discriminate|].
      destruct i as [|i]; cbn in Hd |- *.
      - inversion Hd; subst. exists s0. split; [reflexivity|assumption].
      - apply IH. assumption. }
    destruct Hs1 as [s [Es Hsb]].
    pose proof (Hsol i c s Ec Es) as Hdot. apply row_vanishes in Hdot; [|lia|assumption].
    unfold start_function.
    apply fprod_eq0. apply in_map_iff. exists (Z.to_nat c). split; [|apply in_seq; lia].
    apply fprod_eq0. apply in_map_iff. exists (Z.to_nat s). split; [exact Hdot|].
    apply in_seq. rewrite (nth_error_nth _ _ _ Er). rewrite (nth_error_nth _ _ 0%Z Hdr). lia.
  Qed.

  (** general position: a point cannot satisfy more factors of one group than the group has variables *)
  Definition general_position (degs : list (list Z)) : Prop :=
    forall p sub x, length p = length degs -> length sub = length degs -> solves p sub x ->
      forall j k, nth_error sizes j = Some k -> (count_occ Z.eq_dec p (Z.of_nat j) <= k)%nat.

  Lemma choose_list : forall (P : nat -> Z * Z -> Prop) n, (forall i, (i < n)%nat -> exists a, P i a) ->
    exists l, length l = n /\ forall i a, nth_error l i = Some a -> P i a.
  Proof.
    intros P n. induction n as [|n IH]; intro H.
    - exists []. split; [reflexivity|]. intros i a Hi. destruct i; discriminate.
    - destruct IH as [l [Hl Hp]]; [intros; apply H; lia|].
      destruct (H n ltac:(lia)) as [a Ha]. exists (l ++ [a]). split; [rewrite app_length; cbn; lia|].
      intros i b Hi. destruct (Nat.lt_ge_cases i n).
      + rewrite nth_error_app1 in Hi by lia. apply Hp. assumption.
      + rewrite nth_error_app2 in Hi by lia. destruct (i - length l)%nat eqn:E; cbn in Hi.
        * inversion Hi; subst. replace i with (length l) by lia. assumption.
        * destruct n0; discriminate.
  Qed.

  Lemma legal_from_pointwise : forall degs p sub, length p = length degs -> length sub = length degs ->
    (forall i r c s, nth_error degs i = Some r -> nth_error p i = Some c -> nth_error sub i = Some s ->
       exists d, nth_error r (Z.to_nat c) = Some d /\ (0 <= s < d)%Z) ->
    exists dims, dims_of degs p = Some dims /\ legal_subscript dims sub.
  Proof.
    induction degs as [|r degs IH]; intros p sub Hp Hs H; destruct p as [|c p]; destruct sub as [|s sub]; try discriminate.
    - exists []. split; [reflexivity|constructor].
    - destruct (IH p sub ltac:(cbn in *; lia) ltac:(cbn in *; lia)) as [dims [E Hl]].
      { intros i r0 c0 s0 H1 H2 H3. apply (H (S i) r0 c0 s0 H1 H2 H3). }
      destruct (H 0%nat r c s eq_refl eq_refl eq_refl) as [d [Hd Hb]].
      exists (d :: dims). cbn [dims_of]. rewrite Hd, E. split; [reflexivity|].
      unfold legal_subscript in *. constructor; assumption.
  Qed.

  (** every zero of the start system solves the linear system of some legal choice *)
  Lemma zero_is_choice_solution : forall degs ps x,
    Forall (fun r => length r = length sizes) degs ->
    (forall p, In p ps <-> valid_partition degs (map Z.of_nat sizes) p) -> general_position degs ->
    length x = nvars -> (forall i, (i < length degs)%nat -> start_function degs i x = 0) ->
    exists p sub, legal_choice degs ps p sub /\ solves p sub x.
  Proof.
    intros degs ps x Hw Hps Hgp Hx Hz.
    destruct (choose_list (fun i a => forall r, nth_error degs i = Some r ->
        (0 <= fst a < Z.of_nat (length sizes))%Z /\
        (exists d, nth_error r (Z.to_nat (fst a)) = Some d /\ (0 <= snd a < d)%Z) /\
        factor_value i (Z.to_nat (fst a)) (Z.to_nat (snd a)) x = 0) (length degs)) as [l [Hl Hp]].
    { intros i Hi. specialize (Hz i Hi). unfold start_function in Hz.
      apply fprod_eq0 in Hz. apply in_map_iff in Hz. destruct Hz as [j [Hj Hin]]. apply in_seq in Hin.
      apply fprod_eq0 in Hj. apply in_map_iff in Hj. destruct Hj as [t [Ht Hin']]. apply in_seq in Hin'.
      exists (Z.of_nat j, Z.of_nat t). intros r Er. cbn [fst snd].
      rewrite (nth_error_nth _ _ _ Er) in Hin'.
      split; [lia|]. rewrite !Nat2Z.id. split; [|exact Ht].
      exists (nth j r 0%Z). split; [|lia].
      apply nth_error_nth0. rewrite Forall_forall in Hw. rewrite (Hw r (nth_error_In _ _ Er)). lia. }
    assert (Hgeti : forall (f : Z * Z -> Z) i v, nth_error (map f l) i = Some v ->
              exists a, nth_error l i = Some a /\ v = f a).
    { intros f i v H. rewrite nth_error_map in H. destruct (nth_error l i) as [a|]; [|discriminate].
      exists a. split; [reflexivity|]. cbn in H. congruence. }
    exists (map fst l), (map snd l).
    assert (Hsol : solves (map fst l) (map snd l) x).
    { split; [assumption|]. intros i c s Hc Hs.
      destruct (Hgeti fst i c Hc) as [a [Ea ->]]. destruct (Hgeti snd i s Hs) as [a' [Ea' ->]].
      rewrite Ea in Ea'. inversion Ea'; subst a'.
      assert (Hi : (i < length degs)%nat) by (rewrite <- Hl; apply nth_error_Some; congruence).
      destruct (nth_error degs i) as [r|] eqn:Er; [|apply nth_error_None in Er; lia].
      destruct (Hp i a Ea r Er) as [Hb [_ Hf]]. apply row_vanishes; [lia|assumption|assumption]. }
    split; [|exact Hsol].
    split.
    - apply Hps. split; [rewrite map_length; assumption|]. split.
      + intros i r c Er Hc. destruct (Hgeti fst i c Hc) as [a [Ea ->]].
        destruct (Hp i a Ea r Er) as [Hb [[d [Hd Hsd]] _]]. rewrite map_length. split; [assumption|].
        exists d. split; [assumption|lia].
      + intros j k Hk. rewrite nth_error_map in Hk. destruct (nth_error sizes j) as [k0|] eqn:Ek; [|discriminate].
        cbn in Hk. inversion Hk; subst.
        pose proof (Hgp (map fst l) (map snd l) x ltac:(rewrite map_length; exact Hl) ltac:(rewrite map_length; exact Hl) Hsol j k0 Ek). lia.
    - apply legal_from_pointwise; [rewrite map_length; assumption|rewrite map_length; assumption|].
      intros i r c s Er Hc Hs.
      destruct (Hgeti fst i c Hc) as [a [Ea ->]]. destruct (Hgeti snd i s Hs) as [a' [Ea' ->]].
      rewrite Ea in Ea'. inversion Ea'; subst a'.
      destruct (Hp i a Ea r Er) as [_ [Hd _]]. exact Hd.
  Qed.
End Zeros.

(** ** The number of start points of a system with given variable groups *)

(** kind and number of variables of a variable group, in the order in which groups were added
    (system.hpp: time_order_of_variable_groups_) *)
Inductive group_kind := HomGroup | AffineGroup.
Definition group := (group_kind * Z)%type.
Definition is_hom (g : group) : bool := match fst g with HomGroup => true | AffineGroup => false end.

(** system.cpp:872-889 VariableGroupSizesFIFO, [homogenized] being NumHomVariables() > 0 *)
Definition group_sizes_fifo (gs : list group) (homogenized : bool) : list Z :=
  map (fun g => match fst g with
                | HomGroup => snd g
                | AffineGroup => snd g + (if homogenized then 1 else 0)
                end) gs.

(** mhom.cpp:152-155: columns are the homogeneous groups, then the affine ones *)
Definition columns (gs : list group) : list group :=
  filter is_hom gs ++ filter (fun g => negb (is_hom g)) gs.

(** mhom.cpp:220-272 and 122-130 for a target with variable groups [gs] and degree matrix [degs]
    (whose columns are [columns gs]): the number of start points *)
Definition mhom_num_start_points (degs : list (list Z)) (gs : list group) (homogenized : bool) (fuel : nat)
  : option Z :=
  match mrun degs (length gs) fuel (minit (length degs) (group_sizes_fifo gs homogenized)) with
  | Done s => num_mhom_points degs (found s)
  | _ => None
  end.

(** specification: dimension of the projective or affine space of each column; the Bezout number *)
Definition group_dimension (g : group) : Z :=
  match fst g with HomGroup => snd g - 1 | AffineGroup => snd g end.
Definition mhom_bezout (degs : list (list Z)) (gs : list group) : Z :=
  bezout_coefficient degs (map group_dimension (columns gs)).

Lemma columns_affine : forall gs : list group, Forall (fun g => fst g = AffineGroup) gs -> columns gs = gs.
Proof.
  intros gs H. unfold columns.
  assert (E1 : filter is_hom gs = []).
  { induction H as [|g gs Hg H IH]; [reflexivity|]. cbn. unfold is_hom at 1. rewrite Hg. exact IH. }
  assert (E2 : filter (fun g => negb (is_hom g)) gs = gs).
  { induction H as [|g gs Hg H IH]; [reflexivity|]. cbn. unfold is_hom at 1. rewrite Hg. cbn.
    f_equal. apply IH. cbn in E1. unfold is_hom at 1 in E1. rewrite Hg in E1. exact E1. }
  rewrite E1, E2. reflexivity.
Qed.

Lemma sizes_affine : forall gs : list group, Forall (fun g => fst g = AffineGroup) gs ->
  group_sizes_fifo gs false = map group_dimension gs.
Proof.
  intros gs H. unfold group_sizes_fifo. apply map_ext_in. intros g Hg.
  rewrite Forall_forall in H. unfold group_dimension. rewrite (H g Hg). lia.
Qed.

Lemma num_start_points_bezout : forall degs (gs : list group),
  Forall (fun g => fst g = AffineGroup /\ 0 <= snd g) gs ->
  degs <> [] -> Forall (fun r => length r = length gs) degs ->
  Forall (Forall (fun d => 0 <= d)) degs ->
  sumZ (map snd gs) = Z.of_nat (length degs) -> mhom_bezout degs gs < 2 ^ 64 ->
  exists fuel, forall fuel', (fuel <= fuel')%nat ->
    mhom_num_start_points degs gs false fuel' = Some (mhom_bezout degs gs).
Proof.
  intros degs gs Hg Hne Hw Hpos Hsum Hlt.
  assert (Ha : Forall (fun g => fst g = AffineGroup) gs)
    by (apply Forall_impl with (2 := Hg); intros g [H _]; exact H).
  assert (Hm : map group_dimension gs = map snd gs).
  { apply map_ext_in. intros g Hin. rewrite Forall_forall in Ha. unfold group_dimension. rewrite (Ha g Hin). reflexivity. }
  pose proof (sizes_affine gs Ha) as Es. rewrite Hm in Es.
  assert (Hlen : length (group_sizes_fifo gs false) = length gs) by (unfold group_sizes_fifo; apply map_length).
  assert (Hnn : nonneg (map snd gs)).
  { unfold nonneg. rewrite Forall_map. apply Forall_impl with (2 := Hg). intros g [_ H]; exact H. }
  assert (Hwf : well_formed degs (group_sizes_fifo gs false)).
  { split; [assumption|]. split.
    - rewrite Hlen. exact Hw.
    - rewrite Es. exact Hnn. }
  destruct (run_enumerates _ _ Hwf) as [fuel [s [_ [Ef Hrun]]]].
  exists fuel. intros f' Hf'. unfold mhom_num_start_points. rewrite <- Hlen. rewrite Hrun by assumption.
  rewrite Ef, Es.
  assert (Hw' : Forall (fun r => length r = length (map snd gs)) degs) by (rewrite map_length; exact Hw).
  assert (Hv : all_valid degs (map snd gs) (enum degs (map snd gs))) by (intros p Hp; apply enum_valid in Hp; assumption).
  pose proof (enum_bezout degs (map snd gs) Hnn Hw' Hsum) as Eb.
  assert (Em : mhom_bezout degs gs = bezout_coefficient degs (map snd gs)).
  { unfold mhom_bezout. rewrite (columns_affine gs Ha), Hm. reflexivity. }
  rewrite Em in *. rewrite <- Eb in *. fold (total_points degs (enum degs (map snd gs))) in *.
  clear - Hv Hpos Hlt. revert Hlt. generalize dependent (enum degs (map snd gs)).
  induction l as [|p ps IH]; intros Hv Hlt; [reflexivity|].
  assert (Hv' : all_valid degs (map snd gs) ps) by (intros q Hq; apply Hv; right; assumption).
  pose proof (Hv p (or_introl eq_refl)) as Hvp.
  pose proof (product_pos _ _ _ Hvp Hpos). pose proof (total_nonneg _ _ _ Hv' Hpos).
  assert (Et : total_points degs (p :: ps) = product_for degs p + total_points degs ps) by reflexivity.
  rewrite Et in *. cbn [num_mhom_points]. rewrite (points_exact _ _ _ Hvp Hpos) by lia.
  rewrite IH by (assumption || lia). f_equal. apply wrap64_small. lia.
Qed.
