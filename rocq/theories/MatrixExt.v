(** Helpers for matrices and numbers.
    Models core/include/bertini2/eigen_extensions.hpp:277-377 and 450-488, eigen_serialization_addon.hpp:29-48 and the
    maxima of mpfr_extensions.hpp:97-135. *)
From Coq Require Import List Arith Lia Bool ZArith Reals Lra FinFun.
From Verif Require Import Base PatchPrecision.

Import ListNotations.

(** ** Precision *)
Section Precision.
  Context {V : Type} (rnd : nat -> V -> V).
  Notation num := (mpnum (V := V)).
  Inductive answer := Precise (p : nat) | Throws | Asserts.

  (** A matrix of numbers, column by column *)
  Definition columns := list (list num).

  (** IsEmpty and Precision(v), eigen_extensions.hpp:277-298; a matrix with columns and no rows is empty *)
  Definition matrix_precision (m : columns) : answer :=
    match m with
    | (x :: _) :: _ => Precise (prec x)
    | _ => Throws
    end.

  (** PrecisionRequireUniform, eigen_extensions.hpp:307-322 *)
  Definition uniform_precision (m : columns) : answer :=
    match m with
    | (x :: _) :: _ => if forallb (forallb (fun y => prec x =? prec y)) m then Precise (prec x) else Throws
    | _ => Asserts
    end.

  (** Precision(v, prec), eigen_extensions.hpp:331-338 *)
  Definition set_matrix (p : nat) (m : columns) : columns := map (map (set_prec rnd p)) m.

  (** all columns have the same number of entries, at least one *)
  Definition entries (m : columns) : list num := concat m.
  Definition rectangular (rows : nat) (m : columns) : Prop := Forall (fun c => length c = rows) m.

  Lemma uniform_iff rows m p : rectangular rows m -> entries m <> [] ->
    (uniform_precision m = Precise p <-> Forall (fun x => prec x = p) (entries m)).
  Proof.
    intros R N. destruct m as [|[|x c] m].
    - now destruct N.
    - assert (rows = 0) by (inversion R; subst; reflexivity). subst rows. destruct N. clear - R. inversion R; subst.
      unfold entries. cbn. clear R H1. induction H2 as [|y m E _ IH]; [reflexivity|]. cbn. destruct y; [exact IH|discriminate].
    - unfold uniform_precision. destruct (forallb (forallb (fun y => prec x =? prec y)) ((x :: c) :: m)) eqn:E.
      + assert (A : Forall (fun y => prec y = prec x) (entries ((x :: c) :: m))).
        { apply Forall_forall. intros y I. apply in_concat in I. destruct I as (col & Ic & Iy).
          rewrite forallb_forall in E. specialize (E col Ic). rewrite forallb_forall in E. specialize (E y Iy).
          apply Nat.eqb_eq in E. congruence. }
        split.
        * intros H. injection H as <-. exact A.
        * intros H. inversion H; subst. reflexivity.
      + split; [discriminate|]. intros H. exfalso.
        assert (E' : forallb (forallb (fun y => prec x =? prec y)) ((x :: c) :: m) = true); [|congruence].
        apply forallb_forall. intros col Ic. apply forallb_forall. intros y Iy. apply Nat.eqb_eq.
        rewrite Forall_forall in H. rewrite (H x), (H y); [reflexivity|apply in_concat; now exists col|now left].
  Qed.

  Lemma set_uniform p m : Forall (fun x => prec x = p) (entries (set_matrix p m)).
  Proof.
    apply Forall_forall. intros x I. apply in_concat in I. destruct I as (c & Ic & Ix). unfold set_matrix in Ic.
    apply in_map_iff in Ic. destruct Ic as (c0 & <- & _). apply in_map_iff in Ix. now destruct Ix as (y & <- & _).
  Qed.
End Precision.

(** ** Closeness of numbers *)
Section Close.
  Local Open Scope R_scope.
  (** An abstract absolute value; for complex numbers the modulus *)
  Context {K : Type} (K_eq_dec : forall a b : K, {a = b} + {a <> b}) (sub : K -> K -> K) (abs : K -> R).

  (** c / d <= e in floating point, for c > 0 and a finite e: a quotient by zero is infinite *)
  Definition quotient_le (c d e : R) : bool :=
    if Req_EM_T d 0 then false else if Rle_dec (c / d) e then true else false.

  (** IsSymmRelDiffSmall, eigen_extensions.hpp:367-377; exact arithmetic *)
  Definition close (a b : K) (e : R) : bool :=
    if K_eq_dec a b then true
    else let c := abs (sub a b) in quotient_le c (abs a) e || quotient_le c (abs b) e.

  Lemma quotient_le_true c d e : 0 < c -> 0 <= d -> (quotient_le c d e = true <-> c <= e * d).
  Proof.
    intros C D. unfold quotient_le. destruct (Req_EM_T d 0) as [->|N].
    - split; [discriminate|]. intros H. lra.
    - assert (P : 0 < d) by lra. destruct (Rle_dec (c / d) e) as [L|L]; split; intros H; try reflexivity; try discriminate.
      + replace c with (c / d * d) by (field; lra). apply Rmult_le_compat_r; lra.
      + exfalso. apply L. apply Rmult_le_reg_r with d; [exact P|]. replace (c / d * d) with c by (field; lra). exact H.
  Qed.

  Lemma close_iff a b e : (forall x, 0 <= abs x) -> (forall x y, x <> y -> 0 < abs (sub x y)) ->
    (close a b e = true <-> a = b \/ abs (sub a b) <= e * Rmax (abs a) (abs b)).
  Proof.
    intros N P. unfold close. destruct (K_eq_dec a b) as [E|D]; [tauto|]. pose proof (P a b D) as C.
    rewrite orb_true_iff, !quotient_le_true by auto.
    assert (H : abs (sub a b) <= e * Rmax (abs a) (abs b) <-> abs (sub a b) <= e * abs a \/ abs (sub a b) <= e * abs b).
    { pose proof (N a) as Na. pose proof (N b) as Nb. destruct (Rle_dec 0 e) as [Pe|Pe].
      - split.
        + unfold Rmax. destruct (Rle_dec (abs a) (abs b)); auto.
        + intros [H|H]; eapply Rle_trans; try exact H; apply Rmult_le_compat_l; auto; [apply Rmax_l|apply Rmax_r].
      - assert (forall d, 0 <= d -> e * d <= 0).
        { intros d Pd. apply Rnot_le_lt in Pe. replace 0 with (0 * d) by ring. apply Rmult_le_compat_r; lra. }
        pose proof (H _ Na). pose proof (H _ Nb). pose proof (H (Rmax (abs a) (abs b)) (Rle_trans _ _ _ Na (Rmax_l _ _))).
        split; intros; [lra|]. destruct H3; lra. }
    rewrite H. tauto.
  Qed.
End Close.

(** ** The Kahan matrix *)
Section Kahan.
  Context {F : fld}.
  Local Open Scope fld_scope.
  Definition matrix := nat -> nat -> F.
  Definition update (A : matrix) (i j : nat) (v : F) : matrix := fun i' j' => if ((i' =? i) && (j' =? j))%bool then v else A i' j'.

  Definition over (l : list (nat * nat)) (f : nat -> nat -> F -> F) (A : matrix) : matrix :=
    fold_left (fun A p => update A (fst p) (snd p) (f (fst p) (snd p) (A (fst p) (snd p)))) l A.
  Definition number (n : nat) : F := fZ (Z.of_nat n).

  Fixpoint power (s : F) (n : nat) : F := match n with O => 1 | S n => power s n * s end.

  (** KahanMatrix, eigen_extensions.hpp:450-488; [s] is what sqrt gave, [A] what the memory of the new matrix held *)
  Definition fill_rows (n : nat) (c : F) (A : matrix) : matrix :=
    fold_left (fun A i =>
      over (map (fun j => (i, j)) (seq i (n - i))) (fun _ _ _ => (- c) * 1)
        (over (map (fun j => (i, j)) (seq 0 i)) (fun _ _ _ => 0) A)) (seq 0 n) A.
  Definition add_diagonal (n : nat) (c : F) (A : matrix) : matrix :=
    over (map (fun i => (i, i)) (seq 0 n)) (fun _ _ v => v + (1 + c)) A.
  Definition scale_rows (n : nat) (s : F) (A : matrix) : matrix :=
    fst (fold_left (fun w j => (over (map (fun k => (j, k)) (seq 0 n)) (fun _ _ v => v * snd w) (fst w), snd w * s)) (seq 0 n) (A, 1)).
  Definition scale_columns (n : nat) (A : matrix) : matrix :=
    fold_left (fun A j => over (map (fun k => (k, j)) (seq 0 n)) (fun _ j v => v / (number j + 1)) A) (seq 0 n) A.
  Definition kahan (n : nat) (c s : F) (A : matrix) : matrix :=
    scale_columns n (scale_rows n s (add_diagonal n c (fill_rows n c A))).

  Lemma pair_dec (p q : nat * nat) : {p = q} + {p <> q}.
  Proof. decide equality; apply Nat.eq_dec. Qed.

  Lemma over_spec l f : NoDup l -> forall A i j,
    over l f A i j = if in_dec pair_dec (i, j) l then f i j (A i j) else A i j.
  Proof.
    unfold over. induction 1 as [|[a b] l N D IH]; intros A i j; [reflexivity|]. cbn [fold_left fst snd]. rewrite IH.
    destruct (pair_dec (i, j) (a, b)) as [E|E].
    - injection E as -> ->. destruct (in_dec pair_dec (a, b) l) as [I|I]; [contradiction|].
      destruct (in_dec pair_dec (a, b) ((a, b) :: l)) as [J|J]; [|destruct J; now left].
      unfold update. now rewrite !Nat.eqb_refl.
    - assert (U : forall v, update A a b v i j = A i j).
      { intros v. unfold update. destruct (Nat.eqb_spec i a), (Nat.eqb_spec j b); try reflexivity. subst. contradiction. }
      rewrite U.
      destruct (in_dec pair_dec (i, j) l) as [I|I]; destruct (in_dec pair_dec (i, j) ((a, b) :: l)) as [J|J]; try reflexivity.
      + destruct J. now right.
      + destruct J as [J|J]; [congruence|contradiction].
  Qed.

  Lemma over_in l f A i j : NoDup l -> In (i, j) l -> over l f A i j = f i j (A i j).
  Proof. intros N I. rewrite over_spec by exact N. destruct (in_dec _ _ _); [reflexivity|contradiction]. Qed.
  Lemma over_out l f A i j : NoDup l -> ~ In (i, j) l -> over l f A i j = A i j.
  Proof. intros N I. rewrite over_spec by exact N. destruct (in_dec _ _ _); [contradiction|reflexivity]. Qed.

  Lemma nodup_pairs (g : nat -> nat * nat) l : (forall x y, g x = g y -> x = y) -> NoDup l -> NoDup (map g l).
  Proof. intros I N. apply Injective_map_NoDup; [exact I|exact N]. Qed.

  Lemma in_row (i j a n i' : nat) : In (i, j) (map (fun k => (i', k)) (seq a n)) <-> i = i' /\ a <= j < a + n.
  Proof.
    rewrite in_map_iff. split.
    - intros (k & E & I). injection E as <- <-. apply in_seq in I. auto.
    - intros [-> L]. exists j. split; [reflexivity|]. now apply in_seq.
  Qed.
  Lemma in_col (i j n j' : nat) : In (i, j) (map (fun k => (k, j')) (seq 0 n)) <-> j = j' /\ i < n.
  Proof.
    rewrite in_map_iff. split.
    - intros (k & E & I). injection E as <- <-. apply in_seq in I. split; [reflexivity|lia].
    - intros [-> L]. exists i. split; [reflexivity|]. apply in_seq. lia.
  Qed.
  Lemma nodup_row (i a n : nat) : NoDup (map (fun k => (i, k)) (seq a n)).
  Proof. apply nodup_pairs; [intros x y H; now injection H|apply seq_NoDup]. Qed.
  Lemma nodup_col (j n : nat) : NoDup (map (fun k : nat => (k, j)) (seq 0 n)).
  Proof. apply nodup_pairs; [intros x y H; now injection H|apply seq_NoDup]. Qed.

  (** loops over rows (or columns) which touch one row each *)
  Lemma rows_spec (g : nat -> matrix -> matrix) :
    (forall r A i j, i <> r -> g r A i j = A i j) ->
    forall l A i j, NoDup l -> (~ In i l -> fold_left (fun A r => g r A) l A i j = A i j) /\
      (In i l -> (forall A B : matrix, (forall j, A i j = B i j) -> g i A i j = g i B i j) -> fold_left (fun A r => g r A) l A i j = g i A i j).
  Proof.
    intros H. induction l as [|r l IH]; intros A i j N; inversion N as [|? ? Nr Nl]; subst; cbn [fold_left].
    - split; [reflexivity|now intros []].
    - destruct (IH (g r A) i j Nl) as [IO II]. split.
      + intros I. rewrite IO by (intros J; apply I; now right). apply H. intros ->. apply I. now left.
      + intros I C. destruct (Nat.eq_dec i r) as [->|D].
        * now rewrite IO.
        * destruct I as [->|I]; [contradiction|]. rewrite II by assumption. apply C. intros k. now apply H.
  Qed.

  Lemma fill_rows_spec n c A i j : i < n -> j < n -> fill_rows n c A i j = if j <? i then 0 else - c * 1.
  Proof.
    intros Li Lj. unfold fill_rows.
    set (g := fun (r : nat) (A : matrix) => over (map (fun j => (r, j)) (seq r (n - r))) (fun _ _ _ => - c * 1)
      (over (map (fun j => (r, j)) (seq 0 r)) (fun _ _ _ => 0) A)).
    destruct (rows_spec g) with (l := seq 0 n) (A := A) (i := i) (j := j) as [_ R].
    - intros r B i' j' D. unfold g. rewrite !over_out; try apply nodup_row; [reflexivity| |]; rewrite in_row; lia.
    - apply seq_NoDup.
    - assert (V : forall B, g i B i j = if j <? i then 0 else - c * 1).
      { intros B. unfold g. destruct (Nat.ltb_spec j i) as [L|L].
        - rewrite over_out; [|apply nodup_row|rewrite in_row; lia]. rewrite over_in; [reflexivity|apply nodup_row|].
          rewrite in_row. lia.
        - rewrite over_in; [reflexivity|apply nodup_row|]. rewrite in_row. lia. }
      change (fold_left (fun A r => g r A) (seq 0 n) A i j = if j <? i then 0 else - c * 1).
      rewrite R; [apply V|apply in_seq; lia|]. intros. now rewrite !V.
  Qed.

  Add Field kahan_field : (f_th F).

  Lemma add_diagonal_spec n c A i j : i < n ->
    add_diagonal n c A i j = if i =? j then A i j + (1 + c) else A i j.
  Proof.
    intros Li. unfold add_diagonal.
    assert (N : NoDup (map (fun i : nat => (i, i)) (seq 0 n))) by (apply nodup_pairs; [intros x y H; now injection H|apply seq_NoDup]).
    destruct (Nat.eqb_spec i j) as [->|D].
    - rewrite over_in; [reflexivity|exact N|]. apply in_map_iff. exists j. split; [reflexivity|]. apply in_seq. lia.
    - rewrite over_out; [reflexivity|exact N|]. intros I. apply in_map_iff in I. destruct I as (k & E & _). congruence.
  Qed.

  Lemma scale_rows_spec n s A i j : i < n -> j < n -> scale_rows n s A i j = A i j * power s i.
  Proof.
    intros Li Lj. unfold scale_rows.
    set (h := fun (w : matrix * F) (r : nat) => (over (map (fun k => (r, k)) (seq 0 n)) (fun _ _ v => v * snd w) (fst w), snd w * s)).
    assert (G : forall m, m <= n -> let w := fold_left h (seq 0 m) (A, 1) in snd w = power s m /\
      forall i' j', j' < n -> fst w i' j' = if i' <? m then A i' j' * power s i' else A i' j').
    { induction m as [|m IH]; intros L; [split; reflexivity|].
      rewrite seq_S, fold_left_app. cbn [fold_left plus]. destruct IH as [I1 I2]; [lia|].
      set (w := fold_left h (seq 0 m) (A, 1)) in *. unfold h. cbn [fst snd]. split; [now rewrite I1|].
      intros i' j' Lj'. destruct (Nat.eq_dec i' m) as [->|D].
      - rewrite over_in; [|apply nodup_row|rewrite in_row; lia]. rewrite I1, I2 by exact Lj'.
        rewrite Nat.ltb_irrefl. destruct (Nat.ltb_spec m (S m)); [reflexivity|lia].
      - rewrite over_out; [|apply nodup_row|rewrite in_row; lia]. rewrite I2 by exact Lj'.
        destruct (Nat.ltb_spec i' m), (Nat.ltb_spec i' (S m)); try reflexivity; lia. }
    destruct (G n (le_n n)) as [_ H]. fold h. rewrite H by exact Lj. now destruct (Nat.ltb_spec i n); [|lia].
  Qed.

  Lemma scale_columns_spec n A i j : i < n -> j < n -> scale_columns n A i j = A i j / (number j + 1).
  Proof.
    intros Li Lj. unfold scale_columns.
    set (h := fun (A : matrix) (r : nat) => over (map (fun k => (k, r)) (seq 0 n)) (fun _ j v => v / (number j + 1)) A).
    assert (G : forall m, m <= n -> forall i' j', i' < n -> fold_left h (seq 0 m) A i' j' =
      if j' <? m then A i' j' / (number j' + 1) else A i' j').
    { induction m as [|m IH]; intros L i' j' Li'; [reflexivity|].
      rewrite seq_S, fold_left_app. cbn [fold_left plus].
      set (B := fold_left h (seq 0 m) A) in *. unfold h. destruct (Nat.eq_dec j' m) as [->|D].
      - rewrite over_in; [|apply nodup_col|rewrite in_col; lia]. rewrite IH by lia.
        rewrite Nat.ltb_irrefl. destruct (Nat.ltb_spec m (S m)); [reflexivity|lia].
      - rewrite over_out; [|apply nodup_col|rewrite in_col; lia]. rewrite IH by lia.
        destruct (Nat.ltb_spec j' m), (Nat.ltb_spec j' (S m)); try reflexivity; lia. }
    fold h. rewrite (G n (le_n n)) by exact Li. now destruct (Nat.ltb_spec j n); [|lia].
  Qed.

  Lemma kahan_spec n c s A i j : i < n -> j < n ->
    kahan n c s A i j = (if j <? i then 0 else if i =? j then 1 else - c) * power s i / (number j + 1).
  Proof.
    intros Li Lj. unfold kahan. rewrite scale_columns_spec, scale_rows_spec, add_diagonal_spec, fill_rows_spec by assumption.
    destruct (Nat.eqb_spec i j) as [->|D].
    - rewrite Nat.ltb_irrefl. f_equal. f_equal. ring.
    - destruct (j <? i); [reflexivity|]. f_equal. f_equal. ring.
  Qed.
End Kahan.

(** ** Matrices in archives *)
Section Archive.
  Context {V : Type} (default : V).
  Inductive order := ColMajor | RowMajor.
  (** A matrix as stored by Eigen *)
  Record stored := mkStored { rows : nat; cols : nat; data : list V }.
  Definition proper (m : stored) : Prop := length (data m) = rows m * cols m.
  Definition coeff (o : order) (m : stored) (i j : nat) : V :=
    nth (match o with ColMajor => j * rows m + i | RowMajor => i * cols m + j end) (data m) default.

  (** save, eigen_serialization_addon.hpp:29-38: the sizes and the entries, in the order of columns *)
  Definition save_matrix (o : order) (m : stored) : nat * nat * list V :=
    (rows m, cols m, flat_map (fun j => map (fun i => coeff o m i j) (seq 0 (rows m))) (seq 0 (cols m))).
  (** load, eigen_serialization_addon.hpp:40-48: into the storage, whatever its order *)
  Definition load_matrix (a : nat * nat * list V) : stored := mkStored (fst (fst a)) (snd (fst a)) (snd a).

  Lemma map_nth_seq (l : list V) (a n : nat) : a + n <= length l ->
    map (fun i => nth (a + i) l default) (seq 0 n) = firstn n (skipn a l).
  Proof.
    revert a. induction n as [|n IH]; intros a L; [reflexivity|].
    cbn [seq map]. rewrite Nat.add_0_r. rewrite <- seq_shift, map_map.
    rewrite (map_ext _ (fun i => nth (S a + i) l default)) by (intros i; f_equal; lia). rewrite IH by lia.
    assert (E : skipn a l = nth a l default :: skipn (S a) l).
    { clear - L. revert l L. induction a as [|a IHa]; intros [|x l] L; cbn in *; try lia; [reflexivity|]. apply IHa. lia. }
    rewrite E. reflexivity.
  Qed.

  Lemma chunks (l : list V) r c : length l = r * c ->
    flat_map (fun j => firstn r (skipn (j * r) l)) (seq 0 c) = l.
  Proof.
    revert l. induction c as [|c IH]; intros l L.
    - rewrite Nat.mul_0_r in L. now destruct l.
    - cbn [seq flat_map]. cbn [Nat.mul skipn]. rewrite <- seq_shift, flat_map_concat_map, map_map, <- flat_map_concat_map.
      assert (E : flat_map (fun j => firstn r (skipn (S j * r) l)) (seq 0 c) = skipn r l).
      { transitivity (flat_map (fun j => firstn r (skipn (j * r) (skipn r l))) (seq 0 c)); [|apply IH; rewrite skipn_length, L; lia].
        rewrite !flat_map_concat_map. f_equal. apply map_ext. intros j. f_equal.
        clear. cbn [Nat.mul]. generalize (j * r) as b. intros b. revert l. induction r as [|r IHr]; intros l; [reflexivity|].
        destruct l; cbn; [now rewrite skipn_nil|apply IHr]. }
      rewrite E. apply firstn_skipn.
  Qed.

  Lemma column_major m : proper m -> load_matrix (save_matrix ColMajor m) = m.
  Proof.
    intros P. unfold save_matrix, load_matrix, coeff. cbn. destruct m as [r c l]. cbn in *. f_equal.
    transitivity (flat_map (fun j => firstn r (skipn (j * r) l)) (seq 0 c)); [|exact (chunks l r c P)]. rewrite !flat_map_concat_map. f_equal. apply map_ext_in. intros j I. apply in_seq in I.
    apply map_nth_seq. unfold proper in P. cbn in P. rewrite P. nia.
  Qed.
End Archive.

(** ** Maxima, mpfr_extensions.hpp:97-135 *)
Section Maxima.
  Context {A : Type} (less : A -> A -> bool).
  (** std::max *)
  Definition max2 (a b : A) : A := if less a b then b else a.
  Definition max3 (a b c : A) : A := max2 (max2 a b) c.
  Definition max4 (a b c d : A) : A := max2 (max3 a b c) d.
  Definition max5 (a b c d e : A) : A := max2 (max4 a b c d) e.

  Definition greatest (l : list A) (x : A) : Prop := In x l /\ forall y, In y l -> less x y = false.
  Hypothesis trans : forall a b c, less a b = false -> less b c = false -> less a c = false.
  Hypothesis irrefl : forall a, less a a = false.
  Hypothesis asym : forall a b, less a b = true -> less b a = false.

  Lemma greatest_one a : greatest [a] a.
  Proof. split; [now left|]. intros y [<-|[]]. apply irrefl. Qed.
  Lemma greatest_max2 l a b : greatest l a -> greatest (l ++ [b]) (max2 a b).
  Proof.
    intros [I G]. unfold max2. destruct (less a b) eqn:E; split.
    - apply in_or_app. right. now left.
    - intros y J. apply in_app_or in J. destruct J as [J|[<-|[]]]; [|apply irrefl]. apply trans with a; [now apply asym|now apply G].
    - apply in_or_app. now left.
    - intros y J. apply in_app_or in J. destruct J as [J|[<-|[]]]; [now apply G|exact E].
  Qed.
  Lemma greatest_max5 a b c d e : greatest [a; b; c] (max3 a b c) /\ greatest [a; b; c; d] (max4 a b c d) /\
    greatest [a; b; c; d; e] (max5 a b c d e).
  Proof.
    assert (G3 : greatest [a; b; c] (max3 a b c)) by (apply (greatest_max2 [a; b]), (greatest_max2 [a]), greatest_one).
    assert (G4 : greatest [a; b; c; d] (max4 a b c d)) by (now apply (greatest_max2 [a; b; c])).
    split; [exact G3|]. split; [exact G4|]. now apply (greatest_max2 [a; b; c; d]).
  Qed.
End Maxima.
