(** The test of an LU decomposition: core/include/bertini2/eigen_extensions.hpp:353-445.  It is used after every
    factorisation of a Jacobian by the Newton corrector and the predictors (trackers/newton_correct.hpp:88, 145, 222,
    trackers/newton_corrector.hpp:355, trackers/explicit_predictors.hpp:874, 892).
    Numbers are exact; [epsilon] and [dummy] stand for Eigen::NumTraits<T>::epsilon() and dummy_precision().  The
    factorisation itself is Eigen's and not modelled: the matrix is the packed one, with the unit lower triangle below
    the diagonal and the upper triangle on and above it. *)
From Coq Require Import Reals Lra Lia List Arith Bool.
From Coquelicot Require Import Complex.
Local Open Scope R_scope.

Definition matrix := nat -> nat -> C.

(** eigen_extensions.hpp:400-405 MatrixSuccessCode, and the assertions of eigen_extensions.hpp:419-422 *)
Inductive lu_code := LuSuccess | LargeChange | SmallValue | AssertionFails.

Section Check.
Context (epsilon dummy : R).

(** eigen_extensions.hpp:353-359 IsSmallValue *)
Definition is_small_value (x : C) : bool := if Rle_dec (Cmod x) (epsilon * 100) then true else false.

(** eigen_extensions.hpp:391-398 IsLargeChange *)
Definition is_large_change (numerator denominator : C) : bool :=
  if Rle_dec (1 / dummy) (Cmod (numerator / denominator)%C) then true else false.

(** eigen_extensions.hpp:425-444: the loop from the last row down to row 1, and the test of entry (0,0) *)
Fixpoint lu_loop (LU : matrix) (ii : nat) : lu_code :=
  match ii with
  | O => if is_small_value (LU 0%nat 0%nat) then SmallValue else LuSuccess
  | S k => if is_small_value (LU (S k) (S k)) then SmallValue
           else if is_large_change (LU k k) (LU (S k) (S k)) then LargeChange
           else lu_loop LU k
  end.

(** eigen_extensions.hpp:416-445 LUPartialPivotDecompositionSuccessful *)
Definition lu_check (rows cols : nat) (LU : matrix) : lu_code :=
  if Nat.eqb rows cols && Nat.ltb 0 rows then lu_loop LU (rows - 1) else AssertionFails.

(** *** Specification *)

Definition pivots_good (n : nat) (LU : matrix) : Prop :=
  (forall i, (i < n)%nat -> epsilon * 100 < Cmod (LU i i)) /\
  (forall i, (S i < n)%nat -> Cmod (LU i i / LU (S i) (S i))%C < 1 / dummy).

(** sum of f over 0 .. n-1 *)
Fixpoint csum (f : nat -> C) (n : nat) : C := match n with O => 0%C | S k => (csum f k + f k)%C end.

(** the triangular factors packed into the matrix *)
Definition lower_part (LU : matrix) (i j : nat) : C := if Nat.ltb j i then LU i j else if Nat.eqb i j then 1%C else 0%C.
Definition upper_part (LU : matrix) (i j : nat) : C := if Nat.ltb j i then 0%C else LU i j.

(** the factored matrix *)
Definition product (n : nat) (LU : matrix) (i j : nat) : C := csum (fun k => (lower_part LU i k * upper_part LU k j)%C) n.

(** the linear system with that matrix *)
Definition solves (n : nat) (A : matrix) (x b : nat -> C) : Prop :=
  forall i, (i < n)%nat -> csum (fun j => (A i j * x j)%C) n = b i.

(** *** Proofs *)

Lemma lu_loop_success : forall (LU : matrix) ii, lu_loop LU ii = LuSuccess <-> pivots_good (S ii) LU.
Proof.
  intros LU. unfold pivots_good. induction ii as [|k IH]; cbn [lu_loop]; unfold is_small_value, is_large_change.
  - destruct (Rle_dec _ _) as [H|H]; split; intro E.
    + discriminate E.
    + destruct E as [E _]. specialize (E 0%nat ltac:(lia)). lra.
    + split; [|intros i Hi; lia]. intros i Hi. replace i with 0%nat by lia. lra.
    + reflexivity.
  - destruct (Rle_dec (Cmod (LU (S k) (S k))) _) as [H|H].
    + split; intro E; [discriminate E|]. destruct E as [E _]. specialize (E (S k) ltac:(lia)). lra.
    + destruct (Rle_dec (1 / dummy) _) as [H2|H2].
      * split; intro E; [discriminate E|]. destruct E as [_ E]. specialize (E k ltac:(lia)). lra.
      * rewrite IH. split; intros [E1 E2]; split.
        -- intros i Hi. destruct (Nat.eq_dec i (S k)) as [->|]; [lra|]. apply E1. lia.
        -- intros i Hi. destruct (Nat.eq_dec i k) as [->|]; [lra|]. apply E2. lia.
        -- intros i Hi. apply E1. lia.
        -- intros i Hi. apply E2. lia.
Qed.

Lemma lu_check_success : forall rows cols (LU : matrix), lu_check rows cols LU = LuSuccess <->
  rows = cols /\ (0 < rows)%nat /\ pivots_good rows LU.
Proof.
  intros rows cols LU. unfold lu_check. destruct (Nat.eqb_spec rows cols) as [->|Hne]; cbn [andb].
  - destruct (Nat.ltb_spec 0 cols) as [L|L].
    + rewrite lu_loop_success. replace (S (cols - 1)) with cols by lia. intuition.
    + split; [discriminate|intros (_ & H & _); lia].
  - split; [discriminate|intros (H & _); contradiction].
Qed.

Lemma lu_loop_small : forall (LU : matrix) ii, lu_loop LU ii = SmallValue <-> exists i, (i <= ii)%nat /\ Cmod (LU i i) <= epsilon * 100 /\
  forall k, (i <= k < ii)%nat -> epsilon * 100 < Cmod (LU (S k) (S k)) /\ Cmod (LU k k / LU (S k) (S k))%C < 1 / dummy.
Proof.
  intros LU. induction ii as [|k IH]; cbn [lu_loop]; unfold is_small_value, is_large_change.
  - destruct (Rle_dec _ _) as [H|H]; split; intro E; try discriminate E; try reflexivity.
    + exists 0%nat. split; [lia|]. split; [exact H|]. intros k Hk. lia.
    + destruct E as (i & Hi & Hs & _). replace i with 0%nat in Hs by lia. contradiction.
  - destruct (Rle_dec (Cmod (LU (S k) (S k))) _) as [H|H].
    + split; [intros _|reflexivity]. exists (S k). split; [lia|]. split; [exact H|]. intros j Hj. lia.
    + destruct (Rle_dec (1 / dummy) _) as [H2|H2].
      * split; [discriminate|]. intros (i & Hi & Hs & Ha). destruct (Nat.eq_dec i (S k)) as [->|Hne]; [contradiction|].
        specialize (Ha k ltac:(lia)). lra.
      * rewrite IH. split; intros (i & Hi & Hs & Ha).
        -- exists i. split; [lia|]. split; [exact Hs|]. intros j Hj. destruct (Nat.eq_dec j k) as [->|Hne]; [lra|]. apply Ha. lia.
        -- destruct (Nat.eq_dec i (S k)) as [->|Hne]; [contradiction|]. exists i. split; [lia|]. split; [exact Hs|].
           intros j Hj. apply Ha. lia.
Qed.

Lemma lu_check_small : forall n (LU : matrix), (0 < n)%nat -> (lu_check n n LU = SmallValue <->
  exists i, (i < n)%nat /\ Cmod (LU i i) <= epsilon * 100 /\
    forall k, (i <= k)%nat -> (S k < n)%nat ->
      epsilon * 100 < Cmod (LU (S k) (S k)) /\ Cmod (LU k k / LU (S k) (S k))%C < 1 / dummy).
Proof.
  intros n LU Hn. unfold lu_check. rewrite Nat.eqb_refl. destruct (Nat.ltb_spec 0 n); [|lia]. cbn [andb].
  rewrite lu_loop_small. split; intros (i & Hi & Hs & Ha); exists i; (split; [lia|]); (split; [exact Hs|]); intros k.
  - intros H1 H2. apply Ha. lia.
  - intros Hk. apply Ha; lia.
Qed.

Lemma csum_ext : forall (f g : nat -> C) n, (forall k, (k < n)%nat -> f k = g k) -> csum f n = csum g n.
Proof.
  intros f g n H. induction n as [|n IH]; [reflexivity|]. cbn [csum]. rewrite IH by (intros; apply H; lia). rewrite H by lia. reflexivity.
Qed.

Lemma csum_plus : forall (f g : nat -> C) n, csum (fun k => (f k + g k)%C) n = (csum f n + csum g n)%C.
Proof. intros f g n. induction n as [|n IH]; cbn [csum]; [ring|]. rewrite IH. ring. Qed.

Lemma csum_scal : forall (c : C) (f : nat -> C) n, csum (fun k => (c * f k)%C) n = (c * csum f n)%C.
Proof. intros c f n. induction n as [|n IH]; cbn [csum]; [ring|]. rewrite IH. ring. Qed.

Lemma csum_zero : forall (f : nat -> C) n, (forall k, (k < n)%nat -> f k = 0%C) -> csum f n = 0%C.
Proof.
  intros f n H. induction n as [|n IH]; [reflexivity|]. cbn [csum]. rewrite IH by (intros; apply H; lia). rewrite H by lia. ring.
Qed.

Lemma csum_swap : forall (f : nat -> nat -> C) n m, csum (fun j => csum (fun k => f j k) m) n = csum (fun k => csum (fun j => f j k) n) m.
Proof.
  intros f n m. induction n as [|n IH]; cbn [csum].
  - symmetry. apply csum_zero. reflexivity.
  - rewrite IH. symmetry. exact (csum_plus (fun k => csum (fun j => f j k) n) (fun k => f n k) m).
Qed.

(** an upper triangular system with nonzero diagonal has exactly one solution *)
Lemma upper_solvable : forall n (U : matrix) (b : nat -> C), (forall i, (i < n)%nat -> U i i <> 0%C) ->
  exists x, solves n (upper_part U) x b /\ forall y, solves n (upper_part U) y b -> forall i, (i < n)%nat -> y i = x i.
Proof.
  intros n U. induction n as [|n IH]; intros b Hd.
  - exists (fun _ => 0%C). split; [intros i Hi; lia|]. intros y _ i Hi. lia.
  - pose (xn := (b n / U n n)%C).
    destruct (IH (fun i => (b i - U i n * xn)%C) ltac:(intros; apply Hd; lia)) as (x & Hx & Hu).
    assert (Hrow : forall z, csum (fun j => (upper_part U n j * z j)%C) (S n) = (U n n * z n)%C).
    { intro z. cbn [csum]. rewrite csum_zero.
      - unfold upper_part. rewrite Nat.ltb_irrefl. ring.
      - intros k Hk. unfold upper_part. destruct (Nat.ltb_spec k n); [ring|lia]. }
    assert (Hup : forall i, (i < n)%nat -> upper_part U i n = U i n).
    { intros i Hi. unfold upper_part. destruct (Nat.ltb_spec n i); [lia|reflexivity]. }
    exists (fun i => if Nat.eqb i n then xn else x i). split.
    + intros i Hi. destruct (Nat.eq_dec i n) as [->|Hne].
      * rewrite Hrow. rewrite Nat.eqb_refl. unfold xn. field. apply Hd. lia.
      * cbn [csum]. rewrite Nat.eqb_refl. specialize (Hx i ltac:(lia)). cbn [csum] in Hx.
        rewrite (csum_ext _ (fun j => (upper_part U i j * x j)%C)).
        -- rewrite Hx, Hup by lia. ring.
        -- intros k Hk. destruct (Nat.eqb_spec k n); [lia|reflexivity].
    + intros y Hy i Hi.
      assert (En : y n = xn).
      { pose proof (Hy n ltac:(lia)) as E. rewrite Hrow in E. unfold xn. rewrite <- E. field. apply Hd. lia. }
      destruct (Nat.eqb_spec i n) as [->|Hne]; [exact En|]. apply Hu; [|lia].
      intros k Hk. pose proof (Hy k ltac:(lia)) as E. cbn [csum] in E. rewrite <- E, <- En, Hup by lia. ring.
Qed.

(** a unit lower triangular system has exactly one solution *)
Lemma lower_solvable : forall n (L : matrix) (b : nat -> C),
  exists x, solves n (lower_part L) x b /\ forall y, solves n (lower_part L) y b -> forall i, (i < n)%nat -> y i = x i.
Proof.
  intros n L. induction n as [|n IH]; intros b.
  - exists (fun _ => 0%C). split; [intros i Hi; lia|]. intros y _ i Hi. lia.
  - destruct (IH b) as (x & Hx & Hu).
    assert (Hlast : forall i, (i < n)%nat -> lower_part L i n = 0%C).
    { intros i Hi. unfold lower_part. destruct (Nat.ltb_spec n i); [lia|]. destruct (Nat.eqb_spec i n); [lia|reflexivity]. }
    assert (Hdiag : lower_part L n n = 1%C) by (unfold lower_part; rewrite Nat.ltb_irrefl, Nat.eqb_refl; reflexivity).
    pose (xn := (b n - csum (fun j => (lower_part L n j * x j)%C) n)%C).
    exists (fun i => if Nat.eqb i n then xn else x i). split.
    + intros i Hi. cbn [csum]. rewrite Nat.eqb_refl.
      rewrite (csum_ext _ (fun j => (lower_part L i j * x j)%C)) by (intros k Hk; destruct (Nat.eqb_spec k n); [lia|reflexivity]).
      destruct (Nat.eq_dec i n) as [->|Hne].
      * rewrite Hdiag. unfold xn. ring.
      * rewrite (Hx i) by lia. rewrite Hlast by lia. ring.
    + intros y Hy i Hi.
      assert (Hyx : forall k, (k < n)%nat -> y k = x k).
      { apply Hu. intros k Hk. pose proof (Hy k ltac:(lia)) as E. cbn [csum] in E. rewrite Hlast in E by lia. rewrite <- E. ring. }
      destruct (Nat.eqb_spec i n) as [->|Hne]; [|apply Hyx; lia].
      pose proof (Hy n ltac:(lia)) as E. cbn [csum] in E. rewrite Hdiag in E. unfold xn.
      rewrite (csum_ext _ (fun j => (lower_part L n j * y j)%C)) by (intros k Hk; rewrite Hyx by lia; reflexivity).
      rewrite <- E. ring.
Qed.

Lemma product_apply : forall n (LU : matrix) (x : nat -> C) i, csum (fun j => (product n LU i j * x j)%C) n =
  csum (fun k => (lower_part LU i k * csum (fun j => (upper_part LU k j * x j)%C) n)%C) n.
Proof.
  intros n LU x i. unfold product.
  rewrite (csum_ext _ (fun j => csum (fun k => (lower_part LU i k * (upper_part LU k j * x j))%C) n)).
  - rewrite csum_swap. apply csum_ext. intros k Hk. apply csum_scal.
  - intros j Hj. rewrite Cmult_comm, <- csum_scal. apply csum_ext. intros k Hk. ring.
Qed.

Lemma product_solvable : forall n (LU : matrix) (b : nat -> C), (forall i, (i < n)%nat -> LU i i <> 0%C) ->
  exists x, solves n (product n LU) x b /\ forall y, solves n (product n LU) y b -> forall i, (i < n)%nat -> y i = x i.
Proof.
  intros n LU b Hd. destruct (lower_solvable n LU b) as (z & Hz & Huz). destruct (upper_solvable n LU z Hd) as (x & Hx & Hux).
  exists x. split.
  - intros i Hi. rewrite product_apply. rewrite <- (Hz i Hi). apply csum_ext. intros k Hk. rewrite (Hx k Hk). reflexivity.
  - intros y Hy. apply Hux. intros i Hi. apply (Huz (fun k => csum (fun j => (upper_part LU k j * y j)%C) n)); [|exact Hi].
    intros k Hk. rewrite <- product_apply. apply Hy. exact Hk.
Qed.

Lemma good_nonzero : forall n (LU : matrix), 0 <= epsilon -> pivots_good n LU -> forall i, (i < n)%nat -> LU i i <> 0%C.
Proof.
  intros n LU He [H _] i Hi E. specialize (H i Hi). rewrite E, Cmod_0 in H. lra.
Qed.

Lemma lu_success_solvable : forall rows cols (LU : matrix) (b : nat -> C), 0 <= epsilon -> lu_check rows cols LU = LuSuccess ->
  exists x, solves rows (product rows LU) x b /\
    forall y, solves rows (product rows LU) y b -> forall i, (i < rows)%nat -> y i = x i.
Proof.
  intros rows cols LU b He H. apply lu_check_success in H. destruct H as (_ & _ & H). apply product_solvable.
  apply good_nonzero; assumption.
Qed.
End Check.
