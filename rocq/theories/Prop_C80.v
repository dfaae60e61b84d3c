(** C80: matrix and number helpers do what they say. *)
From Coq Require Import Field_theory Ring_theory List Arith Bool ZArith Reals Lra Lia.
From Verif Require Import Base Expr PatchPrecision MatrixExt.
Import ListNotations.

(** The precision asked for is the precision of every entry, and is only given when all agree. *)
Theorem C80_uniform_precision : forall (V : Type) rows (m : @columns V) p, rectangular rows m -> entries m <> [] ->
  (uniform_precision m = Precise p <-> forall x, In x (entries m) -> prec x = p) /\
  (uniform_precision m = Throws <-> exists x y, In x (entries m) /\ In y (entries m) /\ prec x <> prec y).
Proof.
  intros V rows m p R N. pose proof (fun q => uniform_iff rows m q R N) as U. split.
  - rewrite U. now rewrite Forall_forall.
  - split.
    + intros T. destruct m as [|[|x c] m]; cbn [uniform_precision] in T; try discriminate.
      destruct (forallb (forallb (fun y => prec x =? prec y)) ((x :: c) :: m)) eqn:E; [discriminate|].
      assert (X : exists y, In y (entries ((x :: c) :: m)) /\ prec x <> prec y).
      { clear - E. revert E. generalize ((x :: c) :: m) as l. unfold entries. induction l as [|d l IH]; [discriminate|].
        cbn [forallb]. destruct (forallb (fun y => prec x =? prec y) d) eqn:D.
        - intros H. destruct (IH H) as (y & I & Q). exists y. split; [|exact Q]. apply in_or_app. now right.
        - intros _. clear IH. induction d as [|z d IHd]; [discriminate|]. cbn [forallb] in D.
          destruct (Nat.eqb_spec (prec x) (prec z)) as [Q|Q].
          + destruct (IHd D) as (y & I & Q'). exists y. split; [now right|exact Q'].
          + exists z. split; [now left|exact Q]. }
      destruct X as (y & I & Q). exists x, y. split; [now left|]. now split.
    + intros (x & y & Ix & Iy & Q). assert (C : (exists q, uniform_precision m = Precise q) \/ uniform_precision m = Throws \/ uniform_precision m = Asserts)
        by (destruct (uniform_precision m) as [q| |]; [left; now exists q|auto|auto]).
      destruct C as [(q & E)|[E|E]]; [|exact E|].
      * apply U in E. rewrite Forall_forall in E. destruct Q. rewrite (E x Ix). symmetry. exact (E y Iy).
      * destruct m as [|[|x0 c] m]; cbn [uniform_precision] in E.
        -- now destruct N.
        -- destruct N. apply Forall_inv in R as R0. cbn in R0. subst rows. clear - R. unfold entries.
           induction R as [|d l L _ IH]; [reflexivity|]. cbn. destruct d; [exact IH|discriminate].
        -- now destruct (forallb (forallb (fun y => prec x0 =? prec y)) ((x0 :: c) :: m)).
Qed.
Print Assumptions C80_uniform_precision.

(** Setting the precision reaches every entry and no more than rounds it; the shape stays. *)
Theorem C80_set_precision : forall (V : Type) (rnd : nat -> V -> V) p (m : columns),
  (forall x, In x (entries (set_matrix rnd p m)) -> prec x = p) /\
  map (@length _) (set_matrix rnd p m) = map (@length _) m /\
  map val (entries (set_matrix rnd p m)) = map (fun x => rnd p (val x)) (entries m).
Proof.
  intros V rnd p m. split; [|split].
  - apply Forall_forall, set_uniform.
  - unfold set_matrix. rewrite map_map. apply map_ext. intros c. apply map_length.
  - unfold entries, set_matrix. induction m as [|c m IH]; [reflexivity|]. cbn [map concat]. rewrite !map_app. f_equal; [|exact IH].
    rewrite map_map. apply map_ext. reflexivity.
Qed.
Print Assumptions C80_set_precision.

(** The documentation gives an empty matrix the precision of a fresh number; asking for it throws. *)
Theorem C80_empty_precision_refuted : forall V : Type,
  ~ exists fresh, forall m : @columns V, entries m = [] -> matrix_precision m = Precise fresh.
Proof. intros V (p & H). specialize (H [] eq_refl). discriminate. Qed.
Print Assumptions C80_empty_precision_refuted.

(** Two numbers are close exactly if they are equal or their distance is at most e times the larger of their sizes. *)
Theorem C80_close : forall (K : Type) (dec : forall a b : K, {a = b} + {a <> b}) (sub : K -> K -> K) (abs : K -> R),
  (forall x, 0 <= abs x)%R -> (forall x y, x <> y -> 0 < abs (sub x y))%R ->
  forall a b e, close dec sub abs a b e = true <-> a = b \/ (abs (sub a b) <= e * Rmax (abs a) (abs b))%R.
Proof. intros K dec sub abs N P a b e. now apply close_iff. Qed.
Print Assumptions C80_close.

(** Hence closeness does not depend on the order of the numbers or their scale, grows with e, and nothing but zero is close to zero
    unless e is at least one. *)
Theorem C80_close_real : forall a b e : R, let near := close Req_EM_T Rminus Rabs in
  near a b e = near b a e /\
  (forall k, k <> 0%R -> near (k * a)%R (k * b)%R e = near a b e) /\
  (forall e', (e <= e')%R -> near a b e = true -> near a b e' = true) /\
  (near a 0%R e = true <-> a = 0%R \/ (1 <= e)%R).
Proof.
  intros a b e near.
  assert (I : forall a b e, near a b e = true <-> a = b \/ (Rabs (a - b) <= e * Rmax (Rabs a) (Rabs b))%R).
  { intros x y d. apply C80_close; [apply Rabs_pos|]. intros u v D. apply Rabs_pos_lt. lra. }
  assert (B : forall x y : bool, (x = true <-> y = true) -> x = y).
  { intros [|] [|] H; try reflexivity; [symmetry|]; now apply H. }
  split; [|split; [|split]].
  - apply B. rewrite !I. rewrite Rmax_comm, Rabs_minus_sym. split; intros [H|H]; auto.
  - intros k K. apply B. rewrite !I. rewrite <- Rmult_minus_distr_l, !Rabs_mult.
    pose proof (Rabs_pos_lt k K) as P. rewrite RmaxRmult by lra.
    assert (E1 : (k * a = k * b <-> a = b)%R) by (split; [intros Q; now apply Rmult_eq_reg_l in Q|now intros ->]).
    assert (E2 : (Rabs k * Rabs (a - b) <= e * (Rabs k * Rmax (Rabs a) (Rabs b)) <-> Rabs (a - b) <= e * Rmax (Rabs a) (Rabs b))%R).
    { replace (e * (Rabs k * Rmax (Rabs a) (Rabs b)))%R with (Rabs k * (e * Rmax (Rabs a) (Rabs b)))%R by ring.
      split; [apply Rmult_le_reg_l; exact P|apply Rmult_le_compat_l; lra]. }
    tauto.
  - intros e' L. rewrite !I. intros [H|H]; [now left|]. right. eapply Rle_trans; [exact H|]. apply Rmult_le_compat_r; [|exact L].
    eapply Rle_trans; [apply Rabs_pos|apply Rmax_l].
  - rewrite I, Rminus_0_r, Rabs_R0. rewrite Rmax_left by apply Rabs_pos.
    destruct (Req_EM_T a 0) as [Z|Z]; [tauto|]. pose proof (Rabs_pos_lt a Z) as P. split; intros [H|H]; try tauto; right.
    + apply Rmult_le_reg_r with (Rabs a); [exact P|]. now rewrite Rmult_1_l.
    + apply (Rmult_le_compat_r (Rabs a)) in H; lra.
Qed.
Print Assumptions C80_close_real.

(** The Kahan matrix: whatever the memory held, entry (i, j) is s^i / (j + 1) times 1 on the diagonal, -c above it, 0 below it. *)
Theorem C80_kahan : forall (F : fld) n (c s : F) memory i j, i < n -> j < n ->
  (j < i -> kahan n c s memory i j = 0%F) /\
  (i = j -> kahan n c s memory i j = (power s i / (fZ (Z.of_nat j) + 1))%F) /\
  (i < j -> kahan n c s memory i j = (- c * power s i / (fZ (Z.of_nat j) + 1))%F).
Proof.
  intros F n c s A i j Li Lj. rewrite kahan_spec by assumption. unfold number. split; [|split]; intros H.
  - destruct (Nat.ltb_spec j i); [|lia]. now rewrite fmul_zero_l, (Fdiv_def (f_th F)), fmul_zero_l.
  - subst. rewrite Nat.ltb_irrefl, Nat.eqb_refl. now rewrite (Rmul_1_l (F_R (f_th F))).
  - destruct (Nat.ltb_spec j i); [lia|]. destruct (Nat.eqb_spec i j); [lia|reflexivity].
Qed.
Print Assumptions C80_kahan.

(** A matrix stored by columns survives saving and loading. *)
Theorem C80_archive_partial : forall (V : Type) (d : V) (m : stored), proper m -> load_matrix (save_matrix d ColMajor m) = m.
Proof. intros. now apply column_major. Qed.
Print Assumptions C80_archive_partial.

(** One stored by rows comes back with other entries. *)
Theorem C80_archive_refuted : ~ forall (V : Type) (d : V) o (m : stored), proper m -> forall i j, i < rows m -> j < cols m ->
  coeff d o (load_matrix (save_matrix d o m)) i j = coeff d o m i j.
Proof. intros H. specialize (H nat 0 RowMajor (mkStored 2 2 [1; 2; 3; 4]) eq_refl 0 1). cbn in H. discriminate H; auto. Qed.
Print Assumptions C80_archive_refuted.

(** The maxima of several arguments are arguments which no argument exceeds. *)
Theorem C80_maxima : forall (A : Type) (less : A -> A -> bool),
  (forall a, less a a = false) -> (forall a b, less a b = true -> less b a = false) ->
  (forall a b c, less a b = false -> less b c = false -> less a c = false) ->
  forall a b c d e, let greatest l x := In x l /\ forall y, In y l -> less x y = false in
  greatest [a; b; c] (max3 less a b c) /\ greatest [a; b; c; d] (max4 less a b c d) /\ greatest [a; b; c; d; e] (max5 less a b c d e).
Proof. intros A less I S T a b c d e. now apply greatest_max5. Qed.
Print Assumptions C80_maxima.

(** Concrete cases *)
Example C80_precision_case :
  let m := [[mkNum 1 30; mkNum 2 30]; [mkNum 3 30; mkNum 4 16]] in
  rectangular 2 m /\ entries m <> [] /\ uniform_precision m = Throws /\
  uniform_precision (set_matrix (fun _ x => x) 20 m) = Precise 20 /\ matrix_precision m = Precise 30.
Proof. repeat split; try reflexivity; try discriminate. repeat constructor. Qed.
Example C80_close_case : close Req_EM_T Rminus Rabs 100%R 101%R (1 / 100)%R = true /\ close Req_EM_T Rminus Rabs 100%R 102%R (1 / 100)%R = false.
Proof.
  assert (I : forall a b e, close Req_EM_T Rminus Rabs a b e = true <-> a = b \/ (Rabs (a - b) <= e * Rmax (Rabs a) (Rabs b))%R).
  { intros x y d. apply C80_close; [apply Rabs_pos|]. intros u v D. apply Rabs_pos_lt. lra. }
  split.
  - apply I. right. rewrite (Rabs_right 100), (Rabs_right 101) by lra. rewrite Rmax_right by lra. rewrite Rabs_left by lra. lra.
  - apply not_true_is_false. rewrite I. intros [H|H]; [lra|]. revert H. rewrite (Rabs_right 100), (Rabs_right 102) by lra.
    rewrite Rmax_right by lra. rewrite Rabs_left by lra. lra.
Qed.
Example C80_kahan_case : let K := kahan (F := QcF) 3 (qc 3 5) (qc 4 5) (fun _ _ => qc 7 1) in
  K 0 0 = qc 1 1 /\ K 1 2 = qc (-4) 25 /\ K 2 2 = qc 16 75 /\ K 2 1 = qc 0 1.
Proof. vm_compute. auto. Qed.
Example C80_archive_case : let m := mkStored 2 3 [1; 2; 3; 4; 5; 6] in
  proper m /\ save_matrix 0 ColMajor m = (2, 3, [1; 2; 3; 4; 5; 6]) /\ coeff 0 ColMajor m 1 2 = 6 /\
  save_matrix 0 RowMajor m = (2, 3, [1; 4; 2; 5; 3; 6]).
Proof. repeat split. Qed.
Example C80_maxima_case : max5 Nat.ltb 3 1 4 1 5 = 5 /\ max4 Nat.ltb 3 1 4 1 = 4 /\ max3 Nat.ltb 3 1 2 = 3.
Proof. repeat split. Qed.
