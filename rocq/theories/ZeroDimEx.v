(** Consequences for one call of Solve, and the witnesses. *)
From Coq Require Import List ZArith Lia Reals Lra Bool Arith.
From Coquelicot Require Import Complex.
From Verif Require Import Base Newton Endgame EgSeries EgSeriesEx Midpath ZeroDim.
Import ListNotations.
Local Open Scope R_scope.

Section Solve.
Variable nv n : nat.
Variable start_point : nat -> (nat -> C).
Variable track endgame : nat -> settings -> (nat -> C) -> (nat -> C) * code * R.
Variable newton_before newton_during factor same_final same_mid : R.
Variable max_attempts : nat.

Notation solve := (solve nv n start_point track endgame newton_before newton_during factor same_final same_mid max_attempts).
Notation solves := (solves nv n start_point track endgame newton_before newton_during factor same_final same_mid max_attempts).

(** The records of path i after one more call of Solve. *)
Lemma any_solve : forall k t i, (i < n)%nat ->
  let s := solves k (new_solver t) in
  let s' := solve s in
  undefined s' = false /\ length (meta s') = n /\
  exists m b, nth_error (meta s') i = Some m /\ nth_error (boundary s') i = Some b /\
    path_index m = Some i /\ solution_index m = Some i /\ pre_success m = success_code b /\
    (exists k1 t1 x h, track k1 t1 (start_point i) = (x, pre_success m, h) /\ path_point b = Some x) /\
    (pre_success m = Success -> exists k2 t2 x y h, path_point b = Some x /\ endgame k2 t2 x = (y, eg_success m, h) /\
        nth_error (final s') i = Some (Some y)) /\
    (pre_success m <> Success ->
        eg_success m = eg_success (nth i (meta s) new_meta) /\ nth_error (final s') i = Some (nth i (final s) None)).
Proof.
  intros k t i Hi s s'.
  destruct (solve_facts nv n start_point track endgame newton_before newton_during factor same_final same_mid max_attempts s) as (A & B & _ & O).
  { apply solves_ok. }
  fold s' in A, B, O. split; [apply A|]. split; [apply B|].
  destruct (O i Hi) as (k1 & t1 & x & c & h & m & E1 & E2 & E3 & P1 & P2 & P3 & P4 & _).
  exists m, (Boundary (Some x) c h). cbn [success_code path_point]. rewrite P3.
  do 5 (split; [assumption || reflexivity|]). split; [exists k1, t1, x, h; auto|]. split.
  - intro K. destruct P4 as [(_ & k2 & t2 & y & h2 & Q1 & Q2)|(Q & _)]; [|contradiction].
    exists k2, t2, x, y, h2. auto.
  - intro K. destruct P4 as [(Q & _)|(_ & Q1 & Q2)]; [contradiction|]. auto.
Qed.

Lemma first_solve : forall t i, (i < n)%nat ->
  let s' := solve (new_solver t) in
  undefined s' = false /\ length (meta s') = n /\
  exists m b, nth_error (meta s') i = Some m /\ nth_error (boundary s') i = Some b /\
    path_index m = Some i /\ solution_index m = Some i /\ pre_success m = success_code b /\
    (exists k1 t1 x h, track k1 t1 (start_point i) = (x, pre_success m, h) /\ path_point b = Some x) /\
    (pre_success m = Success -> exists k2 t2 x y h, path_point b = Some x /\ endgame k2 t2 x = (y, eg_success m, h) /\
        nth_error (final s') i = Some (Some y)) /\
    (pre_success m <> Success -> eg_success m = NeverStarted /\ nth_error (final s') i = Some None).
Proof.
  intros t i Hi s'. pose proof (any_solve 0 t i Hi) as H. cbv zeta in H. fold s' in H.
  cbn [ZeroDim.solves new_solver meta final] in H.
  replace (nth i (@nil metadata) new_meta) with new_meta in H by (destruct i; reflexivity).
  replace (nth i (@nil (option (nat -> C))) None) with (@None (nat -> C)) in H by (destruct i; reflexivity). exact H.
Qed.

(** The multiplicity of path i after one more call of Solve. *)
Lemma any_multiplicity : forall k t i, 0 < same_final -> (i < n)%nat ->
  let s := solves k (new_solver t) in
  let s' := solve s in
  exists m l, nth_error (meta s') i = Some m /\ NoDup l /\
    (forall j, In j l <-> (j < n)%nat /\ exists mj x y, nth_error (meta s') j = Some mj /\ eg_success mj = Success /\
       nth_error (final s') i = Some (Some x) /\ nth_error (final s') j = Some (Some y) /\ distance nv x y < same_final) /\
    (eg_success m = Success -> multiplicity m = (multiplicity (nth i (meta s) new_meta) + (Z.of_nat (length l) - 1))%Z) /\
    (eg_success m <> Success -> multiplicity m = multiplicity (nth i (meta s) new_meta)).
Proof.
  intros k t i P Hi s s'.
  destruct (solve_facts nv n start_point track endgame newton_before newton_during factor same_final same_mid max_attempts s) as (A & B & _ & O).
  { apply solves_ok. }
  fold s' in A, B, O. pose proof (ok_has_end n s' A) as He.
  destruct (O i Hi) as (_ & _ & _ & _ & _ & m & _ & _ & Em & _ & _ & _ & _ & M).
  destruct (others_count nv n start_point track endgame same_final s' i P He Hi) as (l & N & I & C).
  assert (F : finished s' i = is_success (eg_success m)) by (unfold finished; rewrite Em; reflexivity).
  assert (D : eg_success m = Success \/ eg_success m <> Success) by (destruct (code_eq_dec (eg_success m) Success); auto).
  destruct D as [D|D].
  - exists m, l. split; [exact Em|]. split; [exact N|]. split.
    + intro j. rewrite I. split.
      * intros (Hj & _ & Fj & x & y & E1 & E2 & E3). split; [exact Hj|]. unfold finished in Fj.
        destruct (nth_error (meta s') j) as [mj|]; [|discriminate]. exists mj, x, y. split; [reflexivity|].
        split; [apply is_success_spec; exact Fj|]. auto.
      * intros (Hj & mj & x & y & E0 & Ej & E1 & E2 & E3). split; [exact Hj|]. split; [rewrite F, D; reflexivity|].
        split; [unfold finished; rewrite E0, Ej; reflexivity|]. exists x, y. auto.
    + split; [intros _|congruence]. rewrite M, C, F, D. reflexivity.
  - assert (F0 : is_success (eg_success m) = false).
    { destruct (is_success (eg_success m)) eqn:K; [|reflexivity]. apply is_success_spec in K. contradiction. }
    exists m. 
    (* the list of coincident points of an unsuccessful path plays no role in its multiplicity *)
    set (g := fun j => match nth_error (meta s') j, nth_error (final s') i, nth_error (final s') j with
                       | Some mj, Some (Some x), Some (Some y) => (is_success (eg_success mj) && lt_bool (distance nv x y) same_final)%bool
                       | _, _, _ => false end).
    exists (filter g (seq 0 n)). split; [exact Em|]. split; [apply NoDup_filter, seq_NoDup|]. split.
    + intro j. rewrite filter_In, in_seq. unfold g. split.
      * intros [Hj K]. split; [lia|]. destruct (nth_error (meta s') j) as [mj|]; [|discriminate].
        destruct (nth_error (final s') i) as [[x|]|]; try discriminate.
        destruct (nth_error (final s') j) as [[y|]|]; try discriminate.
        apply andb_true_iff in K. destruct K as [K1 K2]. exists mj, x, y. apply is_success_spec in K1. apply lt_bool_spec in K2. auto 6.
      * intros (Hj & mj & x & y & -> & Ej & -> & -> & K). split; [lia|]. rewrite Ej. apply lt_bool_spec in K. rewrite K. reflexivity.
    + split; [contradiction|]. intros _. rewrite M, C, F, F0, Z.add_0_r. reflexivity.
Qed.

Lemma first_multiplicity : forall t i, 0 < same_final -> (i < n)%nat ->
  let s' := solve (new_solver t) in
  exists m l, nth_error (meta s') i = Some m /\ NoDup l /\
    (forall j, In j l <-> (j < n)%nat /\ exists mj x y, nth_error (meta s') j = Some mj /\ eg_success mj = Success /\
       nth_error (final s') i = Some (Some x) /\ nth_error (final s') j = Some (Some y) /\ distance nv x y < same_final) /\
    (eg_success m = Success -> multiplicity m = Z.of_nat (length l)) /\
    (eg_success m <> Success -> multiplicity m = 1%Z).
Proof.
  intros t i P Hi s'. destruct (any_multiplicity 0 t i P Hi) as (m & l & A & B & D & E & F).
  exists m, l. split; [exact A|]. split; [exact B|]. split; [exact D|].
  cbn [ZeroDim.solves new_solver meta] in E, F.
  replace (nth i (@nil metadata) new_meta) with new_meta in E, F by (destruct i; reflexivity).
  cbn [multiplicity new_meta] in E, F. split; [intro K; rewrite (E K); lia|exact F].
Qed.

(** All runs of the tracker before the endgame in the first call of Solve. *)
Lemma first_runs : forall t,
  let b := checked (boundary (before n start_point track newton_before (setup n newton_before (new_solver t)))) in
  let crosses i j := meets nv same_mid b i j \/ meets nv same_mid b j i in
  exists bs,
    runs (solve (new_solver t)) = map (fun i => (i, newton_before)) (seq 0 n) ++ batches factor newton_before bs /\
    (length bs <= max_attempts)%nat /\
    ((forall i j, ~ crosses i j) -> bs = []) /\
    (forall i j, crosses i j -> length bs = max_attempts) /\
    (forall l r, bs = l :: r -> NoDup l /\
       forall i, In i l <-> exists j, crosses i j /\ apart nv (start_point i) (start_point j) <= same_mid).
Proof.
  intros t b crosses.
  destruct (solve_facts nv n start_point track endgame newton_before newton_during factor same_final same_mid max_attempts (new_solver t)) as (_ & _ & R & _).
  { apply new_ok. }
  destruct (before_tracked n start_point track newton_before (new_solver t) eq_refl) as (S1 & U1 & I1 & M1 & T1 & R1 & _ & Rn & _).
  { intros i []. }
  set (s1 := before n start_point track newton_before (setup n newton_before (new_solver t))) in *.
  destruct (boundary_action_runs nv n start_point track factor same_mid max_attempts s1) as (bs & L & P1 & P2 & P3 & E).
  { split; assumption. }
  fold b in P1, P2, P3. rewrite M1 in P1, P2, P3. cbn [new_solver mid] in P1, P2, P3.
  pose proof (check_returns nv same_mid start_point b new_checker) as CR.
  pose proof (first_check nv same_mid start_point b) as FC.
  exists bs. split; [rewrite R, E, Rn, R1; reflexivity|]. split; [exact L|].
  assert (X : forall i j, crosses i j -> snd (check nv same_mid start_point b new_checker) = false).
  { intros i j K. destruct (snd (check nv same_mid start_point b new_checker)); [|reflexivity]. exfalso.
    destruct (proj1 CR eq_refl) as [_ Q]. destruct K as [K|K]; exact (Q _ _ K). }
  split.
  { intro K. apply P1. apply CR. split; [reflexivity|]. intros i j M. apply (K i j). left. exact M. }
  split; [intros i j K; apply P3; exact (X i j K)|].
  intros l r Eb. destruct (snd (check nv same_mid start_point b new_checker)) eqn:Ec.
  { rewrite (P1 eq_refl) in Eb. discriminate. }
  destruct (P2 eq_refl) as [Z|(r' & Z)].
  { rewrite Eb in L. cbn in L. lia. }
  assert (El : l = marked (fst (check nv same_mid start_point b new_checker))) by congruence. rewrite El. destruct FC as (N & I & V).
  set (c := crossed (fst (check nv same_mid start_point b new_checker))) in *.
  change (marked (fst (check nv same_mid start_point b new_checker))) with (map index (filter rerun c)). clearbody c. split.
  - clear - N. induction c as [|v l IH]; cbn; [constructor|]. inversion N as [|a b H1 H2]; subst.
    destruct (rerun v); [|apply IH; exact H2]. cbn. constructor; [|apply IH; exact H2].
    intro K. apply H1. apply in_map_iff in K. destruct K as (w & E & K). apply filter_In in K. apply in_map_iff. exists w. tauto.
  - intro i. rewrite in_map_iff. split.
    + intros (v & <- & K). apply filter_In in K. destruct K as [K1 K2]. destruct (V v K1) as (_ & _ & W). apply W. exact K2.
    + intros (j & K1 & K2). assert (Q : In i (map index c)) by (apply I; exists j; exact K1).
      apply in_map_iff in Q. destruct Q as (v & Ev & Q). exists v. split; [exact Ev|]. apply filter_In. split; [exact Q|].
      destruct (V v Q) as (_ & _ & W). apply W. exists j. rewrite Ev. auto.
Qed.

Lemma multiplicities_mid : forall s3, mid (multiplicities nv n same_final s3) = mid s3.
Proof.
  clear - nv n same_final. intro s. unfold multiplicities. generalize (seq 0 n). intro l. revert s.
  induction l as [|i l IH]; intro s; cbn [fold_left]; [reflexivity|].
  rewrite IH. destruct (finished s i); [|reflexivity]. clear. generalize (seq (S i) (n - S i)). intro l. revert s.
  induction l as [|j l IH]; intro s; cbn [fold_left]; [reflexivity|]. rewrite IH. unfold compare.
  destruct (finished s j); [|reflexivity].
  destruct (nth_error (final s) i) as [[x|]|]; try reflexivity.
  destruct (nth_error (final s) j) as [[y|]|]; try reflexivity.
  destruct (lt_bool (distance nv x y) same_final); reflexivity.
Qed.

(** Distinct start points: nothing is run again, in any call of Solve. *)
Lemma distinct_runs : forall t,
  (forall i j, (i < j < n)%nat -> same_mid < apart nv (start_point i) (start_point j)) ->
  forall k, runs (solves k (new_solver t)) = concat (repeat (map (fun i => (i, newton_before)) (seq 0 n)) k).
Proof.
  intros t A k.
  assert (H : runs (solves k (new_solver t)) = concat (repeat (map (fun i => (i, newton_before)) (seq 0 n)) k) /\
              forall v, In v (crossed (mid (solves k (new_solver t)))) -> rerun v = false); [|apply H].
  induction k as [|k IH].
  - split; [reflexivity|]. intros v [].
  - destruct IH as [E N]. cbn [ZeroDim.solves].
    pose proof (solves_ok nv n start_point track endgame newton_before newton_during factor same_final same_mid max_attempts k t) as OK.
    set (s := solves k (new_solver t)) in *.
    destruct (solve_facts nv n start_point track endgame newton_before newton_during factor same_final same_mid max_attempts s OK) as (_ & _ & R & _).
    destruct OK as (U & I & _).
    destruct (before_tracked n start_point track newton_before s U I) as (S1 & U1 & I1 & M1 & T1 & R1 & _ & Rn & _).
    set (s1 := before n start_point track newton_before (setup n newton_before s)) in *.
    assert (G1 : good n start_point track s1) by (split; assumption).
    destruct (boundary_action_nothing nv n start_point track factor same_mid max_attempts s1 G1 A) as (E1 & _ & E3).
    { rewrite M1. exact N. }
    split.
    + rewrite R, E1, Rn, E. cbn [repeat]. rewrite repeat_cons, concat_app. cbn [concat]. rewrite app_nil_r. reflexivity.
    + unfold ZeroDim.solve. fold s1. set (s2 := boundary_action nv start_point track factor same_mid max_attempts s1) in *.
      destruct (boundary_action_good nv n start_point track factor same_mid max_attempts s1 G1) as [G2 _]. fold s2 in G2.
      destruct (during_facts n start_point track endgame newton_during s2 G2) as (S3 & U3 & B3 & M3 & Rn3 & D3).
      set (s3 := during n endgame newton_during s2) in *.
      assert (M4 : mid (multiplicities nv n same_final s3) = mid s3).
      { apply multiplicities_mid. }
      rewrite M4, M3. exact E3.
Qed.

(** If every path succeeds with the same end point, k calls of Solve give every path multiplicity 1 + k (n - 1). *)
Lemma repeated_multiplicity : forall t p, 0 < same_final ->
  (forall k t x, exists y h, track k t x = (y, Success, h)) ->
  (forall k t x, exists h, endgame k t x = (p, Success, h)) ->
  forall k i, (1 <= k)%nat -> (i < n)%nat -> exists m, nth_error (meta (solves k (new_solver t))) i = Some m /\
    multiplicity m = (1 + Z.of_nat k * (Z.of_nat n - 1))%Z.
Proof.
  intros t p P Ht He k i Hk Hi. destruct k as [|k]; [lia|]. clear Hk.
  assert (Sol : forall k j, (j < n)%nat -> exists m, nth_error (meta (solves (S k) (new_solver t))) j = Some m /\ eg_success m = Success /\
            nth_error (final (solves (S k) (new_solver t))) j = Some (Some p)).
  { intros k0 j Hj. destruct (any_solve k0 t j Hj) as (_ & _ & m & b & Em & _ & _ & _ & _ & (k1 & t1 & x & h & E1 & _) & S1 & _).
    cbn [ZeroDim.solves]. exists m. split; [exact Em|].
    destruct (Ht k1 t1 (start_point j)) as (y & h' & E'). rewrite E1 in E'. injection E' as _ E' _.
    destruct (S1 E') as (k2 & t2 & x2 & y2 & h2 & _ & E2 & F). destruct (He k2 t2 x2) as (h3 & E3). rewrite E2 in E3.
    injection E3 as E3 E4 _. split; [exact E4|]. rewrite F, E3. reflexivity. }
  assert (Step : forall k i, (i < n)%nat -> exists m, nth_error (meta (solves (S k) (new_solver t))) i = Some m /\
     multiplicity m = (multiplicity (nth i (meta (solves k (new_solver t))) new_meta) + (Z.of_nat n - 1))%Z).
  { intros k0 i0 Hi0. destruct (any_multiplicity k0 t i0 P Hi0) as (m & l & Em & N & I & M & _).
    destruct (Sol k0 i0 Hi0) as (m1 & Em1 & S1 & F1). cbn [ZeroDim.solves] in Em1, F1 |- *.
    exists m. split; [exact Em|]. rewrite Em in Em1. injection Em1 as <-. rewrite (M S1). f_equal. f_equal. f_equal.
    assert (L : length l = length (seq 0 n)).
    { apply Nat.le_antisymm; apply NoDup_incl_length; try apply seq_NoDup; try exact N.
      - intros j Hj. apply I in Hj. apply in_seq. lia.
      - intros j Hj. apply in_seq in Hj. apply I. split; [lia|]. destruct (Sol k0 j ltac:(lia)) as (mj & E1 & E2 & E3).
        exists mj, p, p. split; [exact E1|]. split; [exact E2|]. split; [exact F1|]. split; [exact E3|]. rewrite distance_same. exact P. }
    rewrite L, seq_length. reflexivity. }
  induction k as [|k IH].
  - destruct (Step 0%nat i Hi) as (m & E & M). exists m. split; [exact E|]. rewrite M. cbn [ZeroDim.solves new_solver meta].
    replace (nth i (@nil metadata) new_meta) with new_meta by (destruct i; reflexivity). cbn [multiplicity new_meta]. lia.
  - destruct (Step (S k) i Hi) as (m & E & M). exists m. split; [exact E|]. destruct IH as (m0 & E0 & M0).
    rewrite M. rewrite (nth_error_nth _ _ _ E0), M0. lia.
Qed.

End Solve.

(** ** Witnesses *)

Definition const1 (z : R) : nat -> C := fun _ => RtoC z.

Lemma sup1 : forall z, sup 1 (const1 z) = Rabs z.
Proof. intro z. unfold sup. cbn. unfold const1. rewrite Cmod_R. apply Rmax_left. apply Rabs_pos. Qed.

Lemma apart1 : forall y z, apart 1 (const1 y) (const1 z) = Rabs (y - z).
Proof. intros y z. unfold apart, sup. cbn. unfold const1. rewrite <- RtoC_minus, Cmod_R. apply Rmax_left. apply Rabs_pos. Qed.

(** The relative distance depends on the order of the paths. *)
Lemma order_matters : forall start,
  snd (check 1 (1 / 2) start [(const1 3, Success); (const1 5, Success)] new_checker) = true /\
  snd (check 1 (1 / 2) start [(const1 5, Success); (const1 3, Success)] new_checker) = false.
Proof.
  intro start. split.
  - apply check_returns. split; [reflexivity|]. intros i j (L & x & y & Hi & Hj & D).
    destruct i as [|[|i]], j as [|[|j]]; try lia; cbn in Hi, Hj; try discriminate; try (destruct j; discriminate).
    injection Hi as <-. injection Hj as <-. rewrite apart1, sup1 in D.
    rewrite (Rabs_left (3 - 5)), (Rabs_right 3) in D by lra. lra.
  - destruct (snd (check 1 (1 / 2) start [(const1 5, Success); (const1 3, Success)] new_checker)) eqn:E; [|reflexivity].
    apply check_returns in E. destruct E as [_ E]. exfalso. apply (E 0%nat 1%nat). split; [lia|].
    exists (const1 5), (const1 3). split; [reflexivity|]. split; [reflexivity|].
    rewrite apart1, sup1, !Rabs_right by lra. lra.
Qed.

(** Two paths at the origin are not seen to cross. *)
Lemma origin_unseen : forall start tol,
  snd (check 1 tol start [(const1 0, Success); (const1 0, Success)] new_checker) = true.
Proof.
  intros start tol. apply check_returns. split; [reflexivity|]. intros i j (L & x & y & Hi & Hj & D).
  destruct i as [|[|i]], j as [|[|j]]; try lia; cbn in Hi, Hj; try discriminate; try (destruct j; discriminate).
  injection Hi as <-. injection Hj as <-. rewrite apart1, sup1 in D.
  replace (0 - 0) with 0 in D by ring. rewrite Rabs_R0 in D. lra.
Qed.

(** A resolved crossing is still reported. *)
Lemma resolved_still_fails : forall start,
  let first := check 1 (1 / 2) start [(const1 1, Success); (const1 1, Success)] new_checker in
  let second := check 1 (1 / 2) start [(const1 1, Success); (const1 3, Success)] (fst first) in
  snd first = false /\ snd second = false /\
  snd (check 1 (1 / 2) start [(const1 1, Success); (const1 3, Success)] new_checker) = true.
Proof.
  intros start first second.
  assert (F : snd first = false).
  { destruct (snd first) eqn:E; [|reflexivity]. apply check_returns in E. destruct E as [_ E]. exfalso.
    apply (E 0%nat 1%nat). split; [lia|]. exists (const1 1), (const1 1). split; [reflexivity|]. split; [reflexivity|].
    rewrite apart1, sup1. replace (1 - 1) with 0 by ring. rewrite Rabs_R0, Rabs_right by lra. lra. }
  split; [exact F|]. split.
  - destruct (snd second) eqn:E; [|reflexivity]. apply check_returns in E. destruct E as [E _].
    change (snd first = true) in E. congruence.
  - apply check_returns. split; [reflexivity|]. intros i j (L & x & y & Hi & Hj & D).
    destruct i as [|[|i]], j as [|[|j]]; try lia; cbn in Hi, Hj; try discriminate; try (destruct j; discriminate).
    injection Hi as <-. injection Hj as <-. rewrite apart1, sup1 in D.
    rewrite (Rabs_left (1 - 3)), (Rabs_right 1) in D by lra. lra.
Qed.

(** One path, which succeeds in the first call of Solve and fails in the second. *)
Definition flaky (k : nat) (t : settings) (x : nat -> C) : (nat -> C) * code * R :=
  (x, match k with O => Success | _ => FailedToConverge end, 1).
Definition steady (k : nat) (t : settings) (x : nat -> C) : (nat -> C) * code * R := (const1 7, Success, 1).

Lemma stale_result : forall t,
  let s := solve 1 1 (fun _ => const1 1) flaky steady 1 1 1 1 1 2 (solve 1 1 (fun _ => const1 1) flaky steady 1 1 1 1 1 2 (new_solver t)) in
  exists m, nth_error (meta s) 0 = Some m /\ pre_success m = FailedToConverge /\ eg_success m = Success /\
    nth_error (final s) 0 = Some (Some (const1 7)).
Proof. intro t. eexists. split; [reflexivity|]. repeat split. Qed.
