(** C81: the precision of everything an adaptive precision tracker works with. *)
From Coq Require Import List Arith Bool ZArith Lia.
From Verif Require Import PatchPrecision AmpState.
Import ListNotations.

(** Everything a tracker computes with is at its current precision *)
Definition in_step {V : Type} (s : amp (V := V)) : Prop :=
  dflt s = cur s /\ sys s = cur s /\ 16 <= cur s <= 1000 /\
  (16 < cur s -> pred s = cur s /\ corr s = cur s /\ prec (endt s) = cur s /\ prec (step s) = cur s /\ prec (delta s) = cur s /\
    prec (time s) = cur s /\ forall x, In x (space s) \/ In x (tentative s) \/ In x (temporary s) -> prec x = cur s).

(** Whatever the tracker did before and the start point (whose coordinates may have different precisions): no assertion fails when
    tracking starts, the precision is that of the first coordinate, and after any steps, refinements and changes between 16 and
    1000 digits, in any order, no assertion has failed and everything is at the current precision. *)
Theorem C81_uniform : forall (V : Type) (rnd : nat -> V -> V) zero join n, 0 < n -> (forall p, join p p = p) ->
  forall s t0 t1 c x0 first ops, length (c :: x0) = n -> 16 <= prec c <= 1000 -> Forall (fits n) ops ->
  exists s1 s2, start_track rnd zero n t0 t1 (c :: x0) first s = Some s1 /\ run rnd zero join n ops s1 = Some s2 /\
    cur s1 = prec c /\ values s1 = map (fun x => rnd (prec c) (val x)) (c :: x0) /\ in_step s1 /\ in_step s2.
Proof.
  intros V rnd zero join n P J s t0 t1 c x0 first ops L B F.
  destruct (start_spec rnd zero n P t0 t1 (c :: x0) first s c x0 eq_refl L B) as (s1 & E1 & U1 & Z1 & C1 & _ & _ & _ & V1).
  destruct (run_spec rnd zero join n P J ops s1 U1 Z1 F) as (s2 & E2 & U2 & Z2 & _).
  assert (G : forall s : amp (V := V), uniform s -> in_step s).
  { clear. intros s (D & Y & [U|(L & P & C & E & H & T & M & S1 & S2 & S3)]); (split; [exact D|]; split; [exact Y|]); unfold double_digits, most_digits in *.
    - split; [lia|]. intros X. lia.
    - split; [lia|]. intros _. unfold all_at in *. rewrite Forall_forall in S1, S2, S3. repeat (split; [assumption|]). intros x [I|[I|I]]; auto. }
  exists s1, s2. split; [exact E1|]. split; [exact E2|]. split; [exact C1|]. split; [exact V1|]. split; now apply G.
Qed.
Print Assumptions C81_uniform.

(** A change to another precision succeeds exactly if it lies between 16 and 1000 digits; otherwise an assertion fails. *)
Theorem C81_limits : forall (V : Type) (rnd : nat -> V -> V) zero n, 0 < n -> forall (s : amp) p, uniform s -> sized n s -> p <> cur s ->
  (change rnd zero n p s <> None <-> 16 <= p <= 1000).
Proof.
  intros V rnd zero n P s p U Z N. split.
  - intros H. destruct (le_lt_dec p 1000) as [L|L].
    + split; [|exact L]. destruct (le_lt_dec 16 p) as [G|G]; [exact G|]. exfalso. apply H. unfold change.
      destruct (Nat.eqb_spec p (cur s)); [contradiction|]. unfold double_digits. destruct (Nat.eqb_spec p 16); [lia|].
      destruct (Nat.ltb_spec 16 p); [lia|]. cbn [andb]. unfold multiple_to_multiple, to_multiple, double_digits.
      destruct (Nat.ltb_spec 16 p); [lia|]. now rewrite andb_false_r.
    + exfalso. apply H. unfold change. destruct (Nat.eqb_spec p (cur s)); [contradiction|]. unfold double_digits.
      destruct (Nat.eqb_spec p 16); [lia|]. cbn [andb]. destruct (_ && _); now apply to_multiple_fails.
  - intros L. destruct (change_spec rnd zero n P p s U Z L) as (s' & E & _). congruence.
Qed.
Print Assumptions C81_limits.

(** A change rounds the current point to the new precision and does nothing else to it: a higher precision leaves its value, and
    a later change back restores the point. *)
Theorem C81_point : forall (V : Type) (rnd : nat -> V -> V) zero join n, 0 < n -> (forall p, join p p = p) ->
  (forall p q v, q <= p -> rnd p (rnd q v) = rnd q v) ->
  forall s t0 t1 c x0 first ops s1 s2 p, length (c :: x0) = n -> 16 <= prec c <= 1000 -> Forall (fits n) ops -> 16 <= p <= 1000 ->
  start_track rnd zero n t0 t1 (c :: x0) first s = Some s1 -> run rnd zero join n ops s1 = Some s2 -> exists s3 s4,
    change rnd zero n p s2 = Some s3 /\ cur s3 = p /\ values s3 = map (rnd p) (values s2) /\
    (cur s2 <= p -> values s3 = values s2) /\
    change rnd zero n (cur s2) s3 = Some s4 /\ cur s4 = cur s2 /\ (cur s2 <= p -> values s4 = values s2).
Proof.
  intros V rnd zero join n P J N s t0 t1 c x0 first ops s1 s2 p L B F R E1 E2.
  destruct (start_spec rnd zero n P t0 t1 (c :: x0) first s c x0 eq_refl L B) as (s1' & E1' & U1 & Z1 & _).
  assert (s1' = s1) by congruence. subst s1'.
  destruct (run_spec rnd zero join n P J ops s1 U1 Z1 F) as (s2' & E2' & U2 & Z2 & _). assert (s2' = s2) by congruence. subst s2'.
  pose proof (run_rounded rnd zero join n P J N ops s1 s2 U1 Z1 F (start_rounded rnd zero n P N t0 t1 _ first s s1 E1) E2) as Q2.
  assert (RV : forall q, cur s2 <= q -> map (rnd q) (values s2) = values s2).
  { intros q G. unfold rounded, values in *. destruct (Nat.eqb_spec (cur s2) double_digits) as [D|D].
    - rewrite <- (map_rnd_same rnd double_digits (space_d s2) Q2) at 1. rewrite map_map.
      rewrite (map_ext _ (rnd double_digits)); [now apply map_rnd_same|]. intros v. apply N. lia.
    - rewrite map_map. apply map_ext_in. intros x I. destruct Q2 as (Q2 & _). rewrite Forall_forall in Q2. rewrite <- (Q2 x I). now apply N. }
  destruct (change_spec rnd zero n P p s2 U2 Z2 R) as (s3 & E3 & C3 & U3 & Z3 & _).
  assert (B2 : double_digits <= cur s2 <= most_digits).
  { destruct U2 as (_ & _ & [U|(U & _)]); unfold double_digits, most_digits in *; lia. }
  destruct (change_spec rnd zero n P (cur s2) s3 U3 Z3 B2) as (s4 & E4 & C4 & _).
  assert (V3 : values s3 = map (rnd p) (values s2)).
  { destruct (Nat.eq_dec p (cur s2)) as [E|D].
    - unfold change in E3. rewrite E, Nat.eqb_refl in E3. injection E3 as <-. symmetry. apply RV. lia.
    - now apply (change_values rnd zero n P N p s2 s3). }
  exists s3, s4. split; [exact E3|]. split; [exact C3|]. split; [exact V3|]. split; [intros G; rewrite V3; now apply RV|].
  split; [exact E4|]. split; [exact C4|]. intros G. destruct (Nat.eq_dec (cur s2) (cur s3)) as [E|D].
  - unfold change in E4. rewrite <- E, Nat.eqb_refl in E4. injection E4 as <-. rewrite V3. now apply RV.
  - rewrite (change_values rnd zero n P N (cur s2) s3 s4 U3 Z3 B2 D E4), V3, (RV p G). now apply RV.
Qed.
Print Assumptions C81_point.

(** The solution of a track is the current point, each coordinate at the precision reached; with preserve_precision the tracker
    itself is at the initial precision afterwards. *)
Theorem C81_solution : forall (V : Type) (rnd : nat -> V -> V) zero join n, 0 < n -> (forall p, join p p = p) ->
  (forall p q v, q <= p -> rnd p (rnd q v) = rnd q v) ->
  forall s t0 t1 c x0 first ops s1 s2, length (c :: x0) = n -> 16 <= prec c <= 1000 -> Forall (fits n) ops ->
  start_track rnd zero n t0 t1 (c :: x0) first s = Some s1 -> run rnd zero join n ops s1 = Some s2 -> exists sol s3,
    finish rnd zero n s2 = Some (sol, s3) /\ map val sol = values s2 /\ (forall x, In x sol -> prec x = cur s2) /\
    map val (current_point rnd s2) = values s2 /\ (forall x, In x (current_point rnd s2) -> prec x = cur s2) /\
    cur s3 = if preserve s then prec c else cur s2.
Proof.
  intros V rnd zero join n P J N s t0 t1 c x0 first ops s1 s2 L B F E1 E2.
  destruct (start_spec rnd zero n P t0 t1 (c :: x0) first s c x0 eq_refl L B) as (s1' & E1' & U1 & Z1 & _ & I1 & P1 & _).
  assert (s1' = s1) by congruence. subst s1'.
  destruct (run_spec rnd zero join n P J ops s1 U1 Z1 F) as (s2' & E2' & U2 & Z2 & _ & K2 & K3). assert (s2' = s2) by congruence. subst s2'.
  pose proof (run_rounded rnd zero join n P J N ops s1 s2 U1 Z1 F (start_rounded rnd zero n P N t0 t1 _ first s s1 E1) E2) as Q2.
  destruct (final_values rnd s2 U2 Q2) as [FV FP].
  assert (CV : map val (current_point rnd s2) = values s2 /\ all_at (cur s2) (current_point rnd s2)).
  { unfold final_solution, current_point, values in *. destruct (Nat.eqb_spec (cur s2) double_digits) as [D|D]; [now split|]. split; [reflexivity|].
    destruct U2 as (_ & _ & [X|(_ & _ & _ & _ & _ & _ & _ & A & _)]); [contradiction|exact A]. }
  destruct CV as [CV CP]. unfold all_at in FP, CP. rewrite Forall_forall in FP, CP.
  unfold finish, cleanup. rewrite K3, P1, K2, I1. destruct (preserve s).
  - destruct (change_spec rnd zero n P (prec c) s2 U2 Z2 B) as (s3 & E3 & C3 & _). rewrite E3. exists (final_solution rnd s2), s3. tauto.
  - exists (final_solution rnd s2), s2. tauto.
Qed.
Print Assumptions C81_solution.

(** In multiple precision the tracker heads for the end time rounded to the precision of the start point, then to the current one. *)
Theorem C81_end_time_partial : forall (V : Type) (rnd : nat -> V -> V) zero join n, 0 < n -> (forall p, join p p = p) ->
  forall s t0 t1 c x0 first ops s1 s2, length (c :: x0) = n -> 16 <= prec c <= 1000 -> Forall (fits n) ops ->
  start_track rnd zero n t0 t1 (c :: x0) first s = Some s1 -> run rnd zero join n ops s1 = Some s2 -> 16 < cur s2 ->
  prec (endt s2) = cur s2 /\ val (endt s2) = rnd (cur s2) (rnd (prec c) (val t1)).
Proof.
  intros V rnd zero join n P J s t0 t1 c x0 first ops s1 s2 L B F E1 E2 C.
  destruct (start_spec rnd zero n P t0 t1 (c :: x0) first s c x0 eq_refl L B) as (s1' & E1' & U1 & Z1 & _ & _ & _ & H1 & _).
  assert (s1' = s1) by congruence. subst s1'.
  destruct (run_spec rnd zero join n P J ops s1 U1 Z1 F) as (s2' & E2' & U2 & Z2 & K1 & _). assert (s2' = s2) by congruence. subst s2'.
  pose proof (run_heads rnd zero join n ops s1 s2 (start_heads rnd zero join n t0 t1 _ first s s1 E1) E2) as H.
  rewrite H by (unfold double_digits; lia). rewrite K1, H1. now split.
Qed.
Print Assumptions C81_end_time_partial.

(** ** Decimal fractions with 60 digits, rounded towards minus infinity *)
Definition cut (p : nat) (v : Z) : Z := (v / 10 ^ Z.of_nat (60 - p) * 10 ^ Z.of_nat (60 - p))%Z.
Lemma cut_nested : forall p q v, q <= p -> cut p (cut q v) = cut q v.
Proof.
  intros p q v L. unfold cut. replace (Z.of_nat (60 - q)) with (Z.of_nat (60 - q) - Z.of_nat (60 - p) + Z.of_nat (60 - p))%Z by lia.
  rewrite Z.pow_add_r by lia. rewrite !Z.mul_assoc, Z.div_mul by (apply Z.pow_nonzero; lia). reflexivity.
Qed.
Definition third : Z := (10 ^ 60 / 3)%Z.
Definition idle : amp (V := Z) :=
  let z := mkNum 0%Z 16 in mkAmpState 16 16 16 16 true 16 16 16 z z z z z [] [] [] [].

(** The end time is not the one asked for rounded to the current precision: one given with 30 digits is cut to 16 when the start
    point has 16, and stays so when the precision rises. *)
Theorem C81_end_time_refuted : ~ forall (V : Type) (rnd : nat -> V -> V) zero join n, 0 < n -> (forall p, join p p = p) ->
  (forall p q v, q <= p -> rnd p (rnd q v) = rnd q v) ->
  forall s t0 t1 c x0 first ops s1 s2, length (c :: x0) = n -> 16 <= prec c <= 1000 -> Forall (fits n) ops ->
  start_track rnd zero n t0 t1 (c :: x0) first s = Some s1 -> run rnd zero join n ops s1 = Some s2 -> 16 < cur s2 ->
  cur s2 <= prec t1 -> val (endt s2) = rnd (cur s2) (val t1).
Proof.
  intros H.
  assert (X : exists s1 s2, start_track cut 0%Z 1 (mkNum (10 ^ 60)%Z 30) (mkNum third 30) [mkNum (10 ^ 60)%Z 16] None idle = Some s1 /\
    run cut 0%Z Nat.max 1 [Change 30] s1 = Some s2 /\ cur s2 = 30 /\ val (endt s2) <> cut 30 third).
  { eexists. eexists. split; [vm_compute; reflexivity|]. split; [vm_compute; reflexivity|]. split; [reflexivity|]. now vm_compute. }
  destruct X as (s1 & s2 & E1 & E2 & C & D). apply D. rewrite <- C.
  apply (H Z cut 0%Z Nat.max 1 (le_n 1) Nat.max_id cut_nested idle (mkNum (10 ^ 60)%Z 30) (mkNum third 30) (mkNum (10 ^ 60)%Z 16) [] None [Change 30] s1 s2);
    auto; cbn [prec]; try lia. repeat constructor; unfold double_digits, most_digits; lia.
Qed.
Print Assumptions C81_end_time_refuted.

(** The solution is said to be returned at the initial precision when precision is preserved; it has the precision reached. *)
Theorem C81_preserve_refuted : ~ forall (V : Type) (rnd : nat -> V -> V) zero join n, 0 < n -> (forall p, join p p = p) ->
  (forall p q v, q <= p -> rnd p (rnd q v) = rnd q v) ->
  forall s t0 t1 c x0 first ops s1 s2 sol s3, preserve s = true -> length (c :: x0) = n -> 16 <= prec c <= 1000 -> Forall (fits n) ops ->
  start_track rnd zero n t0 t1 (c :: x0) first s = Some s1 -> run rnd zero join n ops s1 = Some s2 -> finish rnd zero n s2 = Some (sol, s3) ->
  forall x, In x sol -> prec x = prec c.
Proof.
  intros H.
  assert (X : exists s1 s2 x s3, start_track cut 0%Z 1 (mkNum (10 ^ 60)%Z 30) (mkNum third 30) [mkNum (10 ^ 60)%Z 16] None idle = Some s1 /\
    run cut 0%Z Nat.max 1 [Change 30] s1 = Some s2 /\ finish cut 0%Z 1 s2 = Some ([x], s3) /\ prec x <> 16).
  { do 4 eexists. split; [vm_compute; reflexivity|]. split; [vm_compute; reflexivity|]. split; [vm_compute; reflexivity|]. cbn. discriminate. }
  destruct X as (s1 & s2 & x & s3 & E1 & E2 & E3 & D). apply D.
  apply (H Z cut 0%Z Nat.max 1 (le_n 1) Nat.max_id cut_nested idle (mkNum (10 ^ 60)%Z 30) (mkNum third 30) (mkNum (10 ^ 60)%Z 16) [] None [Change 30] s1 s2 [x] s3);
    auto; cbn [prec]; try lia; [|now left]. repeat constructor; unfold double_digits, most_digits; lia.
Qed.
Print Assumptions C81_preserve_refuted.

(** Converting to double precision is said to change the precision of the time and of delta_t; it leaves both. *)
Theorem C81_times_refuted : ~ forall (V : Type) (rnd : nat -> V -> V) zero n (s s' : amp), 16 < cur s ->
  change rnd zero n 16 s = Some s' -> prec (time s') = 16 /\ prec (delta s') = 16.
Proof.
  intros H. set (z := mkNum 0%Z 30).
  pose proof (H Z cut 0%Z 1 (mkAmpState 30 30 30 30 true 30 30 30 z z z z z [] [z] [z] [z])) as H1.
  edestruct H1 as [T _]; [cbn [cur]; lia|vm_compute; reflexivity|]. cbn in T. discriminate.
Qed.
Print Assumptions C81_times_refuted.

(** Refining a point at another precision than the tracker's fails an assertion as long as no path has been tracked: the tracker's
    own vectors are empty. *)
Theorem C81_refine_refuted : forall (V : Type) (rnd : nat -> V -> V) zero n (s : amp) p, 0 < n -> space s = [] -> space_d s = [] ->
  p <> cur s -> refine rnd zero n p s = None.
Proof.
  intros V rnd zero n s p P S D N. unfold refine, change. destruct (Nat.eqb_spec p (cur s)); [contradiction|]. rewrite S, D.
  unfold multiple_to_double, double_to_multiple, multiple_to_multiple, to_multiple. cbn [length]. destruct (Nat.eqb_spec 0 n); [lia|].
  cbn [andb]. now repeat destruct (_ && _)%bool.
Qed.
Print Assumptions C81_refine_refuted.

(** A track with changes of precision up, down to double, and up again. *)
Example C81_case :
  let ops := [NextDelta (-1)%Z; SetTemporary [1; 2]%Z; SetTentative [third; 2 * third]%Z; Accept [third; 2 * third]%Z; Advance (10 ^ 59)%Z;
    Change 40; Change 16; SetStep 7%Z; Change 50; Refine None [1; 1]%Z; Refine (Some [third; 2 * third]%Z) []] in
  Forall (fits 2) ops /\
  exists s1 s2 sol s3, start_track cut 0%Z 2 (mkNum (10 ^ 60)%Z 30) (mkNum 0%Z 30) [mkNum third 30; mkNum third 20] None idle = Some s1 /\
    cur s1 = 30 /\ run cut 0%Z Nat.max 2 ops s1 = Some s2 /\ cur s2 = 50 /\ values s2 = [cut 50 third; cut 50 (2 * third)] /\
    finish cut 0%Z 2 s2 = Some (sol, s3) /\ map prec sol = [50; 50] /\ cur s3 = 30.
Proof.
  split; [repeat constructor; unfold double_digits, most_digits; lia|].
  do 4 eexists. split; [vm_compute; reflexivity|]. split; [reflexivity|]. split; [vm_compute; reflexivity|]. split; [reflexivity|].
  split; [vm_compute; reflexivity|]. split; [vm_compute; reflexivity|]. split; reflexivity.
Qed.
