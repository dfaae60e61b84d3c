(** The power series extrapolation of a path, and the square root. *)
From Coq Require Import List ZArith Lia Reals Lra Bool Arith.
From Coquelicot Require Import Complex.
From Verif Require Import Base Poly ComplexField StartIndex RKQuad Hermite HermiteDef Endgame EndgameProof EndgamePs EndgameEx EgMean EgSeries.
Import ListNotations.
Local Open Scope R_scope.

Lemma linf_nonneg : forall x, 0 <= linf x.
Proof. induction x as [|z x IH]; cbn [linf]; [lra|]. eapply Rle_trans; [exact IH|apply Rmax_r]. Qed.

Lemma apart_nonneg : forall nv x y, 0 <= apart nv x y.
Proof. intros. apply linf_nonneg. Qed.

Lemma apart_same : forall nv (x y : nat -> C), (forall j, x j = y j) -> apart nv x y = 0.
Proof.
  intros nv x y E. unfold apart, sup. induction (seq 0 nv) as [|j l IH]; [reflexivity|]. cbn [map linf]. rewrite IH, E.
  replace (y j - y j)%C with (RtoC 0) by ring. rewrite Cmod_0. apply Rmax_left. lra.
Qed.

Lemma apart_zero : forall nv (x y : nat -> C), apart nv x y = 0 -> forall j, (j < nv)%nat -> x j = y j.
Proof.
  intros nv x y E j Hj. unfold apart, sup in E.
  assert (H : forall l, linf (map (fun j => (x j - y j)%C) l) = 0 -> forall j, In j l -> x j = y j).
  { induction l as [|k l IH]; intros E' i Hi; [destruct Hi|]. cbn [map linf] in E'.
    pose proof (Cmod_ge_0 (x k - y k)%C) as A. pose proof (linf_nonneg (map (fun j => (x j - y j)%C) l)) as B.
    pose proof (Rmax_l (Cmod (x k - y k)%C) (linf (map (fun j => (x j - y j)%C) l))) as M1.
    pose proof (Rmax_r (Cmod (x k - y k)%C) (linf (map (fun j => (x j - y j)%C) l))) as M2.
    destruct Hi as [<-|Hi].
    - assert (Z : Cmod (x k - y k)%C = 0) by lra. apply Cmod_eq_0 in Z.
      replace (x k) with ((x k - y k) + y k)%C by ring. rewrite Z. ring.
    - apply IH; [lra|exact Hi]. }
  apply (H _ E). apply in_seq. lia.
Qed.

Section Exact.
Variables (nv n : nat) (factor : R) (amplification max_cycle : Z) (rand : nat -> C) (highest : R).
Hypothesis n3 : (3 <= n)%nat.
Hypothesis big : 0 < highest.

(** every candidate has a prediction *)
Lemma prediction_defined : forall t0 num times samples derivs c,
  (1 <= c)%nat -> (1 <= num)%nat -> (num <= length times)%nat -> (num <= length samples)%nat -> (num <= length derivs)%nat ->
  (forall t, In t times -> t <> t0) ->
  exists e, prediction_error nv t0 num times samples derivs c = Value e.
Proof.
  intros t0 num times samples derivs c Hc Hn Ht Hs Hd Hz. unfold prediction_error, prediction.
  destruct (back_some _ samples ltac:(lia)) as [x ->]. destruct (back_some _ times ltac:(lia)) as [r Er].
  destruct times as [|first times']; [cbn in Ht; lia|]. rewrite Er. set (times := first :: times') in *.
  unfold to_s_plane. destruct (Nat.eqb_spec c 0); [lia|].
  destruct (Nat.ltb_spec (length times) num); [lia|]. destruct (Nat.ltb_spec (length derivs) num); [lia|]. cbn [orb].
  unfold times at 1. destruct (C_dec _ _) as [Z|_].
  { exfalso. apply (Hz first); [left; reflexivity|]. replace first with ((first - t0) + t0)%C by ring. rewrite Z. ring. }
  cbn [obind fst snd].
  match goal with |- context [hermite CF nat ?T num ?S samples ?D false] =>
    destruct (hermite_defined CF nat T num S samples D false Hn) as [p Ep] end.
  - rewrite map_length, firstn_length. lia.
  - exact Hs.
  - rewrite map_length, combine_length, map_length, !firstn_length. lia.
  - rewrite Ep. cbn [obind]. eexists. reflexivity.
Qed.

Variable c : nat.
Hypothesis c1 : (1 <= c)%nat.
Variables (t0 u : C).
Hypothesis u0 : u <> RtoC 0.
Variable q : nat -> list C.
Hypothesis quadratic : forall j, (length (q j) <= 3)%nat.
Variable rs : list R.
Hypothesis rs_pos : List.Forall (fun r => 0 < r) rs.
Hypothesis rs_distinct : NoDup rs.
Hypothesis rs_long : (n <= length rs)%nat.

Notation times := (map (time_of t0 u) rs).
Notation samples := (map (value_of c q) rs).
Notation derivs := (map (slope_of c u q) rs).
Notation err := (prediction_error nv t0 (search_points n samples) times samples derivs).

Lemma points_bound : (2 <= search_points n samples <= length rs)%nat.
Proof. unfold search_points. rewrite map_length. destruct (Nat.ltb_spec n (length rs)); lia. Qed.

Lemma back_map : forall A B (g : A -> B) (l : list A) a, back l = Some a -> back (map g l) = Some (g a).
Proof. intros A B g l a E. unfold back in *. rewrite <- map_rev. destruct (rev l) as [|b l']; [discriminate|]. injection E as ->. reflexivity. Qed.

Lemma back_in : forall A (l : list A) a, back l = Some a -> In a l.
Proof. intros A l a E. apply back_last in E. destruct E as [l' ->]. apply in_or_app. right. left. reflexivity. Qed.

Lemma right_candidate : err c = Value 0.
Proof.
  pose proof points_bound as PB. unfold prediction_error, prediction.
  destruct (back_some _ rs ltac:(lia)) as [r Er]. rewrite (back_map _ _ (value_of c q) _ _ Er).
  pose proof (back_map _ _ (time_of t0 u) _ _ Er) as Et.
  destruct rs as [|r0 rs'] eqn:Ers; [cbn in PB; lia|]. cbn [map] in Et |- *. rewrite Et. rewrite <- Ers in *.
  change (time_of t0 u r0 :: map (time_of t0 u) rs') with (map (time_of t0 u) (r0 :: rs')).
  change (slope_of c u q r0 :: map (slope_of c u q) rs') with (map (slope_of c u q) (r0 :: rs')).
  change (value_of c q r0 :: map (value_of c q) rs') with (map (value_of c q) (r0 :: rs')). rewrite <- Ers.
  assert (Hr : 0 < r) by (apply (proj1 (Forall_forall _ _) rs_pos); apply back_in; exact Er).
  assert (Hr0 : 0 < r0) by (apply (proj1 (Forall_forall _ _) rs_pos); rewrite Ers; left; reflexivity).
  rewrite (scaled_time c c1 t0 u u0 r r0 Hr Hr0).
  destruct (window_exact c c1 t0 u u0 q quadratic rs (search_points n samples) false (root c r / root c r0) rs_pos rs_distinct)
    as (st & x & Es & Ex & Hx); [lia|lia|].
  rewrite Es. cbn [obind]. rewrite Ex. cbn [obind]. f_equal. apply apart_same. intro j. rewrite Hx.
  unfold value_of. f_equal. f_equal. rewrite Ers. cbn [nth]. pose proof (root_pos c r0). field. lra.
Qed.

Lemma times_off : forall t, In t times -> t <> t0.
Proof.
  intros t Ht E. apply in_map_iff in Ht. destruct Ht as (r & Er & Hr).
  assert (P : 0 < r) by (apply (proj1 (Forall_forall _ _) rs_pos); exact Hr).
  assert (Z : (RtoC r * u)%C = RtoC 0).
  { unfold time_of in Er. replace (RtoC r * u)%C with ((t0 + RtoC r * u) - t0)%C by ring. rewrite Er, E. ring. }
  revert Z. apply Cmult_neq_0; [|exact u0]. intro Z. apply RtoC_inj in Z. lra.
Qed.

Lemma search_defined : forall diff l best cy, (forall k, In k l -> exists e, diff k = Value e) ->
  exists c', search diff l best cy = Value c'.
Proof.
  intros diff l. induction l as [|k l IH]; intros best cy H; cbn [search]; [eauto|].
  destruct (H k (or_introl eq_refl)) as [e ->]. cbn [obind].
  destruct (Rlt_dec e best); apply IH; intros j Hj; apply H; right; exact Hj.
Qed.

Lemma series_exact : forall b cyc,
  cycle_bound nv factor amplification max_cycle rand samples = Value b -> (c <= Z.to_nat b)%nat ->
  (forall k, (1 <= k < c)%nat -> err k <> Value 0) ->
  exists x, approximation nv n factor amplification max_cycle rand highest t0 times samples derivs cyc = Value (c, x) /\
    forall j, x j = @peval CF (q j) (RtoC 0).
Proof.
  intros b cyc Hb Hc Hk. pose proof points_bound as PB.
  assert (D : forall k, (1 <= k)%nat -> exists e, err k = Value e).
  { intros k K1. apply prediction_defined; rewrite ?map_length; try lia. exact times_off. }
  assert (S : cycle_number nv n factor amplification max_cycle rand highest t0 times samples derivs cyc = Value c).
  { destruct (search_defined err (seq 1 (Z.to_nat b)) highest cyc) as [c' Ec'].
    { intros k Hin. apply in_seq in Hin. apply D. lia. }
    assert (E : cycle_number nv n factor amplification max_cycle rand highest t0 times samples derivs cyc = Value c').
    { unfold cycle_number. rewrite Hb. exact Ec'. }
    rewrite E. f_equal.
    destruct (cycle_number_min _ _ _ _ _ _ _ _ _ _ _ _ _ _ Hb E) as [_ [(e & R & Ee & _ & M & M2)|[_ M]]].
    - pose proof (M c 0 ltac:(lia) right_candidate) as M0.
      assert (P : 0 <= e).
      { clear - Ee. unfold prediction_error in Ee. destruct (back samples) as [y|]; [|discriminate].
        destruct (prediction _ _ _ _ _ _) as [p| |]; try discriminate. cbn [obind] in Ee. injection Ee as <-. apply apart_nonneg. }
      assert (Z : e = 0) by lra. subst e.
      destruct (Nat.lt_trichotomy c' c) as [L|[L|L]]; [|exact L|].
      + exfalso. apply (Hk c'); [lia|exact Ee].
      + pose proof (M2 c 0 ltac:(lia) right_candidate). lra.
    - pose proof (M c 0 ltac:(lia) right_candidate). lra. }
  unfold approximation. rewrite S. cbn [obind]. unfold extrapolation.
  destruct (window_exact c c1 t0 u u0 q quadratic rs n true 0 rs_pos rs_distinct) as (st & x & Es & Ex & Hx); [lia|lia|].
  rewrite Es. cbn [obind]. rewrite Ex. cbn [obind]. exists x. split; [reflexivity|]. intro j. rewrite Hx.
  rewrite Rmult_0_r. reflexivity.
Qed.
End Exact.

(** ** The square root: x = t^(1/2) at t = 1, 1/4, 1/16 *)

Definition sq_q : nat -> list C := fun _ => [RtoC 0; RtoC 1].
Definition sq_rs : list R := [1; 1 / 4; 1 / 16].
Definition sq_times : list C := map (time_of (RtoC 0) (RtoC 1)) sq_rs.
Definition sq_samples : list (nat -> C) := map (value_of 2 sq_q) sq_rs.
Definition sq_derivs : list (nat -> C) := map (slope_of 2 (RtoC 1) sq_q) sq_rs.
Definition ones : nat -> C := fun _ => RtoC 1.

Lemma root2 : forall r s, 0 < r -> 0 < s -> s * s = r -> root 2 r = s.
Proof.
  intros r s Hr Hs E. pose proof (root_pow 2 ltac:(lia) r Hr) as P. cbn in P. pose proof (root_pos 2 r) as Q. nra.
Qed.
Lemma root2_1 : root 2 1 = 1. Proof. apply root2; lra. Qed.
Lemma root2_4 : root 2 (1 / 4) = 1 / 2. Proof. apply root2; lra. Qed.
Lemma root2_16 : root 2 (1 / 16) = 1 / 4. Proof. apply root2; lra. Qed.

Lemma sq_value : forall r j, value_of 2 sq_q r j = RtoC (root 2 r).
Proof. intros r j. unfold value_of, sq_q. cbn. ring. Qed.

Lemma sq_slope : forall r s j, root 2 r = s -> s <> 0 -> slope_of 2 (RtoC 1) sq_q r j = RtoC (1 / (2 * s)).
Proof.
  intros r s j E Hs. unfold slope_of, sq_q. rewrite E. cbn [pderiv Nat.sub fpow INR].
  rewrite RtoC_div' by lra. rewrite RtoC_mult'. replace (RtoC (1 + 1)) with (RtoC 2) by (f_equal; ring).
  cbn. assert (RtoC s <> RtoC 0) by (intro Z; apply RtoC_inj in Z; lra).
  assert (RtoC 2 <> RtoC 0) by (intro Z; apply RtoC_inj in Z; lra).
  field. auto.
Qed.

Lemma sq_bound_gen : forall amp mx, (2 * amp < 2 ^ 32)%Z -> cycle_bound 1 (1 / 4) amp mx ones sq_samples = Value (Z.max (2 * amp) mx).
Proof.
  intros amp mx Hamp. unfold cycle_bound, sq_samples, sq_rs. cbn [length map Nat.sub skipn].
  assert (A : rand_sum 1 ones (value_of 2 sq_q 1) (value_of 2 sq_q (1 / 4)) = RtoC (- 1 / 2)).
  { unfold rand_sum. cbn [seq map fold_right]. rewrite !sq_value, root2_1, root2_4. unfold ones.
    rewrite <- RtoC_minus', <- RtoC_mult', <- RtoC_plus'. f_equal. field. }
  assert (B : rand_sum 1 ones (value_of 2 sq_q (1 / 4)) (value_of 2 sq_q (1 / 16)) = RtoC (- 1 / 4)).
  { unfold rand_sum. cbn [seq map fold_right]. rewrite !sq_value, root2_16, root2_4. unfold ones.
    rewrite <- RtoC_minus', <- RtoC_mult', <- RtoC_plus'. f_equal. field. }
  rewrite A, B.
  destruct (C_dec _ _) as [Z|_]; [apply RtoC_inj in Z; lra|]. destruct (C_dec _ _) as [Z|_]; [apply RtoC_inj in Z; lra|].
  assert (M : Cmod (RtoC (- 1 / 4) / RtoC (- 1 / 2))%C = 1 / 2).
  { rewrite <- RtoC_div' by lra. rewrite Cmod_R. replace (- 1 / 4 / (- 1 / 2)) with (1 / 2) by field. apply Rabs_pos_eq. lra. }
  unfold estimate_of. rewrite M. destruct (Req_EM_T _ _) as [Z|_]; [lra|].
  assert (L : ln (1 / 4) / ln (1 / 2) = 2).
  { assert (ln (1 / 2) < 0) by (rewrite <- ln_1; apply ln_increasing; lra).
    replace (1 / 4) with (1 / 2 * (1 / 2)) by field. rewrite ln_mult by lra. field. lra. }
  rewrite L. destruct (Rlt_dec 2 1); [lra|].
  assert (I : round_half_up 2 = 2%Z).
  { unfold round_half_up, Int_part. assert (U : (up (2 + 1 / 2) = 3)%Z); [|rewrite U; reflexivity].
    symmetry. apply tech_up; cbn; lra. }
  rewrite I. cbv zeta. destruct (Z.ltb_spec (2 * amp) (2 ^ 32)); [reflexivity|lia].
Qed.

Lemma sq_bound : cycle_bound 1 (1 / 4) 1 1 ones sq_samples = Value 2%Z.
Proof. rewrite sq_bound_gen by lia. reflexivity. Qed.

Lemma sq_bound_default : cycle_bound 1 (1 / 4) 5 6 ones sq_samples = Value 10%Z.
Proof. rewrite sq_bound_gen by lia. reflexivity. Qed.

(** what candidate 1 predicts at t = 1/16 *)
Lemma sq_first : forall p, prediction (RtoC 0) 2 sq_times sq_samples sq_derivs 1 = Value p -> p 0%nat <> RtoC (1 / 4).
Proof.
  intros p Ep.
  assert (T0 : forall r, time_of (RtoC 0) (RtoC 1) r = RtoC r) by (intro r; unfold time_of; ring).
  unfold prediction, sq_times, sq_rs in Ep. cbn [map back rev app] in Ep. rewrite !T0 in Ep.
  unfold to_s_plane in Ep. cbn [Nat.eqb length map sq_derivs sq_rs Nat.ltb Nat.leb orb] in Ep.
  rewrite <- RtoC_minus' in Ep. destruct (C_dec _ _) as [Z|_] in Ep; [apply RtoC_inj in Z; lra|].
  cbn [obind fst snd firstn map combine] in Ep. rewrite <- !RtoC_minus' in Ep. rewrite <- !RtoC_div' in Ep by lra.
  assert (R1 : forall r, 0 < r -> croot 1 (RtoC ((r - 0) / (1 - 0))) = RtoC r).
  { intros r Hr. replace ((r - 0) / (1 - 0)) with r by field. rewrite croot_R by (try lia; exact Hr). unfold root.
    cbn [INR]. replace (1 / 1) with 1 by field. rewrite Rpower_1 by exact Hr. reflexivity. }
  rewrite !R1 in Ep by lra.
  pose (q := fun _ : nat => [RtoC (11 / 54); RtoC (25 / 18); RtoC (- 8 / 9); RtoC (8 / 27)]).
  pose (node := fun i : nat => RtoC (match i with 0%nat => 1 / 4 | _ => 1 end) : CF).
  assert (S1 : forall r s j, root 2 r = s -> s <> 0 -> r <> 0 -> s_derivative 1 (RtoC (1 - 0)) (RtoC r) (slope_of 2 (RtoC 1) sq_q r) j = RtoC (1 / (2 * s))).
  { intros r s j E Hs Hr. unfold s_derivative. rewrite (sq_slope r s j E Hs). cbn [Nat.sub fpow INR]. cbn.
    replace (1 - 0) with 1 by ring. ring. }
  match type of Ep with hermite CF nat ?T 2 ?S ?X ?D false = _ =>
  destruct (hermite_runs CF nat T 2 S X D false q node ltac:(lia)) with
    (sample := fun i => match i with 0%nat => value_of 2 sq_q (1 / 4) | _ => value_of 2 sq_q 1 end)
    (deriv := fun i => match i with 0%nat => s_derivative 1 (RtoC (1 - 0)) (RtoC (1 / 4)) (slope_of 2 (RtoC 1) sq_q (1 / 4))
                                 | _ => s_derivative 1 (RtoC (1 - 0)) (RtoC 1) (slope_of 2 (RtoC 1) sq_q 1) end) as [x [Ex Hx]];
    [| | | | | | | | |pose proof (hermite_cubic CF nat T 2 S X D false q node ltac:(lia) 0%nat _ _ _ _ (le_n 2) eq_refl) as HC] end.
  - intros [|[|i]] Hi; try lia; reflexivity.
  - intros [|[|i]] Hi; try lia; reflexivity.
  - intros [|[|i]] Hi; try lia; reflexivity.
  - intros [|[|i]] j Hi; try lia; rewrite sq_value, ?root2_4, ?root2_1; unfold q, node; cbn [peval];
      cbn; rewrite <- ?RtoC_mult', <- ?RtoC_plus'; rewrite <- ?RtoC_mult', <- ?RtoC_plus'; 
      repeat (rewrite <- ?RtoC_mult', <- ?RtoC_plus'); f_equal; field.
  - intros [|[|i]] j Hi; try lia; [rewrite (S1 (1 / 4) (1 / 2) j root2_4) by lra|rewrite (S1 1 1 j root2_1) by lra];
      unfold q, node; cbn [dval peval]; cbn; repeat (rewrite <- ?RtoC_mult', <- ?RtoC_plus'); f_equal; field.
  - intros [|[|i]] [|[|i']] Hi Hi' E; try lia; unfold node in E; apply RtoC_inj in E; lra.
  - cbn; lia.
  - cbn; lia.
  - cbn; lia.
  - rewrite Ex in Ep. injection Ep as <-. rewrite Hx, HC. unfold q, node. cbn [peval]. cbn.
    repeat (rewrite <- ?RtoC_mult', <- ?RtoC_plus', <- ?RtoC_minus'). intro Z. apply RtoC_inj in Z. lra.
Qed.

Lemma sq_error : forall k, (1 <= k < 2)%nat ->
  prediction_error 1 (RtoC 0) (search_points 3 sq_samples) sq_times sq_samples sq_derivs k <> Value 0.
Proof.
  intros k Hk E. assert (k = 1%nat) by lia. subst k. unfold prediction_error in E.
  change (search_points 3 sq_samples) with 2%nat in E.
  assert (B : back sq_samples = Some (value_of 2 sq_q (1 / 16))) by reflexivity. rewrite B in E.
  destruct (prediction _ _ _ _ _ _) as [p| |] eqn:P; try discriminate. cbn [obind] in E. injection E as E.
  apply (sq_first p P). rewrite (apart_zero _ _ _ E 0%nat) by lia. rewrite sq_value, root2_16. reflexivity.
Qed.

Lemma sq_run : forall cyc, exists x,
  approximation 1 3 (1 / 4) 1 1 ones 1 (RtoC 0) sq_times sq_samples sq_derivs cyc = Value (2%nat, x) /\ x 0%nat = RtoC 0.
Proof.
  intro cyc.
  destruct (series_exact 1 3 (1 / 4) 1 1 ones 1 ltac:(lia) ltac:(lra) 2 ltac:(lia) (RtoC 0) (RtoC 1)
    ltac:(intro Z; apply RtoC_inj in Z; lra) sq_q ltac:(intro; cbn; lia) sq_rs) with (b := 2%Z) (cyc := cyc) as [x [E H]].
  - unfold sq_rs. repeat constructor; lra.
  - unfold sq_rs. repeat constructor; cbn; intuition lra.
  - cbn. lia.
  - exact sq_bound.
  - cbn. lia.
  - exact sq_error.
  - exists x. split; [exact E|]. rewrite H. cbn. ring.
Qed.

Lemma sq_cycle : cycle_number 1 3 (1 / 4) 1 1 ones 1 (RtoC 0) sq_times sq_samples sq_derivs 0 = Value 2%nat.
Proof.
  destruct (sq_run 0) as [x [E _]]. unfold approximation in E. destruct (cycle_number _ _ _ _ _ _ _ _ _ _ _ _) as [c| |]; try discriminate.
  cbn [obind] in E. destruct (extrapolation _ _ _ _ _ _) as [y| |]; try discriminate. cbn [obind] in E. injection E as -> _. reflexivity.
Qed.

(** ** Cubics *)
Lemma series_cubic : forall nv n factor amplification max_cycle rand highest c t0 u q rs, (2 <= n)%nat -> (1 <= c)%nat -> u <> RtoC 0 ->
  List.Forall (fun r => 0 < r) rs -> NoDup rs -> (n <= length rs)%nat -> forall old x,
  approximation nv n factor amplification max_cycle rand highest t0 (map (time_of t0 u) rs) (map (value_of c q) rs) (map (slope_of c u q) rs) old = Value (c, x) ->
  forall j a0 a1 a2 a3, q j = [a0; a1; a2; a3] ->
  let newest := root c (nth (length rs - 1) rs 0) in
  let before := root c (nth (length rs - 2) rs 0) in
  x j = (@peval CF (q j) (RtoC 0) + a3 * RtoC (newest * newest * (before - newest)))%C.
Proof.
  intros nv n factor amplification max_cycle rand highest c t0 u q rs Hn c1 u0 Hp Hd Hl old x E j a0 a1 a2 a3 Q newest before.
  unfold approximation in E. destruct (cycle_number _ _ _ _ _ _ _ _ _ _ _ _) as [c'| |]; try discriminate. cbn [obind] in E.
  destruct (extrapolation n c' _ _ _ _) as [x'| |] eqn:Ex; try discriminate. cbn [obind] in E. injection E as -> ->.
  unfold extrapolation in Ex.
  destruct (window_run c c1 t0 u u0 q rs n true 0 Hp Hd Hn Hl) as (st & y & A & B & _ & K).
  rewrite A in Ex. cbn [obind] in Ex. rewrite B in Ex. injection Ex as <-. rewrite (K j a0 a1 a2 a3 Q).
  fold newest before. rewrite Rmult_0_r. f_equal. rewrite <- !Cmult_assoc. f_equal. rewrite <- !RtoC_mult'. f_equal. ring.
Qed.

(** x = t^3 at t = 1, 1/4, 1/16 *)
Definition cu_q : nat -> list C := fun _ => [RtoC 0; RtoC 0; RtoC 0; RtoC 1].
Definition cu_times : list C := map (time_of (RtoC 0) (RtoC 1)) sq_rs.
Definition cu_samples : list (nat -> C) := map (value_of 1 cu_q) sq_rs.
Definition cu_derivs : list (nat -> C) := map (slope_of 1 (RtoC 1) cu_q) sq_rs.
Lemma root1 : forall r, 0 < r -> root 1 r = r.
Proof. intros r Hr. unfold root. cbn [INR]. replace (1 / 1) with 1 by field. apply Rpower_1, Hr. Qed.
Lemma cu_value : forall r j, 0 < r -> value_of 1 cu_q r j = RtoC (r * (r * r)).
Proof. intros r j Hr. unfold value_of, cu_q. rewrite (root1 r Hr). cbn. rewrite !RtoC_mult'. ring. Qed.

Lemma cu_bound : cycle_bound 1 (1 / 4) 1 1 ones cu_samples = Value 1%Z.
Proof.
  unfold cycle_bound, cu_samples, sq_rs. cbn [length map Nat.sub skipn].
  assert (A : rand_sum 1 ones (value_of 1 cu_q 1) (value_of 1 cu_q (1 / 4)) = RtoC (- 63 / 64)).
  { unfold rand_sum. cbn [seq map fold_right]. rewrite !cu_value by lra. unfold ones.
    rewrite <- RtoC_minus', <- RtoC_mult', <- RtoC_plus'. f_equal. field. }
  assert (B : rand_sum 1 ones (value_of 1 cu_q (1 / 4)) (value_of 1 cu_q (1 / 16)) = RtoC (- 63 / 4096)).
  { unfold rand_sum. cbn [seq map fold_right]. rewrite !cu_value by lra. unfold ones.
    rewrite <- RtoC_minus', <- RtoC_mult', <- RtoC_plus'. f_equal. field. }
  rewrite A, B.
  destruct (C_dec _ _) as [Z|_]; [reflexivity|]. destruct (C_dec _ _) as [Z|_]; [reflexivity|].
  assert (M : Cmod (RtoC (- 63 / 4096) / RtoC (- 63 / 64))%C = 1 / 64).
  { rewrite <- RtoC_div' by lra. rewrite Cmod_R. replace (- 63 / 4096 / (- 63 / 64)) with (1 / 64) by field. apply Rabs_pos_eq. lra. }
  unfold estimate_of. rewrite M. destruct (Req_EM_T _ _) as [Z|_]; [reflexivity|].
  assert (L : ln (1 / 4) / ln (1 / 64) = 1 / 3).
  { assert (ln (1 / 4) < 0) by (rewrite <- ln_1; apply ln_increasing; lra).
    replace (1 / 64) with (1 / 4 * (1 / 4 * (1 / 4))) by field. rewrite !ln_mult by lra. field. lra. }
  rewrite L. destruct (Rlt_dec (1 / 3) 1); [reflexivity|lra].
Qed.

Lemma cu_run : exists x,
  approximation 1 3 (1 / 4) 1 1 ones 1 (RtoC 0) cu_times cu_samples cu_derivs 1 = Value (1%nat, x) /\ x 0%nat <> RtoC 0.
Proof.
  assert (u0 : RtoC 1 <> RtoC 0) by (intro Z; apply RtoC_inj in Z; lra).
  assert (Hp : List.Forall (fun r => 0 < r) sq_rs) by (unfold sq_rs; repeat constructor; lra).
  assert (Hd : NoDup sq_rs) by (unfold sq_rs; repeat constructor; cbn; intuition lra).
  assert (D : forall k, (1 <= k)%nat -> exists e, prediction_error 1 (RtoC 0) (search_points 3 cu_samples) cu_times cu_samples cu_derivs k = Value e).
  { intros k K. eapply prediction_defined; cbn [search_points cu_samples cu_times cu_derivs sq_rs map length]; try (unfold search_points, cu_samples, sq_rs; cbn; lia).
    all: try exact (times_off (RtoC 0) (RtoC 1) u0 sq_rs Hp). exact (le_n 3). }
  assert (S1 : cycle_number 1 3 (1 / 4) 1 1 ones 1 (RtoC 0) cu_times cu_samples cu_derivs 1 = Value 1%nat).
  { unfold cycle_number. rewrite cu_bound. cbn [obind seq Z.to_nat Pos.to_nat Pos.iter_op search]. destruct (D 1%nat (le_n 1)) as [e He].
    change (Pos.to_nat 1) with 1%nat. cbn [seq search]. rewrite He. cbn [obind]. destruct (Rlt_dec e 1); reflexivity. }
  destruct (window_run 1 (le_n 1) (RtoC 0) (RtoC 1) u0 cu_q sq_rs 3 true 0 Hp Hd ltac:(lia) ltac:(cbn; lia)) as (st & y & A & B & _ & _).
  assert (E : approximation 1 3 (1 / 4) 1 1 ones 1 (RtoC 0) cu_times cu_samples cu_derivs 1 = Value (1%nat, y)).
  { unfold approximation. rewrite S1. cbn [obind]. unfold extrapolation, cu_times, cu_derivs. rewrite A. cbn [obind].
    unfold cu_samples. rewrite B. reflexivity. }
  exists y. split; [exact E|].
  rewrite (series_cubic 1 3 (1 / 4) 1 1 ones 1 1 (RtoC 0) (RtoC 1) cu_q sq_rs ltac:(lia) (le_n 1) u0 Hp Hd ltac:(cbn; lia) 1 y E 0 _ _ _ _ eq_refl).
  unfold sq_rs. cbn [length Nat.sub nth]. rewrite !root1 by lra. unfold cu_q. cbn [peval]. intro Z.
  assert (Z' : RtoC (1 / 16 * (1 / 16) * (1 / 4 - 1 / 16)) = RtoC 0).
  { rewrite <- Z. cbn. ring. }
  apply RtoC_inj in Z'. lra.
Qed.
