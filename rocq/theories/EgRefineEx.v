(** A run of the Cauchy endgame in which no refinement succeeds; see EndgameEx.v for the run where all do. *)
From Coq Require Import List ZArith Lia Reals Lra Bool Arith.
From Coquelicot Require Import Complex.
From Verif Require Import Base ComplexField Newton Endgame EndgameProof EndgamePs EndgameEx.
Import ListNotations.
Local Open Scope R_scope.

(** Newton's method fails with a given code and leaves the point where it is *)
Definition no_convergence (c : code) : nat -> vec -> C -> code * vec := fun _ x _ => (c, x).

Section Keeps.
Variable rf : nat -> vec -> C -> code * vec.
Hypothesis keeps : forall k x t, snd (rf k x t) = x.

Lemma keeps_all : forall xs k ts, fst (refine_all rf k xs ts) = xs.
Proof.
  induction xs as [|x xs IH]; intros k [|t ts]; cbn [refine_all]; try reflexivity.
  destruct (is_success (fst (rf k x t))); cbn [fst]; rewrite keeps, ?IH; reflexivity.
Qed.

Lemma closed_keeps : forall level fs s r a l b, circ s r (a :: l ++ [b]) ->
  exists s', check_closed (demo level fs) rf s = Ok (lt_b (Rabs (a - b)) 1, s') /\ circ s' r (a :: l ++ [b]) /\ rest s s' /\
    ntrack s' = ntrack s.
Proof.
  intros level fs s r a l b [[ts Et] Ex]. unfold check_closed. rewrite Et, Ex. cbn [map front].
  replace ([RtoC a] :: map (fun a0 => [RtoC a0]) (l ++ [b])) with (([RtoC a] :: map (fun a0 => [RtoC a0]) l) ++ [[RtoC b]])
    by (rewrite map_app; reflexivity).
  rewrite back_app. destruct (back_some _ (RtoC r :: ts)) as [tb Etb]; [cbn; lia|]. rewrite Etb.
  cbn [tracking_tolerance demo set_front app]. rewrite !keeps.
  rewrite dist_R. destruct (lt_b (Rabs (a - b)) 1) eqn:L.
  - exists s. unfold circ, rest. rewrite Et, Ex. repeat match goal with |- _ /\ _ => split end; auto.
    eexists; reflexivity.
  - change ([RtoC a] :: map (fun a0 => [RtoC a0]) l ++ [[RtoC b]]) with (([RtoC a] :: map (fun a0 => [RtoC a0]) l) ++ [[RtoC b]]).
    rewrite back_app, keeps, set_back_same, back_app. cbn [app front]. rewrite dist_R, L.
    eexists. split; [reflexivity|]. unfold circ, rest; cbn. repeat match goal with |- _ /\ _ => split end; auto.
    + eexists; reflexivity.
    + rewrite map_app. reflexivity.
Qed.

Lemma approximation_keeps : forall level fs s r l, circ s r l -> length l = (cyc s * 3 + 1)%nat -> cyc s <> 0%nat ->
  exists s', cauchy_approximation (demo level fs) rf 1 s =
               Ok ([RtoC (fold_left Rplus (firstn (cyc s * 3) l) 0 / INR (cyc s * 3))], s') /\
    cyc s' = cyc s /\ hist s' = hist s ++ [[RtoC (fold_left Rplus (firstn (cyc s * 3) l) 0 / INR (cyc s * 3))]].
Proof.
  intros level fs s r l [_ Ex] Hl Hc. unfold cauchy_approximation. cbn [num_sample_points demo].
  rewrite keeps_all, Ex, map_length, Hl, Nat.eqb_refl, firstn_map. cbn [repeat].
  rewrite sum_demo, vdiv_R by (apply not_0_INR; lia).
  eexists. split; [reflexivity|]. cbn. auto.
Qed.

Lemma two_loops_keeps : exists s, cauchy_run (demo 0 1) (RtoC 0) (scripted two_loops) rf no_estimate 1 (fun x => x) None 5 (RtoC 1) [RtoC 15]
  = Ok (Success, s) /\ cyc s = 2%nat /\ hist s = [[RtoC 15]].
Proof.
  unfold cauchy_run.
  destruct (zone_demo 0 1 two_loops 5 15) as (s1 & -> & T1 & X1 & H1 & N1). cbn [when_ok bind fst snd is_success].
  change (two_loops 1) with 10 in X1.
  rewrite initial_loops_S.
  destruct (seed_demo (with_cyc s1 0) _ _ T1 X1) as (s2 & -> & C2 & R2 & N2). cbn [bind].
  destruct (circle_demo 0 1 two_loops s2 _ _ C2 ltac:(discriminate)) as (s3 & -> & C3 & R3 & N3).
  cbn [bind fst snd is_success]. rewrite N2, ?N1 in C3. cbn [ntrack with_cyc] in C3, N2. rewrite N1 in C3, N2.
  set (s3' := with_cyc s3 (S (cyc s3))).
  assert (Y3 : cyc s3' = 1%nat).
  { destruct R3 as (_ & _ & E & _), R2 as (_ & _ & E2 & _). cbn in *. lia. }
  assert (I3 : hist s3' = []).
  { destruct R3 as (_ & _ & _ & E), R2 as (_ & _ & _ & E2). cbn in *. congruence. }
  rewrite (ratio_demo 0 1 s3' _ _ C3) by lra. cbn [bind].
  change ([10] ++ [two_loops 2; two_loops 3; two_loops 4]) with (10 :: [10; 10] ++ [20]) in C3.
  rewrite closing_loop_S. destruct (closed_keeps 0 1 s3' _ _ _ _ C3) as (s4 & -> & C4 & R4 & N4).
  rewrite lt_b_false by (rabs; lra). cbn [bind fst snd fail_safe demo].
  assert (Y4 : cyc s4 = 1%nat) by (destruct R4 as (_ & _ & E & _); congruence).
  assert (I4 : hist s4 = []) by (destruct R4 as (_ & _ & _ & E); congruence).
  rewrite Y4. cbn [Nat.ltb Nat.leb].
  destruct (circle_demo 0 1 two_loops s4 _ _ C4 ltac:(discriminate)) as (s5 & -> & C5 & R5 & N5).
  cbn [bind fst snd is_success].
  assert (M4 : ntrack s4 = 5%nat) by (rewrite N4; cbn; congruence).
  rewrite M4 in C5.
  change ((10 :: [10; 10] ++ [20]) ++ [two_loops 5; two_loops 6; two_loops 7]) with (10 :: [10; 10; 20; 20; 20] ++ [10]) in C5.
  set (s5' := with_cyc s5 (S (cyc s5))).
  assert (Y5 : cyc s5' = 2%nat) by (destruct R5 as (_ & _ & E & _); cbn; congruence).
  assert (I5 : hist s5' = []) by (destruct R5 as (_ & _ & _ & E); cbn; congruence).
  rewrite closing_loop_S. destruct (closed_keeps 0 1 s5' _ _ _ _ C5) as (s6 & -> & C6 & R6 & N6).
  rewrite lt_b_true by (rabs; lra). cbn [when_ok bind fst snd is_success].
  assert (Y6 : cyc s6 = 2%nat) by (destruct R6 as (_ & _ & E & _); congruence).
  assert (I6 : hist s6 = []) by (destruct R6 as (_ & _ & _ & E); congruence).
  rewrite cauchy_loop_S.
  destruct (approximation_keeps 0 1 s6 _ _ C6) as (s7 & -> & Y7 & I7); [rewrite Y6; reflexivity|lia|].
  rewrite Y6, I6 in *. cbn [bind fst snd Nat.mul Nat.add firstn app fold_left INR] in *. rewrite dist_R.
  assert (V : (0 + 10 + 10 + 10 + 20 + 20 + 20) / (1 + 1 + 1 + 1 + 1 + 1) = 15) by lra. rewrite V in *.
  rewrite lt_b_true by (cbn [final_tolerance demo]; rabs; lra). exists s7. split; [reflexivity|]. split; [congruence|exact I7].
Qed.
End Keeps.
