(** The security check of the Cauchy endgame, and concrete runs of both endgames. *)
From Coq Require Import List ZArith Lia Reals Lra Bool Arith.
From Coquelicot Require Import Complex.
From Verif Require Import Base ComplexField Newton Endgame EndgameProof EndgamePs.
Import ListNotations.
Local Open Scope R_scope.

Section CauchySecurity.
Variable cfg : config.
Variable target : C.
Variable track : nat -> C -> C -> vec -> code * vec.
Variable refine : nat -> vec -> C -> code * vec.
Variable estimate : nat -> list vec -> R.
Variable nv : nat.
Variable dehom : vec -> vec.
Notation n := (num_sample_points cfg).
Hypothesis n3 : (3 <= n)%nat.
Hypothesis track_code : forall k t t' x, fst (track k t t' x) <> SecurityMaxNormReached.
Hypothesis level : (1 <= security_level cfg)%Z.

Lemma usual_code : forall c, usual track c -> c <> SecurityMaxNormReached.
Proof. intros c [->|[->|[->|(k & t & t' & x & ->)]]]; try discriminate. apply track_code. Qed.

Definition cauchy_security (r : code * est) : Prop :=
  (fst r = SecurityMaxNormReached -> truncated cfg dehom (hist (snd r))) /\
  (fst r = Success -> ~ big_pair cfg dehom (removelast (hist (snd r)))) /\
  (fst r <> SecurityMaxNormReached -> fst r <> Success -> ~ big_pair cfg dehom (hist (snd r))).

Definition prev_norm (h : list vec) (p : R) : Prop :=
  match back h with Some a => p = size_of dehom a | None => p <= security_max_norm cfg end.

Lemma back_last : forall A (l : list A) a, back l = Some a -> exists l', l = l' ++ [a].
Proof.
  intros A l a E. unfold back in E. destruct (rev l) as [|b r] eqn:Er; [discriminate|]. injection E as ->.
  exists (rev r). rewrite <- (rev_involutive l), Er. reflexivity.
Qed.

Lemma not_pair_snoc : forall h p b, prev_norm h p -> ~ big_pair cfg dehom h ->
  ~ (security_max_norm cfg < p /\ big cfg dehom b) -> ~ big_pair cfg dehom (h ++ [b]).
Proof.
  intros h p b Hp Hh N P. unfold prev_norm in Hp. destruct (back h) as [a|] eqn:E.
  - apply back_last in E. destruct E as [l ->]. apply big_pair_last in P. destruct P as [P|[P Q]]; [auto|].
    apply N. subst p. auto.
  - unfold back in E. destruct (rev h) eqn:Er; [|discriminate].
    apply (f_equal (@rev vec)) in Er. rewrite rev_involutive in Er. subst h. apply big_pair_single in P. exact P.
Qed.

Lemma cauchy_loop_security : forall fuel s prev p,
  PS s n -> ready cfg s -> prev_norm (hist s) p -> ~ big_pair cfg dehom (hist s) ->
  post True (cauchy_loop cfg target track refine nv dehom fuel prev (Some p) s) cauchy_security.
Proof.
  induction fuel as [|fuel IH]; intros s prev p Hp Hr Hn Hh; cbn [cauchy_loop];
    (apply post_bind with (1 := cauchy_approximation_post cfg refine nv True s Hr));
    intros [a s1] (S1 & C1 & H1 & R1); cbn [fst snd] in *.
  all: destruct (lt_b (dist a prev) (final_tolerance cfg));
    [cbn; unfold cauchy_security; cbn; rewrite H1, removelast_last;
     split; [discriminate|split; [auto|congruence]]|].
  all: destruct (Z.eqb_spec (security_level cfg) 0) as [E|E]; [lia|].
  all: unfold lt_b; destruct (Rlt_dec (security_max_norm cfg) p) as [Lp|Lp]; cbn [andb].
  all: destruct (exceeds cfg dehom a) eqn:X.
  all: try (assert (K : ~ big_pair cfg dehom (hist s1))
    by (rewrite H1; apply not_pair_snoc with (p := p); auto; intros [L1 L2]; apply exceeds_iff in L2; (contradiction || congruence))).
  all: try exact I.
  1,2: cbn; unfold cauchy_security; cbn; split; [intros _|split; [discriminate|congruence]];
       apply exceeds_iff in X; unfold prev_norm in Hn; destruct (back (hist s)) as [b|] eqn:Eb; [|lra];
       apply back_last in Eb; destruct Eb as [l El]; exists l, b, a;
       rewrite H1, El in *; repeat match goal with |- _ /\ _ => split end; auto;
       [rewrite <- app_assoc; reflexivity|unfold big; subst p; exact Lp].
  all: apply post_when with (Q := fun s2 => PS s2 n /\ hist s2 = hist s1);
    [refine (post_weaken _ _ _ _ _ (advance_post cfg target track n3 True (or_introl I) s1 n 0 _ _ (or_introl I)) _);
       [apply PS_same with (1 := S1); exact Hp|lia|];
     intros r (U & A & B & H & P & _); destruct (is_success (fst r)) eqn:Es;
     [auto|unfold cauchy_security; rewrite H; split; [intro E2; apply usual_code in U; congruence|split; auto];
       intro E2; rewrite E2 in Es; discriminate]|].
  all: intros s2 (P2 & H2);
    apply post_when with (Q := fun s3 => PS s3 n /\ ready cfg s3 /\ hist s3 = hist s1);
    [refine (post_weaken _ _ _ _ _ (cauchy_samples_post cfg target track refine n3 True fuel s2 0 P2 (or_introl I) (or_introl I)) _);
     intros r (U & H & K2); destruct (is_success (fst r)) eqn:Es;
     [destruct (K2 eq_refl) as (A & B & D & _); rewrite H; auto|
      unfold cauchy_security; rewrite H, H2; split; [intro E2; apply usual_code in U; congruence|split; auto];
      intro E2; rewrite E2 in Es; discriminate]|].
  all: intros s3 (P3 & R3 & H3); apply IH; auto; [|rewrite H3; exact K];
    unfold prev_norm; rewrite H3, H1, back_app; reflexivity.
Qed.

Lemma cauchy_run_security : forall fuel start x p0, p0 <= security_max_norm cfg ->
  post True (cauchy_run cfg target track refine estimate nv dehom (Some p0) fuel start x) cauchy_security.
Proof.
  intros fuel start x p0 H0. unfold cauchy_run.
  assert (N : ~ big_pair cfg dehom []).
  { intros (h & a & b & k & E & _). symmetry in E. apply app_eq_nil in E. destruct E; discriminate. }
  assert (NS : forall c : code, is_success c = false -> c <> Success) by (intros c E ->; discriminate).
  apply post_when with (Q := fun s => PS s n /\ hist s = []).
  - refine (post_weaken _ _ _ _ _ (get_into_zone_post cfg target track estimate n3 True (or_introl I) fuel start x 0 (or_introl I) (or_introl I)) _).
    intros r (U & H & K). destruct (is_success (fst r)) eqn:Es.
      * destruct (K eq_refl) as (A & _). auto.
      * unfold cauchy_security. rewrite H. split; [|split; auto].
        intro E. apply usual_code in U. contradiction.
  - intros s1 (P1 & H1).
    apply post_when with (Q := fun s => PS s n /\ ready cfg s /\ hist s = []).
    + refine (post_weaken _ _ _ _ _ (initial_loops_post cfg target track refine n3 True (or_introl I) fuel s1 0 P1 (or_introl I) (or_introl I)) _).
      intros r (U & H & K). destruct (is_success (fst r)) eqn:Es.
      * destruct (K eq_refl) as (A & B & D & G). rewrite H. auto 6.
      * unfold cauchy_security. rewrite H, H1. split; [|split; auto].
        intro E. apply usual_code in U. contradiction.
    + intros s2 (P2 & R2 & H2). destruct (Z.leb_spec (security_level cfg) 0); [lia|].
      apply cauchy_loop_security; auto; rewrite H2; [exact H0|exact N].
Qed.
End CauchySecurity.

(** ** Concrete runs *)

Lemma lt_b_true : forall a b, a < b -> lt_b a b = true.
Proof. intros a b H. unfold lt_b. destruct (Rlt_dec a b); [reflexivity|contradiction]. Qed.
Lemma lt_b_false : forall a b, b <= a -> lt_b a b = false.
Proof. intros a b H. unfold lt_b. destruct (Rlt_dec a b); [lra|reflexivity]. Qed.

Definition demo (level : Z) (fs : nat) : config :=
  mkConfig 3 (1 / 2) (1 / 100) 1 level 1 (1 / 10) 100 (3 / 4) 0 (1 / 2) fs 1.

(** a tracker which succeeds and whose n-th result is a given real number *)
Definition scripted (v : nat -> R) : nat -> C -> C -> vec -> code * vec := fun k _ _ _ => (Success, [RtoC (v k)]).
Definition no_refine : nat -> vec -> C -> code * vec := fun _ x _ => (Success, x).
Definition no_estimate : nat -> list vec -> R := fun _ _ => 1.
Definition demo_run (level : Z) (fs : nat) (v : nat -> R) (fresh : option R) (fuel : nat) (x : R) : out (code * est) :=
  cauchy_run (demo level fs) (RtoC 0) (scripted v) no_refine no_estimate 1 (fun x => x) fresh fuel (RtoC 1) [RtoC x].

Lemma dist_R : forall a b, dist [RtoC a] [RtoC b] = Rabs (a - b).
Proof.
  intros. unfold dist, vsub; cbn [combine map linf fst snd]. rewrite <- RtoC_minus', Cmod_R. apply Rmax_left, Rabs_pos.
Qed.

Lemma linf_R : forall a, linf [RtoC a] = Rabs a.
Proof. intros. cbn [linf]. rewrite Cmod_R. apply Rmax_left, Rabs_pos. Qed.

Lemma vadd_R : forall a b, vadd [RtoC a] [RtoC b] = [RtoC (a + b)].
Proof. intros. unfold vadd; cbn [combine map fst snd]. rewrite <- RtoC_plus'. reflexivity. Qed.

Lemma vdiv_R : forall a m, INR m <> 0 -> vdiv [RtoC a] m = [RtoC (a / INR m)].
Proof.
  intros a m H. unfold vdiv; cbn [map]. f_equal. unfold RtoC, Cdiv, Cinv, Cmult, Rdiv; cbn. f_equal; field; assumption.
Qed.

Lemma mid_R : forall l fs r, midpoint_time (demo l fs) (RtoC 0) (RtoC r) = RtoC (r / 2).
Proof.
  intros. unfold midpoint_time; cbn [sample_factor demo]. rewrite <- RtoC_plus', <- RtoC_mult'. f_equal. field.
Qed.

Lemma cau_R : forall l fs r, cauchy_time (demo l fs) (RtoC 0) (RtoC r) = RtoC (r / 2).
Proof.
  intros. unfold cauchy_time; cbn [sample_factor demo]. rewrite <- RtoC_minus', <- RtoC_mult', <- RtoC_plus'. f_equal. field.
Qed.

Lemma Cmod_sub_R : forall a b, Cmod (RtoC a - RtoC b)%C = Rabs (a - b).
Proof. intros. rewrite <- RtoC_minus'. apply Cmod_R. Qed.

Section Unfold.
Variable cfg : config.
Variable target : C.
Variable track : nat -> C -> C -> vec -> code * vec.
Variable refine : nat -> vec -> C -> code * vec.
Variable estimate : nat -> list vec -> R.
Variable nv : nat.
Variable dehom : vec -> vec.

Lemma closing_loop_S : forall fuel s, closing_loop cfg target track refine (S fuel) s =
  bind (check_closed cfg refine s) (fun b =>
    if fst b then Ok (Success, snd b)
    else if Nat.ltb (fail_safe cfg) (cyc (snd b)) then Ok (CycleNumTooHigh, snd b)
    else bind (circle_track cfg target track (snd b)) (fun r =>
               let s1 := with_cyc (snd r) (S (cyc (snd r))) in
               if is_success (fst r) then closing_loop cfg target track refine fuel s1 else Ok (fst r, s1))).
Proof. reflexivity. Qed.

Lemma samples_loop_S : forall fuel s, samples_loop cfg target track refine (S fuel) s =
  if Nat.ltb (cyc s) (fail_safe cfg) then
        bind (circle_track cfg target track s) (fun r =>
          let s1 := with_cyc (snd r) (S (cyc (snd r))) in
          if is_success (fst r) then
            bind (check_closed cfg refine s1) (fun b =>
              if fst b then Ok (Success, snd b) else samples_loop cfg target track refine fuel (snd b))
          else Ok (fst r, s1))
  else Ok (CycleNumTooHigh, s).
Proof. reflexivity. Qed.

Lemma initial_loops_S : forall fuel s, initial_loops cfg target track refine (S fuel) s =
      bind (seed (with_cyc s 0)) (fun s0 =>
        bind (circle_track cfg target track s0) (fun r =>
          let s1 := with_cyc (snd r) (S (cyc (snd r))) in
          if is_success (fst r) then
            bind (ratio_test cfg target s1) (fun b =>
              if b then closing_loop cfg target track refine (S fuel) s1
              else when_ok (advance cfg target track s1) (fun r => r) (fun s2 => initial_loops cfg target track refine fuel s2))
          else Ok (fst r, s1))).
Proof. reflexivity. Qed.

Lemma cauchy_loop_S : forall fuel prev np s, cauchy_loop cfg target track refine nv dehom (S fuel) prev np s =
  bind (cauchy_approximation cfg refine nv s) (fun a =>
    if lt_b (dist (fst a) prev) (final_tolerance cfg) then Ok (Success, snd a)
    else
      let next (nl : option R) :=
            when_ok (advance cfg target track (snd a)) (fun r => r) (fun s2 =>
              when_ok (cauchy_samples cfg target track refine fuel s2) (fun r => r) (fun s3 =>
                cauchy_loop cfg target track refine nv dehom fuel (fst a) nl s3)) in
      if Z.eqb (security_level cfg) 0 then next None
      else match np with
           | None => Undef
           | Some p =>
               if lt_b (security_max_norm cfg) p && exceeds cfg dehom (fst a)
               then Ok (SecurityMaxNormReached, snd a)
               else next (Some (size_of dehom (fst a)))
           end).
Proof. reflexivity. Qed.
End Unfold.

Lemma no_refine_all : forall xs k ts, fst (refine_all no_refine k xs ts) = xs.
Proof.
  induction xs as [|x xs IH]; intros k [|t ts]; cbn [refine_all]; try reflexivity.
  cbn [no_refine fst snd is_success]. rewrite IH. reflexivity.
Qed.

Section Stages.
Variables (level : Z) (fs : nat) (v : nat -> R).
Notation cfg := (demo level fs).
Notation T0 := (RtoC 0).
Notation trk := (scripted v).

(** everything but the circle data *)
Definition rest (s s' : est) : Prop :=
  ps_t s' = ps_t s /\ ps_x s' = ps_x s /\ cyc s' = cyc s /\ hist s' = hist s.

(** the circle data: the first time is real, the samples are the list l *)
Definition circ (s : est) (r : R) (l : list R) : Prop :=
  (exists ts, ca_t s = RtoC r :: ts) /\ ca_x s = map (fun a => [RtoC a]) l.

Lemma circle_one : forall k ii start s r l, circ s r l -> l <> [] ->
  exists s', circle_loop cfg T0 trk (S k) ii start s = circle_loop cfg T0 trk k (S ii) start s' /\
    circ s' r (l ++ [v (ntrack s)]) /\ rest s s' /\ ntrack s' = S (ntrack s).
Proof.
  intros k ii start s r l [[ts Et] Ex] Hl. cbn [circle_loop].
  destruct (back_some _ (ca_t s)) as [t E1]; [rewrite Et; cbn; lia|].
  destruct (back_some _ (ca_x s)) as [x E2]; [rewrite Ex, map_length; destruct l; [contradiction|cbn; lia]|].
  rewrite E1, E2. cbn [scripted fst snd is_success]. eexists. split; [reflexivity|].
  unfold circ, rest; cbn [ca_t ca_x ps_t ps_x cyc hist ntrack tracked with_ca].
  rewrite Et, Ex, map_app. cbn [app map]. split; [split; [eexists|]; reflexivity|auto].
Qed.

Lemma circle_demo : forall s r l, circ s r l -> l <> [] ->
  exists s', circle_track cfg T0 trk s = Ok (Success, s') /\
    circ s' r (l ++ [v (ntrack s); v (S (ntrack s)); v (S (S (ntrack s)))]) /\ rest s s' /\
    ntrack s' = S (S (S (ntrack s))).
Proof.
  intros s r l Hc Hl. unfold circle_track. cbn [num_sample_points demo Nat.ltb Nat.leb].
  destruct (back_some _ (ca_t s)) as [t E1]; [destruct Hc as [[ts ->] _]; cbn; lia|]. rewrite E1.
  destruct (circle_one 2 0 t s r l Hc Hl) as (s1 & -> & C1 & R1 & N1).
  destruct (circle_one 1 1 t s1 r _ C1 (snoc_ne _ _ _)) as (s2 & -> & C2 & R2 & N2).
  destruct (circle_one 0 2 t s2 r _ C2 (snoc_ne _ _ _)) as (s3 & -> & C3 & R3 & N3).
  exists s3. split; [reflexivity|]. rewrite N2, N1, <- !app_assoc in C3. split; [exact C3|]. split.
  - unfold rest in *. destruct R1 as (a1 & a2 & a3 & a4), R2 as (b1 & b2 & b3 & b4), R3 as (c1 & c2 & c3 & c4).
    repeat match goal with |- _ /\ _ => split end; congruence.
  - congruence.
Qed.

Lemma set_back_same : forall A (l : list A) a, set_back (l ++ [a]) a = l ++ [a].
Proof. intros. unfold set_back. rewrite removelast_last. reflexivity. Qed.

Lemma closed_demo : forall s r a l b, circ s r (a :: l ++ [b]) ->
  exists s', check_closed cfg no_refine s = Ok (lt_b (Rabs (a - b)) 1, s') /\ circ s' r (a :: l ++ [b]) /\ rest s s' /\
    ntrack s' = ntrack s.
Proof.
  intros s r a l b [[ts Et] Ex]. unfold check_closed. rewrite Et, Ex. cbn [map front].
  replace ([RtoC a] :: map (fun a0 => [RtoC a0]) (l ++ [b])) with (([RtoC a] :: map (fun a0 => [RtoC a0]) l) ++ [[RtoC b]])
    by (rewrite map_app; reflexivity).
  rewrite back_app. destruct (back_some _ (RtoC r :: ts)) as [tb Etb]; [cbn; lia|]. rewrite Etb.
  cbn [tracking_tolerance demo no_refine snd set_front app].
  rewrite dist_R. destruct (lt_b (Rabs (a - b)) 1) eqn:L.
  - exists s. unfold circ, rest. rewrite Et, Ex. repeat match goal with |- _ /\ _ => split end; auto.
    eexists; reflexivity.
  - change ([RtoC a] :: map (fun a0 => [RtoC a0]) l ++ [[RtoC b]]) with (([RtoC a] :: map (fun a0 => [RtoC a0]) l) ++ [[RtoC b]]).
    rewrite back_app, set_back_same, back_app. cbn [app front]. rewrite dist_R, L.
    eexists. split; [reflexivity|]. unfold circ, rest; cbn. repeat match goal with |- _ /\ _ => split end; auto.
    + eexists; reflexivity.
    + rewrite map_app. reflexivity.
Qed.

Lemma ratio_demo : forall s r l, circ s r l -> 0 <= r < 10 -> ratio_test cfg T0 s = Ok true.
Proof.
  intros s r l [[ts Et] _] Hr. unfold ratio_test. rewrite Et. cbn [front ratio_cutoff_time demo].
  rewrite Cmod_sub_R, Rabs_pos_eq by lra. rewrite lt_b_true by nra. reflexivity.
Qed.

Lemma advance_demo : forall s r x, back (ps_t s) = Some (RtoC r) -> back (ps_x s) = Some x -> 1 / 50 <= r ->
  exists s', advance cfg T0 trk s = Ok (Success, s') /\ back (ps_t s') = Some (RtoC (r / 2)) /\
    back (ps_x s') = Some [RtoC (v (ntrack s))] /\ hist s' = hist s /\ ntrack s' = S (ntrack s).
Proof.
  intros s r x Et Ex Hr. unfold advance. rewrite Et, Ex, cau_R. cbn [min_track_time demo].
  rewrite Cmod_sub_R, Rabs_pos_eq by lra. rewrite lt_b_false by lra. cbn [scripted fst snd is_success].
  eexists. split; [reflexivity|]. cbn [ps_t ps_x hist ntrack tracked with_ps]. rewrite !back_app. auto.
Qed.

Lemma seed_demo : forall s r a, back (ps_t s) = Some (RtoC r) -> back (ps_x s) = Some [RtoC a] ->
  exists s', seed s = Ok s' /\ circ s' r [a] /\ rest s s' /\ ntrack s' = ntrack s.
Proof.
  intros s r a Et Ex. unfold seed. rewrite Et, Ex. eexists. split; [reflexivity|].
  unfold circ, rest; cbn. repeat match goal with |- _ /\ _ => split end; auto. eexists; reflexivity.
Qed.

Lemma sum_demo : forall l a, fold_left vadd (map (fun a => [RtoC a]) l) [RtoC a] = [RtoC (fold_left Rplus l a)].
Proof. induction l as [|b l IH]; intro a; cbn [map fold_left]; [reflexivity|]. rewrite vadd_R. apply IH. Qed.

Lemma approximation_demo : forall s r l, circ s r l -> length l = (cyc s * 3 + 1)%nat -> cyc s <> 0%nat ->
  exists s', cauchy_approximation cfg no_refine 1 s =
               Ok ([RtoC (fold_left Rplus (firstn (cyc s * 3) l) 0 / INR (cyc s * 3))], s') /\
    ps_t s' = ps_t s /\ ps_x s' = ps_x s /\ cyc s' = cyc s /\ ntrack s' = ntrack s /\
    hist s' = hist s ++ [[RtoC (fold_left Rplus (firstn (cyc s * 3) l) 0 / INR (cyc s * 3))]].
Proof.
  intros s r l [_ Ex] Hl Hc. unfold cauchy_approximation. cbn [num_sample_points demo].
  rewrite no_refine_all, Ex, map_length, Hl, Nat.eqb_refl, firstn_map. cbn [repeat].
  rewrite sum_demo, vdiv_R by (apply not_0_INR; lia).
  eexists. split; [reflexivity|]. cbn. auto 6.
Qed.

Lemma zone_demo : forall fuel x, exists s,
  get_into_zone cfg T0 trk no_estimate fuel (RtoC 1) [RtoC x] empty = Ok (Success, s) /\
  back (ps_t s) = Some (RtoC (1 / 2 / 2)) /\ back (ps_x s) = Some [RtoC (v 1)] /\ hist s = [] /\ ntrack s = 2%nat.
Proof.
  intros fuel x. unfold get_into_zone, initial_samples. cbn [num_sample_points demo Nat.sub initial_loop with_ps ps_t ps_x back rev app].
  rewrite mid_R. cbn [scripted fst snd is_success tracked with_ps ps_t ps_x back rev app ntrack empty]. rewrite mid_R.
  cbn [scripted fst snd is_success tracked with_ps ps_t ps_x back rev app when_ok bind].
  unfold c_over_k. cbn [ps_x length Nat.ltb Nat.leb bind fst snd num_needed demo zone_first is_success].
  assert (Z : forall l s t, back (ps_t s) = Some t -> zone_loop cfg T0 trk no_estimate fuel l s = Ok (Success, s)).
  { intros l s t E. destruct fuel; cbn [zone_loop]; rewrite E; reflexivity. }
  eexists. split; [apply Z with (t := RtoC (1 / 2 / 2)); reflexivity|]. auto.
Qed.

End Stages.

Ltac rabs := repeat first [rewrite Rabs_pos_eq by lra | rewrite Rabs_left by lra].

(** The first loop does not close, the second does. *)
Definition two_loops (k : nat) : R := if Nat.leb 4 k && Nat.leb k 6 then 20 else 10.

Lemma cycle_too_high : exists s, demo_run 0 1 two_loops None 5 15 = Ok (Success, s) /\ cyc s = 2%nat.
Proof.
  unfold demo_run, cauchy_run.
  destruct (zone_demo 0 1 two_loops 5 15) as (s1 & -> & T1 & X1 & H1 & N1). cbn [when_ok bind fst snd is_success].
  change (two_loops 1) with 10 in X1.
  rewrite initial_loops_S.
  destruct (seed_demo (with_cyc s1 0) _ _ T1 X1) as (s2 & -> & C2 & R2 & N2). cbn [bind].
  destruct (circle_demo 0 1 two_loops s2 _ _ C2 ltac:(discriminate)) as (s3 & -> & C3 & R3 & N3).
  cbn [bind fst snd is_success]. rewrite N2, ?N1 in C3. cbn [ntrack with_cyc] in C3, N2. rewrite N1 in C3, N2.
  set (s3' := with_cyc s3 (S (cyc s3))).
  assert (Y3 : cyc s3' = 1%nat).
  { destruct R3 as (_ & _ & E & _), R2 as (_ & _ & E2 & _). cbn in *. lia. }
  rewrite (ratio_demo 0 1 s3' _ _ C3) by lra. cbn [bind].
  change ([10] ++ [two_loops 2; two_loops 3; two_loops 4]) with (10 :: [10; 10] ++ [20]) in C3.
  rewrite closing_loop_S. destruct (closed_demo 0 1 s3' _ _ _ _ C3) as (s4 & -> & C4 & R4 & N4).
  rewrite lt_b_false by (rabs; lra). cbn [bind fst snd fail_safe demo].
  assert (Y4 : cyc s4 = 1%nat) by (destruct R4 as (_ & _ & E & _); congruence).
  rewrite Y4. cbn [Nat.ltb Nat.leb].
  destruct (circle_demo 0 1 two_loops s4 _ _ C4 ltac:(discriminate)) as (s5 & -> & C5 & R5 & N5).
  cbn [bind fst snd is_success].
  assert (M4 : ntrack s4 = 5%nat) by (rewrite N4; cbn; congruence).
  rewrite M4 in C5.
  change ((10 :: [10; 10] ++ [20]) ++ [two_loops 5; two_loops 6; two_loops 7]) with (10 :: [10; 10; 20; 20; 20] ++ [10]) in C5.
  set (s5' := with_cyc s5 (S (cyc s5))).
  assert (Y5 : cyc s5' = 2%nat) by (destruct R5 as (_ & _ & E & _); cbn; congruence).
  rewrite closing_loop_S. destruct (closed_demo 0 1 s5' _ _ _ _ C5) as (s6 & -> & C6 & R6 & N6).
  rewrite lt_b_true by (rabs; lra). cbn [when_ok bind fst snd is_success].
  assert (Y6 : cyc s6 = 2%nat) by (destruct R6 as (_ & _ & E & _); congruence).
  rewrite cauchy_loop_S.
  destruct (approximation_demo 0 1 s6 _ _ C6) as (s7 & -> & _ & _ & Y7 & _); [rewrite Y6; reflexivity|lia|].
  rewrite Y6. cbn [bind fst snd Nat.mul Nat.add firstn app fold_left INR]. rewrite dist_R.
  rewrite lt_b_true by (cbn [final_tolerance demo]; rabs; lra). exists s7. split; [reflexivity|congruence].
Qed.

(** The approximations of this run are larger than the bound of the security check. *)
Definition growing (k : nat) : R := if Nat.leb k 4 then 10 else 20.

(** up to the second test of the first approximation *)
Lemma growing_first : forall level fresh, exists s1 s2, 
  demo_run level 5 growing fresh 7 0 =
    cauchy_loop (demo level 5) (RtoC 0) (scripted growing) no_refine 1 (fun x => x) 7 [RtoC 0]
       (if Z.leb level 0 then Some (Rabs 0) else fresh) s1 /\
  cauchy_approximation (demo level 5) no_refine 1 s1 = Ok ([RtoC 10], s2) /\
  back (ps_t s2) = Some (RtoC (1 / 2 / 2)) /\ back (ps_x s2) = Some [RtoC 10] /\ hist s2 = [[RtoC 10]] /\ ntrack s2 = 5%nat.
Proof.
  intros level fresh. unfold demo_run, cauchy_run.
  destruct (zone_demo level 5 growing 7 0) as (s1 & -> & T1 & X1 & H1 & N1). cbn [when_ok bind fst snd is_success].
  change (growing 1) with 10 in X1.
  rewrite initial_loops_S.
  destruct (seed_demo (with_cyc s1 0) _ _ T1 X1) as (s2 & -> & C2 & R2 & N2). cbn [bind].
  destruct (circle_demo level 5 growing s2 _ _ C2 ltac:(discriminate)) as (s3 & -> & C3 & R3 & N3).
  cbn [bind fst snd is_success]. cbn [ntrack with_cyc] in N2. rewrite N2, N1 in C3, N3.
  set (s3' := with_cyc s3 (S (cyc s3))).
  rewrite (ratio_demo level 5 s3' _ _ C3) by lra. cbn [bind].
  change ([10] ++ [growing 2; growing 3; growing 4]) with (10 :: [10; 10] ++ [10]) in C3.
  rewrite closing_loop_S. destruct (closed_demo level 5 s3' _ _ _ _ C3) as (s4 & -> & C4 & R4 & N4).
  rewrite lt_b_true by (rabs; lra). cbn [when_ok bind fst snd is_success].
  destruct R2 as (A1 & A2 & A3 & A4), R3 as (B1 & B2 & B3 & B4), R4 as (D1 & D2 & D3 & D4). cbn in A1, A2, A3, A4, D1, D2, D3, D4, N4.
  destruct (approximation_demo level 5 s4 _ _ C4) as (s5 & E5 & F1 & F2 & F3 & F4 & F5);
    [rewrite D3, B3, A3; reflexivity|rewrite D3; lia|].
  rewrite D3, B3, A3 in E5, F5. cbn [Nat.mul Nat.add firstn app fold_left INR] in E5, F5.
  replace ((0 + 10 + 10 + 10) / (1 + 1 + 1)) with 10 in E5, F5 by field.
  exists s4, s5. split.
  - cbn [security_level demo]. unfold size_of. rewrite linf_R. reflexivity.
  - repeat match goal with |- _ /\ _ => split end.
    + exact E5.
    + congruence.
    + congruence.
    + rewrite F5, D4, B4, A4, H1. reflexivity.
    + congruence.
Qed.

(** one more round: advance, one loop, and an approximation *)
Lemma growing_round : forall level fuel k s r a,
  back (ps_t s) = Some (RtoC r) -> back (ps_x s) = Some [RtoC a] -> 1 / 50 <= r -> ntrack s = k -> (5 <= k)%nat ->
  exists s2 s3 s4, advance (demo level 5) (RtoC 0) (scripted growing) s = Ok (Success, s2) /\
    cauchy_samples (demo level 5) (RtoC 0) (scripted growing) no_refine (S fuel) s2 = Ok (Success, s3) /\
    cauchy_approximation (demo level 5) no_refine 1 s3 = Ok ([RtoC 20], s4) /\
    back (ps_t s4) = Some (RtoC (r / 2)) /\ back (ps_x s4) = Some [RtoC 20] /\ ntrack s4 = (4 + k)%nat /\
    hist s4 = hist s ++ [[RtoC 20]].
Proof.
  intros level fuel k s r a T1 X1 Hr Hk H5.
  assert (G : forall i, (5 <= i)%nat -> growing i = 20).
  { intros i Hi. unfold growing. destruct (Nat.leb_spec i 4); [lia|reflexivity]. }
  destruct (advance_demo level 5 growing s r _ T1 X1 Hr) as (s2 & E2 & T2 & X2 & H2 & N2).
  rewrite G in X2 by lia. exists s2. unfold cauchy_samples.
  destruct (seed_demo s2 _ _ T2 X2) as (s3 & -> & C3 & R3 & N3). cbn [bind]. rewrite samples_loop_S.
  cbn [cyc with_cyc fail_safe demo Nat.ltb Nat.leb].
  assert (C3' : circ (with_cyc s3 0) (r / 2) [20]) by exact C3.
  destruct (circle_demo level 5 growing _ _ _ C3' ltac:(discriminate)) as (s4 & -> & C4 & R4 & N4).
  cbn [bind fst snd is_success]. cbn [ntrack with_cyc] in C4, N4. rewrite !G in C4 by lia.
  set (s4' := with_cyc s4 (S (cyc s4))). change ([20] ++ [20; 20; 20]) with (20 :: [20; 20] ++ [20]) in C4.
  destruct (closed_demo level 5 s4' _ _ _ _ C4) as (s5 & -> & C5 & R5 & N5).
  rewrite lt_b_true by (rabs; lra). cbn [bind fst snd].
  destruct R3 as (A1 & A2 & A3 & A4), R4 as (B1 & B2 & B3 & B4), R5 as (D1 & D2 & D3 & D4).
  cbn in B1, B2, B3, B4, D1, D2, D3, D4, N5.
  destruct (approximation_demo level 5 s5 _ _ C5) as (s6 & E6 & F1 & F2 & F3 & F4 & F5);
    [rewrite D3, B3; reflexivity|rewrite D3; lia|].
  rewrite D3, B3 in E6, F5. cbn [Nat.mul Nat.add firstn app fold_left INR] in E6, F5.
  replace ((0 + 20 + 20 + 20) / (1 + 1 + 1)) with 20 in E6, F5 by field.
  exists s5, s6. repeat match goal with |- _ /\ _ => split end.
  - exact E2.
  - reflexivity.
  - exact E6.
  - congruence.
  - congruence.
  - rewrite F4, N5, N4, N3, N2. lia.
  - rewrite F5, D4, B4, A4, H2. reflexivity.
Qed.

Lemma level_zero_ignored : exists s, demo_run 0 5 growing None 7 0 = Ok (Success, s) /\
  hist s = [[RtoC 10]; [RtoC 20]; [RtoC 20]].
Proof.
  destruct (growing_first 0 None) as (s1 & s2 & -> & E2 & T2 & X2 & H2 & N2).
  rewrite cauchy_loop_S, E2. cbn [bind fst snd]. rewrite dist_R.
  rewrite lt_b_false by (cbn [final_tolerance demo]; rabs; lra). cbn [security_level demo Z.eqb].
  destruct (growing_round 0 5 5 s2 _ _ T2 X2 ltac:(lra) N2 ltac:(lia)) as (s3 & s4 & s5 & E3 & E4 & E5 & T5 & X5 & N5 & H5).
  rewrite E3. cbn [when_ok bind fst snd is_success]. rewrite E4. cbn [when_ok bind fst snd is_success].
  rewrite cauchy_loop_S, E5. cbn [bind fst snd]. rewrite dist_R.
  rewrite lt_b_false by (cbn [final_tolerance demo]; rabs; lra). cbn [security_level demo Z.eqb].
  destruct (growing_round 0 4 9 s5 _ _ T5 X5 ltac:(lra) N5 ltac:(lia)) as (s6 & s7 & s8 & E6 & E7 & E8 & T8 & X8 & N8 & H8).
  rewrite E6. cbn [when_ok bind fst snd is_success]. rewrite E7. cbn [when_ok bind fst snd is_success].
  rewrite cauchy_loop_S, E8. cbn [bind fst snd]. rewrite dist_R.
  rewrite lt_b_true by (cbn [final_tolerance demo]; rabs; lra).
  exists s8. split; [reflexivity|]. rewrite H8, H5, H2. reflexivity.
Qed.

(** At level 1 the run stops, and over doubles it compares a variable without a value. *)
Lemma level_one_truncates : exists s, demo_run 1 5 growing (Some 0) 7 0 = Ok (SecurityMaxNormReached, s) /\
  hist s = [[RtoC 10]; [RtoC 20]].
Proof.
  destruct (growing_first 1 (Some 0)) as (s1 & s2 & -> & E2 & T2 & X2 & H2 & N2).
  cbn [Z.leb Z.compare]. unfold exceeds, size_of.
  rewrite cauchy_loop_S, E2. cbn [bind fst snd]. rewrite dist_R.
  rewrite lt_b_false by (cbn [final_tolerance demo]; rabs; lra). cbn [security_level demo Z.eqb security_max_norm].
  rewrite (lt_b_false 1 0) by lra. cbn [andb].
  destruct (growing_round 1 5 5 s2 _ _ T2 X2 ltac:(lra) N2 ltac:(lia)) as (s3 & s4 & s5 & E3 & E4 & E5 & T5 & X5 & N5 & H5).
  rewrite E3. cbn [when_ok bind fst snd is_success]. rewrite E4. cbn [when_ok bind fst snd is_success].
  rewrite cauchy_loop_S, E5. cbn [bind fst snd]. rewrite dist_R.
  rewrite lt_b_false by (cbn [final_tolerance demo]; rabs; lra). cbn [security_level demo Z.eqb security_max_norm].
  unfold exceeds, size_of. rewrite !linf_R. rewrite !lt_b_true by (cbn [security_max_norm demo]; rabs; lra).
  cbn [andb]. exists s5. split; [reflexivity|]. rewrite H5, H2. reflexivity.
Qed.

Lemma level_one_undefined : demo_run 1 5 growing None 7 0 = Undef.
Proof.
  destruct (growing_first 1 None) as (s1 & s2 & -> & E2 & T2 & X2 & H2 & N2).
  rewrite cauchy_loop_S, E2. cbn [bind fst snd]. rewrite dist_R.
  rewrite lt_b_false by (cbn [final_tolerance demo]; rabs; lra). reflexivity.
Qed.

(** ** A power series endgame that never ends *)

Definition far (level : Z) : config :=
  mkConfig 3 (1 / 4) (1 / 100) (1 / 2) level 1 (1 / 10) 100 (3 / 4) 0 (1 / 2) 5 1.
Definition counting : nat -> list C -> list vec -> vec := fun k _ _ => [RtoC (INR k)].
Definition far_run (fuel : nat) : out (code * est) :=
  ps_run (far 1) (RtoC 1) (scripted (fun _ => 1)) no_refine (fun x => x) counting fuel (RtoC 2) [RtoC 1].

Lemma far_time : forall l r, midpoint_time (far l) (RtoC 1) (RtoC r) = RtoC ((r + 1) / 4).
Proof.
  intros. unfold midpoint_time; cbn [sample_factor far]. rewrite <- RtoC_plus', <- RtoC_mult'. f_equal. field.
Qed.

Lemma far_advance : forall s r x, back (ps_t s) = Some (RtoC r) -> back (ps_x s) = Some x -> 1 / 3 <= r <= 2 ->
  exists s', ps_advance (far 1) (RtoC 1) (scripted (fun _ => 1)) no_refine s = Ok (Success, s') /\
    back (ps_t s') = Some (RtoC ((r + 1) / 4)) /\ (exists x', back (ps_x s') = Some x') /\ hist s' = hist s.
Proof.
  intros s r x Et Ex Hr. unfold ps_advance. rewrite Et, Ex, far_time.
  rewrite lt_b_false.
  2:{ cbn [min_track_time far]. rewrite Cmod_sub_R, Rabs_left by lra. lra. }
  cbn [scripted fst snd is_success no_refine num_sample_points far].
  eexists. split; [reflexivity|]. cbn [ps_t ps_x refined tracked with_ps hist]. 
  destruct (ps_t s) as [|t ts]; [discriminate|]. destruct (ps_x s) as [|y ys]; [discriminate|].
  destruct (Nat.ltb _ _); cbn [tl app].
  - repeat match goal with |- _ /\ _ => split end; auto; [apply back_app|]. eexists. apply back_app.
  - repeat match goal with |- _ /\ _ => split end; auto; [apply back_app with (l := t :: ts)|].
    eexists. apply back_app with (l := y :: ys).
Qed.

Lemma far_loop : forall fuel err prev s r x m, back (ps_t s) = Some (RtoC r) -> back (ps_x s) = Some x ->
  1 / 3 <= r <= 2 -> 1 / 2 < err -> hist s <> [] -> length (hist s) = S m -> prev = [RtoC (INR m)] ->
  exists s', ps_loop (far 1) (RtoC 1) (scripted (fun _ => 1)) no_refine (fun x => x) counting fuel err prev s = More s'.
Proof.
  induction fuel as [|fuel IH]; intros err prev s r x m Et Ex Hr He Hh Hl Hp; cbn [ps_loop];
    (rewrite lt_b_true by (cbn [final_tolerance far]; exact He)).
  - eexists. reflexivity.
  - destruct (far_advance s r x Et Ex Hr) as (s1 & E1 & Et1 & (x1 & Ex1) & H1). rewrite E1.
    cbn [when_ok bind fst snd is_success]. cbn [security_level far Z.leb Z.compare andb].
    eapply IH with (r := (r + 1) / 4) (m := S m).
    + cbn [ps_approximation snd ps_t with_hist refined with_ps]. exact Et1.
    + cbn [ps_approximation snd ps_x with_hist refined with_ps]. rewrite no_refine_all. exact Ex1.
    + lra.
    + cbn [ps_approximation fst]. unfold counting. rewrite Hp, H1, Hl, dist_R, S_INR.
      replace (INR m + 1 - INR m) with 1 by ring. rewrite Rabs_pos_eq; lra.
    + cbn [ps_approximation snd hist with_hist]. apply snoc_ne.
    + cbn [ps_approximation snd hist with_hist]. rewrite app_length, H1, Hl. cbn. lia.
    + cbn [ps_approximation fst]. unfold counting. rewrite H1, Hl. reflexivity.
Qed.

Lemma far_never_ends : forall fuel, exists s, far_run fuel = More s.
Proof.
  intro fuel. unfold far_run, ps_run, initial_samples.
  cbn [num_sample_points far Nat.sub initial_loop with_ps ps_t ps_x back rev app]. rewrite far_time.
  cbn [scripted fst snd is_success tracked with_ps ps_t ps_x back rev app]. rewrite far_time.
  cbn [scripted fst snd is_success tracked with_ps ps_t ps_x back rev app when_ok bind].
  eapply far_loop with (r := ((2 + 1) / 4 + 1) / 4) (m := 0%nat).
  - reflexivity.
  - reflexivity.
  - lra.
  - lra.
  - cbn. discriminate.
  - reflexivity.
  - reflexivity.
Qed.
