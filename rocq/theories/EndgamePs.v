(** The power series endgame: its times, its termination, and the security check; the security check
    of the Cauchy endgame. *)
From Coq Require Import List ZArith Lia Reals Lra Bool Arith.
From Coquelicot Require Import Complex.
From Verif Require Import Base ComplexField Newton Endgame EndgameProof.
Import ListNotations.
Local Open Scope R_scope.

Lemma RtoC_minus' : forall a b, RtoC (a - b) = (RtoC a - RtoC b)%C.
Proof. intros. unfold RtoC, Cminus, Cplus, Copp; cbn. f_equal; lra. Qed.
Lemma RtoC_plus' : forall a b, RtoC (a + b) = (RtoC a + RtoC b)%C.
Proof. intros. unfold RtoC, Cplus; cbn. f_equal; lra. Qed.
Lemma RtoC_mult' : forall a b, RtoC (a * b) = (RtoC a * RtoC b)%C.
Proof. intros. unfold RtoC, Cmult; cbn. f_equal; lra. Qed.

Section Times.
Variable cfg : config.
Variable target : C.
Notation f := (sample_factor cfg).
Hypothesis Hgeo : target = RtoC 0 \/ f = 1 / 2.

Lemma midpoint_geometric : forall t, (midpoint_time cfg target t - target = RtoC f * (t - target))%C.
Proof.
  intro t. unfold midpoint_time. destruct Hgeo as [E|E].
  - rewrite E. ring.
  - assert (E2 : (RtoC f + RtoC f = RtoC 1)%C) by (rewrite <- RtoC_plus'; f_equal; lra).
    assert (H : (target = target * (RtoC f + RtoC f))%C) by (rewrite E2; ring).
    transitivity ((t + target) * RtoC f - target * (RtoC f + RtoC f))%C.
    + rewrite <- H. reflexivity.
    + ring.
Qed.

Lemma midpoint_iter : forall k t,
  (Nat.iter k (midpoint_time cfg target) t - target = RtoC (f ^ k) * (t - target))%C.
Proof.
  induction k as [|k IH]; intro t.
  - cbn. ring.
  - change (Nat.iter (S k) (midpoint_time cfg target) t)
      with (midpoint_time cfg target (Nat.iter k (midpoint_time cfg target) t)).
    rewrite midpoint_geometric, IH. cbn [pow]. rewrite RtoC_mult'. ring.
Qed.

Lemma midpoint_dist : forall t, 0 < f -> Cmod (midpoint_time cfg target t - target)%C = f * Cmod (t - target)%C.
Proof. intros t H. rewrite midpoint_geometric, Cmod_mult, Cmod_R, Rabs_pos_eq by lra. reflexivity. Qed.

End Times.

Section Ps.
Variable cfg : config.
Variable target : C.
Variable track : nat -> C -> C -> vec -> code * vec.
Variable refine : nat -> vec -> C -> code * vec.
Variable dehom : vec -> vec.
Variable extrapolate : nat -> list C -> list vec -> vec.
Notation n := (num_sample_points cfg).
Notation f := (sample_factor cfg).
Hypothesis n1 : (1 <= n)%nat.
Variable T : Prop.
Hypothesis Hf : T \/ (0 < f < 1 /\ (target = RtoC 0 \/ f = 1 / 2)).

Definition pbud (s : est) (k : nat) : Prop :=
  T \/ exists t, back (ps_t s) = Some t /\ f ^ k * Cmod (t - target)%C < min_track_time cfg.

Definition ps_usual (c : code) : Prop :=
  c = Success \/ c = MinTrackTimeReached \/ (exists k t t' x, c = fst (track k t t' x)) \/
  exists k x t, c = fst (refine k x t).

Lemma ps_advance_post : forall s m k, PS s m -> (1 <= m)%nat -> pbud s k ->
  post T (ps_advance cfg target track refine s) (fun r =>
    ps_usual (fst r) /\ hist (snd r) = hist s /\
    (is_success (fst r) = true -> (exists m', PS (snd r) m' /\ (1 <= m')%nat) /\
       (T \/ exists k', k = S k' /\ pbud (snd r) k'))).
Proof.
  intros s m k [Ht Hx] Hm Hb. unfold ps_advance.
  destruct (back_some _ (ps_t s) ltac:(lia)) as [t Et]. destruct (back_some _ (ps_x s) ltac:(lia)) as [x Ex].
  rewrite Et, Ex. unfold lt_b. set (t' := midpoint_time cfg target t).
  destruct (Rlt_dec (Cmod (t' - target)%C) (min_track_time cfg)) as [L|L].
  - cbn. unfold ps_usual. split; [auto|split; [reflexivity|discriminate]].
  - set (r := track (ntrack s) t t' x). destruct (is_success (fst r)) eqn:Es.
    + set (q := refine (nrefine s) (snd r) t'). destruct (is_success (fst q)) eqn:Eq.
      * cbn [post fst snd]. split; [unfold ps_usual; auto|split; [reflexivity|]]. intros _. split.
        -- destruct (Nat.ltb_spec (n + 1) (length (ps_t s ++ [t']))) as [L2|L2].
           ++ exists m. split; [|exact Hm]. unfold PS; cbn. rewrite app_length in L2. cbn in L2.
              destruct (ps_t s) as [|t1 ts]; [cbn in *; lia|]. destruct (ps_x s) as [|x1 xs]; [cbn in *; lia|].
              cbn in *. rewrite !app_length. cbn. lia.
           ++ exists (S m). unfold PS; cbn. rewrite !app_length. cbn. lia.
        -- destruct Hb as [HT|[t0 [E0 B]]]; [left; exact HT|].
           destruct Hf as [HT|[Hf1 Hf2]]; [left; exact HT|right].
           rewrite Et in E0. injection E0 as <-. destruct k as [|k'].
           ++ exfalso. apply L. unfold t'. rewrite midpoint_dist by (auto; lra).
              rewrite pow_O, Rmult_1_l in B. pose proof (Cmod_ge_0 (t - target)%C). nra.
           ++ exists k'. split; [reflexivity|]. right. exists t'. split.
              ** cbn [ps_t refined tracked with_ps snd]. destruct (ps_t s) as [|t1 ts]; [cbn in *; lia|].
                 destruct (Nat.ltb _ _); [cbn [tl app]; apply back_app|apply back_app].
              ** unfold t'. rewrite midpoint_dist by (auto; lra). cbn [pow] in B. lra.
      * cbn [post fst snd]. rewrite Eq. split; [|split; [reflexivity|congruence]].
        unfold ps_usual. right; right; right. exists (nrefine s), (snd r), t'. reflexivity.
    + cbn [post fst snd]. rewrite Es. split; [|split; [reflexivity|congruence]].
      unfold ps_usual. right; right; left. exists (ntrack s), t, t', x. reflexivity.
Qed.

Lemma ps_approximation_same : forall s,
  let a := ps_approximation refine extrapolate s in
  ps_t (snd a) = ps_t s /\ length (ps_x (snd a)) = length (ps_x s) /\ hist (snd a) = hist s ++ [fst a].
Proof. intro s. cbn. rewrite refine_all_length. auto. Qed.

Definition big (x : vec) : Prop := security_max_norm cfg < linf (dehom x).

Lemma exceeds_iff : forall x, exceeds cfg dehom x = true <-> big x.
Proof.
  intro x. unfold exceeds, big, size_of, lt_b.
  destruct (Rlt_dec _ _); split; intro; try reflexivity; try congruence; try contradiction; assumption.
Qed.

(** two successive entries of l are both too large *)
Definition big_pair (l : list vec) : Prop := exists h a b k, l = h ++ a :: b :: k /\ big a /\ big b.

Lemma big_pair_last : forall l a b, big_pair ((l ++ [a]) ++ [b]) -> big_pair (l ++ [a]) \/ (big a /\ big b).
Proof.
  intros l a b (h & a' & b' & k & E & Ha & Hb). destruct k as [|z k].
  - right. replace (h ++ [a'; b']) with ((h ++ [a']) ++ [b']) in E by (rewrite <- app_assoc; reflexivity).
    apply app_inj_tail in E. destruct E as [E ->]. apply app_inj_tail in E. destruct E as [_ ->]. auto.
  - left. destruct (exists_last (l := z :: k) ltac:(discriminate)) as [k' [y Ey]]. rewrite Ey in E.
    replace (h ++ a' :: b' :: k' ++ [y]) with ((h ++ a' :: b' :: k') ++ [y]) in E by (rewrite <- app_assoc; reflexivity).
    apply app_inj_tail in E. destruct E as [E _]. exists h, a', b', k'. auto.
Qed.

Lemma big_pair_single : forall a, ~ big_pair [a].
Proof.
  clear n1. intros a (h & b & c & k & E & _). apply (f_equal (@length vec)) in E. rewrite app_length in E. cbn in E. lia.
Qed.

(** what is known of the approximations when the endgame returns, or is still running *)
Definition truncated (h : list vec) : Prop := exists h0 a b, h = h0 ++ [a; b] /\ big a /\ big b /\ ~ big_pair (h0 ++ [a]).

Definition ps_security (o : out (code * est)) : Prop :=
  match o with
  | Ok (c, s) =>
      (c = SecurityMaxNormReached -> (security_level cfg <= 0)%Z /\ truncated (hist s)) /\
      (c <> SecurityMaxNormReached -> (security_level cfg <= 0)%Z -> ~ big_pair (hist s))
  | More s => (security_level cfg <= 0)%Z -> ~ big_pair (hist s)
  | _ => True
  end.

Hypothesis track_code : forall k t t' x, fst (track k t t' x) <> SecurityMaxNormReached.
Hypothesis refine_code : forall k x t, fst (refine k x t) <> SecurityMaxNormReached.

Lemma ps_usual_code : forall c, ps_usual c -> c <> SecurityMaxNormReached.
Proof.
  intros c [->|[->|[(k & t & t' & x & ->)|(k & x & t & ->)]]]; try discriminate; [apply track_code|apply refine_code].
Qed.

Lemma ps_advance_hist : forall s c s', ps_advance cfg target track refine s = Ok (c, s') ->
  hist s' = hist s /\ c <> SecurityMaxNormReached.
Proof.
  intros s c s' E. unfold ps_advance in E.
  destruct (back (ps_t s)) as [t|]; [|discriminate]. destruct (back (ps_x s)) as [x|]; [|discriminate].
  destruct (lt_b _ _); [injection E as <- <-; split; [reflexivity|discriminate]|].
  set (t' := midpoint_time cfg target t) in *. pose proof (track_code (ntrack s) t t' x) as TC.
  destruct (is_success (fst (track _ _ _ _))).
  - pose proof (refine_code (nrefine s) (snd (track (ntrack s) t t' x)) t') as RC.
    destruct (is_success (fst (refine _ _ _))); injection E as <- <-; split; auto; discriminate.
  - injection E as <- <-. auto.
Qed.

Lemma ps_loop_security : forall fuel err h prev s, hist s = h ++ [prev] ->
  ((security_level cfg <= 0)%Z -> ~ big_pair (hist s)) ->
  ps_security (ps_loop cfg target track refine dehom extrapolate fuel err prev s).
Proof.
  induction fuel as [|fuel IH]; intros err h prev s Eh Hs; cbn [ps_loop];
    (destruct (lt_b _ _); [|cbn; split; [discriminate|auto]]).
  - cbn. auto.
  - unfold when_ok, bind. destruct (ps_advance cfg target track refine s) as [[c s1]| | | |s1] eqn:Ea; cbn [ps_security]; auto.
    2:{ exfalso. unfold ps_advance in Ea.
        destruct (back (ps_t s)); [|discriminate]. destruct (back (ps_x s)); [|discriminate].
        destruct (lt_b _ _); [discriminate|]. destruct (is_success _); [|discriminate]. destruct (is_success _); discriminate. }
    apply ps_advance_hist in Ea. destruct Ea as [E1 C1]. cbn [fst snd].
    destruct (is_success c) eqn:Ec; [|cbn; rewrite E1; split; auto; congruence].
    destruct (ps_approximation_same s1) as (_ & _ & H2). set (a := ps_approximation refine extrapolate s1) in *.
    rewrite E1, Eh in H2.
    destruct (Z.leb_spec (security_level cfg) 0) as [L|L]; cbn [andb].
    + destruct (exceeds cfg dehom (fst a)) eqn:X1; cbn [andb].
      * destruct (exceeds cfg dehom prev) eqn:X2.
        -- cbn [ps_security]. apply exceeds_iff in X1, X2. split; [|congruence]. intros _. split; [exact L|].
           exists h, prev, (fst a). repeat match goal with |- _ /\ _ => split end; auto.
           ++ rewrite H2, <- app_assoc. reflexivity.
           ++ rewrite <- Eh. auto.
        -- apply IH with (1 := H2). intros _ P. rewrite H2 in P. apply big_pair_last in P. destruct P as [P|[P Q]].
           ++ apply Hs; [exact L|]. rewrite Eh. exact P.
           ++ apply exceeds_iff in P. congruence.
      * apply IH with (1 := H2). intros _ P. rewrite H2 in P. apply big_pair_last in P. destruct P as [P|[P Q]].
        -- apply Hs; [exact L|]. rewrite Eh. exact P.
        -- apply exceeds_iff in Q. congruence.
    + apply IH with (1 := H2). lia.
Qed.

Lemma initial_loop_hist : forall k s c s', initial_loop cfg target track k s = Ok (c, s') ->
  hist s' = hist s /\ c <> SecurityMaxNormReached.
Proof.
  induction k as [|k IH]; intros s c s' E; cbn [initial_loop] in E.
  - injection E as <- <-. split; [reflexivity|discriminate].
  - destruct (back (ps_t s)) as [t|]; [|discriminate]. destruct (back (ps_x s)) as [x|]; [|discriminate].
    pose proof (track_code (ntrack s) t (midpoint_time cfg target t) x) as TC.
    destruct (is_success _); [apply IH in E; exact E|]. injection E as <- <-. auto.
Qed.

Lemma initial_loop_not_more : forall k s s', initial_loop cfg target track k s <> More s'.
Proof.
  induction k as [|k IH]; intros s s' E; cbn [initial_loop] in E; [discriminate|].
  destruct (back (ps_t s)) as [t|]; [|discriminate]. destruct (back (ps_x s)) as [x|]; [|discriminate].
  destruct (is_success _); [|discriminate]. exact (IH _ _ E).
Qed.

Lemma ps_run_security : forall fuel start x,
  ps_security (ps_run cfg target track refine dehom extrapolate fuel start x).
Proof.
  intros fuel start x. unfold ps_run, when_ok, bind, initial_samples.
  destruct (initial_loop _ _ _ _ _) as [[c s1]| | | |s1] eqn:E; cbn; auto.
  2:{ exfalso. exact (initial_loop_not_more _ _ _ E). }
  apply initial_loop_hist in E. cbn in E. destruct E as [E C1].
  destruct (is_success c) eqn:Ec.
  - apply ps_loop_security with (h := []).
    + cbn. rewrite E. reflexivity.
    + cbn. rewrite E. intros _. apply big_pair_single.
  - cbn. rewrite E. split; [congruence|]. intros _ _ (h & a & b & k & E2 & _).
    symmetry in E2. apply app_eq_nil in E2. destruct E2; discriminate.
Qed.

(** ** Termination *)

Lemma ps_loop_post : forall fuel err prev s m k, PS s m -> (1 <= m)%nat -> pbud s k -> T \/ (k < fuel)%nat ->
  post T (ps_loop cfg target track refine dehom extrapolate fuel err prev s) (fun _ => True).
Proof.
  induction fuel as [|fuel IH]; intros err prev s m k Hp Hm Hb HF; cbn [ps_loop];
    (destruct (lt_b _ _); [|exact I]).
  - cbn. destruct HF as [HF|HF]; [exact HF|lia].
  - apply post_when with (Q := fun s1 => (exists m', PS s1 m' /\ (1 <= m')%nat) /\ (T \/ exists k', k = S k' /\ pbud s1 k')).
    + refine (post_weaken _ _ _ _ _ (ps_advance_post s m k Hp Hm Hb) _).
      intros r (U & H & K). destruct (is_success (fst r)); auto.
    + intros s1 ((m' & P1 & M1) & B1). destruct (ps_approximation_same s1) as (A1 & A2 & _).
      set (a := ps_approximation refine extrapolate s1) in *.
      destruct (_ && _); [exact I|].
      destruct B1 as [HT|[k' [-> Hk']]].
      * apply IH with (m := m') (k := 0%nat); auto.
        -- destruct P1. unfold PS. rewrite A1, A2. auto.
        -- left; exact HT.
      * apply IH with (m := m') (k := k'); auto.
        -- destruct P1. unfold PS. rewrite A1, A2. auto.
        -- destruct HF as [HF|HF]; [left; exact HF|right; lia].
Qed.

Lemma ps_run_post : forall fuel start x k,
  (T \/ f ^ k * Cmod (Nat.iter (n - 1) (midpoint_time cfg target) start - target)%C < min_track_time cfg) ->
  T \/ (k < fuel)%nat ->
  post T (ps_run cfg target track refine dehom extrapolate fuel start x) (fun _ => True).
Proof.
  intros fuel start x k He HF. unfold ps_run.
  apply post_when with (Q := fun s1 => PS s1 n /\ pbud s1 k).
  - unfold initial_samples.
    refine (post_weaken _ _ _ _ _ (initial_loop_post cfg target track T (n - 1) (with_ps empty [start] [x]) start 1 _ _ _ _) _);
      [reflexivity|split; reflexivity|lia|reflexivity|].
    intros r (U & H & K). destruct (is_success (fst r)) eqn:Es; [|exact I].
    destruct (K eq_refl) as [P Q]. split.
    + replace n with (1 + (n - 1))%nat by lia. exact P.
    + destruct He as [He|He]; [left; exact He|right].
      exists (Nat.iter (n - 1) (midpoint_time cfg target) start). split; [|exact He].
      rewrite Q. cbn [ps_t with_ps]. destruct (n - 1)%nat as [|m] eqn:En; [reflexivity|].
      rewrite seq_S, map_app, app_assoc. cbn [map]. apply back_app.
  - intros s1 (P1 & B1). destruct (ps_approximation_same s1) as (A1 & A2 & _).
    apply ps_loop_post with (m := n) (k := k); auto.
    + destruct P1. unfold PS. rewrite A1, A2. auto.
Qed.

End Ps.

Lemma shrinks : forall r d e, 0 < r < 1 -> 0 < e -> exists k, r ^ k * d < e.
Proof.
  intros r d e Hr He. destruct (Rle_dec d 0) as [L|L].
  - exists 0%nat. cbn. lra.
  - assert (L' : 0 < d) by lra.
    destruct (pow_lt_1_zero r ltac:(rewrite Rabs_pos_eq; lra) (e / d) ltac:(apply Rdiv_lt_0_compat; lra)) as [k Hk].
    exists k. specialize (Hk k (Nat.le_refl k)). rewrite Rabs_pos_eq in Hk by (apply pow_le; lra).
    apply (Rmult_lt_compat_r d) in Hk; [|exact L']. unfold Rdiv in Hk. rewrite Rmult_assoc, Rinv_l in Hk by lra. lra.
Qed.
