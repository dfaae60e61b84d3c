(** The extrapolation of the power series endgame: core/include/bertini2/endgames/powerseries.hpp:317-555.
    Points have nv coordinates; numbers are exact. *)
From Coq Require Import List ZArith Lia Reals Lra Bool Arith.
From Coquelicot Require Import Complex.
From Verif Require Import Base Poly ComplexField StartIndex RKQuad Hermite Endgame EndgamePs.
Import ListNotations.
Local Open Scope R_scope.

Definition obind {A B : Type} (o : outcome A) (k : A -> outcome B) : outcome B :=
  match o with Value a => k a | Throws => Throws | UB => UB end.

Section Series.
Variable nv : nat.                     (* NumVariables *)
Variable n : nat.                      (* num_sample_points *)
Variable factor : R.                   (* sample_factor *)
Variables (amplification max_cycle : Z).   (* cycle_number_amplification, max_cycle_number *)
Variable rand : nat -> C.              (* rand_vector_ *)
Variable highest : R.                  (* Eigen::NumTraits<RT>::highest() *)

Notation pt := (nat -> C).

Definition sup (x : pt) : R := linf (map x (seq 0 nv)).
Definition apart (x y : pt) : R := sup (fun j => (x j - y j)%C).

(** ((b - a).transpose()*rand_vector_).sum() *)
Definition rand_sum (a b : pt) : C := fold_right Cplus (RtoC 0) (map (fun j => ((b j - a j) * rand j)%C) (seq 0 nv)).

(** ComputeBoundOnCycleNumber, powerseries.hpp:317-355.  When the logarithm in the denominator is zero
    the estimate is minus infinity (the factor being less than one), so the bound is 1.  Converting a
    number of 2^32 or more to unsigned is undefined. *)
Definition estimate_of (a b : C) : R := ln factor / ln (Cmod (b / a)%C).
Definition round_half_up (e : R) : Z := Int_part (e + 1 / 2).      (* round, for positive numbers *)

Definition cycle_bound (samples : list pt) : outcome Z :=
  match skipn (length samples - 3) samples with
  | [x0; x1; x2] =>
      let a := rand_sum x0 x1 in
      let b := rand_sum x1 x2 in
      if C_dec a (RtoC 0) then Value 1%Z
      else if C_dec b (RtoC 0) then Value 1%Z
      else if Req_EM_T (Cmod (b / a)%C) 1 then Value 1%Z
      else if Rlt_dec (estimate_of a b) 1 then Value 1%Z
      else let u := (round_half_up (estimate_of a b) * amplification)%Z in
           if (u <? 2 ^ 32)%Z then Value (Z.max u max_cycle) else UB
  | _ => UB
  end.

(** TransformToSPlane, powerseries.hpp:474-508.  A zero time_shift gives "not a number"; here UB. *)
Definition s_derivative (c : nat) (shift s : C) (d : pt) : pt :=
  fun j => (d j * (RtoC (INR c) * fpow (s : CF) (c - 1)) * shift)%C.

Definition to_s_plane (c : nat) (t0 : C) (num : nat) (from_back : bool) (times : list C) (derivs : list pt)
  : outcome (list C * list pt) :=
  if (c =? 0)%nat then Throws
  else if (length times <? num)%nat || (length derivs <? num)%nat then UB
  else
    let ts := if from_back then skipn (length times - num) times else times in
    let ds := if from_back then skipn (length derivs - num) derivs else derivs in
    match ts with
    | [] => UB
    | first :: _ =>
        let shift := (first - t0)%C in
        if C_dec shift (RtoC 0) then UB
        else let ss := map (fun t => croot c ((t - t0) / shift)%C) (firstn num ts) in
             Value (ss, map (fun p => s_derivative c shift (fst p) (snd p)) (combine ss (firstn num ds)))
    end.

(** The prediction of the most recent sample made with a candidate, powerseries.hpp:405-415. *)
Definition prediction (t0 : C) (num : nat) (times : list C) (samples derivs : list pt) (c : nat) : outcome pt :=
  match times, back times with
  | first :: _, Some recent =>
      obind (to_s_plane c t0 num false times derivs) (fun st =>
        hermite CF nat (croot c ((recent - t0) / (first - t0))%C) num (fst st) samples (snd st) false)
  | _, _ => UB
  end.

Definition prediction_error (t0 : C) (num : nat) (times : list C) (samples derivs : list pt) (c : nat) : outcome R :=
  match back samples with
  | Some x => obind (prediction t0 num times samples derivs c) (fun p => Value (apart p x))
  | None => UB
  end.

(** The loop over the candidates, powerseries.hpp:405-423: [best] is min_found_difference, [cyc] is cycle_number_. *)
Fixpoint search (diff : nat -> outcome R) (cands : list nat) (best : R) (cyc : nat) : outcome nat :=
  match cands with
  | [] => Value cyc
  | c :: r => obind (diff c) (fun d => if Rlt_dec d best then search diff r d c else search diff r best cyc)
  end.

(** ComputeCycleNumber, powerseries.hpp:375-426; [cyc] is the cycle number found before. *)
Definition search_points (samples : list pt) : nat := if (n <? length samples)%nat then n else (n - 1)%nat.

Definition cycle_number (t0 : C) (times : list C) (samples derivs : list pt) (cyc : nat) : outcome nat :=
  obind (cycle_bound samples) (fun b =>
    search (prediction_error t0 (search_points samples) times samples derivs) (seq 1 (Z.to_nat b)) highest cyc).

(** ComputeApproximationOfXAtT0, powerseries.hpp:531-547. *)
Definition extrapolation (c : nat) (t0 : C) (times : list C) (samples derivs : list pt) : outcome pt :=
  obind (to_s_plane c t0 n true times derivs) (fun st =>
    hermite CF nat (RtoC 0) n (fst st) samples (snd st) true).

Definition approximation (t0 : C) (times : list C) (samples derivs : list pt) (cyc : nat) : outcome (nat * pt) :=
  obind (cycle_number t0 times samples derivs cyc) (fun c =>
    obind (extrapolation c t0 times samples derivs) (fun x => Value (c, x))).

(** ** The search *)

Lemma search_min : forall diff cands best cyc c,
  search diff cands best cyc = Value c ->
  (forall k, In k cands -> exists e, diff k = Value e) /\
  ((c = cyc /\ forall k e, In k cands -> diff k = Value e -> best <= e) \/
   (exists l r e, cands = l ++ c :: r /\ diff c = Value e /\ e < best /\
      (forall k e', In k cands -> diff k = Value e' -> e <= e') /\
      (forall k e', In k l -> diff k = Value e' -> e < e'))).
Proof.
  intros diff cands. induction cands as [|k0 cands IH]; intros best cyc c E.
  - injection E as <-. split; [intros k []|]. left. split; [reflexivity|intros k e []].
  - cbn [search] in E. destruct (diff k0) as [d| |] eqn:D; try discriminate. cbn [obind] in E.
    destruct (Rlt_dec d best) as [L|L]; apply IH in E; destruct E as [V E]; (split; [intros k [->|Hk]; eauto|]).
    + right. destruct E as [[-> M]|(l & r & e & -> & De & Le & M & M2)].
      * exists [], cands, d. repeat match goal with |- _ /\ _ => split end; auto.
        -- intros k e' [<-|Hk] Ek; [rewrite D in Ek; injection Ek as <-; lra|]. eauto.
        -- intros k e' [].
      * exists (k0 :: l), r, e. repeat match goal with |- _ /\ _ => split end; auto.
        -- lra.
        -- intros k e' [<-|Hk] Ek; [rewrite D in Ek; injection Ek as <-; lra|]. eauto.
        -- intros k e' [<-|Hk] Ek; [rewrite D in Ek; injection Ek as <-; lra|]. eauto.
    + destruct E as [[-> M]|(l & r & e & -> & De & Le & M & M2)].
      * left. split; [reflexivity|]. intros k e [<-|Hk] Ek; [rewrite D in Ek; injection Ek as <-; lra|]. eauto.
      * right. exists (k0 :: l), r, e. repeat match goal with |- _ /\ _ => split end; auto.
        -- intros k e' [<-|Hk] Ek; [rewrite D in Ek; injection Ek as <-; lra|]. eauto.
        -- intros k e' [<-|Hk] Ek; [rewrite D in Ek; injection Ek as <-; lra|]. eauto.
Qed.

Lemma seq_split : forall l r c m, seq 1 m = l ++ c :: r -> (1 <= c <= m)%nat /\ forall k, (1 <= k < c)%nat -> In k l.
Proof.
  intros l r c m E.
  assert (Hc : In c (seq 1 m)) by (rewrite E; apply in_or_app; right; left; reflexivity).
  apply in_seq in Hc. split; [lia|]. intros k Hk.
  assert (Lm : (length l < m)%nat).
  { apply (f_equal (@length nat)) in E. rewrite seq_length, app_length in E. cbn in E. lia. }
  assert (Lc : c = S (length l)).
  { apply (f_equal (fun x => nth (length l) x 0%nat)) in E. rewrite app_nth2, Nat.sub_diag in E by lia.
    rewrite seq_nth in E by exact Lm. cbn in E. lia. }
  replace k with (nth (k - 1) (seq 1 m) 0%nat) by (rewrite seq_nth; lia).
  rewrite E, app_nth1 by lia. apply nth_In. lia.
Qed.

Lemma cycle_number_min : forall t0 times samples derivs cyc c b,
  cycle_bound samples = Value b -> cycle_number t0 times samples derivs cyc = Value c ->
  let err := prediction_error t0 (search_points samples) times samples derivs in
  (forall k, (1 <= k <= Z.to_nat b)%nat -> exists e, err k = Value e) /\
  ((exists e, (1 <= c <= Z.to_nat b)%nat /\ err c = Value e /\ e < highest /\
      (forall k ek, (1 <= k <= Z.to_nat b)%nat -> err k = Value ek -> e <= ek) /\
      (forall k ek, (1 <= k < c)%nat -> err k = Value ek -> e < ek))
   \/ (c = cyc /\ forall k ek, (1 <= k <= Z.to_nat b)%nat -> err k = Value ek -> highest <= ek)).
Proof.
  intros t0 times samples derivs cyc c b Hb E err. unfold cycle_number in E. rewrite Hb in E. cbn [obind] in E.
  fold err in E. apply search_min in E. destruct E as [V E]. split.
  - intros k Hk. apply V. apply in_seq. lia.
  - destruct E as [[-> M]|(l & r & e & S & De & Le & M & M2)].
    + right. split; [reflexivity|]. intros k ek Hk Ek. apply (M k); [apply in_seq; lia|exact Ek].
    + left. apply seq_split in S. destruct S as [S1 S2]. exists e. repeat match goal with |- _ /\ _ => split end; auto; try lia.
      * intros k ek Hk Ek. apply (M k); [apply in_seq; lia|exact Ek].
      * intros k ek Hk Ek. apply (M2 k); auto.
Qed.

(** the bound is 1 or at least max_cycle_number *)
Lemma bound_at_least : forall samples b, cycle_bound samples = Value b ->
  b = 1%Z \/ ((max_cycle <= b)%Z /\ exists e, 1 <= e /\ b = Z.max (round_half_up e * amplification) max_cycle).
Proof.
  intros samples b E. unfold cycle_bound in E. destruct (skipn _ _) as [|x0 [|x1 [|x2 [|x3 l]]]]; try discriminate.
  cbv zeta in E. destruct (C_dec _ _); [injection E as <-; auto|]. destruct (C_dec _ _); [injection E as <-; auto|].
  destruct (Req_EM_T _ _); [injection E as <-; auto|]. destruct (Rlt_dec _ _) as [|L]; [injection E as <-; auto|].
  destruct (_ <? _)%Z; [|discriminate]. injection E as <-. right. split; [lia|]. eexists. split; [|reflexivity]. lra.
Qed.

(** ** Exactness *)

(** Times target + r u with r > 0, and coordinates polynomial in the c-th root of r. *)
Variable c : nat.
Hypothesis c1 : (1 <= c)%nat.
Variables (t0 u : C).
Hypothesis u0 : u <> RtoC 0.
Variable q : nat -> list C.

Definition root (r : R) : R := Rpower r (1 / INR c).
Definition time_of (r : R) : C := (t0 + RtoC r * u)%C.
Definition value_of (r : R) : pt := fun j => @peval CF (q j) (RtoC (root r)).
(** the derivative with respect to time of a polynomial in the root *)
Definition slope_of (r : R) : pt :=
  fun j => (@peval CF (pderiv CF (q j)) (RtoC (root r)) / (RtoC (INR c) * fpow (RtoC (root r) : CF) (c - 1) * u))%C.

Lemma root_pos : forall r, 0 < root r.
Proof. intro r. apply exp_pos. Qed.

Lemma root_pow : forall r, 0 < r -> root r ^ c = r.
Proof.
  intros r Hr. assert (Hc : INR c <> 0) by (apply not_0_INR; lia).
  unfold root. rewrite <- Rpower_pow by apply exp_pos. rewrite Rpower_mult.
  replace (1 / INR c * INR c) with 1 by (field; exact Hc). apply Rpower_1. exact Hr.
Qed.

Lemma root_inj : forall a b, 0 < a -> 0 < b -> root a = root b -> a = b.
Proof. intros a b Ha Hb E. rewrite <- (root_pow a Ha), <- (root_pow b Hb), E. reflexivity. Qed.

Lemma Rpower_div : forall a b e, 0 < a -> 0 < b -> Rpower (a / b) e = Rpower a e / Rpower b e.
Proof.
  intros a b e Ha Hb. unfold Rpower. unfold Rdiv at 1. rewrite ln_mult, ln_Rinv; auto; [|apply Rinv_0_lt_compat; exact Hb].
  rewrite Rmult_plus_distr_l, exp_plus. unfold Rdiv. f_equal. rewrite <- exp_Ropp. f_equal. ring.
Qed.

Lemma croot_R : forall r, 0 < r -> croot c (RtoC r) = RtoC (root r).
Proof.
  intros r Hr. unfold croot. destruct (C_dec _ _) as [E|E]; [apply RtoC_inj in E; lra|].
  assert (A : arg (RtoC r) = 0).
  { unfold arg; cbn [fst snd RtoC]. destruct (Rle_dec 0 0); [|lra]. rewrite Cmod_R, Rabs_pos_eq by lra.
    replace (r / r) with 1 by (field; lra). apply acos_1. }
  rewrite A. replace (0 / INR c) with 0 by (field; apply not_0_INR; lia). rewrite cis_0, Cmod_R, Rabs_pos_eq by lra.
  unfold root. cbn. ring.
Qed.

Lemma RtoC_div' : forall a b, b <> 0 -> RtoC (a / b) = (RtoC a / RtoC b)%C.
Proof. intros a b Hb. apply RtoC_div. exact Hb. Qed.

Lemma scaled_time : forall r r0, 0 < r -> 0 < r0 ->
  croot c ((time_of r - t0) / (time_of r0 - t0))%C = RtoC (root r / root r0).
Proof.
  intros r r0 Hr H0. assert (Z0 : RtoC r0 <> RtoC 0) by (intro Z; apply RtoC_inj in Z; lra).
  replace ((time_of r - t0) / (time_of r0 - t0))%C with (RtoC (r / r0)).
  - rewrite croot_R by (apply Rdiv_lt_0_compat; lra). unfold root. rewrite Rpower_div by assumption. reflexivity.
  - rewrite RtoC_div' by lra. unfold time_of. field. split; [|assumption].
    replace (t0 + RtoC r0 * u - t0)%C with (RtoC r0 * u)%C by ring. apply Cmult_neq_0; assumption.
Qed.

(** substitution of a multiple of the variable *)
Fixpoint psubst (k : C) (p : list C) : list C :=
  match p with [] => [] | a :: r => a :: map (fun x => (k * x)%C) (psubst k r) end.

Lemma peval_map : forall k (p : list C) x, @peval CF (map (fun x => (k * x)%C) p) x = (k * @peval CF p x)%C.
Proof.
  intros k p x. induction p as [|a p IH]; [cbn; ring|]. cbn [map peval]. rewrite IH. cbn. ring.
Qed.
Lemma dval_map : forall k (p : list C) x, dval CF (map (fun x => (k * x)%C) p) x = (k * dval CF p x)%C.
Proof.
  intros k p x. induction p as [|a p IH]; [cbn; ring|]. cbn [map dval]. rewrite IH, peval_map. cbn. ring.
Qed.
Lemma peval_psubst : forall k p x, @peval CF (psubst k p) x = @peval CF p (k * x)%C.
Proof.
  intros k p. induction p as [|a p IH]; intro x; [reflexivity|]. cbn [psubst peval]. rewrite peval_map, IH. cbn. ring.
Qed.
Lemma dval_psubst : forall k p x, dval CF (psubst k p) x = (k * dval CF p (k * x))%C.
Proof.
  intros k p. induction p as [|a p IH]; intro x; [cbn; ring|]. cbn [psubst dval]. rewrite peval_map, dval_map, IH, peval_psubst.
  cbn. ring.
Qed.
Lemma length_psubst : forall k p, length (psubst k p) = length p.
Proof. intros k p. induction p as [|a p IH]; [reflexivity|]. cbn. rewrite map_length, IH. reflexivity. Qed.

Lemma fpow_R : forall r m, fpow (RtoC r : CF) m = RtoC (r ^ m).
Proof. exact RtoC_pow. Qed.

(** the derivatives in the s-plane are those of the rescaled polynomial *)
Lemma scaled_slope : forall r r0 j, 0 < r -> 0 < r0 ->
  s_derivative c (time_of r0 - t0)%C (RtoC (root r / root r0)) (slope_of r) j
  = dval CF (psubst (RtoC (root r0)) (q j)) (RtoC (root r / root r0)).
Proof.
  intros r r0 j Hr H0. pose proof (root_pos r) as P. pose proof (root_pos r0) as P0.
  assert (Zr : RtoC (root r) <> RtoC 0) by (intro Z; apply RtoC_inj in Z; lra).
  assert (Z0 : RtoC (root r0) <> RtoC 0) by (intro Z; apply RtoC_inj in Z; lra).
  assert (Zc : RtoC (INR c) <> RtoC 0) by (intro Z; apply RtoC_inj in Z; revert Z; apply not_0_INR; lia).
  rewrite dval_psubst.
  replace (RtoC (root r0) * RtoC (root r / root r0))%C with (RtoC (root r)) by (rewrite RtoC_div' by lra; field; exact Z0).
  unfold s_derivative, slope_of. rewrite dval_pderiv. set (D := dval CF (q j) (RtoC (root r))).
  replace (time_of r0 - t0)%C with (RtoC (root r0) * RtoC (root r0 ^ (c - 1)) * u)%C.
  - rewrite !fpow_R. assert (Zp : RtoC (root r ^ (c - 1)) <> RtoC 0).
    { intro Z. apply RtoC_inj in Z. revert Z. apply pow_nonzero. lra. }
    assert (Z0p : RtoC (root r0 ^ (c - 1)) <> RtoC 0).
    { intro Z. apply RtoC_inj in Z. revert Z. apply pow_nonzero. lra. }
    replace (RtoC ((root r / root r0) ^ (c - 1))) with (RtoC (root r ^ (c - 1)) / RtoC (root r0 ^ (c - 1)))%C.
    + field. auto.
    + rewrite <- RtoC_div'; [|apply pow_nonzero; lra]. f_equal. unfold Rdiv. rewrite Rpow_mult_distr, pow_inv. reflexivity.
  - unfold time_of. rewrite <- RtoC_mult'. replace (root r0 * root r0 ^ (c - 1)) with (root r0 ^ c).
    + rewrite root_pow by exact H0. ring.
    + destruct c as [|m]; [lia|]. cbn [pow Nat.sub]. rewrite Nat.sub_0_r. reflexivity.
Qed.

Lemma nth_firstn_lt : forall A (l : list A) k i d, (i < k)%nat -> nth i (firstn k l) d = nth i l d.
Proof. intros A l. induction l as [|a l IH]; intros [|k] [|i] d H; try lia; cbn; auto. apply IH. lia. Qed.
Lemma nth_skipn' : forall A (l : list A) k i d, nth i (skipn k l) d = nth (k + i) l d.
Proof. intros A l. induction l as [|a l IH]; intros [|k] [|i] d; cbn; auto. Qed.

Lemma window_run : forall (rs : list R) (num : nat) (from_back : bool) (tau : R),
  List.Forall (fun r => 0 < r) rs -> NoDup rs -> (2 <= num)%nat -> (num <= length rs)%nat ->
  let r0 := nth (if from_back then length rs - num else 0)%nat rs 0 in
  exists st x,
    to_s_plane c t0 num from_back (map time_of rs) (map slope_of rs) = Value st /\
    hermite CF nat (RtoC tau) num (fst st) (map value_of rs) (snd st) from_back = Value x /\
    (forall j, (length (q j) <= 3)%nat -> x j = @peval CF (q j) (RtoC (root r0 * tau))) /\
    (forall j a0 a1 a2 a3, q j = [a0; a1; a2; a3] ->
       let newest := nth (if from_back then length rs - 1 else num - 1)%nat rs 0 in
       let before := nth (if from_back then length rs - 2 else num - 2)%nat rs 0 in
       x j = (@peval CF (q j) (RtoC (root r0 * tau))
         + a3 * RtoC (root r0 * tau - root newest) * RtoC (root r0 * tau - root newest) * RtoC (root before - root newest))%C).
Proof.
  intros rs num from_back tau Hp Hd H2 Hl r0.
  set (ws := firstn num (if from_back then skipn (length rs - num) rs else rs)).
  assert (Lw : length ws = num).
  { unfold ws. destruct from_back; rewrite firstn_length, ?skipn_length; lia. }
  assert (Iw : forall r, In r ws -> In r rs).
  { intros r Hr. assert (Hr' : In r (if from_back then skipn (length rs - num) rs else rs)).
    { rewrite <- (firstn_skipn num). apply in_or_app. left. exact Hr. }
    destruct from_back; [|exact Hr']. rewrite <- (firstn_skipn (length rs - num) rs). apply in_or_app. right. exact Hr'. }
  assert (Nw : forall i, (i < num)%nat -> nth i ws 0 = nth (if from_back then length rs - num + i else i)%nat rs 0).
  { intros i Hi. unfold ws. rewrite nth_firstn_lt by exact Hi. destruct from_back; [|reflexivity]. apply nth_skipn'. }
  assert (P0 : 0 < r0). { unfold r0. apply (proj1 (Forall_forall _ _) Hp). apply nth_In. destruct from_back; lia. }
  assert (Pw : forall i, (i < num)%nat -> 0 < nth i ws 0).
  { intros i Hi. apply (proj1 (Forall_forall _ _) Hp), Iw, nth_In. lia. }
  set (ss := map (fun r => RtoC (root r / root r0)) ws).
  set (sd := map (fun r => s_derivative c (time_of r0 - t0)%C (RtoC (root r / root r0)) (slope_of r)) ws).
  assert (TS : to_s_plane c t0 num from_back (map time_of rs) (map slope_of rs) = Value (ss, sd)).
  { unfold to_s_plane. destruct (Nat.eqb_spec c 0) as [Ec|_]; [lia|]. rewrite !map_length.
    destruct (Nat.ltb_spec (length rs) num); [lia|]. cbn [orb].
    set (w := if from_back then skipn (length rs - num) rs else rs).
    replace (if from_back then skipn (length rs - num) (map time_of rs) else map time_of rs) with (map time_of w)
      by (unfold w; destruct from_back; [rewrite skipn_map|]; reflexivity).
    replace (if from_back then skipn (length rs - num) (map slope_of rs) else map slope_of rs) with (map slope_of w)
      by (unfold w; destruct from_back; [rewrite skipn_map|]; reflexivity).
    assert (W0 : exists w', w = r0 :: w').
    { assert (Lw0 : (1 <= length w)%nat) by (unfold w; destruct from_back; rewrite ?skipn_length; lia).
      assert (N0 : nth 0 w 0 = r0).
      { unfold w, r0. destruct from_back; [|reflexivity]. rewrite nth_skipn'. f_equal. lia. }
      destruct w as [|a w']; [cbn in Lw0; lia|]. cbn in N0. subst a. exists w'. reflexivity. }
    destruct W0 as [w' W0]. rewrite W0. cbn [map]. destruct (C_dec _ _) as [Z|_].
    - exfalso. revert Z. unfold time_of. replace (t0 + RtoC r0 * u - t0)%C with (RtoC r0 * u)%C by ring.
      apply Cmult_neq_0; [|exact u0]. intro Z. apply RtoC_inj in Z. lra.
    - change (time_of r0 :: map time_of w') with (map time_of (r0 :: w')).
      change (slope_of r0 :: map slope_of w') with (map slope_of (r0 :: w')). rewrite <- W0.
      rewrite !firstn_map. fold ws. f_equal.
      assert (ES : map (fun t => croot c ((t - t0) / (time_of r0 - t0))%C) (map time_of ws) = ss).
      { unfold ss. rewrite map_map. apply map_ext_in. intros r Hr. apply scaled_time; [|exact P0].
        apply (proj1 (Forall_forall _ _) Hp), Iw, Hr. }
      assert (EW : firstn num w = ws) by reflexivity. rewrite EW. 
      f_equal; [exact ES|]. rewrite ES. unfold ss, sd. clear. induction ws as [|r ws' IH]; [reflexivity|].
      cbn [map combine fst snd]. f_equal. exact IH. }
  pose (node := fun i => RtoC (root (nth (num - 1 - i) ws 0) / root r0) : CF).
  pose (qq := fun j => psubst (RtoC (root r0)) (q j)).
  assert (Ls : length ss = num) by (unfold ss; rewrite map_length; exact Lw).
  assert (Ld : length sd = num) by (unfold sd; rewrite map_length; exact Lw).
  assert (AT : forall A (l : list A) i, length l = num -> at_back l (if from_back then length l - 1 else num - 1) i = at_back l (num - 1) i).
  { intros A l i El. rewrite El. destruct from_back; reflexivity. }
  destruct (hermite_runs CF nat (RtoC tau) num ss (map value_of rs) sd from_back qq node ltac:(lia)) with
    (sample := fun i => value_of (nth (num - 1 - i) ws 0))
    (deriv := fun i => s_derivative c (time_of r0 - t0)%C (RtoC (root (nth (num - 1 - i) ws 0) / root r0)) (slope_of (nth (num - 1 - i) ws 0)))
    as [x [Ex Hx]].
  - intros i Hi. rewrite AT by exact Ls. unfold at_back. destruct (Nat.leb_spec i (num - 1)); [|lia].
    unfold ss, node. apply (map_nth_error (fun r => RtoC (root r / root r0))). apply nth_error_nth'. lia.
  - intros i Hi. unfold at_back. rewrite map_length. destruct (Nat.leb_spec i (if from_back then length rs - 1 else num - 1)) as [_|L].
    2:{ destruct from_back; lia. }
    apply map_nth_error. rewrite (nth_error_nth' rs 0) by (destruct from_back; lia).
    f_equal. rewrite Nw by lia. f_equal. destruct from_back; lia.
  - intros i Hi. rewrite AT by exact Ld. unfold at_back. destruct (Nat.leb_spec i (num - 1)); [|lia].
    unfold sd. apply (map_nth_error (fun r => s_derivative c (time_of r0 - t0)%C (RtoC (root r / root r0)) (slope_of r))).
    apply nth_error_nth'. lia.
  - intros i j Hi. unfold qq, node. rewrite peval_psubst. unfold value_of. f_equal.
    rewrite <- RtoC_mult'. f_equal. pose proof (root_pos r0). field. lra.
  - intros i j Hi. unfold qq, node. apply scaled_slope; [|exact P0]. apply Pw. lia.
  - intros i i' Hi Hi' E. unfold node in E. apply RtoC_inj in E. pose proof (root_pos r0) as R0.
    assert (E2 : root (nth (num - 1 - i) ws 0) = root (nth (num - 1 - i') ws 0)).
    { apply (f_equal (fun z => z * root r0)) in E. unfold Rdiv in E. rewrite !Rmult_assoc, !Rinv_l, !Rmult_1_r in E by lra. exact E. }
    apply root_inj in E2; [|apply Pw; lia|apply Pw; lia].
    rewrite !Nw in E2 by lia.
    apply (proj1 (NoDup_nth rs 0) Hd) in E2; destruct from_back; lia.
  - exact (Nat.eq_le_incl _ _ (eq_sym Ls)).
  - pose proof (map_length value_of rs) as LM. exact (eq_ind_r (fun k => (num <= k)%nat) Hl LM).
  - exact (Nat.eq_le_incl _ _ (eq_sym Ld)).
  - exists (ss, sd), x. split; [exact TS|]. split; [exact Ex|]. split.
    + intros j Hq. rewrite Hx. rewrite (hermite_exact CF nat (RtoC tau) num ss (map value_of rs) sd from_back qq node ltac:(lia)).
      * unfold qq. rewrite peval_psubst. f_equal. rewrite <- RtoC_mult'. reflexivity.
      * unfold qq. rewrite length_psubst. exact Hq.
      * unfold qq. rewrite length_psubst. lia.
    + intros j a0 a1 a2 a3 Q newest before. rewrite Hx.
      pose proof (hermite_cubic CF nat (RtoC tau) num ss (map value_of rs) sd from_back qq node ltac:(lia) j) as HC.
      unfold qq at 1 in HC. rewrite Q in HC. cbn [psubst map] in HC. specialize (HC _ _ _ _ H2 eq_refl).
      rewrite HC. unfold qq. rewrite peval_psubst.
      assert (N0 : node 0%nat = RtoC (root newest / root r0)).
      { unfold node, newest. do 3 f_equal. rewrite Nw by lia. f_equal. destruct from_back; lia. }
      assert (N1 : node 1%nat = RtoC (root before / root r0)).
      { unfold node, before. do 3 f_equal. rewrite Nw by lia. f_equal. destruct from_back; lia. }
      rewrite N0, N1. pose proof (root_pos r0) as R0.
      match goal with |- (?p + ?a)%F = (?p' + ?b)%C => replace p with p'; [change (p' + a = p' + b)%C; f_equal|f_equal; rewrite <- RtoC_mult'; reflexivity] end.
      unfold fsub, fmul; cbn.
      rewrite <- !RtoC_minus'. 
      replace (root r0 * tau - root newest) with (root r0 * (tau - root newest / root r0)) by (field; lra).
      replace (root before - root newest) with (root r0 * (root before / root r0 - root newest / root r0)) by (field; lra).
      rewrite !RtoC_mult'. ring.
Qed.

(** The data of a path at the parameters rs, and what is read of it by a Hermite interpolation with num points. *)
Hypothesis quadratic : forall j, (length (q j) <= 3)%nat.

Lemma window_exact : forall (rs : list R) (num : nat) (from_back : bool) (tau : R),
  List.Forall (fun r => 0 < r) rs -> NoDup rs -> (2 <= num)%nat -> (num <= length rs)%nat ->
  let r0 := nth (if from_back then length rs - num else 0)%nat rs 0 in
  exists st x,
    to_s_plane c t0 num from_back (map time_of rs) (map slope_of rs) = Value st /\
    hermite CF nat (RtoC tau) num (fst st) (map value_of rs) (snd st) from_back = Value x /\
    forall j, x j = @peval CF (q j) (RtoC (root r0 * tau)).
Proof.
  intros rs num from_back tau Hp Hd H2 Hl r0. destruct (window_run rs num from_back tau Hp Hd H2 Hl) as (st & x & A & B & C1 & _).
  exists st, x. split; [exact A|]. split; [exact B|]. intro j. apply C1, quadratic.
Qed.
End Series.
