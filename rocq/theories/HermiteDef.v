(** Hermite interpolation returns a value whenever the containers are long enough. *)
From Coq Require Import List Arith Lia ZArith Bool.
From Verif Require Import Base Poly StartIndex RKQuad Hermite.
Import ListNotations.

Section Defined.
Variable F : fld.
Variable J : Type.
Notation mat := (mat F J).
Notation vec := (vec F).
Definition def (m : mat) (i j : nat) : Prop := exists x, m i j = Some x.

Lemma def_other : forall m i j x i' j', def m i' j' -> def (mset F J m i j x) i' j'.
Proof. intros m i j x i' j' [y H]. unfold def, mset. destruct (_ && _); eauto. Qed.
Lemma def_same : forall m i j x, def (mset F J m i j x) i j.
Proof. intros m i j x. unfold def, mset. rewrite !Nat.eqb_refl. cbn. eauto. Qed.

Lemma run_snoc : forall (S : Type) (body : nat -> S -> option S) l i s0 s1,
  loop body l s0 = Some s1 -> loop body (l ++ [i]) s0 = body i s1.
Proof.
  intros S body. induction l as [|a l IH]; intros i s0 s1 HL; cbn [loop app] in *.
  - injection HL as <-. destruct (body i s0); reflexivity.
  - destruct (body a s0) as [s2|]; [|discriminate]. exact (IH i s2 s1 HL).
Qed.

Lemma at_back_some : forall (A : Type) (l : list A) n (fb : bool) i, (i < n)%nat -> (n <= length l)%nat ->
  exists a, at_back l (if fb then length l - 1 else n - 1)%nat i = Some a.
Proof.
  intros A l n fb i Hi Hl. unfold at_back. destruct (Nat.leb_spec i (if fb then length l - 1 else n - 1)%nat); [|destruct fb; lia].
  destruct (nth_error l _) as [a|] eqn:E; [eauto|]. apply nth_error_None in E. destruct fb; lia.
Qed.

Variables (target : F) (n : nat) (times : list F) (samples derivatives : list (J -> F)) (fb : bool).
Hypothesis n_pos : (1 <= n)%nat.
Hypothesis Lt : (n <= length times)%nat.
Hypothesis Ls : (n <= length samples)%nat.
Hypothesis Ld : (n <= length derivatives)%nat.
Let lt := (if fb then length times - 1 else n - 1)%nat.
Let ls := (if fb then length samples - 1 else n - 1)%nat.
Let ld := (if fb then length derivatives - 1 else n - 1)%nat.

Lemma init_def : forall k, (k <= n)%nat ->
  exists m z, loop (init_body F J times samples derivatives lt ls ld) (seq 0 k) (fun _ _ => None, fun _ => None) = Some (m, z)
  /\ (forall i, (i < 2 * k)%nat -> exists t, z i = Some t) /\ (forall i, (i < 2 * k)%nat -> def m i 0)
  /\ (forall i, (i < k)%nat -> def m (2 * i + 1) 1).
Proof.
  induction k as [|k IH]; intro Hk.
  - eexists. eexists. split; [reflexivity|]. repeat split; intros; lia.
  - destruct IH as [m [z [L [Z [G0 G1]]]]]; [lia|].
    rewrite seq_S. cbn [Nat.add]. rewrite (run_snoc _ _ _ k _ _ L). cbn [init_body].
    destruct (at_back_some _ samples n fb k ltac:(lia) Ls) as [x Ex]. fold ls in Ex. rewrite Ex.
    destruct (at_back_some _ derivatives n fb k ltac:(lia) Ld) as [d Ed]. fold ld in Ed. rewrite Ed.
    destruct (at_back_some _ times n fb k ltac:(lia) Lt) as [t Et]. fold lt in Et. rewrite Et.
    eexists. eexists. split; [reflexivity|]. split; [|split].
    + intros i Hi. unfold vset. destruct (Nat.eqb_spec i (2 * k + 1)); [eauto|].
      destruct (Nat.eqb_spec i (2 * k)); [eauto|]. apply Z. lia.
    + intros i Hi. apply def_other. destruct (Nat.eq_dec i (2 * k + 1)) as [->|N1]; [apply def_same|]. apply def_other.
      destruct (Nat.eq_dec i (2 * k)) as [->|N2]; [apply def_same|]. apply def_other. apply G0. lia.
    + intros i Hi. destruct (Nat.eq_dec i k) as [->|N]; [apply def_same|]. repeat apply def_other. apply G1. lia.
Qed.

Section Rest.
Variable z : vec.
Hypothesis z_ok : forall i, (i < 2 * n)%nat -> exists t, z i = Some t.

Lemma first_def : forall m0, (forall i, (i < 2 * n)%nat -> def m0 i 0) -> (forall i, (i < n)%nat -> def m0 (2 * i + 1) 1) ->
  forall k, (k <= n - 1)%nat -> exists m, loop (first_body F J z) (seq 1 k) m0 = Some m
  /\ (forall i, (i < 2 * n)%nat -> def m i 0) /\ (forall i, (i < n)%nat -> def m (2 * i + 1) 1)
  /\ (forall i, (1 <= i <= k)%nat -> def m (2 * i) 1).
Proof.
  intros m0 G0 G1. induction k as [|k IH]; intro Hk.
  - exists m0. split; [reflexivity|]. split; [exact G0|]. split; [exact G1|]. intros; lia.
  - destruct IH as [m [L [A [B C]]]]; [lia|]. rewrite seq_S, (run_snoc _ _ _ _ _ _ L). cbn [Nat.add].
    unfold first_body. destruct (A (2 * S k)%nat) as [x ->]; [lia|]. destruct (A (2 * S k - 1)%nat) as [y ->]; [lia|].
    destruct (z_ok (2 * S k)%nat) as [s ->]; [lia|]. destruct (z_ok (2 * S k - 1)%nat) as [t ->]; [lia|].
    eexists. split; [reflexivity|]. split; [|split].
    + intros i Hi. apply def_other. apply A. exact Hi.
    + intros i Hi. apply def_other. apply B. exact Hi.
    + intros i Hi. destruct (Nat.eq_dec i (S k)) as [->|N]; [apply def_same|]. apply def_other. apply C. lia.
Qed.

Lemma inner_def : forall i m0, (2 <= i < 2 * n)%nat ->
  (forall j, (1 <= j <= i - 1)%nat -> def m0 (i - 1) j) -> (forall j, (j <= 1)%nat -> def m0 i j) ->
  forall k, (k <= i - 1)%nat -> exists m, loop (fun j m => diff_body F J z i j m) (seq 2 k) m0 = Some m
    /\ (forall j, (j <= k + 1)%nat -> def m i j) /\ (forall i' j, def m0 i' j -> def m i' j).
Proof.
  intros i m0 Hi G1 G0. induction k as [|k IH]; intro Hk.
  - exists m0. split; [reflexivity|]. split; [|auto]. intros j Hj. apply G0. lia.
  - destruct IH as [m [L [A B]]]; [lia|]. rewrite seq_S, (run_snoc _ _ _ _ _ _ L). cbn [Nat.add].
    unfold diff_body. destruct (A (S (S k) - 1)%nat) as [x ->]; [lia|].
    destruct (B (i - 1)%nat (S (S k) - 1)%nat) as [y ->]; [apply G1; lia|].
    destruct (z_ok i) as [s ->]; [lia|]. destruct (z_ok (i - S (S k))%nat) as [t ->]; [lia|].
    eexists. split; [reflexivity|]. split.
    + intros j Hj. destruct (Nat.eq_dec j (S (S k))) as [->|N]; [apply def_same|]. apply def_other. apply A. lia.
    + intros i' j D. apply def_other, B, D.
Qed.

Lemma outer_def : forall m1, (forall i, (i < 2 * n)%nat -> def m1 i 0) -> (forall i, (1 <= i < 2 * n)%nat -> def m1 i 1) ->
  forall k, (k <= 2 * n - 2)%nat ->
  exists m, loop (fun i m => loop (fun j m => diff_body F J z i j m) (seq 2 (i - 1)) m) (seq 2 k) m1 = Some m
    /\ (forall i j, (i < k + 2)%nat -> (j <= i)%nat -> def m i j)
    /\ (forall i j, (k + 2 <= i < 2 * n)%nat -> (j <= 1)%nat -> def m i j).
Proof.
  intros m1 G0 G1. assert (G : forall i j, (i < 2 * n)%nat -> (j <= 1)%nat -> (j <= i)%nat -> def m1 i j).
  { intros i j Hi Hj Hij. destruct j as [|[|j]]; [apply G0; lia|apply G1; lia|lia]. }
  induction k as [|k IH]; intro Hk.
  - exists m1. split; [reflexivity|]. split; [intros i j Hi Hj; apply G; lia|intros i j Hi Hj; apply G; lia].
  - destruct IH as [m [L [A B]]]; [lia|]. rewrite seq_S, (run_snoc _ _ _ _ _ _ L). cbn beta.
    destruct (inner_def (2 + k) m) with (k := (2 + k - 1)%nat) as [m' [L' [A' B']]]; [lia| | |lia|].
    + intros j Hj. apply A; lia.
    + intros j Hj. apply B; lia.
    + exists m'. split; [exact L'|]. split.
      * intros i j Hi Hj. destruct (Nat.eq_dec i (2 + k)) as [->|N]; [apply A'; lia|]. apply B'. apply A; lia.
      * intros i j Hi Hj. apply B'. apply B; lia.
Qed.

Lemma horner_def : forall m, (forall i, (i < 2 * n)%nat -> def m i i) -> forall k r, (k <= n - 1)%nat ->
  exists r', loop (horner_body F J target z m) (rev (seq 1 k)) r = Some r'.
Proof.
  intros m G. induction k as [|k IH]; intros r Hk; [exists r; reflexivity|].
  rewrite seq_S, rev_app_distr. cbn [rev app loop Nat.add]. unfold horner_body at 1.
  destruct (z_ok (S k)) as [s ->]; [lia|]. destruct (z_ok (S k - 1)%nat) as [t ->]; [lia|].
  destruct (G (2 * S k)%nat) as [x ->]; [lia|]. destruct (G (2 * S k - 1)%nat) as [y ->]; [lia|].
  apply IH. lia.
Qed.
End Rest.

Lemma hermite_defined : exists x, hermite F J target n times samples derivatives fb = Value x.
Proof.
  unfold hermite.
  destruct (Nat.eqb_spec n 0); [lia|]. destruct (Nat.ltb_spec (length times) n); [lia|].
  destruct (Nat.ltb_spec (length samples) n); [lia|]. destruct (Nat.ltb_spec (length derivatives) n); [lia|]. cbn [orb].
  fold lt ls ld. destruct (init_def n) as [m0 [z [-> [Z [G0 G1]]]]]; [lia|].
  destruct (first_def z Z m0 G0 G1 (n - 1)) as [m1 [-> [P0 [P1 P2]]]]; [lia|].
  assert (P : forall i, (1 <= i < 2 * n)%nat -> def m1 i 1).
  { intros i Hi. destruct (Nat.Even_or_Odd i) as [[k ->]|[k ->]]; [apply P2; lia|apply P1; lia]. }
  destruct (outer_def z Z m1 P0 P (2 * n - 2)) as [m2 [-> [A _]]]; [lia|].
  destruct (A (2 * n - 1)%nat (2 * n - 1)%nat) as [r0 ->]; [lia|lia|].
  destruct (horner_def z Z m2) with (k := (n - 1)%nat) (r := r0) as [r Lr]; [intros i Hi; apply A; lia|lia|].
  unfold down. rewrite Lr. destruct (Z 0%nat) as [t0 ->]; [lia|]. destruct (A 0%nat 0%nat) as [d0 ->]; [lia|lia|].
  eexists. reflexivity.
Qed.
End Defined.
