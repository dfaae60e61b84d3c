(** Hermite interpolation, core/include/bertini2/endgames/interpolation.hpp:62-128.
    Points are functions from an index type to the field (component-wise vectors); numbers are exact. *)
From Coq Require Import List Arith Lia ZArith Bool Ring Field.
From Verif Require Import Base Poly StartIndex RKQuad.
Import ListNotations.
Local Open Scope fld_scope.

Section Hermite.
Variable F : fld.
Add Field hf : (f_th F).
Variable J : Type.
Notation X := (J -> F).

Definition xadd (x y : X) : X := fun j => x j + y j.
Definition xsub (x y : X) : X := fun j => x j - y j.
Definition xmul (x : X) (a : F) : X := fun j => x j * a.
Definition xdiv (x : X) (a : F) : X := fun j => x j / a.

(** space_differences and time_differences: entries not yet written are None. *)
Definition mat := nat -> nat -> option X.
Definition vec := nat -> option F.
Definition mset (m : mat) (i j : nat) (x : X) : mat :=
  fun i' j' => if (i' =? i)%nat && (j' =? j)%nat then Some x else m i' j'.
Definition vset (v : vec) (i : nat) (t : F) : vec := fun i' => if (i' =? i)%nat then Some t else v i'.

(** A loop over indices whose body may fail (read outside the container or of an unset entry). *)
Fixpoint loop {S : Type} (body : nat -> S -> option S) (l : list nat) (s : S) : option S :=
  match l with [] => Some s | i :: l' => match body i s with Some s' => loop body l' s' | None => None end end.

(** interpolation.hpp:86-93; [last_s - ii] and the like are unsigned subtractions: below zero is out of
    range. *)
Definition at_back {A : Type} (l : list A) (last i : nat) : option A :=
  if (i <=? last)%nat then nth_error l (last - i) else None.

Definition init_body (times : list F) (samples derivatives : list X) (lt ls ld : nat) (i : nat) (st : mat * vec)
  : option (mat * vec) :=
  let (m, z) := st in
  match at_back samples ls i, at_back derivatives ld i, at_back times lt i with
  | Some x, Some d, Some t =>
      Some (mset (mset (mset m (2 * i) 0 x) (2 * i + 1) 0 x) (2 * i + 1) 1 d,
            vset (vset z (2 * i) t) (2 * i + 1) t)
  | _, _, _ => None
  end.

(** interpolation.hpp:96-100 *)
Definition first_body (z : vec) (i : nat) (m : mat) : option mat :=
  match m (2 * i)%nat 0%nat, m (2 * i - 1)%nat 0%nat, z (2 * i)%nat, z (2 * i - 1)%nat with
  | Some a, Some b, Some s, Some t => Some (mset m (2 * i) 1 (xdiv (xsub a b) (s - t)))
  | _, _, _, _ => None
  end.

(** interpolation.hpp:103-112 *)
Definition diff_body (z : vec) (i j : nat) (m : mat) : option mat :=
  match m i (j - 1)%nat, m (i - 1)%nat (j - 1)%nat, z i, z (i - j)%nat with
  | Some a, Some b, Some s, Some t => Some (mset m i j (xdiv (xsub a b) (s - t)))
  | _, _, _, _ => None
  end.

(** interpolation.hpp:121-124; [down] runs over n-1, ..., 1 *)
Definition horner_body (target : F) (z : vec) (m : mat) (i : nat) (r : X) : option X :=
  match z i, m (2 * i)%nat (2 * i)%nat, z (i - 1)%nat, m (2 * i - 1)%nat (2 * i - 1)%nat with
  | Some t1, Some d1, Some t2, Some d2 =>
      Some (xadd (xmul (xadd (xmul r (target - t1)) d1) (target - t2)) d2)
  | _, _, _, _ => None
  end.
Definition down (n : nat) : list nat := rev (seq 1 (n - 1)).

(** HermiteInterpolateAndSolve, interpolation.hpp:62-128.  [from_back]: ContStart::Back.  Violated asserts, reads outside the
    containers and zero sample points are undefined. *)
Definition hermite (target : F) (n : nat) (times : list F) (samples derivatives : list X) (from_back : bool)
  : outcome X :=
  if (n =? 0)%nat || (length times <? n)%nat || (length samples <? n)%nat || (length derivatives <? n)%nat then UB
  else
    let lt := if from_back then (length times - 1)%nat else (n - 1)%nat in
    let ls := if from_back then (length samples - 1)%nat else (n - 1)%nat in
    let ld := if from_back then (length derivatives - 1)%nat else (n - 1)%nat in
    match loop (init_body times samples derivatives lt ls ld) (seq 0 n) (fun _ _ => None, fun _ => None) with
    | None => UB
    | Some (m0, z) =>
      match loop (first_body z) (seq 1 (n - 1)) m0 with
      | None => UB
      | Some m1 =>
        match loop (fun i m => loop (fun j m => diff_body z i j m) (seq 2 (i - 1)) m) (seq 2 (2 * n - 2)) m1 with
        | None => UB
        | Some m2 =>
          match m2 (2 * n - 1)%nat (2 * n - 1)%nat with
          | None => UB
          | Some r0 =>
            match loop (horner_body target z m2) (down n) r0, z 0%nat, m2 0%nat 0%nat with
            | Some r, Some t0, Some d0 => Value (xadd (xmul r (target - t0)) d0)
            | _, _, _ => UB
            end
          end
        end
      end
    end.

(* ------------------------------------------------------------------ divided differences of polynomials *)
(** E q [z0; ...; zk]: the divided difference of the polynomial q at those nodes. *)
Fixpoint E (q : list F) (ns : list F) : F :=
  match q, ns with
  | [], _ | _, [] => 0
  | c :: q', [x] => c + x * E q' [x]
  | c :: q', x :: ns' => E q' ns' + x * E q' (x :: ns')
  end.

Lemma E_nil : forall q, E q [] = 0. Proof. intros [|c q]; reflexivity. Qed.
Lemma E_one : forall q x, E q [x] = peval q x.
Proof. induction q as [|c q IH]; intro x; cbn [E peval]; [reflexivity|]. rewrite IH. reflexivity. Qed.
Lemma E_cons : forall c q x y ns, E (c :: q) (x :: y :: ns) = E q (y :: ns) + x * E q (x :: y :: ns).
Proof. reflexivity. Qed.
Lemma E_high : forall q ns, (length q < length ns)%nat -> E q ns = 0.
Proof.
  induction q as [|c q IH]; intros ns L; [reflexivity|]. destruct ns as [|x [|y ns]]; cbn [length] in L; [lia|lia|].
  rewrite E_cons, !IH by (cbn [length]; lia). ring.
Qed.

(** The recurrence. *)
Lemma E_rec : forall q x ns z, (z - x) * E q (x :: ns ++ [z]) = E q (ns ++ [z]) - E q (x :: ns).
Proof.
  induction q as [|c q IH]; intros x ns z; [cbn; ring|].
  assert (H : E (c :: q) (x :: ns ++ [z]) = E q (ns ++ [z]) + x * E q (x :: ns ++ [z])).
  { destruct ns; reflexivity. }
  rewrite H. transitivity ((z - x) * E q (ns ++ [z]) + x * ((z - x) * E q (x :: ns ++ [z]))); [ring|]. rewrite IH.
  destruct ns as [|y ns].
  - cbn [app E]. ring.
  - cbn [app]. rewrite (E_cons c q x y ns).
    assert (H2 : E (c :: q) (y :: ns ++ [z]) = E q (ns ++ [z]) + y * E q (y :: ns ++ [z])) by (destruct ns; reflexivity).
    rewrite H2. pose proof (IH y ns z) as I2.
    transitivity ((z - y) * E q (y :: ns ++ [z]) + y * E q (y :: ns ++ [z]) - x * E q (x :: y :: ns)); [ring|].
    rewrite I2. ring.
Qed.

(** Newton's form, one node at a time. *)
Lemma E_newton : forall q t ns z, E q (t :: ns) = E q (ns ++ [z]) + (t - z) * E q (t :: ns ++ [z]).
Proof.
  intros q t ns z. transitivity (E q (ns ++ [z]) - (z - t) * E q (t :: ns ++ [z])); [rewrite E_rec; ring|ring].
Qed.

(** value of the derivative *)
Fixpoint dval (q : list F) (t : F) : F := match q with [] => 0 | a :: q' => peval q' t + t * dval q' t end.
Lemma E_double : forall q x, E q [x; x] = dval q x.
Proof. induction q as [|c q IH]; intro x; [reflexivity|]. rewrite E_cons, IH, E_one. reflexivity. Qed.

(* ------------------------------------------------------------------ the matrix *)
Section Run.
Variables (target : F) (n : nat) (times : list F) (samples derivatives : list X) (from_back : bool).
(** the samples are those of polynomials *)
Variable q : J -> list F.
(** node of the i-th sample used, newest first *)
Variable node : nat -> F.
Hypothesis n_pos : (1 <= n)%nat.
Let lt := if from_back then (length times - 1)%nat else (n - 1)%nat.
Let ls := if from_back then (length samples - 1)%nat else (n - 1)%nat.
Let ld := if from_back then (length derivatives - 1)%nat else (n - 1)%nat.
Hypothesis t_at : forall i, (i < n)%nat -> at_back times lt i = Some (node i).
Variables sample deriv : nat -> X.
Hypothesis s_at : forall i, (i < n)%nat -> at_back samples ls i = Some (sample i).
Hypothesis d_at : forall i, (i < n)%nat -> at_back derivatives ld i = Some (deriv i).
Hypothesis s_poly : forall i j, (i < n)%nat -> sample i j = peval (q j) (node i).
Hypothesis d_poly : forall i j, (i < n)%nat -> deriv i j = dval (q j) (node i).
Hypothesis distinct : forall i i', (i < n)%nat -> (i' < n)%nat -> node i = node i' -> i = i'.

Definition zz (k : nat) : F := node (k / 2).
Definition nodes (i j : nat) : list F := map zz (seq (i - j) (S j)).   (* z_{i-j}, ..., z_i *)
Definition good (m : mat) (i j : nat) : Prop := exists x, m i j = Some x /\ forall c, x c = E (q c) (nodes i j).

Lemma zz_even : forall i, zz (2 * i) = node i.
Proof. intro i. unfold zz. f_equal. rewrite Nat.mul_comm. apply Nat.div_mul. lia. Qed.
Lemma zz_odd : forall i, zz (2 * i + 1) = node i.
Proof. intro i. unfold zz. f_equal. rewrite Nat.add_comm, Nat.mul_comm, Nat.div_add by lia. reflexivity. Qed.
Lemma half_lt : forall k, (k < 2 * n)%nat -> (k / 2 < n)%nat.
Proof. intros k H. apply Nat.div_lt_upper_bound; lia. Qed.
Lemma half_le : forall a b, (a <= b)%nat -> (a / 2 <= b / 2)%nat.
Proof. intros a b H. apply Nat.div_le_mono; lia. Qed.

Lemma zz_neq : forall k k', (k < 2 * n)%nat -> (k + 2 <= k' < 2 * n)%nat -> zz k' - zz k <> 0.
Proof.
  intros k k' H H' Z. assert (Q : node (k' / 2) = node (k / 2)).
  { fold (zz k') (zz k). transitivity (zz k' - zz k + zz k); [ring|]. rewrite Z. ring. }
  apply distinct in Q; [|apply half_lt; lia|apply half_lt; lia].
  assert ((k + 2) / 2 <= k' / 2)%nat by (apply half_le; lia).
  replace (k + 2)%nat with (k + 1 * 2)%nat in H0 by lia. rewrite Nat.div_add in H0 by lia. lia.
Qed.

Lemma mset_eq : forall m i j x, mset m i j x i j = Some x.
Proof. intros. unfold mset. rewrite !Nat.eqb_refl. reflexivity. Qed.
Lemma mset_neq : forall m i j x i' j', i' <> i \/ j' <> j -> mset m i j x i' j' = m i' j'.
Proof.
  intros m i j x i' j' H. unfold mset. destruct (Nat.eqb_spec i' i), (Nat.eqb_spec j' j); cbn; try reflexivity.
  destruct H; contradiction.
Qed.

Lemma good_mset_other : forall m i j x i' j', i' <> i \/ j' <> j -> good m i' j' -> good (mset m i j x) i' j'.
Proof. intros m i j x i' j' H [y [Y1 Y2]]. exists y. rewrite mset_neq by exact H. split; assumption. Qed.
Lemma good_mset_same : forall m i j x, (forall c, x c = E (q c) (nodes i j)) -> good (mset m i j x) i j.
Proof. intros m i j x H. exists x. rewrite mset_eq. split; [reflexivity|exact H]. Qed.

Lemma nodes_0 : forall i, nodes i 0 = [zz i].
Proof. intro i. unfold nodes. rewrite Nat.sub_0_r. reflexivity. Qed.
Lemma nodes_split : forall i j, (1 <= j <= i)%nat ->
  nodes i j = zz (i - j) :: map zz (seq (i - j + 1) (j - 1)) ++ [zz i]
  /\ nodes i (j - 1) = map zz (seq (i - j + 1) (j - 1)) ++ [zz i]
  /\ nodes (i - 1) (j - 1) = zz (i - j) :: map zz (seq (i - j + 1) (j - 1)).
Proof.
  intros i j H. unfold nodes.
  assert (A : seq (i - j + 1) j = seq (i - j + 1) (j - 1) ++ [i]).
  { replace j with (j - 1 + 1)%nat at 2 by lia. rewrite seq_app. cbn [seq]. f_equal. f_equal. lia. }
  split; [|split].
  - cbn [seq map]. f_equal. rewrite <- map_cons || idtac. replace (S (i - j)) with (i - j + 1)%nat by lia.
    rewrite A, map_app. reflexivity.
  - replace (S (j - 1)) with j by lia. replace (i - (j - 1))%nat with (i - j + 1)%nat by lia. rewrite A, map_app. reflexivity.
  - replace (i - 1 - (j - 1))%nat with (i - j)%nat by lia. cbn [seq map]. replace (S (i - j)) with (i - j + 1)%nat by lia. reflexivity.
Qed.

Lemma E_step : forall i j c, (1 <= j <= i)%nat -> zz i - zz (i - j) <> 0 ->
  (E (q c) (nodes i (j - 1)) - E (q c) (nodes (i - 1) (j - 1))) / (zz i - zz (i - j)) = E (q c) (nodes i j).
Proof.
  intros i j c H NZ. destruct (nodes_split i j H) as [A [B C]]. rewrite A, B, C, <- E_rec. field. exact NZ.
Qed.

(* first loop *)
Lemma init_loop : forall k, (k <= n)%nat ->
  exists m z, loop (init_body times samples derivatives lt ls ld) (seq 0 k) (fun _ _ => None, fun _ => None) = Some (m, z)
  /\ (forall i, (i < 2 * k)%nat -> z i = Some (zz i))
  /\ (forall i, (i < 2 * k)%nat -> good m i 0)
  /\ (forall i, (i < k)%nat -> good m (2 * i + 1) 1).
Proof.
  assert (LA : forall (l : list nat) (i : nat) (s0 s1 : mat * vec),
    loop (init_body times samples derivatives lt ls ld) l s0 = Some s1 ->
    loop (init_body times samples derivatives lt ls ld) (l ++ [i]) s0 = init_body times samples derivatives lt ls ld i s1).
  { induction l as [|a l IH]; intros i s0 s1 HL; cbn [loop app] in *.
    - injection HL as <-. destruct (init_body _ _ _ _ _ _ i s0); reflexivity.
    - destruct (init_body _ _ _ _ _ _ a s0) as [s2|]; [|discriminate]. exact (IH i s2 s1 HL). }
  induction k as [|k IH]; intro Hk.
  - eexists. eexists. split; [reflexivity|]. repeat split; intros; lia.
  - destruct IH as [m [z [L [Z [G0 G1]]]]]; [lia|].
    rewrite seq_S. cbn [Nat.add]. rewrite (LA _ k _ _ L). cbn [init_body]. rewrite t_at, s_at, d_at by lia.
    eexists. eexists. split; [reflexivity|]. split; [|split].
    + intros i Hi. unfold vset. destruct (Nat.eqb_spec i (2 * k + 1)) as [->|N1]; [rewrite zz_odd; reflexivity|].
      destruct (Nat.eqb_spec i (2 * k)) as [->|N2]; [rewrite zz_even; reflexivity|]. apply Z. lia.
    + intros i Hi. apply good_mset_other; [right; lia|].
      destruct (Nat.eq_dec i (2 * k + 1)) as [->|N1].
      { apply good_mset_same. intro c. rewrite nodes_0, E_one, zz_odd. apply s_poly. lia. }
      apply good_mset_other; [left; lia|].
      destruct (Nat.eq_dec i (2 * k)) as [->|N2].
      { apply good_mset_same. intro c. rewrite nodes_0, E_one, zz_even. apply s_poly. lia. }
      apply good_mset_other; [left; lia|]. apply G0. lia.
    + intros i Hi. destruct (Nat.eq_dec i k) as [->|N].
      * apply good_mset_same. intro c. unfold nodes. replace (2 * k + 1 - 1)%nat with (2 * k)%nat by lia.
        cbn [seq map]. replace (S (2 * k)) with (2 * k + 1)%nat by lia. rewrite zz_odd, zz_even, E_double. apply d_poly. lia.
      * repeat (apply good_mset_other; [left; lia|]). apply G1. lia.
Qed.

Section Rest.
Variable z : vec.
Hypothesis z_ok : forall i, (i < 2 * n)%nat -> z i = Some (zz i).

Lemma loop_snoc : forall {S : Type} (body : nat -> S -> option S) l i s0 s1,
  loop body l s0 = Some s1 -> loop body (l ++ [i]) s0 = body i s1.
Proof.
  intros S body. induction l as [|a l IH]; intros i s0 s1 HL; cbn [loop app] in *.
  - injection HL as <-. destruct (body i s0); reflexivity.
  - destruct (body a s0) as [s2|]; [|discriminate]. exact (IH i s2 s1 HL).
Qed.

Lemma first_loop : forall m0, (forall i, (i < 2 * n)%nat -> good m0 i 0) ->
  (forall i, (i < n)%nat -> good m0 (2 * i + 1) 1) ->
  forall k, (k <= n - 1)%nat -> exists m, loop (first_body z) (seq 1 k) m0 = Some m
  /\ (forall i, (i < 2 * n)%nat -> good m i 0) /\ (forall i, (i < n)%nat -> good m (2 * i + 1) 1)
  /\ (forall i, (1 <= i <= k)%nat -> good m (2 * i) 1).
Proof.
  intros m0 G0 G1. induction k as [|k IH]; intro Hk.
  - exists m0. split; [reflexivity|]. split; [exact G0|]. split; [exact G1|]. intros; lia.
  - destruct IH as [m [L [A [B C]]]]; [lia|]. rewrite seq_S, (loop_snoc _ _ _ _ _ L). cbn [Nat.add].
    unfold first_body. destruct (A (2 * S k)%nat) as [x [-> Hx]]; [lia|]. destruct (A (2 * S k - 1)%nat) as [y [-> Hy]]; [lia|].
    rewrite !z_ok by lia. eexists. split; [reflexivity|]. split; [|split].
    + intros i Hi. apply good_mset_other; [right; lia|]. apply A. exact Hi.
    + intros i Hi. apply good_mset_other; [left; lia|]. apply B. exact Hi.
    + intros i Hi. destruct (Nat.eq_dec i (S k)) as [->|N].
      * apply good_mset_same. intro c. unfold xdiv, xsub. rewrite Hx, Hy. apply (E_step (2 * S k) 1 c); [lia|].
        replace (2 * S k - 1)%nat with (2 * k + 1)%nat by lia. rewrite zz_even, zz_odd. intro Z.
        assert (Q : node (S k) = node k) by (transitivity (node (S k) - node k + node k); [ring|rewrite Z; ring]).
        apply distinct in Q; lia.
      * apply good_mset_other; [left; lia|]. apply C. lia.
Qed.

Lemma first_all : forall m, (forall i, (i < n)%nat -> good m (2 * i + 1) 1) ->
  (forall i, (1 <= i <= n - 1)%nat -> good m (2 * i) 1) -> forall i, (1 <= i < 2 * n)%nat -> good m i 1.
Proof.
  intros m A B i Hi. destruct (Nat.Even_or_Odd i) as [[k ->]|[k ->]]; [apply B; lia|apply A; lia].
Qed.

Lemma inner_loop : forall i m0, (2 <= i < 2 * n)%nat ->
  (forall j, (1 <= j <= i - 1)%nat -> good m0 (i - 1) j) -> (forall j, (j <= 1)%nat -> good m0 i j) ->
  forall k, (k <= i - 1)%nat -> exists m, loop (fun j m => diff_body z i j m) (seq 2 k) m0 = Some m
    /\ (forall j, (j <= k + 1)%nat -> good m i j) /\ (forall i' j, i' <> i -> m i' j = m0 i' j).
Proof.
  intros i m0 Hi G1 G0. induction k as [|k IH]; intro Hk.
  - exists m0. split; [reflexivity|]. split; [|reflexivity]. intros j Hj. apply G0. lia.
  - destruct IH as [m [L [A B]]]; [lia|]. rewrite seq_S, (loop_snoc _ _ _ _ _ L). cbn [Nat.add].
    unfold diff_body. destruct (A (S (S k) - 1)%nat) as [x [-> Hx]]; [lia|].
    destruct (G1 (S (S k) - 1)%nat) as [y [Hy0 Hy]]; [lia|]. rewrite (B (i - 1)%nat) by lia. rewrite Hy0.
    rewrite !z_ok by lia. eexists. split; [reflexivity|]. split.
    + intros j Hj. destruct (Nat.eq_dec j (S (S k))) as [->|N].
      * apply good_mset_same. intro c. unfold xdiv, xsub. rewrite Hx, Hy. apply E_step; [lia|]. apply zz_neq; lia.
      * apply good_mset_other; [right; lia|]. apply A. lia.
    + intros i' j N. rewrite mset_neq by (left; exact N). apply B. exact N.
Qed.

Lemma outer_loop : forall m1, (forall i, (i < 2 * n)%nat -> good m1 i 0) -> (forall i, (1 <= i < 2 * n)%nat -> good m1 i 1) ->
  forall k, (k <= 2 * n - 2)%nat ->
  exists m, loop (fun i m => loop (fun j m => diff_body z i j m) (seq 2 (i - 1)) m) (seq 2 k) m1 = Some m
    /\ (forall i j, (i < k + 2)%nat -> (j <= i)%nat -> good m i j)
    /\ (forall i j, (k + 2 <= i < 2 * n)%nat -> (j <= 1)%nat -> good m i j).
Proof.
  intros m1 G0 G1. assert (G : forall i j, (i < 2 * n)%nat -> (j <= 1)%nat -> (j <= i)%nat -> good m1 i j).
  { intros i j Hi Hj Hij. destruct j as [|[|j]]; [apply G0; lia|apply G1; lia|lia]. }
  induction k as [|k IH]; intro Hk.
  - exists m1. split; [reflexivity|]. split; [intros i j Hi Hj; apply G; lia|intros i j Hi Hj; apply G; lia].
  - destruct IH as [m [L [A B]]]; [lia|]. rewrite seq_S, (loop_snoc _ _ _ _ _ L). cbn beta.
    destruct (inner_loop (2 + k) m) with (k := (2 + k - 1)%nat) as [m' [L' [A' B']]]; [lia| | |lia|].
    + intros j Hj. apply A; lia.
    + intros j Hj. apply B; lia.
    + exists m'. split; [exact L'|]. split.
      * intros i j Hi Hj. destruct (Nat.eq_dec i (2 + k)) as [->|N]; [apply A'; lia|].
        destruct (A i j) as [x [E1 E2]]; [lia|lia|]. exists x. rewrite B' by lia. split; assumption.
      * intros i j Hi Hj. destruct (B i j) as [x [E1 E2]]; [lia|lia|]. exists x. rewrite B' by lia. split; assumption.
Qed.

(** What the last loop computes: Horner's scheme with the nodes it uses. *)
Definition dk (c : J) (k : nat) : F := E (q c) (nodes k k).
Fixpoint horner_value (c : J) (k : nat) (r : F) : F :=   (* iterations k, k-1, ..., 1 *)
  match k with
  | O => r
  | S k' => horner_value c k' ((r * (target - zz k) + dk c (2 * k)) * (target - zz (k - 1)) + dk c (2 * k - 1))
  end.

Lemma horner_loop : forall m, (forall i, (i < 2 * n)%nat -> good m i i) -> forall k r, (k <= n - 1)%nat ->
  exists r', loop (horner_body target z m) (rev (seq 1 k)) r = Some r' /\ forall c, r' c = horner_value c k (r c).
Proof.
  intros m G. induction k as [|k IH]; intros r Hk.
  - exists r. split; reflexivity.
  - rewrite seq_S, rev_app_distr. cbn [rev app loop Nat.add]. unfold horner_body at 1.
    rewrite !z_ok by lia. destruct (G (2 * S k)%nat) as [x [-> Hx]]; [lia|].
    destruct (G (2 * S k - 1)%nat) as [y [-> Hy]]; [lia|].
    destruct (IH (xadd (xmul (xadd (xmul r (target - zz (S k))) x) (target - zz (S k - 1))) y)) as [r' [L H]]; [lia|].
    exists r'. split; [exact L|]. intro c. rewrite H. cbn [horner_value]. f_equal.
    unfold xadd, xmul. rewrite Hx, Hy. reflexivity.
Qed.
End Rest.

Definition hermite_value (c : J) : F :=
  horner_value c (n - 1) (dk c (2 * n - 1)) * (target - zz 0) + dk c 0.

Lemma hermite_runs : (n <= length times)%nat -> (n <= length samples)%nat -> (n <= length derivatives)%nat ->
  exists x, hermite target n times samples derivatives from_back = Value x /\ forall c, x c = hermite_value c.
Proof.
  intros Lt Ls Ld. unfold hermite.
  destruct (Nat.eqb_spec n 0); [lia|]. destruct (Nat.ltb_spec (length times) n); [lia|].
  destruct (Nat.ltb_spec (length samples) n); [lia|]. destruct (Nat.ltb_spec (length derivatives) n); [lia|]. cbn [orb].
  fold lt ls ld. destruct (init_loop n) as [m0 [z [-> [Z [G0 G1]]]]]; [lia|].
  destruct (first_loop z Z m0 G0 G1 (n - 1)) as [m1 [-> [P0 [P1 P2]]]]; [lia|].
  destruct (outer_loop z Z m1 P0 (first_all m1 P1 P2) (2 * n - 2)) as [m2 [-> [A _]]]; [lia|].
  destruct (A (2 * n - 1)%nat (2 * n - 1)%nat) as [r0 [-> Hr0]]; [lia|lia|].
  destruct (horner_loop z Z m2) with (k := (n - 1)%nat) (r := r0) as [r [Lr Hr]]; [intros i Hi; apply A; lia|lia|].
  unfold down. rewrite Lr. rewrite (Z 0%nat) by lia. destruct (A 0%nat 0%nat) as [d0 [-> Hd0]]; [lia|lia|].
  eexists. split; [reflexivity|]. intro c. unfold xadd, xmul, hermite_value. rewrite Hr, Hd0.
  rewrite Hr0. reflexivity.
Qed.

(* ------------------------------------------------------------------ what it returns *)
Lemma nodes_diag : forall k, nodes k k = map zz (seq 0 (S k)).
Proof. intro k. unfold nodes. rewrite Nat.sub_diag. reflexivity. Qed.

Lemma newton_step : forall c k, E (q c) (target :: map zz (seq 0 k))
  = dk c k + (target - zz k) * E (q c) (target :: map zz (seq 0 (S k))).
Proof.
  intros c k. unfold dk. rewrite nodes_diag, seq_S, map_app. cbn [map Nat.add]. apply E_newton.
Qed.

Lemma dk_high : forall c k, (length (q c) <= k)%nat -> dk c k = 0.
Proof. intros c k H. unfold dk. apply E_high. rewrite nodes_diag, map_length, seq_length. lia. Qed.

Lemma horner_high : forall c k r, (length (q c) <= 3)%nat -> (2 <= k)%nat -> r = 0 ->
  horner_value c k r = horner_value c 1 0.
Proof.
  intros c k. induction k as [|k IH]; intros r L H ->; [lia|]. destruct (Nat.eq_dec k 1) as [->|N].
  - change (horner_value c 2 0) with (horner_value c 1 ((0 * (target - zz 2) + dk c (2 * 2)) * (target - zz (2 - 1)) + dk c (2 * 2 - 1))).
    rewrite !dk_high by lia. f_equal. ring.
  - cbn [horner_value]. rewrite !dk_high by lia. apply IH; [exact L|lia|ring].
Qed.

(** Exact up to degree two (and up to degree one with a single sample). *)
Lemma hermite_exact : forall c, (length (q c) <= 3)%nat -> (length (q c) <= 2 * n)%nat ->
  hermite_value c = peval (q c) target.
Proof.
  intros c L L2. rewrite <- E_one. change [target] with (target :: map zz (seq 0 0)). rewrite (newton_step c 0).
  rewrite (newton_step c 1). unfold hermite_value.
  assert (Z1 : zz 1 = zz 0) by reflexivity.
  destruct (Nat.eq_dec n 1) as [E1|Nn].
  - rewrite E1. cbn [Nat.sub Nat.mul Nat.add horner_value]. rewrite (E_high (q c)) by (rewrite seq_S; cbn [length map]; rewrite map_length, app_length, seq_length; cbn [length]; lia).
    ring.
  - rewrite (newton_step c 2). rewrite (E_high (q c) (target :: map zz (seq 0 3))) by (cbn [length]; rewrite map_length, seq_length; lia).
    assert (H : horner_value c (n - 1) (dk c (2 * n - 1)) = horner_value c 1 0).
    { destruct (Nat.eq_dec n 2) as [E2|N3].
      - rewrite E2. cbn [Nat.sub Nat.mul Nat.add]. rewrite (dk_high c 3) by lia. reflexivity.
      - apply horner_high; [exact L|lia|]. apply dk_high. lia. }
    rewrite H. cbn [horner_value Nat.mul Nat.add Nat.sub]. rewrite Z1. ring.
Qed.

(** For a cubic the answer is off by its leading coefficient times (target - newest)^2 times the
    distance of the two newest sample times. *)
Lemma horner_cubic : forall c k r, (length (q c) <= 4)%nat -> (2 <= k)%nat -> r = 0 ->
  horner_value c k r = horner_value c 1 (dk c 3).
Proof.
  intros c k. induction k as [|k IH]; intros r L H ->; [lia|]. destruct (Nat.eq_dec k 1) as [->|N].
  - change (horner_value c 2 0) with (horner_value c 1 ((0 * (target - zz 2) + dk c (2 * 2)) * (target - zz (2 - 1)) + dk c (2 * 2 - 1))).
    rewrite (dk_high c (2 * 2)) by lia. cbn [Nat.mul Nat.add Nat.sub]. f_equal. ring.
  - cbn [horner_value]. rewrite !dk_high by lia. apply IH; [exact L|lia|ring].
Qed.

Lemma E_cubic_lead : forall a0 a1 a2 a3 w x y z, E [a0; a1; a2; a3] [w; x; y; z] = a3.
Proof. intros. cbn. ring. Qed.

Lemma hermite_cubic : forall c a0 a1 a2 a3, (2 <= n)%nat -> q c = [a0; a1; a2; a3] ->
  hermite_value c = peval (q c) target
    + a3 * ((target - node 0) * (target - node 0)) * (node 1 - node 0).
Proof.
  intros c a0 a1 a2 a3 Hn Q. assert (L : length (q c) = 4%nat) by (rewrite Q; reflexivity).
  rewrite <- E_one. change [target] with (target :: map zz (seq 0 0)). rewrite (newton_step c 0), (newton_step c 1), (newton_step c 2), (newton_step c 3).
  rewrite (E_high (q c) (target :: map zz (seq 0 4))) by (cbn [length]; rewrite map_length, seq_length; lia).
  assert (D3 : dk c 3 = a3). { unfold dk. rewrite nodes_diag, Q. cbn [seq map]. apply E_cubic_lead. }
  unfold hermite_value. assert (H : horner_value c (n - 1) (dk c (2 * n - 1)) = horner_value c 1 (dk c 3)).
  { destruct (Nat.eq_dec n 2) as [E2|N3]; [rewrite E2; reflexivity|]. apply horner_cubic; [lia|lia|]. apply dk_high. lia. }
  rewrite H. cbn [horner_value Nat.mul Nat.add Nat.sub]. rewrite D3.
  assert (Z0 : zz 0 = node 0) by reflexivity. assert (Z1 : zz 1 = node 0) by reflexivity. assert (Z2 : zz 2 = node 1) by reflexivity.
  rewrite Z0, Z1, Z2. ring.
Qed.

(** The coefficients the matrix provides do define the interpolant: with them in Newton's form every
    polynomial of degree at most 2n-1 is reproduced. *)
Fixpoint newton_form (c : J) (k m : nat) : F :=   (* d_k + (t - z_k)(d_{k+1} + ...), m terms *)
  match m with O => 0 | S m' => dk c k + (target - zz k) * newton_form c (S k) m' end.
Lemma newton_form_exact : forall c m k, (length (q c) <= k + m)%nat ->
  newton_form c k m = E (q c) (target :: map zz (seq 0 k)).
Proof.
  intro c. induction m as [|m IH]; intros k L; cbn [newton_form].
  - symmetry. apply E_high. cbn [length]. rewrite map_length, seq_length. lia.
  - rewrite IH by lia. symmetry. apply newton_step.
Qed.
End Run.
End Hermite.

(* ------------------------------------------------------------------ containers *)
Lemma dval_pderiv : forall (F : fld) p t, peval (pderiv F p) t = dval F p t.
Proof. exact pderiv_dev. Qed.

Section Path.
Variable F : fld.
Add Field hf2 : (f_th F).
Variable J : Type.
Variables (target : F) (n : nat) (times : list F) (from_back : bool) (q : J -> list F).
Hypothesis n_pos : (1 <= n)%nat.
Hypothesis enough : (n <= length times)%nat.
Hypothesis nodup : NoDup times.

Definition newest_index : nat := if from_back then (length times - 1)%nat else (n - 1)%nat.
Definition path_samples : list (J -> F) := map (fun t j => peval (q j) t) times.
Definition path_derivatives : list (J -> F) := map (fun t j => peval (pderiv F (q j)) t) times.
Let node (i : nat) : F := nth (newest_index - i) times 0.

Lemma newest_bound : (n - 1 <= newest_index < length times)%nat.
Proof. unfold newest_index. destruct from_back; lia. Qed.

Lemma node_at : forall i, (i < n)%nat -> at_back times newest_index i = Some (node i).
Proof.
  intros i Hi. pose proof newest_bound. unfold at_back. destruct (Nat.leb_spec i newest_index); [|lia].
  unfold node. apply nth_error_nth'. lia.
Qed.
Lemma map_at : forall (f : F -> J -> F) i, (i < n)%nat -> at_back (map f times) newest_index i = Some (f (node i)).
Proof.
  intros f i Hi. pose proof newest_bound. pose proof (node_at i Hi) as E. unfold at_back in *.
  destruct (Nat.leb_spec i newest_index); [|lia]. apply map_nth_error. exact E.
Qed.
Lemma node_distinct : forall i i', (i < n)%nat -> (i' < n)%nat -> node i = node i' -> i = i'.
Proof.
  intros i i' Hi Hi' E. pose proof newest_bound. unfold node in E.
  apply (proj1 (NoDup_nth times 0) nodup) in E; lia.
Qed.

Lemma path_run : exists x, hermite F J target n times path_samples path_derivatives from_back = Value x
  /\ forall c, x c = hermite_value F J target n q node c.
Proof.
  assert (LS : length path_samples = length times) by apply map_length.
  assert (LD : length path_derivatives = length times) by apply map_length.
  apply (hermite_runs F J target n times path_samples path_derivatives from_back q node n_pos) with
    (sample := fun i j => peval (q j) (node i)) (deriv := fun i j => peval (pderiv F (q j)) (node i)).
  - exact node_at.
  - rewrite LS. exact (map_at (fun t j => peval (q j) t)).
  - rewrite LD. exact (map_at (fun t j => peval (pderiv F (q j)) t)).
  - reflexivity.
  - intros. apply dval_pderiv.
  - exact node_distinct.
  - exact enough.
  - rewrite LS. exact enough.
  - rewrite LD. exact enough.
Qed.

Lemma path_exact : (forall c, (length (q c) <= Nat.min 3 (2 * n))%nat) ->
  exists x, hermite F J target n times path_samples path_derivatives from_back = Value x
  /\ forall c, x c = peval (q c) target.
Proof.
  intro L. destruct path_run as [x [E H]]. exists x. split; [exact E|]. intro c. rewrite H.
  specialize (L c). apply (hermite_exact F J target n times path_samples path_derivatives from_back q node n_pos); lia.
Qed.

Lemma path_cubic : (2 <= n)%nat -> exists x, hermite F J target n times path_samples path_derivatives from_back = Value x
  /\ forall c a0 a1 a2 a3, q c = [a0; a1; a2; a3] ->
     x c = peval (q c) target
       + a3 * ((target - nth newest_index times 0) * (target - nth newest_index times 0))
         * (nth (newest_index - 1) times 0 - nth newest_index times 0).
Proof.
  intro N2. destruct path_run as [x [E H]]. exists x. split; [exact E|]. intros c a0 a1 a2 a3 Q. rewrite H.
  pose proof (hermite_cubic F J target n times path_samples path_derivatives from_back q node n_pos c a0 a1 a2 a3 N2 Q) as HC.
  unfold node in HC at 2 3 4 5. rewrite Nat.sub_0_r in HC. exact HC.
Qed.

Lemma path_cubic_wrong : (2 <= n)%nat -> target <> nth newest_index times 0 ->
  forall c a0 a1 a2 a3, q c = [a0; a1; a2; a3] -> a3 <> 0 ->
  exists x, hermite F J target n times path_samples path_derivatives from_back = Value x /\ x c <> peval (q c) target.
Proof.
  intros N2 NT c a0 a1 a2 a3 Q NA. destruct (path_cubic N2) as [x [E H]]. exists x. split; [exact E|].
  rewrite (H c a0 a1 a2 a3 Q). intro W. pose proof newest_bound as NB.
  assert (Z : a3 * ((target - nth newest_index times 0) * (target - nth newest_index times 0))
         * (nth (newest_index - 1) times 0 - nth newest_index times 0) = 0).
  { match goal with |- ?a = _ => transitivity (peval (q c) target + a - peval (q c) target); [ring|] end. rewrite W. ring. }
  revert Z. apply fmul_neq0; [apply fmul_neq0; [exact NA|apply fmul_neq0]|].
  - intro Z. apply NT. transitivity (target - nth newest_index times 0 + nth newest_index times 0); [ring|]. rewrite Z. ring.
  - intro Z. apply NT. transitivity (target - nth newest_index times 0 + nth newest_index times 0); [ring|]. rewrite Z. ring.
  - intro Z. assert (EQ : nth (newest_index - 1) times 0 = nth newest_index times 0).
    { transitivity (nth (newest_index - 1) times 0 - nth newest_index times 0 + nth newest_index times 0); [ring|]. rewrite Z. ring. }
    apply (proj1 (NoDup_nth times 0) nodup) in EQ; lia.
Qed.
End Path.
