(** The lists of solutions and the data files of the zero dimensional solver.
    Models core/include/bertini2/nag_algorithms/output.hpp:71-115 and 224-280. *)
From Coq Require Import List ZArith Lia Reals Lra Bool Arith Sorted.
From Coquelicot Require Import Complex.
From Verif Require Import Base Newton Endgame EgSeries Midpath ZeroDim ZeroDimEx.
Import ListNotations.
Local Open Scope R_scope.

Section Output.
Context {V : Type}.
(** DehomogenizePoint (system.hpp:1286-1302) for points with as many coordinates as the system has variables; a path
    without end point has an empty vector, for which it throws *)
Variable dehom : (nat -> C) -> V.

Definition dehomogenize (p : option (nat -> C)) : option V := option_map dehom p.

(** output.hpp:224-253, NonsingularSolutions::Extract; the outer [None] of the result is the exception, and an access
    out of range of the metadata *)
Fixpoint extract (keep : metadata -> bool) (pts : list (option (nat -> C))) (ms : list metadata) : option (list V) :=
  match pts, ms with
  | [], _ => Some []
  | _ :: _, [] => None
  | p :: pts', m :: ms' =>
      if keep m
      then match dehomogenize p with
           | None => None
           | Some v => option_map (cons v) (extract keep pts' ms')
           end
      else extract keep pts' ms'
  end.
Definition nonsingular_solutions (s : solver) : option (list V) :=
  extract (fun m => is_success (eg_success m) && (multiplicity m =? 1)%Z) (final s) (meta s).
(** output.hpp:256-280, AllSolutions::Extract *)
Definition all_solutions (s : solver) : option (list V) := extract (fun _ => true) (final s) (meta s).

Lemma extract_spec keep pts ms : length pts = length ms ->
  (forall i m, nth_error ms i = Some m -> keep m = true -> exists x, nth_error pts i = Some (Some x)) ->
  exists idx vs, extract keep pts ms = Some vs /\
    idx = filter (fun i => match nth_error ms i with Some m => keep m | None => false end) (seq 0 (length ms)) /\
    Forall2 (fun i v => exists x, nth_error pts i = Some (Some x) /\ v = dehom x) idx vs.
Proof.
  intros L H.
  assert (G : forall pts ms k, length pts = length ms ->
    (forall i m, nth_error ms i = Some m -> keep m = true -> exists x, nth_error pts i = Some (Some x)) ->
    exists vs, extract keep pts ms = Some vs /\
      Forall2 (fun i v => exists x, nth_error pts (i - k) = Some (Some x) /\ v = dehom x)
        (filter (fun i => match nth_error ms (i - k) with Some m => keep m | None => false end) (seq k (length ms))) vs).
  { clear. induction pts as [|p pts IH]; intros [|m ms] k L H; try discriminate L.
    - exists []. split; [reflexivity|constructor].
    - cbn [extract length seq filter]. rewrite Nat.sub_diag. cbn [nth_error].
      destruct (IH ms (S k)) as (vs & E & F).
      + cbn [length] in L. lia.
      + intros i m' Hm Km. exact (H (S i) m' Hm Km).
      + assert (Q : forall i, In i (seq (S k) (length ms)) -> (i - k = S (i - S k))%nat) by (intros i Hi; apply in_seq in Hi; lia).
        assert (Eq : filter (fun i => match nth_error (m :: ms) (i - k) with Some m0 => keep m0 | None => false end) (seq (S k) (length ms))
                   = filter (fun i => match nth_error ms (i - S k) with Some m0 => keep m0 | None => false end) (seq (S k) (length ms))).
        { apply filter_ext_in. intros i Hi. rewrite (Q i Hi). reflexivity. }
        rewrite Eq.
        assert (F' : Forall2 (fun i v => exists x, nth_error (p :: pts) (i - k) = Some (Some x) /\ v = dehom x)
          (filter (fun i => match nth_error ms (i - S k) with Some m0 => keep m0 | None => false end) (seq (S k) (length ms))) vs).
        { assert (I : forall i, In i (filter (fun i => match nth_error ms (i - S k) with Some m0 => keep m0 | None => false end) (seq (S k) (length ms))) ->
                      (i - k = S (i - S k))%nat) by (intros i Hi; apply filter_In in Hi; apply Q; apply Hi).
          revert F I. generalize (filter (fun i => match nth_error ms (i - S k) with Some m0 => keep m0 | None => false end) (seq (S k) (length ms))).
          clear E. intros l F. induction F as [|i v l vs' (x & Hx & Hv) F IHF]; intros I; [constructor|].
          constructor; [|apply IHF; intros j Hj; apply I; now right]. exists x. rewrite (I i (or_introl eq_refl)). auto. }
        destruct (keep m) eqn:K.
        * destruct (H O m eq_refl K) as [x Hx]. cbn [nth_error] in Hx. injection Hx as ->. cbn [dehomogenize option_map].
          exists (dehom x :: vs). rewrite E. split; [reflexivity|]. constructor; [|exact F'].
          exists x. rewrite Nat.sub_diag. split; reflexivity.
        * exists vs. split; [exact E|exact F']. }
  destruct (G pts ms O L H) as (vs & E & F).
  assert (Eq : filter (fun i => match nth_error ms (i - 0) with Some m0 => keep m0 | None => false end) (seq 0 (length ms))
             = filter (fun i => match nth_error ms i with Some m0 => keep m0 | None => false end) (seq 0 (length ms)))
    by (apply filter_ext; intros i; now rewrite Nat.sub_0_r).
  rewrite Eq in F.
  eexists _, vs. split; [exact E|]. split; [reflexivity|].
  clear -F. induction F as [|i v l vs' (x & Hx & Hv) F IH]; constructor; [|exact IH].
  exists x. rewrite Nat.sub_0_r in Hx. auto.
Qed.

Lemma extract_throws keep pts : forall ms i m, nth_error ms i = Some m -> keep m = true ->
  nth_error pts i = Some None -> extract keep pts ms = None.
Proof.
  induction pts as [|p pts IH]; intros [|m0 ms] [|i] m Hm Hk Hp; try discriminate; cbn [nth_error] in *; cbn [extract].
  - injection Hm as ->. injection Hp as ->. rewrite Hk. reflexivity.
  - rewrite (IH ms i m Hm Hk Hp). destruct (keep m0); [|reflexivity]. destruct (dehomogenize p); reflexivity.
Qed.

(** ** The data files *)
(** MainData, output.hpp:71-96, and RawData, output.hpp:98-113: which paths are written, with what.  The numbers and the
    text of the systems are left out; [None] for an index that was never set *)
Definition written (s : solver) : list (nat * metadata * option (nat -> C)) :=
  flat_map (fun i => match nth_error (meta s) i with
                     | Some m => match eg_success m with
                                 | NeverStarted => []
                                 | _ => [(i, m, nth i (final s) None)]
                                 end
                     | None => []
                     end) (seq 0 (length (final s))).
End Output.

(** ** After Solve *)
Section AfterSolve.
Context {V : Type}.
Variable dehom : (nat -> C) -> V.
Variables (nv n : nat) (start_point : nat -> nat -> C)
    (track endgame : nat -> settings -> (nat -> C) -> (nat -> C) * code * R)
    (newton_before newton_during factor same_final same_mid : R) (max_attempts : nat) (t : settings).
Local Notation solve := (solve nv n start_point track endgame newton_before newton_during factor same_final same_mid max_attempts).
Local Notation s' := (solve (new_solver t)).

(** the end point of path i is further than the tolerance from that of every other successful path *)
Definition isolated (s : solver) (i : nat) : Prop :=
  exists m x, nth_error (meta s) i = Some m /\ eg_success m = Success /\ nth_error (final s) i = Some (Some x) /\
    forall j mj y, j <> i -> nth_error (meta s) j = Some mj -> eg_success mj = Success ->
      nth_error (final s) j = Some (Some y) -> same_final <= distance nv x y.

Lemma first_facts : reachable_ok n s' /\ sized n s' /\
  (forall i, (i < n)%nat -> outcome_of nv n start_point track endgame same_final (new_solver t) s' i).
Proof.
  destruct (solve_facts nv n start_point track endgame newton_before newton_during factor same_final same_mid max_attempts
    (new_solver t) (new_ok n t)) as (A & B & _ & D). auto.
Qed.

Lemma first_isolated i : 0 < same_final -> (i < n)%nat ->
  (exists m, nth_error (meta s') i = Some m /\ is_success (eg_success m) && (multiplicity m =? 1)%Z = true) <-> isolated s' i.
Proof.
  intros Pos Hi.
  destruct (first_multiplicity nv n start_point track endgame newton_before newton_during factor same_final same_mid max_attempts
    t i Pos Hi) as (m & l & Hm & Nd & Hl & Hs & _).
  destruct first_facts as ((_ & _ & He & _) & (Sm & _ & Sf) & _).
  split.
  - intros (m' & Hm' & K). assert (m' = m) by congruence. subst m'. apply andb_prop in K. destruct K as [K1 K2].
    apply is_success_spec in K1. apply Z.eqb_eq in K2. rewrite (Hs K1) in K2.
    destruct (He i m Hm K1) as [x Hx]. exists m, x. split; [exact Hm|]. split; [exact K1|]. split; [exact Hx|].
    intros j mj y Nj Hmj Sj Hy. destruct (Rle_dec same_final (distance nv x y)) as [L|L]; [exact L|]. exfalso.
    apply Rnot_le_lt in L.
    assert (I1 : In i l).
    { apply Hl. split; [exact Hi|]. exists m, x, x. repeat split; auto. rewrite distance_same. exact Pos. }
    assert (I2 : In j l).
    { apply Hl. split; [rewrite <- Sm; apply nth_error_Some; congruence|]. exists mj, x, y. auto. }
    destruct l as [|a [|b l]]; cbn [length] in K2; try lia. destruct I1 as [->|[]], I2 as [->|[]]. now apply Nj.
  - intros (m' & x & Hm' & K1 & Hx & Iso). assert (m' = m) by congruence. subst m'. exists m. split; [exact Hm|].
    rewrite (proj2 (is_success_spec _) K1). cbn [andb]. apply Z.eqb_eq. rewrite (Hs K1).
    assert (I1 : In i l).
    { apply Hl. split; [exact Hi|]. exists m, x, x. repeat split; auto. rewrite distance_same. exact Pos. }
    assert (All : forall j, In j l -> j = i).
    { intros j Hj. apply Hl in Hj. destruct Hj as (_ & mj & x' & y & Hmj & Sj & Hx' & Hy & D).
      assert (x' = x) by congruence. subst x'. destruct (Nat.eq_dec j i) as [E|E]; [exact E|].
      specialize (Iso j mj y E Hmj Sj Hy). lra. }
    destruct l as [|a [|b l]]; [destruct I1|reflexivity|]. exfalso.
    assert (a = i) by (apply All; now left). assert (b = i) by (apply All; right; now left). subst.
    inversion Nd as [|? ? N _]. apply N. now left.
Qed.

Lemma nonsingular_spec : 0 < same_final -> exists idx vs, nonsingular_solutions dehom s' = Some vs /\
  (exists P, idx = filter P (seq 0 n)) /\ (forall i, In i idx <-> (i < n)%nat /\ isolated s' i) /\
  Forall2 (fun i v => exists x, nth_error (final s') i = Some (Some x) /\ v = dehom x) idx vs.
Proof.
  intros Pos. destruct first_facts as ((_ & _ & He & _) & (Sm & _ & Sf) & _).
  set (keep := fun m => is_success (eg_success m) && (multiplicity m =? 1)%Z).
  destruct (extract_spec dehom keep (final s') (meta s')) as (idx & vs & E & Ei & F).
  - congruence.
  - intros i m Hm K. apply (He i m Hm). unfold keep in K. apply andb_prop in K. apply is_success_spec. apply K.
  - exists idx, vs. split; [exact E|]. rewrite Sm in Ei. split; [eexists; exact Ei|]. split; [|exact F].
    intros i. rewrite Ei, filter_In, in_seq. split.
    + intros [Hi K]. split; [lia|]. apply first_isolated; [exact Pos|lia|].
      destruct (nth_error (meta s') i) as [m|]; [|discriminate]. exists m. auto.
    + intros [Hi K]. split; [lia|]. apply first_isolated in K; [|exact Pos|exact Hi]. destruct K as (m & -> & K). exact K.
Qed.

Lemma all_spec : (forall k u x, snd (fst (track k u x)) = Success) -> exists vs, all_solutions dehom s' = Some vs /\
  Forall2 (fun i v => exists x, nth_error (final s') i = Some (Some x) /\ v = dehom x) (seq 0 n) vs.
Proof.
  intros T. destruct first_facts as ((_ & _ & He & _) & (Sm & _ & Sf) & O).
  destruct (extract_spec dehom (fun _ => true) (final s') (meta s')) as (idx & vs & E & Ei & F).
  - congruence.
  - intros i m Hm _. assert (Hi : (i < n)%nat) by (rewrite <- Sm; apply nth_error_Some; congruence).
    destruct (O i Hi) as (k & u & x & c & h & m' & Ht & _ & _ & _ & _ & _ & [(_ & k2 & t2 & y & h2 & _ & Hf)|(N & _)] & _).
    + exists y. exact Hf.
    + exfalso. apply N. specialize (T k u (start_point i)). rewrite Ht in T. exact T.
  - exists vs. split; [exact E|]. assert (Q : idx = seq 0 n).
    { assert (G : forall (l : list metadata) b, (forall i, In i b -> (i < length l)%nat) ->
        filter (fun i => match nth_error l i with Some _ => true | None => false end) b = b).
      { clear. induction b as [|i b IH]; intros H; [reflexivity|]. cbn [filter].
        destruct (nth_error l i) eqn:Q; [|apply nth_error_None in Q; specialize (H i (or_introl eq_refl)); lia].
        f_equal. apply IH. intros j Hj. apply H. now right. }
      rewrite Ei, G, Sm; [reflexivity|]. intros i Hi. apply in_seq in Hi. lia. }
    rewrite <- Q. exact F.
Qed.

Lemma all_throws i : (i < n)%nat ->
  (forall k u, snd (fst (track k u (start_point i))) <> Success) -> all_solutions dehom s' = None.
Proof.
  intros Hi T. destruct first_facts as (_ & _ & O).
  destruct (O i Hi) as (k & u & x & c & h & m & Ht & _ & Hm & _ & _ & _ & [(S1 & _)|(_ & _ & Hf)] & _).
  - exfalso. apply (T k u). rewrite Ht. exact S1.
  - apply (extract_throws dehom _ _ _ i m Hm eq_refl). rewrite Hf. cbn [final new_solver]. destruct i; reflexivity.
Qed.

Lemma written_spec : exists idx, (exists P, idx = filter P (seq 0 n)) /\
  map (fun e => fst (fst e)) (written s') = idx /\
  (forall i, In i idx <-> (i < n)%nat /\ exists m, nth_error (meta s') i = Some m /\ eg_success m <> NeverStarted) /\
  (forall i m p, In (i, m, p) (written s') -> nth_error (meta s') i = Some m /\ path_index m = Some i /\
     exists x, p = Some x /\ nth_error (final s') i = Some (Some x)).
Proof.
  destruct first_facts as (_ & (Sm & _ & Sf) & O).
  set (P := fun i => match nth_error (meta s') i with Some m => match eg_success m with NeverStarted => false | _ => true end | None => false end).
  assert (W : forall l, map (fun e => fst (fst e)) (flat_map (fun i => match nth_error (meta s') i with
                     | Some m => match eg_success m with
                                 | NeverStarted => []
                                 | _ => [(i, m, nth i (final s') None)]
                                 end
                     | None => []
                     end) l) = filter P l).
  { induction l as [|i l IH]; [reflexivity|]. cbn [flat_map filter]. rewrite map_app, IH. unfold P at 2.
    destruct (nth_error (meta s') i) as [m|]; [|reflexivity]. destruct (eg_success m); reflexivity. }
  exists (filter P (seq 0 n)). split; [now exists P|]. split; [unfold written; rewrite W, Sf; reflexivity|]. split.
  - intros i. rewrite filter_In, in_seq. unfold P. split.
    + intros [Hi K]. split; [lia|]. destruct (nth_error (meta s') i) as [m|]; [|discriminate]. exists m. split; [reflexivity|].
      intros E. rewrite E in K. discriminate.
    + intros [Hi (m & -> & K)]. split; [lia|]. destruct (eg_success m); try reflexivity. now destruct K.
  - intros i m p H. unfold written in H. apply in_flat_map in H. destruct H as (j & Hj & H). apply in_seq in Hj.
    rewrite Sf in Hj. destruct (nth_error (meta s') j) as [m'|] eqn:Em; [|destruct H].
    assert (Q : eg_success m' <> NeverStarted /\ (j, m', nth j (final s') None) = (i, m, p)).
    { destruct (eg_success m') eqn:Es; try (destruct H as [H|[]]; split; [discriminate|exact H]). destruct H. }
    destruct Q as [Ns Q]. injection Q as -> -> <-. split; [exact Em|].
    destruct (O i ltac:(lia)) as (k & u & x & c & h & m2 & Ht & _ & Hm & Hp & _ & _ & [(_ & k2 & t2 & y & h2 & _ & Hf)|(_ & N & _)] & _).
    + assert (m2 = m) by congruence. subst m2. split; [exact Hp|]. exists y. split; [|exact Hf].
      now apply nth_error_nth_None in Hf.
    + exfalso. assert (m2 = m) by congruence. subst m2. apply Ns. rewrite N. cbn [meta new_solver]. destruct i; reflexivity.
Qed.
End AfterSolve.

(** ** Solving twice *)
(** two paths that end at the same point in the first call; in the second call the second path fails *)
Definition second_fails (p : nat -> C) (k : nat) (_ : settings) (_ : nat -> C) : (nat -> C) * code * R :=
  (p, if Nat.eqb k 7 then MinStepSizeReached else Success, 1).
Definition same_point (p : nat -> C) (_ : nat) (_ : settings) (_ : nat -> C) : (nat -> C) * code * R := (p, Success, 1).

Opaque distance lt_bool check checked Rmult.
Lemma twice p t : let solve := solve 1 2 (fun _ => p) (same_point p) (second_fails p) 1 1 1 1 1 0 in
  let s := solve (solve (new_solver t)) in
  map eg_success (meta s) = [Success; MinStepSizeReached] /\ map multiplicity (meta s) = [2; 2]%Z /\ final s = [Some p; Some p].
Proof.
  assert (D : lt_bool (distance 1 p p) 1 = true) by (apply lt_bool_spec; rewrite distance_same; lra).
  assert (BA : forall s, boundary_action 1 (fun _ => p) (same_point p) 1 1 0 s =
     Solver (meta s) (boundary s) (final s) (fst (check 1 1 (fun _ => p) (checked (boundary s)) (mid s))) (retrack_tol s)
       (tracker s) (calls s) (runs s) (undefined s)).
  { intros s. unfold boundary_action, run_check. destruct (check _ _ _ _ _) as [m [|]]; reflexivity. }
  cbv zeta. set (sol := solve 1 2 (fun _ => p) (same_point p) (second_fails p) 1 1 1 1 1 0).
  assert (S1 : exists b m2 rt u r z, sol (new_solver t)
     = Solver [Meta (Some 0%nat) (Some 0%nat) Success Success 2; Meta (Some 1%nat) (Some 1%nat) Success Success 2]
         b [Some p; Some p] m2 rt u 4 r z /\ length b = 2%nat).
  { unfold sol, solve. rewrite BA. set (mm := fst (check _ _ _ _ _)). clearbody mm.
    do 6 eexists. cbv -[lt_bool distance IZR]. rewrite D. cbv -[lt_bool distance IZR].
    split; reflexivity. }
  destruct S1 as (b & m2 & rt & u & r & z & -> & Lb). destruct b as [|b1 [|b2 [|]]]; try discriminate Lb.
  unfold sol, solve. rewrite BA. set (mm := fst (check _ _ _ _ _)). clearbody mm.
  cbv -[lt_bool distance IZR]. repeat split.
Qed.

(** three paths, the last two of which end at the same point *)
Definition ends (p q : nat -> C) (k : nat) (_ : settings) (_ : nat -> C) : (nat -> C) * code * R :=
  (if Nat.eqb k 3 then p else q, Success, 1).
Lemma three {V} (dehom : (nat -> C) -> V) p q t : 1 <= distance 1 p q ->
  nonsingular_solutions dehom (solve 1 3 (fun _ => p) (same_point p) (ends p q) 1 1 1 1 1 0 (new_solver t)) = Some [dehom p].
Proof.
  intros H.
  assert (D : lt_bool (distance 1 q q) 1 = true) by (apply lt_bool_spec; rewrite distance_same; lra).
  assert (D2 : lt_bool (distance 1 p q) 1 = false).
  { destruct (lt_bool (distance 1 p q) 1) eqn:E; [|reflexivity]. apply lt_bool_spec in E. lra. }
  assert (BA : forall s, boundary_action 1 (fun _ => p) (same_point p) 1 1 0 s =
     Solver (meta s) (boundary s) (final s) (fst (check 1 1 (fun _ => p) (checked (boundary s)) (mid s))) (retrack_tol s)
       (tracker s) (calls s) (runs s) (undefined s)).
  { intros s. unfold boundary_action, run_check. destruct (check _ _ _ _ _) as [m [|]]; reflexivity. }
  unfold solve. rewrite BA. set (mm := fst (check _ _ _ _ _)). clearbody mm.
  assert (E : exists b rt u r z m1 m2 m3, during 3 (ends p q) 1
     (Solver (meta (before 3 (fun _ => p) (same_point p) 1 (setup 3 1 (new_solver t))))
        (boundary (before 3 (fun _ => p) (same_point p) 1 (setup 3 1 (new_solver t))))
        (final (before 3 (fun _ => p) (same_point p) 1 (setup 3 1 (new_solver t)))) mm
        (retrack_tol (before 3 (fun _ => p) (same_point p) 1 (setup 3 1 (new_solver t))))
        (tracker (before 3 (fun _ => p) (same_point p) 1 (setup 3 1 (new_solver t))))
        (calls (before 3 (fun _ => p) (same_point p) 1 (setup 3 1 (new_solver t))))
        (runs (before 3 (fun _ => p) (same_point p) 1 (setup 3 1 (new_solver t))))
        (undefined (before 3 (fun _ => p) (same_point p) 1 (setup 3 1 (new_solver t)))))
     = Solver [m1; m2; m3] b [Some p; Some q; Some q] mm rt u 6 r z /\
       Forall (fun m => eg_success m = Success /\ multiplicity m = 1%Z) [m1; m2; m3]).
  { do 8 eexists. split; [cbv -[lt_bool distance IZR]; reflexivity|]. repeat constructor. }
  destruct E as (b & rt & u & r & z & m1 & m2 & m3 & -> & Fm). set (S0 := Solver _ _ _ _ _ _ _ _ _).
  inversion Fm as [|? ? [A1 B1] Fm2]. inversion Fm2 as [|? ? [A2 B2] Fm3]. inversion Fm3 as [|? ? [A3 B3] _]. subst. clear Fm Fm2 Fm3.
  assert (F0 : finished S0 0 = true) by (cbn; now rewrite A1).
  assert (F1 : finished S0 1 = true) by (cbn; now rewrite A2).
  assert (F2 : finished S0 2 = true) by (cbn; now rewrite A3).
  assert (C1 : compare 1 1 0 S0 1 = S0) by (unfold compare; rewrite F1; cbn [S0 final nth_error]; now rewrite D2).
  assert (C2 : compare 1 1 0 S0 2 = S0) by (unfold compare; rewrite F2; cbn [S0 final nth_error]; now rewrite D2).
  assert (C3 : compare 1 1 1 S0 2 = add_one 2 (add_one 1 S0)) by (unfold compare; rewrite F2; cbn [S0 final nth_error]; now rewrite D).
  assert (M : multiplicities 1 3 1 S0 = add_one 2 (add_one 1 S0)).
  { unfold multiplicities. cbn [seq fold_left Nat.sub]. rewrite F0, C1, C2, F1, C3. match goal with |- (if ?b then _ else _) = _ => destruct b end; reflexivity. }
  rewrite M. unfold nonsingular_solutions.
  cbn [S0 add_one upd firstn skipn app meta final extract eg_success multiplicity path_index].
  rewrite A1, A2, A3, B1, B2, B3. reflexivity.
Qed.

Lemma filtered_sorted (P : nat -> bool) n : Sorted.Sorted lt (filter P (seq 0 n)).
Proof.
  apply Sorted.StronglySorted_Sorted. generalize O. induction n as [|n IH]; intros k; cbn [seq filter]; [constructor|].
  destruct (P k); [|apply IH]. constructor; [apply IH|]. apply Forall_forall. intros x Hx. apply filter_In in Hx.
  destruct Hx as [Hx _]. apply in_seq in Hx. lia.
Qed.
