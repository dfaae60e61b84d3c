(** Linear algebra for LinearGamma.v: the numbers m for which the system "r0 + m r1 for each pair of rows, and p" is singular
    are finitely many.  No part of the code is modelled here. *)
From Coq Require Import List Arith Lia Bool Ring Field Classical.
From Verif Require Import Base Lu.
Import ListNotations.

Section Pencil.
  Context {F : fld}.
  Local Open Scope fld_scope.
  Add Field pencil_field : (f_th F).
  Notation inner := (@Lu.inner F).

  (** *** More unknowns than equations *)

  Definition zeros (n : nat) : list F := repeat 0 n.

  Lemma inner_zeros : forall a n, inner a (zeros n) = 0.
  Proof. induction a as [|p a IH]; intros [|n]; cbn; try reflexivity. unfold zeros in IH. rewrite IH. ring. Qed.

  Lemma homogeneous_solution : forall n M m, length M = n -> n < m -> Forall (fun r => length r = m) M ->
    exists x, length x = m /\ x <> zeros m /\ Forall (fun r => inner r x = 0) M.
  Proof.
    induction n as [|n IH]; intros M m LM Lt HM.
    - destruct M; [|discriminate]. exists (repeat 1 m). split; [apply repeat_length|]. split; [|constructor]. destruct m as [|m]; [lia|]. intro E.
      apply (@f1_neq_f0 F). exact (f_equal (fun l => hd 0 l) E).
    - destruct m as [|m]; [lia|]. rewrite Forall_forall in HM.
      destruct (Exists_dec (fun r => hd 0 r <> 0) M) as [H|H].
      { intro r. destruct (feq_dec (hd 0 r) 0) as [E|N]; [right; intro C; contradiction|left; exact N]. }
      + apply Exists_exists in H. destruct H as (r & Hr & Nz). apply in_split in Hr. destruct Hr as (M1 & M2 & ->).
        set (red := fun q : list F => sub_scaled (tl q) (hd 0 q / hd 0 r) (tl r)).
        assert (Lr : length r = S m) by (apply HM; apply in_app_iff; right; left; reflexivity).
        assert (Lq : forall q, In q (M1 ++ M2) -> length q = S m).
        { intros q Hq. apply HM. apply in_app_iff in Hq. apply in_app_iff. destruct Hq; [left|right; right]; assumption. }
        assert (Ltl : forall q : list F, length q = S m -> length (tl q) = m) by (intros [|a q] L; [discriminate|cbn in *; lia]).
        assert (Lsub : forall (a b : list F) c, length a = length b -> length (sub_scaled a c b) = length a).
        { induction a as [|u a IHa]; intros [|v b] c L; try discriminate; cbn; [reflexivity|]. rewrite IHa; cbn in L; lia. }
        destruct (IH (map red (M1 ++ M2)) m) as (x & Lx & Nx & Hx).
        * rewrite map_length, app_length. rewrite app_length in LM. cbn in LM. lia.
        * lia.
        * apply Forall_map, Forall_forall. intros q Hq. unfold red. rewrite Lsub; rewrite !Ltl; auto.
        * exists ((- inner (tl r) x / hd 0 r) :: x). split; [cbn; lia|]. split; [intro E; apply Nx; exact (f_equal (@tl F) E)|].
          assert (I : forall (q : list F) a, length q = S m -> inner q (a :: x) = hd 0 q * a + inner (tl q) x) by (intros [|b q] a L; [discriminate|reflexivity]).
          apply Forall_forall. intros q Hq. rewrite I by (apply HM; exact Hq). apply in_app_iff in Hq. destruct Hq as [Hq|[<-|Hq]]; [| field; exact Nz|];
          (assert (Hi : In q (M1 ++ M2)) by (apply in_app_iff; tauto); rewrite Forall_map, Forall_forall in Hx; specialize (Hx q Hi); unfold red in Hx;
           rewrite inner_sub in Hx by (rewrite !Ltl; auto); transitivity (inner (tl q) x - hd 0 q / hd 0 r * inner (tl r) x); [field; exact Nz|exact Hx]).
      + exists (1 :: zeros m). split; [cbn; unfold zeros; rewrite repeat_length; reflexivity|]. split; [intro E; apply (@f1_neq_f0 F); exact (f_equal (fun l => hd 0 l) E)|].
        apply Forall_forall. intros r Hr. destruct r as [|a r]; [reflexivity|]. cbn [Lu.inner]. rewrite inner_zeros.
        destruct (feq_dec a 0) as [->|N]; [ring|]. elim H. apply Exists_exists. exists (a :: r). split; [exact Hr|exact N].
  Qed.

  (** *** Combinations of vectors *)

  Lemma inner_all_zero : forall w, (forall r, length r = length w -> inner r w = 0) -> w = zeros (length w).
  Proof.
    induction w as [|a w IH]; intro H; [reflexivity|]. cbn [length]. unfold zeros. cbn [repeat]. f_equal.
    - specialize (H (1 :: zeros (length w))). cbn [length] in H. unfold zeros in H at 1. rewrite repeat_length in H. specialize (H eq_refl). cbn [Lu.inner] in H.
      replace (inner (zeros (length w)) w) with (f0 : F) in H; [rewrite <- H; ring|]. clear. induction w as [|b w IH]; cbn; [reflexivity|]. unfold zeros in IH. rewrite <- IH. ring.
    - apply IH. intros r Lr. specialize (H (0 :: r)). cbn [length Lu.inner] in H. rewrite Lr in H. rewrite <- (H eq_refl). ring.
  Qed.

  Fixpoint plus (x y : list F) : list F := match x, y with a :: x', b :: y' => (a + b) :: plus x' y' | _, _ => [] end.
  Lemma plus_length : forall x y, length x = length y -> length (plus x y) = length x.
  Proof. induction x as [|a x IH]; intros [|b y] L; try discriminate; cbn; [reflexivity|]. rewrite IH; cbn in L; lia. Qed.
  Lemma inner_plus : forall r x y, length x = length r -> length y = length r -> inner r (plus x y) = inner r x + inner r y.
  Proof. induction r as [|p r IH]; intros [|a x] [|b y] Lx Ly; try discriminate; cbn; [ring|]. rewrite IH by (cbn in *; lia). ring. Qed.
  Lemma inner_times : forall r c x, inner r (map (fmul c) x) = c * inner r x.
  Proof. induction r as [|p r IH]; intros c [|a x]; cbn; try ring. rewrite IH. ring. Qed.

  Variable N : nat.

  (** the combination with the coefficients [cs] *)
  Lemma combine_vectors : forall cs vs, Forall (fun v => length v = N) vs ->
    exists w, length w = N /\ forall r, length r = N -> inner r w = inner cs (map (inner r) vs).
  Proof.
    induction cs as [|c cs IH]; intros vs Hv.
    - exists (zeros N). split; [apply repeat_length|]. intros r _. apply inner_zeros.
    - destruct vs as [|v vs]; [exists (zeros N); split; [apply repeat_length|]; intros r _; apply inner_zeros|].
      inversion Hv as [|? ? Lv Lvs]; subst. destruct (IH vs Lvs) as (w & Lw & Hw). exists (plus (map (fmul c) v) w).
      split; [rewrite plus_length, map_length; [reflexivity|rewrite map_length; lia]|]. intros r Lr. cbn [map Lu.inner].
      rewrite inner_plus, inner_times, Hw; [reflexivity|exact Lr|rewrite map_length; lia|lia].
  Qed.

  (** *** The pencil *)
  Variable rows : list (list F * list F).
  Variable p : list F.
  Hypothesis Hrows : Forall (fun q => length (fst q) = N /\ length (snd q) = N) rows.
  Hypothesis Hp : length p = N.
  (** the second rows together with [p] determine a vector *)
  Hypothesis Hinj : forall v, length v = N -> inner p v = 0 -> Forall (fun q => inner (snd q) v = 0) rows -> v = zeros N.

  Definition singular (m : F) (v : list F) : Prop :=
    length v = N /\ v <> zeros N /\ inner p v = 0 /\ Forall (fun q => inner (fst q) v + m * inner (snd q) v = 0) rows.

  Lemma zero_product : forall a b : F, a * b = 0 -> a = 0 \/ b = 0.
  Proof.
    intros a b H. destruct (feq_dec a 0) as [->|Na]; [left; reflexivity|right]. transitivity ((a * b) / a); [field; exact Na|]. rewrite H. field. exact Na.
  Qed.

  Definition vanishes (cs : list F) (vs : list (list F)) : Prop := forall r, length r = N -> inner cs (map (inner r) vs) = 0.
  Definition scaled (f : F -> F) (l : list (F * list F)) (cs : list F) : list F := map (fun q => f (fst q) * snd q) (combine (map fst l) cs).

  Lemma independent : forall l : list (F * list F), NoDup (map fst l) -> Forall (fun q => singular (fst q) (snd q)) l ->
    forall cs, length cs = length l -> vanishes cs (map snd l) -> Forall (fun c => c = 0) cs.
  Proof.
    induction l as [|[m v] l IH]; intros Nd Hs cs Lc Z; [destruct cs; [constructor|discriminate]|].
    destruct cs as [|c cs]; [discriminate|]. cbn [length] in Lc. cbn [map fst] in Nd. inversion Nd as [|? ? Nm Nd']; subst. inversion Hs as [|? ? Sv Sl]; subst. cbn [fst snd] in Sv.
    (* the combination with the coefficients times the numbers vanishes as well *)
    assert (G : Forall (fun u => length u = N) (map snd l)) by (apply Forall_map; eapply Forall_impl; [|exact Sl]; intros q Hq; exact (proj1 Hq)).
    assert (Z' : vanishes ((m * c) :: scaled (fun a => a) l cs) (v :: map snd l)).
    { destruct (combine_vectors ((m * c) :: scaled (fun a => a) l cs) (v :: map snd l)) as (w & Lw & Hw); [constructor; [exact (proj1 Sv)|exact G]|].
      assert (E : w = zeros N).
      { apply Hinj; [exact Lw| |].
        - rewrite Hw by exact Hp. destruct Sv as (_ & _ & Pv & _). cbn [map Lu.inner]. rewrite Pv.
          assert (K : forall f ds, inner (scaled f l ds) (map (inner p) (map snd l)) = 0).
          { clear - Sl. intros f. induction Sl as [|[a u] l (_ & _ & Pu & _) Sl IH]; intros [|d ds]; try reflexivity. unfold scaled in *. cbn [map combine Lu.inner fst snd]. cbn [fst snd] in Pu. rewrite IH, Pu. ring. }
          rewrite K. ring.
        - apply Forall_forall. intros q Hq. rewrite Forall_forall in Hrows. destruct (Hrows q Hq) as [L0 L1]. rewrite Hw by exact L1. cbn [map Lu.inner].
          specialize (Z (fst q) L0). cbn [map Lu.inner snd] in Z. destruct Sv as (_ & _ & _ & Av). rewrite Forall_forall in Av. specialize (Av q Hq).
          assert (K : inner (scaled (fun a => a) l cs) (map (inner (snd q)) (map snd l)) = - inner cs (map (inner (fst q)) (map snd l))).
          { clear - Sl Hq. revert cs. induction Sl as [|[a u] l (_ & _ & _ & Au) Sl IH]; intros [|d ds]; try (cbn; ring). unfold scaled in *. cbn [map combine Lu.inner fst snd]. cbn [fst snd] in Au.
            rewrite Forall_forall in Au. specialize (Au q Hq). rewrite IH. transitivity (d * (a * inner (snd q) u) + - inner ds (map (inner (fst q)) (map snd l))); [ring|].
            replace (a * inner (snd q) u) with (- inner (fst q) u); [ring|]. transitivity ((inner (fst q) u + a * inner (snd q) u) - inner (fst q) u); [rewrite Au; ring|ring]. }
          rewrite K. transitivity (c * (m * inner (snd q) v) - inner cs (map (inner (fst q)) (map snd l))); [ring|].
          replace (m * inner (snd q) v) with (- inner (fst q) v) by (transitivity ((inner (fst q) v + m * inner (snd q) v) - inner (fst q) v); [rewrite Av; ring|ring]).
          transitivity (- (c * inner (fst q) v + inner cs (map (inner (fst q)) (map snd l)))); [ring|]. rewrite Z. ring. }
      intros r Lr. rewrite <- Hw by exact Lr. rewrite E. apply inner_zeros. }
    (* subtracting m times the first leaves out v *)
    assert (Z2 : vanishes (scaled (fun a => a - m) l cs) (map snd l)).
    { intros r Lr. specialize (Z r Lr). specialize (Z' r Lr). cbn [map Lu.inner snd] in Z, Z'.
      assert (K : inner (scaled (fun a => a - m) l cs) (map (inner r) (map snd l)) = inner (scaled (fun a => a) l cs) (map (inner r) (map snd l)) - m * inner cs (map (inner r) (map snd l))).
      { clear - Lc. assert (L : length cs = length l) by lia. clear Lc. revert cs L. induction l as [|[a u] l IH]; intros [|d ds] L; try discriminate; unfold scaled in *; cbn [map combine Lu.inner fst snd]; [ring|].
        rewrite IH by (cbn in L; lia). ring. }
      rewrite K. transitivity ((m * c * inner r v + inner (scaled (fun a => a) l cs) (map (inner r) (map snd l))) - m * (c * inner r v + inner cs (map (inner r) (map snd l)))); [ring|]. rewrite Z, Z'. ring. }
    assert (Cz : Forall (fun d => d = 0) cs).
    { assert (Lsc : length (scaled (fun a => a - m) l cs) = length l) by (unfold scaled; rewrite map_length, combine_length, map_length; lia).
      specialize (IH Nd' Sl _ Lsc Z2). clear - IH Nm Lc. assert (L : length cs = length l) by lia. clear Lc. revert cs L IH. induction l as [|[a u] l IHl]; intros [|d ds] L IH; try discriminate; [constructor|].
      unfold scaled in IH. cbn [map combine fst snd] in IH. inversion IH as [|? ? E1 E2]; subst. constructor.
      - destruct (zero_product _ _ E1) as [E|E]; [|exact E]. elim Nm. left. cbn [fst]. transitivity ((a - m) + m); [ring|]. rewrite E. ring.
      - apply IHl; [intro K; apply Nm; right; exact K|cbn in L; lia|exact E2]. }
    constructor; [|exact Cz].
    destruct (feq_dec c 0) as [E|Nc]; [exact E|]. destruct Sv as (Lv & Nv & _ & _). elim Nv. rewrite <- Lv. apply inner_all_zero. intros r Lr. rewrite Lv in Lr. specialize (Z r Lr).
    cbn [map Lu.inner snd] in Z. replace (inner cs (map (inner r) (map snd l))) with (f0 : F) in Z.
    - destruct (zero_product c (inner r v)) as [K|K]; [rewrite <- Z; ring|contradiction|exact K].
    - clear - Cz. generalize (map (inner r) (map snd l)). induction Cz as [|d cs -> Cz IH]; intros [|y ys]; cbn; try reflexivity. rewrite <- IH. ring.
  Qed.

  Lemma singular_bound : forall l : list (F * list F), NoDup (map fst l) -> Forall (fun q => singular (fst q) (snd q)) l -> length l <= length rows.
  Proof.
    intros l Nd Hs. destruct (le_lt_dec (length l) (length rows)) as [H|H]; [exact H|exfalso].
    destruct (homogeneous_solution (length rows) (map (fun q => map (inner (snd q)) (map snd l)) rows) (length l)) as (cs & Lc & Nc & Hc); [apply map_length|exact H| |].
    - apply Forall_map, Forall_forall. intros q _. rewrite !map_length. reflexivity.
    - assert (G : Forall (fun u => length u = N) (map snd l)) by (apply Forall_map; eapply Forall_impl; [|exact Hs]; intros q Hq; exact (proj1 Hq)).
      destruct (combine_vectors cs (map snd l) G) as (w & Lw & Hw).
      assert (sym : forall a b : list F, inner a b = inner b a) by (induction a as [|x a IH]; intros [|y b]; cbn; try reflexivity; rewrite IH; ring).
      assert (E : w = zeros N).
      { apply Hinj; [exact Lw| |].
        - rewrite Hw by exact Hp. clear - Hs. revert cs. induction Hs as [|[a u] l (_ & _ & Pu & _) Sl IH]; intros [|d ds]; try reflexivity. cbn [map Lu.inner snd]. cbn [snd] in Pu. rewrite IH, Pu. ring.
        - apply Forall_forall. intros q Hq. rewrite Forall_forall in Hrows. rewrite Hw by apply (Hrows q Hq). rewrite sym. rewrite Forall_map, Forall_forall in Hc. exact (Hc q Hq). }
      assert (Cz : Forall (fun d => d = 0) cs).
      { apply (independent l Nd Hs cs Lc). intros r Lr. rewrite <- Hw by exact Lr. rewrite E. apply inner_zeros. }
      apply Nc. rewrite <- Lc. clear - Cz. induction Cz as [|d cs -> Cz IH]; [reflexivity|]. cbn [length]. unfold zeros in *. cbn [repeat]. rewrite <- IH. reflexivity.
  Qed.

  (** all the numbers for which the pencil is singular *)
  Lemma singular_finite : exists bad, length bad <= length rows /\ forall m v, singular m v -> In m bad.
  Proof.
    assert (K : forall k, (exists bad, length bad <= length rows /\ forall m v, singular m v -> In m bad) \/
      exists l : list (F * list F), length l = k /\ NoDup (map fst l) /\ Forall (fun q => singular (fst q) (snd q)) l).
    { induction k as [|k [D|(l & Ll & Nd & Hs)]]; [right; exists []; repeat split; constructor|left; exact D|].
      destruct (classic (forall m v, singular m v -> In m (map fst l))) as [A|A].
      - left. exists (map fst l). split; [rewrite map_length; apply singular_bound; assumption|exact A].
      - right. apply not_all_ex_not in A. destruct A as [m A]. apply not_all_ex_not in A. destruct A as [v A]. apply imply_to_and in A. destruct A as [A B].
        exists ((m, v) :: l). split; [cbn; lia|]. split; [constructor; assumption|constructor; assumption]. }
    destruct (K (S (length rows))) as [D|(l & Ll & Nd & Hs)]; [exact D|]. pose proof (singular_bound l Nd Hs). lia.
  Qed.
End Pencil.
