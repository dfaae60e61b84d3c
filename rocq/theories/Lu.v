(** Solving a square linear system by elimination with row pivoting, the operation behind
    [partialPivLu().solve] (Eigen) at core/src/system/start/mhom.cpp:406.  Eigen itself is not part of
    the repository: what is modelled is the elimination it performs, over an exact field, for any
    pivot choice which takes a nonzero entry whenever there is one (Eigen takes one of largest absolute
    value).  Rows are removed instead of swapped, which in exact arithmetic changes nothing but the
    order of the remaining rows. *)
From Coq Require Import List Arith Lia Ring Field Bool.
From Verif Require Import Base.
Import ListNotations.

Section Lu.
  Context {F : fld}.
  Local Open Scope fld_scope.
  Add Field lu_field : (f_th F).

  (** scalar product of two vectors of the same length *)
  Fixpoint inner (a x : list F) : F :=
    match a, x with
    | p :: a', q :: x' => p * q + inner a' x'
    | _, _ => 0
    end.

  (** the position of the pivot in the current column *)
  Variable pick : list F -> nat.

  (** specification of the pivot choice *)
  Definition picks_nonzero : Prop :=
    forall col, (exists a, In a col /\ a <> 0) -> exists a, nth_error col (pick col) = Some a /\ a <> 0.

  (** [r] minus [m] times [s], entry by entry *)
  Fixpoint sub_scaled (r : list F) (m : F) (s : list F) : list F :=
    match r, s with
    | p :: r', q :: s' => (p - m * q) :: sub_scaled r' m s'
    | _, _ => r
    end.

  (** the rows of a linear system and their right hand sides *)
  Definition eqn := (list F * F)%type.
  Definition lead (r : eqn) : F := hd 0 (fst r).

  (** row [r] without its first column after the pivot row was used to make that column zero *)
  Definition reduce (piv r : eqn) : eqn :=
    let m := lead r / lead piv in
    (sub_scaled (tl (fst r)) m (tl (fst piv)), snd r - m * snd piv).

  (** elimination and back substitution for [n] unknowns *)
  Fixpoint eliminate (n : nat) (rows : list eqn) : list F :=
    match n with
    | O => []
    | S k =>
        let i := pick (map lead rows) in
        let piv := nth i rows ([], 0) in
        let rest := (firstn i rows ++ skipn (S i) rows)%list in
        let y := eliminate k (map (reduce piv) rest) in
        ((snd piv - inner (tl (fst piv)) y) / lead piv) :: y
    end.

  (** A.partialPivLu().solve(b) for a square A *)
  Definition lu_solve (A : list (list F)) (b : list F) : list F := eliminate (length A) (combine A b).

  (** ** Specification *)

  (** the matrix is invertible: only zero is mapped to zero *)
  Definition regular (n : nat) (A : list (list F)) : Prop :=
    forall y, length y = n -> (forall r, In r A -> inner r y = 0) -> y = repeat 0 n.

  (** ** Proofs *)

  Lemma inner_sub : forall r m s y, length r = length s ->
    inner (sub_scaled r m s) y = inner r y - m * inner s y.
  Proof.
    induction r as [|p r IH]; intros m [|q s] y H; try discriminate.
    - cbn. ring.
    - destruct y as [|v y]; cbn [sub_scaled inner]; [ring|]. rewrite IH by (cbn in H; lia). ring.
  Qed.

  Lemma sub_length : forall r m s, length (sub_scaled r m s) = length r.
  Proof. induction r as [|p r IH]; intros m [|q s]; cbn; try reflexivity. rewrite IH. reflexivity. Qed.

  Lemma inner_zero : forall a n, inner a (repeat 0 n) = 0.
  Proof. induction a as [|p a IH]; intros [|n]; cbn; try reflexivity. rewrite IH. ring. Qed.

  Definition shaped (n : nat) (rows : list eqn) : Prop := Forall (fun r => length (fst r) = n) rows.

  Lemma split_at : forall (rows : list eqn) i a, nth_error rows i = Some a ->
    nth i rows ([], 0) = a /\ (forall r, In r rows <-> r = a \/ In r (firstn i rows ++ skipn (S i) rows)%list)
    /\ length rows = S (length (firstn i rows ++ skipn (S i) rows)%list).
  Proof.
    induction rows as [|r rows IH]; intros [|i] a H; try discriminate.
    - inversion H; subst. split; [reflexivity|]. cbn. split; [|reflexivity]. intro r. split; intros [<-|Hr]; auto.
    - cbn in H. destruct (IH i a H) as [E [Hin Hl]]. split; [exact E|]. cbn [firstn skipn app In length]. split.
      + intro q. rewrite Hin. split; intros [<-|[Hq|Hq]]; auto.
      + cbn [firstn skipn] in Hl. rewrite Hl. reflexivity.
  Qed.

  Lemma eliminate_solves : picks_nonzero -> forall n rows, length rows = n -> shaped n rows ->
    regular n (map fst rows) ->
    length (eliminate n rows) = n /\ forall r, In r rows -> inner (fst r) (eliminate n rows) = snd r.
  Proof.
    intro Hpick. induction n as [|n IH]; intros rows Hl Hs Hr.
    - destruct rows; [|discriminate]. split; [reflexivity|]. intros r [].
    - assert (Hex : exists a, In a (map lead rows) /\ a <> 0).
      { assert (D : (exists a, In a (map lead rows) /\ a <> 0) \/ forall a, In a (map lead rows) -> a = 0).
        { clear. induction (map lead rows) as [|a l IH]; [right; intros a []|].
          destruct (feq_dec a 0) as [->|N]; [|left; exists a; split; [left; reflexivity|assumption]].
          destruct IH as [[b [Hb N]]|IH]; [left; exists b; split; [right; assumption|assumption]|].
          right. intros b [<-|Hb]; auto. }
        destruct D as [D|D]; [exact D|]. exfalso.
        assert (E : 1 :: repeat 0 n = repeat 0 (S n) :> list F).
        { apply Hr; [cbn; rewrite repeat_length; reflexivity|].
          intros r Hin. apply in_map_iff in Hin. destruct Hin as [e [<- He]].
          unfold shaped in Hs. rewrite Forall_forall in Hs. specialize (Hs e He).
          assert (Hle : lead e = 0) by (apply D; apply in_map; assumption).
          unfold lead in Hle. destruct (fst e) as [|p a]; [discriminate|]. cbn in Hle |- *. subst p.
          rewrite inner_zero. ring. }
        inversion E as [E']. exact (F_1_neq_0 (f_th F) E'). }
      destruct (Hpick _ Hex) as [a [Hn Ha]].
      rewrite nth_error_map in Hn. destruct (nth_error rows (pick (map lead rows))) as [piv|] eqn:Ep; [|discriminate].
      cbn in Hn. inversion Hn; subst a. clear Hn Hex.
      destruct (split_at rows _ piv Ep) as [En [Hin Hlen]].
      cbn [eliminate]. rewrite En.
      set (rest := (firstn (pick (map lead rows)) rows ++ skipn (S (pick (map lead rows))) rows)%list) in *.
      unfold shaped in Hs. rewrite Forall_forall in Hs.
      pose proof (Hs piv (proj2 (Hin piv) (or_introl eq_refl))) as Hpl.
      destruct piv as [pa pb]. unfold lead in Ha. cbn [fst snd] in *.
      destruct pa as [|p pa]; [discriminate|]. cbn [hd tl length] in *.
      assert (Hrow : forall r, In r rest -> exists q a, fst r = q :: a /\ length a = n).
      { intros r Hr'. pose proof (Hs r (proj2 (Hin r) (or_intror Hr'))) as Hrl.
        destruct (fst r) as [|q a]; [discriminate|]. exists q, a. split; [reflexivity|]. cbn in Hrl. lia. }
      assert (Hred : forall r q a y, fst r = q :: a -> length a = n ->
                inner (fst (reduce (p :: pa, pb) r)) y = inner a y - q / p * inner pa y
                /\ snd (reduce (p :: pa, pb) r) = snd r - q / p * pb).
      { intros r q a y E La. unfold reduce, lead. rewrite E. cbn [fst snd hd tl]. split; [|reflexivity].
        rewrite inner_sub by lia. reflexivity. }
      destruct (IH (map (reduce (p :: pa, pb)) rest)) as [Ly Hy].
      + rewrite map_length. lia.
      + unfold shaped. rewrite Forall_map. apply Forall_forall. intros r Hr'.
        destruct (Hrow r Hr') as [q [a [E La]]]. unfold reduce. cbn [fst]. rewrite sub_length, E. cbn. exact La.
      + intros y Hyl Hyk.
        assert (E : (- (inner pa y) / p) :: y = repeat 0 (S n)).
        { apply Hr; [cbn; lia|]. intros r Hr'. apply in_map_iff in Hr'. destruct Hr' as [e [<- He]].
          apply Hin in He. destruct He as [->|He].
          - cbn. field. exact Ha.
          - destruct (Hrow e He) as [q [a [Ee La]]]. rewrite Ee. cbn [inner].
            assert (Hk : inner a y - q / p * inner pa y = 0).
            { rewrite <- (proj1 (Hred e q a y Ee La)). apply Hyk.
              rewrite map_map. apply in_map_iff. exists e. split; [reflexivity|assumption]. }
            transitivity (inner a y - q / p * inner pa y); [field; exact Ha|exact Hk]. }
        exact (f_equal (@tl F) E).
      + set (y := eliminate n (map (reduce (p :: pa, pb)) rest)) in *. split; [cbn; lia|].
        intros r Hr'. apply Hin in Hr'. destruct Hr' as [->|Hr'].
        * cbn. unfold lead. cbn. field. exact Ha.
        * destruct (Hrow r Hr') as [q [a [Ee La]]]. rewrite Ee. cbn [inner]. unfold lead. cbn [fst hd snd].
          destruct (Hred r q a y Ee La) as [H1 H2].
          pose proof (Hy _ (in_map _ _ _ Hr')) as H3. rewrite H1, H2 in H3.
          transitivity ((inner a y - q / p * inner pa y) + q / p * pb); [field; exact Ha|].
          rewrite H3. ring.
  Qed.

  (** the solver returns the solution *)
  Lemma lu_solve_ok : picks_nonzero -> forall n A b, length A = n -> length b = n ->
    Forall (fun r => length r = n) A -> regular n A ->
    length (lu_solve A b) = n
    /\ forall i r c, nth_error A i = Some r -> nth_error b i = Some c -> inner r (lu_solve A b) = c.
  Proof.
    intros Hp n A b HA Hb Hw Hr. unfold lu_solve. rewrite HA.
    assert (Ef : map fst (combine A b) = A).
    { clear - HA Hb. revert b n HA Hb. induction A as [|r A IH]; intros [|c b] n HA Hb; cbn in *; try reflexivity; subst; try discriminate.
      f_equal. apply (IH b (length A)); [reflexivity|lia]. }
    destruct (eliminate_solves Hp n (combine A b)) as [Hl Hs].
    - etransitivity; [exact (combine_length A b)|lia].
    - unfold shaped. rewrite <- Ef in Hw. rewrite Forall_map in Hw. exact Hw.
    - rewrite Ef. exact Hr.
    - split; [exact Hl|]. intros i r c Hi Hc. apply (Hs (r, c)).
      apply nth_error_In with i. clear - Hi Hc. revert A b Hi Hc.
      induction i as [|i IH]; intros [|r0 A] [|c0 b] Hi Hc; try discriminate; cbn in *; [congruence|]. apply IH; assumption.
  Qed.

  (** a regular system has one solution *)
  Lemma regular_unique : forall n A x y, regular n A -> Forall (fun r => length r = n) A ->
    length x = n -> length y = n -> (forall r, In r A -> inner r x = inner r y) -> x = y.
  Proof.
    intros n A x y Hr Hw Hx Hy H.
    assert (G : forall r, length r = n -> inner r (sub_scaled x 1 y) = inner r x - inner r y).
    { clear - Hx Hy. revert x y Hx Hy. induction n as [|n IH]; intros [|a x] [|b y] Hx Hy [|c r] Hl; try discriminate; cbn; try ring.
      rewrite (IH x y) by (cbn in *; lia). ring. }
    assert (E : sub_scaled x 1 y = repeat 0 n).
    { apply Hr; [rewrite sub_length; exact Hx|]. intros r Hin. rewrite Forall_forall in Hw.
      rewrite G by (apply Hw; assumption). rewrite (H r Hin). ring. }
    clear - E Hx Hy. revert x y Hx Hy E. induction n as [|n IH]; intros [|a x] [|b y] Hx Hy E; try discriminate; [reflexivity|].
    cbn in E. pose proof (f_equal (hd 0) E) as E1. pose proof (f_equal (@tl F) E) as E2. cbn in E1, E2.
    f_equal; [|apply IH; try assumption; cbn in Hx, Hy; lia].
    transitivity (a - 1 * b + b); [ring|]. rewrite E1. ring.
  Qed.

  (** the first nonzero entry, an admissible pivot choice *)
  Fixpoint first_nonzero (col : list F) : nat :=
    match col with
    | [] => 0%nat
    | a :: r => if feq_dec a 0 then S (first_nonzero r) else 0%nat
    end.
End Lu.

Lemma first_nonzero_picks : forall F : fld, picks_nonzero (F := F) first_nonzero.
Proof.
  intros F col. induction col as [|a r IH]; intros [b [Hb N]]; [destruct Hb|].
  cbn. destruct (feq_dec a f0) as [->|Na].
  - destruct Hb as [Hb|Hb]; [congruence|]. destruct IH as [c [Hc Nc]]; [exists b; split; assumption|].
    exists c. split; assumption.
  - exists a. split; [reflexivity|assumption].
Qed.
