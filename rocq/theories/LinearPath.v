(** Tracking a homotopy whose functions are linear in the unknowns: the corrector as it is called by the fixed precision
    tracker, with the values and the Jacobian matrix of the functions, and what a run of the tracker then does. *)
From Coq Require Import List ZArith Lia Reals Lra Bool Arith Field.
From Coquelicot Require Import Complex.
From Verif Require Import Base ComplexField Expr Diff Homog Lu Newton Track TrackEx LinearTree.
From Verif Require Endgame.
Import ListNotations.
Local Open Scope R_scope.

(** vectors: += and lpNorm<Infinity> (Endgame.v) *)
Definition vplus : list CF -> list CF -> list CF := Endgame.vadd.
Definition vnorm : list CF -> R := Endgame.linf.

Section Model.
  Variable fs : funs CF.
  (** the values of what is neither an unknown nor the time *)
  Variable rho : env CF.
  (** the functions, the unknowns in the order of the coordinates of a point, and the path variable *)
  Variable functions : list (expr CF).
  Variable unknowns : list nat.
  Variable path_variable : nat.

  Fixpoint set_unknowns (r : env CF) (vs : list nat) (x : list CF) : env CF :=
    match vs, x with v :: vs', a :: x' => upd (set_unknowns r vs' x') v a | _, _ => r end.

  (** System::SetAndReset(x, t), include/bertini2/system/system.hpp:1036-1043: the variables have the values of the point
      and the path variable that of the time (what the caches do is SysCache.v) *)
  Definition placed (t : CF) (x : list CF) : env CF := set_unknowns (upd rho path_variable t) unknowns x.

  (** System::EvalInPlace and JacobianInPlace after that (SysCache.v, C82), for a system without patch; [None]: a function or
      derivative is not defined there *)
  Definition function_values (t : CF) (x : list CF) : option (list CF) := sequence (map (eval fs (placed t x)) functions).
  Definition jacobian_matrix (t : CF) (x : list CF) : option (list (list CF)) :=
    sequence (map (fun f => sequence (map (fun v => eval fs (placed t x) (differentiate v f)) unknowns)) functions).

  (** Eigen's choice of pivots, and whether LUPartialPivotDecompositionSuccessful (LuCheck.v) accepts the decomposition *)
  Variable pick : list CF -> nat.
  Variable lu_accepts : list (list CF) -> bool.

  (** NewtonCorrector::EvalIterationStep, include/bertini2/trackers/newton_corrector.hpp:340-362.  Where a value is not
      defined the step fails here. *)
  Definition iteration_step (t : CF) (x : list CF) : option (list CF) :=
    match function_values t x, jacobian_matrix t x with
    | Some f, Some J => if lu_accepts J then Some (lu_solve pick J (map fopp f)) else None
    | _, _ => None
    end.

  (** NewtonCorrector::Correct with it, newton_corrector.hpp:140-170: the fixed precision overload has no further criteria *)
  Definition system_corrector (tol : R) (min max : Z) : nat -> list CF -> C -> code * list CF :=
    newton_corrector vplus vnorm (fun _ t _ x => iteration_step t x)
      (fun _ _ _ _ => true) tol min max.

  (** ** Specification *)

  (** the point [x] has as many coordinates as there are unknowns, and the functions vanish there at the time [t] *)
  Definition solution (t : CF) (x : list CF) : Prop :=
    length x = length unknowns /\ Forall (fun f => eval fs (placed t x) f = Some f0) functions.

  (** at the time [t] the functions are defined, the values determine the point, and the linear solver accepts the matrix *)
  Definition regular_at (t : CF) : Prop :=
    (exists x v, length x = length unknowns /\ function_values t x = Some v) /\
    (forall x y, length x = length unknowns -> length y = length unknowns -> function_values t x = function_values t y -> x = y) /\
    (forall x J, length x = length unknowns -> jacobian_matrix t x = Some J -> lu_accepts J = true).
End Model.

(** ** Proofs: a tracker whose corrector always succeeds reaches the end *)
Section Complete.
  Context {P : Type}.
  Variable cfg : stepping.
  Variable start endt : C.
  Variable eps : Z -> R.
  Variable truncation : bool.
  Variable going : nat -> P -> bool.
  Variable predict : nat -> P -> C -> C -> code * P.
  Variable correct : nat -> P -> C -> code * P.
  Variable good : C -> P -> Prop.
  Hypothesis step_good : forall n x t d, on_segment start endt t -> on_segment start endt (t + d)%C -> good t x ->
    exists y z, predict n x t d = (Success, y) /\ correct n y (t + d)%C = (Success, z) /\ good (t + d)%C z /\
      truncation && going n z = false.
  Local Notation frun := (run endt eps truncation going (fixed_pre cfg) (fixed_iterate cfg predict correct) fixed_on_fail).

  Lemma fixed_complete : forall m n s, 0 < step s -> min_step_size cfg <= step s -> on_segment start endt (time s) ->
    good (time s) (space s) -> Cmod (endt - time s)%C <= INR m * step s -> (nsucc s + m <= max_num_steps cfg)%nat ->
    exists l s', frun (S m) n s = (l, Finished Success s') /\ In s' l /\ nfail s' = nfail s /\ prec s' = prec s /\
      (nsucc s' <= nsucc s + m)%nat /\ Forall (fun q => on_segment start endt (time q) /\ good (time q) (space q)) l.
  Proof.
    assert (Stop_ : forall m n s, close (time s) endt (eps (prec s)) = true -> on_segment start endt (time s) -> good (time s) (space s) ->
      exists l s', frun (S m) n s = (l, Finished Success s') /\ In s' l /\ nfail s' = nfail s /\ prec s' = prec s /\
      (nsucc s' <= nsucc s + m)%nat /\ Forall (fun q => on_segment start endt (time q) /\ good (time q) (space q)) l).
    { intros m n s Cl Hs Hg. exists [s], s. cbn [run]. unfold turn. rewrite Cl. split; [reflexivity|].
      split; [left; reflexivity|]. repeat split; [lia|]. repeat constructor; assumption. }
    induction m as [|m IH]; intros n s Hh Hm Hs Hg HD HN.
    - apply Stop_; try assumption. apply close_within. left. cbn in HD.
      assert (E : Cmod (endt - time s)%C = 0) by (pose proof (Cmod_ge_0 (endt - time s)%C); lra).
      apply Cmod_eq_0 in E. symmetry. replace endt with ((endt - time s) + time s)%C by ring. rewrite E. ring.
    - destruct (close (time s) endt (eps (prec s))) eqn:Cl; [apply Stop_; assumption|].
      assert (Ne : time s <> endt). { intro E. assert (close (time s) endt (eps (prec s)) = true) by (apply close_within; left; exact E). congruence. }
      set (d := next_delta (time s) endt (step s)).
      destruct (next_delta_spec (time s) endt (step s) ltac:(lra) Ne) as [Hd _]. fold d in Hd.
      pose proof (on_segment_step start endt (time s) (step s) ltac:(lra) Ne Hs) as Hs'. fold d in Hs'.
      destruct (step_good n (space s) (time s) d Hs Hs' Hg) as [y [z [Py [Cz [Gz Tz]]]]].
      set (s1 := on_success (set_space (set_delta s d) z)).
      assert (T : turn endt eps truncation going (fixed_pre cfg) (fixed_iterate cfg predict correct) fixed_on_fail n s = Go s1).
      { unfold turn. rewrite Cl. assert (Pr : fixed_pre cfg s = Success).
        { unfold fixed_pre. destruct (Nat.leb_spec (max_num_steps cfg) (nsucc s)); [lia|].
          destruct (Rlt_dec (step s) (min_step_size cfg)); [lra|reflexivity]. }
        rewrite Pr. cbn [is_success]. fold d. unfold fixed_iterate. cbn [space time delta set_delta]. rewrite Py. cbn [is_success negb].
        rewrite Cz. cbn [space set_space]. rewrite Tz. reflexivity. }
      destruct (IH (S n) s1) as [l [s' [R [Hi [Hf [Hp [Hn Ha]]]]]]]; subst s1; cbn [step time space nsucc on_success set_space set_delta]; try assumption.
      + change (Cmod (endt - (time s + d))%C <= INR m * step s). rewrite Hd. rewrite S_INR in HD. unfold Rmin. destruct (Rle_dec (step s) (Cmod (endt - time s)%C)) as [L|L]; [lra|].
        rewrite Rminus_eq_0. apply Rmult_le_pos; [apply pos_INR|lra].
      + lia.
      + exists (s :: l), s'. remember (S m) as k. cbn [run]. rewrite T, R. subst k. split; [reflexivity|]. split; [right; exact Hi|].
        split; [exact Hf|]. split; [exact Hp|]. split; [cbn in Hn; lia|]. constructor; [split; assumption|exact Ha].
  Qed.
End Complete.

Lemma vplus_cons : forall (a b : CF) x y, vplus (a :: x) (b :: y) = (a + b)%F :: vplus x y.
Proof. reflexivity. Qed.
Lemma vplus_length_min : forall x y, length (vplus x y) = Nat.min (length x) (length y).
Proof. intros. unfold vplus, Endgame.vadd. rewrite map_length. apply combine_length. Qed.
Lemma vnorm_zero : forall n, vnorm (repeat f0 n) = 0.
Proof.
  intro n. unfold vnorm. change (@f0 CF) with (RtoC 0). induction n as [|n IH]; cbn [repeat Endgame.linf]; [reflexivity|].
  rewrite IH, Cmod_0. apply Rmax_left. lra.
Qed.

(** ** Proofs: the corrector *)
Section Corrector.
  Local Open Scope fld_scope.
  Add Field linpath_field : (f_th CF).
  Local Opaque CF.
  Variable fs : funs CF.
  Variable rho : env CF.
  Variable fl : list (expr CF).
  Variable vs : list nat.
  Variable tv : nat.
  Hypothesis Hnd : NoDup vs.
  Hypothesis Hlin : Forall (linear vs) fl.
  Hypothesis Hsq : length fl = length vs.
  Variable pick : list CF -> nat.
  Variable lu_accepts : list (list CF) -> bool.
  Hypothesis Hpick : picks_nonzero pick.
  Local Notation N := (length vs).
  Local Notation at_ := (placed rho vs tv).
  Local Notation vals := (function_values fs rho fl vs tv).

  Lemma set_unknowns_other : forall us r x v, ~ In v us -> set_unknowns r us x v = r v.
  Proof.
    induction us as [|u us IH]; intros r [|a x] v Hv; cbn [set_unknowns]; try reflexivity. unfold upd.
    destruct (Nat.eq_dec v u) as [->|]; [elim Hv; left; reflexivity|]. apply IH. intro. apply Hv. right. assumption.
  Qed.

  Lemma placed_elsewhere : forall t x y, same_elsewhere vs (at_ t x) (at_ t y).
  Proof. intros t x y v Hv. unfold placed. rewrite !set_unknowns_other by exact Hv. reflexivity. Qed.

  (** the combination of coordinates with coefficients is the inner product *)
  Lemma combination_inner : forall us r (a : nat -> CF) x y, NoDup us -> length x = length us -> length y = length us ->
    combination us a (fun v => set_unknowns r us y v - set_unknowns r us x v) = inner (map a us) y - inner (map a us) x.
  Proof.
    clear Hsq Hlin Hnd. induction us as [|u us IH]; intros r a x y Hd Hx Hy; destruct x as [|p x]; destruct y as [|q y]; try discriminate; cbn [combination map inner]; [ring|].
    inversion Hd; subst. cbn [set_unknowns].
    assert (E1 : forall b (z : list CF), upd (set_unknowns r us z) u b u = b) by (intros; unfold upd; destruct (Nat.eq_dec u u); [reflexivity|contradiction]).
    rewrite !E1.
    assert (E : forall d e, (forall v, In v us -> d v = e v) -> combination us a d = combination us a e).
    { clear. induction us as [|w us IH]; intros d e H; cbn; [reflexivity|]. rewrite (H w (or_introl eq_refl)), (IH d e); [reflexivity|].
      intros v Hv. apply H. right. exact Hv. }
    rewrite (E _ (fun v => set_unknowns r us y v - set_unknowns r us x v)).
    - rewrite IH; [ring|assumption|cbn in Hx; lia|cbn in Hy; lia].
    - intros v Hv. unfold upd. destruct (Nat.eq_dec v u) as [->|]; [contradiction|reflexivity].
  Qed.

  (** rows and constants of the functions at a time *)
  Definition affine_at (t : CF) (A : list (list CF)) (b : list CF) : Prop :=
    length A = length fl /\ length b = length fl /\ Forall (fun r => length r = N) A /\
    forall x, length x = N ->
      vals t x = Some (map (fun p => inner (fst p) x + snd p) (combine A b)) /\
      jacobian_matrix fs rho fl vs tv t x = Some A.

  Lemma sequence_some : forall (X Y : Type) (f : X -> option Y) (g : X -> Y) l, (forall x, In x l -> f x = Some (g x)) ->
    sequence (map f l) = Some (map g l).
  Proof.
    intros X Y f g l. induction l as [|x l IH]; intro H; cbn; [reflexivity|].
    rewrite (H x (or_introl eq_refl)), IH; [reflexivity|]. intros y Hy. apply H. right. exact Hy.
  Qed.

  Lemma affine_exists : forall t x0 v, length x0 = N -> vals t x0 = Some v -> exists A b, affine_at t A b.
  Proof.
    unfold affine_at, function_values, jacobian_matrix. intros t x0 v Hx0. clear Hsq. revert v.
    induction fl as [|f l IH]; intros v Hv.
    - exists [], []. repeat split; constructor.
    - inversion Hlin as [|? ? Hf Hl]; subst. cbn [map sequence] in Hv. destruct (eval fs (at_ t x0) f) as [y|] eqn:Ey; [|discriminate].
      destruct (sequence (map (eval fs (at_ t x0)) l)) as [v'|]; [|discriminate].
      destruct (IH Hl v' eq_refl) as [A [b [HA [Hb [Hr Hval]]]]].
      (* the coefficients at x0, used for every x *)
      assert (D : exists a, forall x, length x = N -> eval fs (at_ t x) f = Some (y + (inner (map a vs) x - inner (map a vs) x0)) /\
                    forall w, In w vs -> eval fs (at_ t x) (differentiate w f) = Some (a w)).
      { destruct (linear_values fs vs f (at_ t x0) (at_ t x0) y Hnd Hf (placed_elsewhere t x0 x0) Ey) as [a [_ Ha]].
        exists a. intros x Hx.
        destruct (linear_values fs vs f (at_ t x0) (at_ t x) y Hnd Hf (placed_elsewhere t x0 x) Ey) as [a' [A1 A2]].
        assert (Eq : forall w, In w vs -> a' w = a w).
        { intros w Hw. destruct (Ha w Hw) as [B1 _]. destruct (A2 w Hw) as [B2 _]. rewrite B1 in B2. exact (f_equal (fun o => match o with Some z => z | None => f0 end) (eq_sym B2)). }
        split.
        - rewrite A1. f_equal. f_equal. rewrite (combination_ext vs a' a) by exact Eq. apply combination_inner; assumption.
        - intros w Hw. rewrite <- (Eq w Hw). apply (A2 w Hw). }
      destruct D as [a Da].
      exists (map a vs :: A), (y - inner (map a vs) x0 :: b). split; [cbn; f_equal; exact HA|]. split; [cbn; f_equal; exact Hb|].
      split; [constructor; [apply map_length|exact Hr]|]. intros x Hx. destruct (Hval x Hx) as [V J]. destruct (Da x Hx) as [V1 J1].
      cbn [map sequence combine fst snd]. rewrite V1, V, J. rewrite (sequence_some _ _ _ a vs J1).
      split; [|reflexivity]. f_equal. f_equal. ring.
  Qed.

  Lemma affine_regular : forall t A b, affine_at t A b ->
    (forall x y, length x = N -> length y = N -> vals t x = vals t y -> x = y) -> regular N A.
  Proof.
    intros t A b [HA [Hb [Hr Hv]]] Hi y Hy H0.
    apply (Hi y (repeat f0 N)); [exact Hy|apply repeat_length|].
    destruct (Hv y Hy) as [E1 _]. destruct (Hv (repeat f0 N) (repeat_length _ _)) as [E2 _]. rewrite E1, E2. f_equal.
    apply map_ext_in. intros [r c] Hin. cbn [fst snd]. rewrite inner_zero. f_equal. apply H0.
    exact (in_combine_l _ _ _ _ Hin).
  Qed.

  Lemma inner_vadd : forall r (x y : list CF), length x = length r -> length y = length r ->
    inner r (vplus x y) = inner r x + inner r y.
  Proof.
    induction r as [|p r IH]; intros [|a x] [|b y] Hx Hy; try discriminate; cbn [inner]; [ring|].
    rewrite vplus_cons. cbn [inner].
    rewrite IH; [ring| |]; [injection Hx as Hx; exact Hx|injection Hy as Hy; exact Hy].
  Qed.

  Lemma vadd_length : forall n (x y : list CF), length x = n -> length y = n -> length (vplus x y) = n.
  Proof. intros n x y Hx Hy. rewrite vplus_length_min, Hx, Hy. apply Nat.min_id. Qed.

  Lemma vadd_zero : forall n (x : list CF), length x = n -> vplus x (repeat f0 n) = x.
  Proof.
    induction n as [|n IH]; intros [|a x] Hx; try discriminate; [reflexivity|]. cbn [repeat].
    rewrite vplus_cons, IH by (injection Hx as Hx; exact Hx). f_equal. ring.
  Qed.

  Local Notation step_ := (iteration_step fs rho fl vs tv pick lu_accepts).
  Local Notation sol := (solution fs rho fl vs tv).
  Local Notation reg := (regular_at fs rho fl vs tv lu_accepts).

  Lemma solution_iff : forall t A b x, affine_at t A b -> length x = N ->
    (sol t x <-> forall r c, In (r, c) (combine A b) -> inner r x + c = f0).
  Proof.
    intros t A b x [HA [Hb [Hr Hv]]] Hx. destruct (Hv x Hx) as [V _]. unfold function_values in V.
    unfold solution. transitivity (Forall (fun f => eval fs (at_ t x) f = Some f0) fl); [tauto|].
    assert (G : forall (l : list (expr CF)) (w : list (list CF * CF)), sequence (map (eval fs (at_ t x)) l) = Some (map (fun p => inner (fst p) x + snd p) w) ->
      (Forall (fun f => eval fs (at_ t x) f = Some f0) l <-> forall r c, In (r, c) w -> inner r x + c = f0)).
    { clear. induction l as [|f l IH]; intros [|[r c] w] E; cbn [map sequence] in E.
      - split; [intros _ ? ? []|constructor].
      - discriminate.
      - destruct (eval fs _ f); [|discriminate]. destruct (sequence _); discriminate.
      - destruct (eval fs (at_ t x) f) as [y|] eqn:Ey; [|discriminate]. destruct (sequence (map _ l)) as [v|] eqn:Es; [|discriminate].
        assert (E1 : y = inner r x + c) by exact (f_equal (fun o => match o with Some (z :: _) => z | _ => f0 end) E).
        assert (E2 : v = map (fun p => inner (fst p) x + snd p) w) by exact (f_equal (fun o => match o with Some (_ :: z) => z | _ => [] end) E).
        clear E. subst v. specialize (IH w eq_refl). split.
        + intros H r' c' [Hi|Hi].
          * injection Hi as <- <-. inversion H; subst. rewrite Ey in H2. exact (f_equal (fun o => match o with Some z => z | _ => f0 end) H2).
          * inversion H; subst. apply IH; assumption.
        + intro H. constructor.
          * rewrite Ey. f_equal. rewrite E1. apply H. left. reflexivity.
          * apply IH. intros r' c' Hi. apply H. right. exact Hi. }
    apply G. exact V.
  Qed.

  (** one iteration from anywhere gives the solution, and from a solution it does not move *)
  Lemma one_step : forall t x, reg t -> length x = N -> exists d, step_ t x = Some d /\ length d = N /\
    sol t (vplus x d) /\ (sol t x -> d = repeat f0 N).
  Proof.
    intros t x [[x0 [v [Hx0 Hv]]] [Hi Hl]] Hx. destruct (affine_exists t x0 v Hx0 Hv) as [A [b Hab]].
    pose proof (affine_regular t A b Hab Hi) as Hreg. pose proof Hab as [HA [Hb [Hr Hval]]]. destruct (Hval x Hx) as [V J].
    unfold iteration_step. rewrite V, J, (Hl x A Hx J).
    set (f := map (fun p => inner (fst p) x + snd p) (combine A b)).
    assert (Lf : length (map fopp f) = N).
    { rewrite map_length. unfold f. rewrite map_length. etransitivity; [exact (combine_length A b)|]. rewrite <- Hsq.
      transitivity (Nat.min (length fl) (length fl)); [f_equal; assumption|apply Nat.min_id]. }
    destruct (lu_solve_ok pick Hpick N A (map fopp f)) as [Ld Hd]; [rewrite <- Hsq; exact HA|exact Lf|exact Hr|exact Hreg|].
    assert (Hrow : forall r c, In (r, c) (combine A b) -> inner r (lu_solve pick A (map fopp f)) = - (inner r x + c)).
    { intros r c Hin. apply In_nth_error in Hin. destruct Hin as [i Hin].
      assert (Ei : nth_error A i = Some r /\ nth_error b i = Some c).
      { clear - Hin. revert i b Hin. induction A as [|r0 A IH]; intros i [|c0 b] Hin; try (destruct i; discriminate).
        destruct i; cbn in *; [|apply IH; exact Hin].
        split; f_equal; [exact (f_equal (fun o => match o with Some (z, _) => z | _ => [] end) Hin)|exact (f_equal (fun o => match o with Some (_, z) => z | _ => f0 end) Hin)]. }
      destruct Ei as [E1 E2]. apply (Hd i); [exact E1|]. unfold f. rewrite map_map.
      rewrite (map_nth_error (fun p => - (inner (fst p) x + snd p)) i (combine A b) Hin). reflexivity. }
    eexists. split; [reflexivity|]. split; [exact Ld|]. split.
    - apply (solution_iff t A b); [exact Hab|apply vadd_length; assumption|]. intros r c Hin.
      assert (Lr : length r = N) by (rewrite Forall_forall in Hr; apply Hr; exact (in_combine_l _ _ _ _ Hin)).
      rewrite inner_vadd by (rewrite Lr; assumption). rewrite (Hrow r c Hin). ring.
    - intro Hs0. pose proof (proj1 (solution_iff t A b x Hab Hx) Hs0) as Hs. apply Hreg; [exact Ld|]. intros r Hin.
      apply In_nth_error in Hin. destruct Hin as [i Hin].
      assert (Hc : exists c, In (r, c) (combine A b)).
      { assert (Hbl : length b = length A) by (rewrite Hb; symmetry; exact HA). clear - Hin Hbl. revert i b Hin Hbl.
        induction A as [|r0 A IH]; intros i [|c0 b] Hin Hbl; try (destruct i; discriminate); try discriminate.
        destruct i; cbn in Hin.
        - exists c0. left. f_equal. exact (f_equal (fun o => match o with Some z => z | _ => [] end) Hin).
        - destruct (IH i b Hin) as [c Hc]; [injection Hbl as Hbl; exact Hbl|]. exists c. right. exact Hc. }
      destruct Hc as [c Hc]. rewrite (Hrow r c Hc), (Hs r c Hc). ring.
  Qed.

  Lemma solution_unique : forall t x y, reg t -> sol t x -> sol t y -> x = y.
  Proof.
    intros t x y [_ [Hi _]] [Lx Sx] [Ly Sy]. apply Hi; try assumption. unfold function_values.
    assert (G : forall z, Forall (fun f => eval fs (at_ t z) f = Some f0) fl -> sequence (map (eval fs (at_ t z)) fl) = Some (map (fun _ => f0) fl)).
    { intros z Hz. apply sequence_some. rewrite Forall_forall in Hz. exact Hz. }
    rewrite (G x Sx), (G y Sy). reflexivity.
  Qed.

  Lemma solution_exists : forall t, reg t -> exists x, sol t x.
  Proof.
    intros t Hr. destruct (one_step t (repeat f0 N) Hr (repeat_length _ _)) as [d [_ [_ [Hs _]]]]. eexists. exact Hs.
  Qed.

  Lemma loop_at_solution : forall t tol min, reg t -> (0 < tol)%R -> (1 <= min < 2 ^ 32)%Z -> forall left ii x, sol t x -> (1 <= left)%nat ->
    (min <= Z.of_nat (ii + left))%Z ->
    exists k, newton_loop vplus vnorm (fun _ x => step_ t x) (fun _ _ => true) tol min left ii x = (Success, x, k).
  Proof.
    intros t tol min Hr Ht Hmin. assert (W : wrap32 (min - 1) = (min - 1)%Z) by (unfold wrap32; rewrite Z.mod_small; lia).
    induction left as [|left IH]; intros ii x Hs Hl Hm; [lia|]. cbn [newton_loop].
    destruct (one_step t x Hr (proj1 Hs)) as [d [Ed [_ [_ Hd]]]]. rewrite Ed. rewrite (Hd Hs).
    rewrite vadd_zero by exact (proj1 Hs). rewrite W.
    rewrite vnorm_zero. destruct (Rlt_dec 0 tol); [|lra]. cbn [andb].
    destruct (Z.leb_spec (min - 1) (Z.of_nat ii)); [eexists; reflexivity|].
    apply IH; [exact Hs|lia|lia].
  Qed.

  Lemma corrector_succeeds : forall t tol min max n y, reg t -> (0 < tol)%R -> (1 <= min <= max)%Z -> (2 <= max < 2 ^ 32)%Z -> length y = N ->
    exists z, system_corrector fs rho fl vs tv pick lu_accepts tol min max n y t = (Success, z) /\ sol t z.
  Proof.
    intros t tol min max n y Hr Ht Hmm Hmax Hy. unfold system_corrector, newton_corrector, newton.
    assert (W : wrap32 (min - 1) = (min - 1)%Z) by (unfold wrap32; rewrite Z.mod_small; lia).
    destruct (Z.to_nat max) as [|left] eqn:El; [lia|]. cbn [newton_loop].
    destruct (one_step t y Hr Hy) as [d [Ed [_ [Hs _]]]]. rewrite Ed.
    destruct ((if Rlt_dec (vnorm d) tol then true else false) && (wrap32 (min - 1) <=? Z.of_nat 0)%Z).
    - eexists. split; [reflexivity|exact Hs].
    - destruct (loop_at_solution t tol min Hr Ht ltac:(lia) left 1%nat (vplus y d) Hs ltac:(lia) ltac:(lia)) as [k E].
      rewrite E. eexists. split; [reflexivity|exact Hs].
  Qed.

  (** the run *)
  Theorem linear_path_tracked : forall cfg start endt eps truncation going predict tol min max re carried p x0 m,
    (forall t, on_segment start endt t -> reg t) ->
    (forall n x t d, length x = N -> exists y, predict n x t d = (Success, y) /\ length y = N) ->
    (forall n t z, on_segment start endt t -> sol t z -> truncation && going n z = false) ->
    (0 < tol)%R -> (1 <= min <= max)%Z -> (2 <= max < 2 ^ 32)%Z ->
    let h := first_step cfg re carried start endt in
    (0 < h)%R -> (min_step_size cfg <= h)%R -> (Cmod (endt - start)%C <= INR m * h)%R -> (m <= max_num_steps cfg)%nat ->
    length x0 = N ->
    forall fuel, (m < fuel)%nat ->
    exists visited s,
      fixed_track cfg endt eps truncation going predict (system_corrector fs rho fl vs tv pick lu_accepts tol min max) fuel re carried p start x0
        = (visited, Finished Success s) /\
      In s visited /\ within (time s) endt (eps p) /\ nfail s = 0%nat /\ (nsucc s <= m)%nat /\
      Forall (fun q => on_segment start endt (time q) /\ (time q = start /\ space q = x0 \/ sol (time q) (space q))) visited.
  Proof.
    intros cfg start endt eps truncation going predict tol min max re carried p x0 m Hr Hp Hg Ht Hmm Hmax h Hh Hm HD HN Hx0 fuel Hfuel.
    destruct (fixed_complete cfg start endt eps truncation going predict (system_corrector fs rho fl vs tv pick lu_accepts tol min max)
      (fun t x => length x = N /\ (t = start /\ x = x0 \/ sol t x))) with (m := m) (n := 0%nat) (s := fixed_init cfg endt re carried p start x0)
      as [l [s [R [Hi [Hf [Hpr [Hn Ha]]]]]]].
    - intros n x t d H1 H2 [Lx _]. destruct (Hp n x t d Lx) as [y [Ey Ly]].
      destruct (corrector_succeeds (t + d)%C tol min max n y (Hr _ H2) Ht Hmm Hmax Ly) as [z [Ez Sz]].
      exists y, z. split; [exact Ey|]. split; [exact Ez|]. split; [split; [exact (proj1 Sz)|right; exact Sz]|]. exact (Hg n _ z H2 Sz).
    - exact Hh.
    - exact Hm.
    - apply on_segment_start.
    - split; [exact Hx0|]. left. split; reflexivity.
    - exact HD.
    - exact HN.
    - exists l, s. assert (R' := run_more _ _ _ _ _ _ _ _ _ _ _ _ _ R fuel Hfuel). split; [exact R'|]. split; [exact Hi|].
      pose proof (run_success _ _ _ _ _ _ _ _ _ _ _ _ R) as [_ W]. cbn in Hf, Hpr, Hn. rewrite Hpr in W. split; [exact W|]. split; [exact Hf|]. split; [exact Hn|].
      apply Forall_forall. rewrite Forall_forall in Ha. intros q Hq. destruct (Ha q Hq) as [H1 [_ H2]]. split; assumption.
  Qed.

  (** towards 0 the run ends at the only solution there *)
  Theorem linear_path_to_zero : forall cfg start eps truncation going predict tol min max re carried p x0 m,
    (forall t, on_segment start (RtoC 0) t -> reg t) ->
    (forall n x t d, length x = N -> exists y, predict n x t d = (Success, y) /\ length y = N) ->
    (forall n t z, on_segment start (RtoC 0) t -> sol t z -> truncation && going n z = false) ->
    (0 < tol)%R -> (1 <= min <= max)%Z -> (2 <= max < 2 ^ 32)%Z ->
    let h := first_step cfg re carried start (RtoC 0) in
    (0 < h)%R -> (min_step_size cfg <= h)%R -> (Cmod start <= INR m * h)%R -> (m <= max_num_steps cfg)%nat ->
    length x0 = N -> start <> (RtoC 0) -> (eps p < 1)%R ->
    forall fuel, (m < fuel)%nat ->
    exists visited s,
      fixed_track cfg (RtoC 0) eps truncation going predict (system_corrector fs rho fl vs tv pick lu_accepts tol min max) fuel re carried p start x0
        = (visited, Finished Success s) /\ time s = (RtoC 0) /\ sol (RtoC 0) (space s) /\ (forall z, sol (RtoC 0) z -> z = space s).
  Proof.
    intros cfg start eps truncation going predict tol min max re carried p x0 m Hr Hp Hg Ht Hmm Hmax h Hh Hm HD HN Hx0 Hst He fuel Hfuel.
    destruct (linear_path_tracked cfg start (RtoC 0) eps truncation going predict tol min max re carried p x0 m Hr Hp Hg Ht Hmm Hmax Hh Hm) with (fuel := fuel)
      as [l [s [R [Hi [W [_ [_ Ha]]]]]]]; try assumption.
    { replace (RtoC 0 - start)%C with (- start)%C by ring. rewrite Cmod_opp. exact HD. }
    exists l, s. split; [exact R|].
    assert (Tz : time s = (RtoC 0)).
    { destruct W as [W|[[Nz W]|[Nz _]]]; [exact W| |elim Nz; reflexivity]. exfalso.
      replace (time s - RtoC 0)%C with (time s) in W by ring. assert (0 < Cmod (time s))%R by (apply Cmod_gt_0; exact Nz). nra. }
    rewrite Forall_forall in Ha. destruct (Ha s Hi) as [Hs Hc].
    assert (S0 : sol (RtoC 0) (space s)). { destruct Hc as [[Hc _]|Hc]; [exfalso; apply Hst; rewrite <- Hc; exact Tz|]. rewrite Tz in Hc. exact Hc. }
    split; [exact Tz|]. split; [exact S0|]. intros z Hz. rewrite Tz in Hs. exact (solution_unique (RtoC 0) z (space s) (Hr _ Hs) Hz S0).
  Qed.
End Corrector.
