(** Arithmetic, copies and methods of systems: consequences of SysState.v, and histories for which the answers of a
    system are wrong. *)
From Coq Require Import ZArith List Arith Lia Bool.
From Verif Require Import Base Expr Diff Homog StartIndex SysState.
Import ListNotations.
Local Open Scope fld_scope.

Section SysArith.
  Context {F : fld}.
  Add Field sys_arith_field : (f_th F).

  (** * Specification *)

  (** The world [w] was reached by a history observing the rules of [careful]. *)
  Definition reached (fs : funs F) (simp : expr F -> expr F) (mp : bool) (w : world) : Prop :=
    exists h v l, careful_run fs simp mp (start h v) l /\ run fs simp mp (start h v) l = Some w.

  (** Operations on values; a function without a value gives none. *)
  Definition both (f : F -> F -> F) (a b : entry F) : entry F :=
    match a, b with
    | Known (Some x), Known (Some y) => Known (Some (f x y))
    | _, _ => Known None
    end.
  Definition pointwise (f : F -> F -> F) (l m : list (entry F)) : list (entry F) :=
    map (fun p => both f (fst p) (snd p)) (combine l m).

  (** The two systems, in their worlds, have the same functions, variables and path variable. *)
  Definition same_functions (w w' : world (F := F)) (s s' : nat) : Prop :=
    map (heap w) (fns (sys w s)) = map (heap w') (fns (sys w' s')) /\
    vars (sys w s) = vars (sys w' s') /\ path (sys w s) = path (sys w' s').

  (** The same values, and derivatives with the same values where the derivative [expected] has a value *)
  Definition same_answers (fs : funs F) (simp simp' : expr F -> expr F) (mp mp' : bool) (w w' : world) (s s' : nat) : Prop :=
    forall x t, acceptable (sys w s) x t = true ->
      acceptable (sys w' s') x t = true /\
      (exists w1 w2 l, eval_system fs simp mp w s x t = Value (w1, l) /\ eval_system fs simp' mp' w' s' x t = Value (w2, l)) /\
      (exists w1 w2 m m', jacobian_system fs simp mp w s x t = Value (w1, m) /\ jacobian_system fs simp' mp' w' s' x t = Value (w2, m') /\
         Forall2 (Forall2 agrees) (jacobian_values fs w s x t) m /\ Forall2 (Forall2 agrees) (jacobian_values fs w s x t) m').

  (** * Proofs *)

  Lemma reached_good : forall fs simp mp w, reached fs simp mp w -> all_good simp mp w.
  Proof.
    intros fs simp mp w (h & v & l & C & R). destruct (run_good fs simp mp l _ (start_good simp mp h v) C) as (w' & E & A).
    rewrite R in E. now injection E as <-.
  Qed.

  Lemma reached_right : forall fs simp mp w s, simp_ok fs simp -> reached fs simp mp w -> self_contained w s ->
    evaluates_right fs simp mp w s.
  Proof. intros fs simp mp w s SO R. apply good_evaluates; [exact SO|]. now apply (reached_good fs). Qed.

  Lemma reached_step : forall fs simp mp w o w', reached fs simp mp w -> careful mp w o -> step fs simp mp w o = Value w' ->
    reached fs simp mp w'.
  Proof.
    intros fs simp mp w o w' (h & v & l & C & R) Co E. exists h, v, (l ++ [o]). revert C R.
    generalize (start (F := F) h v) as w0. induction l as [|o' l IH]; intros w0 C R; cbn in *.
    - injection R as ->. rewrite E. auto.
    - destruct C as [C1 C2]. destruct (step fs simp mp w0 o') as [w1| |]; [| |discriminate].
      + destruct (IH w1 C2 R) as [A B]. auto.
      + destruct (IH w0 C2 R) as [A B]. auto.
  Qed.

  Lemma same_answers_ok : forall fs simp simp' mp mp' w w' s s', simp_ok fs simp -> simp_ok fs simp' ->
    reached fs simp mp w -> reached fs simp' mp' w' -> self_contained w s -> same_functions w w' s s' ->
    same_answers fs simp simp' mp mp' w w' s s'.
  Proof.
    intros fs simp simp' mp mp' w w' s s' SO SO' R R' SC (Ef & Ev & Ep) x t A.
    assert (A' : acceptable (sys w' s') x t = true) by (unfold acceptable in *; now rewrite <- Ev, <- Ep).
    assert (SC' : self_contained w' s').
    { intros k I v O. rewrite <- Ev, <- Ep. apply (in_map (heap w')) in I. rewrite <- Ef in I. apply in_map_iff in I.
      destruct I as (k0 & Ek & I). apply (SC k0 I). now rewrite Ek. }
    assert (Pt : at_point (sys w s) x t (fun _ => f0) = at_point (sys w' s') x t (fun _ => f0)) by (unfold at_point; now rewrite Ev, Ep).
    split; [exact A'|].
    destruct (reached_right fs simp mp w s SO R SC x t A) as [(w1 & E1) (w2 & m & E2 & F2)].
    destruct (reached_right fs simp' mp' w' s' SO' R' SC' x t A') as [(w1' & E1') (w2' & m' & E2' & F2')].
    assert (Fv : function_values fs w' s' x t = function_values fs w s x t).
    { unfold function_values. rewrite <- Pt.
      rewrite <- (map_map (heap w') (fun e => Known (eval fs _ e))), <- (map_map (heap w) (fun e => Known (eval fs _ e))).
      now rewrite Ef. }
    assert (Jv : jacobian_values fs w' s' x t = jacobian_values fs w s x t).
    { unfold jacobian_values. rewrite <- Pt, <- Ev.
      rewrite <- (map_map (heap w') (fun e => map (fun v => Known (eval fs _ (differentiate v e))) _)),
              <- (map_map (heap w) (fun e => map (fun v => Known (eval fs _ (differentiate v e))) _)).
      now rewrite Ef. }
    split.
    - exists w1, w1', (function_values fs w s x t). rewrite E1, E1', Fv. auto.
    - exists w2, w2', m, m'. rewrite Jv in F2'. auto.
  Qed.

  (** ** Copies *)

  Lemma copies_ok : forall fs simp mp w o d a w', simp_ok fs simp -> reached fs simp mp w -> self_contained w a ->
    In o [CopyConstruct d a; CopyAssign d a; MoveConstruct d a] -> copyable (sys w a) -> step fs simp mp w o = Value w' ->
    same_answers fs simp simp mp mp w w' a d.
  Proof.
    intros fs simp mp w o d a w' SO R SC I C E. apply same_answers_ok; auto.
    - apply (reached_step fs simp mp w o w' R); [|exact E]. destruct I as [<-|[<-|[<-|[]]]]; exact C.
    - destruct I as [<-|[<-|[<-|[]]]]; injection E as <-; repeat split; cbn; rewrite Nat.eqb_refl; reflexivity.
  Qed.

  Lemma move_assign_ok : forall fs simp mp w d a w', simp_ok fs simp -> reached fs simp mp w -> self_contained w a ->
    step fs simp mp w (MoveAssign d a) = Value w' -> same_answers fs simp simp mp mp w w' a d.
  Proof.
    intros fs simp mp w d a w' SO R SC E. apply same_answers_ok; auto.
    - apply (reached_step fs simp mp w (MoveAssign d a) w' R); [exact I|exact E].
    - cbn in E. destruct (Nat.eqb_spec d a); injection E as <-; subst; repeat split; cbn; rewrite Nat.eqb_refl; reflexivity.
  Qed.

  Lemma swap_ok : forall fs simp mp w a b w', simp_ok fs simp -> reached fs simp mp w -> self_contained w a -> self_contained w b ->
    a <> b -> careful mp w (Swap a b) -> step fs simp mp w (Swap a b) = Value w' ->
    same_answers fs simp simp mp mp w w' a b /\ same_answers fs simp simp mp mp w w' b a.
  Proof.
    intros fs simp mp w a b w' SO R SCa SCb N C E.
    pose proof (reached_step fs simp mp w (Swap a b) w' R C E) as R'. cbn in E. injection E as <-.
    split; apply same_answers_ok; auto; repeat split; cbn; rewrite ?Nat.eqb_refl; try reflexivity;
      apply Nat.eqb_neq in N; rewrite N; reflexivity.
  Qed.

  (** ** Sums and products *)

  Lemma add_functions_at : forall la lb (h : nat -> expr F) i a b, NoDup la -> (forall k, In k la -> ~ In k lb) ->
    nth_error la i = Some a -> nth_error lb i = Some b -> add_functions h la lb a = Sum [(true, h b); (true, h a)].
  Proof.
    induction la as [|a0 la IH]; intros lb h i a b N Dj Ea Eb; [destruct i; discriminate|].
    destruct lb as [|b0 lb]; [destruct i; discriminate|]. inversion N; subst. destruct i as [|i]; cbn in Ea, Eb |- *.
    - injection Ea as ->. injection Eb as ->. rewrite add_functions_other by assumption. now rewrite Nat.eqb_refl.
    - assert (Ia : In a la) by (eapply nth_error_In; exact Ea). assert (Ib : In b lb) by (eapply nth_error_In; exact Eb).
      rewrite (IH lb _ i a b); auto.
      + destruct (Nat.eqb_spec b a0); [subst; destruct (Dj a0); [now left|now right]|].
        destruct (Nat.eqb_spec a a0); [subst; contradiction|]. reflexivity.
      + intros k I J. apply (Dj k); now right.
  Qed.

  Lemma times_functions_at : forall n la (h : nat -> expr F) a, NoDup la -> In a la ->
    times_functions h n la a = Mul [(true, n); (true, h a)].
  Proof.
    intro n. induction la as [|a0 la IH]; intros h a N I; [destruct I|]. inversion N; subst. cbn. destruct I as [<-|I].
    - rewrite times_functions_other by assumption. now rewrite Nat.eqb_refl.
    - rewrite IH by assumption. destruct (Nat.eqb_spec a a0); [subst; contradiction|reflexivity].
  Qed.

  Lemma map_nth_ext : forall (A B : Type) (l : list A) (m : list B) (f : A -> B), length l = length m ->
    (forall i a, nth_error l i = Some a -> nth_error m i = Some (f a)) -> map f l = m.
  Proof.
    induction l as [|a l IH]; intros [|b m] f L H; try discriminate; [reflexivity|]. cbn. f_equal.
    - pose proof (H 0%nat a eq_refl) as E. cbn in E. congruence.
    - apply IH; [now injection L|]. intros i x E. apply (H (S i) x E).
  Qed.

  Lemma nth_error_combine : forall (A B : Type) (l : list A) (m : list B) i a b, nth_error l i = Some a -> nth_error m i = Some b ->
    nth_error (combine l m) i = Some (a, b).
  Proof.
    induction l as [|x l IH]; intros [|y m] [|i] a b Ea Eb; try discriminate; cbn in *; [congruence|]. now apply IH.
  Qed.

  Lemma eval_sum2 : forall fs rho (a b : expr F), @Known F (eval fs rho (Sum [(true, b); (true, a)]))
    = both fadd (Known (eval fs rho a)) (Known (eval fs rho b)).
  Proof.
    intros. cbn. destruct (eval fs rho a), (eval fs rho b); cbn; try reflexivity. f_equal. f_equal. ring.
  Qed.

  Lemma eval_mul2 : forall fs rho (a b : expr F), @Known F (eval fs rho (Mul [(true, b); (true, a)]))
    = both fmul (Known (eval fs rho b)) (Known (eval fs rho a)).
  Proof.
    intros. cbn. destruct (eval fs rho a), (eval fs rho b); cbn; try reflexivity. f_equal. f_equal. ring.
  Qed.

  (** What [d = a + b] and [a += b] do to the functions.  [d = a] is the latter. *)
  Lemma plus_assign_values : forall fs (w w' : world (F := F)) d yb la,
    plus_assign w d yb = Value w' -> fns (sys w d) = la -> NoDup la -> (forall k, In k la -> ~ In k (fns yb)) ->
    vars yb = vars (sys w d) -> path yb = path (sys w d) ->
    vars (sys w' d) = vars (sys w d) /\ path (sys w' d) = path (sys w d) /\ fns (sys w' d) = la /\
    (forall i, i <> d -> sys w' i = sys w i) /\ (forall k, ~ In k la -> heap w' k = heap w k) /\
    (forall i a b, nth_error la i = Some a -> nth_error (fns yb) i = Some b -> heap w' a = Sum [(true, heap w b); (true, heap w a)]) /\
    (length la <= length (fns yb))%nat /\
    forall x t, map (fun k => @Known F (eval fs (at_point (sys w' d) x t (fun _ => f0)) (heap w' k))) la
      = pointwise fadd (map (fun k => Known (eval fs (at_point (sys w d) x t (fun _ => f0)) (heap w k))) la)
                       (map (fun k => Known (eval fs (at_point yb x t (fun _ => f0)) (heap w k))) (fns yb)).
  Proof.
    intros fs w w' d yb la E <- N Dj Ev Ep. unfold plus_assign in E.
    destruct (negb (_ =? _)); [discriminate|]. destruct (negb (_ =? _)); [discriminate|]. destruct (patches_differ _ _); [discriminate|].
    destruct (length (fns yb) <? length (fns (sys w d)))%nat eqn:L; [discriminate|]. apply Nat.ltb_ge in L.
    set (w1 := match patch_of (sys w d), patch_of yb with None, Some q => set_sys w d (with_patch (sys w d) (Some q)) | _, _ => w end) in E.
    assert (H1 : heap w1 = heap w) by (unfold w1; destruct (patch_of (sys w d)), (patch_of yb); reflexivity).
    assert (S1 : vars (sys w1 d) = vars (sys w d) /\ path (sys w1 d) = path (sys w d) /\ fns (sys w1 d) = fns (sys w d) /\
                 forall i, i <> d -> sys w1 i = sys w i).
    { unfold w1. destruct (patch_of (sys w d)), (patch_of yb); auto. cbn. rewrite Nat.eqb_refl. cbn.
      repeat match goal with |- _ /\ _ => split end; auto. intros i Ni. apply Nat.eqb_neq in Ni. now rewrite Ni. }
    destruct S1 as (V1 & P1 & F1 & O1). injection E as <-. cbn [set_heap heap sys]. rewrite H1, V1, P1, F1.
    assert (At : forall i a b, nth_error (fns (sys w d)) i = Some a -> nth_error (fns yb) i = Some b ->
      add_functions (heap w) (fns (sys w d)) (fns yb) a = Sum [(true, heap w b); (true, heap w a)]).
    { intros i a b Ea Eb. now apply (add_functions_at _ _ _ i). }
    repeat match goal with |- _ /\ _ => split end; auto.
    - intros k Nk. now apply add_functions_other.
    - intros x t. apply map_nth_ext.
      + unfold pointwise. rewrite map_length, combine_length, !map_length. lia.
      + intros i a Ea. destruct (nth_error (fns yb) i) as [b|] eqn:Eb.
        * unfold pointwise.
          rewrite (map_nth_error _ i _ (nth_error_combine _ _ _ _ i _ _ (map_nth_error _ i _ Ea) (map_nth_error _ i _ Eb))).
          cbn [fst snd]. rewrite (At i a b Ea Eb), eval_sum2. do 2 f_equal; f_equal; unfold at_point; rewrite ?Ev, ?Ep, ?V1, ?P1; reflexivity.
        * apply nth_error_None in Eb. assert (i < length (fns (sys w d)))%nat by (apply nth_error_Some; congruence). lia.
  Qed.

  (** [d = a + b]: the values of the sum, and of the second operand. *)
  Lemma plus_ok : forall fs simp mp w w' d a b, simp_ok fs simp -> reached fs simp mp w ->
    self_contained w a -> self_contained w b -> NoDup (fns (sys w a)) ->
    (forall k, In k (fns (sys w a)) -> ~ In k (fns (sys w b))) ->
    vars (sys w b) = vars (sys w a) -> path (sys w b) = path (sys w a) -> d <> b ->
    careful mp w (Plus d a b) -> step fs simp mp w (Plus d a b) = Value w' ->
    evaluates_right fs simp mp w' d /\ evaluates_right fs simp mp w' b /\
    vars (sys w' d) = vars (sys w a) /\ path (sys w' d) = path (sys w a) /\ sys w' b = sys w b /\
    forall x t, function_values fs w' d x t = pointwise fadd (function_values fs w a x t) (function_values fs w b x t) /\
                function_values fs w' b x t = function_values fs w b x t.
  Proof.
    intros fs simp mp w w' d a b SO R SCa SCb N Dj Ev Ep Nd C E.
    pose proof (reached_step fs simp mp w _ w' R C E) as R'. cbn [step] in E.
    destruct (plus_assign_values fs _ _ d (sys w b) (fns (sys w a)) E) as (V & P & Fn & O & H & Hs & L & Vals); auto;
      rewrite ?set_sys_same; auto.
    rewrite set_sys_same in V, P. cbn in V, P.
    assert (Sb : sys w' b = sys w b) by (rewrite O by congruence; cbn; apply not_eq_sym, Nat.eqb_neq in Nd; now rewrite Nd).
    assert (Hb : forall k, In k (fns (sys w b)) -> heap w' k = heap w k) by (intros k I; apply H; intro J; now apply (Dj k)).
    assert (SCb' : self_contained w' b) by (intros k I v Oc; rewrite Sb in *; rewrite Hb in Oc by assumption; now apply (SCb k)).
    assert (SCd : self_contained w' d).
    { intros k I v Oc. rewrite V, P. rewrite Fn in I. destruct (In_nth_error _ _ I) as [i Ei].
      destruct (nth_error (fns (sys w b)) i) as [kb|] eqn:Eb.
      - cbn [set_sys heap] in Hs. rewrite (Hs i k kb Ei Eb) in Oc. inversion Oc; subst.
        match goal with H : In _ _ |- _ => destruct H as [Q|[Q|[]]]; injection Q as <- <- end.
        + rewrite <- Ev, <- Ep. apply (SCb kb); [eapply nth_error_In; exact Eb|assumption].
        + now apply (SCa k).
      - apply nth_error_None in Eb. assert (i < length (fns (sys w a)))%nat by (apply nth_error_Some; congruence). lia. }
    split; [now apply (reached_right fs simp mp w' d)|]. split; [now apply (reached_right fs simp mp w' b)|].
    split; [exact V|]. split; [exact P|]. split; [exact Sb|]. intros x t. split.
    - unfold function_values. rewrite Fn. rewrite Vals, set_sys_same. reflexivity.
    - unfold function_values. rewrite Sb. apply map_ext_in. intros k I. now rewrite Hb.
  Qed.

  (** [d = n * a] *)
  Lemma times_ok : forall fs simp mp w w' d a n, simp_ok fs simp -> reached fs simp mp w ->
    self_contained w a -> NoDup (fns (sys w a)) ->
    (forall v, occurs v n -> In v (vars (sys w a)) \/ path (sys w a) = Some v) ->
    careful mp w (Times d a n) -> step fs simp mp w (Times d a n) = Value w' ->
    evaluates_right fs simp mp w' d /\ vars (sys w' d) = vars (sys w a) /\ path (sys w' d) = path (sys w a) /\
    forall x t, function_values fs w' d x t =
      map (both fmul (Known (eval fs (at_point (sys w a) x t (fun _ => f0)) n))) (function_values fs w a x t).
  Proof.
    intros fs simp mp w w' d a n SO R SCa N On C E.
    pose proof (reached_step fs simp mp w _ w' R C E) as R'. cbn [step] in E. injection E as E.
    assert (Sd : sys w' d = copy_of (sys w a)) by (subst w'; cbn; now rewrite Nat.eqb_refl).
    assert (Hd : forall k, In k (fns (sys w a)) -> heap w' k = Mul [(true, n); (true, heap w k)]).
    { intros k I. subst w'. unfold times_assign. rewrite set_sys_same. cbn [set_heap heap set_sys copy_of fns]. now apply times_functions_at. }
    assert (SCd : self_contained w' d).
    { intros k I v Oc. rewrite Sd in *. cbn [copy_of fns vars path] in *. rewrite Hd in Oc by assumption. inversion Oc; subst.
      match goal with H : In _ _ |- _ => destruct H as [Q|[Q|[]]]; injection Q as <- <- end; [now apply On|now apply (SCa k)]. }
    split; [now apply (reached_right fs simp mp w' d)|]. rewrite Sd. split; [reflexivity|]. split; [reflexivity|].
    intros x t. unfold function_values. rewrite Sd. cbn [copy_of fns]. rewrite map_map. apply map_ext_in. intros k I.
    rewrite Hd, eval_mul2 by assumption. reflexivity.
  Qed.

  (** [d = Concatenate(a, b)] *)
  Lemma concatenate_ok : forall fs simp mp w w' d a b, simp_ok fs simp -> reached fs simp mp w ->
    self_contained w a -> self_contained w b -> path (sys w b) = path (sys w a) -> d <> a -> d <> b ->
    careful mp w (Concatenate d a b) -> step fs simp mp w (Concatenate d a b) = Value w' ->
    evaluates_right fs simp mp w' d /\ vars (sys w' d) = vars (sys w a) /\ path (sys w' d) = path (sys w a) /\
    (forall x t, function_values fs w' d x t = function_values fs w a x t ++ function_values fs w b x t) /\
    heap w' = heap w /\ sys w' a = sys w a /\ sys w' b = sys w b.
  Proof.
    intros fs simp mp w w' d a b SO R SCa SCb Ep Na Nb C E.
    pose proof (reached_step fs simp mp w _ w' R C E) as R'. cbn [step] in E.
    destruct (negb _); [discriminate|]. destruct (list_eq_dec Nat.eq_dec (vars (sys w a)) (vars (sys w b))) as [Ev|]; [|discriminate].
    destruct (patches_differ _ _); [discriminate|].
    assert (E' : w' = set_sys w d (with_functions (copy_of (sys w a)) (fns (sys w a) ++ fns (sys w b))
                       match fns (sys w b) with [] => differentiated (sys w a) | _ :: _ => false end)).
    { destruct (patch_of (sys w a)), (patch_of (sys w b)); try discriminate; now injection E as <-. }
    clear E. apply not_eq_sym, Nat.eqb_neq in Na, Nb.
    assert (Sd : fns (sys w' d) = fns (sys w a) ++ fns (sys w b) /\ vars (sys w' d) = vars (sys w a) /\ path (sys w' d) = path (sys w a)).
    { subst w'. rewrite set_sys_same. auto. }
    assert (Hh : heap w' = heap w) by now subst w'.
    destruct Sd as (Fd & Vd & Pd). split.
    - apply reached_right; auto. intros k I v Oc. rewrite Vd, Pd. rewrite Fd in I. rewrite Hh in Oc. apply in_app_or in I.
      destruct I as [I|I]; [now apply (SCa k)|]. rewrite Ev, <- Ep. now apply (SCb k).
    - split; [exact Vd|]. split; [exact Pd|]. split.
      + intros x t. unfold function_values, at_point. rewrite Fd, Vd, Pd, map_app, Hh, <- Ev, Ep. reflexivity.
      + subst w'. cbn. rewrite Na, Nb. auto.
  Qed.
End SysArith.

(** * The homotopy of the zero-dimensional solver *)

Section Homotopy.
  Context {F : fld}.
  Add Field homotopy_field : (f_th F).

  (** nag_algorithms/common/policies.hpp:197-203: [homotopy = (1-t)*target + gamma*t*start] and [AddPathVariable(t)];
      [d1 d2 d3] are the temporary systems. *)
  Definition form_homotopy (homotopy target st d1 d2 d3 t : nat) (gamma : F) : list (op (F := F)) :=
    [Times d1 target (Sum [(true, Num KInteger f1); (false, Var t)]);
     Times d2 st (Mul [(true, Num KRational gamma); (true, Var t)]);
     Plus d3 d1 d2; CopyAssign homotopy d3; AddPathVariable homotopy t].

  Lemma run_cons_value : forall fs simp mp (w w' : world (F := F)) o l, step fs simp mp w o = Value w' ->
    run fs simp mp w (o :: l) = run fs simp mp w' l.
  Proof. intros. cbn. now rewrite H. Qed.

  Lemma NoDup_parts : forall (A : Type) (l m : list A), NoDup (l ++ m) -> NoDup l /\ NoDup m.
  Proof.
    induction l as [|a l IH]; intros m N; [split; [constructor|exact N]|]. cbn in N. inversion N; subst.
    destruct (IH m H2). split; [constructor|]; auto. intro J. apply H1, in_or_app; auto.
  Qed.

  Lemma nth_error_same_length : forall (A B : Type) (l : list A) (m : list B) i a, length l = length m ->
    nth_error l i = Some a -> nth_error m i <> None.
  Proof. intros A B l m i a L E N. apply nth_error_None in N. assert (i < length l)%nat by (apply nth_error_Some; congruence). lia. Qed.

  Lemma form_homotopy_ok : forall fs simp mp w homotopy target st d1 d2 d3 t (gamma : F),
    simp_ok fs simp -> reached fs simp mp w -> self_contained w target -> self_contained w st ->
    NoDup [homotopy; target; st; d1; d2; d3] ->
    NoDup (fns (sys w target) ++ fns (sys w st)) -> length (fns (sys w target)) = length (fns (sys w st)) ->
    vars (sys w target) = vars (sys w st) -> patch_of (sys w target) = patch_of (sys w st) ->
    path (sys w target) = None -> path (sys w st) = None -> ~ In t (vars (sys w target)) ->
    differentiated (sys w target) = false -> differentiated (sys w st) = false ->
    not_cached w (fns (sys w target) ++ fns (sys w st)) ->
    exists w', run fs simp mp w (form_homotopy homotopy target st d1 d2 d3 t gamma) = Some w' /\
      evaluates_right fs simp mp w' homotopy /\ vars (sys w' homotopy) = vars (sys w target) /\ path (sys w' homotopy) = Some t /\
      forall x tau, function_values fs w' homotopy x (Some tau)
        = pointwise fadd (map (both fmul (Known (Some (f1 - tau)))) (function_values fs w target x None))
                         (map (both fmul (Known (Some (gamma * tau)))) (function_values fs w st x None)).
  Proof.
    intros fs simp mp w hom tg st d1 d2 d3 t gamma SO R SCt SCs Nd Nf Ln Ev Epa Pt Ps Nt Dt Ds NC.
    assert (Ne : hom <> tg /\ hom <> st /\ hom <> d1 /\ hom <> d2 /\ hom <> d3 /\ tg <> st /\ tg <> d1 /\ tg <> d2 /\ tg <> d3 /\
                 st <> d1 /\ st <> d2 /\ st <> d3 /\ d1 <> d2 /\ d1 <> d3 /\ d2 <> d3).
    { repeat match goal with H : NoDup (_ :: _) |- _ => inversion_clear H end. cbn in *.
      repeat match goal with |- _ /\ _ => split end; intro; subst; tauto. }
    destruct Ne as (N01 & N02 & N03 & N04 & N05 & N12 & N13 & N14 & N15 & N23 & N24 & N25 & N34 & N35 & N45).
    set (la := fns (sys w tg)) in *. set (lb := fns (sys w st)) in *.
    destruct (NoDup_parts _ _ _ Nf) as [Na Nb].
    assert (Dj : forall k, In k la -> ~ In k lb).
    { clear - Nf. induction la as [|a la IH]; intros k I J; [destruct I|]. cbn in Nf. inversion Nf; subst.
      destruct I as [->|I]; [apply H1, in_or_app; auto|now apply (IH H2 k)]. }
    set (n1 := @Sum F [(true, Num KInteger f1); (false, Var t)]). set (n2 := @Mul F [(true, Num KRational gamma); (true, Var t)]).
    (* the first product *)
    set (w1 := times_assign (set_sys w d1 (copy_of (sys w tg))) d1 n1).
    assert (C1 : careful mp w (Times d1 tg n1)) by (split; [exact Dt|]; intros i k D I J; apply (NC i k D I), in_or_app; now left).
    assert (R1 : reached fs simp mp w1) by (apply (reached_step fs simp mp w (Times d1 tg n1)); [exact R|exact C1|reflexivity]).
    assert (H1 : heap w1 = times_functions (heap w) n1 la) by (unfold w1, times_assign; cbn; rewrite Nat.eqb_refl; reflexivity).
    assert (S1 : forall i, sys w1 i = if i =? d1 then copy_of (sys w tg) else sys w i) by reflexivity.
    assert (E1 : step fs simp mp w (Times d1 tg n1) = Value w1) by reflexivity. clearbody w1.
    assert (S1s : sys w1 st = sys w st) by (rewrite S1; apply Nat.eqb_neq in N23; now rewrite N23).
    (* the second product *)
    set (w2 := times_assign (set_sys w1 d2 (copy_of (sys w1 st))) d2 n2).
    assert (C2 : careful mp w1 (Times d2 st n2)).
    { split; [now rewrite S1s|]. rewrite S1s. intros i k D I J. rewrite S1 in D, I. destruct (i =? d1).
      - cbn in D. congruence.
      - apply (NC i k D I), in_or_app; now right. }
    assert (R2 : reached fs simp mp w2) by (apply (reached_step fs simp mp w1 (Times d2 st n2)); [exact R1|exact C2|reflexivity]).
    assert (H2 : heap w2 = times_functions (heap w1) n2 lb).
    { unfold w2, times_assign; cbn; rewrite Nat.eqb_refl, S1s; reflexivity. }
    assert (S2 : forall i, sys w2 i = if i =? d2 then copy_of (sys w1 st) else sys w1 i) by reflexivity.
    assert (E2 : step fs simp mp w1 (Times d2 st n2) = Value w2) by reflexivity. clearbody w2.
    assert (S2a : sys w2 d1 = copy_of (sys w tg)).
    { apply Nat.eqb_neq in N34. now rewrite S2, N34, S1, Nat.eqb_refl. }
    assert (S2b : sys w2 d2 = copy_of (sys w st)) by (rewrite S2, Nat.eqb_refl; now rewrite S1s).
    (* the sum *)
    assert (C3 : careful mp w2 (Plus d3 d1 d2)).
    { split; [rewrite S2a; exact Dt|]. split; [|rewrite S2a, S2b; cbn; fold la lb; rewrite Ln; apply le_n]. rewrite S2a. cbn [copy_of fns].
      intros i k D I J. rewrite S2 in D, I. destruct (i =? d2); [rewrite S1s in D; cbn in D; congruence|].
      rewrite S1 in D, I. destruct (i =? d1); [cbn in D; congruence|]. apply (NC i k D I), in_or_app; now left. }
    assert (E3 : exists w3, step fs simp mp w2 (Plus d3 d1 d2) = Value w3).
    { cbn [step]. unfold plus_assign. rewrite set_sys_same, S2a, S2b. cbn [copy_of fns vars patch_of].
      unfold num_patches. cbn [copy_of patch_of]. fold la lb. rewrite Epa, Ln, Nat.eqb_refl. cbn [negb].
      rewrite Ev, Nat.eqb_refl. cbn [negb].
      assert (patches_differ (patch_of (sys w st)) (patch_of (sys w st)) = false) as ->.
      { unfold patches_differ. destruct (patch_of (sys w st)) as [q|]; [|reflexivity].
        destruct (list_eq_dec _ q q); [reflexivity|congruence]. }
      rewrite Nat.ltb_irrefl. eexists; reflexivity. }
    destruct E3 as [w3 E3].
    pose proof (reached_step fs simp mp w2 _ w3 R2 C3 E3) as R3. cbn [step] in E3.
    destruct (plus_assign_values fs _ _ d3 (sys w2 d2) la E3) as (V3 & P3 & F3 & O3 & Hn3 & Hs3 & L3 & _); auto;
      rewrite ?set_sys_same, ?S2a, ?S2b; cbn [copy_of fns vars path]; auto; try congruence.
    rewrite set_sys_same, S2a in V3, P3. cbn [copy_of vars path set_sys heap] in V3, P3, Hn3, Hs3.
    rewrite S2b in Hs3, L3. cbn [copy_of fns] in Hs3, L3. fold lb in Hs3, L3.
    assert (D3 : differentiated (sys w3 d3) = false).
    { revert E3. unfold plus_assign. rewrite set_sys_same, S2a, S2b.
      destruct (negb _); [discriminate|]. destruct (negb _); [discriminate|]. destruct (patches_differ _ _); [discriminate|].
      destruct (_ <? _)%nat; [discriminate|]. cbn [copy_of patch_of]. rewrite Epa. intro E3.
      destruct (patch_of (sys w st)); injection E3 as <-; cbn; rewrite Nat.eqb_refl; exact Dt. }
    (* the assignment and the path variable *)
    set (w4 := set_sys w3 hom (copy_of (sys w3 d3))).
    assert (C4 : careful mp w3 (CopyAssign hom d3)) by (left; exact D3).
    assert (R4 : reached fs simp mp w4) by (apply (reached_step fs simp mp w3 (CopyAssign hom d3)); [exact R3|exact C4|reflexivity]).
    set (w5 := set_sys w4 hom (with_variables (sys w4 hom) (vars (sys w4 hom)) (Some t) false (patch_of (sys w4 hom)))).
    assert (R5 : reached fs simp mp w5) by (apply (reached_step fs simp mp w4 (AddPathVariable hom t)); [exact R4|exact I|reflexivity]).
    assert (S5 : fns (sys w5 hom) = la /\ vars (sys w5 hom) = vars (sys w tg) /\ path (sys w5 hom) = Some t).
    { unfold w5. rewrite set_sys_same. cbn [with_variables fns vars path]. unfold w4. rewrite set_sys_same.
      cbn [copy_of fns vars path]. auto. }
    destruct S5 as (F5 & V5 & P5).
    assert (H5 : forall i ka kb, nth_error la i = Some ka -> nth_error lb i = Some kb ->
      heap w5 ka = Sum [(true, Mul [(true, n2); (true, heap w kb)]); (true, Mul [(true, n1); (true, heap w ka)])]).
    { intros i ka kb Ea Eb. change (heap w5) with (heap w3). rewrite (Hs3 i ka kb Ea Eb).
      assert (Ia : In ka la) by (eapply nth_error_In; exact Ea). assert (Ib : In kb lb) by (eapply nth_error_In; exact Eb).
      rewrite H2. rewrite (times_functions_at n2 lb (heap w1) kb) by assumption.
      rewrite (times_functions_other n2 lb (heap w1) ka) by now apply Dj.
      rewrite H1. rewrite (times_functions_at n1 la (heap w) ka) by assumption.
      rewrite (times_functions_other n1 la (heap w) kb) by (intro J; now apply (Dj kb)). reflexivity. }
    exists w5. split.
    { unfold form_homotopy. fold n1 n2.
      rewrite (run_cons_value _ _ _ w w1) by exact E1. rewrite (run_cons_value _ _ _ w1 w2) by exact E2.
      rewrite (run_cons_value _ _ _ w2 w3) by exact E3. reflexivity. }
    split.
    { apply reached_right; [exact SO|exact R5|]. intros k Ik v Oc. rewrite V5, P5. rewrite F5 in Ik.
      destruct (In_nth_error _ _ Ik) as [i Ei].
      destruct (nth_error lb i) as [kb|] eqn:Eb; [|now apply (nth_error_same_length _ _ la lb i k Ln Ei) in Eb].
      rewrite (H5 i k kb Ei Eb) in Oc. inversion Oc; subst.
      match goal with H : In _ _ |- _ => destruct H as [Q|[Q|[]]]; injection Q as <- <- end;
        match goal with H : occurs v (Mul _) |- _ => inversion H; subst end;
        match goal with H : In _ _ |- _ => destruct H as [Q|[Q|[]]]; injection Q as <- <- end.
      - right. match goal with H : occurs v n2 |- _ => inversion H; subst end.
        match goal with H : In _ [_; _] |- _ => destruct H as [Q|[Q|[]]]; injection Q as <- <- end;
          match goal with H : occurs v _ |- _ => inversion H; now subst end.
      - left. destruct (SCs kb) with (v := v) as [K|K]; [eapply nth_error_In; exact Eb|assumption| |rewrite K in Ps; discriminate].
        now rewrite Ev.
      - right. match goal with H : occurs v n1 |- _ => inversion H; subst end.
        match goal with H : In _ [_; _] |- _ => destruct H as [Q|[Q|[]]]; injection Q as <- <- end;
          match goal with H : occurs v _ |- _ => inversion H; now subst end.
      - left. destruct (SCt k Ik v) as [K|K]; [assumption|exact K|rewrite K in Pt; discriminate]. }
    split; [exact V5|]. split; [exact P5|]. intros x tau.
    assert (Loc : forall s k, In s [tg; st] -> In k (fns (sys w s)) ->
      eval fs (at_point (sys w5 hom) x (Some tau) (fun _ => f0)) (heap w k) = eval fs (at_point (sys w s) x None (fun _ => f0)) (heap w k)).
    { intros s k Is Ik. unfold at_point. rewrite V5, P5. cbn [bind_path].
      assert (Vs : vars (sys w s) = vars (sys w tg) /\ path (sys w s) = None /\ self_contained w s).
      { destruct Is as [<-|[<-|[]]]; auto. }
      destruct Vs as (Vs & Ps' & SC). rewrite Vs, Ps'. cbn [bind_path]. apply eval_ext. intros v Ov. unfold upd.
      destruct (SC k Ik v Ov) as [K|K]; [|congruence]. rewrite Vs in K.
      destruct (Nat.eq_dec v t); [subst; contradiction|reflexivity]. }
    unfold function_values. rewrite F5. fold la lb. apply map_nth_ext.
    - unfold pointwise. rewrite map_length, combine_length, !map_length, <- Ln. symmetry. apply Nat.min_id.
    - intros i ka Ea. destruct (nth_error lb i) as [kb|] eqn:Eb.
      + unfold pointwise. rewrite !map_map.
        rewrite (map_nth_error _ i _ (nth_error_combine _ _ _ _ i _ _ (map_nth_error _ i _ Ea) (map_nth_error _ i _ Eb))).
        cbn [fst snd]. rewrite (H5 i ka kb Ea Eb), eval_sum2, !eval_mul2.
        rewrite (Loc tg ka (or_introl eq_refl) (nth_error_In _ _ Ea)).
        rewrite (Loc st kb (or_intror (or_introl eq_refl)) (nth_error_In _ _ Eb)).
        assert (T : at_point (sys w5 hom) x (Some tau) (fun _ => f0) t = tau).
        { unfold at_point. rewrite P5. cbn. unfold upd. now destruct (Nat.eq_dec t t). }
        revert T. generalize (at_point (sys w5 hom) x (Some tau) (fun _ => f0)) as rho. intros rho T. unfold n1, n2.
        f_equal. f_equal; f_equal; f_equal.
        * cbn. rewrite T. f_equal. ring.
        * cbn. rewrite T. f_equal. ring.
      + now apply (nth_error_same_length _ _ la lb i ka Ln Ea) in Eb.
  Qed.
End Homotopy.
