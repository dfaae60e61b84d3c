(** What the zero-dimensional solver sets up from the user's target: the homogenized and patched target, a total degree
    start system and the homotopy between them.
    Models core/include/bertini2/nag_algorithms/common/policies.hpp:184-226, composed of the models of
    System::Homogenize (HomogSys.v), AutoPatch (Patch.v), TotalDegree (DegreeAll.v, TotalDegree.v). *)
From Coq Require Import List Arith Lia ZArith Bool Ring Field.
From Verif Require Import Base Poly Expr Degree Homog HomogSys Patch ComplexField StartIndex DegreeAll TotalDegree.
Import ListNotations.

(** ** Model *)
Section Model.
  Variable fs : funs CF.
  Variable rho : env CF.      (* the current values of the variables *)

  (** what CloneGiven holds after SystemSetup, policies.hpp:150-152; [gamma] is the random number in the homotopy *)
  Record set_up := mkSetUp { prepared : psys CF; start : structure; gamma : CF }.

  (** system.cpp:872-889 and 900-908: one patch equation for each affine group and its homogenizing variable; [draw] are
      the random coefficients.  Homogeneous groups are left out: the start system refuses them. *)
  Definition patch_for (draw : nat -> nat -> CF) (s : psys CF) : patch (F := CF) :=
    map (fun p => map (draw (fst p)) (seq 0 (S (length (snd p))))) (combine (seq 0 (length (groups s))) (groups s)).

  (** policies.hpp:185-190 PrepareTarget, total_degree.cpp:37-50 (FormStart, policies.hpp:192-195) and policies.hpp:197-204.
      [fresh] are the new variables, [draw] and [rand] and [g] the random numbers.  AutoPatch throws if the system does not
      pass IsHomogeneous.  The target has no path variable; ungrouped variables are taken to be declared last. *)
  Definition system_setup (fresh : nat -> nat) (draw : nat -> nat -> CF) (rand : nat -> CF) (g : CF) (s : psys CF)
      : StartIndex.outcome set_up :=
    match homogenize_sys fs rho fresh s with
    | None => Throws
    | Some s' =>
        if negb (is_homogeneous_sys fs rho s') then Throws
        else
          let p := patch_for draw s' in
          match copy_degrees fs rho s' (length p) false with
          | Throws => Throws
          | UB => UB
          | Value ds =>
              Value (mkSetUp s' (mkStructure (repeat Affine (length (concat (groups s'))) ++ repeat Ungrouped (length (ungrouped s')))
                                             (map Z.to_nat ds) (map rand (seq 0 (length ds))) true (Some p)) g)
          end
    end.

  (** the variables in the order of the coordinates of a point (SysVars.v): each homogenizing variable before its group *)
  Definition order (s : psys CF) : list nat := concat (with_front (groups s) (hom_vars s)) ++ ungrouped s.

  (** setting the variables *)
  Fixpoint assign (vs : list nat) (x : list CF) : env CF :=
    match vs, x with v :: vs', a :: x' => upd (assign vs' x') v a | _, _ => rho end.

  (** the values of the functions at a point; [None] if a function is not defined there *)
  Definition values (fl : list (expr CF)) (vs : list nat) (x : list CF) : option (list CF) :=
    sequence (map (eval fs (assign vs x)) fl).

  Fixpoint mix (t g : CF) (a b : list CF) : list CF :=
    match a, b with y :: a', z :: b' => ((f1 - t) * y + g * t * z)%F :: mix t g a' b' | _, _ => [] end.

  (** policies.hpp:197-204: the values of (1-t) target + gamma t start (SysArith.v, C55) *)
  Definition homotopy_values (z : set_up) (x : list CF) (t : CF) : option (list CF) :=
    match values (fns (prepared z)) (order (prepared z)) x with
    | Some a => Some (mix t (gamma z) a (start_system_values (start z) x))
    | None => None
    end.

  (** ** Specification *)

  (** the targets treated: as many functions as variables, one affine group [vars], every function a polynomial of
      degree at least one in them for which homogenizing makes sense, defined everywhere *)
  Definition ready (fresh : nat -> nat) (s : psys CF) (vars : list nat) : Prop :=
    homogenizable fs rho fresh s /\ groups s = [vars] /\ vars <> [] /\ hom_groups s = [] /\ ungrouped s = [] /\
    length (fns s) = length vars /\
    (forall f, In f (fns s) -> (forall v, occurs v f -> In v vars) /\ (1 <= gdegree fs rho vars f)%Z /\
       forall point, exists y, eval fs point f = Some y) /\
    (num_cells (map (gdegree fs rho vars) (fns s)) < 2 ^ 64)%Z.

  (** all functions of the list vanish when the variables [vs] have the values [x] *)
  Definition solves (fl : list (expr CF)) (vs : list nat) (x : list CF) : Prop :=
    Forall (fun f => eval fs (assign vs x) f = Some f0) fl.

  (** the homotopy is defined at the point [x] and the time [t] and vanishes there *)
  Definition zero_of (z : set_up) (x : list CF) (t : CF) : Prop :=
    exists v, homotopy_values z x t = Some v /\ all_zero v.
End Model.

(** ** Proofs *)
Section Generic.
  Context {F : fld}.
  Local Open Scope fld_scope.
  Add Field setup_field : (f_th F).
  Variable fs : funs F.
  Variable rho : env F.
  Variable A vs : list nat.
  Variable h : nat.
  Hypothesis Hin : incl vs A.
  Hypothesis Hnd : NoDup vs.
  Hypothesis Hh : ~ In h vs.
  Let total := vdegree fs rho None.

  Lemma total_raise : forall k e, (0 <= k)%Z -> (0 <= total e)%Z -> total (raise_degree h k e) = (k + total e)%Z.
  Proof.
    intros k e Hk He. unfold raise_degree. destruct (Z.leb_spec k 0); [lia|]. unfold total in *.
    assert (V : vdegree fs rho None (Var h) = 1%Z) by reflexivity.
    assert (W : vdegree fs rho None (IPow (Var h) k) = k) by (cbn [vdegree]; cbv zeta; destruct (Z.ltb_spec 1 0); lia).
    destruct (Z.eqb_spec k 1).
    - change (mul_degree [(true, vdegree fs rho None (Var h)); (true, vdegree fs rho None e)] 0 = (k + vdegree fs rho None e)%Z).
      rewrite mul_degree_all; unfold sum2; cbn [fold_right fst snd]; [lia|].
      repeat constructor; cbn [fst snd]; try lia; discriminate.
    - change (mul_degree [(true, vdegree fs rho None (IPow (Var h) k)); (true, vdegree fs rho None e)] 0 = (k + vdegree fs rho None e)%Z).
      rewrite mul_degree_all; unfold sum2; cbn [fold_right fst snd]; [lia|].
      repeat constructor; cbn [fst snd]; try lia; discriminate.
  Qed.

  Lemma total_number : forall e, pure A e -> (forall v, ~ occurs v e) -> total e = 0%Z.
  Proof.
    intro e. unfold total. induction e as [k c|y|ops IH|ops IH|e IH|e n IH|b e IHb IHe|k e IH|e IH] using expr_rect'; intros Hp N;
      inversion Hp as [| |? Hps|? Hps Hcs| | | |]; subst; cbn [vdegree]; cbv zeta.
    - reflexivity.
    - elim (N y). constructor.
    - assert (E : forall p, In p ops -> vdegree fs rho None (snd p) = 0%Z).
      { rewrite Forall_forall in IH, Hps. intros [s a] Hi. apply (IH _ Hi); [apply (Hps _ Hi)|]. intros v Hv. apply (N v). econstructor; eassumption. }
      clear - E. induction ops as [|p ops IHo]; cbn [map sum_degree]; [reflexivity|]. rewrite (E p (or_introl eq_refl)). cbn.
      apply IHo. intros q Hq. apply E. right. exact Hq.
    - assert (E : forall p, In p ops -> vdegree fs rho None (snd p) = 0%Z).
      { rewrite Forall_forall in IH, Hps. intros [s a] Hi. apply (IH _ Hi); [apply (Hps _ Hi)|]. intros v Hv. apply (N v). econstructor; eassumption. }
      rewrite mul_degree_all.
      + unfold sum2. cbn [Z.add]. clear - E. induction ops as [|p ops IHo]; cbn [map fold_right fst snd]; [reflexivity|].
        rewrite (E p (or_introl eq_refl)). rewrite IHo; [reflexivity|]. intros q Hq. apply E. right. exact Hq.
      + apply Forall_forall. intros q Hq. apply in_map_iff in Hq. destruct Hq as [p [<- Hi]]. cbn [fst snd]. rewrite (E p Hi). split; [lia|reflexivity].
    - apply IH; [assumption|]. intros v Hv. apply (N v). constructor. exact Hv.
    - rewrite IH; [cbn; lia|assumption|]. intros v Hv. apply (N v). constructor. exact Hv.
    - rewrite IH; [reflexivity|assumption|]. intros v Hv. apply (N v). constructor. exact Hv.
    - apply IH; [assumption|]. intros v Hv. apply (N v). constructor. exact Hv.
  Qed.

  Lemma total_homogenized : forall e e', pure A e -> modest vs e -> (forall v, occurs v e -> In v vs) ->
    homogenize fs rho vs h e = Some e' -> total e' = gdegree fs rho vs e.
  Proof.
    intro e. induction e as [k c|y|ops IH|ops IH|e IH|e n IH|b e IHb IHe|k e IH|e IH] using expr_rect'; intros e' Hp Ht Hc H;
      pose proof (pure_polynomial fs rho A vs _ Hin Hp) as Hpoly; pose proof H as Hhom; cbn [homogenize] in H.
    - injection H as <-. reflexivity.
    - injection H as <-. unfold total. cbn [vdegree gdegree].
      replace (existsb (Nat.eqb y) vs) with true; [reflexivity|]. symmetry. apply existsb_exists. exists y.
      split; [apply Hc; constructor|apply Nat.eqb_refl].
    - destruct (sequence _) as [ops'|] eqn:Es; [|discriminate]. apply sequence_map_some in Es.
      destruct (existsb _ _); [discriminate|]. injection H as <-.
      inversion Hp as [| |? Hps| | | | |]; subst. inversion Ht as [| |? Hts| | | | |]; subst.
      rewrite Forall_forall in Hps, Hts, IH.
      assert (Ed : map (fun p => gdegree fs rho vs (snd p)) ops' = map (fun p => gdegree fs rho vs (snd p)) ops).
      { clear - Es Hh. induction Es as [|p q l l' Hab Hl IHl]; [reflexivity|]. cbn [map]. rewrite IHl. f_equal.
        apply (pair_hom_eq fs rho vs h p q) in Hab. apply (homogenize_degree fs rho vs h Hh _ _ (proj2 Hab)). }
      assert (Em : gdegree fs rho vs (Sum ops) = fold_left Z.max (map (fun p => gdegree fs rho vs (snd p)) ops) 0%Z).
      { cbn [gdegree]. apply sum_degree_max. rewrite Forall_map. apply Forall_forall. intros p Hi. apply (pure_gdegree fs rho A vs Hin). auto. }
      rewrite Ed, <- Em. set (m := gdegree fs rho vs (Sum ops)) in *.
      assert (K : forall q, In q ops' -> total (raise_degree h (m - gdegree fs rho vs (snd q)) (snd q)) = m).
      { intros q Hq. destruct (in_two _ _ _ _ _ Es _ Hq) as [p [Hi Hpq]]. apply (pair_hom_eq fs rho vs h p q) in Hpq. destruct Hpq as [_ Hpq].
        assert (Hg : (0 <= gdegree fs rho vs (snd p))%Z) by (apply (pure_gdegree fs rho A vs Hin); auto).
        assert (Hl : (gdegree fs rho vs (snd p) <= m)%Z).
        { rewrite Em. destruct (fold_max_ge (map (fun p => gdegree fs rho vs (snd p)) ops) 0%Z) as [_ Hle]. rewrite Forall_forall in Hle.
          apply Hle. apply in_map_iff. exists p. split; [reflexivity|assumption]. }
        assert (T : total (snd q) = gdegree fs rho vs (snd p)).
        { apply (IH p Hi); auto. intros v Hv. apply Hc. destruct p. econstructor; eassumption. }
        rewrite (proj2 (homogenize_degree fs rho vs h Hh _ _ Hpq)). rewrite total_raise; lia. }
      unfold total in *. cbn [vdegree]. rewrite map_map. cbn [snd].
      assert (Hm : (0 <= m)%Z) by (apply (pure_gdegree fs rho A vs Hin); exact Hp).
      destruct ops' as [|q0 ops'].
      + inversion Es; subst. cbn. subst m. reflexivity.
      + rewrite sum_degree_max.
        * apply fold_max_const; [exact Hm| |discriminate]. apply Forall_forall. intros d Hd. apply in_map_iff in Hd.
          destruct Hd as [q [<- Hq]]. apply K. exact Hq.
        * apply Forall_forall. intros d Hd. apply in_map_iff in Hd. destruct Hd as [q [<- Hq]]. pose proof (K q Hq) as Kq. cbn [snd] in Kq |- *. rewrite Kq. exact Hm.
    - destruct (sequence _) as [ops'|] eqn:Es; [|discriminate]. apply sequence_map_some in Es. injection H as <-.
      inversion Hp as [| | |? Hps Hcs| | | |]; subst. inversion Ht as [| | |? Hts| | | |]; subst.
      destruct (gdegree_mul fs rho vs ops Hpoly) as [Eg _]. rewrite Eg.
      assert (Hn : forall p, In p ops -> forall v, occurs v (snd p) -> In v vs) by (intros [s a] Hi v Hx; apply Hc; econstructor; eassumption).
      unfold total. cbn [vdegree]. rewrite mul_degree_all.
      + unfold sum2. cbn [Z.add]. clear Hp Ht Hc Hpoly Hhom Eg. induction Es as [|p q l l' Hab Hl IHl]; [reflexivity|]. cbn [map fold_right fst snd].
        apply (pair_hom_eq fs rho vs h p q) in Hab. destruct Hab as [Ef Hab].
        repeat match goal with X : Forall _ (_ :: _) |- _ => inversion X; clear X; subst end.
        f_equal; [|apply IHl; auto; intros; apply (Hn p0); [right|]; assumption].
        match goal with X : forall e', pure A (snd p) -> _ |- _ => apply X end; auto. apply Hn. left. reflexivity.
      + clear Hp Ht Hc Hpoly Hhom Eg. induction Es as [|p q l l' Hab Hl IHl]; cbn [map]; [constructor|].
        apply (pair_hom_eq fs rho vs h p q) in Hab. destruct Hab as [Ef Hab].
        repeat match goal with X : Forall _ (_ :: _) |- _ => inversion X; clear X; subst end.
        constructor; [|apply IHl; auto; intros; apply (Hn p0); [right|]; assumption]. cbn [fst snd].
        assert (T : total (snd q) = gdegree fs rho vs (snd p)).
        { match goal with X : forall e', pure A (snd p) -> _ |- _ => apply X end; auto. apply Hn. left. reflexivity. }
        unfold total in T. rewrite T. split; [apply (pure_gdegree fs rho A vs Hin); assumption|].
        intro E. apply (fixed_degree fs rho A vs Hin); auto. match goal with X : fst p = false -> _ |- _ => apply X end. congruence.
    - destruct (homogenize fs rho vs h e) as [a|] eqn:E; [|discriminate]. injection H as <-. inversion Hp; subst.
      inversion Ht; subst. rewrite (gdegree_neg fs rho A vs Hin Hnd) by assumption. unfold total. cbn [vdegree].
      apply IH; [assumption|assumption| |reflexivity]. intros v Hx. apply Hc. constructor. assumption.
    - destruct (homogenize fs rho vs h e) as [a|] eqn:E; [|discriminate]. injection H as <-.
      inversion Hp as [| | | | |? ? Hpe Hs| |]; subst. inversion Ht; subst.
      assert (T : total a = gdegree fs rho vs e).
      { apply IH; [assumption|assumption| |reflexivity]. intros v Hx. apply Hc. constructor. assumption. }
      pose proof (pure_gdegree fs rho A vs Hin e Hpe) as G.
      unfold total in *. cbn [vdegree]. cbv zeta. rewrite T. destruct (Z.ltb_spec (gdegree fs rho vs e) 0); [lia|].
      destruct Hs as [Hs|Hs].
      + rewrite (gdegree_ipow fs rho A vs Hin Hnd) by assumption. reflexivity.
      + assert (Hci : constant A (IPow e n)) by (intros v Hv Hx; inversion Hx; subst; eapply Hs; eassumption).
        rewrite (fixed_degree fs rho A vs Hin _ Hp Hci), (fixed_degree fs rho A vs Hin _ Hpe Hs). lia.
    - inversion Hp.
    - destruct (homogenize fs rho vs h e) as [a|] eqn:E; [|discriminate]. injection H as <-.
      inversion Hp as [| | | | | |? ? Hpe Hs|]; subst.
      assert (Hci : constant A (Fun k e)) by (intros v Hv Hx; inversion Hx; subst; eapply Hs; eassumption).
      rewrite (fixed_degree fs rho A vs Hin _ Hp Hci).
      rewrite (homogenize_absent fs rho vs h e a) by (try assumption; intros v Hv; apply Hs; apply Hin; exact Hv).
      unfold total. cbn [vdegree].
      assert (N : forall v, ~ occurs v e) by (intros v Hv; apply (Hs v); [apply Hin; apply Hc; constructor; exact Hv|exact Hv]).
      assert (T : vdegree fs rho None e = 0%Z).
      { apply total_number; assumption. }
      rewrite T. reflexivity.
    - destruct (homogenize fs rho vs h e) as [a|] eqn:E; [|discriminate]. injection H as <-.
      inversion Hp; subst. inversion Ht; subst. cbn [gdegree]. unfold total. cbn [vdegree].
      apply IH; [assumption|assumption| |reflexivity]. intros v Hx. apply Hc. constructor. assumption.
  Qed.

  Lemma raise_defined : forall k e point, (exists y, eval fs point e = Some y) -> exists y, eval fs point (raise_degree h k e) = Some y.
  Proof.
    intros k e point [y E]. unfold raise_degree. destruct (Z.leb_spec k 0); [eauto|].
    destruct (k =? 1)%Z; cbn [eval map fst snd mul_val]; rewrite E; [eauto|]. rewrite fpowZ_pos by lia. eauto.
  Qed.

  Lemma homogenize_defined : forall e e', pure A e -> homogenize fs rho vs h e = Some e' ->
    forall point, (exists y, eval fs point e = Some y) -> exists y, eval fs point e' = Some y.
  Proof.
    intro e. induction e as [k c|y|ops IH|ops IH|e IH|e n IH|b e IHb IHe|k e IH|e IH] using expr_rect'; intros e' Hp H point D;
      cbn [homogenize] in H.
    - injection H as <-. exact D.
    - injection H as <-. exact D.
    - destruct (sequence _) as [ops'|] eqn:Es; [|discriminate]. apply sequence_map_some in Es.
      destruct (existsb _ _); [discriminate|]. injection H as <-. inversion Hp as [| |? Hps| | | | |]; subst. clear Hp.
      generalize (fold_left Z.max (map (fun p => gdegree fs rho vs (snd p)) ops') 0%Z). intro m.
      cbn [eval] in *. rewrite map_map. cbn [fst snd]. revert D. induction Es as [|p q l l' Hab Hl IHl]; intros [z D]; cbn [map sum_val] in *; [eauto|].
      apply (pair_hom_eq fs rho vs h p q) in Hab. destruct Hab as [Ef Hab].
      repeat match goal with X : Forall _ (_ :: _) |- _ => inversion X; clear X; subst end.
      destruct (eval fs point (snd p)) as [a|] eqn:Ea; [|discriminate]. destruct (sum_val (map _ l)) as [b|] eqn:Eb; [|discriminate].
      destruct (raise_defined (m - gdegree fs rho vs (snd q)) (snd q) point) as [a' Ea'].
      { match goal with X : forall e', pure A (snd p) -> _ |- _ => eapply X end; [assumption|exact Hab|eauto]. }
      rewrite Ea'. destruct IHl as [b' Eb']; auto; [eauto|]. rewrite Eb'. eauto.
    - destruct (sequence _) as [ops'|] eqn:Es; [|discriminate]. apply sequence_map_some in Es. injection H as <-.
      inversion Hp as [| | |? Hps Hcs| | | |]; subst. clear Hp. cbn [eval] in *.
      revert D. induction Es as [|p q l l' Hab Hl IHl]; intros [z D]; cbn [map mul_val] in *; [eauto|].
      apply (pair_hom_eq fs rho vs h p q) in Hab. destruct Hab as [Ef Hab].
      repeat match goal with X : Forall _ (_ :: _) |- _ => inversion X; clear X; subst end.
      destruct (eval fs point (snd p)) as [a|] eqn:Ea; [|discriminate]. destruct (mul_val (map _ l)) as [b|] eqn:Eb; [|discriminate].
      destruct IHl as [b' Eb']; auto; [eauto|]. rewrite Eb'. rewrite <- Ef. destruct (fst p) eqn:Es.
      + destruct (eval fs point (snd q)) as [a'|] eqn:Eq; [eauto|]. exfalso.
        match goal with X : forall e', pure A (snd p) -> _ |- _ => destruct (X (snd q)) with (point := point) as [a' Ea'] end;
          [assumption|exact Hab|eauto|congruence].
      + assert (C : constant A (snd p)) by auto.
        rewrite (homogenize_absent fs rho vs h (snd p) (snd q)) by (try exact Hab; intros v Hv; apply C; apply Hin; exact Hv).
        rewrite Ea. destruct (feq_dec a 0); [discriminate|]. eauto.
    - destruct (homogenize fs rho vs h e) as [a|] eqn:E; [|discriminate]. injection H as <-. inversion Hp; subst. cbn [eval] in *.
      destruct D as [z D]. destruct (eval fs point e) as [b|] eqn:Eb; [|discriminate].
      destruct (IH a) with (point := point) as [c Ec]; [assumption|reflexivity|eauto|]. rewrite Ec. eauto.
    - destruct (homogenize fs rho vs h e) as [a|] eqn:E; [|discriminate]. injection H as <-.
      inversion Hp as [| | | | |? ? Hpe Hs| |]; subst. cbn [eval] in *. destruct D as [z D]. destruct (eval fs point e) as [b|] eqn:Eb; [|discriminate].
      destruct Hs as [Hs|Hs].
      + destruct (IH a) with (point := point) as [c Ec]; [assumption|reflexivity|eauto|]. rewrite Ec. rewrite fpowZ_pos by lia. eauto.
      + rewrite (homogenize_absent fs rho vs h e a) by (try exact E; intros v Hv; apply Hs; apply Hin; exact Hv). rewrite Eb. eauto.
    - inversion Hp.
    - destruct (homogenize fs rho vs h e) as [a|] eqn:E; [|discriminate]. injection H as <-.
      inversion Hp as [| | | | | |? ? Hpe Hs|]; subst. cbn [eval] in *.
      rewrite (homogenize_absent fs rho vs h e a) by (try exact E; intros v Hv; apply Hs; apply Hin; exact Hv). exact D.
    - destruct (homogenize fs rho vs h e) as [a|] eqn:E; [|discriminate]. injection H as <-. inversion Hp; subst. cbn [eval] in *.
      apply (IH a); [assumption|reflexivity|exact D].
  Qed.
End Generic.

Local Open Scope fld_scope.
Add Field CFs : (f_th CF).
Local Opaque CF.

Section Setup.
  Variable fs : funs CF.
  Variable rho : env CF.

  (** *** setting variables *)
  Lemma assign_ext : forall vs x v, In v vs -> length x = length vs -> forall rho', assign rho vs x v = assign rho' vs x v.
  Proof.
    induction vs as [|w vs IH]; intros [|a x] v Hi Hl rho'; try contradiction; try discriminate.
    cbn [assign]. unfold upd. destruct (Nat.eq_dec v w); [reflexivity|]. apply IH; [|cbn in Hl; lia]. destruct Hi; [congruence|assumption].
  Qed.

  Lemma assign_scale : forall t vs x v, length x = length vs -> assign rho vs (map (fmul t) x) v = scale t vs (assign rho vs x) v.
  Proof.
    intros t. induction vs as [|w vs IH]; intros [|a x] v Hl; try discriminate; unfold scale.
    - destruct (in_dec Nat.eq_dec v []); [contradiction|reflexivity].
    - cbn [map assign]. unfold upd. destruct (Nat.eq_dec v w) as [->|N].
      + destruct (in_dec Nat.eq_dec w (w :: vs)) as [|C]; [reflexivity|elim C; left; reflexivity].
      + rewrite IH by (cbn in Hl; lia). unfold scale.
        destruct (in_dec Nat.eq_dec v vs) as [H1|H1], (in_dec Nat.eq_dec v (w :: vs)) as [H2|H2]; try reflexivity.
        * elim H2. right. assumption.
        * destruct H2; [congruence|contradiction].
  Qed.

  Lemma map_id_mul : forall (c : CF) l, c <> 0 -> map (fmul c) (map (fun a => a / c) l) = l.
  Proof. intros c l Hc. induction l as [|a l IH]; cbn [map]; [reflexivity|]. rewrite IH. f_equal. field. exact Hc. Qed.

  Lemma F2_len : forall (A B : Type) (P : A -> B -> Prop) l l', Forall2 P l l' -> length l = length l'.
  Proof. intros A B P l l' H. induction H; cbn; congruence. Qed.

  (** *** the set-up *)
  Lemma cell_bound : forall l, Forall (fun d => 1 <= d)%Z l -> forall d, In d l -> (d <= num_cells l)%Z.
  Proof.
    unfold num_cells. intros l H. induction H as [|a l Ha H IH]; intros d Hi; [contradiction|]. cbn [fold_right].
    pose proof (num_cells_pos l H) as P. unfold num_cells in P. destruct Hi as [->|Hi]; [nia|]. specialize (IH d Hi). nia.
  Qed.

  Definition degree_list (vars : list nat) (fl : list (expr CF)) : list nat := map (fun f => Z.to_nat (gdegree fs rho vars f)) fl.

  Definition related (h : nat) (vars : list nat) (f f' : expr CF) : Prop :=
    (forall point, point h = 1 -> eval fs point f' = eval fs point f) /\
    scales fs (h :: vars) (Z.to_nat (gdegree fs rho vars f)) f' /\
    (forall point, exists y, eval fs point f' = Some y) /\
    (forall v, occurs v f -> In v vars).

  Record good_setup (s : psys CF) (vars : list nat) (h : nat) (c rs : list CF) (g : CF) (z : set_up) : Prop := {
    gs_order : order (prepared z) = h :: vars;
    gs_fresh : ~ In h vars;
    gs_nodup : NoDup vars;
    gs_funs : Forall2 (related h vars) (fns s) (fns (prepared z));
    gs_square : length (fns s) = length vars;
    gs_start : start z = mkStructure (repeat Affine (length vars)) (degree_list vars (fns s)) rs true (Some [c]);
    gs_rs : length rs = length vars;
    gs_c : length c = S (length vars);
    gs_gamma : gamma z = g;
    gs_pos : forall f, In f (fns s) -> (1 <= gdegree fs rho vars f)%Z;
    gs_ne : vars <> [];
    gs_cells : (num_cells (map (gdegree fs rho vars) (fns s)) < 2 ^ 64)%Z
  }.

  Lemma setup_good : forall fresh draw rand g s vars z, ready fs rho fresh s vars ->
    system_setup fs rho fresh draw rand g s = Value z ->
      good_setup s vars (fresh O) (map (draw O) (seq 0 (S (length vars)))) (map rand (seq 0 (length vars))) g z.
  Proof.
    intros fresh draw rand g s vars z (Hh & Hg & Hne & Hhg & Hun & Hlen & Hf & Hcells) Hz.
    assert (Hunk : unknowns s = vars) by (unfold unknowns; rewrite Hg, Hhg, Hun; cbn; rewrite !app_nil_r; reflexivity).
    destruct (homogenize_meaning fs rho fresh s Hh) as (s' & E & Eg & Ehg & Eun & Ehv & Em).
    pose proof Hh as (Hv0 & Hnd & _ & Hfr & Hpm). rewrite Hunk in Hfr, Hpm.
    assert (Nd : NoDup vars) by (apply Hnd; left; rewrite Hg; left; reflexivity).
    assert (Nh : ~ In (fresh O) vars) by apply Hfr.
    assert (F2 : Forall2 (fun f f' => homogenize fs rho vars (fresh O) f = Some f') (fns s) (fns s')).
    { unfold homogenize_sys in E. destruct (negb _); [discriminate|]. destruct (is_polynomial_sys fs rho s) as [[|]|]; try discriminate.
      rewrite Hv0, Hg in E. cbn [length seq map combine homogenize_all] in E.
      destruct (sequence (map (homogenize fs rho vars (fresh O)) (fns s))) as [fl|] eqn:Es; [|discriminate].
      injection E as <-. cbn [fns]. apply sequence_map_some. exact Es. }
    rewrite Hg in Eg, Ehv, Em. cbn [length seq map] in Ehv.
    assert (Hord : order s' = fresh O :: vars).
    { unfold order. rewrite Eg, Ehv, Eun, Hun. cbn. rewrite !app_nil_r. reflexivity. }
    assert (Hl' : length (fns s') = length vars) by (rewrite <- (F2_len _ _ _ _ _ F2); exact Hlen).
    assert (Hd : Forall2 (fun f f' => vdegree fs rho None f' = gdegree fs rho vars f) (fns s) (fns s')).
    { assert (G : forall f, In f (fns s) -> pure vars f /\ modest vars f /\ forall v, occurs v f -> In v vars).
      { intros f Hi. destruct (Hpm f Hi) as (P & M & _). split; [exact P|]. split; [apply M; rewrite Hg; left; reflexivity|apply (Hf f Hi)]. }
      revert G. clear - F2 Nd Nh. induction F2 as [|f f' l l' H F2 IH]; intro G; constructor.
      - destruct (G f (or_introl eq_refl)) as (P & M & Oc). apply (total_homogenized fs rho vars vars (fresh O)) with (e := f); auto.
        intros v Hv; exact Hv.
      - apply IH. intros a Ha. apply G. right. exact Ha. }
    assert (Hpos : Forall (fun d => 1 <= d)%Z (map (gdegree fs rho vars) (fns s))).
    { apply Forall_forall. intros d Hi. apply in_map_iff in Hi. destruct Hi as [f [<- Hi]]. apply (Hf f Hi). }
    assert (Hds : map Z.to_nat (map wrap64 (degrees_of fs rho s')) = degree_list vars (fns s)).
    { unfold degrees_of, degree_list. rewrite !map_map.
      assert (B : forall f, In f (fns s) -> (0 <= gdegree fs rho vars f < 2 ^ 64)%Z).
      { intros f Hi. pose proof (cell_bound _ Hpos (gdegree fs rho vars f)) as B.
        assert (In (gdegree fs rho vars f) (map (gdegree fs rho vars) (fns s))) by (apply in_map; exact Hi).
        pose proof (proj1 (Forall_forall _ _) Hpos _ H) as H1. specialize (B H). split; [apply Z.le_trans with 1%Z; [lia|exact H1]|]. eapply Z.le_lt_trans; [exact B|exact Hcells]. }
      revert B. clear - Hd. induction Hd as [|f f' l l' H Hd IH]; intro B; cbn [map]; [reflexivity|].
      rewrite H, wrap64_small by (apply B; left; reflexivity). rewrite IH; [reflexivity|]. intros a Ha. apply B. right. exact Ha. }
    unfold system_setup in Hz. rewrite E in Hz. destruct (negb _); [discriminate|]. cbv zeta in Hz.
    destruct (copy_degrees fs rho s' (length (patch_for draw s')) false) as [ds| |] eqn:Hcd; try discriminate. injection Hz as <-.
    assert (Ed : ds = map wrap64 (degrees_of fs rho s')).
    { unfold copy_degrees in Hcd. destruct (negb _); [discriminate|]. destruct (negb _); [discriminate|]. destruct (negb _); [discriminate|].
      destruct (is_polynomial_sys fs rho s') as [[|]|]; try discriminate. injection Hcd as <-. reflexivity. }
    subst ds.
    constructor; cbn [prepared start gamma]; try assumption; try reflexivity.
    - revert Em. clear - F2 Hf Hpm. intro Em.
      assert (G : forall f, In f (fns s) -> (forall v, occurs v f -> In v vars) /\ pure vars f /\ forall point, exists y, eval fs point f = Some y).
      { intros f Hi. destruct (Hf f Hi) as (Oc & _ & D). destruct (Hpm f Hi) as (P & _). tauto. }
      clear Hf Hpm. revert Em G. induction F2 as [|f f' l l' H F2 IH]; intros Em G; inversion Em as [|? ? ? ? M Em']; subst; constructor.
      + destruct M as (M1 & M2 & _). destruct (G f (or_introl eq_refl)) as (Oc & P & D). split; [|split; [|split]].
        * intros point Hp. apply M1. intros k Hk. cbn [length] in Hk. replace k with 0%nat by lia. exact Hp.
        * apply (M2 O vars). reflexivity.
        * intro point. apply (homogenize_defined fs rho vars vars (fresh O)) with (e := f); [intros v Hv; exact Hv|exact P|exact H|apply D].
        * exact Oc.
      + apply IH; [exact Em'|]. intros a Ha. apply G. right. exact Ha.
    - rewrite Hds, Eg, Eun, Hun. unfold patch_for. rewrite Eg. cbn [concat length combine seq map repeat fst snd]. rewrite !app_nil_r.
      f_equal. f_equal. rewrite map_length. unfold degrees_of. rewrite map_length. rewrite Hl'. reflexivity.
    - rewrite map_length, seq_length. reflexivity.
    - rewrite map_length, seq_length. reflexivity.
    - intros f Hi. apply (Hf f Hi).
  Qed.

  (** a target written without sums below a minus sign or a power is accepted *)
  Lemma setup_works : forall fresh draw rand g s vars, ready fs rho fresh s vars -> (forall f, In f (fns s) -> expanded vars f) ->
    exists z, system_setup fs rho fresh draw rand g s = Value z.
  Proof.
    intros fresh draw rand g s vars (Hh & Hg & Hne & Hhg & Hun & Hlen & Hf & Hcells) Hex.
    assert (Hunk : unknowns s = vars) by (unfold unknowns; rewrite Hg, Hhg, Hun; cbn; rewrite !app_nil_r; reflexivity).
    destruct (homogenize_meaning fs rho fresh s Hh) as (s' & E & Eg & Ehg & Eun & Ehv & Em). rewrite <- Hunk in Hex.
    destruct (after fs rho fresh s s' Hh E Hex) as (Ia & Ib & _); [intro C; elim C; exact Hun|].
    rewrite Hg in Eg, Ehv. cbn [length seq map] in Ehv.
    assert (Hl' : length (fns s') = length vars) by (rewrite <- (F2_len _ _ _ _ _ Em); exact Hlen).
    assert (Hcd : copy_degrees fs rho s' (length (patch_for draw s')) false = Value (map wrap64 (degrees_of fs rho s'))).
    { unfold copy_degrees, patch_for, variable_count. rewrite Ehg, Hhg, Eg, Ehv, Eun, Hun, Hl'.
      cbn [length Nat.eqb negb combine seq map fold_right concat]. rewrite Ib.
      replace (length vars + 1 =? length vars + 0 + 0 + 0 + 1)%nat with true; [reflexivity|]. symmetry. apply Nat.eqb_eq. lia. }
    eexists. unfold system_setup. rewrite E, Ia. cbn [negb]. cbv zeta. rewrite Hcd. reflexivity.
  Qed.

  (** *** consequences *)
  Section Good.
    Variable s : psys CF.
    Variable vars : list nat.
    Variable h : nat.
    Variable c rs : list CF.
    Variable g : CF.
    Variable z : set_up.
    Hypothesis G : good_setup s vars h c rs g z.

    Let n := length vars.

    Lemma good_plain : plain (start z).
    Proof.
      rewrite (gs_start _ _ _ _ _ _ _ G). unfold plain. cbn [kinds degrees randoms].
      rewrite repeat_length. unfold degree_list. rewrite map_length.
      split; [|split; [|split; [|split]]].
      - pose proof (gs_ne _ _ _ _ _ _ _ G). destruct vars; [congruence|discriminate].
      - apply Forall_forall. intros k Hk. apply repeat_spec in Hk. exact Hk.
      - apply (gs_square _ _ _ _ _ _ _ G).
      - apply (gs_rs _ _ _ _ _ _ _ G).
      - apply Forall_forall. intros d Hd. apply in_map_iff in Hd. destruct Hd as [f [<- Hf]].
        pose proof (gs_pos _ _ _ _ _ _ _ G f Hf). lia.
    Qed.

    Lemma good_bezout : bezout (start z) = num_cells (map (gdegree fs rho vars) (fns s)).
    Proof.
      rewrite (gs_start _ _ _ _ _ _ _ G). unfold bezout. cbn [degrees]. unfold degree_list. rewrite map_map. f_equal.
      apply map_ext_in. intros f Hf. pose proof (gs_pos _ _ _ _ _ _ _ G f Hf). lia.
    Qed.

    Lemma good_number : num_start_points (degrees (start z)) = num_cells (map (gdegree fs rho vars) (fns s)).
    Proof.
      rewrite <- good_bezout. pose proof good_plain as (_ & _ & _ & _ & P). apply num_start_points_ok; [exact P|].
      fold (bezout (start z)). rewrite good_bezout. apply (gs_cells _ _ _ _ _ _ _ G).
    Qed.

    Lemma good_values_defined : forall x, exists a, values fs rho (fns (prepared z)) (order (prepared z)) x = Some a /\ length a = n.
    Proof.
      intro x. unfold values, n. rewrite <- (gs_square _ _ _ _ _ _ _ G). pose proof (gs_funs _ _ _ _ _ _ _ G) as F2. revert F2.
      generalize (assign rho (order (prepared z)) x). intros point. generalize (fns s) (fns (prepared z)).
      intros l l' F2. induction F2 as [|f f' l l' H F2 IH]; cbn [map sequence].
      - exists []. split; reflexivity.
      - destruct H as (_ & _ & D & _). destruct (D point) as [y Ey]. rewrite Ey. destruct IH as [a [Ea La]]. rewrite Ea.
        exists (y :: a). split; [reflexivity|]. cbn [length]. rewrite La. reflexivity.
    Qed.

    Lemma good_defined : forall x t, exists v, homotopy_values fs rho z x t = Some v.
    Proof. intros x t. unfold homotopy_values. destruct (good_values_defined x) as [a [Ea _]]. rewrite Ea. eexists. reflexivity. Qed.

    Lemma start_values_length : forall x, length x = S n -> length (start_system_values (start z) x) = n.
    Proof.
      intros [|b xs] Hx; [discriminate|]. cbn [length] in Hx. rewrite (gs_start _ _ _ _ _ _ _ G). unfold start_system_values. cbn [homogenized kinds degrees randoms].
      rewrite affine_values_id; [|apply Forall_forall; intros k Hk; apply repeat_spec in Hk; exact Hk|rewrite repeat_length; unfold n in Hx; lia].
      assert (L1 : length (degree_list vars (fns s)) = n) by (unfold degree_list; rewrite map_length; apply (gs_square _ _ _ _ _ _ _ G)).
      assert (L2 : length rs = n) by apply (gs_rs _ _ _ _ _ _ _ G).
      assert (L3 : length xs = n) by lia. clear - L1 L2 L3. clearbody n. revert rs xs n L1 L2 L3.
      induction (degree_list vars (fns s)) as [|d ds IH]; intros [|r rs] [|a xs] [|m] L1 L2 L3; try discriminate; cbn in *; try reflexivity.
      f_equal. apply IH; lia.
    Qed.

    Lemma mix_one : forall a b, length a = length b -> mix 1 g a b = map (fmul g) b.
    Proof. induction a as [|u a IH]; intros [|v b] H; try discriminate; cbn [mix map]; [reflexivity|]. rewrite IH by (cbn in H; lia). f_equal. ring. Qed.

    Lemma mix_zero : forall a b, length a = length b -> mix 0 g a b = a.
    Proof. induction a as [|u a IH]; intros [|v b] H; try discriminate; cbn [mix]; [reflexivity|]. rewrite IH by (cbn in H; lia). f_equal. ring. Qed.

    (** the homotopy at t = 1 *)
    Lemma at_one : forall x, length x = S n -> homotopy_values fs rho z x 1 = Some (map (fmul g) (start_system_values (start z) x)).
    Proof.
      intros x Hx. unfold homotopy_values. destruct (good_values_defined x) as [a [Ea La]]. rewrite Ea.
      rewrite (gs_gamma _ _ _ _ _ _ _ G), mix_one; [reflexivity|]. rewrite (start_values_length x Hx). exact La.
    Qed.

    Lemma at_zero : forall x, length x = S n -> homotopy_values fs rho z x 0 = values fs rho (fns (prepared z)) (order (prepared z)) x.
    Proof.
      intros x Hx. unfold homotopy_values. destruct (good_values_defined x) as [a [Ea La]]. rewrite Ea.
      rewrite (gs_gamma _ _ _ _ _ _ _ G), mix_zero; [reflexivity|]. rewrite (start_values_length x Hx). exact La.
    Qed.

    Lemma all_zero_map : forall l, g <> 0 -> all_zero (map (fmul g) l) -> all_zero l.
    Proof.
      intros l Hg. unfold all_zero. induction l as [|a l IH]; intro H; constructor; inversion H; subst.
      - destruct (fmul_integral _ _ H2); [contradiction|assumption].
      - apply IH. assumption.
    Qed.

    Lemma map_all_zero : forall l, all_zero l -> all_zero (map (fmul g) l).
    Proof. intros l H. unfold all_zero in *. induction H; cbn [map]; constructor; [subst; ring|assumption]. Qed.

    Lemma good_starts : forall i x, (0 <= i < num_cells (map (gdegree fs rho vars) (fns s)))%Z -> start_point (start z) i = Value x ->
      length x = S n /\ on_patch [c] x /\ zero_of fs rho z x 1.
    Proof.
      intros i x Hi Hx. pose proof good_plain as P. rewrite <- good_bezout in Hi.
      assert (Hc : length c = S (length (kinds (start z)))).
      { rewrite (gs_start _ _ _ _ _ _ _ G). cbn [kinds]. rewrite repeat_length. apply (gs_c _ _ _ _ _ _ _ G). }
      destruct (patched_start_point_is_zero (start z) c i x P) as (L & Z & O); try assumption.
      - rewrite (gs_start _ _ _ _ _ _ _ G). reflexivity.
      - rewrite (gs_start _ _ _ _ _ _ _ G). reflexivity.
      - rewrite good_bezout. apply (gs_cells _ _ _ _ _ _ _ G).
      - assert (Lx : length x = S n). { rewrite L, <- Hc. apply (gs_c _ _ _ _ _ _ _ G). }
        split; [exact Lx|]. split; [exact O|].
        exists (map (fmul g) (start_system_values (start z) x)). split; [apply at_one; exact Lx|]. apply map_all_zero. exact Z.
    Qed.

    Lemma good_distinct : Forall (fun r => r <> 0) rs -> forall i j x,
      (0 <= i < num_cells (map (gdegree fs rho vars) (fns s)))%Z -> (0 <= j < num_cells (map (gdegree fs rho vars) (fns s)))%Z ->
      start_point (start z) i = Value x -> start_point (start z) j = Value x -> i = j.
    Proof.
      intros Hr i j x Hi Hj Ei Ej. pose proof good_plain as P. rewrite <- good_bezout in Hi, Hj.
      assert (Hc : length c = S (length (kinds (start z)))).
      { rewrite (gs_start _ _ _ _ _ _ _ G). cbn [kinds]. rewrite repeat_length. apply (gs_c _ _ _ _ _ _ _ G). }
      assert (Hb : (bezout (start z) < 2 ^ 64)%Z) by (rewrite good_bezout; apply (gs_cells _ _ _ _ _ _ _ G)).
      assert (H1 : homogenized (start z) = true) by (rewrite (gs_start _ _ _ _ _ _ _ G); reflexivity).
      assert (H2 : patch_of (start z) = Some [c]) by (rewrite (gs_start _ _ _ _ _ _ _ G); reflexivity).
      destruct (patched_start_point_is_zero (start z) c i x P H1 H2 Hc Hb Hi Ei) as (L & _ & _).
      apply (patched_start_points_distinct (start z) c i j x x); try assumption.
      - rewrite (gs_start _ _ _ _ _ _ _ G). exact Hr.
      - unfold same_projective_point, num_groups, num_vars, sizes_of. cbn [map fold_right length]. rewrite Nat.add_0_r.
        split; [congruence|]. split; [congruence|]. exists [1]. split; [reflexivity|]. split; [constructor; [apply f1_neq_f0|constructor]|].
        rewrite !blocks_single by congruence. cbn [combine map fst snd]. f_equal. symmetry. rewrite <- (map_id x) at 2. apply map_ext. intro; ring.
    Qed.

    (** every zero on the patch is a start point *)
    Lemma hom_zero_ratio : forall b xs ds rs', b <> 0 -> length ds = length xs -> length rs' = length xs ->
      all_zero (hom_function_values b xs ds rs') ->
      Forall2 (fun x dr => fpow x (fst dr) = snd dr) (map (fun a => a / b) xs) (combine ds rs').
    Proof.
      intros b. induction xs as [|a xs IH]; intros [|d ds] [|r rs'] Hb H1 H2 H; try discriminate; cbn [map combine]; constructor.
      - cbn [fst snd]. cbn [hom_function_values] in H. inversion H; subst.
        assert (Hp : fpow b d <> 0) by (clear - Hb; induction d as [|d IHd]; cbn [fpow]; [apply f1_neq_f0|]; intro E; destruct (fmul_integral _ _ E); contradiction).
        assert (E : fpow a d = r * fpow b d).
        { transitivity (fpow a d - r * fpow b d + r * fpow b d); [ring|]. rewrite H4. ring. }
        assert (M : fpow (a / b) d * fpow b d = fpow a d).
        { rewrite <- fpow_mul_base. f_equal. field. exact Hb. }
        rewrite E in M. apply (fmul_cancel_r _ _ (fpow b d) Hp). exact M.
      - cbn in *. apply IH; try lia; [assumption|]. inversion H; subst; assumption.
    Qed.

    Lemma hom_zero_at_infinity : forall xs ds rs', length ds = length xs -> length rs' = length xs -> Forall (fun d => 1 <= d)%nat ds ->
      all_zero (hom_function_values 0 xs ds rs') -> Forall (fun a => a = 0) xs.
    Proof.
      induction xs as [|a xs IH]; intros [|d ds] [|r rs'] H1 H2 Hd H; try discriminate; constructor; cbn [hom_function_values] in H; inversion H; subst; inversion Hd; subst.
      - destruct d as [|d]; [lia|]. assert (E : fpow a (S d) = 0).
        { transitivity (fpow a (S d) - r * fpow 0 (S d)); [cbn [fpow]; ring|exact H4]. }
        clear - E. induction d as [|d IHd]; cbn [fpow] in *; destruct (fmul_integral _ _ E) as [E'|E']; try assumption.
        + exfalso. exact (f1_neq_f0 E').
        + apply IHd. exact E'.
      - cbn in *. apply (IH ds rs'); try lia; assumption.
    Qed.

    Lemma good_complete : g <> 0 -> forall x, length x = S n -> on_patch [c] x -> zero_of fs rho z x 1 ->
      exists i, (0 <= i < num_cells (map (gdegree fs rho vars) (fns s)))%Z /\ start_point (start z) i = Value x.
    Proof.
      intros Hg x Hx Ho [v [Hv Hz]]. rewrite (at_one x Hx) in Hv. injection Hv as <-. apply (all_zero_map _ Hg) in Hz.
      pose proof good_plain as (P1 & P2 & P3 & P4 & P5).
      assert (Hk : length (kinds (start z)) = n) by (rewrite (gs_start _ _ _ _ _ _ _ G); cbn [kinds]; apply repeat_length).
      destruct x as [|b xs]; [discriminate|]. cbn [length] in Hx. assert (Hxs : length xs = n) by lia.
      unfold start_system_values in Hz. replace (homogenized (start z)) with true in Hz by (rewrite (gs_start _ _ _ _ _ _ _ G); reflexivity).
      rewrite affine_values_id in Hz by (assumption || lia).
      assert (Hb : b <> 0).
      { intro E. rewrite E in Hz, Ho. apply hom_zero_at_infinity in Hz; try assumption; try lia.
        destruct Ho as [_ Ho]. inversion Ho as [|? ? ? ? O1 _ E1 E2]. subst. clear - O1 Hz Hxs Hx G.
        unfold sizes_of in O1. cbn [map blocks] in O1. rewrite firstn_all2 in O1 by (rewrite (gs_c _ _ _ _ _ _ _ G); cbn [length]; unfold n in Hxs; lia).
        apply (@f1_neq_f0 CF). rewrite <- O1. unfold inner.
        assert (A : Forall (fun a => a = 0) (0 :: xs)) by (constructor; [reflexivity|exact Hz]). revert A. generalize (0 :: xs : list CF). clear.
        intros l A. revert c. induction A as [|a l E A IH]; intros [|u c]; cbn [combine map]; try reflexivity.
        cbn [fsum fst snd]. rewrite (IH c), E. ring. }
      apply hom_zero_ratio in Hz; try assumption; try lia.
      destruct (coordinates_complete (kinds (start z)) (degrees (start z)) (randoms (start z)) (map (fun a => a / b) xs) P3 P4 P5
                  ltac:(rewrite map_length; lia) Hz) as [sub [Hl Hc]].
      exists (cell_position (map Z.of_nat (degrees (start z))) sub). split.
      - rewrite <- good_bezout. apply cell_position_bound. exact Hl.
      - unfold start_point. rewrite index_to_subscript_onto.
        + rewrite Hc. replace (patch_of (start z)) with (Some [c]) by (rewrite (gs_start _ _ _ _ _ _ _ G); reflexivity).
          replace (homogenized (start z)) with true by (rewrite (gs_start _ _ _ _ _ _ _ G); reflexivity).
          assert (Lc : length c = S n) by apply (gs_c _ _ _ _ _ _ _ G).
          rewrite (rescale_scale_invariant [c] (1 :: map (fun a => a / b) xs) (b :: xs)).
          * rewrite (rescale_on_patch_id _ _ Ho). reflexivity.
          * unfold same_projective_point, num_groups, num_vars, sizes_of. cbn [map fold_right length]. rewrite map_length, Lc, Hxs.
            split; [lia|]. split; [lia|]. exists [b]. split; [reflexivity|]. split; [constructor; [exact Hb|constructor]|].
            rewrite !blocks_single by (cbn [length]; rewrite ?map_length; lia). cbn [combine map fst snd]. rewrite map_id_mul by exact Hb.
            f_equal. f_equal. ring.
        + intro E. apply map_eq_nil in E. rewrite E in P3. cbn in P3. destruct (kinds (start z)); [congruence|discriminate].
        + fold (bezout (start z)). rewrite good_bezout. apply (gs_cells _ _ _ _ _ _ _ G).
        + exact Hl.
    Qed.

    (** *** the other end *)
    Lemma some_inj : forall (A : Type) (a b : A), Some a = Some b -> a = b.
    Proof. intros A a b H. congruence. Qed.

    Lemma values_zero : forall fl vs x v, values fs rho fl vs x = Some v -> (all_zero v <-> solves fs rho fl vs x).
    Proof.
      unfold values, solves, all_zero. induction fl as [|f fl IH]; intros vs x v H; cbn [map sequence] in H.
      - injection H as <-. split; intro; constructor.
      - destruct (eval fs (assign rho vs x) f) as [y|] eqn:Ey; [|discriminate]. destruct (sequence _) as [w|] eqn:Ew; [|discriminate].
        injection H as <-. destruct (IH vs x w Ew) as [A B]. split; intro H; inversion H; subst; constructor; auto. congruence.
    Qed.

    Lemma scaled_zero : forall b xs, b <> 0 -> length xs = n ->
      (solves fs rho (fns (prepared z)) (h :: vars) (b :: xs) <-> solves fs rho (fns s) vars (map (fun a => a / b) xs)).
    Proof.
      intros b xs Hb Hx. unfold solves. set (l := map (fun a => a / b) xs).
      assert (E : (b :: xs) = map (fmul b) (1 :: l)) by (unfold l; cbn [map]; rewrite map_id_mul by exact Hb; f_equal; ring).
      assert (Hl : length (1 :: l) = length (h :: vars)) by (unfold l; cbn [length]; rewrite map_length; unfold n in Hx; lia).
      assert (Q : forall f f', related h vars f f' -> (eval fs (assign rho (h :: vars) (b :: xs)) f' = Some 0 <-> eval fs (assign rho vars l) f = Some 0)).
      { intros f f' (R1 & R2 & R3 & R4).
        assert (X : eval fs (assign rho (h :: vars) (b :: xs)) f' = eval fs (scale b (h :: vars) (assign rho (h :: vars) (1 :: l))) f').
        { rewrite E. apply eval_ext. intros v _. apply assign_scale. exact Hl. }
        assert (Y : eval fs (assign rho (h :: vars) (1 :: l)) f' = eval fs (assign rho vars l) f).
        { rewrite R1 by (cbn [assign]; unfold upd; destruct (Nat.eq_dec h h); [reflexivity|congruence]).
          apply eval_ext. intros v Hv. cbn [assign]. unfold upd. destruct (Nat.eq_dec v h) as [->|]; [|reflexivity].
          elim (gs_fresh _ _ _ _ _ _ _ G). apply R4. exact Hv. }
        destruct (R3 (assign rho (h :: vars) (1 :: l))) as [y Ey]. destruct (R3 (scale b (h :: vars) (assign rho (h :: vars) (1 :: l)))) as [y' Ey'].
        pose proof (R2 _ _ _ _ Ey Ey') as M. rewrite X, <- Y, Ey, Ey', M.
        assert (Hp : forall d, fpow b d <> 0) by (clear - Hb; induction d as [|d IHd]; cbn [fpow]; [apply f1_neq_f0|]; intro C; destruct (fmul_integral _ _ C); contradiction).
        split; intro H; apply some_inj in H.
        - destruct (fmul_integral _ _ H); [elim (Hp _ H0)|congruence].
        - rewrite H. f_equal. ring. }
      pose proof (gs_funs _ _ _ _ _ _ _ G) as F2. clear - F2 Q. induction F2 as [|f f' k k' R F2 IH].
      - split; constructor.
      - specialize (Q f f' R). split; intro H; inversion H; subst; constructor; tauto.
    Qed.

    Lemma good_ends : forall b xs, b <> 0 -> length xs = n ->
      (zero_of fs rho z (b :: xs) 0 <-> solves fs rho (fns s) vars (map (fun a => a / b) xs)).
    Proof.
      intros b xs Hb Hx. rewrite <- (scaled_zero b xs Hb Hx). unfold zero_of. rewrite at_zero by (cbn [length]; lia).
      rewrite (gs_order _ _ _ _ _ _ _ G). split.
      - intros [v [Hv Hz]]. apply (values_zero _ _ _ _ Hv). exact Hz.
      - intro H. destruct (good_values_defined (b :: xs)) as [a [Ea La]]. rewrite (gs_order _ _ _ _ _ _ _ G) in Ea.
        exists a. split; [exact Ea|]. apply (values_zero _ _ _ _ Ea). exact H.
    Qed.

    Lemma on_single : forall x, length x = S n -> (on_patch [c] x <-> inner c x = 1).
    Proof.
      intros x Hx. assert (Lc : length c = S n) by apply (gs_c _ _ _ _ _ _ _ G). unfold on_patch, num_vars, sizes_of. cbn [map fold_right].
      rewrite Nat.add_0_r, blocks_single by congruence. split.
      - intros [_ H]. inversion H; subst; assumption.
      - intro H. split; [congruence|]. constructor; [exact H|constructor].
    Qed.

    Lemma good_reaches : forall a, length a = n -> solves fs rho (fns s) vars a -> inner c (1 :: a) <> 0 ->
      exists x, length x = S n /\ on_patch [c] x /\ zero_of fs rho z x 0 /\
        (exists b xs, x = b :: xs /\ b <> 0 /\ map (fun u => u / b) xs = a).
    Proof.
      intros a Ha Hs Hc. set (b := 1 / inner c (1 :: a)).
      assert (Hb : b <> 0).
      { intro E. apply (@f1_neq_f0 CF). transitivity (b * inner c (1 :: a)); [unfold b; field; exact Hc|rewrite E; ring]. }
      assert (Hm : map (fun u => u / b) (map (fmul b) a) = a).
      { rewrite map_map. transitivity (map (fun u : CF => u) a); [|apply map_id]. apply map_ext. intro u. field. exact Hb. }
      exists (b :: map (fmul b) a). assert (L : length (b :: map (fmul b) a) = S n) by (cbn [length]; rewrite map_length; lia).
      split; [exact L|]. split; [|split].
      - apply (on_single _ L). replace (b :: map (fmul b) a) with (map (fmul b) (1 :: a)) by (cbn [map]; f_equal; ring).
        rewrite inner_scale. unfold b. field. exact Hc.
      - apply good_ends; [exact Hb|rewrite map_length; exact Ha|]. rewrite Hm. exact Hs.
      - exists b, (map (fmul b) a). split; [reflexivity|]. split; [exact Hb|exact Hm].
    Qed.

    Lemma on_patch_unique : forall b xs b' xs', length xs = n -> length xs' = n -> b <> 0 -> b' <> 0 ->
      on_patch [c] (b :: xs) -> on_patch [c] (b' :: xs') ->
      map (fun u => u / b) xs = map (fun u => u / b') xs' -> b :: xs = b' :: xs'.
    Proof.
      intros b xs b' xs' L L' Hb Hb' O O' E.
      assert (P : forall (d : CF) (l : list CF), d <> 0 -> d :: l = map (fmul d) (1 :: map (fun a => a / d) l)).
      { intros d l Hd. cbn [map]. rewrite map_id_mul by exact Hd. f_equal. ring. }
      apply on_single in O; [|cbn [length]; lia]. apply on_single in O'; [|cbn [length]; lia].
      rewrite (P b xs Hb) in O |- *. rewrite (P b' xs' Hb') in O' |- *. rewrite <- E in O' |- *. rewrite inner_scale in O, O'.
      assert (b = b'); [|congruence].
      apply (fmul_cancel_r _ _ (inner c (1 :: map (fun a => a / b) xs))).
      - intro C. rewrite C in O. apply (@f1_neq_f0 CF). rewrite <- O. ring.
      - congruence.
    Qed.

    (** *** the homotopy is homogeneous *)
    Lemma good_homogeneous : forall x t l v w, length x = S n ->
      homotopy_values fs rho z x t = Some v -> homotopy_values fs rho z (map (fmul l) x) t = Some w ->
      w = map (fun p => fpow l (fst p) * snd p) (combine (degree_list vars (fns s)) v).
    Proof.
      intros x t l v w Hx Hv Hw. unfold homotopy_values in Hv, Hw.
      destruct (good_values_defined x) as [a [Ea La]]. destruct (good_values_defined (map (fmul l) x)) as [a' [Ea' La']].
      rewrite Ea in Hv. rewrite Ea' in Hw. injection Hv as <-. injection Hw as <-.
      assert (A : a' = map (fun p => fpow l (fst p) * snd p) (combine (degree_list vars (fns s)) a)).
      { unfold values in Ea, Ea'. rewrite (gs_order _ _ _ _ _ _ _ G) in Ea, Ea'. pose proof (gs_funs _ _ _ _ _ _ _ G) as F2. unfold degree_list.
        assert (X : forall f', eval fs (assign rho (h :: vars) (map (fmul l) x)) f' = eval fs (scale l (h :: vars) (assign rho (h :: vars) x)) f').
        { intro f'. apply eval_ext. intros u _. apply assign_scale. cbn [length]. unfold n in Hx. exact Hx. }
        clear - F2 Ea Ea' X. revert a a' Ea Ea'. induction F2 as [|f f' k k' R F2 IH]; intros a a' Ea Ea'; cbn [map sequence combine] in *.
        - injection Ea' as <-. reflexivity.
        - rewrite X in Ea'. destruct (eval fs (assign rho (h :: vars) x) f') as [y|] eqn:Ey; [|discriminate].
          destruct (eval fs (scale l (h :: vars) (assign rho (h :: vars) x)) f') as [y'|] eqn:Ey'; [|discriminate].
          destruct (sequence (map (eval fs (assign rho (h :: vars) x)) k')) as [q|] eqn:Eq; [|discriminate].
          destruct (sequence (map (eval fs (assign rho (h :: vars) (map (fmul l) x))) k')) as [q'|] eqn:Eq'; [|discriminate].
          injection Ea as <-. injection Ea' as <-. cbn [combine map fst snd]. f_equal.
          + destruct R as (_ & R2 & _). apply (R2 _ _ _ _ Ey Ey').
          + apply IH; reflexivity. }
      assert (B : start_system_values (start z) (map (fmul l) x)
                  = map (fun p => fpow l (fst p) * snd p) (combine (degree_list vars (fns s)) (start_system_values (start z) x))).
      { rewrite (gs_start _ _ _ _ _ _ _ G). destruct x as [|b xs]; [discriminate|]. cbn [length] in Hx. unfold start_system_values. cbn [homogenized kinds degrees randoms map].
        assert (Ha : Forall (fun k => k = Affine) (repeat Affine (length vars))) by (apply Forall_forall; intros k Hk; apply repeat_spec in Hk; exact Hk).
        rewrite !affine_values_id by (try exact Ha; rewrite ?map_length, repeat_length; unfold n in Hx; lia).
        assert (L1 : length (degree_list vars (fns s)) = length xs) by (unfold degree_list; rewrite map_length, (gs_square _ _ _ _ _ _ _ G); unfold n in Hx; lia).
        assert (L2 : length rs = length xs) by (rewrite (gs_rs _ _ _ _ _ _ _ G); unfold n in Hx; lia).
        clear - L1 L2. revert L1 L2. generalize (degree_list vars (fns s)). revert rs. induction xs as [|u xs IH]; intros [|r rs] [|d ds] L1 L2; try discriminate; [reflexivity|].
        cbn [map hom_function_values combine fst snd]. f_equal; [|apply IH; cbn in *; lia]. rewrite !fpow_mul_base. ring. }
      rewrite A, B. pose proof (start_values_length x Hx) as Ls. clear - La Ls G.
      assert (L1 : length (degree_list vars (fns s)) = n) by (unfold degree_list; rewrite map_length, (gs_square _ _ _ _ _ _ _ G); reflexivity).
      clear G. revert L1 La Ls. generalize (degree_list vars (fns s)) (start_system_values (start z) x) n. intros ds. revert a.
      induction ds as [|d ds IH]; intros [|u a] [|q b] [|m] L1 L2 L3; try discriminate; cbn [combine map mix fst snd]; try reflexivity.
      f_equal; [ring|]. apply (IH a b m); cbn in *; lia.
    Qed.
  End Good.
End Setup.
