(** Homogenizing a tree which is linear in the variables of a group: the result is linear in the homogenizing variable and
    the variables together.  The trees are those of Expr.v, homogenizing is that of Homog.v. *)
From Coq Require Import List Arith Lia ZArith Bool.
From Verif Require Import Base Expr Degree Homog HomogSys LinearTree.
Import ListNotations.

Section LinearHom.
  Context {F : fld}.
  Variable fs : funs F.
  Variable rho : env F.
  Variable vs : list nat.
  Variable h : nat.
  Hypothesis Hnd : NoDup vs.
  Hypothesis Hh : ~ In h vs.

  (** ** the degree *)
  Lemma linear_degree : forall e, linear vs e -> pure vs e -> modest vs e ->
    (constant vs e /\ gdegree fs rho vs e = 0%Z) \/ gdegree fs rho vs e = 1%Z.
  Proof.
    intros e H. pattern e. revert e H. apply (linear_ind' vs); [intros e He|intro v|intros ops Ho IH|intros pre e post Hp He IH Hq|intros e He IH|intros e He IH|intros e He IH]; intros P M.
    - left. split; [exact (proj2 He)|]. apply (fixed_degree fs rho vs vs (incl_refl vs)); [exact P|exact (proj2 He)].
    - cbn [gdegree]. destruct (existsb (Nat.eqb v) vs) eqn:E; [right; reflexivity|left]. split; [|reflexivity].
      intros w Hw Hx. inversion Hx; subst. assert (existsb (Nat.eqb v) vs = true) by (apply existsb_exists; exists v; split; [assumption|apply Nat.eqb_refl]). congruence.
    - assert (Em : gdegree fs rho vs (Sum ops) = fold_left Z.max (map (fun p => gdegree fs rho vs (snd p)) ops) 0%Z).
      { inversion P; subst. cbn [gdegree]. apply sum_degree_max. rewrite Forall_map. apply Forall_forall. intros p Hi.
        apply (pure_gdegree fs rho vs vs (incl_refl vs)). rewrite Forall_forall in H0. apply H0. exact Hi. }
      rewrite Em. clear Em.
      inversion P as [| |? Ps| | | | |]; subst. inversion M as [| |? Ms| | | | |]; subst. clear P M Ho.
      assert (G : forall m, m = 0%Z \/ m = 1%Z -> (m = 0%Z /\ constant vs (Sum ops) /\ fold_left Z.max (map (fun p => gdegree fs rho vs (snd p)) ops) m = 0%Z) \/
        fold_left Z.max (map (fun p => gdegree fs rho vs (snd p)) ops) m = 1%Z).
      { induction ops as [|p ops IHo]; intros m Hm; cbn [map fold_left].
        - destruct Hm as [->| ->]; [left|right; reflexivity]. split; [reflexivity|]. split; [|reflexivity]. intros v Hv Hx. inversion Hx; subst. contradiction.
        - inversion IH as [|? ? Ip IH']; subst. inversion Ps; subst. inversion Ms; subst.
          destruct (Ip ltac:(assumption) ltac:(assumption)) as [[Cp Dp]|Dp]; rewrite Dp.
          + destruct (IHo IH' ltac:(assumption) ltac:(assumption) (Z.max m 0) ltac:(lia)) as [(A & B & C)|C]; [left|right; exact C].
            split; [lia|]. split; [|exact C]. intros v Hv Hx. inversion Hx as [|? b a Hi Ho| | | | | | |]; subst. destruct Hi as [->|Hi]; [exact (Cp v Hv Ho)|].
            apply (B v Hv). econstructor; eassumption.
          + right. destruct (IHo IH' ltac:(assumption) ltac:(assumption) (Z.max m 1) ltac:(lia)) as [(A & _ & _)|C]; [lia|exact C]. }
      destruct (G 0%Z (or_introl eq_refl)) as [(_ & A & B)|B]; [left; split; assumption|right; exact B].
    - destruct (gdegree_mul fs rho vs _ (pure_polynomial fs rho vs vs _ (incl_refl vs) P)) as [Eg _]. rewrite Eg. clear Eg.
      inversion P as [| | |? Ps Pc| | | |]; subst. inversion M as [| | |? Ms| | | |]; subst.
      assert (Z0 : forall l : list (bool * expr F), Forall (fun p => coefficient vs (snd p)) l -> Forall (fun p => pure vs (snd p)) l ->
        forall l', fold_right (fun p n => (gdegree fs rho vs (snd p) + n)%Z) 0%Z (l ++ l') = fold_right (fun p n => (gdegree fs rho vs (snd p) + n)%Z) 0%Z l').
      { induction l as [|p l IHl]; intros A B l'; [reflexivity|]. inversion A; subst. inversion B; subst. cbn [app fold_right]. rewrite IHl by assumption.
        rewrite (fixed_degree fs rho vs vs (incl_refl vs)); [reflexivity|assumption|]. match goal with X : coefficient vs (snd p) |- _ => exact (proj2 X) end. }
      apply Forall_app in Ps. destruct Ps as [Ps1 Ps2]. inversion Ps2 as [|? ? Pe Ps3]; subst.
      apply Forall_app in Ms. destruct Ms as [_ Ms2]. inversion Ms2 as [|? ? Me _]; subst. cbn [snd] in *.
      rewrite (Z0 pre Hp Ps1). cbn [fold_right snd]. rewrite <- (app_nil_r post), (Z0 post Hq Ps3). cbn [fold_right].
      destruct (IH Pe Me) as [[Ce De]|De]; rewrite De; [left|right; reflexivity]. split; [|reflexivity].
      intros v Hv Hx. inversion Hx as [| |? b a Hi Hox| | | | | |]; subst. rewrite app_nil_r in Hi. rewrite Forall_forall in Hp, Hq. apply in_app_or in Hi.
      destruct Hi as [Hi|[Hi|Hi]]; [exact (proj2 (Hp _ Hi) v Hv Hox)| |exact (proj2 (Hq _ Hi) v Hv Hox)].
      injection Hi as _ <-. exact (Ce v Hv Hox).
    - inversion P; subst. inversion M; subst. rewrite (gdegree_neg fs rho vs vs (incl_refl vs) Hnd) by assumption.
      destruct (IH ltac:(assumption) ltac:(assumption)) as [[C D]|D]; [left; split; [|exact D]|right; exact D].
      intros v Hv Hx. inversion Hx; subst. apply (C v Hv). assumption.
    - inversion P; subst. inversion M; subst. cbn [gdegree].
      destruct (IH ltac:(assumption) ltac:(assumption)) as [[C D]|D]; [left; split; [|exact D]|right; exact D].
      intros v Hv Hx. inversion Hx; subst. apply (C v Hv). assumption.
    - inversion P; subst. inversion M; subst. rewrite (gdegree_ipow fs rho vs vs (incl_refl vs) Hnd) by (assumption || lia).
      destruct (IH ltac:(assumption) ltac:(assumption)) as [[C D]|D]; rewrite D; [left; split; [|reflexivity]|right; reflexivity].
      intros v Hv Hx. inversion Hx; subst. apply (C v Hv). assumption.
  Qed.

  (** ** homogenizing *)
  Lemma coefficient_cons : forall e : expr F, coefficient vs e -> ~ occurs h e -> coefficient (h :: vs) e.
  Proof. intros e [A B] N. split; [exact A|]. intros v [<-|Hv]; [exact N|apply B; exact Hv]. Qed.

  Lemma homogenize_linear : forall e, linear vs e -> pure vs e -> modest vs e -> ~ occurs h e ->
    forall e', homogenize fs rho vs h e = Some e' -> linear (h :: vs) e'.
  Proof.
    intros e H. pattern e. revert e H. apply (linear_ind' vs); [intros e He|intro v|intros ops Ho IH|intros pre e post Hp He IH Hq|intros e He IH|intros e He IH|intros e He IH]; intros P M N e' E.
    - rewrite (homogenize_absent fs rho vs h e e'); [|exact (proj2 He)|exact E]. constructor. apply coefficient_cons; assumption.
    - cbn in E. injection E as <-. apply li_var.
    - pose proof (linear_degree (Sum ops) (li_sum _ _ Ho) P M) as D0.
      assert (Em : gdegree fs rho vs (Sum ops) = fold_left Z.max (map (fun p => gdegree fs rho vs (snd p)) ops) 0%Z).
      { inversion P; subst. cbn [gdegree]. apply sum_degree_max. rewrite Forall_map. apply Forall_forall. intros p Hi.
        apply (pure_gdegree fs rho vs vs (incl_refl vs)). rewrite Forall_forall in H0. apply H0. exact Hi. }
      inversion P as [| |? Ps| | | | |]; subst. inversion M as [| |? Ms| | | | |]; subst.
      cbn [homogenize] in E. destruct (sequence _) as [ops'|] eqn:Es; [|discriminate]. apply sequence_map_some in Es.
      destruct (existsb _ _); [discriminate|]. injection E as <-.
      assert (Ed : map (fun p => gdegree fs rho vs (snd p)) ops' = map (fun p => gdegree fs rho vs (snd p)) ops).
      { clear - Es Hh. induction Es as [|p q l l' Hab Hl IHl]; [reflexivity|]. cbn [map]. rewrite IHl. f_equal.
        apply (pair_hom_eq fs rho vs h p q) in Hab. apply (homogenize_degree fs rho vs h Hh _ _ (proj2 Hab)). }
      rewrite Ed, <- Em. set (m := gdegree fs rho vs (Sum ops)) in *.
      assert (Hm : (0 <= m <= 1)%Z) by (destruct D0 as [[_ D0]|D0]; lia).
      apply li_sum. apply Forall_forall. intros q Hq. apply in_map_iff in Hq. destruct Hq as [q0 [<- Hq]]. cbn [snd].
      destruct (in_two _ _ _ _ _ Es _ Hq) as [p [Hi Hpq]]. apply (pair_hom_eq fs rho vs h p q0) in Hpq. destruct Hpq as [_ Hpq].
      rewrite Forall_forall in Ho, IH, Ps, Ms.
      assert (Np : ~ occurs h (snd p)) by (intro Hx; apply N; destruct p; econstructor; eassumption).
      pose proof (IH p Hi (Ps p Hi) (Ms p Hi) Np _ Hpq) as L.
      assert (Eg : gdegree fs rho vs (snd q0) = gdegree fs rho vs (snd p)) by apply (homogenize_degree fs rho vs h Hh _ _ Hpq). rewrite Eg.
      destruct (linear_degree (snd p) (Ho p Hi) (Ps p Hi) (Ms p Hi)) as [[C D]|D]; rewrite D; unfold raise_degree.
      + destruct (Z.leb_spec (m - 0) 0); [exact L|]. replace (m - 0)%Z with 1%Z by lia. cbn [Z.eqb Pos.eqb].
        apply (li_mul (h :: vs) [] (Var h) [(true, snd q0)]); [constructor|apply li_var|]. constructor; [|constructor]. cbn [snd].
        rewrite (homogenize_absent fs rho vs h _ _ C Hpq). apply coefficient_cons; [|exact Np]. split; [|exact C].
        exact (linear_arith vs _ (Ho p Hi)).
      + destruct (Z.leb_spec (m - 1) 0); [exact L|lia].
    - cbn [homogenize] in E. destruct (sequence _) as [ops'|] eqn:Es; [|discriminate]. apply sequence_map_some in Es. injection E as <-.
      apply Forall2_app_inv_l in Es. destruct Es as (pre' & rest & E1 & E2 & ->). inversion E2 as [|? q ? post' E3 E4]; subst.
      apply (pair_hom_eq fs rho vs h (true, e) q) in E3. cbn [fst snd] in E3. destruct E3 as [Eq E3]. destruct q as [b e']. cbn [fst snd] in *. subst b.
      inversion P as [| | |? Ps Pc| | | |]; subst. inversion M as [| | |? Ms| | | |]; subst.
      apply Forall_app in Ps. destruct Ps as [_ Ps2]. inversion Ps2 as [|? ? Pe _]; subst.
      apply Forall_app in Ms. destruct Ms as [_ Ms2]. inversion Ms2 as [|? ? Me _]; subst. cbn [snd] in *.
      assert (K : forall l l' : list (bool * expr F), (forall p, In p l -> In p (pre ++ (true, e) :: post)) -> Forall (fun p => coefficient vs (snd p)) l ->
        Forall2 (fun p q => match homogenize fs rho vs h (snd p) with Some e'' => Some (fst p, e'') | None => None end = Some q) l l' ->
        Forall (fun p => coefficient (h :: vs) (snd p)) l').
      { intros l l' Hi Hc H2. induction H2 as [|p q l l' Hab _ IHl]; [constructor|]. inversion Hc as [|? ? Cp Hc']; subst.
        apply (pair_hom_eq fs rho vs h p q) in Hab. destruct Hab as [_ Hab]. constructor; [|apply IHl; [intros; apply Hi; right; assumption|exact Hc']].
        rewrite (homogenize_absent fs rho vs h _ _ (proj2 Cp) Hab). apply coefficient_cons; [exact Cp|]. intro Hx. apply N. destruct p as [b a].
        apply oc_mul with (s := b) (e := a); [apply Hi; left; reflexivity|exact Hx]. }
      apply li_mul.
      + apply (K pre pre'); [intros; apply in_or_app; left; assumption|exact Hp|exact E1].
      + apply (IH Pe Me); [|exact E3]. intro Hx. apply N. apply oc_mul with (s := true) (e := e); [apply in_or_app; right; left; reflexivity|exact Hx].
      + apply (K post post'); [intros; apply in_or_app; right; right; assumption|exact Hq|exact E4].
    - inversion P; subst. inversion M; subst. cbn [homogenize] in E. destruct (homogenize fs rho vs h e) as [a|] eqn:Ea; [|discriminate]. injection E as <-.
      apply li_neg. apply IH; try assumption; [|reflexivity]. intro Hx. apply N. constructor. exact Hx.
    - inversion P; subst. inversion M; subst. cbn [homogenize] in E. destruct (homogenize fs rho vs h e) as [a|] eqn:Ea; [|discriminate]. injection E as <-.
      apply li_handle. apply IH; try assumption; [|reflexivity]. intro Hx. apply N. constructor. exact Hx.
    - inversion P; subst. inversion M; subst. cbn [homogenize] in E. destruct (homogenize fs rho vs h e) as [a|] eqn:Ea; [|discriminate]. injection E as <-.
      apply li_power. apply IH; try assumption; [|reflexivity]. intro Hx. apply N. constructor. exact Hx.
  Qed.
End LinearHom.
