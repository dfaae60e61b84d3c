(** Targets whose functions are linear, from the set-up to the end of the path: the homotopy as the system which the tracker is
    given, and where its only path ends.  Composes SolveSetup.v (the set-up) with LinearPath.v (corrector and tracker). *)
From Coq Require Import List ZArith Lia Reals Lra Bool Arith Ring Field.
From Coquelicot Require Import Complex.
From Verif Require Import Base ComplexField Poly Expr Degree Diff Homog HomogSys Lu Newton Track LinearTree LinearHom LinearPath
  Patch StartIndex DegreeAll TotalDegree SolveSetup.
Import ListNotations.
Local Open Scope fld_scope.

(** ** Model *)

(** total_degree.cpp:170-176 GenerateFunctions, pow(x, d) - r, after Homogenize (arithmetic.cpp:264-314): the number is
    multiplied by the power of the homogenizing variable [h] *)
Definition start_function (h x d : nat) (r : CF) : expr CF :=
  Sum [(true, IPow (Var x) (Z.of_nat d)); (false, raise_degree h (Z.of_nat d) (Num KRational r))].

(** policies.hpp:197-204 with system.cpp:1334-1341 (a multiple is N * f) and 1322-1323 (a sum is the right function plus the
    left one): (1-t) target + gamma t start, one function *)
Definition homotopy_function (tv : nat) (g : CF) (target start : expr CF) : expr CF :=
  Sum [(true, Mul [(true, Mul [(true, Num KRational g); (true, Var tv)]); (true, start)]);
       (true, Mul [(true, Sum [(true, Num KInteger f1); (false, Var tv)]); (true, target)])].

(** all of them *)
Fixpoint homotopy_functions (h tv : nat) (g : CF) (vars ds : list nat) (rs : list CF) (fl : list (expr CF)) : list (expr CF) :=
  match vars, ds, rs, fl with
  | x :: vars', d :: ds', r :: rs', f :: fl' =>
      homotopy_function tv g f (start_function h x d r) :: homotopy_functions h tv g vars' ds' rs' fl'
  | _, _, _, _ => []
  end.

(** patch.hpp:315-326 as a function: minus one, plus the coefficients times the coordinates.  Simplified: the system does not
    hold this tree, it calls Patch::EvalInPlace and Patch::JacobianInPlace (Patch.v) for the last row, which have its value and
    its derivatives. *)
Definition patch_function (c : list CF) (vs : list nat) : expr CF :=
  Sum ((false, Num KInteger f1) :: map (fun p => (true, Mul [(true, Num KFloat (fst p)); (true, Var (snd p))])) (combine c vs)).

(** the rows of the homotopy which is tracked *)
Definition homotopy_rows (z : set_up) (tv : nat) : list (expr CF) :=
  match order (prepared z) with
  | h :: vars =>
      homotopy_functions h tv (gamma z) vars (degrees (start z)) (randoms (start z)) (fns (prepared z)) ++
      match patch_of (start z) with Some p => map (fun c => patch_function c (h :: vars)) p | None => [] end
  | [] => []
  end.

(** ** Proofs *)
Lemma fsum_cons : forall (a : CF) l, fsum (a :: l) = a + fsum l.
Proof. reflexivity. Qed.

Add Field CFlinsolve : (f_th CF).
Local Opaque CF.

Section Rows.
  Variable fs : funs CF.

  Lemma start_value : forall (pt : env CF) h x d r, (1 <= d)%nat ->
    eval fs pt (start_function h x d r) = Some (fpow (pt x) d - r * fpow (pt h) d).
  Proof.
    intros pt h x d r Hd. unfold start_function, raise_degree. destruct (Z.leb_spec (Z.of_nat d) 0); [lia|].
    assert (P : forall q : CF, fpowZ q (Z.of_nat d) = Some (fpow q d)) by (intro q; rewrite fpowZ_pos by lia; rewrite Nat2Z.id; reflexivity).
    destruct (Z.eqb_spec (Z.of_nat d) 1) as [E|E]; cbn [eval map fst snd sum_val mul_val]; rewrite !P; f_equal.
    - replace d with 1%nat by lia. cbn [fpow]. ring.
    - ring.
  Qed.

  Lemma homotopy_value : forall (pt : env CF) tv g f st y w, eval fs pt f = Some y -> eval fs pt st = Some w ->
    eval fs pt (homotopy_function tv g f st) = Some ((1 - pt tv) * y + g * pt tv * w).
  Proof. intros pt tv g f st y w Hy Hw. unfold homotopy_function. cbn [eval map fst snd sum_val mul_val]. rewrite Hy, Hw. f_equal. ring. Qed.

  Lemma rows_values : forall (pt : env CF) h tv g vars ds rs fl a, length ds = length vars -> length rs = length vars -> length fl = length vars ->
    Forall (fun d => 1 <= d)%nat ds -> sequence (map (eval fs pt) fl) = Some a ->
    sequence (map (eval fs pt) (homotopy_functions h tv g vars ds rs fl))
      = Some (mix (pt tv) g a (hom_function_values (pt h) (map pt vars) ds rs)).
  Proof.
    intros pt h tv g. induction vars as [|x vars IH]; intros [|d ds] [|r rs] [|f fl] a H1 H2 H3 Hd Ha; try discriminate; cbn [map sequence] in Ha.
    - injection Ha as <-. reflexivity.
    - destruct (eval fs pt f) as [y|] eqn:Ey; [|discriminate]. destruct (sequence (map (eval fs pt) fl)) as [a'|] eqn:Ea; [|discriminate]. injection Ha as <-.
      inversion Hd; subst. cbn [homotopy_functions map sequence].
      rewrite (homotopy_value pt tv g f _ y _ Ey (start_value pt h x d r ltac:(assumption))).
      rewrite (IH ds rs fl a'); try assumption; [reflexivity| | |]; cbn [length] in H1, H2, H3; lia.
  Qed.

  Lemma patch_value : forall (pt : env CF) c vs, eval fs pt (patch_function c vs) = Some (Patch.inner c (map pt vs) - 1).
  Proof.
    intros pt c vs. unfold patch_function. cbn [eval map fst snd sum_val]. rewrite map_map. cbn [fst snd eval map mul_val].
    assert (G : sum_val (map (fun p : CF * nat => (true, Some (fst p * (pt (snd p) * 1)))) (combine c vs)) = Some (Patch.inner c (map pt vs))).
    { unfold Patch.inner. revert vs. induction c as [|a c IH]; intros [|v vs]; try reflexivity. cbn [combine map fst snd sum_val].
      rewrite (IH vs). f_equal. rewrite fsum_cons. ring. }
    rewrite G. f_equal. ring.
  Qed.

  Lemma sequence_zero : forall (X : Type) (f : X -> option CF) l v, sequence (map f l) = Some v -> (Forall (fun a => f a = Some f0) l <-> all_zero v).
  Proof.
    unfold all_zero. intros X f l. induction l as [|a l IH]; intros v H; cbn [map sequence] in H.
    - injection H as <-. split; intro; constructor.
    - destruct (f a) as [y|] eqn:Ey; [|discriminate]. destruct (sequence _) as [w|] eqn:Ew; [|discriminate]. injection H as <-.
      destruct (IH w eq_refl) as [A B]. split; intro H; inversion H; subst; constructor; auto; congruence.
  Qed.
End Rows.

Lemma segment_end : forall a b : C, on_segment a b b.
Proof. intros a b. exists 1%R. split; [lra|]. assert (E : forall q : C, (RtoC 1 * q)%C = q) by (intro q; apply Cmult_1_l). rewrite E. ring. Qed.

Section Solve.
  Variable fs : funs CF.
  Variable rho : env CF.

  Lemma setup_homogenized : forall fresh draw rand g s vars z, ready fs rho fresh s vars ->
    system_setup fs rho fresh draw rand g s = Value z ->
    Forall2 (fun f f' => homogenize fs rho vars (fresh O) f = Some f') (fns s) (fns (prepared z)).
  Proof.
    intros fresh draw rand g s vars z (Hh & Hg & _) Hz. pose proof Hh as (Hv0 & _). unfold system_setup in Hz.
    destruct (homogenize_sys fs rho fresh s) as [s'|] eqn:E; [|discriminate]. destruct (negb _); [discriminate|]. cbv zeta in Hz.
    destruct (copy_degrees _ _ _ _ _) as [ds| |]; try discriminate. injection Hz as <-. cbn [prepared].
    unfold homogenize_sys in E. destruct (negb _); [discriminate|]. destruct (is_polynomial_sys fs rho s) as [[|]|]; try discriminate.
    rewrite Hv0, Hg in E. cbn [length seq map combine homogenize_all] in E.
    destruct (sequence (map (homogenize fs rho vars (fresh O)) (fns s))) as [fl|] eqn:Es; [|discriminate].
    injection E as <-. cbn [fns]. apply sequence_map_some. exact Es.
  Qed.

  Lemma set_unknowns_assign : forall r vs x, set_unknowns r vs x = assign r vs x.
  Proof. intros r. induction vs as [|v vs IH]; intros [|a x]; cbn; try reflexivity. rewrite IH. reflexivity. Qed.

  Lemma map_assign : forall r vs x, NoDup vs -> length x = length vs -> map (assign r vs x) vs = x.
  Proof.
    intros r. induction vs as [|v vs IH]; intros [|a x] Hd Hl; try discriminate; [reflexivity|]. inversion Hd as [|? ? Hv Hd']; subst. cbn [map assign]. f_equal.
    - unfold upd. destruct (Nat.eq_dec v v); congruence.
    - rewrite <- (IH x Hd') at 2 by (cbn [length] in Hl; lia). apply map_ext_in. intros w Hw. unfold upd. destruct (Nat.eq_dec w v) as [->|]; [contradiction|reflexivity].
  Qed.

  Section Set_up.
    Variable fresh : nat -> nat.
    Variable draw : nat -> nat -> CF.
    Variable rand : nat -> CF.
    Variable g : CF.
    Variable s : psys CF.
    Variable vars : list nat.
    Variable z : set_up.
    Variable tv : nat.
    Hypothesis Hready : ready fs rho fresh s vars.
    Hypothesis Hz : system_setup fs rho fresh draw rand g s = Value z.
    Hypothesis Htv : ~ In tv (fresh O :: vars).
    Let c := map (draw O) (seq 0 (S (length vars))).
    Let G := setup_good fs rho fresh draw rand g s vars z Hready Hz.
    Let rows := homotopy_rows z tv.
    Let us := order (prepared z).

    Lemma us_is : us = fresh O :: vars.
    Proof. exact (gs_order _ _ _ _ _ _ _ _ _ G). Qed.
    Lemma us_nodup : NoDup us.
    Proof. rewrite us_is. constructor; [exact (gs_fresh _ _ _ _ _ _ _ _ _ G)|exact (gs_nodup _ _ _ _ _ _ _ _ _ G)]. Qed.

    Lemma rows_are : rows = homotopy_functions (fresh O) tv g vars (degree_list fs rho vars (fns s)) (map rand (seq 0 (length vars))) (fns (prepared z))
      ++ [patch_function c (fresh O :: vars)].
    Proof.
      unfold rows, homotopy_rows. rewrite (gs_order _ _ _ _ _ _ _ _ _ G), (gs_start _ _ _ _ _ _ _ _ _ G), (gs_gamma _ _ _ _ _ _ _ _ _ G). reflexivity.
    Qed.

    Lemma prepared_occurs : forall f', In f' (fns (prepared z)) -> forall v, occurs v f' -> In v (fresh O :: vars).
    Proof.
      intros f' Hi v Hv. pose proof (setup_homogenized _ _ _ _ _ _ _ Hready Hz) as F2. pose proof (gs_funs _ _ _ _ _ _ _ _ _ G) as R2.
      clear - F2 R2 Hi Hv. induction F2 as [|f a l l' H F2 IH]; [destruct Hi|]. inversion R2 as [|? ? ? ? R R2']; subst. destruct Hi as [->|Hi]; [|apply IH; assumption].
      destruct (grows_occurs (fresh O) v f f' (homogenize_grows fs rho _ _ _ _ H) Hv) as [->|Ho]; [left; reflexivity|right]. apply R. exact Ho.
    Qed.

    (** the values of the rows are those of the homotopy, then that of the patch equation *)
    Theorem rows_meaning : forall t x, length x = S (length vars) ->
      exists v, homotopy_values fs rho z x t = Some v /\
        LinearPath.function_values fs rho rows us tv t x = Some (v ++ [Patch.inner c x - 1]).
    Proof.
      intros t x Hx. unfold homotopy_values. destruct (good_values_defined _ _ _ _ _ _ _ _ _ G x) as [a [Ea La]]. rewrite Ea.
      eexists. split; [reflexivity|]. unfold LinearPath.function_values. rewrite rows_are, map_app. set (pt := placed rho us tv t x).
      assert (Ept : forall w, In w (fresh O :: vars) -> pt w = assign rho (fresh O :: vars) x w).
      { intros w Hw. unfold pt, placed. rewrite us_is, set_unknowns_assign. symmetry. apply assign_ext; [exact Hw|cbn [length]; lia]. }
      assert (Etv : pt tv = t).
      { unfold pt, placed. rewrite set_unknowns_other by (rewrite us_is; exact Htv). unfold upd. destruct (Nat.eq_dec tv tv); congruence. }
      assert (Emap : map pt (fresh O :: vars) = x).
      { rewrite (map_ext_in _ (assign rho (fresh O :: vars) x)) by exact Ept. apply map_assign; [rewrite <- us_is; exact us_nodup|cbn [length]; lia]. }
      assert (Ea' : sequence (map (eval fs pt) (fns (prepared z))) = Some a).
      { rewrite <- Ea. unfold values. f_equal. apply map_ext_in. intros f' Hf'. apply eval_ext. intros w Hw. fold us. rewrite us_is.
        apply Ept. exact (prepared_occurs f' Hf' w Hw). }
      assert (L : length (fns (prepared z)) = length vars).
      { rewrite <- (F2_len _ _ _ _ _ (gs_funs _ _ _ _ _ _ _ _ _ G)). exact (gs_square _ _ _ _ _ _ _ _ _ G). }
      assert (R : sequence (map (eval fs pt) (homotopy_functions (fresh O) tv g vars (degree_list fs rho vars (fns s)) (map rand (seq 0 (length vars))) (fns (prepared z))))
        = Some (mix t g a (start_system_values (start z) x))).
      { rewrite (rows_values fs pt (fresh O) tv g vars _ _ _ a); [|unfold degree_list; rewrite map_length; exact (gs_square _ _ _ _ _ _ _ _ _ G)|
          rewrite map_length, seq_length; reflexivity|exact L| |exact Ea'].
        - rewrite Etv. f_equal. f_equal. rewrite (gs_start _ _ _ _ _ _ _ _ _ G). unfold start_system_values. cbn [homogenized kinds degrees randoms].
          rewrite <- Emap at 1. cbn [map]. rewrite affine_values_id; [reflexivity| |rewrite map_length, repeat_length; reflexivity].
          apply Forall_forall. intros k Hk. apply repeat_spec in Hk. exact Hk.
        - unfold degree_list. apply Forall_forall. intros d Hd. apply in_map_iff in Hd. destruct Hd as [f [<- Hf]].
          pose proof (gs_pos _ _ _ _ _ _ _ _ _ G f Hf). lia. }
      rewrite (gs_gamma _ _ _ _ _ _ _ _ _ G).
      assert (P : eval fs pt (patch_function c (fresh O :: vars)) = Some (Patch.inner c x - 1)) by (rewrite patch_value, Emap; reflexivity).
      revert R P. generalize (homotopy_functions (fresh O) tv g vars (degree_list fs rho vars (fns s)) (map rand (seq 0 (length vars))) (fns (prepared z))).
      generalize (mix t g a (start_system_values (start z) x)). intros v l. revert v. induction l as [|e l IH]; intros v R P; cbn [map app sequence] in *.
      - injection R as <-. rewrite P. reflexivity.
      - destruct (eval fs pt e) as [y|]; [|discriminate]. destruct (sequence (map (eval fs pt) l)) as [w|]; [|discriminate]. injection R as <-.
        rewrite (IH w eq_refl P). reflexivity.
    Qed.

    Lemma sub_one_zero : forall a : CF, a - 1 = 0 <-> a = 1.
    Proof. intro a. split; intro H; [|rewrite H; ring]. transitivity (a - 1 + 1); [ring|]. rewrite H. ring. Qed.

    (** the solutions of the rows are the zeros of the homotopy on the patch *)
    Theorem rows_solution : forall t x, solution fs rho rows us tv t x <->
      length x = S (length vars) /\ on_patch [c] x /\ zero_of fs rho z x t.
    Proof.
      intros t x. unfold solution. replace (length us) with (S (length vars)) by (rewrite us_is; reflexivity).
      split; [intros [L H]|intros (L & H1 & H2)]; (split; [exact L|]).
      - destruct (rows_meaning t x L) as [v [Ev Ef]]. unfold LinearPath.function_values in Ef. apply (sequence_zero _ _ _ _ Ef) in H. unfold all_zero in H. apply Forall_app in H.
        destruct H as [H1 H2]. inversion H2; subst. split; [apply (on_single _ _ _ _ _ _ _ _ _ G x L); apply sub_one_zero; assumption|].
        exists v. split; [exact Ev|exact H1].
      - destruct (rows_meaning t x L) as [v [Ev Ef]]. unfold LinearPath.function_values in Ef. apply (sequence_zero _ _ _ _ Ef). destruct H2 as [v' [Ev' Zv]]. rewrite Ev in Ev'. injection Ev' as <-.
        apply Forall_app. split; [exact Zv|]. constructor; [|constructor]. apply sub_one_zero. apply (on_single _ _ _ _ _ _ _ _ _ G x L). exact H1.
    Qed.

    (** the rows are regular if the values of the homotopy and of the patch equation determine the point *)
    Lemma rows_regular : forall (lu_accepts : list (list CF) -> bool) t,
      (forall x y, length x = S (length vars) -> length y = S (length vars) -> homotopy_values fs rho z x t = homotopy_values fs rho z y t ->
        Patch.inner c x = Patch.inner c y -> x = y) ->
      (forall x J, length x = S (length vars) -> jacobian_matrix fs rho rows us tv t x = Some J -> lu_accepts J = true) ->
      regular_at fs rho rows us tv lu_accepts t.
    Proof.
      intros lu t Hi Hl. assert (Len : length us = S (length vars)) by (rewrite us_is; reflexivity). unfold regular_at. rewrite Len. split; [|split; [|exact Hl]].
      - exists (repeat f0 (S (length vars))). destruct (rows_meaning t (repeat f0 (S (length vars))) (repeat_length _ _)) as [v [_ E]].
        eexists. split; [apply repeat_length|exact E].
      - intros x y Lx Ly E. destruct (rows_meaning t x Lx) as [v [Ev Ex]]. destruct (rows_meaning t y Ly) as [w [Ew Ey]]. rewrite Ex, Ey in E.
        assert (E' : v ++ [Patch.inner c x - 1] = w ++ [Patch.inner c y - 1])
          by exact (f_equal (fun o => match o with Some l => l | None => [] end) E).
        apply app_inj_tail in E'. destruct E' as [E1 E2]. apply Hi; try assumption; [rewrite Ev, Ew, E1; reflexivity|].
        transitivity (Patch.inner c x - 1 + 1); [ring|]. rewrite E2. ring.
    Qed.

    Section Linear.
      Hypothesis Hlin : Forall (linear vars) (fns s).

      Lemma target_shape : forall f, In f (fns s) -> pure vars f /\ modest vars f /\ ~ occurs (fresh O) f.
      Proof.
        pose proof Hready as (Hh & Hg & _ & Hhg & Hun & _). destruct Hh as (_ & _ & _ & Hfr & Hpm). intros f Hf.
        assert (Hunk : unknowns s = vars) by (unfold unknowns; rewrite Hg, Hhg, Hun; cbn; rewrite !app_nil_r; reflexivity).
        destruct (Hpm f Hf) as (P & M & _). rewrite Hunk in P. split; [exact P|]. split; [apply M; rewrite Hg; left; reflexivity|]. apply (Hfr O). exact Hf.
      Qed.

      Lemma target_degree : forall f, In f (fns s) -> gdegree fs rho vars f = 1%Z.
      Proof.
        intros f Hf. destruct (target_shape f Hf) as (P & M & _). pose proof (gs_pos _ _ _ _ _ _ _ _ _ G f Hf) as Hp. rewrite Forall_forall in Hlin.
        destruct (linear_degree fs rho vars (gs_nodup _ _ _ _ _ _ _ _ _ G) f (Hlin f Hf) P M) as [[_ D]|D]; [lia|exact D].
      Qed.

      Lemma homotopy_linear : forall vs h x r f, ~ In tv vs -> linear vs f -> linear vs (homotopy_function tv g f (start_function h x 1 r)).
      Proof.
        intros vs h x r f Hv Hf. unfold homotopy_function.
        assert (Ct : forall e : expr CF, arith e -> (forall w, occurs w e -> w = tv) -> coefficient vs e).
        { intros e Ha Ho. split; [exact Ha|]. intros w Hw Hx. rewrite (Ho w Hx) in Hw. contradiction. }
        assert (Cn : forall k (a : CF), coefficient vs (Num k a)) by (intros k a; split; [constructor|intros w _ Hx; inversion Hx]).
        apply li_sum. constructor; [|constructor; [|constructor]]; cbn [snd].
        - apply (li_mul vs [(true, Mul [(true, Num KRational g); (true, Var tv)])] (start_function h x 1 r) []); [|  |constructor].
          + constructor; [|constructor]. cbn [snd]. apply Ct.
            * constructor. intros b e [E|[E|[]]]; injection E as _ <-; constructor.
            * intros w Hx. inversion Hx as [| |? b e Hi Ho| | | | | |]; subst. destruct Hi as [E|[E|[]]]; injection E as _ <-; inversion Ho; reflexivity.
          + unfold start_function. apply li_sum. constructor; [|constructor; [|constructor]]; cbn [snd].
            * apply li_power. apply li_var.
            * change (linear vs (Mul [(true, Var h); (true, Num KRational r)])).
              apply (li_mul vs [] (Var h) [(true, Num KRational r)]); [constructor|apply li_var|]. constructor; [apply Cn|constructor].
        - apply (li_mul vs [(true, Sum [(true, Num KInteger 1); (false, Var tv)])] f []); [|exact Hf|constructor].
          constructor; [|constructor]. cbn [snd]. apply Ct.
          + constructor. intros b e [E|[E|[]]]; injection E as _ <-; constructor.
          + intros w Hx. inversion Hx as [|? b e Hi Ho| | | | | | |]; subst. destruct Hi as [E|[E|[]]]; injection E as _ <-; inversion Ho; reflexivity.
      Qed.

      Lemma patch_linear : forall c' vs us', linear vs (patch_function c' us').
      Proof.
        intros c' vs us'. unfold patch_function. assert (Cn : forall k (a : CF), coefficient vs (Num k a)) by (intros k a; split; [constructor|intros w _ Hx; inversion Hx]).
        apply li_sum. constructor; [apply li_coefficient; apply Cn|]. apply Forall_forall. intros q Hq. apply in_map_iff in Hq. destruct Hq as [[a v] [<- _]]. cbn [fst snd].
        apply (li_mul vs [(true, Num KFloat a)] (Var v) []); [constructor; [apply Cn|constructor]|apply li_var|constructor].
      Qed.

      Lemma rows_linear : Forall (linear us) rows.
      Proof.
        rewrite rows_are. apply Forall_app. split; [|constructor; [apply patch_linear|constructor]]. rewrite us_is.
        assert (Hd : forall f, In f (fns s) -> Z.to_nat (gdegree fs rho vars f) = 1%nat) by (intros f Hf; rewrite (target_degree f Hf); reflexivity).
        pose proof target_shape as Hsh. pose proof (setup_homogenized _ _ _ _ _ _ _ Hready Hz) as F2.
        pose proof (gs_nodup _ _ _ _ _ _ _ _ _ G) as Nd. pose proof (gs_fresh _ _ _ _ _ _ _ _ _ G) as Nf. unfold degree_list.
        generalize (map rand (seq 0 (length vars))). generalize vars at 2. clear Hready Hz G rows us c. revert Hlin Hd Hsh F2. generalize (fns s) (fns (prepared z)). intros fl fl' Hl Hd Hsh F2.
        induction F2 as [|f f' l l' H F2 IH]; intros ws rs; destruct ws as [|w ws]; destruct rs as [|r rs]; cbn [map homotopy_functions]; try constructor.
        - rewrite (Hd f (or_introl eq_refl)). apply homotopy_linear; [exact Htv|]. destruct (Hsh f (or_introl eq_refl)) as (P & M & N). inversion Hl; subst.
          exact (homogenize_linear fs rho vars (fresh O) Nd Nf f ltac:(assumption) P M N f' H).
        - inversion Hl; subst. apply IH; [assumption| |]; intros a Ha; [apply Hd|apply Hsh]; right; exact Ha.
      Qed.

      Lemma rows_square : length rows = length us.
      Proof.
        rewrite us_is, rows_are, app_length. cbn [length].
        assert (L : length (fns (prepared z)) = length vars).
        { rewrite <- (F2_len _ _ _ _ _ (gs_funs _ _ _ _ _ _ _ _ _ G)). exact (gs_square _ _ _ _ _ _ _ _ _ G). }
        assert (K : forall ws ds (rs : list CF) (fl : list (expr CF)), length ds = length ws -> length rs = length ws -> length fl = length ws ->
          length (homotopy_functions (fresh O) tv g ws ds rs fl) = length ws).
        { induction ws as [|w ws IH]; intros [|d ds] [|r rs] [|f fl] A B C; try discriminate; [reflexivity|]. cbn [homotopy_functions length].
          rewrite IH; [reflexivity| | |]; cbn [length] in A, B, C; lia. }
        rewrite K; [lia| | |exact L]; [unfold degree_list; rewrite map_length; exact (gs_square _ _ _ _ _ _ _ _ _ G)|rewrite map_length, seq_length; reflexivity].
      Qed.

      Lemma one_path : num_start_points (degrees (start z)) = 1%Z.
      Proof.
        rewrite (good_number _ _ _ _ _ _ _ _ _ G). unfold num_cells. pose proof target_degree as D. revert D. clear. generalize (fns s). intro fl.
        induction fl as [|f fl IH]; intro D; cbn [map fold_right]; [reflexivity|]. rewrite (D f (or_introl eq_refl)), IH; [reflexivity|]. intros a Ha. apply D. right. exact Ha.
      Qed.

      Section Regular.
        Variable lu_accepts : list (list CF) -> bool.
        Hypothesis Hreg : forall t, on_segment (RtoC 1) (RtoC 0) t -> regular_at fs rho rows us tv lu_accepts t.
        Hypothesis Hg : g <> 0.

        Lemma start_exists : forall x, solution fs rho rows us tv (RtoC 1) x -> start_point (start z) 0 = Value x.
        Proof.
          intros x Hx. apply rows_solution in Hx. destruct Hx as (L & O & Z).
          destruct (good_complete _ _ _ _ _ _ _ _ _ G Hg x L O Z) as [i [Hi Ei]]. rewrite <- (good_number _ _ _ _ _ _ _ _ _ G), one_path in Hi.
          replace 0%Z with i by lia. exact Ei.
        Qed.

        (** where the path ends *)
        Lemma end_meaning : forall x, solution fs rho rows us tv (RtoC 0) x -> exists h xs, x = h :: xs /\ length xs = length vars /\
          ((h <> 0 /\ forall a, length a = length vars -> (solves fs rho (fns s) vars a <-> a = map (fun u => u / h) xs)) \/
           (h = 0 /\ forall a, length a = length vars -> ~ solves fs rho (fns s) vars a)).
        Proof.
          intros x Hx. pose proof Hx as Hx0. apply rows_solution in Hx. destruct Hx as (L & O & Z). destruct x as [|h xs]; [discriminate|].
          exists h, xs. split; [reflexivity|]. cbn [length] in L. assert (Lxs : length xs = length vars) by lia. split; [exact Lxs|].
          pose proof (Hreg (RtoC 0) (segment_end _ _)) as R.
          (* every solution of the target is the point found, divided *)
          assert (U : forall a, length a = length vars -> solves fs rho (fns s) vars a -> h <> 0 /\ map (fun u => u / h) xs = a).
          { intros a La Sa.
            assert (Nc : Patch.inner c (1 :: a) <> 0).
            { (* otherwise this point and the origin have the same values *)
              intro E. assert (S1 : zero_of fs rho z (1 :: a) 0).
              { apply (good_ends _ _ _ _ _ _ _ _ _ G 1 a (@f1_neq_f0 CF) La). replace (map (fun u => u / 1) a) with a; [exact Sa|].
                rewrite <- (map_id a) at 1. apply map_ext. intro u. field. exact (@f1_neq_f0 CF). }
              assert (L1 : length (1 :: a) = S (length vars)) by (cbn [length]; lia).
              destruct (rows_meaning 0 (1 :: a) L1) as [v [Ev Ef]]. destruct S1 as [v' [Ev' Zv]]. rewrite Ev in Ev'. injection Ev' as <-. rewrite E in Ef.
              assert (L0 : length (repeat (0 : CF) (S (length vars))) = S (length vars)) by apply repeat_length.
              assert (L1' : length (map (fmul 0) (1 :: a)) = S (length vars)) by (rewrite map_length; exact L1).
              destruct (rows_meaning 0 (map (fmul 0) (1 :: a)) L1') as [w [Ew Efw]].
              pose proof (good_homogeneous _ _ _ _ _ _ _ _ _ G (1 :: a) 0 0 v w L1 Ev Ew) as Ew2.
              assert (Lv : length v = length vars).
              { unfold homotopy_values in Ev. destruct (good_values_defined _ _ _ _ _ _ _ _ _ G (1 :: a)) as [b [Eb Lb]]. rewrite Eb in Ev. injection Ev as <-.
                pose proof (start_values_length _ _ _ _ _ _ _ _ _ G (1 :: a) L1) as Ls. revert Lb Ls. generalize (start_system_values (start z) (1 :: a)) (length vars).
                clear. induction b as [|y b IH]; intros [|q l] n A B; cbn [mix length] in *; try lia. destruct n; [lia|]. f_equal. apply IH; lia. }
              assert (Wz : w = v).
              { rewrite Ew2. assert (Ld : length (degree_list fs rho vars (fns s)) = length v) by (unfold degree_list; rewrite map_length, Lv; exact (gs_square _ _ _ _ _ _ _ _ _ G)).
                revert Ld Zv. generalize (degree_list fs rho vars (fns s)). clear. unfold all_zero. induction v as [|y v IH]; intros [|d ds] A B; try discriminate; [reflexivity|].
                inversion B; subst. cbn [combine map fst snd]. rewrite IH; [|cbn [length] in A; lia|assumption]. f_equal. ring. }
              destruct R as (_ & Inj & _).
              assert (Len : length us = S (length vars)) by (rewrite us_is; reflexivity).
              assert (Eq : 1 :: a = map (fmul 0) (1 :: a)).
              { apply Inj; [rewrite Len; exact L1|rewrite Len; exact L1'|]. change (RtoC 0) with (@f0 CF). rewrite Ef, Efw, Wz. f_equal. f_equal. f_equal.
                assert (I0 : forall l x' : list CF, Patch.inner l (map (fmul 0) x') = 0).
                { unfold Patch.inner. induction l as [|p l IH]; intros [|q x']; try reflexivity. cbn [map combine fst snd]. rewrite fsum_cons, IH. ring. }
                rewrite I0. reflexivity. }
              cbn [map] in Eq. apply (@f1_neq_f0 CF). assert (E1 : hd 0 (1 :: a) = hd 0 (0 * 1 :: map (fmul 0) a)) by (rewrite Eq; reflexivity).
              cbn [hd] in E1. rewrite E1. ring. }
            destruct (good_reaches _ _ _ _ _ _ _ _ _ G a La Sa Nc) as (y & Ly & Oy & Zy & b & ys & Ey & Hb & Em).
            assert (Sy : solution fs rho rows us tv (RtoC 0) y) by (apply rows_solution; split; [exact Ly|]; split; [exact Oy|exact Zy]).
            pose proof (solution_unique fs rho rows us tv lu_accepts (RtoC 0) _ _ R Hx0 Sy) as Exy. rewrite Ey in Exy. 
            assert (Eh : hd 0 (h :: xs) = hd 0 (b :: ys)) by (rewrite Exy; reflexivity). assert (Et : tl (h :: xs) = tl (b :: ys)) by (rewrite Exy; reflexivity).
            cbn [hd tl] in Eh, Et. subst h xs. split; [exact Hb|exact Em]. }
          destruct (feq_dec h 0) as [Eh|Nh].
          - right. split; [exact Eh|]. intros a La Sa. exact (proj1 (U a La Sa) Eh).
          - left. split; [exact Nh|]. intros a La. split; [intro Sa; symmetry; exact (proj2 (U a La Sa))|].
            intros ->. apply (good_ends _ _ _ _ _ _ _ _ _ G h xs Nh Lxs). exact Z.
        Qed.

        Theorem linear_target_solved : forall pick cfg eps truncation going predict tol min max re carried p m,
          picks_nonzero pick ->
          (forall n x t d, length x = S (length vars) -> exists y, predict n x t d = (Success, y) /\ length y = S (length vars)) ->
          (forall n t x, on_segment (RtoC 1) (RtoC 0) t -> on_patch [c] x -> zero_of fs rho z x t -> truncation && going n x = false) ->
          (0 < tol)%R -> (1 <= min <= max)%Z -> (2 <= max < 2 ^ 32)%Z ->
          let step := first_step cfg re carried (RtoC 1) (RtoC 0) in
          (0 < step)%R -> (min_step_size cfg <= step)%R -> (1 <= INR m * step)%R -> (m <= max_num_steps cfg)%nat -> (eps p < 1)%R ->
          forall fuel, (m < fuel)%nat ->
          num_start_points (degrees (start z)) = 1%Z /\
          exists x0, start_point (start z) 0 = Value x0 /\
          exists visited last,
            fixed_track cfg (RtoC 0) eps truncation going predict (system_corrector fs rho rows us tv pick lu_accepts tol min max) fuel re carried p (RtoC 1) x0
              = (visited, Finished Success last) /\ time last = RtoC 0 /\ on_patch [c] (space last) /\
            exists h xs, space last = h :: xs /\ length xs = length vars /\
              ((h <> 0 /\ forall a, length a = length vars -> (solves fs rho (fns s) vars a <-> a = map (fun u => u / h) xs)) \/
               (h = 0 /\ forall a, length a = length vars -> ~ solves fs rho (fns s) vars a)).
        Proof.
          intros pick cfg eps truncation going predict tol min max re carried p m Hpick Hpred Hgo Ht Hmm Hmax step Hs Hms Hm Hsteps He fuel Hf.
          split; [exact one_path|].
          assert (Len : length us = S (length vars)) by (rewrite us_is; reflexivity).
          destruct (solution_exists fs rho rows us tv us_nodup rows_linear rows_square pick lu_accepts Hpick (RtoC 1) (Hreg _ (on_segment_start _ _))) as [x0 Sx0].
          exists x0. split; [exact (start_exists x0 Sx0)|].
          destruct (linear_path_to_zero fs rho rows us tv us_nodup rows_linear rows_square pick lu_accepts Hpick cfg (RtoC 1) eps truncation going predict
            tol min max re carried p x0 m Hreg) with (fuel := fuel) as [l [q [R [T [S0 _]]]]]; try assumption.
          - intros n x t d Hx. rewrite Len in *. apply Hpred. exact Hx.
          - intros n t x Hsg Hx. apply rows_solution in Hx. destruct Hx as (_ & O & Z). exact (Hgo n t x Hsg O Z).
          - rewrite Cmod_1. exact Hm.
          - exact (proj1 Sx0).
          - intro E. apply RtoC_inj in E. lra.
          - exists l, q. split; [exact R|]. split; [exact T|]. split; [apply (rows_solution (RtoC 0)); exact S0|]. exact (end_meaning _ S0).
        Qed.
      End Regular.
    End Linear.
  End Set_up.
End Solve.
