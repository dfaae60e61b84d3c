(** Power nodes with a number as exponent, which the parser makes of x^2, behave like integer power nodes in the
    homogenization of a system and in the set-up of the solver.
    No part of the code is modelled here; the theorems of HomogSys.v and SolveSetup.v are carried over. *)
From Coq Require Import List Arith Lia ZArith Bool Ring Field.
From Verif Require Import Base Poly Expr Degree Homog HomogSys Patch ComplexField StartIndex DegreeAll TotalDegree SolveSetup.
Import ListNotations.

Section Flat.
  Context {F : fld}.
  Variable fs : funs F.

  (** a number which is a positive integer *)
  Definition whole (e : expr F) : option Z :=
    match e with
    | Num _ c => match as_int fs c with Some n => if (0 <? n)%Z then Some n else None | None => None end
    | _ => None
    end.

  (** integer powers in place of powers with such an exponent *)
  Fixpoint flat (e : expr F) : expr F :=
    match e with
    | Num k c => Num k c
    | Var x => Var x
    | Sum ops => Sum (map (fun p => (fst p, flat (snd p))) ops)
    | Mul ops => Mul (map (fun p => (fst p, flat (snd p))) ops)
    | Neg e => Neg (flat e)
    | IPow e n => IPow (flat e) n
    | Pow b e => match whole e with Some n => IPow (flat b) n | None => Pow (flat b) (flat e) end
    | Fun k e => Fun k (flat e)
    | Handle e => Handle (flat e)
    end.
  Definition flat_sys (s : psys F) : psys F := mkPS (map flat (fns s)) (groups s) (hom_groups s) (ungrouped s) (hom_vars s).

  Lemma whole_some : forall e n, whole e = Some n -> exists k c, e = Num k c /\ as_int fs c = Some n /\ (0 < n)%Z.
  Proof.
    intros e n H. destruct e; try discriminate. cbn in H. destruct (as_int fs c) as [m|] eqn:E; [|discriminate].
    destruct (Z.ltb_spec 0 m); [|discriminate]. injection H as ->. eexists _, _. split; [reflexivity|]. split; [exact E|assumption].
  Qed.

  Lemma occurs_flat : forall x e, occurs x (flat e) <-> occurs x e.
  Proof.
    intros x e. induction e as [k c|y|ops IH|ops IH|e IH|e n IH|b e IHb IHe|k e IH|e IH] using expr_rect'; cbn [flat]; try reflexivity.
    - rewrite Forall_forall in IH. split; intro H; inversion H as [|? s e Hi Ho| | | | | | |]; subst.
      + apply in_map_iff in Hi. destruct Hi as [[s' e'] [E Hi]]. injection E as <- <-. apply (oc_sum x ops s' e' Hi). apply (IH _ Hi), Ho.
      + apply (oc_sum x _ s (flat e)); [apply in_map_iff; exists (s, e); split; [reflexivity|exact Hi]|]. apply (IH _ Hi), Ho.
    - rewrite Forall_forall in IH. split; intro H; inversion H as [| |? s e Hi Ho| | | | | |]; subst.
      + apply in_map_iff in Hi. destruct Hi as [[s' e'] [E Hi]]. injection E as <- <-. apply (oc_mul x ops s' e' Hi). apply (IH _ Hi), Ho.
      + apply (oc_mul x _ s (flat e)); [apply in_map_iff; exists (s, e); split; [reflexivity|exact Hi]|]. apply (IH _ Hi), Ho.
    - split; intro H; inversion H; subst; constructor; apply IH; assumption.
    - split; intro H; inversion H; subst; constructor; apply IH; assumption.
    - destruct (whole e) as [n|] eqn:E.
      + apply whole_some in E. destruct E as (k & c & -> & _). split; intro H; inversion H as [| | | | |? ? Hb|? ? He| |]; subst.
        * apply oc_powb. apply IHb. assumption.
        * constructor. apply IHb. assumption.
        * inversion He.
      + split; intro H; inversion H; subst; [apply oc_powb; apply IHb|apply oc_powe; apply IHe|apply oc_powb; apply IHb|apply oc_powe; apply IHe]; assumption.
    - split; intro H; inversion H; subst; constructor; apply IH; assumption.
    - split; intro H; inversion H; subst; constructor; apply IH; assumption.
  Qed.

  Hypothesis Hfs : funs_ok fs.
  Lemma eval_flat : forall rho e, eval fs rho (flat e) = eval fs rho e.
  Proof.
    intros rho e. induction e as [k c|y|ops IH|ops IH|e IH|e n IH|b e IHb IHe|k e IH|e IH] using expr_rect'; cbn [flat eval]; try reflexivity.
    - f_equal. rewrite map_map. apply map_ext_in. intros p Hp. cbn [fst snd]. f_equal. rewrite Forall_forall in IH. apply (IH p Hp).
    - f_equal. rewrite map_map. apply map_ext_in. intros p Hp. cbn [fst snd]. f_equal. rewrite Forall_forall in IH. apply (IH p Hp).
    - rewrite IH. reflexivity.
    - rewrite IH. reflexivity.
    - destruct (whole e) as [n|] eqn:E.
      + apply whole_some in E. destruct E as (k & c & -> & E & L). cbn [eval]. rewrite IHb. destruct (eval fs rho b) as [a|]; [|reflexivity].
        apply (as_int_sound fs Hfs) in E. subst c. destruct n as [|n|n]; try lia. cbn [fpowZ].
        rewrite <- (pw_int fs Hfs a (Pos.to_nat n)) by (left; lia). f_equal. f_equal. lia.
      + cbn [eval]. rewrite IHb, IHe. reflexivity.
    - rewrite IH. reflexivity.
    - exact IH.
  Qed.

  Variable rho : env F.

  Lemma pure_parts : forall A (ops : list (bool * expr F)), pure A (Sum ops) \/ pure A (Mul ops) -> forall p, In p ops -> pure A (snd p).
  Proof. intros A ops [H|H] p Hp; inversion H as [| |? H1|? H1| | | |]; subst; rewrite Forall_forall in H1; apply H1, Hp. Qed.

  Lemma pure_flat_parts : forall A (ops : list (bool * expr F)), pure A (flat (Sum ops)) \/ pure A (flat (Mul ops)) -> forall p, In p ops -> pure A (flat (snd p)).
  Proof.
    intros A ops H p Hp. apply (pure_parts A (map (fun p => (fst p, flat (snd p))) ops) H (fst p, flat (snd p))).
    apply in_map_iff. exists p. split; [reflexivity|exact Hp].
  Qed.

  Lemma pure_pow : forall A b e, pure A (flat (Pow b e)) -> exists n k c, e = Num k c /\ as_int fs c = Some n /\ (0 < n)%Z /\
    pure A (flat b) /\ flat (Pow b e) = IPow (flat b) n.
  Proof.
    intros A b e H. cbn [flat] in *. destruct (whole e) as [n|] eqn:E; [|inversion H]. apply whole_some in E. destruct E as (k & c & -> & E & L).
    exists n, k, c. repeat split; try assumption. inversion H. assumption.
  Qed.

  Lemma degree_flat : forall A v e, pure A (flat e) -> In v A -> degree fs rho v (flat e) = degree fs rho v e.
  Proof.
    intros A v e. induction e as [k c|y|ops IH|ops IH|e IH|e n IH|b e IHb IHe|k e IH|e IH] using expr_rect'; intros Hp Hv; try reflexivity.
    - cbn [flat degree]. f_equal. rewrite map_map. apply map_ext_in. intros p Hi. cbn [snd]. rewrite Forall_forall in IH.
      apply (IH p Hi); [apply (pure_flat_parts A ops); auto|exact Hv].
    - cbn [flat degree]. f_equal. rewrite map_map. apply map_ext_in. intros p Hi. cbn [fst snd]. f_equal. rewrite Forall_forall in IH.
      apply (IH p Hi); [apply (pure_flat_parts A ops); auto|exact Hv].
    - cbn [flat degree] in *. inversion Hp; subst. apply IH; assumption.
    - cbn [flat degree] in *. inversion Hp; subst. rewrite IH by assumption. reflexivity.
    - destruct (pure_pow A b e Hp) as (n & k & c & -> & E & L & Hb & Ef). rewrite Ef. cbn [degree eval]. rewrite E. rewrite <- (IHb Hb Hv).
      pose proof (pure_degree fs rho A (flat b) Hb v Hv). cbv zeta. change (0 =? 0)%Z with true. cbv iota.
      destruct (Z.ltb_spec (degree fs rho v (flat b)) 0); [lia|]. destruct (Z.eqb_spec n 0); [lia|]. destruct (Z.ltb_spec n 0); lia.
    - cbn [flat degree] in *. inversion Hp; subst. rewrite IH by assumption. reflexivity.
    - cbn [flat degree] in *. inversion Hp; subst. apply IH; assumption.
  Qed.

  Lemma group_same : forall l acc, Forall (fun d => (0 <= d)%Z) l ->
    fold_left (fun deg n => if (n <? 0)%Z then n else (deg + n)%Z) l acc = fold_left (fun deg n => if (n <? 0)%Z then (-1)%Z else (deg + n)%Z) l acc.
  Proof.
    induction l as [|d l IH]; intros acc H; [reflexivity|]. inversion H; subst. cbn [fold_left]. destruct (Z.ltb_spec d 0); [lia|]. apply IH. assumption.
  Qed.

  Lemma gdegree_flat : forall A vs e, incl vs A -> pure A (flat e) -> gdegree fs rho vs (flat e) = gdegree fs rho vs e.
  Proof.
    intros A vs e I. induction e as [k c|y|ops IH|ops IH|e IH|e n IH|b e IHb IHe|k e IH|e IH] using expr_rect'; intros Hp; try reflexivity.
    - cbn [flat gdegree]. f_equal. rewrite map_map. apply map_ext_in. intros p Hi. cbn [snd]. rewrite Forall_forall in IH.
      apply (IH p Hi). apply (pure_flat_parts A ops); auto.
    - cbn [flat gdegree]. f_equal. rewrite map_map. apply map_ext_in. intros p Hi. cbn [fst snd]. f_equal. rewrite Forall_forall in IH.
      apply (IH p Hi). apply (pure_flat_parts A ops); auto.
    - change (flat (Neg e)) with (Neg (flat e)). cbn [gdegree]. f_equal. apply map_ext_in. intros v Hv. exact (degree_flat A v (Neg e) Hp (I v Hv)).
    - change (flat (IPow e n)) with (IPow (flat e) n). cbn [gdegree]. f_equal. apply map_ext_in. intros v Hv. exact (degree_flat A v (IPow e n) Hp (I v Hv)).
    - destruct (pure_pow A b e Hp) as (n & k & c & -> & E & L & Hb & Ef).
      assert (D : forall v, In v vs -> degree fs rho v (IPow (flat b) n) = degree fs rho v (Pow b (Num k c)))
        by (intros v Hv; rewrite <- Ef; exact (degree_flat A v (Pow b (Num k c)) Hp (I v Hv))).
      rewrite Ef. cbn [gdegree]. rewrite (map_ext_in _ _ _ D). unfold unary_group_degree, power_group_degree. apply group_same.
      apply Forall_forall. intros d Hd. apply in_map_iff in Hd. destruct Hd as (v & <- & Hv). rewrite <- (D v Hv), <- Ef.
      apply (pure_degree fs rho A _ Hp), I, Hv.
    - change (flat (Fun k e)) with (Fun k (flat e)). cbn [gdegree]. f_equal. apply map_ext_in. intros v Hv. exact (degree_flat A v (Fun k e) Hp (I v Hv)).
    - cbn [flat gdegree] in *. inversion Hp; subst. apply IH; assumption.
  Qed.

  Lemma forallb_ext_in : forall (X : Type) (f g : X -> bool) l, (forall x, In x l -> f x = g x) -> forallb f l = forallb g l.
  Proof.
    intros X f g l. induction l as [|a l IH]; intro H; [reflexivity|]. cbn. rewrite (H a (or_introl eq_refl)), IH; [reflexivity|]. intros x Hx. apply H. right. exact Hx.
  Qed.
  Lemma forallb_map : forall (X Y : Type) (f : Y -> bool) (g : X -> Y) l, forallb f (map g l) = forallb (fun x => f (g x)) l.
  Proof. intros X Y f g l. induction l as [|a l IH]; [reflexivity|]. cbn. rewrite IH. reflexivity. Qed.

  Lemma homogeneous_flat : forall A vs e, incl vs A -> pure A (flat e) -> is_homogeneous fs rho vs (flat e) = is_homogeneous fs rho vs e.
  Proof.
    intros A vs e I. induction e as [k c|y|ops IH|ops IH|e IH|e n IH|b e IHb IHe|k e IH|e IH] using expr_rect'; intros Hp; try reflexivity.
    - rewrite Forall_forall in IH. assert (P : forall p, In p ops -> pure A (flat (snd p))) by (intros p Hi; apply (pure_flat_parts A ops); auto).
      cbn [flat is_homogeneous]. rewrite forallb_map, map_map. cbn [fst snd]. f_equal.
      + apply forallb_ext_in. intros p Hi. apply (IH p Hi), P, Hi.
      + rewrite (map_ext_in (fun x => gdegree fs rho vs (flat (snd x))) (fun x => gdegree fs rho vs (snd x))); [reflexivity|].
        intros p Hi. apply (gdegree_flat A); [exact I|apply P, Hi].
    - rewrite Forall_forall in IH. cbn [flat is_homogeneous]. rewrite forallb_map. cbn [snd]. apply forallb_ext_in. intros p Hi.
      apply (IH p Hi). apply (pure_flat_parts A ops); auto.
    - cbn [flat is_homogeneous] in *. inversion Hp; subst. apply IH; assumption.
    - cbn [flat is_homogeneous] in *. inversion Hp; subst. apply IH; assumption.
    - destruct (pure_pow A b e Hp) as (n & k & c & -> & E & L & Hb & Ef). rewrite Ef. cbn [is_homogeneous gdegree eval]. rewrite E.
      change (0 =? 0)%Z with true. cbv iota. destruct (Z.leb_spec 0 n); [|lia]. apply IHb. exact Hb.
    - change (flat (Fun k e)) with (Fun k (flat e)). cbn [is_homogeneous]. change (Fun k (flat e)) with (flat (Fun k e)).
      rewrite (gdegree_flat A vs (Fun k e) I Hp). reflexivity.
    - cbn [flat is_homogeneous] in *. inversion Hp; subst. apply IH; assumption.
  Qed.

  Lemma raise_flat : forall h k e, raise_degree h k (flat e) = flat (raise_degree h k e).
  Proof. intros h k e. unfold raise_degree. destruct (k <=? 0)%Z; [reflexivity|]. destruct (k =? 1)%Z; reflexivity. Qed.

  Lemma sequence_map : forall (X Y : Type) (f : X -> Y) l, sequence (map (option_map f) l) = option_map (map f) (sequence l).
  Proof.
    intros X Y f l. induction l as [|[a|] l IH]; cbn; [reflexivity| |reflexivity]. rewrite IH. destruct (sequence l); reflexivity.
  Qed.

  Lemma sequence_in : forall (X : Type) (l : list (option X)) r, sequence l = Some r -> l = map Some r.
  Proof.
    intros X l. induction l as [|[a|] l IH]; intros r H; cbn in H; [injection H as <-; reflexivity| |discriminate].
    destruct (sequence l) as [s|]; [|discriminate]. injection H as <-. cbn. rewrite (IH s eq_refl). reflexivity.
  Qed.

  Lemma existsb_ext_in : forall (X : Type) (f : X -> bool) l l', l = l' -> existsb f l = existsb f l'.
  Proof. intros X f l l' ->. reflexivity. Qed.

  (** operands after homogenization *)
  Lemma operands_flat : forall vs h (ops : list (bool * expr F)),
    (forall p, In p ops -> homogenize fs rho vs h (flat (snd p)) = option_map flat (homogenize fs rho vs h (snd p))) ->
    sequence (map (fun p => match homogenize fs rho vs h (snd p) with Some e' => Some (fst p, e') | None => None end)
       (map (fun p => (fst p, flat (snd p))) ops))
    = option_map (map (fun p => (fst p, flat (snd p))))
       (sequence (map (fun p => match homogenize fs rho vs h (snd p) with Some e' => Some (fst p, e') | None => None end) ops)).
  Proof.
    intros vs h ops H. rewrite <- sequence_map, !map_map. f_equal. apply map_ext_in. intros p Hi. cbn [fst snd]. rewrite (H p Hi).
    destruct (homogenize fs rho vs h (snd p)); reflexivity.
  Qed.

  Lemma homogenize_flat : forall A vs h e, incl vs A -> ~ occurs h e -> pure A (flat e) ->
    homogenize fs rho vs h (flat e) = option_map flat (homogenize fs rho vs h e).
  Proof.
    intros A vs h e I. induction e as [k c|y|ops IH|ops IH|e IH|e n IH|b e IHb IHe|k e IH|e IH] using expr_rect'; intros No Hp; try reflexivity.
    - rewrite Forall_forall in IH. assert (P : forall p, In p ops -> pure A (flat (snd p))) by (intros p Hi; apply (pure_flat_parts A ops); auto).
      assert (N : forall p, In p ops -> ~ occurs h (snd p)) by (intros [s e] Hi J; apply No; apply (oc_sum h ops s e Hi J)).
      cbn [flat homogenize]. rewrite (operands_flat vs h ops) by (intros p Hi; apply (IH p Hi); [apply N, Hi|apply P, Hi]).
      destruct (sequence _) as [l|] eqn:Es; [|reflexivity]. cbn [option_map]. rewrite !map_map. cbn [fst snd].
      assert (Q : forall q, In q l -> pure (h :: A) (flat (snd q))).
      { intros q Hq. apply sequence_in in Es. assert (Hq' : In (Some q) (map Some l)) by (apply in_map, Hq). rewrite <- Es in Hq'. apply in_map_iff in Hq'.
        destruct Hq' as (p & Ep & Hi). destruct (homogenize fs rho vs h (snd p)) as [e'|] eqn:Eh; [|discriminate]. injection Ep as <-. cbn [snd].
        apply (homogenize_pure fs rho A vs h (flat (snd p))); [exact I|rewrite occurs_flat; apply N, Hi|apply P, Hi|].
        rewrite (IH p Hi (N p Hi) (P p Hi)), Eh. reflexivity. }
      assert (D : map (fun x => gdegree fs rho vs (flat (snd x))) l = map (fun p => gdegree fs rho vs (snd p)) l).
      { apply map_ext_in. intros q Hq. apply (gdegree_flat (h :: A)); [intros v Hv; right; apply I, Hv|apply Q, Hq]. }
      rewrite D. destruct (existsb _ _); [reflexivity|]. cbn [option_map flat]. f_equal. f_equal. rewrite map_map. apply map_ext_in. intros q Hq. cbn [fst snd].
      f_equal. rewrite raise_flat. f_equal. f_equal. f_equal. apply (gdegree_flat (h :: A)); [intros v Hv; right; apply I, Hv|apply Q, Hq].
    - rewrite Forall_forall in IH. assert (P : forall p, In p ops -> pure A (flat (snd p))) by (intros p Hi; apply (pure_flat_parts A ops); auto).
      assert (N : forall p, In p ops -> ~ occurs h (snd p)) by (intros [s e] Hi J; apply No; apply (oc_mul h ops s e Hi J)).
      cbn [flat homogenize]. rewrite (operands_flat vs h ops) by (intros p Hi; apply (IH p Hi); [apply N, Hi|apply P, Hi]).
      destruct (sequence _) as [l|] eqn:Es; reflexivity.
    - cbn [flat homogenize] in *. inversion Hp; subst. rewrite IH; [|intro J; apply No; constructor; exact J|assumption]. destruct (homogenize fs rho vs h e); reflexivity.
    - cbn [flat homogenize] in *. inversion Hp; subst. rewrite IH; [|intro J; apply No; constructor; exact J|assumption]. destruct (homogenize fs rho vs h e); reflexivity.
    - destruct (pure_pow A b e Hp) as (n & k & c & -> & E & L & Hb & Ef). rewrite Ef. cbn [homogenize gdegree]. change (0 =? 0)%Z with true. cbv iota.
      rewrite IHb; [|intro J; apply No; apply oc_powb; exact J|exact Hb]. destruct (homogenize fs rho vs h b) as [b'|]; [|reflexivity]. cbn [option_map flat whole].
      rewrite E. destruct (Z.ltb_spec 0 n); [|lia]. reflexivity.
    - cbn [flat homogenize] in *. inversion Hp; subst. rewrite IH; [|intro J; apply No; constructor; exact J|assumption]. destruct (homogenize fs rho vs h e); reflexivity.
    - cbn [flat homogenize] in *. inversion Hp; subst. rewrite IH; [|intro J; apply No; constructor; exact J|assumption]. destruct (homogenize fs rho vs h e); reflexivity.
  Qed.

  (** *** whole systems *)
  Lemma in_sequence_map : forall (X Y : Type) (f : X -> option Y) l r, sequence (map f l) = Some r -> forall y, In y r -> exists x, In x l /\ f x = Some y.
  Proof.
    intros X Y f l. induction l as [|a l IH]; intros r H y Hy; cbn in H; [injection H as <-; contradiction|].
    destruct (f a) as [b|] eqn:E; [|discriminate]. destruct (sequence (map f l)) as [r'|]; [|discriminate]. injection H as <-. destruct Hy as [<-|Hy].
    - exists a. split; [left; reflexivity|exact E].
    - destruct (IH r' eq_refl y Hy) as (x & Hx & Ex). exists x. split; [right; exact Hx|exact Ex].
  Qed.

  Lemma all_flat : forall l A fl, NoDup (map snd l) -> (forall g h, In (g, h) l -> incl g A) ->
    (forall f, In f fl -> pure A (flat f) /\ forall g h, In (g, h) l -> ~ occurs h f) ->
    homogenize_all fs rho l (map flat fl) = option_map (map flat) (homogenize_all fs rho l fl) /\
    forall fl', homogenize_all fs rho l fl = Some fl' -> exists B, incl A B /\ incl (map snd l) B /\ forall f, In f fl' -> pure B (flat f).
  Proof.
    induction l as [|[g h] l IH]; intros A fl Hnd Hg Hf; cbn [homogenize_all].
    - split; [reflexivity|]. intros fl' E. injection E as <-. exists A. split; [intros v Hv; exact Hv|]. split; [intros v []|]. intros f Hi. apply (Hf f Hi).
    - assert (Es : sequence (map (homogenize fs rho g h) (map flat fl)) = option_map (map flat) (sequence (map (homogenize fs rho g h) fl))).
      { rewrite <- sequence_map, !map_map. f_equal. apply map_ext_in. intros f Hi. destruct (Hf f Hi) as [Hp Ho].
        apply (homogenize_flat A); [apply (Hg g h); left; reflexivity|apply (Ho g h); left; reflexivity|exact Hp]. }
      rewrite Es. destruct (sequence (map (homogenize fs rho g h) fl)) as [fl1|] eqn:E1; [|split; [reflexivity|discriminate]]. cbn [option_map].
      cbn [map snd] in Hnd. inversion Hnd as [|? ? Hnew Hnd']; subst.
      destruct (IH (h :: A) fl1 Hnd') as [E2 H2].
      + intros g' h' Hi v Hv. right. apply (Hg g' h' (or_intror Hi)). exact Hv.
      + intros f1 Hi1. destruct (in_sequence_map _ _ _ _ _ E1 f1 Hi1) as (f & Hi & E). destruct (Hf f Hi) as [Hp Ho]. split.
        * apply (homogenize_pure fs rho A g h (flat f)); [apply (Hg g h); left; reflexivity|rewrite occurs_flat; apply (Ho g h); left; reflexivity|exact Hp|].
          rewrite (homogenize_flat A); [rewrite E; reflexivity|apply (Hg g h); left; reflexivity|apply (Ho g h); left; reflexivity|exact Hp].
        * intros g' h' Hi' Hx. destruct (grows_occurs h h' f f1 (homogenize_grows fs rho g h f f1 E) Hx) as [->|Hx']; [|exact (Ho g' h' (or_intror Hi') Hx')].
          apply Hnew. apply in_map_iff. exists (g', h). split; [reflexivity|exact Hi'].
      + split; [exact E2|]. intros fl' E'. destruct (H2 fl' E') as (B & I1 & I2 & HB). exists B. split; [intros v Hv; apply I1; right; exact Hv|]. split; [|exact HB].
        intros v [<-|Hv]; [apply I1; left; reflexivity|apply I2; exact Hv].
  Qed.

  Lemma unknowns_flat : forall s, unknowns (flat_sys s) = unknowns s.
  Proof. reflexivity. Qed.

  Lemma polynomial_flat : forall s A, (forall g, In g (full_groups s) \/ In g (hom_groups s) -> incl g A) -> (forall f, In f (fns s) -> pure A (flat f)) ->
    is_polynomial_sys fs rho (flat_sys s) = is_polynomial_sys fs rho s.
  Proof.
    intros s A Hg Hf. unfold is_polynomial_sys. change (hom_vars (flat_sys s)) with (hom_vars s). change (groups (flat_sys s)) with (groups s).
    change (full_groups (flat_sys s)) with (full_groups s). change (hom_groups (flat_sys s)) with (hom_groups s). change (fns (flat_sys s)) with (map flat (fns s)).
    destruct (_ && _); [reflexivity|]. f_equal. rewrite forallb_map. apply forallb_ext_in. intros f Hi. f_equal; apply forallb_ext_in; intros g Hgi;
      rewrite (gdegree_flat A g f) by (auto); reflexivity.
  Qed.

  Lemma homogeneous_sys_flat : forall s A, (forall g, In g (full_groups s) \/ In g (hom_groups s) -> incl g A) -> incl (ungrouped s) A ->
    (forall f, In f (fns s) -> pure A (flat f)) -> is_homogeneous_sys fs rho (flat_sys s) = is_homogeneous_sys fs rho s.
  Proof.
    intros s A Hg Hu Hf. unfold is_homogeneous_sys. change (hom_vars (flat_sys s)) with (hom_vars s). change (groups (flat_sys s)) with (groups s).
    change (full_groups (flat_sys s)) with (full_groups s). change (hom_groups (flat_sys s)) with (hom_groups s). change (fns (flat_sys s)) with (map flat (fns s)).
    change (ungrouped (flat_sys s)) with (ungrouped s). f_equal. rewrite forallb_map. apply forallb_ext_in. intros f Hi. f_equal; [f_equal|].
    - apply forallb_ext_in. intros g Hgi. apply (homogeneous_flat A); auto.
    - apply forallb_ext_in. intros g Hgi. apply (homogeneous_flat A); auto.
    - destruct (ungrouped s) as [|u l] eqn:Eu; [reflexivity|]. apply (homogeneous_flat A); auto.
  Qed.

  (** what holds of every system here: its functions are pure in [A], which contains all its groups *)
  Definition within (A : list nat) (s : psys F) : Prop :=
    (forall g, In g (full_groups s) \/ In g (hom_groups s) -> incl g A) /\ incl (ungrouped s) A /\ forall f, In f (fns s) -> pure A (flat f).

  Lemma front_incl : forall A gs hs, (forall g, In g gs -> incl g A) -> incl hs A -> forall g, In g (with_front gs hs) -> incl g A.
  Proof.
    intros A gs. induction gs as [|g0 gs IH]; intros [|h hs] Hg Hh g Hi; try contradiction. cbn in Hi. destruct Hi as [<-|Hi].
    - intros v [<-|Hv]; [apply Hh; left; reflexivity|apply (Hg g0 (or_introl eq_refl)); exact Hv].
    - apply (IH hs); [intros g' Hg'; apply Hg; right; exact Hg'|intros v Hv; apply Hh; right; exact Hv|exact Hi].
  Qed.

  (** a system which has not been homogenized, whose functions are pure in its variables *)
  Definition shaped (fresh : nat -> nat) (s : psys F) : Prop :=
    hom_vars s = [] /\ (forall i j, fresh i = fresh j -> i = j) /\ (forall k f, In f (fns s) -> ~ occurs (fresh k) f) /\
    (forall f, In f (fns s) -> pure (unknowns s) (flat f)).

  Lemma homogenizable_shaped : forall fresh s, homogenizable fs rho fresh (flat_sys s) -> shaped fresh s.
  Proof.
    intros fresh s (H0 & _ & Hinj & Hfr & Hf). split; [exact H0|]. split; [exact Hinj|]. split.
    - intros k f Hi. rewrite <- occurs_flat. apply (proj2 (Hfr k)). apply in_map, Hi.
    - intros f Hi. apply (Hf (flat f)). apply in_map, Hi.
  Qed.

  (** homogenizing and replacing the powers commute *)
  Lemma homogenize_sys_flat : forall fresh s, shaped fresh s ->
    homogenize_sys fs rho fresh (flat_sys s) = option_map flat_sys (homogenize_sys fs rho fresh s) /\
    forall s', homogenize_sys fs rho fresh s = Some s' -> exists B, within B s'.
  Proof.
    intros fresh s (H0 & Hinj & Ho & Hp).
    assert (Hfull : full_groups s = groups s) by (unfold full_groups; rewrite H0; reflexivity).
    assert (Ep : is_polynomial_sys fs rho (flat_sys s) = is_polynomial_sys fs rho s).
    { apply (polynomial_flat s (unknowns s)); [|exact Hp]. rewrite Hfull. intros g [Hg|Hg]; [apply group_unknowns|apply hom_group_unknowns]; exact Hg. }
    assert (El := all_flat (combine (groups s) (map fresh (seq 0 (length (groups s))))) (unknowns s) (fns s)).
    assert (Esnd : map snd (combine (groups s) (map fresh (seq 0 (length (groups s))))) = map fresh (seq 0 (length (groups s)))) by (apply (numbered_snd fresh s)).
    destruct El as [El HB].
    - rewrite Esnd. clear - Hinj. generalize (seq_NoDup (length (groups s)) 0). generalize (seq 0 (length (groups s))).
      intros l Hl. induction Hl as [|x l Hx Hl IH]; cbn; constructor; [|exact IH]. intro Hi. apply in_map_iff in Hi. destruct Hi as [y [Ey Hy]].
      apply Hinj in Ey. subst. contradiction.
    - intros g h Hi. apply in_combine_l in Hi. apply group_unknowns. exact Hi.
    - intros f Hi. split; [apply Hp, Hi|]. intros g h Hgh. apply in_combine_r in Hgh. apply in_map_iff in Hgh. destruct Hgh as (k & <- & _). apply Ho. exact Hi.
    - unfold homogenize_sys. rewrite Ep. change (hom_vars (flat_sys s)) with (hom_vars s). change (groups (flat_sys s)) with (groups s).
      change (hom_groups (flat_sys s)) with (hom_groups s). change (fns (flat_sys s)) with (map flat (fns s)). change (ungrouped (flat_sys s)) with (ungrouped s).
      rewrite H0. cbv zeta. rewrite El. rewrite forallb_map.
      rewrite (forallb_ext_in _ (fun f => forallb (fun g => is_homogeneous fs rho g (flat f)) (hom_groups s)) (fun f => forallb (fun g => is_homogeneous fs rho g f) (hom_groups s))).
      2: { intros f Hi. apply forallb_ext_in. intros g Hg. apply (homogeneous_flat (unknowns s)); [apply hom_group_unknowns; exact Hg|apply Hp, Hi]. }
      destruct (negb _); [split; [reflexivity|discriminate]|].
      destruct (is_polynomial_sys fs rho s) as [[|]|]; try (split; [reflexivity|discriminate]).
      destruct (homogenize_all fs rho _ (fns s)) as [fl|] eqn:Ea; [|split; [reflexivity|discriminate]]. split; [reflexivity|].
      intros s' E. injection E as <-. destruct (HB fl eq_refl) as (B & I1 & I2 & I3). rewrite Esnd in I2. exists B. split; [|split].
      + cbn [hom_groups groups]. unfold full_groups. cbn [hom_vars groups]. intros g [Hg|Hg].
        * destruct (map fresh (seq 0 (length (groups s)))) as [|h0 hs] eqn:Eh.
          -- intros v Hv. apply I1. apply (group_unknowns s g Hg). exact Hv.
          -- rewrite <- Eh in *. apply (front_incl B (groups s) (map fresh (seq 0 (length (groups s))))); [|exact I2|exact Hg].
             intros g' Hg' v Hv. apply I1. apply (group_unknowns s g' Hg'). exact Hv.
        * intros v Hv. apply I1. apply (hom_group_unknowns s g Hg). exact Hv.
      + cbn [ungrouped]. intros v Hv. apply I1. unfold unknowns. apply in_or_app. right. apply in_or_app. right. exact Hv.
      + exact I3.
  Qed.

  Lemma scales_flat : forall G k e, scales fs G k (flat e) -> scales fs G k e.
  Proof. intros G k e H point t a b Ha Hb. rewrite <- eval_flat in Ha, Hb. exact (H point t a b Ha Hb). Qed.

  Lemma two_map : forall (X Y : Type) (f : X -> X) (g : Y -> Y) (R : X -> Y -> Prop) l l', Forall2 R (map f l) (map g l') -> Forall2 (fun a b => R (f a) (g b)) l l'.
  Proof. intros X Y f g R. induction l as [|a l IH]; intros [|b l'] H; inversion H; subst; constructor; auto. Qed.

  Lemma two_impl : forall (X Y : Type) (R Q : X -> Y -> Prop) l l', (forall a b, In a l -> In b l' -> R a b -> Q a b) -> Forall2 R l l' -> Forall2 Q l l'.
  Proof.
    intros X Y R Q l l' I H. induction H as [|a b l l' Hab H IH]; constructor; [apply I; [left; reflexivity|left; reflexivity|exact Hab]|].
    apply IH. intros u v Hu Hv. apply I; right; assumption.
  Qed.

  (** what homogenizing a system with power nodes does *)
  Lemma homogenize_powers : forall fresh s, homogenizable fs rho fresh (flat_sys s) -> exists s',
    homogenize_sys fs rho fresh s = Some s' /\
    groups s' = groups s /\ hom_groups s' = hom_groups s /\ ungrouped s' = ungrouped s /\
    hom_vars s' = map fresh (seq 0 (length (groups s))) /\
    Forall2 (fun f f' =>
      (forall point, (forall k, (k < length (groups s))%nat -> point (fresh k) = f1) -> eval fs point f' = eval fs point f) /\
      (forall k g, nth_error (groups s) k = Some g -> scales fs (fresh k :: g) (Z.to_nat (gdegree fs rho g f)) f') /\
      (forall g, In g (hom_groups s) -> scales fs g (Z.to_nat (gdegree fs rho g f)) f')) (fns s) (fns s').
  Proof.
    intros fresh s H. pose proof (homogenizable_shaped fresh s H) as Sh. destruct (homogenize_sys_flat fresh s Sh) as [E _].
    destruct (homogenize_meaning fs rho fresh (flat_sys s) H) as (s2 & E2 & Eg & Eh & Eu & Ev & Ef). rewrite E2 in E.
    destruct (homogenize_sys fs rho fresh s) as [s'|]; [|discriminate]. injection E as ->. exists s'. split; [reflexivity|].
    split; [exact Eg|]. split; [exact Eh|]. split; [exact Eu|]. split; [exact Ev|]. cbn [fns flat_sys] in Ef. apply two_map in Ef.
    destruct Sh as (_ & _ & _ & Hp). eapply two_impl; [|exact Ef]. cbn beta. intros f f' Hi _ (A & B & C). split; [|split].
    - intros point Hpt. rewrite <- (eval_flat point f'), <- (eval_flat point f). apply A. exact Hpt.
    - intros k g Hg. apply scales_flat. rewrite <- (gdegree_flat (unknowns s) g f); [|apply group_unknowns; exact (nth_error_In _ _ Hg)|apply Hp, Hi]. apply B. exact Hg.
    - intros g Hg. apply scales_flat. rewrite <- (gdegree_flat (unknowns s) g f); [|apply hom_group_unknowns; exact Hg|apply Hp, Hi]. apply C. exact Hg.
  Qed.

  Lemma accepted_powers : forall fresh s s', homogenizable fs rho fresh (flat_sys s) -> homogenize_sys fs rho fresh s = Some s' ->
    (forall f, In f (fns s) -> expanded (unknowns s) (flat f)) ->
    (ungrouped s <> [] -> forall f, In f (fns s) -> is_homogeneous fs rho (ungrouped s) (flat f) = true) ->
    is_homogeneous_sys fs rho s' = true /\ is_polynomial_sys fs rho s' = Some true.
  Proof.
    intros fresh s s' H E Hex Hun. destruct (homogenize_sys_flat fresh s (homogenizable_shaped fresh s H)) as [E2 HB]. rewrite E in E2. cbn [option_map] in E2.
    destruct (HB s' E) as (B & W1 & W2 & W3).
    destruct (after fs rho fresh (flat_sys s) (flat_sys s') H E2) as (A1 & A2 & _).
    - intros f Hi. apply in_map_iff in Hi. destruct Hi as (e & <- & Hi). apply Hex, Hi.
    - intros Hne f Hi. apply in_map_iff in Hi. destruct Hi as (e & <- & Hi). apply Hun; assumption.
    - rewrite (homogeneous_sys_flat s' B W1 W2 W3) in A1. rewrite (polynomial_flat s' B W1 W3) in A2. split; assumption.
  Qed.

  (** *** the degree in all variables *)
  Lemma total_nonneg : forall A e, pure A e -> (forall v, occurs v e -> In v A) -> (0 <= vdegree fs rho None e)%Z.
  Proof.
    intros A e. induction e as [k c|y|ops IH|ops IH|e IH|e n IH|b e IHb IHe|k e IH|e IH] using expr_rect'; intros Hp Hc;
      inversion Hp as [| |? Hps|? Hps Hcs|? H1|? ? H1 H2|? ? H1 H2|? H1]; subst; cbn [vdegree]; cbv zeta; try lia.
    - rewrite Forall_forall in IH, Hps. assert (P : Forall (fun d => (0 <= d)%Z) (map (fun p => vdegree fs rho None (snd p)) ops)).
      { apply Forall_forall. intros d Hd. apply in_map_iff in Hd. destruct Hd as ([s e] & <- & Hi). apply (IH _ Hi (Hps _ Hi)). intros v Hv. apply Hc.
        econstructor; eassumption. }
      rewrite sum_degree_max by exact P. apply fold_max_ge.
    - rewrite Forall_forall in IH, Hps, Hcs.
      assert (P : forall p, In p ops -> (0 <= vdegree fs rho None (snd p))%Z).
      { intros [s e] Hi. apply (IH _ Hi (Hps _ Hi)). intros v Hv. apply Hc. econstructor; eassumption. }
      assert (Q : forall p, In p ops -> fst p = false -> vdegree fs rho None (snd p) = 0%Z).
      { intros [s e] Hi Ef. apply (total_number fs rho A); [apply (Hps _ Hi)|]. intros v Hv. apply (Hcs _ Hi Ef v); [apply Hc; econstructor; eassumption|exact Hv]. }
      rewrite mul_degree_all.
      + unfold sum2. cbn [Z.add]. clear - P. induction ops as [|p ops IHo]; cbn [map fold_right fst snd]; [lia|].
        pose proof (P p (or_introl eq_refl)). assert (0 <= fold_right (fun p a => snd p + a)%Z 0%Z (map (fun p => (fst p, vdegree fs rho None (snd p))) ops))%Z
          by (apply IHo; intros q Hq; apply P; right; exact Hq). lia.
      + apply Forall_forall. intros q Hq. apply in_map_iff in Hq. destruct Hq as (p & <- & Hi). cbn [fst snd]. split; [apply P, Hi|apply Q, Hi].
    - apply IH; [assumption|]. intros v Hv. apply Hc. constructor. exact Hv.
    - assert (D : (0 <= vdegree fs rho None e)%Z) by (apply IH; [assumption|intros v Hv; apply Hc; constructor; exact Hv]).
      destruct (Z.ltb_spec (vdegree fs rho None e) 0); [lia|]. destruct H2 as [H2|H2]; [nia|].
      rewrite (total_number fs rho A e H1); [lia|]. intros v Hv. apply (H2 v); [apply Hc; constructor; exact Hv|exact Hv].
    - rewrite (total_number fs rho A e H1); [reflexivity|]. intros v Hv. apply (H2 v); [apply Hc; constructor; exact Hv|exact Hv].
    - apply IH; [assumption|]. intros v Hv. apply Hc. constructor. exact Hv.
  Qed.

  Lemma total_flat : forall A e, pure A (flat e) -> (forall v, occurs v e -> In v A) -> vdegree fs rho None (flat e) = vdegree fs rho None e.
  Proof.
    intros A e. induction e as [k c|y|ops IH|ops IH|e IH|e n IH|b e IHb IHe|k e IH|e IH] using expr_rect'; intros Hp Hc; try reflexivity.
    - cbn [flat vdegree]. f_equal. rewrite map_map. apply map_ext_in. intros [s e] Hi. cbn [snd]. rewrite Forall_forall in IH.
      apply (IH _ Hi); [apply (pure_flat_parts A ops (or_introl Hp) _ Hi)|]. intros v Hv. apply Hc. econstructor; eassumption.
    - cbn [flat vdegree]. f_equal. rewrite map_map. apply map_ext_in. intros [s e] Hi. cbn [fst snd]. f_equal. rewrite Forall_forall in IH.
      apply (IH _ Hi); [apply (pure_flat_parts A ops (or_intror Hp) _ Hi)|]. intros v Hv. apply Hc. econstructor; eassumption.
    - cbn [flat vdegree] in *. inversion Hp; subst. apply IH; [assumption|]. intros v Hv. apply Hc. constructor. exact Hv.
    - cbn [flat vdegree] in *. inversion Hp; subst. rewrite IH; [reflexivity|assumption|]. intros v Hv. apply Hc. constructor. exact Hv.
    - assert (Hcb : forall v, occurs v b -> In v A) by (intros v Hv; apply Hc; apply oc_powb; exact Hv).
      destruct (pure_pow A b e Hp) as (n & k & c & -> & E & L & Hb & Ef). rewrite Ef. cbn [vdegree eval]. rewrite E. rewrite <- (IHb Hb Hcb).
      assert (D : (0 <= vdegree fs rho None (flat b))%Z) by (apply (total_nonneg A); [exact Hb|intros v Hv; rewrite occurs_flat in Hv; auto]).
      cbv zeta. change (0 =? 0)%Z with true. cbv iota.
      destruct (Z.ltb_spec (vdegree fs rho None (flat b)) 0); [lia|]. destruct (Z.eqb_spec n 0); [lia|]. destruct (Z.ltb_spec n 0); lia.
    - cbn [flat vdegree] in *. inversion Hp; subst. rewrite IH; [reflexivity|assumption|]. intros v Hv. apply Hc. constructor. exact Hv.
    - cbn [flat vdegree] in *. inversion Hp; subst. apply IH; [assumption|]. intros v Hv. apply Hc. constructor. exact Hv.
  Qed.

  Lemma copy_flat : forall A s k b, within A s -> (forall f v, In f (fns s) -> occurs v f -> In v A) ->
    copy_degrees fs rho (flat_sys s) k b = copy_degrees fs rho s k b.
  Proof.
    intros A s k b (Hg & Hu & Hp) Hc. unfold copy_degrees. rewrite (polynomial_flat s A Hg Hp).
    assert (Ed : degrees_of fs rho (flat_sys s) = degrees_of fs rho s).
    { unfold degrees_of, flat_sys. cbn [fns]. rewrite map_map. apply map_ext_in. intros f Hi. apply (total_flat A); [apply Hp, Hi|]. intros v Hv. apply (Hc f v Hi Hv). }
    rewrite Ed. unfold variable_count, flat_sys. cbn [fns groups hom_groups ungrouped hom_vars]. rewrite map_length. reflexivity.
  Qed.
End Flat.

(** *** the set-up of the solver *)
Section Solver.
  Variable fs : funs CF.
  Hypothesis Hfs : funs_ok fs.
  Variable rho : env CF.

  Definition flat_setup (z : set_up) : set_up := mkSetUp (flat_sys fs (prepared z)) (start z) (gamma z).

  Lemma setup_flat : forall fresh draw rand g s vars, shaped fs fresh s -> groups s = [vars] ->
    (forall f v, In f (fns s) -> occurs v f -> In v vars) ->
    system_setup fs rho fresh draw rand g (flat_sys fs s)
    = match system_setup fs rho fresh draw rand g s with Value z => Value (flat_setup z) | Throws => Throws | UB => UB end.
  Proof.
    intros fresh draw rand g s vars Hh Hg Hf. pose proof Hh as (Hv0 & _).
    destruct (homogenize_sys_flat fs rho fresh s Hh) as [E HB]. unfold system_setup. rewrite E.
    destruct (homogenize_sys fs rho fresh s) as [s'|] eqn:Es; [|reflexivity]. cbn [option_map]. destruct (HB s' eq_refl) as (B & Hw).
    pose proof Hw as (W1 & W2 & W3). rewrite (homogeneous_sys_flat fs rho s' B W1 W2 W3). destruct (negb _); [reflexivity|]. cbv zeta.
    change (patch_for draw (flat_sys fs s')) with (patch_for draw s').
    rewrite (copy_flat fs rho B s' _ _ Hw).
    - destruct (copy_degrees fs rho s' (length (patch_for draw s')) false) as [ds| |]; reflexivity.
    - unfold homogenize_sys in Es. destruct (negb _); [discriminate|]. destruct (is_polynomial_sys fs rho s) as [[|]|]; try discriminate.
      rewrite Hv0, Hg in Es. cbn [length seq map combine homogenize_all] in Es.
      destruct (sequence (map (homogenize fs rho vars (fresh O)) (fns s))) as [fl|] eqn:Eq; [|discriminate]. injection Es as <-. cbn [fns].
      intros f' v Hi Hv. destruct (in_sequence_map _ _ _ _ _ Eq f' Hi) as (f & Hif & Ef).
      assert (Hx : In v (fresh O :: vars)).
      { destruct (grows_occurs (fresh O) v f f' (homogenize_grows fs rho vars (fresh O) f f' Ef) Hv) as [->|Ho]; [left; reflexivity|]. right.
        apply (Hf f v Hif Ho). }
      apply (W1 (fresh O :: vars)); [|exact Hx]. left. left. reflexivity.
  Qed.

  Lemma setup_flat_ready : forall fresh draw rand g s vars, ready fs rho fresh (flat_sys fs s) vars ->
    system_setup fs rho fresh draw rand g (flat_sys fs s)
    = match system_setup fs rho fresh draw rand g s with Value z => Value (flat_setup z) | Throws => Throws | UB => UB end.
  Proof.
    intros fresh draw rand g s vars (Hh & Hg & _ & _ & _ & _ & Hf & _). apply (setup_flat fresh draw rand g s vars); [apply (homogenizable_shaped fs rho); exact Hh|exact Hg|].
    intros f v Hi Hv. apply (Hf (flat fs f)); [apply in_map, Hi|]. apply occurs_flat. exact Hv.
  Qed.

  Lemma values_flat : forall fl vs x, values fs rho (map (flat fs) fl) vs x = values fs rho fl vs x.
  Proof. intros fl vs x. unfold values. rewrite map_map. f_equal. apply map_ext. intro f. apply eval_flat. exact Hfs. Qed.

  Lemma homotopy_flat : forall z x t, homotopy_values fs rho (flat_setup z) x t = homotopy_values fs rho z x t.
  Proof.
    intros z x t. unfold homotopy_values, flat_setup. cbn [prepared start gamma]. change (fns (flat_sys fs (prepared z))) with (map (flat fs) (fns (prepared z))).
    rewrite values_flat. reflexivity.
  Qed.

  Lemma zero_flat : forall z x t, zero_of fs rho (flat_setup z) x t <-> zero_of fs rho z x t.
  Proof. intros z x t. unfold zero_of. rewrite homotopy_flat. reflexivity. Qed.

  Lemma solves_flat : forall fl vs x, solves fs rho (map (flat fs) fl) vs x <-> solves fs rho fl vs x.
  Proof.
    intros fl vs x. unfold solves. rewrite Forall_map. split; intro H; (eapply Forall_impl; [|exact H]); intros f Hf; cbn beta in *; rewrite eval_flat in *; assumption.
  Qed.
End Solver.
