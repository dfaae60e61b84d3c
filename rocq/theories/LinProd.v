(** LinearProduct and DiffLinear nodes.

    Models core/include/bertini2/function_tree/symbols/linear_product.hpp and core/src/function_tree/linear_product.cpp.
    Simplifications: exact arithmetic, one number type; the coefficient matrix is a list of rows; caching is
    that of Node (Heap.v). *)
From Coq Require Import List Arith Lia ZArith Bool Ring Field.
From Verif Require Import Base Poly Expr Degree Homog Diff.
Import ListNotations.

Section Model.
  Context {F : fld}.
  Local Open Scope fld_scope.

  (** hom_variable_, linear_product.hpp:575: the Integer 1 or 0 until homogenized, then a variable *)
  Inductive hnode := HNum (c : F) | HVar (h : nat).

  (** linear_product.hpp:567-588 *)
  Record linprod := mkLP {
    lvars : list nat;            (* variables_ *)
    lhom : hnode;                (* hom_variable_ *)
    lcoeffs : list (list F);     (* coeffs_, one row per factor; the last column is the constant *)
    lhomd : bool;                (* is_homogenized_ *)
    lishom : bool                (* is_hom_vars_ *)
  }.

  Definition num_factors (l : linprod) : nat := length (lcoeffs l).

  (** the public constructor with coefficients, linear_product.hpp:149-189; [None] is the exception *)
  Definition lp_make (vars : list nat) (coeffs : list (list F)) (is_hom_vars : bool) : option linprod :=
    if forallb (fun row => Nat.eqb (length row) (S (length vars))) coeffs then
      if is_hom_vars then Some (mkLP vars (HNum 0) (map (fun row => firstn (length vars) row ++ [0]) coeffs) true true)
      else Some (mkLP vars (HNum 1) coeffs false false)
    else None.

  Definition hom_value (rho : env F) (n : hnode) : F := match n with HNum c => c | HVar h => rho h end.

  (** temp_sum_: one factor, linear_product.hpp:479-491 *)
  Fixpoint row_value (row vals : list F) : F :=
    match row, vals with
    | c :: row', x :: vals' => c * x + row_value row' vals'
    | _, _ => 0
    end.

  (** FreshEval_d, FreshEval_mp, linear_product.hpp:459-492, 515-544 *)
  Definition lp_eval (rho : env F) (l : linprod) : F :=
    let vals := map rho (lvars l) ++ [hom_value rho (lhom l)] in
    fold_left (fun value row => value * row_value row vals) (lcoeffs l) 1.

  (** linear_product.cpp:102-113 *)
  Definition lp_degree (v : nat) (l : linprod) : nat := if existsb (Nat.eqb v) (lvars l) then num_factors l else 0%nat.

  (** linear_product.cpp:119-134 *)
  Definition lp_gdegree (vs : list nat) (l : linprod) : nat :=
    if existsb (fun v => existsb (Nat.eqb v) (lvars l)) vs then num_factors l else 0%nat.

  (** linear_product.cpp:139-154 *)
  Definition lp_multidegree (vs : list nat) (l : linprod) : list nat := map (fun v => lp_degree v l) vs.

  (** linear_product.cpp:160-221; [None] is the exception *)
  Definition lp_homogenize (vs : list nat) (h : nat) (l : linprod) : option linprod :=
    if lhomd l then Some l
    else
      let temp := filter (fun v => negb (Nat.eqb v h)) vs in
      let (larger, smaller) := if length temp <? length (lvars l) then (lvars l, temp) else (temp, lvars l) in
      let v_in := existsb (fun v => existsb (Nat.eqb v) smaller) larger in
      let same := forallb (fun v => existsb (Nat.eqb v) smaller) larger in
      if negb same && v_in then None
      else if same then Some (mkLP (lvars l) (HVar h) (lcoeffs l) true (lishom l))
      else Some l.

  (** linear_product.cpp:227-253, with a variable *)
  Definition lp_is_homogeneous_var (v : nat) (l : linprod) : bool := negb (existsb (Nat.eqb v) (lvars l)).

  (** linear_product.cpp:259-308 *)
  Definition lp_is_homogeneous (vs : list nat) (l : linprod) : bool :=
    let v_in := existsb (fun v => existsb (Nat.eqb v) vs) (lvars l) in
    let same := forallb (fun v => existsb (Nat.eqb v) vs) (lvars l) in
    let check_h := lhomd l && negb (lishom l) in
    let h_in := match lhom l with HVar h => existsb (Nat.eqb h) vs | HNum _ => false end in
    let v_in := v_in || (check_h && h_in) in
    let same := same && (negb check_h || h_in) in
    if negb same && v_in then false
    else if negb same then true
    else lhomd l.

  (** GetLinears, linear_product.cpp:320-387, with the private constructors, linear_product.hpp:600-680 *)
  Definition get_linears (l : linprod) (rows : list (list F)) : linprod :=
    mkLP (lvars l) (if lishom l then HNum 0 else lhom l) rows (lishom l) (lishom l).

  (** DiffLinear::FreshEval, linear_product.hpp:972-996, 1019-1043: the value for the differentiation variable
      given at evaluation ([None] is the null pointer) *)
  Fixpoint diff_linear_scan (vars : list nat) (row : list F) (v : nat) : option F :=
    match vars, row with
    | x :: vars', c :: row' => if Nat.eqb v x then Some c else diff_linear_scan vars' row' v
    | _, _ => None
    end.

  Definition diff_linear_eval (l : linprod) (row : list F) (dv : option nat) : F :=
    match dv with
    | None => 0
    | Some v =>
        match diff_linear_scan (lvars l) row v with
        | Some c => c
        | None =>
            match lhom l with
            | HVar h => if Nat.eqb v h then nth (length (lvars l) - 1) row 0 else 0
            | HNum _ => 0
            end
        end
    end.

  (** LinearProduct::Differentiate, linear_product.cpp:60-95, evaluated with differentiation variable [dv]: the
      node returned does not depend on the argument of Differentiate.  [pre] are the factors before. *)
  Fixpoint lp_diff_terms (l : linprod) (rho : env F) (dv : option nat) (pre rows : list (list F)) : F :=
    match rows with
    | [] => 0
    | row :: r =>
        diff_linear_eval (get_linears l [row]) row dv * lp_eval rho (get_linears l (pre ++ r))
        + lp_diff_terms l rho dv (pre ++ [row]) r
    end.

  (** [None]: a product without factors reads a row which does not exist *)
  Definition lp_diff_eval (l : linprod) (rho : env F) (dv : option nat) : option F :=
    match lcoeffs l with
    | [] => None
    | rows => Some (lp_diff_terms l rho dv [] rows)
    end.

  (** ** Specification: the product of linear forms written as an ordinary expression *)
  Definition hom_tree (n : hnode) : expr F := match n with HNum c => Num KInteger c | HVar h => Var h end.

  Definition row_tree (l : linprod) (row : list F) : expr F :=
    Sum (map (fun p => (true, Mul [(true, Num KFloat (fst p)); (true, snd p)])) (combine row (map Var (lvars l) ++ [hom_tree (lhom l)]))).

  Definition lp_tree (l : linprod) : expr F := Mul (map (fun row => (true, row_tree l row)) (lcoeffs l)).

  (** what construction and homogenization maintain *)
  Definition lp_ok (l : linprod) : Prop :=
    Forall (fun row => length row = S (length (lvars l))) (lcoeffs l) /\
    (lishom l = true -> lhomd l = true /\ lhom l = HNum 0 /\ Forall (fun row => nth (length (lvars l)) row 0 = 0) (lcoeffs l)) /\
    (lishom l = false -> if lhomd l then exists h, lhom l = HVar h /\ ~ In h (lvars l) else lhom l = HNum 1).

  (** nodes a user can have: constructed, then homogenized any number of times with variables not in the product *)
  Inductive lp_reachable : linprod -> Prop :=
  | reach_make : forall vars coeffs b l, NoDup vars -> lp_make vars coeffs b = Some l -> lp_reachable l
  | reach_hom : forall l vs h l', lp_reachable l -> ~ In h (lvars l) -> lp_homogenize vs h l = Some l' -> lp_reachable l'.
End Model.

Section Proofs.
  Context {F : fld}.
  Local Open Scope fld_scope.
  Add Field linprod_field : (f_th F).

  Implicit Types (l : linprod (F := F)) (rho : env F) (row : list F).

  Lemma mem_in : forall v (s : list nat), existsb (Nat.eqb v) s = true <-> In v s.
  Proof.
    intros v s. rewrite existsb_exists. split.
    - intros [x [Hx E]]. apply Nat.eqb_eq in E. subst. exact Hx.
    - intro H. exists v. split; [assumption|apply Nat.eqb_refl].
  Qed.

  Lemma mem_not : forall v (s : list nat), existsb (Nat.eqb v) s = false <-> ~ In v s.
  Proof. intros v s. rewrite <- mem_in. destruct (existsb (Nat.eqb v) s); split; congruence. Qed.

  Definition lvals (rho : env F) l : list F := map rho (lvars l) ++ [hom_value rho (lhom l)].

  Lemma fold_mul : forall (A : Type) (f : A -> F) rows a, fold_left (fun value r => value * f r) rows a = a * fprod (map f rows).
  Proof.
    intros A f. induction rows as [|r rows IH]; intro a; cbn [fold_left map]; [cbn [fprod map fpow length]; ring|].
    rewrite IH. cbn [fprod map fpow length]; ring.
  Qed.

  Lemma lp_eval_prod : forall rho l, lp_eval rho l = fprod (map (fun row => row_value row (lvals rho l)) (lcoeffs l)).
  Proof. intros rho l. unfold lp_eval. fold (lvals rho l). rewrite fold_mul. ring. Qed.

  Lemma lp_reachable_ok : forall l, lp_reachable l -> lp_ok l /\ NoDup (lvars l).
  Proof.
    induction 1 as [vars coeffs b l Hnd H|l vs h l' Hr [[H1 [H2 H3]] H4] Hh H].
    - unfold lp_make in H. destruct (forallb _ coeffs) eqn:E; [|discriminate].
      assert (Hl : Forall (fun row : list F => length row = S (length vars)) coeffs).
      { apply Forall_forall. intros row Hrow. rewrite forallb_forall in E. apply Nat.eqb_eq. auto. }
      destruct b; injection H as <-; (split; [|assumption]); repeat split; cbn in *; try discriminate; try assumption; try reflexivity.
      + apply Forall_forall. intros row Hrow. apply in_map_iff in Hrow as [r [<- Hin]]. rewrite Forall_forall in Hl.
        rewrite app_length, firstn_length, (Hl r Hin). cbn. lia.
      + apply Forall_forall. intros row Hrow. apply in_map_iff in Hrow as [r [<- Hin]]. rewrite Forall_forall in Hl.
        rewrite app_nth2; rewrite firstn_length, (Hl r Hin); [|lia]. replace (length vars - Nat.min (length vars) (S (length vars)))%nat with 0%nat by lia. reflexivity.
    - unfold lp_homogenize in H. destruct (lhomd l) eqn:Ehd; [injection H as <-; split; [split; [assumption|split; rewrite Ehd; assumption]|assumption]|].
      destruct (if length (filter (fun v => negb (Nat.eqb v h)) vs) <? length (lvars l) then _ else _) as [larger smaller].
      destruct (negb (forallb _ larger) && existsb _ larger); [discriminate|].
      assert (Ei : lishom l = false) by (destruct (lishom l); [destruct (H2 eq_refl); discriminate|reflexivity]).
      destruct (forallb _ larger); injection H as <-; (split; [|assumption]).
      + split; [assumption|]. cbn. split; [intro; congruence|]. intros _. exists h. auto.
      + split; [assumption|]. split; [rewrite Ei; discriminate|]. rewrite Ehd. assumption.
  Qed.

  (** *** the node computes the product *)
  Lemma row_tree_eval : forall fs rho l row, length row = S (length (lvars l)) ->
    eval fs rho (row_tree l row) = Some (row_value row (lvals rho l)).
  Proof.
    intros fs rho l row Hl. unfold row_tree. cbn [eval]. rewrite map_map. cbn [fst snd].
    assert (G : forall trees vals r, Forall2 (fun e v => eval fs rho e = Some v) trees vals ->
      sum_val (map (fun x : F * expr F => (true, eval fs rho (Mul [(true, Num KFloat (fst x)); (true, snd x)]))) (combine r trees)) = Some (row_value r vals)).
    { intros trees vals r H. revert r. induction H as [|e v trees vals He H IH]; intros [|c r]; try reflexivity.
      cbn [combine map fst snd]. cbn [sum_val]. cbn [eval map fst snd]. rewrite He. cbn [mul_val]. rewrite IH. cbn [row_value]. f_equal. ring. }
    apply G. unfold lvals. apply Forall2_app.
    - clear Hl. induction (lvars l) as [|x xs IH]; cbn; constructor; auto.
    - constructor; [|constructor]. destruct (lhom l); reflexivity.
  Qed.

  Lemma lp_eval_tree : forall fs rho l, lp_ok l -> eval fs rho (lp_tree l) = Some (lp_eval rho l).
  Proof.
    intros fs rho l [Hr _]. rewrite lp_eval_prod. unfold lp_tree. cbn [eval]. rewrite map_map. cbn [fst snd].
    induction Hr as [|row rows Hrow Hr IH]; [reflexivity|]. cbn [map]. rewrite (row_tree_eval fs rho l row Hrow). cbn [mul_val].
    rewrite IH. f_equal.
  Qed.

  (** *** degrees *)
  Lemma row_value_not : forall rho v t vs row, ~ In v vs -> forall x, row_value row (map (upd rho v t) vs ++ [x]) = row_value row (map rho vs ++ [x]).
  Proof.
    intros rho v t. induction vs as [|y vs IH]; intros [|c row] Hn x; cbn [map app row_value]; try reflexivity.
    rewrite IH by (intro; apply Hn; right; assumption). unfold upd at 1. destruct (Nat.eq_dec y v); [exfalso; apply Hn; left; assumption|reflexivity].
  Qed.

  Definition line_env (rho : env F) (vs : list nat) (b : nat -> F) (t : F) : env F :=
    fun x => if in_dec Nat.eq_dec x vs then rho x + t * b x else rho x.

  Lemma row_value_line : forall rho vs b xs row z, is_poly 1 (fun t => row_value row (map (line_env rho vs b t) xs ++ [z])).
  Proof.
    intros rho vs b. induction xs as [|x xs IH]; intros [|c row] z; cbn [map app row_value]; try apply is_poly_const.
    apply is_poly_add; [|apply IH]. apply is_poly_scale. unfold line_env. destruct (in_dec Nat.eq_dec x vs).
    - exists [rho x; b x]. split; [cbn; lia|]. intro t. cbn. ring.
    - apply is_poly_const.
  Qed.

  Lemma fprod_poly : forall (A : Type) (f : A -> F -> F) rows, (forall r, In r rows -> is_poly 1 (f r)) ->
    is_poly (length rows) (fun t => fprod (map (fun r => f r t) rows)).
  Proof.
    intros A f. induction rows as [|r rows IH]; intro H; [apply (is_poly_const 1)|]. cbn [length map].
    change (S (length rows)) with (1 + length rows)%nat. apply (is_poly_mul 1 (length rows) (f r) (fun t => fprod (map (fun r => f r t) rows))); [apply H; left; reflexivity|].
    apply IH. intros; apply H; right; assumption.
  Qed.

  Lemma hom_value_line : forall rho vs b l t, (forall h, lhom l = HVar h -> ~ In h vs) ->
    hom_value (line_env rho vs b t) (lhom l) = hom_value rho (lhom l).
  Proof.
    intros rho vs b l t H. destruct (lhom l) as [c|h]; [reflexivity|]. cbn. unfold line_env.
    destruct (in_dec Nat.eq_dec h vs) as [Hi|]; [exfalso; exact (H h eq_refl Hi)|reflexivity].
  Qed.

  Lemma lp_group_degree : forall rho vs b l, (forall h, lhom l = HVar h -> ~ In h vs) ->
    is_poly (lp_gdegree vs l) (fun t => lp_eval (line_env rho vs b t) l).
  Proof.
    intros rho vs b l Hh. unfold lp_gdegree. destruct (existsb _ vs) eqn:E.
    - apply is_poly_ext with (fun t => fprod (map (fun row => row_value row (map (line_env rho vs b t) (lvars l) ++ [hom_value rho (lhom l)])) (lcoeffs l))).
      + intro t. rewrite lp_eval_prod. unfold lvals. rewrite (hom_value_line rho vs b l t Hh). reflexivity.
      + apply (fprod_poly _ (fun row t => row_value row (map (line_env rho vs b t) (lvars l) ++ [hom_value rho (lhom l)]))).
        intros r _. apply row_value_line.
    - apply is_poly_ext with (fun _ => lp_eval rho l); [|apply is_poly_const]. intro t. rewrite !lp_eval_prod. unfold lvals.
      rewrite (hom_value_line rho vs b l t Hh). assert (M : map (line_env rho vs b t) (lvars l) = map rho (lvars l)); [|rewrite M; reflexivity].
      apply map_ext_in. intros x Hx. unfold line_env. destruct (in_dec Nat.eq_dec x vs) as [Hi|]; [|reflexivity].
      exfalso. assert (Q : existsb (fun v => existsb (Nat.eqb v) (lvars l)) vs = true); [|congruence].
      apply existsb_exists. exists x. split; [assumption|]. apply mem_in. assumption.
  Qed.

  Lemma gdegree_single : forall v l, lp_gdegree [v] l = lp_degree v l.
  Proof. intros v l. unfold lp_gdegree, lp_degree. cbn [existsb]. rewrite orb_false_r. reflexivity. Qed.

  Lemma lp_eval_ext : forall rho rho' l, (forall x, In x (lvars l) -> rho x = rho' x) -> hom_value rho (lhom l) = hom_value rho' (lhom l) ->
    lp_eval rho l = lp_eval rho' l.
  Proof.
    intros rho rho' l H E. rewrite !lp_eval_prod. unfold lvals. rewrite E, (map_ext_in rho rho' _ H). reflexivity.
  Qed.

  Lemma lp_var_degree : forall rho v l, (forall h, lhom l = HVar h -> h <> v) ->
    is_poly (lp_degree v l) (fun t => lp_eval (upd rho v t) l).
  Proof.
    intros rho v l Hh. rewrite <- gdegree_single.
    apply is_poly_ext with (fun t => lp_eval (line_env (upd rho v 0) [v] (fun _ => 1) t) l).
    - intro t. assert (E : forall x, line_env (upd rho v 0) [v] (fun _ => 1) t x = upd rho v t x).
      { intro x. unfold line_env, upd. destruct (in_dec Nat.eq_dec x [v]) as [[<-|[]]|Hn].
        - destruct (Nat.eq_dec v v); [ring|congruence].
        - destruct (Nat.eq_dec x v); [exfalso; apply Hn; left; congruence|reflexivity]. }
      apply lp_eval_ext; [intros; apply E|]. destruct (lhom l); [reflexivity|apply E].
    - apply lp_group_degree. intros h E [<-|[]]. exact (Hh v E eq_refl).
  Qed.

  (** *** homogenization *)
  Lemma lp_hom_cases : forall vs h l l', lp_homogenize vs h l = Some l' ->
    l' = l \/ (lhomd l = false /\ l' = mkLP (lvars l) (HVar h) (lcoeffs l) true (lishom l)).
  Proof.
    intros vs h l l' H. unfold lp_homogenize in H. destruct (lhomd l) eqn:Ehd; [injection H as <-; auto|].
    destruct (if length (filter (fun v => negb (Nat.eqb v h)) vs) <? length (lvars l) then _ else _) as [larger smaller].
    destruct (negb (forallb _ larger) && existsb _ larger); [discriminate|].
    destruct (forallb _ larger); injection H as <-; auto.
  Qed.

  (** undone by setting the homogenizing variable to one *)
  Lemma lp_homogenize_undone : forall rho vs h l l', lp_ok l -> ~ In h (lvars l) -> lhom l <> HVar h ->
    lp_homogenize vs h l = Some l' -> lp_eval (upd rho h 1) l' = lp_eval rho l.
  Proof.
    intros rho vs h l l' [H1 [H2 H3]] Hn Hh H.
    assert (V : forall x, In x (lvars l) -> upd rho h 1 x = rho x).
    { intros x Hx. unfold upd. destruct (Nat.eq_dec x h) as [->|]; [contradiction|reflexivity]. }
    destruct (lp_hom_cases _ _ _ _ H) as [->|[Ehd ->]].
    - apply lp_eval_ext; [assumption|]. destruct (lhom l) as [c|g]; [reflexivity|]. cbn. unfold upd. destruct (Nat.eq_dec g h); [subst; contradiction|reflexivity].
    - assert (Ei : lishom l = false) by (destruct (lishom l); [destruct (H2 eq_refl); congruence|reflexivity]).
      specialize (H3 Ei). rewrite Ehd in H3. rewrite !lp_eval_prod. unfold lvals. cbn [lvars lhom lcoeffs hom_value]. rewrite H3. cbn [hom_value].
      rewrite (map_ext_in _ _ _ V). unfold upd. destruct (Nat.eq_dec h h); [reflexivity|congruence].
  Qed.

  (** a shared variable forces equality of the two sets, and then the result is homogeneous *)
  Lemma incl_le_eq : forall (s g : list nat), NoDup s -> NoDup g -> length g <= length s -> (forall v, In v s -> In v g) -> forall v, In v g -> In v s.
  Proof. intros s g Hs Hg Hl Hi v Hv. exact (NoDup_length_incl Hs Hl Hi v Hv). Qed.

  Lemma lp_homogenize_covers : forall vs h l l', NoDup vs -> NoDup (lvars l) -> lhomd l = false ->
    lp_homogenize vs h l = Some l' -> (exists v, In v vs /\ v <> h /\ In v (lvars l)) ->
    l' = mkLP (lvars l) (HVar h) (lcoeffs l) true (lishom l) /\ forall v, In v (lvars l) <-> In v vs /\ v <> h.
  Proof.
    intros vs h l l' Hvs Hlv Ehd H [v0 [V1 [V2 V3]]]. unfold lp_homogenize in H. rewrite Ehd in H.
    set (temp := filter (fun v => negb (Nat.eqb v h)) vs) in H.
    assert (T : forall v, In v temp <-> In v vs /\ v <> h).
    { intro v. unfold temp. rewrite filter_In, negb_true_iff, Nat.eqb_neq. reflexivity. }
    assert (Nt : NoDup temp) by (apply NoDup_filter; assumption).
    assert (S : forall larger smaller : list nat, NoDup larger -> NoDup smaller -> length smaller <= length larger ->
      In v0 larger -> In v0 smaller ->
      (if negb (forallb (fun v => existsb (Nat.eqb v) smaller) larger) && existsb (fun v => existsb (Nat.eqb v) smaller) larger then None
      else if forallb (fun v => existsb (Nat.eqb v) smaller) larger then Some (mkLP (lvars l) (HVar h) (lcoeffs l) true (lishom l)) else Some l) = Some l' ->
      l' = mkLP (lvars l) (HVar h) (lcoeffs l) true (lishom l) /\ forall v, In v larger <-> In v smaller).
    { intros larger smaller N1 N2 Hl I1 I2 E.
      assert (X : existsb (fun v => existsb (Nat.eqb v) smaller) larger = true) by (apply existsb_exists; exists v0; split; [assumption|apply mem_in; assumption]).
      rewrite X in E. destruct (forallb _ larger) eqn:Ef; cbn in E; [|discriminate]. injection E as <-. split; [reflexivity|].
      rewrite forallb_forall in Ef. assert (Sub : forall v, In v larger -> In v smaller) by (intros v Hv; apply mem_in; auto).
      intro v. split; [apply Sub|]. apply (incl_le_eq larger smaller); assumption. }
    assert (V4 : In v0 temp) by (apply T; auto).
    destruct (length temp <? length (lvars l)) eqn:El.
    - apply Nat.ltb_lt in El. destruct (S (lvars l) temp Hlv Nt ltac:(lia) V3 V4 H) as [Q1 Q2]. split; [assumption|]. intro v. rewrite Q2. apply T.
    - apply Nat.ltb_ge in El. destruct (S temp (lvars l) Nt Hlv El V4 V3 H) as [Q1 Q2]. split; [assumption|]. intro v. rewrite <- Q2. apply T.
  Qed.

  Lemma row_value_scale : forall (t : F) row vals, row_value row (map (fmul t) vals) = t * row_value row vals.
  Proof. intros t. induction row as [|c row IH]; intros [|x vals]; cbn; try ring. rewrite IH. ring. Qed.

  Lemma fprod_scale : forall (A : Type) (f g : A -> F) (t : F) rows, (forall r, In r rows -> g r = t * f r) ->
    fprod (map g rows) = fpow t (length rows) * fprod (map f rows).
  Proof.
    intros A f g t. induction rows as [|r rows IH]; intro H; [cbn [fprod map fpow length]; ring|]. cbn [fprod map length fpow].
    rewrite (H r (or_introl eq_refl)), IH by (intros; apply H; right; assumption). ring.
  Qed.

  Lemma lp_scale : forall rho (t : F) vs l, (forall v, In v (lvars l) -> In v vs) ->
    (forall h, lhom l = HVar h -> In h vs) -> (forall c, lhom l = HNum c -> c = 0) ->
    lp_eval (scale t vs rho) l = fpow t (num_factors l) * lp_eval rho l.
  Proof.
    intros rho t vs l Hv Hh Hc. rewrite !lp_eval_prod. apply fprod_scale. intros row _.
    rewrite <- row_value_scale. f_equal. unfold lvals. rewrite map_app, map_map. f_equal.
    - apply map_ext_in. intros x Hx. unfold scale. destruct (in_dec Nat.eq_dec x vs); [reflexivity|exfalso; auto].
    - cbn. f_equal. destruct (lhom l) as [c|h]; cbn.
      + rewrite (Hc c eq_refl). ring.
      + unfold scale. destruct (in_dec Nat.eq_dec h vs); [reflexivity|exfalso; auto].
  Qed.

  Lemma lp_homogenize_homogeneous : forall rho t vs h l l', NoDup vs -> NoDup (lvars l) -> lhomd l = false ->
    lp_homogenize vs h l = Some l' -> (exists v, In v vs /\ v <> h /\ In v (lvars l)) ->
    lp_eval (scale t (h :: vs) rho) l' = fpow t (lp_gdegree vs l) * lp_eval rho l'.
  Proof.
    intros rho t vs h l l' Hvs Hlv Ehd H Hex. destruct (lp_homogenize_covers vs h l l' Hvs Hlv Ehd H Hex) as [-> Hc].
    rewrite lp_scale.
    - unfold lp_gdegree. assert (E : existsb (fun v => existsb (Nat.eqb v) (lvars l)) vs = true).
      { destruct Hex as [v [V1 [_ V3]]]. apply existsb_exists. exists v. split; [assumption|apply mem_in; assumption]. }
      rewrite E. reflexivity.
    - cbn. intros v Hv. right. apply Hc. assumption.
    - cbn. intros h' E. injection E as <-. left; reflexivity.
    - cbn. discriminate.
  Qed.

  (** *** IsHomogeneous(group) is sound *)
  Lemma lp_is_homogeneous_sound : forall rho t vs l, lp_ok l -> lp_is_homogeneous vs l = true ->
    lp_eval (scale t vs rho) l = fpow t (lp_gdegree vs l) * lp_eval rho l \/
    lvars l = [] /\ lp_eval (scale t vs rho) l = fpow t (num_factors l) * lp_eval rho l.
  Proof.
    intros rho t vs l [H1 [H2 H3]] H. unfold lp_is_homogeneous in H.
    set (check := lhomd l && negb (lishom l)) in *.
    set (hin := match lhom l with HVar h => existsb (Nat.eqb h) vs | HNum _ => false end) in *.
    destruct (forallb (fun v => existsb (Nat.eqb v) vs) (lvars l) && (negb check || hin)) eqn:Es.
    - cbn in H. apply andb_true_iff in Es as [E1 E2]. rewrite forallb_forall in E1.
      assert (Sc : lp_eval (scale t vs rho) l = fpow t (num_factors l) * lp_eval rho l).
      { apply lp_scale.
        - intros v Hv. apply mem_in. auto.
        - intros h Eh. unfold hin in E2. rewrite Eh in E2. destruct (lishom l) eqn:Ei; [destruct (H2 eq_refl) as [_ [Q _]]; congruence|].
          unfold check in E2. rewrite H in E2. cbn in E2. apply mem_in. assumption.
        - intros c Ec. destruct (lishom l) eqn:Ei; [destruct (H2 eq_refl) as [_ [Q _]]; congruence|].
          specialize (H3 eq_refl). rewrite H in H3. destruct H3 as [h [Q _]]. congruence. }
      destruct (lvars l) as [|x xs] eqn:Ev; [right; auto|left].
      rewrite Sc. f_equal. f_equal. unfold lp_gdegree. rewrite Ev.
      assert (Q : existsb (fun v => existsb (Nat.eqb v) (x :: xs)) vs = true); [|rewrite Q; reflexivity].
      apply existsb_exists. exists x. split; [apply mem_in; apply E1; left; reflexivity|]. cbn. rewrite Nat.eqb_refl. reflexivity.
    - cbn in H. destruct (existsb (fun v => existsb (Nat.eqb v) vs) (lvars l) || check && hin) eqn:Ev; [discriminate|].
      apply orb_false_iff in Ev as [E1 E2]. left.
      assert (D : forall x, In x (lvars l) -> ~ In x vs).
      { intros x Hx Hi. assert (Q : existsb (fun v => existsb (Nat.eqb v) vs) (lvars l) = true); [|congruence].
        apply existsb_exists. exists x. split; [assumption|apply mem_in; assumption]. }
      unfold lp_gdegree. assert (Q : existsb (fun v => existsb (Nat.eqb v) (lvars l)) vs = false).
      { destruct (existsb (fun v => existsb (Nat.eqb v) (lvars l)) vs) eqn:Q; [|reflexivity]. apply existsb_exists in Q as [x [X1 X2]].
        apply mem_in in X2. exfalso. exact (D x X2 X1). }
      rewrite Q. cbn [fpow]. transitivity (lp_eval rho l); [|ring]. apply lp_eval_ext.
      + intros x Hx. unfold scale. destruct (in_dec Nat.eq_dec x vs); [exfalso; exact (D x Hx i)|reflexivity].
      + destruct (lhom l) as [c|h] eqn:Eh; [reflexivity|]. cbn. unfold scale. destruct (in_dec Nat.eq_dec h vs) as [Hi|]; [|reflexivity].
        exfalso. destruct (lishom l) eqn:Ei; [destruct (H2 eq_refl) as [_ [X _]]; congruence|].
        specialize (H3 eq_refl). destruct (lhomd l) eqn:Ed; [|congruence]. unfold check, hin in E2. cbn in E2.
        apply mem_not in E2. contradiction.
  Qed.

  (** *** derivative *)
  Lemma combine_nil_r' : forall (A B : Type) (l : list A), combine l (@nil B) = [].
  Proof. intros A B [|a l]; reflexivity. Qed.

  (** the derivative of one factor, by dual numbers *)
  Lemma row_deval : forall rho v l row, length row = S (length (lvars l)) -> NoDup (lvars l) -> lhom l <> HVar v ->
    deval rho v (row_tree l row) = Some (row_value row (lvals rho l), diff_linear_eval l row (Some v)).
  Proof.
    intros rho v l row Hlen Hnd Hv. unfold row_tree, lvals, diff_linear_eval. destruct l as [vars hom rows hd ih]. cbn [lvars lhom] in *.
    assert (H0 : match hom with HVar h => if Nat.eqb v h then nth (length vars - 1) row 0 else 0 | HNum _ => 0 end = 0).
    { destruct hom as [c|h]; [reflexivity|]. destruct (Nat.eqb_spec v h); [subst; congruence|reflexivity]. }
    rewrite H0. clear H0. cbn [deval]. rewrite map_map. cbn [fst snd].
    assert (Hhom : deval rho v (hom_tree hom) = Some (hom_value rho hom, 0)).
    { destruct hom as [c|h]; [reflexivity|]. cbn. destruct (Nat.eqb_spec h v); [subst; congruence|reflexivity]. }
    revert row Hlen. induction vars as [|x xs IH]; intros row Hlen.
    - destruct row as [|c [|? ?]]; try discriminate. cbn [map app combine fst snd].
      cbn [dsum]. cbn [deval map fst snd dprod]. rewrite Hhom. cbn [diff_linear_scan]. cbn [row_value]. f_equal.
      unfold dadd, dmul, dconst. cbn [fst snd]. f_equal; ring.
    - destruct row as [|c row]; [discriminate|]. cbn [length] in Hlen. injection Hlen as Hlen. inversion Hnd as [|? ? Hx Hnd']; subst.
      specialize (IH Hnd' row Hlen). cbn [map app combine fst snd dsum]. rewrite IH. cbn [deval map fst snd dprod row_value diff_linear_scan].
      rewrite (Nat.eqb_sym v x). destruct (Nat.eqb_spec x v) as [->|N].
      + assert (Q : diff_linear_scan xs row v = None).
        { clear - Hx. revert row. induction xs as [|y xs IH]; intros [|d row]; try reflexivity. cbn.
          destruct (Nat.eqb_spec v y); [subst; exfalso; apply Hx; left; reflexivity|]. apply IH. intro; apply Hx; right; assumption. }
        rewrite Q. f_equal. unfold dadd, dmul, dconst. cbn [fst snd]. f_equal; ring.
      + f_equal. unfold dadd, dmul, dconst. cbn [fst snd]. f_equal; ring.
  Qed.

  Lemma fprod_app : forall (a b : list F), fprod (a ++ b) = fprod a * fprod b.
  Proof. induction a as [|x a IH]; intro b; cbn [fprod app map fpow length]; [ring|]. rewrite IH. ring. Qed.

  Lemma lishom_get : forall l, lp_ok l -> (if lishom l then HNum 0 else lhom l) = lhom l.
  Proof. intros l [_ [H2 _]]. destruct (lishom l); [destruct (H2 eq_refl) as [_ [-> _]]; reflexivity|reflexivity]. Qed.

  Lemma lp_derivative : forall fs rho v l, lp_ok l -> NoDup (lvars l) -> lhom l <> HVar v -> lcoeffs l <> [] ->
    exists y', deval rho v (lp_tree l) = Some (lp_eval rho l, y') /\ lp_diff_eval l rho (Some v) = Some y' /\
      eval fs rho (differentiate v (lp_tree l)) = Some y'.
  Proof.
    intros fs rho v l Hok Hnd Hv Hne. pose proof Hok as [Hr _].
    assert (Hg : forall rows, get_linears l rows = mkLP (lvars l) (lhom l) rows (lishom l) (lishom l)) by (intro rows; unfold get_linears; rewrite lishom_get by assumption; reflexivity).
    assert (D : forall rows pre, Forall (fun row => length row = S (length (lvars l))) rows ->
      let P := fprod (map (fun row => row_value row (lvals rho l)) pre) in
      exists d, dprod (map (fun row => (true, deval rho v (row_tree l row))) rows) = Some (fprod (map (fun row => row_value row (lvals rho l)) rows), d) /\
        lp_diff_terms l rho (Some v) pre rows = P * d).
    { induction rows as [|row rows IH]; intros pre HF; cbn zeta.
      - exists 0. split; [reflexivity|]. cbn. ring.
      - inversion HF as [|? ? Hrow HF']; subst. destruct (IH (pre ++ [row]) HF') as [d [D1 D2]]. cbn zeta in D2.
        exists (row_value row (lvals rho l) * d + diff_linear_eval l row (Some v) * fprod (map (fun row => row_value row (lvals rho l)) rows)).
        cbn [map dprod]. rewrite (row_deval rho v l row Hrow Hnd Hv), D1. split; [reflexivity|].
        cbn [lp_diff_terms]. rewrite D2, !Hg, lp_eval_prod. unfold lvals. cbn [lvars lhom lcoeffs]. fold (lvals rho l).
        rewrite !map_app, !fprod_app. cbn [map]. change (diff_linear_eval _ row (Some v)) with (diff_linear_eval l row (Some v)).
        cbn [fprod]. ring. }
    destruct (D (lcoeffs l) [] Hr) as [d [D1 D2]]. cbn zeta in D2. exists d.
    assert (Dv : deval rho v (lp_tree l) = Some (lp_eval rho l, d)).
    { rewrite lp_eval_prod, <- D1. unfold lp_tree. cbn [deval]. rewrite map_map. reflexivity. }
    split; [exact Dv|]. split.
    - unfold lp_diff_eval. destruct (lcoeffs l) as [|row rows] eqn:E; [congruence|]. rewrite D2. f_equal. cbn [fprod map]. ring.
    - assert (Ha : arith (lp_tree l)).
      { unfold lp_tree. constructor. intros s e Hin. apply in_map_iff in Hin as [row [Eq Hrow]]. injection Eq as <- <-.
        unfold row_tree. constructor. intros s e Hin. apply in_map_iff in Hin as [[c e0] [Eq Hc]]. injection Eq as <- <-.
        constructor. intros s e [Eq|[Eq|[]]]; injection Eq as <- <-; [constructor|]. apply in_combine_r in Hc. apply in_app_or in Hc as [Hc|[<-|[]]].
        - apply in_map_iff in Hc as [x [<- _]]. constructor.
        - destruct (lhom l); constructor. }
      destruct (differentiate_arith fs rho v (lp_tree l) Ha _ (lp_eval_tree fs rho l Hok)) as [y' [Q1 Q2]]. rewrite Dv in Q1. injection Q1 as <-. exact Q2.
  Qed.

  Lemma is_poly_0_const : forall (f : F -> F), is_poly 0 f -> forall s t, f s = f t.
  Proof.
    intros f [p [Hp E]] s t. rewrite !E. destruct p as [|a [|b p]]; cbn in *; [reflexivity|ring|lia].
  Qed.

  (** without a differentiation variable, as System evaluates the derivatives it has stored, the result is zero *)
  Lemma lp_diff_no_variable : forall rho l, lcoeffs l <> [] -> lp_diff_eval l rho None = Some 0.
  Proof.
    intros rho l Hne. unfold lp_diff_eval. assert (Z : forall rows pre, lp_diff_terms l rho None pre rows = 0).
    { induction rows as [|r rows IH]; intro pre; [reflexivity|]. cbn. rewrite IH. ring. }
    destruct (lcoeffs l); [congruence|]. rewrite Z. reflexivity.
  Qed.
End Proofs.

(** ** Examples: (2 x + 3 y + 5) (x - y + 1), and x + 2 h *)
Definition lp_xy : linprod (F := QcF) :=
  mkLP [0; 1] (HNum (qc 1 1)) [[qc 2 1; qc 3 1; qc 5 1]; [qc 1 1; qc (-1) 1; qc 1 1]] false false.
Definition lp_xy_hom : linprod (F := QcF) :=
  mkLP [0; 1] (HVar 2) [[qc 2 1; qc 3 1; qc 5 1]; [qc 1 1; qc (-1) 1; qc 1 1]] true false.
Definition lp_xh : linprod (F := QcF) := mkLP [0] (HVar 1) [[qc 1 1; qc 2 1]] true false.
Definition at_123 : env QcF := fun n => qc (Z.of_nat n + 1) 1.

Lemma lp_xy_reachable : lp_reachable lp_xy.
Proof. apply (reach_make [0; 1] [[qc 2 1; qc 3 1; qc 5 1]; [qc 1 1; qc (-1) 1; qc 1 1]] false); [repeat constructor; cbn; lia|reflexivity]. Qed.

Lemma lp_xy_hom_reachable : lp_reachable lp_xy_hom.
Proof. apply (reach_hom lp_xy [1; 0] 2); [exact lp_xy_reachable|cbn; lia|reflexivity]. Qed.

Lemma lp_xh_reachable : lp_reachable lp_xh.
Proof.
  apply (reach_hom (mkLP [0] (HNum (qc 1 1)) [[qc 1 1; qc 2 1]] false false) [0] 1); [|cbn; lia|reflexivity].
  apply (reach_make [0] [[qc 1 1; qc 2 1]] false); [repeat constructor; cbn; lia|reflexivity].
Qed.

Lemma lp_values : lp_eval at_123 lp_xy = qc 0 1 /\ lp_eval at_123 lp_xy_hom = qc 46 1 /\
  lp_diff_eval lp_xy at_123 (Some 0) = Some (qc 13 1) /\ lp_diff_eval lp_xy at_123 (Some 1) = Some (qc (-13) 1) /\
  lp_degree 0 lp_xy = 2 /\ lp_homogenize [0] 2 lp_xy = None /\ lp_homogenize [1; 0] 2 lp_xy = Some lp_xy_hom /\
  lp_is_homogeneous [2; 0; 1] lp_xy_hom = true /\ lp_is_homogeneous [0; 1] lp_xy = false.
Proof. repeat split; vm_compute; reflexivity. Qed.

(** with respect to the homogenizing variable the derivative, degree and homogeneity test are wrong *)
Lemma lp_hom_variable_wrong :
  deval at_123 1 (lp_tree lp_xh) = Some (qc 5 1, qc 2 1) /\ lp_diff_eval lp_xh at_123 (Some 1) = Some (qc 1 1) /\
  lp_degree 1 lp_xh = 0 /\ lp_eval (upd at_123 1 (qc 0 1)) lp_xh = qc 1 1 /\ lp_eval (upd at_123 1 (qc 1 1)) lp_xh = qc 3 1 /\
  lp_is_homogeneous_var 1 lp_xh = true /\ lp_eval (upd at_123 1 (qc 2 1)) lp_xh = qc 5 1.
Proof. repeat split; vm_compute; reflexivity. Qed.

Lemma lp_hom_variable_refuted : exists (l : linprod (F := QcF)) rho h, lp_reachable l /\ lhom l = HVar h /\
  (exists y y', deval rho h (lp_tree l) = Some (y, y') /\ lp_diff_eval l rho (Some h) <> Some y') /\
  ~ is_poly (lp_degree h l) (fun t => lp_eval (upd rho h t) l).
Proof.
  destruct lp_hom_variable_wrong as [H1 [H2 [H3 [H4 [H5 _]]]]].
  exists lp_xh, at_123, 1. split; [exact lp_xh_reachable|]. split; [reflexivity|]. split.
  - exists (qc 5 1), (qc 2 1). split; [exact H1|]. rewrite H2. intro E. discriminate.
  - rewrite H3. intro Hp. pose proof (is_poly_0_const _ Hp (qc 0 1) (qc 1 1)) as E. cbv beta in E. rewrite H4, H5 in E. discriminate.
Qed.
