(** From the text of a system to the homotopy the zero-dimensional solver tracks: the parser (SysParser.v, SysValue.v),
    homogenization, patching and the start system (SolveSetup.v) together. *)
From Coq Require Import String Ascii List Arith Lia Bool ZArith Ring Field Reals Lra.
From Verif Require Import Base Poly Chars NumLit Expr Degree Homog HomogSys Patch ComplexField StartIndex DegreeAll TotalDegree SolveSetup PowNode
  Parser ParserSpec Names SysParser SysParserSpec SysParserProof SysValue.
Import ListNotations.
Local Close Scope R_scope.
Local Open Scope nat_scope.

(** ** Model *)

(** the system the parser hands over (system_rules.hpp:111-133): its functions followed to the variables, its groups;
    [place] numbers the variables.  A path variable and the implicit parameters are left out. *)
Definition target_of {F : fld} (flt special : text -> F) (place : text -> nat) (n : nat) (y : sys) : option (psys F) :=
  match functions_of flt special place n y with
  | Some es => Some (mkPS es (map (map place) (SysParser.groups y)) (map (map place) (SysParser.hom_groups y)) (map place (SysParser.ungrouped y)) [])
  | None => None
  end.

(** ** Specification *)

(** products of powers of variables, [vs] being the variables: divided by integers other than 0 only *)
Inductive monomial_tree (vs : list text) : tree -> Prop :=
| mn_int : forall z, monomial_tree vs (TInt z)
| mn_float : forall s, monomial_tree vs (TFloat s)
| mn_rat : forall n d, monomial_tree vs (TRat n d)
| mn_sym : forall s, In s (initial_names ++ vs) -> monomial_tree vs (TSym s)
| mn_prod : forall ops, Forall (fun p => (fst p = true /\ monomial_tree vs (snd p)) \/ exists z, snd p = TInt z /\ z <> 0%Z) ops -> monomial_tree vs (TMul ops)
| mn_neg : forall t, monomial_tree vs t -> monomial_tree vs (TNeg t)
| mn_power : forall b n, monomial_tree vs b -> (0 < n)%Z -> monomial_tree vs (TPow b (TInt n)).

(** polynomials: sums and products of numbers, names and such monomials; a minus sign in front and powers of
    monomials only *)
Inductive polynomial_tree (vs : list text) : tree -> Prop :=
| pl_int : forall z, polynomial_tree vs (TInt z)
| pl_float : forall s, polynomial_tree vs (TFloat s)
| pl_rat : forall n d, polynomial_tree vs (TRat n d)
| pl_sym : forall s, polynomial_tree vs (TSym s)
| pl_sum : forall ops, Forall (fun p => polynomial_tree vs (snd p)) ops -> polynomial_tree vs (TSum ops)
| pl_prod : forall ops, Forall (fun p => (fst p = true /\ polynomial_tree vs (snd p)) \/ exists z, snd p = TInt z /\ z <> 0%Z) ops -> polynomial_tree vs (TMul ops)
| pl_neg : forall t, monomial_tree vs t -> polynomial_tree vs (TNeg t)
| pl_power : forall b n, monomial_tree vs b -> (0 < n)%Z -> polynomial_tree vs (TPow b (TInt n)).

(** all definitions of the text are polynomials *)
Definition polynomial_text (p : list stmt) : Prop := forall f t, last_definition p f t -> polynomial_tree (variable_names p) t.

(** the degree of a polynomial when the names have the degrees [d] *)
Fixpoint tree_degree (d : text -> nat) (t : tree) : nat :=
  match t with
  | TSym s => d s
  | TSum ops => fold_right (fun p n => Nat.max (tree_degree d (snd p)) n) 0 ops
  | TMul ops => fold_right (fun p n => tree_degree d (snd p) + n) 0 ops
  | TNeg t => tree_degree d t
  | TPow b (TInt n) => Z.to_nat n * tree_degree d b
  | _ => 0
  end.

(** [d] are the degrees of the names: 0 for pi, e and i, 1 for variables, as defined otherwise *)
Definition degrees_of_text (p : list stmt) (d : text -> nat) : Prop :=
  (forall s, In s initial_names -> d s = 0) /\ (forall s, In s (variable_names p) -> d s = 1) /\
  (forall f t, last_definition p f t -> d f = tree_degree d t).

(** all variables are declared in one variable_group statement *)
Definition declares_variables (st : stmt) : bool :=
  match st with SGroup _ | SHomGroup _ | SVariables _ | SImplicits _ | SPathVariable _ => true | _ => false end.
Definition one_group (p : list stmt) : Prop := filter declares_variables p = [SGroup (variable_names p)].

(** the point with these coordinates, in the order of the variables *)
Fixpoint coordinate {F : fld} (vs : list text) (x : list F) (s : text) : F :=
  match vs, x with v :: vs', a :: x' => if text_dec s v then a else coordinate vs' x' s | _, _ => f0 end.

(** The texts treated: in ordinary notation, every name defined once and before it is used, one variable group, as many
    functions as variables, polynomials of the degrees [d], at least 1. *)
Record square_text (num : text -> option Z) (p : list stmt) (s : text) (d : text -> nat) : Prop := {
  st_program : program num initial_names [] p s;
  st_straight : straight_line p;
  st_defined : all_defined p;
  st_group : one_group p;
  st_some : variable_names p <> [];
  st_square : length (function_names p) = length (variable_names p);
  st_polynomial : polynomial_text p;
  st_degrees : degrees_of_text p d;
  st_positive : forall f, In f (function_names p) -> (1 <= d f)%nat;
  st_number : (fold_right Z.mul 1%Z (map (fun f => Z.of_nat (d f)) (function_names p)) < 2 ^ 64)%Z
}.

(** different variables have different places, and the new variables of Homogenize other ones *)
Definition places (place : text -> nat) (fresh : nat -> nat) (vs : list text) : Prop :=
  (forall v w, In v vs -> In w vs -> place v = place w -> v = w) /\ (forall i j, fresh i = fresh j -> i = j) /\
  (forall k v, In v vs -> fresh k <> place v).

(** the point [a] solves the equations of the text: carrying out the statements with these values of the variables gives
    every function the value 0 *)
Definition solves_text {F : fld} (fs : funs F) (flt special : text -> F) (p : list stmt) (a : list F) : Prop :=
  forall f, In f (function_names p) -> execute fs flt (initially special (coordinate (variable_names p) a) p) p f = Some f0.

(** ** Proofs *)
Section Good.
  Context {F : fld}.
  Variable fs : funs F.
  Hypothesis Hint : forall n, (0 < n)%Z -> as_int fs (fZ n) = Some n.
  Hypothesis Hfs : funs_ok fs.
  Hypothesis Hchar : forall z, z <> 0%Z -> fZ z <> f0 :> F.
  Variable rho0 : env F.
  Variable V : list nat.
  Hypothesis Vnd : NoDup V.

  Record good (e : expr F) (k : nat) : Prop := {
    g_pure : pure V (flat fs e);
    g_expanded : expanded V (flat fs e);
    g_modest : modest V (flat fs e);
    g_closed : forall v, occurs v e -> In v V;
    g_defined : forall rho, exists y, eval fs rho e = Some y;
    g_degree : gdegree fs rho0 V (flat fs e) = Z.of_nat k
  }.

  Lemma self : incl V V.
  Proof. intros v H; exact H. Qed.

  Lemma good_num : forall k c, good (Num k c) 0.
  Proof. intros k c. constructor; try (cbn; constructor; fail); [intros v H; inversion H|intro rho; exists c; reflexivity]. Qed.

  Lemma num_monomial : forall k c, monomial V (Num k c : expr F).
  Proof. intros k c. apply mo_const. intros v _ H. inversion H. Qed.

  Lemma good_neg : forall e k, good e k -> monomial V (flat fs e) -> good (Neg e) k.
  Proof.
    intros e k [P E M C D G] Mo. constructor; cbn [flat].
    - constructor. exact P.
    - constructor. exact Mo.
    - constructor; [right; exact Mo|exact M].
    - intros v H. inversion H. auto.
    - intro rho. destruct (D rho) as [y Ey]. cbn [eval]. rewrite Ey. eauto.
    - rewrite (gdegree_neg fs rho0 V V self Vnd); [exact G|exact P|right; exact Mo].
  Qed.

  Lemma flat_pow : forall (b : expr F) n k, (0 < n)%Z -> flat fs (Pow b (Num k (fZ n))) = IPow (flat fs b) n.
  Proof. intros b n k L. cbn [flat whole]. rewrite (Hint n L). destruct (Z.ltb_spec 0 n); [reflexivity|lia]. Qed.

  Lemma good_pow : forall b n k q, (0 < n)%Z -> good b k -> monomial V (flat fs b) -> good (Pow b (Num q (fZ n))) (Z.to_nat n * k).
  Proof.
    intros b n k q L [P E M C D G] Mo. constructor; rewrite ?flat_pow by exact L.
    - constructor; [exact P|left; lia].
    - constructor. exact Mo.
    - constructor; [right; exact Mo|exact M].
    - intros v H. inversion H as [| | | | |? ? Hb|? ? He| |]; subst; [auto|inversion He].
    - intro rho. rewrite <- (eval_flat fs Hfs), flat_pow by exact L. cbn [eval]. rewrite eval_flat by exact Hfs. destruct (D rho) as [y Ey]. rewrite Ey.
      rewrite fpowZ_pos by lia. eauto.
    - rewrite (gdegree_ipow fs rho0 V V self Vnd); [rewrite G; lia|exact P|lia|right; exact Mo].
  Qed.

  (** the operands of sums and products *)
  Lemma good_sum : forall (ops : list (bool * tree)) (f : tree -> expr F) (d : tree -> nat), Forall (fun p => good (f (snd p)) (d (snd p))) ops ->
    good (Sum (map (fun p => (fst p, f (snd p))) ops)) (fold_right (fun p n => Nat.max (d (snd p)) n) 0 ops).
  Proof.
    intros ops f d H. constructor; cbn [flat]; try rewrite map_map; cbn [fst snd].
    - constructor. rewrite Forall_map. eapply Forall_impl; [|exact H]. intros p G. exact (g_pure _ _ G).
    - constructor. rewrite Forall_map. eapply Forall_impl; [|exact H]. intros p G. exact (g_expanded _ _ G).
    - constructor. rewrite Forall_map. eapply Forall_impl; [|exact H]. intros p G. exact (g_modest _ _ G).
    - intros v Hv. inversion Hv as [|? s e Hi Ho| | | | | | |]; subst. apply in_map_iff in Hi. destruct Hi as (p & Ep & Hi). injection Ep as _ <-.
      rewrite Forall_forall in H. apply (g_closed _ _ (H p Hi)). exact Ho.
    - intro rho. cbn [eval]. rewrite map_map. cbn [fst snd]. induction H as [|p ops G H [y IH]]; cbn [map sum_val]; [eauto|].
      destruct (g_defined _ _ G rho) as [a Ea]. rewrite Ea, IH. eauto.
    - cbn [gdegree]. rewrite map_map. cbn [snd].
      assert (E : map (fun x : bool * tree => gdegree fs rho0 V (flat fs (f (snd x)))) ops = map (fun p => Z.of_nat (d (snd p))) ops)
        by (apply map_ext_in; intros p Hi; rewrite Forall_forall in H; apply (g_degree _ _ (H p Hi))).
      rewrite E, sum_degree_max.
      + clear E H. assert (W : forall acc, (0 <= acc)%Z -> fold_left Z.max (map (fun p => Z.of_nat (d (snd p))) ops) acc
          = Z.max acc (Z.of_nat (fold_right (fun p n => Nat.max (d (snd p)) n) 0 ops))).
        { induction ops as [|p ops IH]; intros acc Ha; cbn [map fold_left fold_right]; [lia|]. rewrite IH by lia. lia. }
        rewrite W by lia. lia.
      + rewrite Forall_map. apply Forall_forall. intros p _. lia.
  Qed.

  Lemma good_mul : forall (ops : list (bool * tree)) (f : tree -> expr F) (d : tree -> nat),
    (forall p, In p ops -> (fst p = true /\ good (f (snd p)) (d (snd p))) \/ (exists z, z <> 0%Z /\ f (snd p) = Num KInteger (fZ z) /\ d (snd p) = 0)) ->
    good (Mul (map (fun p => (fst p, f (snd p))) ops)) (fold_right (fun p n => d (snd p) + n) 0 ops).
  Proof.
    intros ops f d H.
    assert (K : forall p, In p ops -> good (f (snd p)) (d (snd p)) /\ (fst p = false -> exists z, z <> 0%Z /\ f (snd p) = Num KInteger (fZ z))).
    { intros p Hi. destruct (H p Hi) as [[E G]|(z & Hz & Ef & Ed)]; [split; [exact G|congruence]|]. rewrite Ef, Ed. split; [apply good_num|eauto]. }
    clear H.
    assert (P : pure V (flat fs (Mul (map (fun p => (fst p, f (snd p))) ops)))).
    { cbn [flat]. rewrite map_map. cbn [fst snd]. constructor; rewrite Forall_map; apply Forall_forall; intros p Hi; cbn [fst snd].
      - exact (g_pure _ _ (proj1 (K p Hi))).
      - intro Ef. destruct (proj2 (K p Hi) Ef) as (z & _ & ->). intros v _ Hv. inversion Hv. }
    constructor; [exact P|..]; cbn [flat]; try rewrite map_map; cbn [fst snd].
    - constructor. rewrite Forall_map. apply Forall_forall. intros p Hi. exact (g_expanded _ _ (proj1 (K p Hi))).
    - constructor. rewrite Forall_map. apply Forall_forall. intros p Hi. exact (g_modest _ _ (proj1 (K p Hi))).
    - intros v Hv. inversion Hv as [| |? s e Hi Ho| | | | | |]; subst. apply in_map_iff in Hi. destruct Hi as (p & Ep & Hi). injection Ep as _ <-.
      apply (g_closed _ _ (proj1 (K p Hi))). exact Ho.
    - intro rho. cbn [eval]. rewrite map_map. cbn [fst snd]. clear P. induction ops as [|p ops IH]; cbn [map mul_val]; [eauto|].
      destruct IH as [y IH]; [intros q Hq; apply K; right; exact Hq|]. destruct (K p (or_introl eq_refl)) as [G Gd].
      destruct (g_defined _ _ G rho) as [a Ea]. rewrite Ea, IH. destruct (fst p) eqn:Es; [eauto|]. destruct (Gd eq_refl) as (z & Hz & Ef).
      rewrite Ef in Ea. cbn [eval] in Ea. injection Ea as <-. destruct (feq_dec (fZ z) f0) as [C|_]; [elim (Hchar z Hz C)|eauto].
    - destruct (gdegree_mul fs rho0 V (map (fun p => (fst p, flat fs (f (snd p)))) ops)) as [E _].
      { apply (pure_polynomial fs rho0 V V); [exact self|]. cbn [flat] in P. rewrite map_map in P. exact P. }
      rewrite E. clear E P. induction ops as [|p ops IH]; cbn [map fold_right fst snd]; [reflexivity|].
      rewrite IH by (intros q Hq; apply K; right; exact Hq). rewrite (g_degree _ _ (proj1 (K p (or_introl eq_refl)))). lia.
  Qed.

  Variable flt : text -> F.
  Variable sym : text -> expr F.
  Variable d : text -> nat.
  Variable vs : list text.

  Lemma meaning_monomial : forall t, monomial_tree vs t -> (forall s, In s (initial_names ++ vs) -> good (sym s) (d s) /\ monomial V (flat fs (sym s))) ->
    good (meaning sym flt t) (tree_degree d t) /\ monomial V (flat fs (meaning sym flt t)).
  Proof.
    intros t H Hs. revert H.
    induction t as [z|s|n q|s|ops IH|ops IH|t IH|t n IH|b e IHb IHe|k t IH] using tree_rect'; intro H; inversion H as [| | |? Hi|? Hf|? Ht|? ? Hb Ln]; subst; cbn [meaning tree_degree].
    - split; [apply good_num|apply num_monomial].
    - split; [apply good_num|apply num_monomial].
    - split; [apply good_num|apply num_monomial].
    - apply Hs. exact Hi.
    - rewrite Forall_forall in IH, Hf. split.
      + apply good_mul. intros p Hp. destruct (Hf p Hp) as [[E M]|(z & E & Hz)]; [left; split; [exact E|apply (IH p Hp M)]|].
        right. exists z. rewrite E. repeat split; [exact Hz].
      + cbn [flat]. apply mo_mul. rewrite map_map, Forall_map. apply Forall_forall. intros p Hp. cbn [snd].
        destruct (Hf p Hp) as [[E M]|(z & E & Hz)]; [apply (IH p Hp M)|]. rewrite E. apply num_monomial.
    - destruct (IH Ht) as [G M]. split; [apply good_neg; assumption|]. cbn [flat]. apply mo_neg. exact M.
    - destruct (IHb Hb) as [G M]. cbn [tree_degree meaning]. split; [apply good_pow; assumption|]. rewrite flat_pow by exact Ln. apply mo_ipow. exact M.
  Qed.

  Lemma meaning_good : forall t, polynomial_tree vs t -> (forall s, In s (initial_names ++ vs) -> good (sym s) (d s) /\ monomial V (flat fs (sym s))) ->
    (forall s, In s (symbols t) -> good (sym s) (d s)) -> good (meaning sym flt t) (tree_degree d t).
  Proof.
    intros t H Hs. revert H.
    induction t as [z|s|n q|s|ops IH|ops IH|t IH|t n IH|b e IHb IHe|k t IH] using tree_rect'; intros H Hy;
      inversion H as [| | | |? Hf|? Hf|? Ht|? ? Hb Ln]; subst; cbn [meaning tree_degree]; try apply good_num.
    - apply Hy. left. reflexivity.
    - rewrite Forall_forall in IH, Hf. apply good_sum. apply Forall_forall. intros p Hp. apply (IH p Hp (Hf p Hp)).
      intros s Hs'. apply Hy. cbn [symbols]. apply in_flat_map. exists p. split; assumption.
    - rewrite Forall_forall in IH, Hf. apply good_mul. intros p Hp. destruct (Hf p Hp) as [[E M]|(z & E & Hz)].
      + left. split; [exact E|]. apply (IH p Hp M). intros s Hs'. apply Hy. cbn [symbols]. apply in_flat_map. exists p. split; assumption.
      + right. exists z. rewrite E. repeat split; [exact Hz].
    - destruct (meaning_monomial t Ht Hs) as [G M]. apply good_neg; assumption.
    - destruct (meaning_monomial b Hb Hs) as [G M]. cbn [tree_degree meaning]. apply good_pow; assumption.
  Qed.
End Good.

Lemma flat_map_filter : forall (A : Type) (g : stmt -> list A) p, (forall st, declares_variables st = false -> g st = []) ->
  flat_map g p = flat_map g (filter declares_variables p).
Proof.
  intros A g p H. induction p as [|st p IH]; [reflexivity|]. cbn [flat_map filter]. destruct (declares_variables st) eqn:E; [cbn [flat_map]; rewrite IH; reflexivity|].
  rewrite (H st E), IH. reflexivity.
Qed.

Lemma scoped_nodup : forall p known gs st, scoped known gs p -> In st p -> NoDup (declares st).
Proof.
  induction p as [|st0 p IH]; intros known gs st H Hi; [destruct Hi|]. destruct H as (N & _ & _ & H). destruct Hi as [<-|Hi]; [exact N|exact (IH _ _ _ H Hi)].
Qed.

Lemma group_nodup : forall p, scoped initial_names [] p -> one_group p -> NoDup (variable_names p).
Proof.
  intros p H G. apply (scoped_nodup p _ _ (SGroup (variable_names p)) H). apply (filter_In declares_variables). unfold one_group in G. rewrite G. left. reflexivity.
Qed.

Lemma nodup_place : forall (place : text -> nat) vs, NoDup vs -> (forall v w, In v vs -> In w vs -> place v = place w -> v = w) -> NoDup (map place vs).
Proof.
  intros place vs H. induction H as [|v vs N H IH]; intro Inj; cbn; constructor.
  - intro Hi. apply in_map_iff in Hi. destruct Hi as (w & E & Hw). apply N. rewrite (Inj v w); [exact Hw|left; reflexivity|right; exact Hw|symmetry; exact E].
  - apply IH. intros a b Ha Hb. apply Inj; right; assumption.
Qed.

Section Text.
  Context {F : fld}.
  Variable fs : funs F.
  Hypothesis Hint : forall n, (0 < n)%Z -> as_int fs (fZ n) = Some n.
  Hypothesis Hfs : funs_ok fs.
  Hypothesis Hchar : forall z, z <> 0%Z -> fZ z <> f0 :> F.
  Variable rho0 : env F.
  Variable flt special : text -> F.
  Variable place : text -> nat.
  Variable p : list stmt.
  Variable y : sys.
  Hypothesis Hd : describes p y.
  Hypothesis Hs : scoped initial_names [] p.
  Variable rank : text -> nat.
  Hypothesis Ho : ordered rank p.
  Hypothesis Hp : polynomial_text p.
  Variable d : text -> nat.
  Hypothesis Hdeg : degrees_of_text p d.
  Let vs := variable_names p.
  Let V := map place vs.
  Hypothesis HV : NoDup V.
  Let nodeF := node flt special place.
  Let goodF := good fs rho0 V.

  Lemma special_good : forall n s, In s initial_names -> exists e, nodeF n y s = Some e /\ goodF e (d s) /\ monomial V (flat fs e).
  Proof.
    intros n s H. unfold nodeF. rewrite node_special by exact H. eexists. split; [reflexivity|]. split; [|apply num_monomial].
    rewrite (proj1 Hdeg s H). apply good_num.
  Qed.

  Lemma variable_good : forall n s, In s vs -> exists e, nodeF n y s = Some e /\ goodF e (d s) /\ monomial V (flat fs e).
  Proof.
    intros n s H. unfold nodeF. rewrite (node_variable flt special place p y Hd Hs) by exact H. eexists. split; [reflexivity|]. split; [|apply mo_var].
    rewrite (proj1 (proj2 Hdeg) s H). constructor.
    - constructor.
    - constructor.
    - constructor.
    - intros v Hv. inversion Hv; subst. apply in_map. exact H.
    - intro rho. eexists. reflexivity.
    - cbn [flat gdegree]. replace (existsb (Nat.eqb (place s)) V) with true; [reflexivity|]. symmetry. apply existsb_exists. exists (place s).
      split; [apply in_map; exact H|apply Nat.eqb_refl].
  Qed.

  Lemma node_good : forall n f t e, last_definition p f t -> nodeF n y f = Some e -> goodF e (d f).
  Proof.
    unfold nodeF. induction n as [|n IH]; intros f t e H E.
    - destruct (defined_nodes p y Hd Hs _ _ (last_in p _ _ H)) as [A B]. cbn [node] in E. destruct (in_dec text_dec f initial_names); [contradiction|].
      destruct (in_dec text_dec f (function_nodes y)); [discriminate E|contradiction].
    - rewrite (node_defined flt special place p y Hd Hs n f t H) in E. unfold tree_expr in E.
      destruct (forallb (fun s => is_some (node flt special place n y s)) (symbols t)) eqn:A; [|discriminate E]. injection E as <-.
      rewrite (proj2 (proj2 Hdeg) f t H).
      assert (G : goodF (meaning (fun s => match node flt special place n y s with Some e => e | None => Num KInteger f0 end) flt t) (tree_degree d t)).
      { apply (meaning_good fs Hint Hfs Hchar rho0 V HV flt _ d vs t (Hp f t H)).
        - intros s K. apply in_app_iff in K. destruct K as [K|K]; [destruct (special_good n s K) as (e & Ee & G1 & G2)|destruct (variable_good n s K) as (e & Ee & G1 & G2)];
            unfold nodeF in Ee; rewrite Ee; split; assumption.
        - intros s K. rewrite forallb_forall in A. specialize (A s K). destruct (node flt special place n y s) as [x|] eqn:G; [|discriminate A].
          destruct (Ho f t s H K) as [J|(_ & u & Hu)].
          + apply in_app_iff in J. destruct J as [J|J]; [destruct (special_good n s J) as (e & Ee & G1 & _)|destruct (variable_good n s J) as (e & Ee & G1 & _)];
              unfold nodeF in Ee; rewrite G in Ee; injection Ee as <-; exact G1.
          + exact (IH s u x Hu G). }
      destruct G as [P E M C D G]. constructor; cbn [flat]; try (constructor; assumption).
      + intros v Hv. inversion Hv. auto.
      + exact D.
      + exact G.
  Qed.

  Lemma nodes_good : forall n l es, (forall f, In f l -> exists t, last_definition p f t) -> nodes (nodeF n y) l = Some es ->
    Forall2 (fun f e => goodF e (d f)) l es.
  Proof.
    intros n. induction l as [|f l IH]; intros es Hl E; cbn [nodes] in E; [injection E as <-; constructor|].
    destruct (nodeF n y f) as [e|] eqn:Ef; [|discriminate]. destruct (nodes (nodeF n y) l) as [es'|]; [|discriminate]. injection E as <-. constructor.
    - destruct (Hl f (or_introl eq_refl)) as [t Ht]. exact (node_good n f t e Ht Ef).
    - apply IH; [|reflexivity]. intros g Hg. apply Hl. right. exact Hg.
  Qed.
End Text.

Lemma obeys_ext : forall (F : fld) (fs : funs F) flt special p (a b : text -> F) v, (forall s, In s (variable_names p) -> a s = b s) ->
  obeys fs flt special a p v -> obeys fs flt special b p v.
Proof.
  intros F fs flt special p a b v H (O1 & O2 & O3). split; [exact O1|]. split; [|exact O3]. intros s Hs. rewrite <- (H s Hs). apply O2, Hs.
Qed.

Lemma assign_coordinate : forall rho (place : text -> nat) vs x s, length x = length vs ->
  (forall v w, In v vs -> In w vs -> place v = place w -> v = w) -> In s vs ->
  assign rho (map place vs) x (place s) = coordinate vs x s.
Proof.
  intros rho place. induction vs as [|v vs IH]; intros [|a x] s L Inj Hi; try discriminate; [destruct Hi|]. cbn [map assign coordinate]. unfold upd.
  destruct (text_dec s v) as [->|N].
  - destruct (Nat.eq_dec (place v) (place v)); [reflexivity|contradiction].
  - destruct (Nat.eq_dec (place s) (place v)) as [E|_].
    + elim N. apply Inj; [exact Hi|left; reflexivity|exact E].
    + apply IH; [injection L as L; exact L| |destruct Hi; [congruence|assumption]]. intros a' b' Ha Hb. apply Inj; right; assumption.
Qed.

(** *** the complex numbers *)
Lemma fnat_CF : forall n, fnat n = ((INR n, 0%R) : Complex.C) :> CF.
Proof.
  induction n as [|n IH]; [reflexivity|]. cbn [fnat]. rewrite IH. change (Complex.Cplus (1%R, 0%R) (INR n, 0%R) = (INR (S n), 0%R)). unfold Complex.Cplus. cbn [fst snd].
  rewrite S_INR. f_equal; lra.
Qed.
Lemma fZ_CF : forall z, fZ z = ((IZR z, 0%R) : Complex.C) :> CF.
Proof.
  intros [|n|n]; [reflexivity| |]; cbn [fZ]; rewrite fnat_CF.
  - rewrite INR_IPR. reflexivity.
  - change (Complex.Copp (INR (Pos.to_nat n), 0%R) = (IZR (Z.neg n), 0%R)). unfold Complex.Copp. cbn [fst snd]. rewrite INR_IPR. unfold IZR. f_equal. lra.
Qed.
Lemma CF_char : forall z, z <> 0%Z -> fZ z <> f0 :> CF.
Proof. intros z H E. rewrite fZ_CF in E. apply H. apply eq_IZR. exact (f_equal (fun c : Complex.C => fst c) E). Qed.

Section Final.
  Variable fs : funs CF.
  Hypothesis Hfs : funs_ok fs.
  Hypothesis Hint : forall n, (0 < n)%Z -> as_int fs (fZ n) = Some n.
  Variable rho : env CF.
  Variable flt special : text -> CF.
  Variable place : text -> nat.
  Variable fresh : nat -> nat.
  Variable num : text -> option Z.
  Variable p : list stmt.
  Variable s : text.
  Variable d : text -> nat.
  Hypothesis H : square_text num p s d.
  Let vs := variable_names p.
  Let V := map place vs.
  Hypothesis Pl : places place fresh vs.

  Lemma text_scoped : scoped initial_names [] p.
  Proof. exact (program_scoped _ _ _ _ _ (st_program _ _ _ _ H)). Qed.

  Lemma text_describes : forall y, parse_system num s = Accepted y -> describes p y.
  Proof.
    intros y E. destruct (parse_program num p s (st_program _ _ _ _ H)) as (y' & E' & Hd). rewrite E in E'. injection E' as <-. exact Hd.
  Qed.

  Lemma text_nodup : NoDup V.
  Proof. apply nodup_place; [apply group_nodup; [exact text_scoped|exact (st_group _ _ _ _ H)]|exact (proj1 Pl)]. Qed.

  Lemma text_target : exists y n t, parse_system num s = Accepted y /\ forall m, n <= m -> target_of flt special place m y = Some t.
  Proof.
    destruct (parse_program num p s (st_program _ _ _ _ H)) as (y & E & Hd).
    destruct (text_values fs flt special place p y Hd text_scoped _ (straight_ordered p (st_straight _ _ _ _ H)) (st_defined _ _ _ _ H)) as (n & es & A & _).
    exists y, n. eexists. split; [exact E|]. intros m L. unfold target_of. rewrite (A m L). reflexivity.
  Qed.

  Variable y : sys.
  Variable n : nat.
  Variable t : psys CF.
  Hypothesis Hy : parse_system num s = Accepted y.
  Hypothesis Ht : target_of flt special place n y = Some t.

  Lemma target_parts : nodes (node flt special place n y) (function_names p) = Some (fns t) /\ HomogSys.groups t = [V] /\ HomogSys.hom_groups t = [] /\ HomogSys.ungrouped t = [] /\ hom_vars t = [].
  Proof.
    pose proof (text_describes y Hy) as Hd. pose proof (st_group _ _ _ _ H) as G. unfold one_group in G. unfold target_of, functions_of in Ht.
    rewrite (functions_eq p y Hd) in Ht. destruct (nodes _ (function_names p)) as [es|]; [|discriminate]. injection Ht as <-. cbn [fns HomogSys.groups HomogSys.hom_groups HomogSys.ungrouped hom_vars].
    destruct Hd as (E1 & E2 & E3 & _). rewrite E1, E2, E3.
    rewrite !(flat_map_filter _ _ p) by (intros []; try reflexivity; discriminate). rewrite G. repeat split.
  Qed.

  Lemma target_good : Forall2 (fun f e => good fs rho V e (d f)) (function_names p) (fns t).
  Proof.
    apply (nodes_good fs Hint Hfs CF_char rho flt special place p y (text_describes y Hy) text_scoped _ (straight_ordered p (st_straight _ _ _ _ H))
      (st_polynomial _ _ _ _ H) d (st_degrees _ _ _ _ H) text_nodup n); [exact (st_defined _ _ _ _ H)|]. apply target_parts.
  Qed.

  Lemma target_each : forall e, In e (fns t) -> exists f, In f (function_names p) /\ good fs rho V e (d f).
  Proof.
    intros e Hi. pose proof target_good as G. induction G as [|f e0 l l' Hg G IH]; [destruct Hi|]. destruct Hi as [<-|Hi].
    - exists f. split; [left; reflexivity|exact Hg].
    - destruct (IH Hi) as (g & Hg' & G'). exists g. split; [right; exact Hg'|exact G'].
  Qed.

  Lemma target_degrees : map (gdegree fs rho V) (map (flat fs) (fns t)) = map (fun f => Z.of_nat (d f)) (function_names p).
  Proof. pose proof target_good as G. induction G as [|f e l l' Hg G IH]; [reflexivity|]. cbn [map]. rewrite IH, (g_degree _ _ _ _ _ Hg). reflexivity. Qed.

  Lemma two_length : forall (A B : Type) (R : A -> B -> Prop) l l', Forall2 R l l' -> length l = length l'.
  Proof. intros A B R l l' G. induction G; cbn; congruence. Qed.

  Lemma text_ready : SolveSetup.ready fs rho fresh (flat_sys fs t) V /\ (forall f, In f (fns (flat_sys fs t)) -> expanded V f).
  Proof.
    destruct target_parts as (_ & Eg & Eh & Eu & Ev). destruct Pl as (_ & Finj & Fnew). pose proof target_each as Each.
    assert (Unk : unknowns (flat_sys fs t) = V) by (unfold unknowns; cbn [HomogSys.groups HomogSys.hom_groups HomogSys.ungrouped flat_sys]; rewrite Eg, Eh, Eu; cbn; rewrite !app_nil_r; reflexivity).
    split.
    - split; [split; [exact Ev|]; split; [|split; [exact Finj|]; split]|].
      + cbn [HomogSys.groups HomogSys.hom_groups flat_sys]. rewrite Eg, Eh. intros g [[<-|[]]|[]]. exact text_nodup.
      + intro k. rewrite Unk. assert (N : ~ In (fresh k) V) by (intro J; apply in_map_iff in J; destruct J as (v & E & Hv); apply (Fnew k v Hv); symmetry; exact E).
        split; [exact N|]. intros f Hi Ho. apply in_map_iff in Hi. destruct Hi as (e & <- & Hi). destruct (Each e Hi) as (g & _ & G). apply N.
        apply (g_closed _ _ _ _ _ G). apply (occurs_flat fs). exact Ho.
      + intros f Hi. apply in_map_iff in Hi. destruct Hi as (e & <- & Hi). destruct (Each e Hi) as (g & _ & G). rewrite Unk. split; [exact (g_pure _ _ _ _ _ G)|].
        cbn [HomogSys.groups HomogSys.hom_groups flat_sys]. rewrite Eg, Eh. split; [|intros g' []]. intros g' [<-|[]]. exact (g_modest _ _ _ _ _ G).
      + split; [exact Eg|]. split; [unfold V, vs; intro E; apply (st_some _ _ _ _ H); destruct (variable_names p); [reflexivity|discriminate]|].
        split; [exact Eh|]. split; [exact Eu|]. split; [|split].
        * cbn [fns flat_sys]. rewrite map_length. rewrite <- (two_length _ _ _ _ _ target_good), (st_square _ _ _ _ H). unfold V, vs. rewrite map_length. reflexivity.
        * intros f Hi. apply in_map_iff in Hi. destruct Hi as (e & <- & Hi). destruct (Each e Hi) as (g & Hg & G). split; [|split].
          -- intros v Hv. apply (g_closed _ _ _ _ _ G). apply (occurs_flat fs). exact Hv.
          -- rewrite (g_degree _ _ _ _ _ G). pose proof (st_positive _ _ _ _ H g Hg). lia.
          -- intro point. rewrite eval_flat by exact Hfs. apply (g_defined _ _ _ _ _ G).
        * cbn [fns flat_sys]. rewrite target_degrees. exact (st_number _ _ _ _ H).
    - intros f Hi. apply in_map_iff in Hi. destruct Hi as (e & <- & Hi). destruct (Each e Hi) as (g & _ & G). exact (g_expanded _ _ _ _ _ G).
  Qed.

  (** the solutions of the target are those of the text *)
  Lemma text_solutions : forall a, length a = length vs -> (solves fs rho (fns t) V a <-> solves_text fs flt special p a).
  Proof.
    intros a La. pose proof (text_describes y Hy) as Hd.
    set (v := execute fs flt (initially special (coordinate vs a) p) p).
    assert (O : obeys fs flt special (fun x => assign rho V a (place x)) p v).
    { apply (obeys_ext CF fs flt special p (coordinate vs a)); [|apply (execute_obeys fs flt special place); [exact text_scoped|exact (st_straight _ _ _ _ H)]].
      intros x Hx. symmetry. apply assign_coordinate; [exact La|exact (proj1 Pl)|exact Hx]. }
    pose proof (nodes_value fs flt special place p y Hd text_scoped _ (straight_ordered p (st_straight _ _ _ _ H)) (assign rho V a) v n (function_names p) (fns t) O
      (st_defined _ _ _ _ H) (proj1 target_parts)) as E.
    unfold solves, solves_text. fold vs. fold v. rewrite Forall_forall. split.
    - intros A f Hf. assert (Hi : In (v f) (map v (function_names p))) by (apply in_map, Hf). rewrite <- E in Hi. apply in_map_iff in Hi.
      destruct Hi as (e & <- & Hi). apply A, Hi.
    - intros A e Hi. assert (Hi' : In (eval fs (assign rho V a) e) (map (eval fs (assign rho V a)) (fns t))) by (apply in_map, Hi). rewrite E in Hi'.
      apply in_map_iff in Hi'. destruct Hi' as (f & <- & Hf). apply A, Hf.
  Qed.

  Variable draw : nat -> nat -> CF.
  Variable rand : nat -> CF.
  Variable g : CF.

  Lemma text_setup : exists z, system_setup fs rho fresh draw rand g t = Value z.
  Proof.
    destruct text_ready as [R E]. destruct (setup_works fs rho fresh draw rand g _ _ R E) as [z' Ez]. rewrite (setup_flat_ready fs rho _ _ _ _ _ _ R) in Ez.
    destruct (system_setup fs rho fresh draw rand g t) as [z| |]; try discriminate. exists z. reflexivity.
  Qed.

  Variable z : set_up.
  Hypothesis Hz : system_setup fs rho fresh draw rand g t = Value z.

  Lemma text_good : good_setup fs rho (flat_sys fs t) V (fresh O) (map (draw O) (seq 0 (S (length V)))) (map rand (seq 0 (length V))) g (flat_setup fs z).
  Proof.
    destruct text_ready as [R _]. apply (setup_good fs rho fresh draw rand g _ _ _ R). rewrite (setup_flat_ready fs rho _ _ _ _ _ _ R), Hz. reflexivity.
  Qed.

  Lemma text_ends : forall h xs, h <> f0 -> length xs = length vs ->
    (zero_of fs rho z (h :: xs) f0 <-> solves_text fs flt special p (map (fun a => fdiv a h) xs)).
  Proof.
    intros h xs Hh Lx. rewrite <- (zero_flat fs Hfs). rewrite (good_ends _ _ _ _ _ _ _ _ _ text_good h xs Hh) by (unfold V; rewrite map_length; exact Lx).
    cbn [fns flat_sys]. rewrite (solves_flat fs Hfs). apply text_solutions. rewrite map_length. exact Lx.
  Qed.

  Lemma text_number : num_start_points (degrees (SolveSetup.start z)) = fold_right Z.mul 1%Z (map (fun f => Z.of_nat (d f)) (function_names p)).
  Proof.
    change (SolveSetup.start z) with (SolveSetup.start (flat_setup fs z)). rewrite (good_number _ _ _ _ _ _ _ _ _ text_good). cbn [fns flat_sys]. rewrite target_degrees. reflexivity.
  Qed.

  Lemma text_starts : forall i x, (0 <= i < num_start_points (degrees (SolveSetup.start z)))%Z -> start_point (SolveSetup.start z) i = Value x ->
    length x = S (length vs) /\ on_patch [map (draw O) (seq 0 (S (length vs)))] x /\ zero_of fs rho z x f1.
  Proof.
    intros i x Hi Hx. change (SolveSetup.start z) with (SolveSetup.start (flat_setup fs z)) in *. rewrite (good_number _ _ _ _ _ _ _ _ _ text_good) in Hi.
    destruct (good_starts _ _ _ _ _ _ _ _ _ text_good i x Hi Hx) as (A & B & C). unfold V in A, B. rewrite map_length in A, B.
    split; [exact A|]. split; [exact B|]. apply (zero_flat fs Hfs). exact C.
  Qed.

  Lemma text_all_starts : g <> f0 -> (forall k, rand k <> f0) -> forall x, length x = S (length vs) -> on_patch [map (draw O) (seq 0 (S (length vs)))] x ->
    zero_of fs rho z x f1 -> exists! i, (0 <= i < num_start_points (degrees (SolveSetup.start z)))%Z /\ start_point (SolveSetup.start z) i = Value x.
  Proof.
    intros Hg Hr x Lx Ox Zx. assert (LV : length V = length vs) by (unfold V; apply map_length). rewrite <- LV in Lx, Ox.
    apply (zero_flat fs Hfs) in Zx. change (SolveSetup.start z) with (SolveSetup.start (flat_setup fs z)) in *. rewrite (good_number _ _ _ _ _ _ _ _ _ text_good).
    destruct (good_complete _ _ _ _ _ _ _ _ _ text_good Hg x Lx Ox Zx) as [i [Hi Ei]]. exists i. split; [split; [exact Hi|exact Ei]|].
    intros j [Hj Ej]. apply (good_distinct _ _ _ _ _ _ _ _ _ text_good) with (x := x); try assumption.
    apply Forall_forall. intros r Hi'. apply in_map_iff in Hi'. destruct Hi' as [k [<- _]]. apply Hr.
  Qed.

  Lemma text_every_solution : forall a, length a = length vs -> solves_text fs flt special p a ->
    inner (map (draw O) (seq 0 (S (length vs)))) (f1 :: a) <> f0 ->
    exists! x, length x = S (length vs) /\ on_patch [map (draw O) (seq 0 (S (length vs)))] x /\ zero_of fs rho z x f0 /\
      exists h xs, x = h :: xs /\ h <> f0 /\ map (fun u => fdiv u h) xs = a.
  Proof.
    intros a La Ha Hc. assert (LV : length V = length vs) by (unfold V; apply map_length). rewrite <- LV in La, Hc |- *.
    apply text_solutions in Ha; [|lia]. apply (solves_flat fs Hfs) in Ha.
    destruct (good_reaches _ _ _ _ _ _ _ _ _ text_good a La Ha Hc) as (x & Lx & Ox & Zx & h & xs & Ex & Hh & Em).
    exists x. split; [split; [exact Lx|]; split; [exact Ox|]; split; [apply (zero_flat fs Hfs); exact Zx|]; exists h, xs; split; [exact Ex|]; split; [exact Hh|exact Em]|].
    intros x' (Ly & Oy & _ & k & ys & Ey & Hk & Ek). subst x x'. cbn [length] in Lx, Ly.
    apply (on_patch_unique _ _ _ _ _ _ _ _ _ text_good); try assumption; try lia. congruence.
  Qed.
End Final.
