(** Systems given as text all of whose functions have degree one: the trees the parser makes of them are linear (LinearTree.v). *)
From Coq Require Import String Ascii List Arith Lia Bool ZArith.
From Verif Require Import Base Poly Chars NumLit Expr Diff Degree Homog HomogSys Patch ComplexField StartIndex DegreeAll TotalDegree SolveSetup PowNode
  Parser ParserSpec Names SysParser SysParserSpec SysParserProof SysValue TextSolve LinearTree.
Import ListNotations.
Local Open Scope nat_scope.

(** ** Specification *)

(** the definition contains a power *)
Fixpoint has_power (t : tree) : bool :=
  match t with
  | TInt _ | TFloat _ | TRat _ _ | TSym _ => false
  | TSum ops | TMul ops => existsb (fun q => has_power (snd q)) ops
  | TNeg t | TFun _ t => has_power t
  | TIPow _ _ | TPow _ _ => true
  end.

(** every function has degree one, and the text is written without powers *)
Definition linear_text (p : list stmt) (d : text -> nat) : Prop :=
  (forall f, In f (function_names p) -> d f = 1) /\ (forall f t, last_definition p f t -> has_power t = false).

(** ** Proofs *)

Section Trees.
  Context {F : fld}.
  Variable V : list nat.
  Variable flt : text -> F.
  Variable sym : text -> expr F.
  Variable d : text -> nat.
  Variable vs : list text.

  Lemma monomial_polynomial : forall t, monomial_tree vs t -> polynomial_tree vs t.
  Proof.
    induction t as [z|s|n q|s|ops IH|ops IH|t IH|t n IH|b e IHb IHe|k t IH] using tree_rect'; intro H; inversion H as [| | |? Hi|? Hf|? Ht|? ? Hb Ln]; subst; try constructor; try assumption.
    rewrite Forall_forall in *. intros q Hq. destruct (Hf q Hq) as [[E M]|Z]; [left; split; [exact E|apply IH; assumption]|right; exact Z].
  Qed.

  Lemma coefficient_num : forall k c, coefficient V (Num k c : expr F).
  Proof. intros k c. split; [constructor|]. intros v _ Hx. inversion Hx. Qed.

  Lemma no_power_in : forall ops q, existsb (fun q : bool * tree => has_power (snd q)) ops = false -> In q ops -> has_power (snd q) = false.
  Proof.
    intros ops q H Hq. destruct (has_power (snd q)) eqn:E; [|reflexivity]. rewrite <- H. symmetry. apply existsb_exists. exists q. split; assumption.
  Qed.

  Lemma max_le : forall (ops : list (bool * tree)) q n, fold_right (fun p n => Nat.max (tree_degree d (snd p)) n) 0 ops <= n -> In q ops -> tree_degree d (snd q) <= n.
  Proof. induction ops as [|a ops IH]; intros q n H Hq; [destruct Hq|]. cbn in H. destruct Hq as [<-|Hq]; [lia|apply IH; [lia|exact Hq]]. Qed.
  Lemma add_le : forall (ops : list (bool * tree)) q n, fold_right (fun p n => tree_degree d (snd p) + n) 0 ops <= n -> In q ops -> tree_degree d (snd q) <= n.
  Proof. induction ops as [|a ops IH]; intros q n H Hq; [destruct Hq|]. cbn in H. destruct Hq as [<-|Hq]; [lia|apply IH; [lia|exact Hq]]. Qed.

  Lemma meaning_coefficient : forall t, polynomial_tree vs t -> has_power t = false ->
    (forall s, In s (symbols t) -> d s = 0 -> coefficient V (sym s)) -> tree_degree d t = 0 -> coefficient V (meaning sym flt t).
  Proof.
    induction t as [z|s|n q|s|ops IH|ops IH|t IH|t n IH|b e IHb IHe|k t IH] using tree_rect'; intros H Np Hs D;
      inversion H as [| | | |? Hf|? Hf|? Ht|? ? Hb Ln]; subst; cbn [meaning tree_degree has_power symbols] in *; try apply coefficient_num; try discriminate.
    - apply Hs; [left; reflexivity|exact D].
    - rewrite Forall_forall in *. assert (A : forall q, In q ops -> coefficient V (meaning sym flt (snd q))).
      { intros q Hq. apply IH; [exact Hq|apply Hf; exact Hq|exact (no_power_in _ _ Np Hq)| |].
        - intros s Hi. apply Hs. apply in_flat_map. exists q. split; assumption.
        - assert (tree_degree d (snd q) <= 0) by (apply (max_le ops); [lia|exact Hq]). lia. }
      split.
      + constructor. intros s e Hi. apply in_map_iff in Hi. destruct Hi as (q & E & Hq). injection E as <- <-. apply A. exact Hq.
      + intros v Hv Hx. inversion Hx as [|? s e Hi Ho| | | | | | |]; subst. apply in_map_iff in Hi. destruct Hi as (q & E & Hq). injection E as <- <-. exact (proj2 (A q Hq) v Hv Ho).
    - rewrite Forall_forall in *. assert (A : forall q, In q ops -> coefficient V (meaning sym flt (snd q))).
      { intros q Hq. destruct (Hf q Hq) as [[E M]|(z & E & Hz)]; [|rewrite E; apply coefficient_num].
        apply IH; [exact Hq|exact M|exact (no_power_in _ _ Np Hq)| |].
        - intros s Hi. apply Hs. apply in_flat_map. exists q. split; assumption.
        - assert (tree_degree d (snd q) <= 0) by (apply (add_le ops); [lia|exact Hq]). lia. }
      split.
      + constructor. intros s e Hi. apply in_map_iff in Hi. destruct Hi as (q & E & Hq). injection E as <- <-. apply A. exact Hq.
      + intros v Hv Hx. inversion Hx as [| |? s e Hi Ho| | | | | |]; subst. apply in_map_iff in Hi. destruct Hi as (q & E & Hq). injection E as <- <-. exact (proj2 (A q Hq) v Hv Ho).
    - destruct (IH (monomial_polynomial t Ht) Np Hs D) as [A B]. split; [constructor; exact A|]. intros v Hv Hx. inversion Hx; subst. exact (B v Hv ltac:(assumption)).
  Qed.

  (** a product of degree one has one factor of degree one *)
  Lemma one_factor : forall ops : list (bool * tree), fold_right (fun p n => tree_degree d (snd p) + n) 0 ops = 1 ->
    exists pre q post, ops = pre ++ q :: post /\ tree_degree d (snd q) = 1 /\ (forall r, In r pre \/ In r post -> tree_degree d (snd r) = 0).
  Proof.
    induction ops as [|a ops IH]; intro H; cbn in H; [discriminate|]. destruct (tree_degree d (snd a)) as [|n] eqn:E.
    - destruct (IH H) as (pre & q & post & Eq & D & Z). exists (a :: pre), q, post. split; [rewrite Eq; reflexivity|]. split; [exact D|].
      intros r [[<-|Hr]|Hr]; [exact E|apply Z; left; exact Hr|apply Z; right; exact Hr].
    - exists [], a, ops. split; [reflexivity|]. split; [lia|]. intros r [[]|Hr]. assert (tree_degree d (snd r) <= 0) by (apply (add_le ops); [lia|exact Hr]). lia.
  Qed.

  Lemma meaning_linear : forall t, polynomial_tree vs t -> has_power t = false ->
    (forall s, In s (symbols t) -> d s = 0 -> coefficient V (sym s)) -> (forall s, In s (symbols t) -> d s <= 1 -> linear V (sym s)) ->
    tree_degree d t <= 1 -> linear V (meaning sym flt t).
  Proof.
    induction t as [z|s|n q|s|ops IH|ops IH|t IH|t n IH|b e IHb IHe|k t IH] using tree_rect'; intros H Np Hc Hs D;
      inversion H as [| | | |? Hf|? Hf|? Ht|? ? Hb Ln]; subst; cbn [meaning tree_degree has_power symbols] in *; try discriminate;
      try (apply li_coefficient, coefficient_num).
    - apply Hs; [left; reflexivity|exact D].
    - apply li_sum. apply Forall_map. rewrite Forall_forall in *. intros q Hq. cbn [snd].
      apply IH; [exact Hq|apply Hf; exact Hq|exact (no_power_in _ _ Np Hq)| | |apply (max_le ops); [exact D|exact Hq]];
        intros s Hi; [apply Hc|apply Hs]; apply in_flat_map; exists q; split; assumption.
    - rewrite Forall_forall in *.
      assert (A : forall q, In q ops -> tree_degree d (snd q) = 0 -> coefficient V (meaning sym flt (snd q))).
      { intros q Hq Z. destruct (Hf q Hq) as [[E M]|(z & E & Hz)]; [|rewrite E; apply coefficient_num].
        apply meaning_coefficient; [exact M|exact (no_power_in _ _ Np Hq)| |exact Z].
        intros s Hi. apply Hc. apply in_flat_map. exists q. split; assumption. }
      destruct (fold_right (fun p n => tree_degree d (snd p) + n) 0 ops) as [|[|k]] eqn:Dg; [| |lia].
      + apply li_coefficient. apply (meaning_coefficient (TMul ops)); [exact H|exact Np|exact Hc|exact Dg].
      + destruct (one_factor ops Dg) as (pre & q & post & Eq & Dq & Z).
        assert (Hq : In q ops) by (rewrite Eq; apply in_app_iff; right; left; reflexivity).
        assert (Fq : fst q = true /\ polynomial_tree vs (snd q)).
        { destruct (Hf q Hq) as [M|(z & E & Hz)]; [exact M|]. rewrite E in Dq. discriminate Dq. }
        destruct q as [s u]. cbn [fst snd] in Fq, Dq. destruct Fq as [-> M].
        rewrite Eq, map_app. cbn [map fst snd]. apply li_mul.
        * apply Forall_map, Forall_forall. intros r Hr. cbn [snd]. apply A; [rewrite Eq; apply in_app_iff; left; exact Hr|apply Z; left; exact Hr].
        * specialize (IH _ Hq). cbn [snd] in IH. apply IH; [exact M|exact (no_power_in _ _ Np Hq)| | |lia];
            intros x Hi; [apply Hc|apply Hs]; apply in_flat_map; exists (true, u); split; assumption.
        * apply Forall_map, Forall_forall. intros r Hr. cbn [snd]. apply A; [rewrite Eq; apply in_app_iff; right; right; exact Hr|apply Z; right; exact Hr].
    - apply li_neg. apply IH; [exact (monomial_polynomial t Ht)|exact Np|exact Hc|exact Hs|exact D].
  Qed.

  Lemma flat_arith : forall (fs : funs F) e, arith e -> flat fs e = e.
  Proof.
    intros fs e H. induction H as [k c|x|ops Ho IH|ops Ho IH|e He IH|e n He IH|e He IH]; cbn [flat]; try reflexivity; try (rewrite IH; reflexivity).
    - f_equal. clear Ho. induction ops as [|[s a] ops IHl]; [reflexivity|]. cbn [map fst snd]. rewrite (IH s a (or_introl eq_refl)). f_equal. apply IHl. intros s' e' Hi. apply (IH s' e'). right. exact Hi.
    - f_equal. clear Ho. induction ops as [|[s a] ops IHl]; [reflexivity|]. cbn [map fst snd]. rewrite (IH s a (or_introl eq_refl)). f_equal. apply IHl. intros s' e' Hi. apply (IH s' e'). right. exact Hi.
  Qed.
End Trees.

Section Text.
  Context {F : fld}.
  Variable flt special : text -> F.
  Variable place : text -> nat.
  Variable p : list stmt.
  Variable y : sys.
  Hypothesis Hd : describes p y.
  Hypothesis Hs : scoped initial_names [] p.
  Variable rank : text -> nat.
  Hypothesis Ho : ordered rank p.
  Hypothesis Hp : polynomial_text p.
  Variable d : text -> nat.
  Hypothesis Hdeg : degrees_of_text p d.
  Hypothesis Hn : forall f t, last_definition p f t -> has_power t = false.
  Let vs := variable_names p.
  Let V := map place vs.

  Lemma node_linear : forall n f t e, last_definition p f t -> node flt special place n y f = Some e ->
    (d f <= 1 -> linear V e) /\ (d f = 0 -> coefficient V e).
  Proof.
    induction n as [|n IH]; intros f t e H E.
    - destruct (defined_nodes p y Hd Hs _ _ (last_in p _ _ H)) as [A B]. cbn [node] in E. destruct (in_dec text_dec f initial_names); [contradiction|].
      destruct (in_dec text_dec f (function_nodes y)); [discriminate E|contradiction].
    - rewrite (node_defined flt special place p y Hd Hs n f t H) in E. unfold tree_expr in E.
      destruct (forallb (fun s => is_some (node flt special place n y s)) (symbols t)) eqn:A; [|discriminate E]. injection E as <-.
      rewrite (proj2 (proj2 Hdeg) f t H).
      set (sy := fun s => match node flt special place n y s with Some e => e | None => Num KInteger f0 end).
      assert (S : forall s, In s (symbols t) -> (d s <= 1 -> linear V (sy s)) /\ (d s = 0 -> coefficient V (sy s))).
      { intros s K. unfold sy. destruct (Ho f t s H K) as [J|(_ & u & Hu)].
        - apply in_app_iff in J. destruct J as [J|J].
          + rewrite node_special by exact J. split; intros _; [apply li_coefficient|]; apply coefficient_num.
          + rewrite (node_variable flt special place p y Hd Hs) by exact J. split; [intros _; apply li_var|]. rewrite (proj1 (proj2 Hdeg) s J). discriminate.
        - rewrite forallb_forall in A. specialize (A s K). destruct (node flt special place n y s) as [x|] eqn:G; [|discriminate A]. exact (IH s u x Hu G). }
      split; intro D.
      + apply li_handle. apply (meaning_linear V flt sy d vs t (Hp f t H) (Hn f t H)); [intros s K; apply S; exact K|intros s K; apply S; exact K|exact D].
      + destruct (meaning_coefficient V flt sy d vs t (Hp f t H) (Hn f t H)) as [B C]; [intros s K; apply S; exact K|exact D|].
        split; [constructor; exact B|]. intros v Hv Hx. inversion Hx; subst. exact (C v Hv ltac:(assumption)).
  Qed.

  Lemma nodes_linear : forall n l es, (forall f, In f l -> d f = 1 /\ exists t, last_definition p f t) -> nodes (node flt special place n y) l = Some es -> Forall (linear V) es.
  Proof.
    intros n. induction l as [|f l IH]; intros es Hl E; cbn [nodes] in E; [injection E as <-; constructor|].
    destruct (node flt special place n y f) as [e|] eqn:Ef; [|discriminate]. destruct (nodes (node flt special place n y) l) as [es'|]; [|discriminate]. injection E as <-. constructor.
    - destruct (Hl f (or_introl eq_refl)) as [D [t Ht]]. apply (node_linear n f t e Ht Ef). lia.
    - apply IH; [|reflexivity]. intros g Hg. apply Hl. right. exact Hg.
  Qed.
End Text.

Lemma linear_arith : forall (F : fld) V (e : expr F), linear V e -> arith e.
Proof.
  intros F V e H. pattern e. revert e H. apply (linear_ind' V).
  - intros e [A _]. exact A.
  - constructor.
  - intros ops _ H. constructor. intros s e Hi. rewrite Forall_forall in H. exact (H _ Hi).
  - intros pre e post Hp _ He Hq. rewrite Forall_forall in Hp, Hq. constructor. intros s a Hi. apply in_app_iff in Hi. destruct Hi as [Hi|[E|Hi]].
    + exact (proj1 (Hp _ Hi)).
    + injection E as <- <-. exact He.
    + exact (proj1 (Hq _ Hi)).
  - intros e _ He. constructor. exact He.
  - intros e _ He. constructor. exact He.
  - intros e _ He. constructor. exact He.
Qed.

Lemma flat_linear : forall (F : fld) (fs : funs F) V es, Forall (linear V) es -> map (flat fs) es = es.
Proof. intros F fs V es H. induction H as [|e es He Hs IH]; [reflexivity|]. cbn [map]. rewrite (flat_arith fs e (linear_arith _ _ _ He)), IH. reflexivity. Qed.

Section Final.
  Variable fs : funs CF.
  Hypothesis Hfs : funs_ok fs.
  Hypothesis Hint : forall n, (0 < n)%Z -> as_int fs (fZ n) = Some n.
  Variable rho : env CF.
  Variable flt special : text -> CF.
  Variable place : text -> nat.
  Variable fresh : nat -> nat.
  Variable num : text -> option Z.
  Variable p : list stmt.
  Variable s : text.
  Variable d : text -> nat.
  Hypothesis H : square_text num p s d.
  Hypothesis Hl : linear_text p d.
  Hypothesis Pl : places place fresh (variable_names p).
  Variable y : sys.
  Variable n : nat.
  Variable t : psys CF.
  Hypothesis Hy : parse_system num s = Accepted y.
  Hypothesis Ht : target_of flt special place n y = Some t.

  Lemma text_linear : Forall (linear (map place (variable_names p))) (fns t).
  Proof.
    destruct (target_parts flt special place num p s d H y n t Hy Ht) as [E _].
    apply (nodes_linear flt special place p y (text_describes num p s d H y Hy) (text_scoped num p s d H) _ (straight_ordered p (st_straight _ _ _ _ H))
      (st_polynomial _ _ _ _ H) d (st_degrees _ _ _ _ H) (proj2 Hl) n (function_names p) (fns t)); [|exact E].
    intros f Hf. split; [exact (proj1 Hl f Hf)|]. exact (st_defined _ _ _ _ H f Hf).
  Qed.

  Lemma linear_text_ready : SolveSetup.ready fs rho fresh t (map place (variable_names p)).
  Proof.
    destruct (text_ready fs Hfs Hint rho flt special place fresh num p s d H Pl y n t Hy Ht) as [R _].
    assert (E : flat_sys fs t = t); [|rewrite E in R; exact R]. pose proof text_linear as L. destruct t as [es gr hg un hv]. unfold flat_sys. cbn [fns HomogSys.groups HomogSys.hom_groups HomogSys.ungrouped hom_vars] in *. f_equal.
    exact (flat_linear CF fs _ es L).
  Qed.
End Final.
