(** The values of the functions of a system given as text: the nodes the parser has made, followed from the functions to
    the variables.

    SysParser.v gives the system the parser builds from a text, nodes being represented by their names; here the
    nodes are put together.  Models core/src/function_tree/roots/function.cpp:51-82, 119-122 (the root set last is
    evaluated) over the nodes of core/include/bertini2/io/parsing/system_rules.hpp:111-133, 225-245. *)
From Coq Require Import String Ascii List Arith Lia Bool ZArith.
From Verif Require Import Base Chars NumLit Expr Parser ParserSpec Names SysParser SysParserSpec SysParserProof.
Import ListNotations.

Definition text_dec : forall a b : text, {a = b} + {a <> b} := list_eq_dec ascii_dec.

(** ** Model *)
Section Model.
  Context {F : fld}.
  Variable flt : text -> F.        (* the number a literal with a decimal point is converted to *)
  Variable special : text -> F.    (* the numbers pi, e and i, under their six names *)
  Variable place : text -> nat.    (* the variable of a name *)

  (** the names which are Function nodes: system_rules.hpp:195-211, 237-246; every other declared name is a Variable
      node (172-192) *)
  Definition function_nodes (y : sys) : list text := functions y ++ constants y ++ parameters y ++ subfunctions y.

  (** function.cpp:119-122: SetRoot replaces entry_node_; [None] is the null pointer *)
  Definition root (l : list (text * tree)) (f : text) : option tree :=
    fold_left (fun r p => if text_dec (fst p) f then Some (snd p) else r) l None.

  Definition is_some {A} (o : option A) : bool := match o with Some _ => true | None => false end.

  (** the expression of a tree, if its symbols have one *)
  Definition tree_expr (look : text -> option (expr F)) (t : tree) : option (expr F) :=
    if forallb (fun s => is_some (look s)) (symbols t)
    then Some (meaning (fun s => match look s with Some e => e | None => Num KInteger f0 end) flt t) else None.

  (** the node of a name, followed through at most [n] functions: function.cpp:51-82.  [None]: a function without root is
      met (Reset throws, 110-116, and evaluation follows a null pointer), or the limit is reached. *)
  Fixpoint node (n : nat) (y : sys) (f : text) : option (expr F) :=
    if in_dec text_dec f initial_names then Some (Num KSpecial (special f))
    else if in_dec text_dec f (function_nodes y) then
         match n with
         | O => None
         | S m => match root (roots y) f with
                  | None => None
                  | Some t => match tree_expr (node m y) t with Some e => Some (Handle e) | None => None end
                  end
         end
    else Some (Var (place f)).

  (** the nodes of a list of names, if all have one *)
  Fixpoint nodes (look : text -> option (expr F)) (l : list text) : option (list (expr F)) :=
    match l with
    | [] => Some []
    | f :: r => match look f, nodes look r with Some e, Some es => Some (e :: es) | _, _ => None end
    end.

  (** the functions of the system, in order: system.hpp:1758 functions_ *)
  Definition functions_of (n : nat) (y : sys) : option (list (expr F)) := nodes (node n y) (functions y).
End Model.

(** ** Specification *)
Section Spec.
  Context {F : fld}.
  Local Open Scope fld_scope.
  Variable fs : funs F.
  Variable flt special : text -> F.

  (** the value of a tree when the names have the values [v]; none if a name has none *)
  Fixpoint tree_value (v : text -> option F) (t : tree) : option F :=
    match t with
    | TInt z => Some (fZ z)
    | TFloat s => Some (flt s)
    | TRat n d => Some (fZ n / fZ d)
    | TSym s => v s
    | TSum ops => sum_val (map (fun p => (fst p, tree_value v (snd p))) ops)
    | TMul ops => mul_val (map (fun p => (fst p, tree_value v (snd p))) ops)
    | TNeg t => match tree_value v t with Some a => Some (- a) | None => None end
    | TIPow t n => match tree_value v t with Some a => fpowZ a n | None => None end
    | TPow b e => match tree_value v b, tree_value v e with Some a, Some c => pw fs a c | _, _ => None end
    | TFun k t => match tree_value v t with Some a => fn fs k a | None => None end
    end.
End Spec.

(** the names declared as variables of any kind, the functions, and the definitions *)
Definition variable_names (p : list stmt) : list text :=
  flat_map (fun st => match st with SGroup l | SHomGroup l | SVariables l | SImplicits l => l | SPathVariable v => [v] | _ => [] end) p.
Definition function_names (p : list stmt) : list text := flat_map (fun st => match st with SFunctions l => l | _ => [] end) p.
Definition definitions (p : list stmt) : list (text * tree) :=
  flat_map (fun st => match st with SSubfunction f t | SDefinition f t => [(f, t)] | _ => [] end) p.

(** [t] is the right hand side of the last definition of [f] *)
Definition last_definition (p : list stmt) (f : text) (t : tree) : Prop :=
  exists a b, definitions p = a ++ (f, t) :: b /\ ~ In f (map fst b).

(** the definitions can be put in an order: a definition uses variables, pi, e, i and defined names of smaller [rank] *)
Definition ordered (rank : text -> nat) (p : list stmt) : Prop :=
  forall f t s, last_definition p f t -> In s (symbols t) ->
  In s (initial_names ++ variable_names p) \/ (rank s < rank f /\ exists u, last_definition p s u).
Definition all_defined (p : list stmt) : Prop := forall f, In f (function_names p) -> exists t, last_definition p f t.

Section Spec2.
  Context {F : fld}.
  Variable fs : funs F.
  Variable flt special : text -> F.

  (** the values [v] of the names are what the text says when the variables have the values [point] *)
  Definition obeys (point : text -> F) (p : list stmt) (v : text -> option F) : Prop :=
    (forall s, In s initial_names -> v s = Some (special s)) /\
    (forall s, In s (variable_names p) -> v s = Some (point s)) /\
    (forall f t, last_definition p f t -> v f = tree_value fs flt v t).

  (** carrying out the statements one after the other: a definition gives its name the value of its right hand side *)
  Definition set (v : text -> option F) (f : text) (a : option F) : text -> option F := fun s => if text_dec s f then a else v s.
  Fixpoint execute (v : text -> option F) (p : list stmt) : text -> option F :=
    match p with
    | [] => v
    | SSubfunction f t :: r | SDefinition f t :: r => execute (set v f (tree_value fs flt v t)) r
    | _ :: r => execute v r
    end.

  (** at the beginning the variables have the values given by the point, pi, e and i their own, other names none *)
  Definition initially (point : text -> F) (p : list stmt) : text -> option F :=
    fun s => if in_dec text_dec s initial_names then Some (special s)
             else if in_dec text_dec s (variable_names p) then Some (point s) else None.
End Spec2.

(** every definition uses variables, pi, e, i and names defined before only, and no name is defined twice *)
Fixpoint in_order (vs known : list text) (l : list (text * tree)) : Prop :=
  match l with
  | [] => True
  | (f, t) :: r => incl (symbols t) (initial_names ++ vs ++ known) /\ ~ In f known /\ in_order vs (f :: known) r
  end.
Definition straight_line (p : list stmt) : Prop := in_order (variable_names p) [] (definitions p).

(** ** Proofs *)
Lemma root_last : forall l f t, root l f = Some t <-> exists a b, l = a ++ (f, t) :: b /\ ~ In f (map fst b).
Proof.
  intros l f t. unfold root. split.
  - assert (G : forall l r, fold_left (fun r p => if text_dec (fst p) f then Some (snd p) else r) l r = Some t ->
       (r = Some t /\ ~ In f (map fst l)) \/ exists a b, l = a ++ (f, t) :: b /\ ~ In f (map fst b)).
    { clear l. induction l as [|[g u] l IH]; intros r H; cbn [fold_left fst snd] in H; [left; split; [exact H|intros []]|].
      destruct (IH _ H) as [[E N]|(a & b & -> & N)].
      - destruct (text_dec g f) as [->|K].
        + injection E as ->. right. exists [], l. split; [reflexivity|exact N].
        + left. split; [exact E|]. cbn. intros [J|J]; [exact (K J)|exact (N J)].
      - right. exists ((g, u) :: a), b. split; [reflexivity|exact N]. }
    intro H. destruct (G _ _ H) as [[E _]|K]; [discriminate E|exact K].
  - intros (a & b & -> & N). rewrite fold_left_app. cbn [fold_left fst snd]. destruct (text_dec f f) as [_|K]; [|contradiction].
    clear a. assert (G : forall r, fold_left (fun r p => if text_dec (fst p) f then Some (snd p) else r) b r = r).
    { induction b as [|[g u] b IH]; intro r; cbn [fold_left fst snd]; [reflexivity|]. cbn in N.
      destruct (text_dec g f) as [E|_]; [exfalso; apply N; left; exact E|]. apply IH. intro J. apply N. right. exact J. }
    apply G.
Qed.

Lemma in_order_new : forall vs l known s, in_order vs known l -> In s known -> ~ In s (map fst l).
Proof.
  intros vs. induction l as [|[f t] l IH]; intros known s H K; [intros []|]. destruct H as (_ & N & H). cbn. intros [<-|J]; [contradiction|].
  exact (IH (f :: known) s H (or_intror K) J).
Qed.

(** the place of the definition of a name *)
Fixpoint index (l : list (text * tree)) (s : text) : nat :=
  match l with
  | [] => 0
  | (f, _) :: r => if text_dec f s then 0 else S (index r s)
  end.
Lemma index_app : forall a b s, ~ In s (map fst a) -> index (a ++ b) s = length a + index b s.
Proof.
  induction a as [|[f t] a IH]; intros b s H; [reflexivity|]. cbn. destruct (text_dec f s) as [E|_]; [exfalso; apply H; left; exact E|].
  f_equal. apply IH. intro J. apply H. right. exact J.
Qed.
Lemma index_in : forall a b s, In s (map fst a) -> index (a ++ b) s < length a.
Proof.
  induction a as [|[f t] a IH]; intros b s H; [destruct H|]. cbn. destruct (text_dec f s) as [E|N]; [lia|]. destruct H as [H|H]; [contradiction|].
  specialize (IH b s H). lia.
Qed.
Lemma in_order_split : forall vs a f t b known, in_order vs known (a ++ (f, t) :: b) ->
  incl (symbols t) (initial_names ++ vs ++ map fst a ++ known) /\ ~ In f (map fst a).
Proof.
  intros vs. induction a as [|[g u] a IH]; intros f t b known H; cbn [app in_order map fst] in *.
  - destruct H as (A & _ & _). split; [exact A|intros []].
  - destruct H as (_ & N & H). destruct (IH f t b _ H) as [A B]. split.
    + intros s Hs. specialize (A s Hs). rewrite !in_app_iff in A. rewrite !in_app_iff. cbn [In] in *. rewrite ?in_app_iff. tauto.
    + intros [<-|J]; [|exact (B J)]. apply (in_order_new _ _ _ g H); [left; reflexivity|]. rewrite map_app. apply in_app_iff. right. left. reflexivity.
Qed.

Lemma in_names_last : forall p s, In s (map fst (definitions p)) -> exists u, last_definition p s u.
Proof.
  intros p s H. destruct (root (definitions p) s) as [u|] eqn:E; [exists u; apply root_last, E|]. exfalso. unfold root in E. revert E.
  assert (G : forall l r, In s (map fst l) \/ r <> None -> fold_left (fun r q => if text_dec (fst q) s then Some (snd q) else r) l r <> @None tree).
  { clear. induction l as [|[f t] l IH]; intros r K; cbn [fold_left fst snd]; [destruct K as [[]|K]; exact K|]. apply IH.
    destruct (text_dec f s) as [->|N]; [right; discriminate|]. destruct K as [[K|K]|K]; [contradiction|left; exact K|right; exact K]. }
  apply G. left. exact H.
Qed.

Lemma straight_ordered : forall p, straight_line p -> ordered (index (definitions p)) p.
Proof.
  intros p H f t s (a & b & E & N) Hs. unfold straight_line in H. rewrite E in H. destruct (in_order_split _ _ _ _ _ _ H) as [A B].
  specialize (A s Hs). rewrite app_nil_r, !in_app_iff in A. rewrite in_app_iff. destruct A as [A|[A|A]]; [tauto|tauto|]. right. split.
  - rewrite E. rewrite (index_app a _ f B). pose proof (index_in a ((f, t) :: b) s A). lia.
  - apply in_names_last. rewrite E, map_app. apply in_app_iff. left. exact A.
Qed.

Section Proofs.
  Context {F : fld}.
  Variable fs : funs F.
  Variable flt special : text -> F.
  Variable place : text -> nat.

  Lemma eval_meaning : forall rho sym v t, (forall s, In s (symbols t) -> eval fs rho (sym s) = v s) ->
    eval fs rho (meaning sym flt t) = tree_value fs flt v t.
  Proof.
    intros rho sym v t. induction t as [z|s|n d|s|ops IH|ops IH|t IH|t n IH|b e IHb IHe|k t IH] using tree_rect';
      intro H; cbn [meaning eval tree_value symbols] in *; try reflexivity.
    - apply H. left. reflexivity.
    - f_equal. rewrite map_map. apply map_ext_in. intros p Hp. cbn [fst snd]. f_equal. rewrite Forall_forall in IH. apply (IH p Hp).
      intros s Hs. apply H. apply in_flat_map. exists p. split; assumption.
    - f_equal. rewrite map_map. apply map_ext_in. intros p Hp. cbn [fst snd]. f_equal. rewrite Forall_forall in IH. apply (IH p Hp).
      intros s Hs. apply H. apply in_flat_map. exists p. split; assumption.
    - rewrite (IH H). reflexivity.
    - rewrite (IH H). reflexivity.
    - rewrite IHb, IHe; [reflexivity| |]; intros s Hs; apply H, in_app_iff; [right|left]; exact Hs.
    - rewrite (IH H). reflexivity.
  Qed.

  Lemma tree_value_ext : forall v w t, (forall s, In s (symbols t) -> v s = w s) -> tree_value fs flt v t = tree_value fs flt w t.
  Proof.
    intros v w t. induction t as [z|s|n d|s|ops IH|ops IH|t IH|t n IH|b e IHb IHe|k t IH] using tree_rect';
      intro H; cbn [tree_value symbols] in *; try reflexivity.
    - apply H. left. reflexivity.
    - f_equal. apply map_ext_in. intros p Hp. f_equal. rewrite Forall_forall in IH. apply (IH p Hp).
      intros s Hs. apply H. apply in_flat_map. exists p. split; assumption.
    - f_equal. apply map_ext_in. intros p Hp. f_equal. rewrite Forall_forall in IH. apply (IH p Hp).
      intros s Hs. apply H. apply in_flat_map. exists p. split; assumption.
    - rewrite (IH H). reflexivity.
    - rewrite (IH H). reflexivity.
    - rewrite IHb, IHe; [reflexivity| |]; intros s Hs; apply H, in_app_iff; [right|left]; exact Hs.
    - rewrite (IH H). reflexivity.
  Qed.

  Lemma meaning_ext : forall (g h : text -> expr F) t, (forall s, In s (symbols t) -> g s = h s) -> meaning g flt t = meaning h flt t.
  Proof.
    intros g h t. induction t as [z|s|n d|s|ops IH|ops IH|t IH|t n IH|b e IHb IHe|k t IH] using tree_rect';
      intro H; cbn [meaning symbols] in *; try reflexivity.
    - apply H. left. reflexivity.
    - f_equal. apply map_ext_in. intros p Hp. f_equal. rewrite Forall_forall in IH. apply (IH p Hp).
      intros s Hs. apply H. apply in_flat_map. exists p. split; assumption.
    - f_equal. apply map_ext_in. intros p Hp. f_equal. rewrite Forall_forall in IH. apply (IH p Hp).
      intros s Hs. apply H. apply in_flat_map. exists p. split; assumption.
    - rewrite (IH H). reflexivity.
    - rewrite (IH H). reflexivity.
    - rewrite IHb, IHe; [reflexivity| |]; intros s Hs; apply H, in_app_iff; [right|left]; exact Hs.
    - rewrite (IH H). reflexivity.
  Qed.

  Lemma tree_expr_mono : forall (g h : text -> option (expr F)) t e, (forall s x, g s = Some x -> h s = Some x) ->
    tree_expr flt g t = Some e -> tree_expr flt h t = Some e.
  Proof.
    intros g h t e M. unfold tree_expr. destruct (forallb (fun s => is_some (g s)) (symbols t)) eqn:A; [|discriminate].
    rewrite forallb_forall in A. intro E. injection E as <-.
    assert (B : forallb (fun s => is_some (h s)) (symbols t) = true).
    { apply forallb_forall. intros s Hs. specialize (A s Hs). destruct (g s) as [x|] eqn:G; [|discriminate A]. rewrite (M _ _ G). reflexivity. }
    rewrite B. f_equal. apply meaning_ext. intros s Hs. specialize (A s Hs). destruct (g s) as [x|] eqn:G; [|discriminate A].
    rewrite (M _ _ G). reflexivity.
  Qed.

  Notation nodeF := (@node F flt special place).

  Lemma node_mono : forall n y f e, nodeF n y f = Some e -> nodeF (S n) y f = Some e.
  Proof.
    induction n as [|n IH]; intros y f e H; cbn [node] in H |- *;
      (destruct (in_dec text_dec f initial_names); [exact H|]); (destruct (in_dec text_dec f (function_nodes y)); [|exact H]);
      [discriminate H|].
    destruct (root (roots y) f) as [t|]; [|discriminate H]. destruct (tree_expr flt (nodeF n y) t) as [x|] eqn:E; [|discriminate H].
    change (match tree_expr flt (nodeF (S n) y) t with Some e0 => Some (Handle e0) | None => None end = Some e).
    rewrite (tree_expr_mono (nodeF n y) (nodeF (S n) y) t x (fun s x => IH y s x) E). exact H.
  Qed.

  Lemma node_more : forall n m y f e, n <= m -> nodeF n y f = Some e -> nodeF m y f = Some e.
  Proof. intros n m y f e L H. induction L; [exact H|]. apply node_mono, IHL. Qed.

  Section Text.
    Variable p : list stmt.
    Variable y : sys.
    Hypothesis D : describes p y.
    Hypothesis Sc : scoped initial_names [] p.

    Lemma names_split : function_nodes y = flat_map (fun st => match st with SFunctions l => l | _ => [] end) p ++
      flat_map (fun st => match st with SConstants l => l | _ => [] end) p ++
      flat_map (fun st => match st with SParameters l => l | _ => [] end) p ++
      flat_map (fun st => match st with SSubfunction f _ => [f] | _ => [] end) p.
    Proof.
      destruct D as (_ & _ & _ & _ & D5 & D6 & D7 & _ & _ & D10 & _). unfold function_nodes. rewrite D5, D6, D7, D10. reflexivity.
    Qed.

    Lemma roots_eq : roots y = definitions p.
    Proof. apply D. Qed.

    Lemma in_nodes : forall f, In f (function_nodes y) <-> In f (flat_map declares_functions p).
    Proof.
      intro f. rewrite names_split. clear. rewrite !in_app_iff. induction p as [|st r IH]; cbn [flat_map]; [tauto|].
      rewrite !in_app_iff. destruct st; cbn [declares_functions In] in *; tauto.
    Qed.

    Lemma not_initial : forall s, In s (flat_map declares p) -> ~ In s initial_names.
    Proof.
      intros s H. destruct (scoped_distinct _ _ _ Sc) as [_ K]. destruct (K _ H) as [_ N]. intro J. apply N, in_app_iff. right. exact J.
    Qed.

    Lemma var_declared : forall s, In s (variable_names p) -> In s (flat_map declares p).
    Proof.
      clear. unfold variable_names. intros s H. apply in_flat_map in H. destruct H as (st & Hst & H). apply in_flat_map. exists st.
      split; [exact Hst|]. destruct st; cbn in *; tauto.
    Qed.

    Lemma fun_declared : forall s, In s (flat_map declares_functions p) -> In s (flat_map declares p).
    Proof.
      clear. intros s H. apply in_flat_map in H. destruct H as (st & Hst & H). apply in_flat_map. exists st.
      split; [exact Hst|]. destruct st; cbn in *; tauto.
    Qed.

    Lemma var_not_fun : forall s, In s (variable_names p) -> ~ In s (flat_map declares_functions p).
    Proof.
      destruct (scoped_distinct _ _ _ Sc) as [N _]. clear - N. unfold variable_names. induction p as [|st r IH]; intros s H K; [destruct H|].
      cbn [flat_map] in *. apply in_app_iff in H. apply in_app_iff in K.
      assert (Nr : NoDup (flat_map declares r)) by (clear - N; induction (declares st) as [|a l IHl]; [exact N|inversion N; auto]).
      assert (X : forall s, In s (declares st) -> In s (flat_map declares r) -> False).
      { clear - N. induction (declares st) as [|a l IHl]; intros s A B; [destruct A|]. inversion N as [|? ? Na Nl]; subst. destruct A as [<-|A].
        - apply Na, in_app_iff. right. exact B.
        - exact (IHl Nl s A B). }
      destruct H as [H|H]; destruct K as [K|K].
      - destruct st; cbn in *; tauto.
      - apply (X s); [destruct st; cbn in *; tauto|]. clear - K. induction r as [|u r IH]; [destruct K|]. cbn [flat_map] in *.
        apply in_app_iff in K. apply in_app_iff. destruct K as [K|K]; [left; destruct u; cbn in *; tauto|right; apply IH, K].
      - apply (X s); [destruct st; cbn in *; tauto|]. clear - H. induction r as [|u r IH]; [destruct H|]. cbn [flat_map] in *.
        apply in_app_iff in H. apply in_app_iff. destruct H as [K|K]; [left; destruct u; cbn in *; tauto|right; apply IH, K].
      - exact (IH Nr s H K).
    Qed.

    Lemma definitions_known : forall q known gs, scoped known gs q -> forall f t, In (f, t) (definitions q) ->
      In f gs \/ In f (flat_map declares_functions q).
    Proof.
      clear. induction q as [|st r IH]; intros known gs H f t K; [destruct K|]. cbn [definitions flat_map] in K. apply in_app_iff in K.
      destruct H as (_ & _ & Hst & H). cbn [flat_map]. rewrite in_app_iff. destruct K as [K|K].
      - destruct st; try (destruct K; fail); destruct K as [K|[]]; injection K as -> ->; cbn [declares_functions In]; [tauto|left; apply Hst].
      - destruct (IH _ _ H _ _ K) as [J|J]; [|tauto]. apply in_app_iff in J. destruct J as [J|J]; [apply in_rev in J; tauto|tauto].
    Qed.

    Lemma defined_nodes : forall f t, In (f, t) (definitions p) -> In f (function_nodes y) /\ ~ In f initial_names.
    Proof.
      intros f t H. destruct (definitions_known _ _ _ Sc _ _ H) as [[]|K]. split; [apply in_nodes, K|]. apply not_initial, fun_declared, K.
    Qed.

    Lemma last_in : forall f t, last_definition p f t -> In (f, t) (definitions p).
    Proof. intros f t (a & b & E & _). rewrite E. apply in_app_iff. right. left. reflexivity. Qed.

    Lemma node_special : forall n s, In s initial_names -> nodeF n y s = Some (Num KSpecial (special s)).
    Proof. intros n s H. destruct n; cbn [node]; destruct (in_dec text_dec s initial_names); try reflexivity; contradiction. Qed.

    Lemma node_variable : forall n s, In s (variable_names p) -> nodeF n y s = Some (Var (place s)).
    Proof.
      intros n s H. assert (A := not_initial _ (var_declared _ H)). assert (B : ~ In s (function_nodes y)) by (rewrite in_nodes; apply var_not_fun, H).
      destruct n; cbn [node]; destruct (in_dec text_dec s initial_names); try contradiction; destruct (in_dec text_dec s (function_nodes y)); try contradiction; reflexivity.
    Qed.

    Lemma node_defined : forall n f t, last_definition p f t -> nodeF (S n) y f =
      match tree_expr flt (nodeF n y) t with Some e => Some (Handle e) | None => None end.
    Proof.
      intros n f t H. destruct (defined_nodes _ _ (last_in _ _ H)) as [A B]. cbn [node].
      destruct (in_dec text_dec f initial_names); [contradiction|]. destruct (in_dec text_dec f (function_nodes y)); [|contradiction].
      rewrite roots_eq. rewrite (proj2 (root_last _ f t) H). reflexivity.
    Qed.

    Variable rank : text -> nat.
    Hypothesis Od : ordered rank p.

    Lemma resolves : forall n f t, last_definition p f t -> rank f < n -> exists e, nodeF n y f = Some e.
    Proof.
      induction n as [|n IH]; intros f t H L; [lia|]. rewrite (node_defined n f t H). unfold tree_expr.
      assert (A : forallb (fun s => is_some (nodeF n y s)) (symbols t) = true).
      { apply forallb_forall. intros s Hs. destruct (Od f t s H Hs) as [K|(K & u & Hu)].
        - apply in_app_iff in K. destruct K as [K|K]; [rewrite node_special by exact K|rewrite node_variable by exact K]; reflexivity.
        - destruct (IH s u Hu ltac:(lia)) as [e ->]. reflexivity. }
      rewrite A. eexists. reflexivity.
    Qed.

    Lemma node_value : forall rho v, obeys fs flt special (fun s => rho (place s)) p v ->
      forall n f t e, last_definition p f t -> nodeF n y f = Some e -> eval fs rho e = v f.
    Proof.
      intros rho v (O1 & O2 & O3). induction n as [|n IH]; intros f t e H E.
      - destruct (defined_nodes _ _ (last_in _ _ H)) as [A B]. cbn [node] in E. destruct (in_dec text_dec f initial_names); [contradiction|].
        destruct (in_dec text_dec f (function_nodes y)); [discriminate E|contradiction].
      - rewrite (node_defined n f t H) in E. unfold tree_expr in E.
        destruct (forallb (fun s => is_some (nodeF n y s)) (symbols t)) eqn:A; [|discriminate E]. injection E as <-. cbn [eval].
        rewrite (O3 f t H). apply eval_meaning. intros s Hs. rewrite forallb_forall in A. specialize (A s Hs).
        destruct (nodeF n y s) as [x|] eqn:G; [|discriminate A]. destruct (Od f t s H Hs) as [K|(_ & u & Hu)].
        + apply in_app_iff in K. destruct K as [K|K].
          * rewrite node_special in G by exact K. injection G as <-. cbn [eval]. symmetry. apply O1, K.
          * rewrite node_variable in G by exact K. injection G as <-. cbn [eval]. symmetry. apply O2, K.
        + exact (IH s u x Hu G).
    Qed.

    (** ranks of the definitions are bounded *)
    Definition bound : nat := S (list_max (map (fun q => rank (fst q)) (definitions p))).
    Lemma below_bound : forall f t, last_definition p f t -> rank f < bound.
    Proof.
      intros f t H. apply last_in in H. unfold bound. apply Nat.lt_succ_r.
      assert (A : Forall (fun k => k <= list_max (map (fun q => rank (fst q)) (definitions p))) (map (fun q => rank (fst q)) (definitions p)))
        by (apply list_max_le; lia).
      rewrite Forall_forall in A. apply A. apply in_map_iff. exists (f, t). split; [reflexivity|exact H].
    Qed.

    Definition solution (rho : env F) (s : text) : option F :=
      match nodeF bound y s with Some e => eval fs rho e | None => None end.

    Lemma solution_obeys : forall rho, obeys fs flt special (fun s => rho (place s)) p (solution rho).
    Proof.
      intro rho. unfold solution. split; [|split].
      - intros s H. rewrite node_special by exact H. reflexivity.
      - intros s H. rewrite node_variable by exact H. reflexivity.
      - intros f t H. destruct (resolves bound f t H (below_bound f t H)) as [e E]. rewrite E.
        pose proof E as E0. unfold bound in E. set (b := list_max _) in E. rewrite (node_defined b f t H) in E. unfold tree_expr in E.
        destruct (forallb (fun s => is_some (nodeF b y s)) (symbols t)) eqn:A; [|discriminate E]. injection E as <-. cbn [eval].
        apply eval_meaning. intros s Hs. rewrite forallb_forall in A. specialize (A s Hs). destruct (nodeF b y s) as [x|] eqn:G; [|discriminate A].
        change bound with (S b). rewrite (node_mono _ _ _ _ G). reflexivity.
    Qed.

    Hypothesis Ad : all_defined p.
    Lemma functions_eq : functions y = function_names p.
    Proof. apply D. Qed.

    Lemma nodes_some : forall l, (forall f, In f l -> exists t, last_definition p f t) -> exists es, forall n, bound <= n ->
      nodes (nodeF n y) l = Some es.
    Proof.
      induction l as [|f l IH]; intro H; [exists []; reflexivity|]. destruct IH as [es E]; [intros g Hg; apply H; right; exact Hg|].
      destruct (H f (or_introl eq_refl)) as [t Ht]. destruct (resolves bound f t Ht (below_bound f t Ht)) as [e Ee].
      exists (e :: es). intros n L. cbn [nodes]. rewrite (E n L), (node_more bound n y f e L Ee). reflexivity.
    Qed.

    Lemma nodes_value : forall rho v n l es, obeys fs flt special (fun s => rho (place s)) p v ->
      (forall f, In f l -> exists t, last_definition p f t) -> nodes (nodeF n y) l = Some es -> map (eval fs rho) es = map v l.
    Proof.
      intros rho v n l es O. revert es. induction l as [|f l IH]; intros es H E; cbn [nodes] in E; [injection E as <-; reflexivity|].
      destruct (nodeF n y f) as [e|] eqn:Ee; [|discriminate E]. destruct (nodes (nodeF n y) l) as [r|] eqn:Er; [|discriminate E].
      injection E as <-. cbn [map]. destruct (H f (or_introl eq_refl)) as [t Ht]. rewrite (node_value rho v O n f t e Ht Ee).
      rewrite (IH r (fun g Hg => H g (or_intror Hg)) eq_refl). reflexivity.
    Qed.

    Lemma text_values : exists n es, (forall m, n <= m -> functions_of flt special place m y = Some es) /\
      forall rho, (exists v, obeys fs flt special (fun s => rho (place s)) p v) /\
        forall v, obeys fs flt special (fun s => rho (place s)) p v -> map (eval fs rho) es = map v (function_names p).
    Proof.
      destruct (nodes_some (functions y)) as [es E]; [rewrite functions_eq; exact Ad|]. exists bound, es. split; [exact E|]. intro rho. split.
      - exists (solution rho). apply solution_obeys.
      - intros v O. rewrite <- functions_eq. apply (nodes_value rho v bound); [exact O|rewrite functions_eq; exact Ad|apply E; lia].
    Qed.
  End Text.

  (** *** definitions in order *)
  Fixpoint run (v : text -> option F) (l : list (text * tree)) : text -> option F :=
    match l with
    | [] => v
    | (f, t) :: r => run (set v f (tree_value fs flt v t)) r
    end.

  Lemma execute_run : forall p v, execute fs flt v p = run v (definitions p).
  Proof.
    induction p as [|st p IH]; intro v; [reflexivity|]. destruct st; cbn [execute definitions flat_map app run]; apply IH.
  Qed.

  Lemma run_other : forall l v s, ~ In s (map fst l) -> run v l s = v s.
  Proof.
    induction l as [|[f t] l IH]; intros v s H; [reflexivity|]. cbn [run]. rewrite IH; [|intro J; apply H; right; exact J].
    unfold set. destruct (text_dec s f) as [->|_]; [|reflexivity]. exfalso. apply H. left. reflexivity.
  Qed.

  Lemma run_obeys : forall vs l known v, in_order vs known l -> (forall f t, In (f, t) l -> ~ In f (initial_names ++ vs)) ->
    forall f t, In (f, t) l -> run v l f = tree_value fs flt (run v l) t.
  Proof.
    intros vs. induction l as [|[g u] l IH]; intros known v H X f t K; [destruct K|]. destruct H as (A & N & H). cbn [run]. destruct K as [E|K].
    - injection E as -> ->. rewrite run_other by (apply (in_order_new _ _ _ _ H); left; reflexivity). unfold set at 1.
      destruct (text_dec f f) as [_|K]; [|contradiction]. apply tree_value_ext. intros s Hs.
      assert (B : s <> f /\ ~ In s (map fst l)).
      { specialize (A s Hs). rewrite !in_app_iff in A.
        destruct A as [A|[A|A]].
        - split; [intros ->; apply (X f t (or_introl eq_refl)), in_app_iff; tauto|]. intro J. apply in_map_iff in J. destruct J as ([a b] & <- & J).
          apply (X a b (or_intror J)), in_app_iff. tauto.
        - split; [intros ->; apply (X f t (or_introl eq_refl)), in_app_iff; tauto|]. intro J. apply in_map_iff in J. destruct J as ([a b] & <- & J).
          apply (X a b (or_intror J)), in_app_iff. tauto.
        - split; [intros ->; contradiction|]. apply (in_order_new _ _ _ _ H). right. exact A. }
      destruct B as [B1 B2]. rewrite run_other by exact B2. unfold set. destruct (text_dec s f); [contradiction|reflexivity].
    - exact (IH (g :: known) _ H (fun a b J => X a b (or_intror J)) f t K).
  Qed.

  Lemma execute_obeys : forall p point, scoped initial_names [] p -> straight_line p ->
    obeys fs flt special point p (execute fs flt (initially special point p) p).
  Proof.
    intros p point Sc H.
    assert (X : forall f t, In (f, t) (definitions p) -> ~ In f (initial_names ++ variable_names p)).
    { intros f t K J. destruct (definitions_known _ _ _ Sc _ _ K) as [[]|G]. apply in_app_iff in J. destruct J as [J|J].
      - exact (not_initial p Sc f (fun_declared p f G) J).
      - exact (var_not_fun p Sc f J G). }
    assert (Y : forall s, In s (initial_names ++ variable_names p) -> ~ In s (map fst (definitions p))).
    { intros s J K. apply in_map_iff in K. destruct K as ([a b] & <- & K). exact (X a b K J). }
    split; [|split]; rewrite execute_run.
    - intros s K. rewrite run_other by (apply Y, in_app_iff; left; exact K). unfold initially. destruct (in_dec text_dec s initial_names); [reflexivity|contradiction].
    - intros s K. rewrite run_other by (apply Y, in_app_iff; right; exact K). unfold initially.
      destruct (in_dec text_dec s initial_names) as [J|_]; [exfalso; exact (not_initial p Sc s (var_declared p s K) J)|].
      destruct (in_dec text_dec s (variable_names p)); [reflexivity|contradiction].
    - intros f t K. apply (run_obeys (variable_names p) (definitions p) []); [exact H|exact X|apply last_in, K].
  Qed.
End Proofs.

(** *** definitions that go round in a circle, or are missing *)
(** every name of [C] can be defined, and its last definition, if there is one, uses a name of [C] *)
Definition circle (p : list stmt) (C : list text) : Prop :=
  forall f, In f C -> In f (flat_map declares_functions p) /\
    forall t, last_definition p f t -> exists s, In s (symbols t) /\ In s C.

Lemma circle_none : forall (F : fld) (flt special : text -> F) place p y C, describes p y -> scoped initial_names [] p -> circle p C ->
  forall n f, In f C -> node flt special place n y f = None.
Proof.
  intros F flt special place p y C D Sc H. induction n as [|n IH]; intros f Hf; destruct (H f Hf) as [A B]; cbn [node];
    (destruct (in_dec text_dec f initial_names) as [J|_]; [exfalso; exact (not_initial p Sc f (fun_declared p f A) J)|]);
    (destruct (in_dec text_dec f (function_nodes y)) as [_|J]; [|exfalso; apply J; apply (in_nodes p y D), A]); [reflexivity|].
  rewrite (roots_eq p y D). destruct (root (definitions p) f) as [t|] eqn:E; [|reflexivity]. apply root_last in E. destruct (B t E) as (s & Hs & Hc).
  unfold tree_expr. destruct (forallb (fun s0 => is_some (node flt special place n y s0)) (symbols t)) eqn:G; [|reflexivity].
  exfalso. rewrite forallb_forall in G. specialize (G s Hs). rewrite (IH s Hc) in G. discriminate G.
Qed.

Lemma nodes_none : forall (F : fld) (look : text -> option (expr F)) l f, In f l -> look f = None -> nodes look l = None.
Proof.
  intros F look l f H E. induction l as [|g l IH]; [destruct H|]. cbn [nodes]. destruct H as [->|H]; [rewrite E; reflexivity|].
  rewrite (IH H). destruct (look g); reflexivity.
Qed.

(** *** texts *)
Lemma usual_symbols : forall names num lead l s t, usual names num lead l s t -> incl (symbols t) names.
Proof.
  intros names num lead l s t H. induction H; cbn [symbols flat_map snd]; intros x Hx; rewrite ?app_nil_r, ?in_app_iff in Hx; cbn [In] in Hx;
    try (destruct Hx; fail); auto.
  - destruct Hx as [<-|[]]. assumption.
  - destruct Hx; auto.
  - destruct Hx; auto.
  - destruct Hx; auto.
  - destruct Hx; auto.
  - destruct Hx; auto.
  - destruct Hx; auto.
Qed.

Lemma declarable_fresh : forall l names, declarable names l -> NoDup l /\ forall nm, In nm l -> identifier nm /\ ~ In nm (declarative ++ names).
Proof.
  induction l as [|a l IH]; intros names H; [split; [constructor|intros nm []]|]. destruct H as (Hi & Hp & H). destruct (IH _ H) as [N K].
  assert (P : forall nm : text, prefix nm nm) by (intro nm; exists []; symmetry; apply app_nil_r).
  split.
  - constructor; [|exact N]. intro J. destruct (K _ J) as [_ Q]. apply Q, in_app_iff. right. left. reflexivity.
  - intros nm [<-|J].
    + split; [exact Hi|]. intro J. exact (Hp a J (P a)).
    + destruct (K _ J) as [A B]. split; [exact A|]. intro Q. apply B. apply in_app_iff in Q. apply in_app_iff. destruct Q; [left|right; right]; assumption.
Qed.

Lemma program_scoped : forall num known fs p s, program num known fs p s -> scoped known fs p.
Proof.
  intros num known fs p s H. induction H as [|known fs st s p rest Ht Hd Hf Hp IH]; [exact I|]. cbn [scoped].
  destruct (declarable_fresh _ _ Hd) as [N K]. split; [exact N|]. split; [exact K|]. split; [|exact IH].
  destruct Ht as [st kw l w c s w2 E _ _ _ _|f t w w2 e w3 _ _ _ U|f t w w2 e w3 Hin _ _ _ U].
  - destruct st; try exact I; discriminate E.
  - exact (usual_symbols _ _ _ _ _ _ U).
  - split; [exact Hin|]. exact (usual_symbols _ _ _ _ _ _ U).
Qed.
