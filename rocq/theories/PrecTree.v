(** Changing the working precision of function trees and evaluating them afterwards.
    Models core/src/function_tree/node.cpp:71-105, number.cpp:36-47 and 79-157,
    special_number.cpp:49-82, variable.cpp:102-105 and 189-197, operators/operator.cpp:33-37,
    122-144 and 175-184, operators/arithmetic.cpp:402-433 and 894-946, roots/function.cpp:110-116
    and 187-196 (all in core/src/function_tree), include/bertini2/function_tree/symbols/
    linear_product.hpp:319-329 and 735-753, src/system/straight_line_program.cpp:68-90. *)
From Coq Require Import List Arith Lia Bool.
From Verif Require Import PatchPrecision.
Import ListNotations.

Section PrecTree.
  (** [rnd p v] is the value [v] becomes when it is stored with [p] digits (arbitrary here) *)
  Context {V : Type} (rnd : nat -> V -> V).

  (** A function tree.  Each node carries the identity of the object it stands for: two nodes with the
      same identity are the same shared object.
      [TNum]: Integer, Rational, Float, Pi, E with their exact value (a Float is taken as exact: its
      highest precision value);  [TVar]: Variable;  [TOp]: any unary, n-ary or power operator with
      the exact operation it stands for (signs and multiply/divide flags are part of it);
      [THandle]: Function. *)
  Inductive tree :=
  | TNum (i : nat) (exact : V)
  | TVar (i : nat)
  | TOp (i : nat) (f : list V -> V) (ts : list tree)
  | THandle (i : nat) (t : tree).

  Definition ident (t : tree) : nat :=
    match t with TNum i _ => i | TVar i => i | TOp i _ _ => i | THandle i _ => i end.

  (** node.hpp: the multiprecision half of [current_value_]: the number and the flag that says that it
      may be returned as it is *)
  Record cell := mkC { num : @mpnum V; stored : bool }.
  Definition state := nat -> cell.
  Definition upd (s : state) (i : nat) (c : cell) : state := fun j => if j =? i then c else s j.

  (** [node->precision(p)]: number.cpp:42-47 (the flag is cleared); variable.cpp (the number only);
      operator.cpp:122-128 and 175-184 and PowerOperator (own number, then the operands in order; the
      flag is kept); function.cpp:187-196 (nothing at all when the own number has that precision).
      The scratch numbers of sums and products hold no value between evaluations and are left out. *)
  Fixpoint set_precision (p : nat) (t : tree) (s : state) {struct t} : state :=
    match t with
    | TNum i _ => upd s i (mkC (set_prec rnd p (num (s i))) false)
    | TVar i => upd s i (mkC (set_prec rnd p (num (s i))) (stored (s i)))
    | TOp i _ ts =>
        (fix go (l : list tree) (s : state) {struct l} : state :=
           match l with [] => s | t :: r => go r (set_precision p t s) end)
          ts (upd s i (mkC (set_prec rnd p (num (s i))) (stored (s i))))
    | THandle i t =>
        if prec (num (s i)) =? p then s
        else set_precision p t (upd s i (mkC (set_prec rnd p (num (s i))) (stored (s i))))
    end.

  (** [node->Reset()]: number.cpp:36-39 does nothing *)
  Fixpoint reset (t : tree) (s : state) {struct t} : state :=
    match t with
    | TNum _ _ => s
    | TVar i => upd s i (mkC (num (s i)) false)
    | TOp i _ ts =>
        (fix go (l : list tree) (s : state) {struct l} : state :=
           match l with [] => s | t :: r => go r (reset t s) end)
          ts (upd s i (mkC (num (s i)) false))
    | THandle i t => reset t (upd s i (mkC (num (s i)) false))
    end.

  Definition precs (l : list (@mpnum V)) : nat := fold_right Nat.max 0 (map prec l).
  (** an operation on multiprecision numbers has the highest precision of its operands (the
      preserve-source precision policy of boost); simplified: rounded once *)
  Definition combine (f : list V -> V) (l : list (@mpnum V)) : @mpnum V :=
    mkNum (rnd (precs l) (f (map val l))) (precs l).

  (** [node->Eval<mpfr_complex>()], node.cpp:71-80, with [d] the global [DefaultPrecision()]: the
      numbers are made at the default precision, whatever the precision of the node *)
  Fixpoint eval (d : nat) (t : tree) (s : state) {struct t} : @mpnum V * state :=
    if stored (s (ident t)) then (num (s (ident t)), s)
    else
      match t with
      | TNum i x => let v := mkNum (rnd d x) d in (v, upd s i (mkC v true))
      | TVar i => (num (s i), upd s i (mkC (num (s i)) true))
      | TOp i f ts =>
          let (vs, s') :=
            (fix go (l : list tree) (s : state) {struct l} : list (@mpnum V) * state :=
               match l with
               | [] => ([], s)
               | t :: r => let (v, s1) := eval d t s in let (vs, s2) := go r s1 in (v :: vs, s2)
               end) ts s in
          let v := combine f vs in (v, upd s' i (mkC v true))
      | THandle i t => let (v, s') := eval d t s in (v, upd s' i (mkC v true))
      end.

  (** the list forms of the three recursions *)
  Fixpoint set_precisions (p : nat) (l : list tree) (s : state) : state :=
    match l with [] => s | t :: r => set_precisions p r (set_precision p t s) end.
  Fixpoint resets (l : list tree) (s : state) : state :=
    match l with [] => s | t :: r => resets r (reset t s) end.
  Fixpoint evals (d : nat) (l : list tree) (s : state) : list (@mpnum V) * state :=
    match l with
    | [] => ([], s)
    | t :: r => let (v, s1) := eval d t s in let (vs, s2) := evals d r s1 in (v :: vs, s2)
    end.

  (** ** Specification *)
  (** the reference value: numbers rounded from their exact values to [p] digits, variables as given,
      each operation rounded to [p] digits *)
  Fixpoint reference (p : nat) (vars : nat -> V) (t : tree) {struct t} : V :=
    match t with
    | TNum _ x => rnd p x
    | TVar i => vars i
    | TOp _ f ts => rnd p (f (map (reference p vars) ts))
    | THandle _ t => reference p vars t
    end.

  Fixpoint subtrees (t : tree) : list tree :=
    t :: match t with
         | TOp _ _ ts => flat_map subtrees ts
         | THandle _ t => subtrees t
         | _ => []
         end.
  Definition nodes (roots : list tree) : list tree := flat_map subtrees roots.
  (** one object is one node, and every operator has an operand *)
  Definition well_formed (roots : list tree) : Prop :=
    (forall a b, In a (nodes roots) -> In b (nodes roots) -> ident a = ident b -> a = b) /\
    (forall i f ts, In (TOp i f ts) (nodes roots) -> ts <> []).

  (** ** What a tracker does to the functions of a system *)
  Inductive top :=
  | ChangePrecision (p : nat)           (* DefaultPrecision(p), then precision(p) on every function and variable *)
  | SetVariable (i : nat) (v : V)       (* a value with the current precision *)
  | ResetAll                            (* Reset() on every function *)
  | Evaluate (k : nat).                 (* evaluate the k-th function *)

  Record world := mkW { dflt : nat; cells : state }.

  (** variable.cpp:50-59: the number is replaced and the flag cleared (the assertion that the precisions
      agree holds here: the value has the current precision) *)
  Definition set_value (i : nat) (x : @mpnum V) (s : state) : state := upd s i (mkC x false).
  Definition is_var (roots : list tree) (i : nat) : bool :=
    existsb (fun t => match t with TVar j => j =? i | _ => false end) (nodes roots).

  Definition tstep (roots : list tree) (w : world) (o : top) : world :=
    match o with
    | ChangePrecision p => mkW p (set_precisions p roots (cells w))
    | SetVariable i v => if is_var roots i then mkW (dflt w) (set_value i (mkNum v (dflt w)) (cells w)) else w
    | ResetAll => mkW (dflt w) (resets roots (cells w))
    | Evaluate k =>
        match nth_error roots k with
        | Some t => mkW (dflt w) (snd (eval (dflt w) t (cells w)))
        | None => w
        end
    end.
  Definition trun (roots : list tree) (w : world) (l : list top) : world := fold_left (tstep roots) l w.

  (** freshly constructed nodes: numbers at the default precision, nothing evaluated yet *)
  Definition fresh_world (d : nat) (w : world) : Prop :=
    dflt w = d /\ forall i, prec (num (cells w i)) = d /\ stored (cells w i) = false.

  (** ** Proofs *)
  Lemma tree_ind' (P : tree -> Prop)
    (HN : forall i x, P (TNum i x)) (HV : forall i, P (TVar i))
    (HO : forall i f ts, Forall P ts -> P (TOp i f ts))
    (HH : forall i t, P t -> P (THandle i t)) : forall t, P t.
  Proof.
    fix IH 1. intros [i x|i|i f ts|i t].
    - apply HN.
    - apply HV.
    - apply HO. induction ts as [|t r IHr]; constructor; [apply IH|exact IHr].
    - apply HH, IH.
  Qed.

  Lemma set_precision_op p i f ts s :
    set_precision p (TOp i f ts) s =
    set_precisions p ts (upd s i (mkC (set_prec rnd p (num (s i))) (stored (s i)))).
  Proof.
    cbn [set_precision]. generalize (upd s i (mkC (set_prec rnd p (num (s i))) (stored (s i)))).
    induction ts as [|t r IH]; intros s0; [reflexivity|]. cbn [set_precisions]. apply IH.
  Qed.

  Lemma reset_op i f ts s :
    reset (TOp i f ts) s = resets ts (upd s i (mkC (num (s i)) false)).
  Proof.
    cbn [reset]. generalize (upd s i (mkC (num (s i)) false)).
    induction ts as [|t r IH]; intros s0; [reflexivity|]. cbn [resets]. apply IH.
  Qed.

  Lemma eval_op d i f ts s :
    eval d (TOp i f ts) s =
    if stored (s i) then (num (s i), s)
    else let (vs, s') := evals d ts s in
         let v := combine f vs in (v, upd s' i (mkC v true)).
  Proof.
    cbn [eval ident]. destruct (stored (s i)); [reflexivity|].
    assert (G : forall l s0,
      (fix go (l : list tree) (s : state) {struct l} : list (@mpnum V) * state :=
               match l with
               | [] => ([], s)
               | t :: r => let (v, s1) := eval d t s in let (vs, s2) := go r s1 in (v :: vs, s2)
               end) l s0 = evals d l s0).
    { induction l as [|t r IH]; intros s0; [reflexivity|]. cbn [evals].
      destruct (eval d t s0) as [v s1]. rewrite IH. reflexivity. }
    rewrite G. reflexivity.
  Qed.

  Lemma upd_same s i c : upd s i c i = c.
  Proof. unfold upd. now rewrite Nat.eqb_refl. Qed.
  Lemma upd_other s i c j : j <> i -> upd s i c j = s j.
  Proof. intros H. unfold upd. apply Nat.eqb_neq in H. now rewrite H. Qed.

  Lemma subtrees_self t : In t (subtrees t).
  Proof. destruct t; left; reflexivity. Qed.

  Lemma subtrees_trans a b c : In a (subtrees b) -> In b (subtrees c) -> In a (subtrees c).
  Proof.
    intros Hab. revert b Hab. induction c as [i x|i|i f ts IH|i t IH] using tree_ind'; intros b Hab Hbc.
    - destruct Hbc as [<- | []]. exact Hab.
    - destruct Hbc as [<- | []]. exact Hab.
    - destruct Hbc as [<- | Hbc]; [exact Hab|]. cbn [subtrees] in *. right.
      apply in_flat_map in Hbc. destruct Hbc as [t [Ht Hb]]. apply in_flat_map. exists t. split; [exact Ht|].
      rewrite Forall_forall in IH. exact (IH t Ht b Hab Hb).
    - destruct Hbc as [<- | Hbc]; [exact Hab|]. cbn [subtrees] in *. right. exact (IH b Hab Hbc).
  Qed.

  Lemma nodes_sub roots a b : In a (subtrees b) -> In b (nodes roots) -> In a (nodes roots).
  Proof.
    intros Ha Hb. apply in_flat_map in Hb. destruct Hb as [r [Hr Hb]]. apply in_flat_map.
    exists r. split; [exact Hr|]. exact (subtrees_trans _ _ _ Ha Hb).
  Qed.

  (** a strict subtree is smaller *)
  Fixpoint size (t : tree) : nat :=
    S (match t with
       | TOp _ _ ts => fold_right (fun t n => size t + n) 0 ts
       | THandle _ t => size t
       | _ => 0
       end).
  Lemma size_in t ts : In t ts -> size t <= fold_right (fun t n => size t + n) 0 ts.
  Proof. induction ts as [|u r IH]; intros []; cbn [fold_right]; [subst; lia|]. specialize (IH H). lia. Qed.
  Lemma size_sub a b : In a (subtrees b) -> size a <= size b.
  Proof.
    induction b as [i x|i|i f ts IH|i t IH] using tree_ind'; intros H.
    - destruct H as [<- | []]. lia.
    - destruct H as [<- | []]. lia.
    - destruct H as [<- | H]; [lia|]. apply in_flat_map in H. destruct H as [t [Ht H]].
      rewrite Forall_forall in IH. specialize (IH t Ht H). pose proof (size_in t ts Ht).
      cbn [size]. lia.
    - destruct H as [<- | H]; [lia|]. specialize (IH H). cbn [size]. lia.
  Qed.

  Section Roots.
    Variable roots : list tree.
    Hypothesis WF : well_formed roots.
    Let N := nodes roots.

    Lemma not_below_op i f ts t u : In (TOp i f ts) N -> In t ts -> In u (subtrees t) -> ident u <> i.
    Proof.
      intros Hn Ht Hu E. destruct WF as [Inj _].
      assert (S1 : In u (subtrees (TOp i f ts))).
      { cbn [subtrees]. right. apply in_flat_map. exists t. now split. }
      assert (X : u = TOp i f ts).
      { apply Inj; [exact (nodes_sub roots _ _ S1 Hn)|exact Hn|exact E]. }
      subst u. apply size_sub in Hu. pose proof (size_in t ts Ht). cbn [size] in Hu. lia.
    Qed.

    Lemma not_below_handle i t u : In (THandle i t) N -> In u (subtrees t) -> ident u <> i.
    Proof.
      intros Hn Hu E. destruct WF as [Inj _].
      assert (S1 : In u (subtrees (THandle i t))) by (cbn [subtrees]; right; exact Hu).
      assert (X : u = THandle i t).
      { apply Inj; [exact (nodes_sub roots _ _ S1 Hn)|exact Hn|exact E]. }
      subst u. apply size_sub in Hu. cbn [size] in Hu. lia.
    Qed.

    (** *** setting the precision *)
    Section Pass.
      Variable p : nat.
      Definition at_p (s : state) (i : nat) : Prop := prec (num (s i)) = p.
      (** every function that is at [p] digits and not in progress has everything below at [p] digits *)
      Definition settled (X : list nat) (s : state) : Prop :=
        forall i t, In (THandle i t) N -> ~ In i X -> at_p s i ->
                    forall u, In u (subtrees t) -> at_p s (ident u).

      Lemma settled_upd X s i c : prec (num c) = p -> settled X s ->
        (forall t, In (THandle i t) N -> In i X) -> settled X (upd s i c).
      Proof.
        intros Hc Hs Hi j t Hj NX Hp u Hu. unfold at_p in *.
        destruct (Nat.eq_dec (ident u) i) as [-> |NE]; [now rewrite upd_same|].
        rewrite upd_other by exact NE.
        destruct (Nat.eq_dec j i) as [-> |NJ].
        - exfalso. apply NX. exact (Hi t Hj).
        - rewrite upd_other in Hp by exact NJ. exact (Hs j t Hj NX Hp u Hu).
      Qed.

      Lemma at_p_upd s i c j : prec (num c) = p -> at_p s j -> at_p (upd s i c) j.
      Proof.
        intros Hc Hj. unfold at_p in *. destruct (Nat.eq_dec j i) as [-> |NE]; [now rewrite upd_same|].
        now rewrite upd_other.
      Qed.

      Lemma kind_handle i t u : In (THandle i t) N -> In u N -> ident u = i -> u = THandle i t.
      Proof. intros H Hu E. destruct WF as [Inj _]. apply Inj; [exact Hu|exact H|exact E]. Qed.

      Definition pass_ok (t : tree) : Prop :=
        In t N -> forall X s, (forall u, In u (subtrees t) -> ~ In (ident u) X) -> settled X s ->
          settled X (set_precision p t s) /\
          (forall u, In u (subtrees t) -> at_p (set_precision p t s) (ident u)) /\
          (forall j, at_p s j -> at_p (set_precision p t s) j).

      Lemma passes_ok ts : Forall pass_ok ts -> (forall t, In t ts -> In t N) ->
        forall X s, (forall t u, In t ts -> In u (subtrees t) -> ~ In (ident u) X) -> settled X s ->
          settled X (set_precisions p ts s) /\
          (forall t u, In t ts -> In u (subtrees t) -> at_p (set_precisions p ts s) (ident u)) /\
          (forall j, at_p s j -> at_p (set_precisions p ts s) j).
      Proof.
        intros HF. induction HF as [|t r Ht HF IH]; intros Hn X s HX Hs; cbn [set_precisions].
        - split; [exact Hs|]. split; [intros ? ? []|auto].
        - destruct (Ht (Hn t (or_introl eq_refl)) X s (fun u => HX t u (or_introl eq_refl)) Hs) as [A [B C]].
          destruct (IH (fun u Hu => Hn u (or_intror Hu)) X (set_precision p t s)
                      (fun t' u Ht' => HX t' u (or_intror Ht')) A) as [A' [B' C']].
          split; [exact A'|]. split.
          + intros t' u [<- | Ht'] Hu; [apply C', B, Hu|exact (B' t' u Ht' Hu)].
          + intros j Hj. apply C', C, Hj.
      Qed.

      Lemma pass_ok_all t : pass_ok t.
      Proof.
        induction t as [i x|i|i f ts IH|i t IH] using tree_ind'; intros Hn X s HX Hs.
        - cbn [set_precision]. split; [|split].
          + apply settled_upd; [reflexivity|exact Hs|]. intros t Ht.
            pose proof (kind_handle i t _ Ht Hn eq_refl). discriminate.
          + intros u [<- | []]. unfold at_p. cbn [ident]. now rewrite upd_same.
          + intros j Hj. now apply at_p_upd.
        - cbn [set_precision]. split; [|split].
          + apply settled_upd; [reflexivity|exact Hs|]. intros t Ht.
            pose proof (kind_handle i t _ Ht Hn eq_refl). discriminate.
          + intros u [<- | []]. unfold at_p. cbn [ident]. now rewrite upd_same.
          + intros j Hj. now apply at_p_upd.
        - rewrite set_precision_op.
          set (s1 := upd s i (mkC (set_prec rnd p (num (s i))) (stored (s i)))).
          assert (Hs1 : settled X s1).
          { apply settled_upd; [reflexivity|exact Hs|]. intros t Ht.
            pose proof (kind_handle i t _ Ht Hn eq_refl). discriminate. }
          destruct (passes_ok ts IH) with (X := X) (s := s1) as [A [B C]].
          + intros t Ht. apply (nodes_sub roots t (TOp i f ts)); [|exact Hn].
            cbn [subtrees]. right. apply in_flat_map. exists t. split; [exact Ht|apply subtrees_self].
          + intros t u Ht Hu. apply HX. cbn [subtrees]. right. apply in_flat_map. exists t. now split.
          + exact Hs1.
          + split; [exact A|]. split.
            * intros u [<- | Hu].
              -- apply C. unfold at_p, s1. cbn [ident]. now rewrite upd_same.
              -- apply in_flat_map in Hu. destruct Hu as [t [Ht Hu]]. exact (B t u Ht Hu).
            * intros j Hj. apply C. now apply at_p_upd.
        - cbn [set_precision]. destruct (prec (num (s i)) =? p) eqn:E.
          + apply Nat.eqb_eq in E. split; [exact Hs|]. split; [|auto].
            intros u [<- | Hu]; [exact E|].
            apply (Hs i t Hn); [|exact E|exact Hu]. apply (HX (THandle i t)). apply subtrees_self.
          + set (s1 := upd s i (mkC (set_prec rnd p (num (s i))) (stored (s i)))).
            assert (Hn' : In t N).
            { apply (nodes_sub roots t (THandle i t)); [|exact Hn]. cbn [subtrees]. right. apply subtrees_self. }
            destruct (IH Hn' (i :: X) s1) as [A [B C]].
            * intros u Hu [E2 | HuX].
              -- apply (not_below_handle i t u Hn Hu). now symmetry.
              -- apply (HX u); [|exact HuX]. cbn [subtrees]. now right.
            * apply settled_upd; [reflexivity| |intros; now left].
              intros j u Hj NX. apply (Hs j u Hj). intros K. apply NX. now right.
            * assert (Hi : at_p (set_precision p t s1) i).
              { apply C. unfold at_p, s1. now rewrite upd_same. }
              split; [|split].
              -- intros j u Hj NX Hp v Hv. destruct (Nat.eq_dec j i) as [-> |NE].
                 ++ pose proof (kind_handle i u _ Hj Hn eq_refl) as K. assert (u = t) by congruence.
                    subst u. exact (B v Hv).
                 ++ apply (A j u Hj); [|exact Hp|exact Hv]. intros [K|K]; [now symmetry in K|now apply NX].
              -- intros u [<- | Hu]; [exact Hi|exact (B u Hu)].
              -- intros j Hj. apply C. now apply at_p_upd.
      Qed.

      Lemma set_precisions_all s : settled [] s ->
        forall u, In u N -> at_p (set_precisions p roots s) (ident u).
      Proof.
        intros Hs u Hu. destruct (passes_ok roots) with (X := @nil nat) (s := s) as [_ [B _]].
        - apply Forall_forall. intros t _. apply pass_ok_all.
        - intros t Ht. apply in_flat_map. exists t. split; [exact Ht|apply subtrees_self].
        - intros ? ? _ _ [].
        - exact Hs.
        - apply in_flat_map in Hu. destruct Hu as [t [Ht Hu]]. exact (B t u Ht Hu).
      Qed.
    End Pass.

    (** *** the invariant *)
    Definition uniform (w : world) : Prop := forall u, In u N -> prec (num (cells w (ident u))) = dflt w.
    (** a stored number is the exact value rounded to the precision it has *)
    Definition numbers_true (s : state) : Prop :=
      forall i x, In (TNum i x) N -> stored (s i) = true ->
                  num (s i) = mkNum (rnd (prec (num (s i))) x) (prec (num (s i))).

    Lemma num_other i x u : In (TNum i x) N -> In u N -> ident u = i -> u = TNum i x.
    Proof. intros H Hu E. destruct WF as [Inj _]. apply Inj; [exact Hu|exact H|exact E]. Qed.

    Lemma numbers_upd s i c : numbers_true s ->
      (forall x, In (TNum i x) N -> stored c = true -> num c = mkNum (rnd (prec (num c)) x) (prec (num c))) ->
      numbers_true (upd s i c).
    Proof.
      intros H Hc j x Hj St. destruct (Nat.eq_dec j i) as [-> |NE].
      - rewrite upd_same in St |- *. exact (Hc x Hj St).
      - rewrite upd_other in St |- * by exact NE. exact (H j x Hj St).
    Qed.

    Lemma numbers_set_precision p t : In t N -> forall s, numbers_true s -> numbers_true (set_precision p t s).
    Proof.
      induction t as [i x|i|i f ts IH|i t IH] using tree_ind'; intros Hn s Hs.
      - cbn [set_precision]. apply numbers_upd; [exact Hs|]. cbn [stored]. discriminate.
      - cbn [set_precision]. apply numbers_upd; [exact Hs|]. intros x Hx.
        pose proof (num_other i x _ Hx Hn eq_refl). discriminate.
      - rewrite set_precision_op.
        assert (H1 : numbers_true (upd s i (mkC (set_prec rnd p (num (s i))) (stored (s i))))).
        { apply numbers_upd; [exact Hs|]. intros x Hx. pose proof (num_other i x _ Hx Hn eq_refl). discriminate. }
        revert H1. generalize (upd s i (mkC (set_prec rnd p (num (s i))) (stored (s i)))).
        assert (Hts : forall t, In t ts -> In t N).
        { intros t Ht. apply (nodes_sub roots t (TOp i f ts)); [|exact Hn].
          cbn [subtrees]. right. apply in_flat_map. exists t. split; [exact Ht|apply subtrees_self]. }
        clear Hn Hs. induction IH as [|t r Ht _ IHr]; intros s0 H0; cbn [set_precisions]; [exact H0|].
        apply IHr; [intros u Hu; apply Hts; now right|]. apply Ht; [apply Hts; now left|exact H0].
      - cbn [set_precision]. destruct (_ =? _); [exact Hs|]. apply IH.
        + apply (nodes_sub roots t (THandle i t)); [|exact Hn]. cbn [subtrees]. right. apply subtrees_self.
        + apply numbers_upd; [exact Hs|]. intros x Hx. pose proof (num_other i x _ Hx Hn eq_refl). discriminate.
    Qed.

    Lemma numbers_set_precisions p ts : (forall t, In t ts -> In t N) ->
      forall s, numbers_true s -> numbers_true (set_precisions p ts s).
    Proof.
      induction ts as [|t r IH]; intros Hn s Hs; cbn [set_precisions]; [exact Hs|].
      apply IH; [intros u Hu; apply Hn; now right|]. apply numbers_set_precision; [apply Hn; now left|exact Hs].
    Qed.

    (** resetting changes no number, clears the flags of everything but the numbers, and sets none *)
    Lemma reset_num t : forall s j, num (reset t s j) = num (s j).
    Proof.
      induction t as [i x|i|i f ts IH|i t IH] using tree_ind'; intros s j.
      - reflexivity.
      - cbn [reset]. unfold upd. destruct (j =? i) eqn:E; [apply Nat.eqb_eq in E; now subst|reflexivity].
      - rewrite reset_op.
        assert (G : forall s0, num (resets ts s0 j) = num (s0 j)).
        { clear s. induction IH as [|t r Ht _ IHr]; intros s0; cbn [resets]; [reflexivity|].
          rewrite IHr. apply Ht. }
        rewrite G. unfold upd. destruct (j =? i) eqn:E; [apply Nat.eqb_eq in E; now subst|reflexivity].
      - cbn [reset]. rewrite IH. unfold upd.
        destruct (j =? i) eqn:E; [apply Nat.eqb_eq in E; now subst|reflexivity].
    Qed.
    Lemma resets_num ts : forall s j, num (resets ts s j) = num (s j).
    Proof. induction ts as [|t r IH]; intros s j; cbn [resets]; [reflexivity|]. now rewrite IH, reset_num. Qed.

    Lemma reset_keeps_false t : forall s j, stored (s j) = false -> stored (reset t s j) = false.
    Proof.
      assert (U : forall s i j x, stored (s j) = false -> stored (upd s i (mkC x false) j) = false).
      { intros s i j x H. unfold upd. now destruct (j =? i). }
      induction t as [i x|i|i f ts IH|i t IH] using tree_ind'; intros s j H.
      - exact H.
      - cbn [reset]. now apply U.
      - rewrite reset_op.
        assert (G : forall s0, stored (s0 j) = false -> stored (resets ts s0 j) = false).
        { clear s H. induction IH as [|t r Ht _ IHr]; intros s0 H0; cbn [resets]; [exact H0|]. now apply IHr, Ht. }
        apply G. now apply U.
      - cbn [reset]. apply IH. now apply U.
    Qed.
    Lemma resets_keeps_false ts : forall s j, stored (s j) = false -> stored (resets ts s j) = false.
    Proof. induction ts as [|t r IH]; intros s j H; cbn [resets]; [exact H|]. now apply IH, reset_keeps_false. Qed.

    Definition is_num (t : tree) : bool := match t with TNum _ _ => true | _ => false end.

    Lemma reset_clears t : forall s u, In u (subtrees t) -> is_num u = false -> stored (reset t s (ident u)) = false.
    Proof.
      induction t as [i x|i|i f ts IH|i t IH] using tree_ind'; intros s u Hu K.
      - destruct Hu as [<- | []]. discriminate.
      - destruct Hu as [<- | []]. cbn [reset ident]. now rewrite upd_same.
      - rewrite reset_op. destruct Hu as [<- | Hu].
        + cbn [ident]. apply resets_keeps_false. now rewrite upd_same.
        + apply in_flat_map in Hu. destruct Hu as [t [Ht Hu]].
          generalize (upd s i (mkC (num (s i)) false)). clear s.
          induction IH as [|t' r Ht' _ IHr]; intros s0; [destruct Ht|]. cbn [resets].
          destruct Ht as [-> | Ht]; [apply resets_keeps_false, Ht'; assumption|exact (IHr Ht _)].
      - cbn [reset]. destruct Hu as [<- | Hu].
        + cbn [ident]. apply reset_keeps_false. now rewrite upd_same.
        + now apply IH.
    Qed.
    Lemma resets_clears ts : forall s u, In u (nodes ts) -> is_num u = false -> stored (resets ts s (ident u)) = false.
    Proof.
      induction ts as [|t r IH]; intros s u Hu K; [destruct Hu|]. cbn [resets].
      unfold nodes in Hu. cbn [flat_map] in Hu. apply in_app_or in Hu. destruct Hu as [Hu|Hu].
      - apply resets_keeps_false. now apply reset_clears.
      - now apply IH.
    Qed.

    (** the flags of a reset: a number's flag is not touched *)
    Lemma numbers_resets s : numbers_true s -> numbers_true (resets roots s).
    Proof.
      intros H i x Hi St. rewrite resets_num. apply H; [exact Hi|].
      destruct (stored (s i)) eqn:E; [reflexivity|]. rewrite (resets_keeps_false roots s i E) in St. discriminate.
    Qed.

    (** *** evaluation *)
    (** evaluation keeps uniform precision and true numbers *)
    Lemma precs_all d l : l <> [] -> Forall (fun v => prec v = d) l -> precs l = d.
    Proof.
      intros NE HF. unfold precs. destruct HF as [|v r Hv HF]; [congruence|]. clear NE. cbn [map fold_right].
      rewrite Hv. assert (fold_right Nat.max 0 (map prec r) <= d).
      { clear Hv. induction HF as [|u r Hu HF IH]; cbn [map fold_right]; lia. }
      lia.
    Qed.

    Definition unif (d : nat) (s : state) : Prop := forall u, In u N -> prec (num (s (ident u))) = d.

    Lemma unif_upd d s i c : prec (num c) = d -> unif d s -> unif d (upd s i c).
    Proof.
      intros Hc H u Hu. destruct (Nat.eq_dec (ident u) i) as [-> |NE]; [now rewrite upd_same|].
      rewrite upd_other by exact NE. now apply H.
    Qed.

    Definition eval_keeps (d : nat) (t : tree) : Prop :=
      In t N -> forall s, unif d s -> numbers_true s ->
        prec (fst (eval d t s)) = d /\ unif d (snd (eval d t s)) /\ numbers_true (snd (eval d t s)).

    Lemma evals_keeps d ts : Forall (eval_keeps d) ts -> (forall t, In t ts -> In t N) ->
      forall s, unif d s -> numbers_true s ->
        Forall (fun v => prec v = d) (fst (evals d ts s)) /\ length (fst (evals d ts s)) = length ts /\
        unif d (snd (evals d ts s)) /\ numbers_true (snd (evals d ts s)).
    Proof.
      intros HF. induction HF as [|t r Ht HF IH]; intros Hn s Hu Hs; cbn [evals].
      - cbn [fst snd]. split; [constructor|]. split; [reflexivity|]. split; assumption.
      - destruct (Ht (Hn t (or_introl eq_refl)) s Hu Hs) as [A [B C]].
        destruct (eval d t s) as [v s1]. cbn [fst snd] in *.
        destruct (IH (fun u Hu' => Hn u (or_intror Hu')) s1 B C) as [A' [B' [C' D']]].
        destruct (evals d r s1) as [vs s2]. cbn [fst snd] in *.
        split; [constructor; assumption|]. split; [cbn [length]; lia|]. split; assumption.
    Qed.

    Lemma eval_keeps_all d t : eval_keeps d t.
    Proof.
      induction t as [i x|i|i f ts IH|i t IH] using tree_ind'; intros Hn s Hu Hs.
      - cbn [eval ident]. destruct (stored (s i)); cbn [fst snd].
        + split; [exact (Hu (TNum i x) Hn)|]. split; assumption.
        + split; [reflexivity|]. split; [now apply unif_upd|]. apply numbers_upd; [exact Hs|].
          intros y Hy _. pose proof (num_other i y _ Hy Hn eq_refl) as K. assert (x = y) by congruence. now subst.
      - cbn [eval ident]. destruct (stored (s i)); cbn [fst snd].
        + split; [exact (Hu (TVar i) Hn)|]. split; assumption.
        + split; [exact (Hu (TVar i) Hn)|]. split; [apply unif_upd; [exact (Hu (TVar i) Hn)|exact Hu]|].
          apply numbers_upd; [exact Hs|]. intros y Hy _.
          pose proof (num_other i y _ Hy Hn eq_refl). discriminate.
      - rewrite eval_op. destruct (stored (s i)); cbn [fst snd].
        + split; [exact (Hu (TOp i f ts) Hn)|]. split; assumption.
        + assert (Hts : forall t, In t ts -> In t N).
          { intros t Ht. apply (nodes_sub roots t (TOp i f ts)); [|exact Hn].
            cbn [subtrees]. right. apply in_flat_map. exists t. split; [exact Ht|apply subtrees_self]. }
          destruct (evals_keeps d ts IH Hts s Hu Hs) as [A [B [C D]]].
          destruct (evals d ts s) as [vs s']. cbn [fst snd] in *.
          assert (P : precs vs = d).
          { apply precs_all; [|exact A]. intros ->. destruct WF as [_ NE]. apply (NE i f ts Hn).
            destruct ts; [reflexivity|discriminate]. }
          split; [exact P|]. split; [now apply unif_upd|]. apply numbers_upd; [exact D|].
          intros y Hy _. pose proof (num_other i y _ Hy Hn eq_refl). discriminate.
      - cbn [eval ident]. destruct (stored (s i)); cbn [fst snd].
        + split; [exact (Hu (THandle i t) Hn)|]. split; assumption.
        + assert (Hn' : In t N).
          { apply (nodes_sub roots t (THandle i t)); [|exact Hn]. cbn [subtrees]. right. apply subtrees_self. }
          destruct (IH Hn' s Hu Hs) as [A [B C]]. destruct (eval d t s) as [v s']. cbn [fst snd] in *.
          split; [exact A|]. split; [now apply unif_upd|]. apply numbers_upd; [exact C|].
          intros y Hy _. pose proof (num_other i y _ Hy Hn eq_refl). discriminate.
    Qed.

    Definition good (w : world) : Prop := unif (dflt w) (cells w) /\ numbers_true (cells w).

    Lemma good_step w o : good w -> good (tstep roots w o).
    Proof.
      intros [Hu Hs]. destruct o as [p|i v| |k]; cbn [tstep].
      - split; cbn [dflt cells].
        + destruct (Nat.eq_dec (dflt w) p) as [E|NE].
          * intros u HuN. apply (set_precisions_all p (cells w)); [|exact HuN].
            intros i t Hi _ _ v Hv. unfold at_p. rewrite <- E. apply Hu.
            apply (nodes_sub roots v (THandle i t)); [cbn [subtrees]; now right|exact Hi].
          * intros u HuN. apply (set_precisions_all p (cells w)); [|exact HuN].
            intros i t Hi _ Hp. exfalso. apply NE. rewrite <- Hp. symmetry. exact (Hu _ Hi).
        + apply numbers_set_precisions; [|exact Hs]. intros t Ht. apply in_flat_map.
          exists t. split; [exact Ht|apply subtrees_self].
      - destruct (is_var roots i) eqn:V1; [|split; assumption]. split; cbn [dflt cells].
        + now apply unif_upd.
        + unfold set_value. apply numbers_upd; [exact Hs|]. intros x Hx _.
          unfold is_var in V1. apply existsb_exists in V1. destruct V1 as [t [Ht K]].
          destruct t as [|j| |]; try discriminate. apply Nat.eqb_eq in K. subst j.
          pose proof (num_other i x _ Hx Ht eq_refl). discriminate.
      - split; cbn [dflt cells].
        + intros u HuN. rewrite resets_num. now apply Hu.
        + now apply numbers_resets.
      - destruct (nth_error roots k) as [t|] eqn:E; [|split; assumption].
        assert (Hn : In t N).
        { apply in_flat_map. exists t. split; [exact (nth_error_In _ _ E)|apply subtrees_self]. }
        destruct (eval_keeps_all (dflt w) t Hn (cells w) Hu Hs) as [_ [B C]].
        split; cbn [dflt cells]; assumption.
    Qed.

    Lemma good_run l : forall w, good w -> good (trun roots w l).
    Proof. induction l as [|o r IH]; intros w H; [exact H|]. apply IH. now apply good_step. Qed.

    Lemma fresh_good d w : fresh_world d w -> good w.
    Proof.
      intros [E H]. split.
      - intros u _. rewrite E. apply H.
      - intros i x _ St. rewrite (proj2 (H i)) in St. discriminate.
    Qed.

    (** *** evaluation after a reset gives the reference value *)
    Section Exact.
      Variables (d : nat) (vars : nat -> V).
      (** whatever is stored is the reference value; the variables have their values *)
      Definition faithful (s : state) : Prop :=
        unif d s /\
        (forall i, In (TVar i) N -> val (num (s i)) = vars i) /\
        (forall u, In u N -> stored (s (ident u)) = true -> num (s (ident u)) = mkNum (reference d vars u) d).

      Lemma faithful_upd s u v : faithful s -> In u N -> is_num u = is_num u ->
        (forall i, u = TVar i -> val v = vars i) -> v = mkNum (reference d vars u) d ->
        faithful (upd s (ident u) (mkC v true)).
      Proof.
        intros [Hu [Hv Hs]] Hn _ HV E. split; [|split].
        - apply unif_upd; [cbn [num]; now rewrite E|exact Hu].
        - intros i Hi. destruct (Nat.eq_dec i (ident u)) as [-> |NE].
          + rewrite upd_same. cbn [num]. destruct WF as [Inj _].
            apply HV. symmetry. exact (Inj _ _ Hi Hn eq_refl).
          + rewrite upd_other by exact NE. now apply Hv.
        - intros w Hw St. destruct (Nat.eq_dec (ident w) (ident u)) as [EQ|NE].
          + destruct WF as [Inj _]. assert (w = u) by (exact (Inj _ _ Hw Hn EQ)). subst w.
            rewrite upd_same. exact E.
          + rewrite upd_other in St |- * by exact NE. now apply Hs.
      Qed.

      Definition eval_exact (t : tree) : Prop :=
        In t N -> forall s, faithful s ->
          fst (eval d t s) = mkNum (reference d vars t) d /\ faithful (snd (eval d t s)).

      Lemma evals_exact ts : Forall eval_exact ts -> (forall t, In t ts -> In t N) ->
        forall s, faithful s ->
          fst (evals d ts s) = map (fun t => mkNum (reference d vars t) d) ts /\ faithful (snd (evals d ts s)).
      Proof.
        intros HF. induction HF as [|t r Ht HF IH]; intros Hn s Hs; cbn [evals map]; [now split|].
        destruct (Ht (Hn t (or_introl eq_refl)) s Hs) as [A B]. destruct (eval d t s) as [v s1].
        cbn [fst snd] in *. destruct (IH (fun u Hu => Hn u (or_intror Hu)) s1 B) as [A' B'].
        destruct (evals d r s1) as [vs s2]. cbn [fst snd] in *. split; [congruence|exact B'].
      Qed.

      Lemma eval_exact_all t : eval_exact t.
      Proof.
        induction t as [i x|i|i f ts IH|i t IH] using tree_ind'; intros Hn s Hs;
          destruct Hs as [Hu [Hv Hst]]; assert (Hs : faithful s) by (split; [|split]; assumption).
        - cbn [eval ident]. destruct (stored (s i)) eqn:St; cbn [fst snd].
          + split; [exact (Hst (TNum i x) Hn St)|exact Hs].
          + split; [reflexivity|]. apply (faithful_upd s (TNum i x)); auto. discriminate.
        - cbn [eval ident]. destruct (stored (s i)) eqn:St; cbn [fst snd].
          + split; [exact (Hst (TVar i) Hn St)|exact Hs].
          + assert (E : num (s i) = mkNum (reference d vars (TVar i)) d).
            { cbn [reference]. rewrite <- (Hv i Hn), <- (Hu (TVar i) Hn). cbn [ident]. now destruct (num (s i)). }
            split; [exact E|]. apply (faithful_upd s (TVar i)); auto. intros j K. injection K as <-. now apply Hv.
        - rewrite eval_op. destruct (stored (s i)) eqn:St; cbn [fst snd].
          + split; [exact (Hst (TOp i f ts) Hn St)|exact Hs].
          + assert (Hts : forall t, In t ts -> In t N).
            { intros t Ht. apply (nodes_sub roots t (TOp i f ts)); [|exact Hn].
              cbn [subtrees]. right. apply in_flat_map. exists t. split; [exact Ht|apply subtrees_self]. }
            destruct (evals_exact ts IH Hts s Hs) as [A B]. destruct (evals d ts s) as [vs s'].
            cbn [fst snd] in *.
            assert (P : precs vs = d).
            { rewrite A. apply precs_all.
              - destruct WF as [_ NE]. intros K. apply (NE i f ts Hn). now destruct ts.
              - apply Forall_forall. intros v Hv'. apply in_map_iff in Hv'. now destruct Hv' as [t [<- _]]. }
            assert (E : combine f vs = mkNum (reference d vars (TOp i f ts)) d).
            { unfold combine. rewrite P, A, map_map. cbn [val reference]. reflexivity. }
            split; [exact E|]. apply (faithful_upd s' (TOp i f ts)); auto. discriminate.
        - cbn [eval ident]. destruct (stored (s i)) eqn:St; cbn [fst snd].
          + split; [exact (Hst (THandle i t) Hn St)|exact Hs].
          + assert (Hn' : In t N).
            { apply (nodes_sub roots t (THandle i t)); [|exact Hn]. cbn [subtrees]. right. apply subtrees_self. }
            destruct (IH Hn' s Hs) as [A B]. destruct (eval d t s) as [v s']. cbn [fst snd] in *.
            split; [exact A|]. apply (faithful_upd s' (THandle i t)); auto. discriminate.
      Qed.
    End Exact.

    Lemma eval_after_reset w k t : good w -> nth_error roots k = Some t ->
      fst (eval (dflt w) t (resets roots (cells w))) =
      mkNum (reference (dflt w) (fun i => val (num (cells w i))) t) (dflt w).
    Proof.
      intros [Hu Hs] Hk.
      assert (Hn : In t N).
      { apply in_flat_map. exists t. split; [exact (nth_error_In _ _ Hk)|apply subtrees_self]. }
      apply eval_exact_all; [exact Hn|]. split; [|split].
      - intros u HuN. rewrite resets_num. now apply Hu.
      - intros i _. now rewrite resets_num.
      - intros u HuN St. destruct (is_num u) eqn:K.
        + destruct u as [i x| | |]; try discriminate. cbn [ident] in *.
          pose proof (numbers_resets _ Hs i x HuN St) as E. rewrite resets_num in E |- *.
          rewrite E. pose proof (Hu (TNum i x) HuN) as Q. cbn [ident] in Q. rewrite Q. reflexivity.
        + rewrite (resets_clears roots (cells w) u HuN K) in St. discriminate.
    Qed.
  End Roots.

  (** ** The products of linears, linear_product.hpp:319-329 and 735-753 *)
  Record linprod := mkLP {
    coeffs : list (@mpnum V);      (* the multiprecision coefficients used for evaluation *)
    rationals : option (list V);   (* exact coefficients; none when built from multiprecision numbers *)
    value : @mpnum V
  }.
  (** linear_product.hpp:743 copies the matrix of coefficients and changes the copy; lines 748-750 read the rational
      coefficients without looking whether there are any ([None]: undefined behaviour) *)
  Definition linprod_precision (p : nat) (l : linprod) : option linprod :=
    match rationals l with
    | Some _ => Some (mkLP (coeffs l) (rationals l) (set_prec rnd p (value l)))
    | None => match coeffs l with
              | [] => Some (mkLP [] None (set_prec rnd p (value l)))
              | _ => None
              end
    end.
  (** linear_product.hpp:82-136: a new one, with default precision [d] *)
  Definition linprod_make (d : nat) (exact : list V) (v0 : V) : linprod :=
    mkLP (map (fun x => mkNum (rnd d x) d) exact) (Some exact) (mkNum v0 d).
  Fixpoint linprod_precisions (l : list nat) (x : linprod) : option linprod :=
    match l with
    | [] => Some x
    | p :: r => match linprod_precision p x with Some y => linprod_precisions r y | None => None end
    end.

  (** ** The constants of a straight line program, straight_line_program.cpp:68-90
      The number nodes are evaluated as they are, at the default precision; then all of the memory gets
      the new precision. *)
  Record slp := mkS { sprec : nat; smem : list (@mpnum V); snums : list (tree * nat) }.
  Fixpoint write {A} (l : list A) (k : nat) (x : A) : list A :=
    match l, k with
    | [], _ => []
    | _ :: r, 0 => x :: r
    | y :: r, S k => y :: write r k x
    end.
  Fixpoint copy_numbers (d : nat) (l : list (tree * nat)) (mem : list (@mpnum V)) (s : state)
    : list (@mpnum V) * state :=
    match l with
    | [] => (mem, s)
    | (t, loc) :: r => let (v, s') := eval d t s in copy_numbers d r (write mem loc v) s'
    end.
  Definition slp_precision (d p : nat) (x : slp) (s : state) : slp * state :=
    if p =? sprec x then (x, s)
    else let (mem, s') := copy_numbers d (snums x) (smem x) s in
         (mkS p (map (set_prec rnd p) mem) (snums x), s').

  Lemma write_length {A} (l : list A) k x : length (write l k x) = length l.
  Proof. revert k. induction l as [|y r IH]; intros [|k]; cbn [write length]; auto. Qed.
  Lemma write_same {A} (l : list A) k x : k < length l -> nth_error (write l k x) k = Some x.
  Proof.
    revert k. induction l as [|y r IH]; intros [|k] H; cbn [write length nth_error] in *; try lia; [reflexivity|].
    apply IH. lia.
  Qed.
  Lemma write_other {A} (l : list A) k j x : j <> k -> nth_error (write l k x) j = nth_error l j.
  Proof.
    revert k j. induction l as [|y r IH]; intros [|k] [|j] H; cbn [write nth_error]; try reflexivity; try lia.
    apply IH. lia.
  Qed.

  (** number nodes whose stored values, if any, are their exact values rounded to [d] digits *)
  Definition numbers_at (d : nat) (l : list (tree * nat)) (s : state) : Prop :=
    Forall (fun q => exists i x, fst q = TNum i x /\ (stored (s i) = true -> num (s i) = mkNum (rnd d x) d)) l.

  Lemma copy_other d l : forall mem s j, ~ In j (map snd l) ->
    nth_error (fst (copy_numbers d l mem s)) j = nth_error mem j.
  Proof.
    induction l as [|[t loc] r IH]; intros mem s j H; cbn [copy_numbers]; [reflexivity|].
    destruct (eval d t s) as [v s']. rewrite IH by (intros K; apply H; now right).
    apply write_other. intros ->. apply H. now left.
  Qed.

  Lemma copy_all d l : forall mem s,
    (forall i x y, In (TNum i x) (map fst l) -> In (TNum i y) (map fst l) -> x = y) ->
    NoDup (map snd l) -> (forall loc, In loc (map snd l) -> loc < length mem) -> numbers_at d l s ->
    forall i x loc, In (TNum i x, loc) l ->
      nth_error (fst (copy_numbers d l mem s)) loc = Some (mkNum (rnd d x) d).
  Proof.
    induction l as [|[t loc0] r IH]; intros mem s Inj ND Hl HN i x loc H; [destruct H|].
    cbn [copy_numbers]. unfold numbers_at in HN. inversion HN as [|? ? Hq HN']; subst.
    destruct Hq as [i0 [x0 [E St]]]. cbn [fst] in E. subst t.
    assert (Ev : exists s', eval d (TNum i0 x0) s = (mkNum (rnd d x0) d, s') /\ (s' = s \/ s' = upd s i0 (mkC (mkNum (rnd d x0) d) true))).
    { cbn [eval ident]. destruct (stored (s i0)) eqn:K.
      - exists s. rewrite (St eq_refl). split; [reflexivity|now left].
      - eexists. split; [reflexivity|now right]. }
    destruct Ev as [s' [Ev Hs']]. rewrite Ev.
    cbn [map snd] in ND. inversion ND as [|? ? NI ND']; subst.
    destruct H as [H|H].
    - injection H as -> -> ->. rewrite copy_other by exact NI. apply write_same. apply Hl. now left.
    - apply (IH (write mem loc0 (mkNum (rnd d x0) d)) s') with (i := i); [| exact ND' | | |exact H].
      + intros j a b Ha Hb. apply (Inj j); now right.
      + intros k Hk. rewrite write_length. apply Hl. now right.
      + unfold numbers_at. apply Forall_forall. intros q Hq. rewrite Forall_forall in HN'.
        destruct (HN' q Hq) as [j [y [E K]]]. exists j, y. split; [exact E|].
        destruct Hs' as [-> | ->]; [exact K|]. destruct (Nat.eq_dec j i0) as [-> |NE].
        * rewrite upd_same. cbn [num]. intros _. f_equal. f_equal. apply (Inj i0); [now left|]. right.
          rewrite <- E. now apply in_map.
        * rewrite upd_other by exact NE. exact K.
  Qed.

  Lemma slp_constants p x s :
    sprec x <> p -> (forall i a b, In (TNum i a) (map fst (snums x)) -> In (TNum i b) (map fst (snums x)) -> a = b) ->
    NoDup (map snd (snums x)) -> (forall loc, In loc (map snd (snums x)) -> loc < length (smem x)) ->
    numbers_at p (snums x) s ->
    sprec (fst (slp_precision p p x s)) = p /\
    Forall (fun m => prec m = p) (smem (fst (slp_precision p p x s))) /\
    forall i a loc, In (TNum i a, loc) (snums x) ->
      nth_error (smem (fst (slp_precision p p x s))) loc = Some (mkNum (rnd p (rnd p a)) p).
  Proof.
    intros NE Inj ND Hl HN. unfold slp_precision.
    destruct (p =? sprec x) eqn:E; [apply Nat.eqb_eq in E; congruence|].
    pose proof (copy_all p (snums x) (smem x) s Inj ND Hl HN) as C.
    destruct (copy_numbers p (snums x) (smem x) s) as [mem s']. cbn [fst sprec smem] in *.
    split; [reflexivity|]. split.
    - apply Forall_forall. intros m Hm. apply in_map_iff in Hm. now destruct Hm as [q [<- _]].
    - intros i a loc H. rewrite nth_error_map, (C i a loc H). reflexivity.
  Qed.

  (** the coefficients of a product of linears never change *)
  Lemma linprod_fixed l : forall x y, linprod_precisions l x = Some y -> coeffs y = coeffs x.
  Proof.
    induction l as [|p r IH]; intros x y H; cbn [linprod_precisions] in H; [now injection H as <-|].
    destruct (linprod_precision p x) as [z|] eqn:E; [|discriminate]. rewrite (IH z y H).
    unfold linprod_precision in E. destruct (rationals x); [now injection E as <-|].
    destruct (coeffs x) eqn:C; [injection E as <-; reflexivity|discriminate].
  Qed.

  Lemma run_uniform d roots w l : well_formed roots -> fresh_world d w ->
    forall u, In u (nodes roots) -> prec (num (cells (trun roots w l) (ident u))) = dflt (trun roots w l).
  Proof. intros WF F. destruct (good_run roots WF l w (fresh_good roots d w F)) as [H _]. exact H. Qed.

  Lemma run_reference d roots w l k t : well_formed roots -> fresh_world d w -> nth_error roots k = Some t ->
    let w' := trun roots w l in
    fst (eval (dflt w') t (cells (tstep roots w' ResetAll))) =
    mkNum (reference (dflt w') (fun i => val (num (cells w' i))) t) (dflt w').
  Proof.
    intros WF F Hk w'. apply (eval_after_reset roots WF w' k t); [|exact Hk].
    exact (good_run roots WF l w (fresh_good roots d w F)).
  Qed.
End PrecTree.
