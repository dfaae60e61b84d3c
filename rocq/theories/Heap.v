(** Function graphs with cached values: Eval, Reset, variable assignment and Jacobian evaluation.

    Models core/src/function_tree/node.cpp:68-90 and the Reset / FreshEval functions of the node classes.
    A node is identified by its position in a list (its address); nodes are shared by address, exactly as the
    shared_ptrs of the code.  Children come before their parents (a graph of shared_ptrs built bottom up has
    no cycles, so it can be numbered this way).  Simplifications: evaluation is exact and the two number types
    have the same values (a cache per type is kept, as in the code); precision changes are not modelled;
    LinearProduct nodes are modelled separately. *)
From Coq Require Import List Arith Lia ZArith Bool.
From Verif Require Import Base Expr Homog.
Import ListNotations.

(** the two number types of Node::current_value_, node.hpp:325 *)
Inductive numtype := Dbl | Mp.

Definition numtype_eqb (a b : numtype) : bool :=
  match a, b with Dbl, Dbl | Mp, Mp => true | _, _ => false end.

Section Heap.
  Context {F : fld}.
  Variable fs : funs F.

  (** node classes; operands are addresses *)
  Inductive gnode :=
  | GNum (k : num_kind) (c : F)
  | GVar
  | GDiff (x : nat)                    (* symbols/differential.hpp, for the variable at address x *)
  | GSum (ops : list (bool * nat))
  | GMul (ops : list (bool * nat))
  | GNeg (a : nat)
  | GIPow (a : nat) (n : Z)
  | GPow (b e : nat)
  | GFun (k : fun_kind) (a : nat)
  | GHandle (a : nat).                 (* Function, Jacobian *)

  Definition graph := list gnode.

  Definition children (nd : gnode) : list nat :=
    match nd with
    | GNum _ _ | GVar | GDiff _ => []
    | GSum ops | GMul ops => map snd ops
    | GNeg a | GIPow a _ | GFun _ a | GHandle a => [a]
    | GPow b e => [b; e]
    end.

  (** current_value_ of every node and number type, and current_diff_variable_ of Jacobian nodes
      (roots/jacobian.hpp).  A value which is not finite is [None]. *)
  Record gstate := mkG {
    cache : numtype -> nat -> option F * bool;
    jdv : nat -> option nat
  }.

  Definition store (st : gstate) (T : numtype) (n : nat) (v : option F) (flag : bool) : gstate :=
    mkG (fun T' m => if numtype_eqb T' T && Nat.eqb m n then (v, flag) else cache st T' m) (jdv st).

  (** Node::ResetStoredValues, node.cpp:100-104 *)
  Definition clear (st : gstate) (n : nat) : gstate :=
    mkG (fun T m => if Nat.eqb m n then (fst (cache st T m), false) else cache st T m) (jdv st).

  (** Reset of each class: number.cpp:36-39 (nothing), variable.cpp:102-105, differential.cpp:39-42,
      operator.cpp:33-37 and 138-143, arithmetic.cpp:941-946, function.cpp:110-116.  Fuel bounds the
      recursion; [None] is a dangling address. *)
  Fixpoint reset (G : graph) (fuel : nat) (st : gstate) (n : nat) : option gstate :=
    match fuel with
    | O => None
    | S k =>
        match nth_error G n with
        | None => None
        | Some (GNum _ _) => Some st
        | Some nd =>
            fold_left (fun acc c => match acc with Some s => reset G k s c | None => None end)
                      (children nd) (Some (clear st n))
        end
    end.

  (** evaluation of the operands of a sum or product in order, arithmetic.cpp:381-397, 874-891 *)
  Fixpoint eval_ops (f : gstate -> nat -> option (gstate * option F)) (ops : list (bool * nat)) (st : gstate)
    : option (gstate * list (bool * option F)) :=
    match ops with
    | [] => Some (st, [])
    | (s, a) :: r =>
        match f st a with
        | None => None
        | Some (st1, v) =>
            match eval_ops f r st1 with
            | None => None
            | Some (st2, l) => Some (st2, (s, v) :: l)
            end
        end
    end.

  (** Node::EvalInPlace, node.cpp:68-79, with the FreshEval of each class.  The exponent of a PowerOperator is
      evaluated first and without the differentiation variable (arithmetic.cpp:1083-1090). *)
  Fixpoint geval (G : graph) (fuel : nat) (T : numtype) (dv : option nat) (st : gstate) (n : nat)
    : option (gstate * option F) :=
    match fuel with
    | O => None
    | S k =>
        if snd (cache st T n) then Some (st, fst (cache st T n))
        else
          let finish (r : option (gstate * option F)) :=
            match r with Some (st', v) => Some (store st' T n v true, v) | None => None end in
          let unary (a : nat) (f : F -> option F) :=
            match geval G k T dv st a with
            | Some (st', Some x) => Some (st', f x)
            | Some (st', None) => Some (st', None)
            | None => None
            end in
          match nth_error G n with
          | None => None
          | Some (GNum _ c) => finish (Some (st, Some c))
          | Some GVar => finish (Some (st, fst (cache st T n)))
          | Some (GDiff x) => finish (Some (st, Some (match dv with
                                                      | Some y => if Nat.eqb x y then @f1 F else @f0 F
                                                      | None => @f0 F end)))
          | Some (GSum ops) => finish (match eval_ops (geval G k T dv) ops st with
                                       | Some (st', l) => Some (st', sum_val l) | None => None end)
          | Some (GMul ops) => finish (match eval_ops (geval G k T dv) ops st with
                                       | Some (st', l) => Some (st', mul_val l) | None => None end)
          | Some (GNeg a) => finish (unary a (fun x => Some (fopp x)))
          | Some (GIPow a z) => finish (unary a (fun x => fpowZ x z))
          | Some (GFun f a) => finish (unary a (fn fs f))
          | Some (GHandle a) => finish (geval G k T dv st a)
          | Some (GPow b e) =>
              finish (match geval G k T None st e with
                      | None => None
                      | Some (st1, ve) =>
                          match geval G k T dv st1 b with
                          | None => None
                          | Some (st2, vb) =>
                              Some (st2, match vb, ve with Some x, Some y => pw fs x y | _, _ => None end)
                          end
                      end)
          end
    end.

  (** Jacobian::EvalJ, jacobian.cpp:41-57; [n] is a Jacobian node *)
  Definition evalJ (G : graph) (fuel : nat) (T : numtype) (dv : option nat) (st : gstate) (n : nat)
    : option (gstate * option F) :=
    let same := match jdv st n, dv with
                | Some x, Some y => Nat.eqb x y | None, None => true | _, _ => false end in
    if same && snd (cache st T n) then Some (st, fst (cache st T n))
    else
      match nth_error G n with
      | Some (GHandle a) =>
          match reset G fuel (mkG (cache st) (fun m => if Nat.eqb m n then dv else jdv st m)) n with
          | None => None
          | Some st1 =>
              match geval G fuel T dv st1 a with
              | None => None
              | Some (st2, v) => Some (store st2 T n v true, v)
              end
          end
      | _ => None
      end.

  (** Variable::set_current_value<T>, variable.cpp:50-60 *)
  Definition set_value (st : gstate) (T : numtype) (x : nat) (v : F) : gstate := store st T x (Some v) false.

  (** what a user can do with the nodes *)
  Inductive gop :=
  | SetVar (T : numtype) (x : nat) (v : F)
  | Reset (n : nat)
  | Eval (T : numtype) (dv : option nat) (n : nat)
  | EvalJ (T : numtype) (dv : option nat) (n : nat).

  Definition gstep (G : graph) (st : gstate) (o : gop) : option gstate :=
    match o with
    | SetVar T x v => match nth_error G x with Some GVar => Some (set_value st T x v) | _ => None end
    | Reset n => reset G (S (length G)) st n
    | Eval T dv n => option_map fst (geval G (S (length G)) T dv st n)
    | EvalJ T dv n => option_map fst (evalJ G (S (length G)) T dv st n)
    end.

  Definition grun (G : graph) (st : gstate) (h : list gop) : option gstate :=
    fold_left (fun acc o => match acc with Some s => gstep G s o | None => None end) h (Some st).

  (** freshly constructed nodes: no valid cached value; variables have some value *)
  Definition ginit (sigma : numtype -> env F) : gstate := mkG (fun T n => (Some (sigma T n), false)) (fun _ => None).

  (** the values returned *)
  Definition eval_result (G : graph) (st : gstate) (T : numtype) (dv : option nat) (n : nat) : option (option F) :=
    option_map snd (geval G (S (length G)) T dv st n).
  Definition evalJ_result (G : graph) (st : gstate) (T : numtype) (dv : option nat) (n : nat) : option (option F) :=
    option_map snd (evalJ G (S (length G)) T dv st n).

  (** ** Specification *)

  (** children before parents, no dangling address *)
  Definition well_founded_graph (G : graph) : Prop :=
    forall n nd c, nth_error G n = Some nd -> In c (children nd) -> c < n.

  (** the expression a node stands for, when differentiating with respect to [dv]: the graph is copied out
      into a tree; variables keep their address as name; a differential is the constant 1 or 0 *)
  Fixpoint unfold (fuel : nat) (G : graph) (dv : option nat) (n : nat) : option (expr F) :=
    match fuel with
    | O => None
    | S k =>
        let list ops := sequence (map (fun p : bool * nat => match unfold k G dv (snd p) with
                                        | Some e => Some (fst p, e) | None => None end) ops) in
        match nth_error G n with
        | None => None
        | Some (GNum kd c) => Some (Num kd c)
        | Some GVar => Some (Var n)
        | Some (GDiff x) => Some (Num KInteger (match dv with
                                                | Some y => if Nat.eqb x y then @f1 F else @f0 F
                                                | None => @f0 F end))
        | Some (GSum ops) => option_map Sum (list ops)
        | Some (GMul ops) => option_map Mul (list ops)
        | Some (GNeg a) => option_map Neg (unfold k G dv a)
        | Some (GIPow a z) => option_map (fun e => IPow e z) (unfold k G dv a)
        | Some (GFun f a) => option_map (Fun f) (unfold k G dv a)
        | Some (GHandle a) => option_map Handle (unfold k G dv a)
        | Some (GPow b e) => match unfold k G dv b, unfold k G dv e with
                             | Some b', Some e' => Some (Pow b' e') | _, _ => None end
        end
    end.

  Definition unfolds (G : graph) (dv : option nat) (n : nat) (e : expr F) : Prop :=
    exists k, unfold k G dv n = Some e.

  (** no Differential below the node *)
  Inductive plain (G : graph) : nat -> Prop :=
  | plain_intro : forall n nd, nth_error G n = Some nd -> (forall x, nd <> GDiff x) ->
      (forall c, In c (children nd) -> plain G c) -> plain G n.

  (** exponents contain no Differentials (true of every tree Differentiate produces) *)
  Definition plain_exponents (G : graph) : Prop :=
    forall n b e, nth_error G n = Some (GPow b e) -> plain G e.

  (** the last value assigned to each variable *)
  Fixpoint assigned (sigma : numtype -> env F) (h : list gop) : numtype -> env F :=
    match h with
    | [] => sigma
    | SetVar T x v :: r =>
        assigned (fun T' y => if numtype_eqb T' T && Nat.eqb y x then v else sigma T' y) r
    | _ :: r => assigned sigma r
    end.

  (** operations which neither assign type-[T] values nor evaluate them for another differentiation variable *)
  Definition quiet (T : numtype) (dv : option nat) (o : gop) : Prop :=
    match o with
    | SetVar T' _ _ => T' <> T
    | Reset _ => True
    | Eval T' dv' _ => T' = T -> dv' = dv
    | EvalJ T' dv' _ => T' = T -> dv' = dv
    end.

  (** operations which do not assign type-[T] values, nor evaluate the Jacobian node [j] with the plain Eval *)
  Definition leaves_jacobian (T : numtype) (j : nat) (o : gop) : Prop :=
    match o with
    | SetVar T' _ _ => T' <> T
    | Eval _ _ n => n <> j
    | _ => True
    end.

  (** ** Proofs *)
  Lemma numtype_eqb_eq : forall a b, numtype_eqb a b = true <-> a = b.
  Proof. intros [] []; split; intro H; try reflexivity; try discriminate. Qed.

  Lemma numtype_eqb_refl : forall a, numtype_eqb a a = true.
  Proof. intros []; reflexivity. Qed.

  Lemma cache_store_same : forall st T n v b, cache (store st T n v b) T n = (v, b).
  Proof. intros. cbn. rewrite numtype_eqb_refl, Nat.eqb_refl. reflexivity. Qed.

  Lemma cache_store_other : forall st T n v b T' m, T' <> T \/ m <> n -> cache (store st T n v b) T' m = cache st T' m.
  Proof.
    intros st T n v b T' m H. cbn. destruct (numtype_eqb T' T && Nat.eqb m n) eqn:E; [|reflexivity].
    apply andb_prop in E as [E1 E2]. apply numtype_eqb_eq in E1. apply Nat.eqb_eq in E2. destruct H; contradiction.
  Qed.

  (** more fuel does not change an unfolding *)
  Lemma sequence_map_mono : forall (A B : Type) (f g : A -> option B) l s,
    (forall a b, In a l -> f a = Some b -> g a = Some b) -> sequence (map f l) = Some s -> sequence (map g l) = Some s.
  Proof.
    intros A B f g l. induction l as [|a l IH]; intros s H E; cbn in *; [assumption|].
    destruct (f a) as [b|] eqn:Ef; [|discriminate]. rewrite (H a b (or_introl eq_refl) Ef).
    destruct (sequence (map f l)) as [r|] eqn:Er; [|discriminate].
    rewrite (IH r (fun a' b' Hi => H a' b' (or_intror Hi)) eq_refl). exact E.
  Qed.

  Lemma unfold_mono : forall k G dv n e, unfold k G dv n = Some e -> forall k', k <= k' -> unfold k' G dv n = Some e.
  Proof.
    induction k as [|k IH]; intros G dv n e H k' Hk; [discriminate|].
    destruct k' as [|k']; [lia|]. cbn [unfold] in *.
    assert (L : forall ops l, sequence (map (fun p : bool * nat => match unfold k G dv (snd p) with
                  | Some e => Some (fst p, e) | None => None end) ops) = Some l ->
                sequence (map (fun p : bool * nat => match unfold k' G dv (snd p) with
                  | Some e => Some (fst p, e) | None => None end) ops) = Some l).
    { intros ops l. apply sequence_map_mono. intros [s a] b _. cbn [fst snd].
      destruct (unfold k G dv a) eqn:E; [|discriminate]. rewrite (IH _ _ _ _ E k' ltac:(lia)). auto. }
    destruct (nth_error G n) as [[kd c| |x|ops|ops|a|a z|b a|f a|a]|]; try exact H.
    - destruct (sequence _) as [l|] eqn:E in H; [|discriminate]. rewrite (L _ _ E). exact H.
    - destruct (sequence _) as [l|] eqn:E in H; [|discriminate]. rewrite (L _ _ E). exact H.
    - destruct (unfold k G dv a) eqn:E; [|discriminate]. rewrite (IH _ _ _ _ E k' ltac:(lia)). exact H.
    - destruct (unfold k G dv a) eqn:E; [|discriminate]. rewrite (IH _ _ _ _ E k' ltac:(lia)). exact H.
    - destruct (unfold k G dv b) eqn:E1; [|discriminate]. destruct (unfold k G dv a) eqn:E2; [|discriminate].
      rewrite (IH _ _ _ _ E1 k' ltac:(lia)), (IH _ _ _ _ E2 k' ltac:(lia)). exact H.
    - destruct (unfold k G dv a) eqn:E; [|discriminate]. rewrite (IH _ _ _ _ E k' ltac:(lia)). exact H.
    - destruct (unfold k G dv a) eqn:E; [|discriminate]. rewrite (IH _ _ _ _ E k' ltac:(lia)). exact H.
  Qed.

  Lemma unfolds_fun : forall G dv n e e', unfolds G dv n e -> unfolds G dv n e' -> e = e'.
  Proof.
    intros G dv n e e' [k H] [k' H'].
    pose proof (unfold_mono _ _ _ _ _ H (k + k') ltac:(lia)) as A.
    pose proof (unfold_mono _ _ _ _ _ H' (k + k') ltac:(lia)) as B. congruence.
  Qed.

  (** below a plain node the differentiation variable does not matter *)
  Lemma unfold_plain : forall k G dv dv' n, plain G n -> unfold k G dv n = unfold k G dv' n.
  Proof.
    induction k as [|k IH]; intros G dv dv' n H; [reflexivity|]. destruct H as [n nd Hn Hd Hc].
    cbn [unfold]. rewrite Hn.
    assert (L : forall ops : list (bool * nat), (forall p, In p ops -> plain G (snd p)) ->
      map (fun p : bool * nat => match unfold k G dv (snd p) with Some e => Some (fst p, e) | None => None end) ops =
      map (fun p : bool * nat => match unfold k G dv' (snd p) with Some e => Some (fst p, e) | None => None end) ops).
    { intros ops Ho. apply map_ext_in. intros p Hp. rewrite (IH G dv dv' (snd p) (Ho p Hp)). reflexivity. }
    destruct nd as [kd c| |x|ops|ops|a|a z|b a|f a|a]; try reflexivity; cbn [children] in Hc.
    - exfalso. exact (Hd x eq_refl).
    - rewrite L; [reflexivity|]. intros p Hp. apply Hc. apply in_map. exact Hp.
    - rewrite L; [reflexivity|]. intros p Hp. apply Hc. apply in_map. exact Hp.
    - rewrite (IH G dv dv' a); [reflexivity|]. apply Hc. left; reflexivity.
    - rewrite (IH G dv dv' a); [reflexivity|]. apply Hc. left; reflexivity.
    - rewrite (IH G dv dv' a), (IH G dv dv' b); [reflexivity| |]; apply Hc; cbn; auto.
    - rewrite (IH G dv dv' a); [reflexivity|]. apply Hc. left; reflexivity.
    - rewrite (IH G dv dv' a); [reflexivity|]. apply Hc. left; reflexivity.
  Qed.

  (** every node of a well founded graph stands for an expression *)
  Lemma unfold_exists : forall G, well_founded_graph G -> forall dv n, n < length G -> exists e, unfold (S n) G dv n = Some e.
  Proof.
    intros G Hwf dv n. induction n as [n IH] using lt_wf_ind. intro Hn.
    destruct (nth_error G n) as [nd|] eqn:En; [|apply nth_error_None in En; lia].
    assert (C : forall c, In c (children nd) -> exists e, unfold n G dv c = Some e).
    { intros c Hc. pose proof (Hwf n nd c En Hc) as Hlt. destruct (IH c Hlt ltac:(lia)) as [e He].
      exists e. apply (unfold_mono _ _ _ _ _ He). lia. }
    assert (L : forall ops : list (bool * nat), (forall p, In p ops -> exists e, unfold n G dv (snd p) = Some e) ->
      exists l, sequence (map (fun p : bool * nat => match unfold n G dv (snd p) with
        | Some e => Some (fst p, e) | None => None end) ops) = Some l).
    { induction ops as [|p ops IHo]; intro Ho; cbn; [eauto|]. destruct (Ho p (or_introl eq_refl)) as [e He]. rewrite He.
      destruct (IHo (fun q Hq => Ho q (or_intror Hq))) as [l Hl]. rewrite Hl. eauto. }
    cbn [unfold]. rewrite En. destruct nd as [kd c| |x|ops|ops|a|a z|b a|f a|a]; cbn [children] in C; eauto.
    - destruct (L ops) as [l Hl]; [intros p Hp; apply C; apply in_map; exact Hp|]. rewrite Hl. cbn; eauto.
    - destruct (L ops) as [l Hl]; [intros p Hp; apply C; apply in_map; exact Hp|]. rewrite Hl. cbn; eauto.
    - destruct (C a (or_introl eq_refl)) as [e He]. rewrite He. cbn; eauto.
    - destruct (C a (or_introl eq_refl)) as [e He]. rewrite He. cbn; eauto.
    - destruct (C b (or_introl eq_refl)) as [e He]. destruct (C a (or_intror (or_introl eq_refl))) as [e' He'].
      rewrite He, He'. eauto.
    - destruct (C a (or_introl eq_refl)) as [e He]. rewrite He. cbn; eauto.
    - destruct (C a (or_introl eq_refl)) as [e He]. rewrite He. cbn; eauto.
  Qed.

  (** what is always true: variables hold their assigned values, cached constants are right *)
  Definition base_ok (G : graph) (sigma : numtype -> env F) (st : gstate) : Prop :=
    (forall T n, nth_error G n = Some GVar -> fst (cache st T n) = Some (sigma T n)) /\
    (forall T n k c, nth_error G n = Some (GNum k c) -> snd (cache st T n) = true -> fst (cache st T n) = Some c).

  (** valid caches of the nodes in [R] are right *)
  Definition valid_ok (G : graph) (sigma : numtype -> env F) (T : numtype) (dv : option nat) (R : nat -> Prop) (st : gstate) : Prop :=
    forall m e, R m -> unfolds G dv m e -> snd (cache st T m) = true -> fst (cache st T m) = eval fs (sigma T) e.

  Definition closed (G : graph) (R : nat -> Prop) : Prop :=
    forall n nd c, R n -> nth_error G n = Some nd -> In c (children nd) -> R c.

  Lemma base_store : forall G sigma st T n v b, base_ok G sigma st ->
    (nth_error G n = Some GVar -> v = Some (sigma T n)) ->
    (forall k c, nth_error G n = Some (GNum k c) -> v = Some c) -> base_ok G sigma (store st T n v b).
  Proof.
    intros G sigma st T n v b [H1 H2] Hv Hc. split.
    - intros T' m Hm. destruct (Nat.eq_dec m n) as [->|N]; [|rewrite cache_store_other by auto; apply H1; assumption].
      destruct (numtype_eqb T' T) eqn:ET; [apply numtype_eqb_eq in ET; subst; rewrite cache_store_same; cbn; auto|].
      rewrite cache_store_other; [apply H1; assumption|]. left. intros ->. rewrite numtype_eqb_refl in ET. discriminate.
    - intros T' m k c Hm. destruct (Nat.eq_dec m n) as [->|N]; [|rewrite cache_store_other by auto; apply (H2 T' m k c Hm)].
      destruct (numtype_eqb T' T) eqn:ET; [apply numtype_eqb_eq in ET; subst; rewrite cache_store_same; cbn; intros _; eauto|].
      rewrite cache_store_other; [apply (H2 T' n k c Hm)|]. left. intros ->. rewrite numtype_eqb_refl in ET. discriminate.
  Qed.

  Section Evaluation.
    Variables (G : graph) (sigma : numtype -> env F) (T : numtype) (dv : option nat) (R : nat -> Prop).
    Hypothesis Hexp : plain_exponents G.
    Hypothesis HR : closed G R.

    Definition good (st : gstate) : Prop := base_ok G sigma st /\ valid_ok G sigma T dv R st.

    (** what an evaluation of node [n] for the differentiation variable [dv'] guarantees *)
    Definition evaluates (dv' : option nat) (n : nat) (st : gstate) (r : option (gstate * option F)) : Prop :=
      forall st' v, r = Some (st', v) -> good st' /\ (forall e, R n -> unfolds G dv' n e -> v = eval fs (sigma T) e).

    Lemma good_store : forall st n v, good st ->
      (nth_error G n = Some GVar -> v = Some (sigma T n)) ->
      (forall k c, nth_error G n = Some (GNum k c) -> v = Some c) ->
      (forall e, R n -> unfolds G dv n e -> v = eval fs (sigma T) e) -> good (store st T n v true).
    Proof.
      intros st n v [Hb Hv] H1 H2 H3. split; [apply base_store; assumption|].
      intros m e Hm Hu. destruct (Nat.eq_dec m n) as [->|N].
      - rewrite cache_store_same. cbn. intros _. apply H3; assumption.
      - rewrite cache_store_other by auto. apply Hv; assumption.
    Qed.

    Lemma eval_ops_ok : forall (f : gstate -> nat -> option (gstate * option F)) dv' (allowed : nat -> Prop),
      (forall st a, good st -> allowed a -> evaluates dv' a st (f st a)) ->
      forall ops st st' l, good st -> (forall p, In p ops -> allowed (snd p)) ->
      eval_ops f ops st = Some (st', l) ->
      good st' /\ forall k es, (forall p, In p ops -> R (snd p)) ->
        sequence (map (fun p : bool * nat => match unfold k G dv' (snd p) with
          | Some e => Some (fst p, e) | None => None end) ops) = Some es ->
        l = map (fun p => (fst p, eval fs (sigma T) (snd p))) es.
    Proof.
      intros f dv' allowed Hf. induction ops as [|[s a] ops IH]; intros st st' l Hg Ha E; cbn [eval_ops] in E.
      - injection E as <- <-. split; [assumption|]. intros k es _ Hs. cbn in Hs. injection Hs as <-. reflexivity.
      - destruct (f st a) as [[st1 v]|] eqn:Ef; [|discriminate].
        destruct (eval_ops f ops st1) as [[st2 l2]|] eqn:Er; [|discriminate]. injection E as <- <-.
        destruct (Hf st a Hg (Ha (s, a) (or_introl eq_refl)) _ _ Ef) as [Hg1 Hv].
        destruct (IH st1 st2 l2 Hg1 (fun p Hp => Ha p (or_intror Hp)) Er) as [Hg2 Hl]. split; [assumption|].
        intros k es HRo Hs. cbn [map sequence fst snd] in Hs.
        destruct (unfold k G dv' a) as [e|] eqn:Eu; [|discriminate].
        destruct (sequence _) as [r|] eqn:Es in Hs; [|discriminate]. injection Hs as <-. cbn [map fst snd].
        rewrite (Hv e (HRo (s, a) (or_introl eq_refl)) (ex_intro _ k Eu)).
        rewrite (Hl k r (fun p Hp => HRo p (or_intror Hp)) Es). reflexivity.
    Qed.

    Lemma geval_ok : forall fuel dv' st n, (dv' = dv \/ plain G n) -> good st ->
      evaluates dv' n st (geval G fuel T dv' st n).
    Proof.
      induction fuel as [|fuel IH]; intros dv' st n Hdv Hg st' v E; [discriminate|].
      cbn [geval] in E. destruct (snd (cache st T n)) eqn:Ef.
      { injection E as <- <-. split; [assumption|]. intros e Hn [k Hu]. destruct Hg as [_ Hv].
        apply Hv; [assumption| |assumption]. exists k. destruct Hdv as [->|Hp]; [assumption|].
        rewrite (unfold_plain k G dv dv' n Hp). assumption. }
      destruct (nth_error G n) as [nd|] eqn:En; [|discriminate].
      (* children are allowed *)
      assert (HC : forall c, In c (children nd) -> dv' = dv \/ plain G c).
      { intros c Hc. destruct Hdv as [->|Hp]; [left; reflexivity|]. right. destruct Hp as [n nd' Hn _ Hall].
        rewrite En in Hn. injection Hn as <-. apply Hall; assumption. }
      assert (HRc : forall c, R n -> In c (children nd) -> R c) by (intros c Hn Hc; exact (HR n nd c Hn En Hc)).
      (* the last step: the value is stored *)
      assert (Fin : forall r : option (gstate * option F),
        match r with Some (st', v) => Some (store st' T n v true, v) | None => None end = Some (st', v) ->
        (forall st1 v1, r = Some (st1, v1) -> good st1 /\ (nth_error G n = Some GVar -> v1 = Some (sigma T n)) /\
           (forall k c, nth_error G n = Some (GNum k c) -> v1 = Some c) /\
           forall e, R n -> unfolds G dv' n e -> v1 = eval fs (sigma T) e) ->
        good st' /\ forall e, R n -> unfolds G dv' n e -> v = eval fs (sigma T) e).
      { intros r Hr Hall. destruct r as [[st1 v1]|]; [|discriminate]. injection Hr as <- <-.
        destruct (Hall st1 v1 eq_refl) as [Hg1 [Hvar [Hnum Hval]]]. split; [|exact Hval].
        apply good_store; try assumption. intros e Hn [k Hu]. apply Hval; [assumption|]. exists k.
        destruct Hdv as [->|Hp]; [assumption|]. rewrite (unfold_plain k G dv' dv n Hp). assumption. }
      assert (Un : forall a (f : F -> option F) (build : expr F -> expr F), In a (children nd) ->
        (forall e, R n -> unfolds G dv' n e -> exists e0, unfolds G dv' a e0 /\ e = build e0) ->
        (forall e0, eval fs (sigma T) (build e0) = match eval fs (sigma T) e0 with Some x => f x | None => None end) ->
        (nd <> GVar) -> (forall k c, nd <> GNum k c) ->
        forall st1 v1, match geval G fuel T dv' st a with
            | Some (st', Some x) => Some (st', f x)
            | Some (st', None) => Some (st', None)
            | None => None end = Some (st1, v1) ->
        good st1 /\ (nth_error G n = Some GVar -> v1 = Some (sigma T n)) /\
           (forall k c, nth_error G n = Some (GNum k c) -> v1 = Some c) /\
           forall e, R n -> unfolds G dv' n e -> v1 = eval fs (sigma T) e).
      { intros a f build Ha Hb Hev N1 N2 st1 v1 Hs. destruct (geval G fuel T dv' st a) as [[s1 o]|] eqn:Eg; [|discriminate].
        destruct (IH dv' st a (HC a Ha) Hg _ _ Eg) as [Hg1 Hv1].
        assert (Es : s1 = st1 /\ v1 = match o with Some x => f x | None => None end) by (destruct o; injection Hs as <- <-; auto).
        destruct Es as [-> ->]. split; [assumption|]. split; [congruence|]. split; [congruence|].
        intros e Hn Hu. destruct (Hb e Hn Hu) as [e0 [Hu0 ->]]. rewrite Hev, (Hv1 e0 (HRc a Hn Ha) Hu0). reflexivity. }
      destruct nd as [kd c| |x|ops|ops|a|a z|b a|f a|a]; cbn [children] in HC, HRc, Un.
      - apply (Fin (Some (st, Some c)) E). intros st1 v1 Hs. injection Hs as <- <-. split; [assumption|].
        split; [congruence|]. split; [intros k0 c0 H0; congruence|].
        intros e _ [[|k] Hu]; cbn [unfold] in Hu; [discriminate|]. rewrite En in Hu. injection Hu as <-. reflexivity.
      - apply (Fin (Some (st, fst (cache st T n))) E). intros st1 v1 Hs. injection Hs as <- <-. split; [assumption|].
        assert (V : fst (cache st T n) = Some (sigma T n)) by (apply Hg; assumption).
        split; [intros _; exact V|]. split; [intros; congruence|].
        intros e _ [[|k] Hu]; cbn [unfold] in Hu; [discriminate|]. rewrite En in Hu. injection Hu as <-. exact V.
      - apply (Fin (Some (st, _)) E). intros st1 v1 Hs. injection Hs as <- <-. split; [assumption|].
        split; [congruence|]. split; [intros; congruence|].
        intros e _ [[|k] Hu]; cbn [unfold] in Hu; [discriminate|]. rewrite En in Hu. injection Hu as <-. reflexivity.
      - apply (Fin _ E). intros st1 v1 Hs. destruct (eval_ops _ ops st) as [[s1 l]|] eqn:Eo; [|discriminate].
        injection Hs as <- <-.
        destruct (eval_ops_ok (geval G fuel T dv') dv' (fun c => dv' = dv \/ plain G c) (fun s0 a0 Hgs Hal => IH dv' s0 a0 Hal Hgs)
                    ops st s1 l Hg (fun p Hp => HC _ (in_map snd _ _ Hp)) Eo) as [Hg1 Hl].
        split; [assumption|]. split; [congruence|]. split; [intros; congruence|].
        intros e Hn [[|k] Hu]; cbn [unfold] in Hu; [discriminate|]. rewrite En in Hu.
        destruct (sequence _) as [es|] eqn:Es in Hu; [|discriminate]. injection Hu as <-.
        rewrite (Hl k es (fun p Hp => HRc _ Hn (in_map snd _ _ Hp)) Es). reflexivity.
      - apply (Fin _ E). intros st1 v1 Hs. destruct (eval_ops _ ops st) as [[s1 l]|] eqn:Eo; [|discriminate].
        injection Hs as <- <-.
        destruct (eval_ops_ok (geval G fuel T dv') dv' (fun c => dv' = dv \/ plain G c) (fun s0 a0 Hgs Hal => IH dv' s0 a0 Hal Hgs)
                    ops st s1 l Hg (fun p Hp => HC _ (in_map snd _ _ Hp)) Eo) as [Hg1 Hl].
        split; [assumption|]. split; [congruence|]. split; [intros; congruence|].
        intros e Hn [[|k] Hu]; cbn [unfold] in Hu; [discriminate|]. rewrite En in Hu.
        destruct (sequence _) as [es|] eqn:Es in Hu; [|discriminate]. injection Hu as <-.
        rewrite (Hl k es (fun p Hp => HRc _ Hn (in_map snd _ _ Hp)) Es). reflexivity.
      - apply (Fin _ E). apply (Un a (fun x => Some (fopp x)) Neg); try (left; reflexivity); try congruence; try reflexivity.
        intros e _ [[|k] Hu]; cbn [unfold] in Hu; [discriminate|]. rewrite En in Hu.
        destruct (unfold k G dv' a) as [e0|] eqn:Eu; [|discriminate]. injection Hu as <-. exists e0. split; [exists k; assumption|reflexivity].
      - apply (Fin _ E). apply (Un a (fun x => fpowZ x z) (fun e => IPow e z)); try (left; reflexivity); try congruence; try reflexivity.
        intros e _ [[|k] Hu]; cbn [unfold] in Hu; [discriminate|]. rewrite En in Hu.
        destruct (unfold k G dv' a) as [e0|] eqn:Eu; [|discriminate]. injection Hu as <-. exists e0. split; [exists k; assumption|reflexivity].
      - apply (Fin _ E). intros st1 v1 Hs. pose proof (Hexp n b a En) as Hpa.
        destruct (geval G fuel T None st a) as [[s1 ve]|] eqn:E1; [|discriminate].
        destruct (geval G fuel T dv' s1 b) as [[s2 vb]|] eqn:E2; [|discriminate]. injection Hs as <- <-.
        destruct (IH None st a (or_intror Hpa) Hg _ _ E1) as [Hg1 Hv1].
        destruct (IH dv' s1 b (HC b (or_introl eq_refl)) Hg1 _ _ E2) as [Hg2 Hv2].
        split; [assumption|]. split; [congruence|]. split; [intros; congruence|].
        intros e Hn [[|k] Hu]; cbn [unfold] in Hu; [discriminate|]. rewrite En in Hu.
        destruct (unfold k G dv' b) as [eb|] eqn:Eb; [|discriminate].
        destruct (unfold k G dv' a) as [ea|] eqn:Ea; [|discriminate]. injection Hu as <-.
        rewrite (Hv2 eb (HRc b Hn (or_introl eq_refl)) (ex_intro _ k Eb)).
        rewrite (unfold_plain k G dv' None a Hpa) in Ea.
        rewrite (Hv1 ea (HRc a Hn (or_intror (or_introl eq_refl))) (ex_intro _ k Ea)). reflexivity.
      - apply (Fin _ E). apply (Un a (fn fs f) (Fun f)); try (left; reflexivity); try congruence; try reflexivity.
        intros e _ [[|k] Hu]; cbn [unfold] in Hu; [discriminate|]. rewrite En in Hu.
        destruct (unfold k G dv' a) as [e0|] eqn:Eu; [|discriminate]. injection Hu as <-. exists e0. split; [exists k; assumption|reflexivity].
      - apply (Fin _ E). intros st1 v1 Hs. destruct (IH dv' st a (HC a (or_introl eq_refl)) Hg _ _ Hs) as [Hg1 Hv1].
        split; [assumption|]. split; [congruence|]. split; [intros; congruence|].
        intros e Hn [[|k] Hu]; cbn [unfold] in Hu; [discriminate|]. rewrite En in Hu.
        destruct (unfold k G dv' a) as [e0|] eqn:Eu; [|discriminate]. injection Hu as <-.
        cbn [eval]. apply (Hv1 e0 (HRc a Hn (or_introl eq_refl))). exists k; assumption.
    Qed.
  End Evaluation.

  (** *** Reset *)
  Inductive reach (G : graph) (n : nat) : nat -> Prop :=
  | reach_refl : reach G n n
  | reach_step : forall m nd c, reach G n m -> nth_error G m = Some nd -> In c (children nd) -> reach G n c.

  Lemma reach_closed : forall G n, closed G (reach G n).
  Proof. intros G n m nd c H1 H2 H3. exact (reach_step G n m nd c H1 H2 H3). Qed.

  Lemma reach_trans : forall G a b c, reach G a b -> reach G b c -> reach G a c.
  Proof. intros G a b c H1 H2. induction H2; [assumption|]. econstructor; eassumption. Qed.

  Lemma reach_inv : forall G n nd m, nth_error G n = Some nd -> reach G n m -> m = n \/ exists c, In c (children nd) /\ reach G c m.
  Proof.
    intros G n nd m Hn H. induction H as [|m nd' c H IH Hm Hc]; [left; reflexivity|]. right.
    destruct IH as [->|[c0 [H0 H1]]].
    - rewrite Hn in Hm. injection Hm as <-. exists c. split; [assumption|constructor].
    - exists c0. split; [assumption|]. econstructor; eassumption.
  Qed.

  (** nothing is lost: flags are only cleared, values stay *)
  Definition weaker (st st' : gstate) : Prop :=
    jdv st' = jdv st /\
    forall T m, fst (cache st' T m) = fst (cache st T m) /\ (snd (cache st' T m) = true -> snd (cache st T m) = true).

  Lemma weaker_refl : forall st, weaker st st.
  Proof. intro st. split; auto. Qed.

  Lemma weaker_trans : forall a b c, weaker a b -> weaker b c -> weaker a c.
  Proof.
    intros a b c [H1 H2] [H3 H4]. split; [congruence|]. intros T m. destruct (H2 T m) as [A B], (H4 T m) as [C D].
    split; [congruence|auto].
  Qed.

  Lemma weaker_clear : forall st n, weaker st (clear st n).
  Proof.
    intros st n. split; [reflexivity|]. intros T m. unfold clear; cbn. destruct (Nat.eqb m n); cbn; [|auto].
    split; [reflexivity|discriminate].
  Qed.

  Definition number_at (G : graph) (m : nat) : Prop := exists k c, nth_error G m = Some (GNum k c).

  Lemma reset_fold_none : forall G k l, fold_left (fun acc c => match acc with Some s => reset G k s c | None => None end) l None = None.
  Proof. intros G k l. induction l; cbn; auto. Qed.

  Lemma reset_fold_ok : forall G k,
    (forall st n st', reset G k st n = Some st' -> weaker st st' /\
       forall T m, reach G n m -> number_at G m \/ snd (cache st' T m) = false) ->
    forall l st st', fold_left (fun acc c => match acc with Some s => reset G k s c | None => None end) l (Some st) = Some st' ->
    weaker st st' /\ forall c, In c l -> forall T m, reach G c m -> number_at G m \/ snd (cache st' T m) = false.
  Proof.
    intros G k Hk. induction l as [|c l IH]; intros st st' E; cbn [fold_left] in E.
    - injection E as <-. split; [apply weaker_refl|]. intros c [].
    - destruct (reset G k st c) as [st1|] eqn:E1; [|rewrite reset_fold_none in E; discriminate].
      destruct (Hk _ _ _ E1) as [W1 R1]. destruct (IH _ _ E) as [W2 R2].
      split; [eapply weaker_trans; eassumption|]. intros c' [<-|Hc'] T m Hm; [|apply (R2 c'); assumption].
      destruct (R1 T m Hm) as [Hn|Hf]; [left; assumption|]. right.
      destruct (snd (cache st' T m)) eqn:Et; [|reflexivity]. destruct W2 as [_ W2]. destruct (W2 T m) as [_ W]. rewrite (W Et) in Hf. discriminate.
  Qed.

  Lemma reset_ok : forall G fuel st n st', reset G fuel st n = Some st' ->
    weaker st st' /\ forall T m, reach G n m -> number_at G m \/ snd (cache st' T m) = false.
  Proof.
    intros G. induction fuel as [|k IH]; intros st n st' E; [discriminate|]. cbn [reset] in E.
    destruct (nth_error G n) as [nd|] eqn:En; [|discriminate].
    destruct nd as [kd c| |x|ops|ops|a|a z|b a|f a|a] eqn:End.
    1:{ injection E as <-. split; [apply weaker_refl|]. intros T m Hm.
        destruct (reach_inv G n _ m En Hm) as [->|[c' [[] _]]]. left. exists kd, c. assumption. }
    all: rewrite <- End in *; clear End; destruct (reset_fold_ok G k IH _ _ _ E) as [W R];
      (split; [exact (weaker_trans _ _ _ (weaker_clear st n) W)|]); intros T m Hm;
      destruct (reach_inv G n _ m En Hm) as [->|[c' [Hc' Hm']]]; [|apply (R c'); assumption]; right;
      destruct (snd (cache st' T n)) eqn:Et; [|reflexivity]; destruct W as [_ W]; destruct (W T n) as [_ W'];
      specialize (W' Et); unfold clear in W'; cbn in W'; rewrite Nat.eqb_refl in W'; discriminate.
  Qed.

  Lemma weaker_base : forall G sigma st st', weaker st st' -> base_ok G sigma st -> base_ok G sigma st'.
  Proof.
    intros G sigma st st' [_ W] [H1 H2]. split.
    - intros T n Hn. destruct (W T n) as [-> _]. apply H1; assumption.
    - intros T n k c Hn Hf. destruct (W T n) as [-> W2]. apply (H2 T n k c Hn). auto.
  Qed.

  Lemma weaker_valid : forall G sigma T dv R st st', weaker st st' -> valid_ok G sigma T dv R st -> valid_ok G sigma T dv R st'.
  Proof. intros G sigma T dv R st st' [_ W] H m e Hm Hu Hf. destruct (W T m) as [-> W2]. apply H; auto. Qed.

  Lemma reset_valid : forall G sigma T dv fuel st n st', base_ok G sigma st -> reset G fuel st n = Some st' ->
    good G sigma T dv (reach G n) st'.
  Proof.
    intros G sigma T dv fuel st n st' Hb E. destruct (reset_ok _ _ _ _ _ E) as [W R].
    pose proof (weaker_base _ sigma _ _ W Hb) as Hb'. split; [assumption|].
    intros m e Hm Hu Hf. destruct (R T m Hm) as [[k [c Hn]]|Hf']; [|congruence].
    destruct Hb' as [_ H2]. rewrite (H2 T m k c Hn Hf). destruct Hu as [[|j] Hu]; cbn [unfold] in Hu; [discriminate|].
    rewrite Hn in Hu. injection Hu as <-. reflexivity.
  Qed.

  (** *** an evaluation touches neither the other type nor nodes which are not below it *)
  Definition frame (T : numtype) (keep : nat -> Prop) (st st' : gstate) : Prop :=
    jdv st' = jdv st /\ (forall T' m, T' <> T -> cache st' T' m = cache st T' m) /\
    (forall T' m, keep m -> cache st' T' m = cache st T' m).

  Lemma frame_refl : forall T K st, frame T K st st.
  Proof. intros. repeat split; auto. Qed.

  Lemma frame_trans : forall T K a b c, frame T K a b -> frame T K b c -> frame T K a c.
  Proof.
    intros T K a b c [H1 [H2 H3]] [H4 [H5 H6]]. split; [congruence|].
    split; intros; [rewrite H5, H2|rewrite H6, H3]; auto.
  Qed.

  Lemma frame_store : forall T (K : nat -> Prop) st n v b, ~ K n -> frame T K st (store st T n v b).
  Proof.
    intros T K st n v b Hn. split; [reflexivity|]. split; intros; apply cache_store_other; [left; assumption|].
    right. intros ->. contradiction.
  Qed.

  Lemma eval_ops_frame : forall T (K : nat -> Prop) (f : gstate -> nat -> option (gstate * option F)),
    (forall st a st' v, ~ K a -> f st a = Some (st', v) -> frame T K st st') ->
    forall ops st st' l, (forall p, In p ops -> ~ K (snd p)) -> eval_ops f ops st = Some (st', l) -> frame T K st st'.
  Proof.
    intros T K f Hf. induction ops as [|[s a] ops IH]; intros st st' l Ho E; cbn [eval_ops] in E.
    - injection E as <- <-. apply frame_refl.
    - destruct (f st a) as [[st1 v]|] eqn:E1; [|discriminate].
      destruct (eval_ops f ops st1) as [[st2 l2]|] eqn:E2; [|discriminate]. injection E as <- <-.
      eapply frame_trans; [exact (Hf _ _ _ _ (Ho (s, a) (or_introl eq_refl)) E1)|].
      exact (IH _ _ _ (fun p Hp => Ho p (or_intror Hp)) E2).
  Qed.

  (** [K] is a set of nodes which are nobody's operand *)
  Definition no_parents (G : graph) (K : nat -> Prop) : Prop :=
    forall n nd c, nth_error G n = Some nd -> In c (children nd) -> ~ K c.

  Lemma geval_frame : forall G T (K : nat -> Prop), no_parents G K -> forall fuel dv st n st' v, ~ K n ->
    geval G fuel T dv st n = Some (st', v) -> frame T K st st'.
  Proof.
    intros G T K HK. induction fuel as [|k IH]; intros dv st n st' v Hn E; [discriminate|]. cbn [geval] in E.
    destruct (snd (cache st T n)); [injection E as <- <-; apply frame_refl|].
    destruct (nth_error G n) as [nd|] eqn:En; [|discriminate].
    assert (HC : forall c, In c (children nd) -> ~ K c) by (intros c Hc; exact (HK n nd c En Hc)).
    assert (Fin : forall r : option (gstate * option F),
        match r with Some (st', v) => Some (store st' T n v true, v) | None => None end = Some (st', v) ->
        (forall st1 v1, r = Some (st1, v1) -> frame T K st st1) -> frame T K st st').
    { intros [[s1 v1]|] Hr Hall; [|discriminate]. injection Hr as <- <-.
      eapply frame_trans; [apply (Hall s1 v1 eq_refl)|]. apply frame_store. assumption. }
    assert (Un : forall a (f : F -> option F), In a (children nd) -> forall st1 v1,
      match geval G k T dv st a with
      | Some (st', Some x) => Some (st', f x)
      | Some (st', None) => Some (st', None)
      | None => None end = Some (st1, v1) -> frame T K st st1).
    { intros a f Ha st1 v1 Hs. destruct (geval G k T dv st a) as [[s1 o]|] eqn:Eg; [|discriminate].
      assert (s1 = st1) as <- by (destruct o; congruence). exact (IH _ _ _ _ _ (HC a Ha) Eg). }
    destruct nd as [kd c| |x|ops|ops|a|a z|b a|f a|a]; cbn [children] in HC, Un.
    - injection E as <- <-. apply frame_store; assumption.
    - injection E as <- <-. apply frame_store; assumption.
    - injection E as <- <-. apply frame_store; assumption.
    - apply (Fin _ E). intros st1 v1 Hs. destruct (eval_ops _ ops st) as [[s1 l]|] eqn:Eo; [|discriminate]. injection Hs as <- <-.
      refine (eval_ops_frame T K (geval G k T dv) _ ops st s1 l (fun p Hp => HC _ (in_map snd _ _ Hp)) Eo).
      intros; eapply IH; eassumption.
    - apply (Fin _ E). intros st1 v1 Hs. destruct (eval_ops _ ops st) as [[s1 l]|] eqn:Eo; [|discriminate]. injection Hs as <- <-.
      refine (eval_ops_frame T K (geval G k T dv) _ ops st s1 l (fun p Hp => HC _ (in_map snd _ _ Hp)) Eo).
      intros; eapply IH; eassumption.
    - apply (Fin _ E). intros st1 v1. apply Un. left; reflexivity.
    - apply (Fin _ E). intros st1 v1. apply (Un a (fun x => fpowZ x z)). left; reflexivity.
    - apply (Fin _ E). intros st1 v1 Hs.
      destruct (geval G k T None st a) as [[s1 ve]|] eqn:E1; [|discriminate].
      destruct (geval G k T dv s1 b) as [[s2 vb]|] eqn:E2; [|discriminate]. injection Hs as <- <-.
      eapply frame_trans; [exact (IH _ _ _ _ _ (HC a (or_intror (or_introl eq_refl))) E1)|].
      exact (IH _ _ _ _ _ (HC b (or_introl eq_refl)) E2).
    - apply (Fin _ E). intros st1 v1. apply Un. left; reflexivity.
    - apply (Fin _ E). intros st1 v1 Hs. exact (IH _ _ _ _ _ (HC a (or_introl eq_refl)) Hs).
  Qed.

  (** *** the base invariant holds in every history *)
  Lemma closed_empty : forall G, closed G (fun _ => False).
  Proof. intros G n nd c []. Qed.

  Lemma no_parents_empty : forall G, no_parents G (fun _ => False).
  Proof. intros G n nd c _ _ []. Qed.

  Lemma geval_base : forall G sigma, plain_exponents G -> forall fuel T dv st n st' v, base_ok G sigma st ->
    geval G fuel T dv st n = Some (st', v) -> base_ok G sigma st'.
  Proof.
    intros G sigma He fuel T dv st n st' v Hb E.
    assert (Hg : good G sigma T dv (fun _ => False) st) by (split; [assumption|intros m e []]).
    exact (proj1 (proj1 (geval_ok G sigma T dv (fun _ => False) He (closed_empty G) fuel dv st n (or_introl eq_refl) Hg st' v E))).
  Qed.

  Lemma evalJ_cases : forall G fuel T dv st n st' v, evalJ G fuel T dv st n = Some (st', v) ->
    (st' = st /\ jdv st n = dv /\ cache st T n = (v, true)) \/
    exists a st1 st2, nth_error G n = Some (GHandle a) /\
      reset G fuel (mkG (cache st) (fun m => if Nat.eqb m n then dv else jdv st m)) n = Some st1 /\
      geval G fuel T dv st1 a = Some (st2, v) /\ st' = store st2 T n v true.
  Proof.
    intros G fuel T dv st n st' v E. unfold evalJ in E.
    destruct (match jdv st n, dv with Some x, Some y => Nat.eqb x y | None, None => true | _, _ => false end && snd (cache st T n)) eqn:Es.
    - left. injection E as <- <-. apply andb_prop in Es as [E1 E2]. split; [reflexivity|].
      split; [destruct (jdv st n), dv; try discriminate; [apply Nat.eqb_eq in E1; congruence|reflexivity]|].
      destruct (cache st T n); cbn in *; congruence.
    - right. destruct (nth_error G n) as [[kd c| |x|ops|ops|a|a z|b a|f a|a]|]; try discriminate.
      destruct (reset _ _ _ _) as [st1|] eqn:E1; [|discriminate].
      destruct (geval G fuel T dv st1 a) as [[st2 v2]|] eqn:E2; [|discriminate]. injection E as <- <-.
      exists a, st1, st2. auto.
  Qed.

  Definition update_sigma (sigma : numtype -> env F) (o : gop) : numtype -> env F :=
    match o with
    | SetVar T x v => fun T' y => if numtype_eqb T' T && Nat.eqb y x then v else sigma T' y
    | _ => sigma
    end.

  Lemma assigned_step : forall h sigma o, assigned sigma (o :: h) = assigned (update_sigma sigma o) h.
  Proof. intros h sigma [T x v|n|T dv n|T dv n]; reflexivity. Qed.

  Lemma assigned_app : forall h1 h2 sigma, assigned sigma (h1 ++ h2) = assigned (assigned sigma h1) h2.
  Proof. induction h1 as [|o h1 IH]; intros h2 sigma; [reflexivity|]. cbn [app]. rewrite !assigned_step. apply IH. Qed.

  Lemma grun_cons : forall G st o h, grun G st (o :: h) = match gstep G st o with Some s => grun G s h | None => None end.
  Proof.
    intros. unfold grun. cbn [fold_left]. destruct (gstep G st o); [reflexivity|].
    induction h; cbn; auto.
  Qed.

  Lemma grun_app : forall G h1 h2 st, grun G st (h1 ++ h2) = match grun G st h1 with Some s => grun G s h2 | None => None end.
  Proof.
    intros G. induction h1 as [|o h1 IH]; intros h2 st; [reflexivity|]. cbn [app]. rewrite !grun_cons.
    destruct (gstep G st o); [apply IH|reflexivity].
  Qed.

  Lemma step_base : forall G, plain_exponents G -> forall sigma st o st', base_ok G sigma st -> gstep G st o = Some st' ->
    base_ok G (update_sigma sigma o) st'.
  Proof.
    intros G He sigma st o st' Hb E. destruct o as [T x v|n|T dv n|T dv n]; cbn [gstep update_sigma] in *.
    - destruct (nth_error G x) as [[kd c| |y|ops|ops|a|a z|b a|f a|a]|] eqn:Ex; try discriminate. injection E as <-.
      destruct Hb as [H1 H2]. split.
      + intros T' m Hm. unfold set_value, store; cbn [cache]. destruct (numtype_eqb T' T && Nat.eqb m x); [reflexivity|]. apply H1; assumption.
      + intros T' m k c Hm. unfold set_value, store; cbn [cache]. destruct (numtype_eqb T' T && Nat.eqb m x); [discriminate|]. apply (H2 T' m k c Hm).
    - destruct (reset_ok _ _ _ _ _ E) as [W _]. exact (weaker_base _ _ _ _ W Hb).
    - destruct (geval G (S (length G)) T dv st n) as [[s1 v]|] eqn:Eg; [|discriminate]. injection E as <-.
      exact (geval_base G sigma He _ _ _ _ _ _ _ Hb Eg).
    - destruct (evalJ G (S (length G)) T dv st n) as [[s1 v]|] eqn:Eg; [|discriminate]. injection E as <-.
      destruct (evalJ_cases _ _ _ _ _ _ _ _ Eg) as [[-> _]|[a [s2 [s3 [Hn [Er [Ev ->]]]]]]]; [assumption|].
      apply base_store; [|congruence|intros; congruence].
      refine (geval_base G sigma He _ _ _ _ _ _ _ _ Ev). destruct (reset_ok _ _ _ _ _ Er) as [W _].
      refine (weaker_base _ _ _ _ W _). exact Hb.
  Qed.

  Lemma run_base : forall G, plain_exponents G -> forall h sigma st st', base_ok G sigma st -> grun G st h = Some st' ->
    base_ok G (assigned sigma h) st'.
  Proof.
    intros G He. induction h as [|o h IH]; intros sigma st st' Hb E; [injection E as <-; exact Hb|].
    rewrite grun_cons in E. destruct (gstep G st o) as [s1|] eqn:E1; [|discriminate]. rewrite assigned_step.
    apply (IH _ _ _ (step_base G He _ _ _ _ Hb E1) E).
  Qed.

  Lemma init_base : forall G sigma, base_ok G sigma (ginit sigma).
  Proof. intros. split; [reflexivity|]. cbn. discriminate. Qed.

  Lemma good_other_type : forall G sigma sigma' T dv R st st', base_ok G sigma' st' -> sigma' T = sigma T ->
    (forall m, cache st' T m = cache st T m) -> good G sigma T dv R st -> good G sigma' T dv R st'.
  Proof. intros G sigma sigma' T dv R st st' Hb Hs Hc [_ Hv]. split; [assumption|]. intros m e Hm Hu Hf. rewrite Hc in *. rewrite Hs. apply Hv; assumption. Qed.

  Lemma step_good : forall G, plain_exponents G -> forall sigma T dv R, closed G R -> forall st o st', good G sigma T dv R st ->
    quiet T dv o -> gstep G st o = Some st' -> good G (update_sigma sigma o) T dv R st'.
  Proof.
    intros G He sigma T dv R HR st o st' Hg Hq E. pose proof (step_base G He _ _ _ _ (proj1 Hg) E) as Hb.
    destruct o as [T' x v|n|T' dv' n|T' dv' n]; cbn [gstep update_sigma quiet] in *.
    - destruct (nth_error G x) as [[kd c| |y|ops|ops|a|a z|b a|f a|a]|] eqn:Ex; try discriminate. injection E as <-.
      assert (Et : numtype_eqb T T' = false) by (destruct T, T'; try reflexivity; contradiction).
      apply (good_other_type G sigma _ T dv R st); [exact Hb| | |assumption].
      + rewrite Et. reflexivity.
      + intro m. unfold set_value, store; cbn [cache]. rewrite Et. reflexivity.
    - split; [exact Hb|]. destruct (reset_ok _ _ _ _ _ E) as [W _]. exact (weaker_valid _ _ _ _ _ _ _ W (proj2 Hg)).
    - destruct (geval G (S (length G)) T' dv' st n) as [[s1 v]|] eqn:Eg; [|discriminate]. injection E as <-.
      destruct (numtype_eqb T' T) eqn:Et.
      + apply numtype_eqb_eq in Et. subst T'. rewrite (Hq eq_refl) in Eg.
        exact (proj1 (geval_ok G sigma T dv R He HR _ dv st n (or_introl eq_refl) Hg _ _ Eg)).
      + apply (good_other_type G sigma _ T dv R st); [exact Hb|reflexivity| |assumption]. intro m.
        destruct (geval_frame G T' (fun _ => False) (no_parents_empty G) _ _ _ _ _ _ (fun f => f) Eg) as [_ [Hf _]].
        apply Hf. intros ->. rewrite numtype_eqb_refl in Et. discriminate.
    - destruct (evalJ G (S (length G)) T' dv' st n) as [[s1 v]|] eqn:Eg; [|discriminate]. injection E as <-.
      destruct (evalJ_cases _ _ _ _ _ _ _ _ Eg) as [[-> _]|[a [s2 [s3 [Hn [Er [Ev ->]]]]]]]; [assumption|].
      destruct (reset_ok _ _ _ _ _ Er) as [W _].
      assert (Hg2 : good G sigma T dv R s2).
      { split; [refine (weaker_base _ _ _ _ W _); exact (proj1 Hg)|].
        refine (weaker_valid _ _ _ _ _ _ _ W _). exact (proj2 Hg). }
      destruct (numtype_eqb T' T) eqn:Et.
      + apply numtype_eqb_eq in Et. subst T'. rewrite (Hq eq_refl) in Ev.
        destruct (geval_ok G sigma T dv R He HR _ dv s2 a (or_introl eq_refl) Hg2 _ _ Ev) as [Hg3 Hv].
        apply good_store; [assumption|congruence|intros; congruence|].
        intros e Hm [[|k] Hu]; cbn [unfold] in Hu; [discriminate|]. rewrite Hn in Hu.
        destruct (unfold k G dv a) as [e0|] eqn:Eu; [|discriminate]. injection Hu as <-. cbn [eval].
        apply Hv; [exact (HR n _ a Hm Hn (or_introl eq_refl))|]. exists k; assumption.
      + apply (good_other_type G sigma _ T dv R s2); [exact Hb|reflexivity| |assumption]. intro m.
        assert (NT : T <> T') by (intros ->; rewrite numtype_eqb_refl in Et; discriminate).
        rewrite cache_store_other by (left; assumption).
        destruct (geval_frame G T' (fun _ => False) (no_parents_empty G) _ _ _ _ _ _ (fun f => f) Ev) as [_ [Hf _]].
        apply Hf. assumption.
  Qed.

  Lemma run_good : forall G, plain_exponents G -> forall T dv R, closed G R -> forall h sigma st st', good G sigma T dv R st ->
    Forall (quiet T dv) h -> grun G st h = Some st' -> good G (assigned sigma h) T dv R st'.
  Proof.
    intros G He T dv R HR. induction h as [|o h IH]; intros sigma st st' Hg Hq E; [injection E as <-; exact Hg|].
    rewrite grun_cons in E. destruct (gstep G st o) as [s1|] eqn:E1; [|discriminate]. rewrite assigned_step.
    inversion Hq as [|? ? Hqo Hqh]; subst. apply (IH _ _ _ (step_good G He _ _ _ _ HR _ _ _ Hg Hqo E1) Hqh E).
  Qed.

  (** *** nothing goes wrong *)
  Lemma reset_total : forall G, well_founded_graph G -> forall fuel n st, n < fuel -> n < length G -> exists st', reset G fuel st n = Some st'.
  Proof.
    intros G Hwf. induction fuel as [|k IH]; intros n st Hn Hl; [lia|]. cbn [reset].
    destruct (nth_error G n) as [nd|] eqn:En; [|apply nth_error_None in En; lia].
    assert (L : forall l st, (forall c, In c l -> c < n) ->
      exists st', fold_left (fun acc c => match acc with Some s => reset G k s c | None => None end) l (Some st) = Some st').
    { induction l as [|c l IHl]; intros s Hc; cbn; [eauto|].
      destruct (IH c s) as [s' Hs']; [specialize (Hc c (or_introl eq_refl)); lia|specialize (Hc c (or_introl eq_refl)); lia|].
      rewrite Hs'. apply IHl. intros c' Hc'. apply Hc. right; assumption. }
    destruct nd; [eauto|..]; apply L; intros c' Hc'; exact (Hwf n _ c' En Hc').
  Qed.

  Lemma eval_ops_total : forall (f : gstate -> nat -> option (gstate * option F)) ops st,
    (forall st p, In p ops -> exists st' v, f st (snd p) = Some (st', v)) -> exists st' l, eval_ops f ops st = Some (st', l).
  Proof.
    intros f ops. induction ops as [|[s a] ops IH]; intros st H; cbn [eval_ops]; [eauto|].
    destruct (H st (s, a) (or_introl eq_refl)) as [s1 [v E]]. cbn [snd] in E. rewrite E.
    destruct (IH s1) as [s2 [l E2]]; [intros; apply H; right; assumption|]. rewrite E2. eauto.
  Qed.

  Lemma geval_total : forall G, well_founded_graph G -> forall fuel n T dv st, n < fuel -> n < length G ->
    exists st' v, geval G fuel T dv st n = Some (st', v).
  Proof.
    intros G Hwf. induction fuel as [|k IH]; intros n T dv st Hn Hl; [lia|]. cbn [geval].
    destruct (snd (cache st T n)); [eauto|].
    destruct (nth_error G n) as [nd|] eqn:En; [|apply nth_error_None in En; lia].
    assert (C : forall c, In c (children nd) -> forall dv st, exists st' v, geval G k T dv st c = Some (st', v)).
    { intros c Hc dv0 st0. pose proof (Hwf n nd c En Hc). apply IH; lia. }
    destruct nd as [kd c| |x|ops|ops|a|a z|b a|f a|a]; cbn [children] in C; eauto.
    - destruct (eval_ops_total (geval G k T dv) ops st) as [s1 [l E]]; [intros; apply C; apply in_map; assumption|]. rewrite E; eauto.
    - destruct (eval_ops_total (geval G k T dv) ops st) as [s1 [l E]]; [intros; apply C; apply in_map; assumption|]. rewrite E; eauto.
    - destruct (C a (or_introl eq_refl) dv st) as [s1 [[v|] E]]; rewrite E; eauto.
    - destruct (C a (or_introl eq_refl) dv st) as [s1 [[v|] E]]; rewrite E; eauto.
    - destruct (C a (or_intror (or_introl eq_refl)) None st) as [s1 [v E]]; rewrite E.
      destruct (C b (or_introl eq_refl) dv s1) as [s2 [v2 E2]]; rewrite E2. eauto.
    - destruct (C a (or_introl eq_refl) dv st) as [s1 [[v|] E]]; rewrite E; eauto.
    - destruct (C a (or_introl eq_refl) dv st) as [s1 [v E]]; rewrite E; eauto.
  Qed.

  (** the operations are applied to existing nodes of the right class *)
  Definition valid_op (G : graph) (o : gop) : Prop :=
    match o with
    | SetVar _ x _ => nth_error G x = Some GVar
    | Reset n | Eval _ _ n => n < length G
    | EvalJ _ _ n => exists a, nth_error G n = Some (GHandle a)
    end.

  Lemma evalJ_total : forall G, well_founded_graph G -> forall T dv st n a, nth_error G n = Some (GHandle a) ->
    exists st' v, evalJ G (S (length G)) T dv st n = Some (st', v).
  Proof.
    intros G Hwf T dv st n a Hn. unfold evalJ.
    destruct (_ && _); [eauto|]. rewrite Hn.
    assert (n < length G) by (apply nth_error_Some; congruence).
    pose proof (Hwf n _ a Hn (or_introl eq_refl)).
    match goal with |- context [reset G ?f ?s n] => destruct (reset_total G Hwf f n s) as [s1 E1]; [lia|lia|] end. rewrite E1.
    destruct (geval_total G Hwf (S (length G)) a T dv s1) as [s2 [v E2]]; [lia|lia|]. rewrite E2. eauto.
  Qed.

  Lemma run_total : forall G, well_founded_graph G -> forall h st, Forall (valid_op G) h -> exists st', grun G st h = Some st'.
  Proof.
    intros G Hwf. induction h as [|o h IH]; intros st H; [cbn; eauto|]. inversion H as [|? ? Ho Hh]; subst. rewrite grun_cons.
    assert (S1 : exists s, gstep G st o = Some s).
    { destruct o as [T x v|n|T dv n|T dv n]; cbn [gstep valid_op] in *.
      - rewrite Ho. eauto.
      - apply reset_total; [assumption|lia|assumption].
      - destruct (geval_total G Hwf (S (length G)) n T dv st) as [s [v E]]; [lia|assumption|]. rewrite E. cbn; eauto.
      - destruct Ho as [a Ha]. destruct (evalJ_total G Hwf T dv st n a Ha) as [s [v E]]. rewrite E. cbn; eauto. }
    destruct S1 as [s ->]. apply IH. assumption.
  Qed.

  Lemma Forall_app_inv : forall (A : Type) (P : A -> Prop) l1 l2, Forall P (l1 ++ l2) -> Forall P l1 /\ Forall P l2.
  Proof. intros A P l1 l2 H. rewrite Forall_forall in H. split; apply Forall_forall; intros x Hx; apply H; apply in_or_app; auto. Qed.

  Lemma eval_after_reset : forall G, well_founded_graph G -> plain_exponents G ->
    forall sigma h1 n h2 T dv e, Forall (valid_op G) (h1 ++ Reset n :: h2) -> Forall (quiet T dv) h2 -> unfolds G dv n e ->
    exists st, grun G (ginit sigma) (h1 ++ Reset n :: h2) = Some st /\
      eval_result G st T dv n = Some (eval fs (assigned sigma (h1 ++ h2) T) e).
  Proof.
    intros G Hwf He sigma h1 n h2 T dv e Hv Hq Hu.
    destruct (run_total G Hwf _ (ginit sigma) Hv) as [st Est]. exists st. split; [exact Est|].
    apply Forall_app_inv in Hv as [_ Hv]. inversion Hv as [|? ? Hn _]; subst. cbn in Hn.
    rewrite grun_app in Est. destruct (grun G (ginit sigma) h1) as [s1|] eqn:E1; [|discriminate].
    rewrite grun_cons in Est. destruct (gstep G s1 (Reset n)) as [s2|] eqn:E2; [|discriminate].
    pose proof (run_base G He _ _ _ _ (init_base G sigma) E1) as Hb1.
    cbn [gstep] in E2. pose proof (reset_valid G _ T dv _ _ _ _ Hb1 E2) as Hg2.
    pose proof (run_good G He T dv _ (reach_closed G n) _ _ _ _ Hg2 Hq Est) as Hg3.
    rewrite <- assigned_app in Hg3. unfold eval_result.
    destruct (geval_total G Hwf (S (length G)) n T dv st) as [s3 [v E3]]; [lia|assumption|]. rewrite E3. cbn [option_map snd]. f_equal.
    apply (proj2 (geval_ok G _ T dv (reach G n) He (reach_closed G n) _ dv st n (or_introl eq_refl) Hg3 _ _ E3)); [constructor|assumption].
  Qed.

  (** *** Jacobian nodes *)
  Definition jgood (G : graph) (sigma : numtype -> env F) (T : numtype) (j : nat) (st : gstate) : Prop :=
    base_ok G sigma st /\
    (snd (cache st T j) = true -> forall e, unfolds G (jdv st j) j e -> fst (cache st T j) = eval fs (sigma T) e).

  Lemma reset_jdv : forall G fuel st n st', reset G fuel st n = Some st' -> jdv st' = jdv st.
  Proof. intros G fuel st n st' H. exact (proj1 (proj1 (reset_ok _ _ _ _ _ H))). Qed.

  (** a fresh EvalJ is right *)
  Lemma evalJ_fresh : forall G sigma, plain_exponents G ->
    forall T dv st n a st1 st2 v fuel, base_ok G sigma st -> nth_error G n = Some (GHandle a) ->
    reset G fuel (mkG (cache st) (fun m => if Nat.eqb m n then dv else jdv st m)) n = Some st1 ->
    geval G fuel T dv st1 a = Some (st2, v) ->
    base_ok G sigma (store st2 T n v true) /\ forall e, unfolds G dv n e -> v = eval fs (sigma T) e.
  Proof.
    intros G sigma He T dv st n a st1 st2 v fuel Hb Hn Er Ev.
    pose proof (reset_valid G sigma T dv fuel (mkG (cache st) _) n st1 Hb Er) as Hg1.
    destruct (geval_ok G sigma T dv (reach G n) He (reach_closed G n) _ dv st1 a (or_introl eq_refl) Hg1 _ _ Ev) as [Hg2 Hv].
    split.
    - apply base_store; [exact (proj1 Hg2)|congruence|intros; congruence].
    - intros e [[|k] Hu]; cbn [unfold] in Hu; [discriminate|]. rewrite Hn in Hu.
      destruct (unfold k G dv a) as [e0|] eqn:Eu; [|discriminate]. injection Hu as <-. cbn [eval].
      apply Hv; [|exists k; assumption]. exact (reach_step G n n _ a (reach_refl G n) Hn (or_introl eq_refl)).
  Qed.

  Lemma step_jgood : forall G, plain_exponents G -> forall sigma T j, no_parents G (eq j) -> forall st o st',
    jgood G sigma T j st -> leaves_jacobian T j o -> gstep G st o = Some st' -> jgood G (update_sigma sigma o) T j st'.
  Proof.
    intros G He sigma T j HK st o st' Hg Hq E. pose proof (step_base G He _ _ _ _ (proj1 Hg) E) as Hb. split; [exact Hb|].
    destruct Hg as [Hb0 Hj]. destruct o as [T' x v|n|T' dv' n|T' dv' n]; cbn [gstep update_sigma leaves_jacobian] in *.
    - destruct (nth_error G x) as [[kd c| |y|ops|ops|a|a z|b a|f a|a]|] eqn:Ex; try discriminate. injection E as <-.
      assert (Et : numtype_eqb T T' = false) by (destruct T, T'; try reflexivity; contradiction).
      unfold set_value, store; cbn [cache jdv]. rewrite Et. cbn [andb]. exact Hj.
    - destruct (reset_ok _ _ _ _ _ E) as [[W1 W2] _]. rewrite W1. destruct (W2 T j) as [-> W3]. auto.
    - destruct (geval G (S (length G)) T' dv' st n) as [[s1 v]|] eqn:Eg; [|discriminate]. injection E as <-.
      destruct (geval_frame G T' (eq j) HK _ _ _ _ _ _ (fun E0 => Hq (eq_sym E0)) Eg) as [F1 [_ F3]].
      rewrite F1, (F3 T j eq_refl). exact Hj.
    - destruct (evalJ G (S (length G)) T' dv' st n) as [[s1 v]|] eqn:Eg; [|discriminate]. injection E as <-.
      destruct (evalJ_cases _ _ _ _ _ _ _ _ Eg) as [[-> _]|[a [s2 [s3 [Hn [Er [Ev ->]]]]]]]; [exact Hj|].
      assert (Ha : j <> a) by (exact (HK n _ a Hn (or_introl eq_refl))).
      destruct (geval_frame G T' (eq j) HK _ _ _ _ _ _ Ha Ev) as [F1 [F2 F3]].
      destruct (reset_ok _ _ _ _ _ Er) as [[W1 W2] W3]. cbn [store jdv]. rewrite F1, W1. cbn [jdv].
      destruct (Nat.eq_dec n j) as [->|N].
      + rewrite Nat.eqb_refl. destruct (numtype_eqb T T') eqn:Et.
        * apply numtype_eqb_eq in Et. subst T'. rewrite cache_store_same. cbn [fst snd]. intros _ e Hu.
          exact (proj2 (evalJ_fresh G sigma He T dv' st j a s2 s3 v _ Hb0 Hn Er Ev) e Hu).
        * rewrite cache_store_other by (left; intros ->; rewrite numtype_eqb_refl in Et; discriminate).
          rewrite (F3 T j eq_refl). destruct (W3 T j (reach_refl G j)) as [[k [c Hc]]|Hf]; [congruence|]. rewrite Hf. discriminate.
      + rewrite cache_store_other by (right; congruence). rewrite (F3 T j eq_refl).
        destruct (W2 T j) as [Ef Eg']. cbn [cache] in Ef, Eg'. rewrite Ef.
        destruct (Nat.eqb_spec j n); [congruence|]. intro Hf. exact (Hj (Eg' Hf)).
  Qed.

  Lemma run_jgood : forall G, plain_exponents G -> forall T j, no_parents G (eq j) -> forall h sigma st st',
    jgood G sigma T j st -> Forall (leaves_jacobian T j) h -> grun G st h = Some st' -> jgood G (assigned sigma h) T j st'.
  Proof.
    intros G He T j HK. induction h as [|o h IH]; intros sigma st st' Hg Hq E; [injection E as <-; exact Hg|].
    rewrite grun_cons in E. destruct (gstep G st o) as [s1|] eqn:E1; [|discriminate]. rewrite assigned_step.
    inversion Hq as [|? ? Hqo Hqh]; subst. apply (IH _ _ _ (step_jgood G He _ _ _ HK _ _ _ Hg Hqo E1) Hqh E).
  Qed.

  Lemma evalJ_after_reset : forall G, well_founded_graph G -> plain_exponents G ->
    forall sigma h1 j h2 T dv a e, nth_error G j = Some (GHandle a) -> no_parents G (eq j) ->
    Forall (valid_op G) (h1 ++ Reset j :: h2) -> Forall (leaves_jacobian T j) h2 -> unfolds G dv j e ->
    exists st, grun G (ginit sigma) (h1 ++ Reset j :: h2) = Some st /\
      evalJ_result G st T dv j = Some (eval fs (assigned sigma (h1 ++ h2) T) e).
  Proof.
    intros G Hwf He sigma h1 j h2 T dv a e Hja HK Hv Hq Hu.
    destruct (run_total G Hwf _ (ginit sigma) Hv) as [st Est]. exists st. split; [exact Est|].
    rewrite grun_app in Est. destruct (grun G (ginit sigma) h1) as [s1|] eqn:E1; [|discriminate].
    rewrite grun_cons in Est. destruct (gstep G s1 (Reset j)) as [s2|] eqn:E2; [|discriminate].
    pose proof (run_base G He _ _ _ _ (init_base G sigma) E1) as Hb1.
    pose proof (step_base G He _ _ _ _ Hb1 E2) as Hb2. cbn [gstep update_sigma] in *.
    assert (Hj2 : jgood G (assigned sigma h1) T j s2).
    { split; [exact Hb2|]. destruct (reset_ok _ _ _ _ _ E2) as [_ W3].
      destruct (W3 T j (reach_refl G j)) as [[k [c Hc]]|Hf]; [congruence|]. rewrite Hf. discriminate. }
    pose proof (run_jgood G He T j HK _ _ _ _ Hj2 Hq Est) as Hj3. rewrite <- assigned_app in Hj3.
    unfold evalJ_result. destruct (evalJ_total G Hwf T dv st j a Hja) as [s3 [v E3]]. rewrite E3. cbn [option_map snd]. f_equal.
    destruct (evalJ_cases _ _ _ _ _ _ _ _ E3) as [[-> [Hd Hc]]|[a' [s4 [s5 [Hn [Er [Ev ->]]]]]]].
    - destruct Hj3 as [_ Hj3]. rewrite Hc in Hj3. cbn [fst snd] in Hj3. apply Hj3; [reflexivity|]. rewrite Hd. assumption.
    - exact (proj2 (evalJ_fresh G _ He T dv st j a' s4 s5 v _ (proj1 Hj3) Hn Er Ev) e Hu).
  Qed.
End Heap.

(** ** Examples: f = s * s with s = x + y shared, and its derivative node j = 2 s (dx + dy), sharing s *)
Definition shared_graph : list (gnode (F := QcF)) :=
  [GVar; GVar; GSum [(true, 0); (true, 1)]; GMul [(true, 2); (true, 2)]; GNum KInteger (qc 2 1);
   GDiff 0; GDiff 1; GSum [(true, 5); (true, 6)]; GMul [(true, 4); (true, 2); (true, 7)]; GHandle 8].

Definition shared_history : list (gop (F := QcF)) :=
  [SetVar Dbl 0 (qc 1 1); SetVar Dbl 1 (qc 2 1); Eval Dbl None 3; SetVar Dbl 0 (qc 5 1)].

Lemma wf_by_check : forall (F : fld) (G : list (gnode (F := F))),
  forallb (fun n => match nth_error G n with Some nd => forallb (fun c => c <? n) (children nd) | None => false end) (seq 0 (length G)) = true ->
  well_founded_graph G.
Proof.
  intros F G H n nd c En Hc. rewrite forallb_forall in H.
  assert (Hn : n < length G) by (apply nth_error_Some; congruence).
  specialize (H n). rewrite En in H. assert (Hs : In n (seq 0 (length G))) by (apply in_seq; lia).
  specialize (H Hs). rewrite forallb_forall in H. apply Nat.ltb_lt. auto.
Qed.

Lemma shared_wf : well_founded_graph shared_graph.
Proof. apply wf_by_check. vm_compute. reflexivity. Qed.

Lemma no_pow_plain : forall (F : fld) (G : list (gnode (F := F))),
  forallb (fun nd => match nd with GPow _ _ => false | _ => true end) G = true -> plain_exponents G.
Proof. intros F G H n b e En. rewrite forallb_forall in H. specialize (H _ (nth_error_In _ _ En)). discriminate. Qed.

Lemma shared_plain : plain_exponents shared_graph.
Proof. apply no_pow_plain. vm_compute. reflexivity. Qed.

Lemma shared_valid : forall n, n < 10 -> Forall (valid_op shared_graph) (shared_history ++ [Reset n]).
Proof.
  intros n Hn. unfold shared_history. cbn [app]. repeat (apply Forall_cons; [cbn; lia || reflexivity|]). apply Forall_nil.
Qed.

(** what the user sees: after the Reset the new value, without it the old one *)
Lemma shared_values : forall sigma,
  option_map (fun st => eval_result qc_funs shared_graph st Dbl None 3) (grun qc_funs shared_graph (ginit sigma) (shared_history ++ [Reset 3])) = Some (Some (Some (qc 49 1))) /\
  option_map (fun st => eval_result qc_funs shared_graph st Dbl None 3) (grun qc_funs shared_graph (ginit sigma) shared_history) = Some (Some (Some (qc 9 1))) /\
  option_map (fun st => evalJ_result qc_funs shared_graph st Dbl (Some 0) 9) (grun qc_funs shared_graph (ginit sigma) (shared_history ++ [Reset 9])) = Some (Some (Some (qc 14 1))).
Proof. intro sigma. repeat split; vm_compute; reflexivity. Qed.

Lemma shared_no_parents : no_parents shared_graph (eq 9).
Proof.
  intros n nd c En Hc <-. pose proof (shared_wf n nd 9 En Hc) as H.
  assert (n < 10) by (apply (proj1 (nth_error_Some shared_graph n)); congruence). lia.
Qed.
