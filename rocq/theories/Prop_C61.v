(** C61: building functions with the operators of C++. *)
From Coq Require Import List Arith ZArith.
From Verif Require Import Base Expr Heap NodeOps NodeOpsEx.
Import ListNotations.

(** Whatever expression a program writes over existing nodes and numbers with + - * / unary minus, pow and the named
    functions: if its evaluation does not run into an integer overflow, the new node stands for the value ordinary
    arithmetic gives, and no existing node has changed. *)
Theorem C61_formula : forall (F : fld) (fs : funs F) (G : list (gnode (F := F))) (f : formula (F := F)) G' n dv rho,
  well_founded_graph G -> (forall m, In m (mentions f) -> m < length G) ->
  build G f = Some (G', n) ->
  well_founded_graph G' /\ (forall m, m < length G -> nth_error G' m = nth_error G m) /\ n < length G' /\
  value fs G' dv rho n = meaning fs (value fs G dv rho) f.
Proof. intros F. exact build_meaning. Qed.
Print Assumptions C61_formula.

(** The values of the existing nodes are those they had before. *)
Theorem C61_others_unchanged : forall (F : fld) (fs : funs F) (G : list (gnode (F := F))) (f : formula (F := F)) G' n dv rho m,
  well_founded_graph G -> (forall m, In m (mentions f) -> m < length G) ->
  build G f = Some (G', n) -> m < length G -> value fs G' dv rho m = value fs G dv rho m.
Proof. intros F. exact build_keeps. Qed.
Print Assumptions C61_others_unchanged.

(** There is no overflow when the exponents of the powers multiplied together add up to less than 2^31. *)
Theorem C61_defined : forall (F : fld) (G : list (gnode (F := F))) (f : formula (F := F)),
  moderate G f -> (forall m, In m (mentions f) -> m < length G) -> build G f <> None.
Proof. intros F. exact build_defined. Qed.
Print Assumptions C61_defined.

Example C61_formula_case : well_founded_graph xy_graph /\ (forall n, In n (mentions xy_formula) -> n < length xy_graph) /\
  moderate xy_graph xy_formula /\
  meaning qc_funs (value qc_funs xy_graph None xy_env) xy_formula = Some (qc 13 4) /\
  exists G' n, build xy_graph xy_formula = Some (G', n) /\ value qc_funs G' None xy_env n = Some (qc 13 4) /\ In (GIPow 0 5) G'.
Proof. exact (conj xy_wf (conj xy_mentions (conj xy_moderate (xy_value None)))). Qed.

(** Without that bound it is false: a product of two powers with legal exponents overflows. *)
Theorem C61_overflow_refuted : exists (G : list (gnode (F := QcF))) f,
  well_founded_graph G /\ (forall m, In m (mentions f) -> m < length G) /\ int_exponents f /\ build G f = None.
Proof. exact overflow_witness. Qed.
Print Assumptions C61_overflow_refuted.

(** *= and /= on a product change the product itself: its value is multiplied or divided by the new operand, and the
    nodes that are not built from the product keep their values, provided the operand is not itself built from the
    product. *)
Theorem C61_factor : forall (F : fld) (fs : funs F) (G : list (gnode (F := F))) p (multiply : bool) b G' dv rho vp vb,
  well_founded_graph G -> add_factor G p multiply b = Some G' -> ~ reach G b p ->
  denotes fs G dv rho p vp -> denotes fs G dv rho b vb ->
  denotes fs G' dv rho p (match vp, vb with
                          | Some x, Some y => if multiply then Some (fmul x y) else if feq_dec y f0 then None else Some (fdiv x y)
                          | _, _ => None end) /\
  (forall n v, ~ reach G n p -> denotes fs G dv rho n v -> denotes fs G' dv rho n v).
Proof. intros F. exact add_factor_spec. Qed.
Print Assumptions C61_factor.

(** a value is unique, and existing nodes have one *)
Theorem C61_denotes : forall (F : fld) (fs : funs F) (G : list (gnode (F := F))) dv rho n,
  (forall v w, denotes fs G dv rho n v -> denotes fs G dv rho n w -> v = w) /\
  (well_founded_graph G -> n < length G -> denotes fs G dv rho n (value fs G dv rho n)).
Proof.
  intros F fs G dv rho n.
  exact (conj (denotes_fun fs G dv rho n) (value_denotes fs G dv rho n)).
Qed.
Print Assumptions C61_denotes.

Example C61_factor_case : exists G', add_factor xy_graph 2 true 1 = Some G' /\ ~ reach xy_graph 1 2 /\ ~ reach xy_graph 0 2 /\
  value qc_funs xy_graph None xy_env 2 = Some (qc 6 1) /\ value qc_funs G' None xy_env 2 = Some (qc 18 1) /\
  value qc_funs xy_graph None xy_env 3 = Some (qc 8 1) /\ value qc_funs G' None xy_env 3 = Some (qc 20 1) /\
  well_founded_graph G'.
Proof. exact xy_factor. Qed.

(** So "writing formulas never changes a function made before" is false: a function built from the product changes with
    it, *)
Theorem C61_factor_shared_refuted : exists (G : list (gnode (F := QcF))) p b G' n rho v w,
  well_founded_graph G /\ add_factor G p true b = Some G' /\ n <> p /\
  denotes qc_funs G None rho n v /\ denotes qc_funs G' None rho n w /\ v <> w.
Proof. exact shared_witness. Qed.
Print Assumptions C61_factor_shared_refuted.

(** a value computed before the change is returned after it until Reset is called, *)
Theorem C61_factor_stale_refuted : exists (G : list (gnode (F := QcF))) sigma st p b G' v w,
  well_founded_graph G /\ grun qc_funs G (ginit sigma) [Eval Dbl None p] = Some st /\ add_factor G p true b = Some G' /\
  eval_result qc_funs G' st Dbl None p = Some (Some v) /\
  (exists st', gstep qc_funs G' st (Reset p) = Some st' /\ eval_result qc_funs G' st' Dbl None p = Some (Some w)) /\ v <> w.
Proof. exact stale_witness. Qed.
Print Assumptions C61_factor_stale_refuted.

(** and a product multiplied by itself with *= has no value at all: its tree is infinite. *)
Theorem C61_factor_self_refuted : forall (F : fld) (G : list (gnode (F := F))) p s G' dv,
  add_factor G p s p = Some G' -> forall e, ~ unfolds G' dv p e.
Proof. intros F. exact self_factor_cycle. Qed.
Print Assumptions C61_factor_self_refuted.

Example C61_self_case : exists G', add_factor xy_graph 2 true 2 = Some G'.
Proof. eexists. reflexivity. Qed.
