(** C86: simplifying a system. *)
From Coq Require Import List Arith Lia ZArith Bool.
From Verif Require Import Base Expr Homog Heap Simplify SimpGraph SimpGraphP SimpSys SimpTerm SimpGraphEx SimpGraphN.
Import ListNotations.

(** Simplify ends, for every system, sharing nodes or not, and whatever numbers are drawn *)
Theorem C86_terminates : forall (F : fld) (fs : funs F) (G : list (gnode (F := F))) st y, proper G y ->
  exists k, forall rounds fuel unit, k <= rounds -> k <= fuel -> exists s', simplify_system fs rounds fuel unit y (G, st) = Some s'.
Proof.
  intros F fs G st y P. apply simplify_system_total; [exact (p_acyclic G y P)|]. intros n Hn. apply in_app_or in Hn as [Hn|Hn].
  - destruct (p_funs G y P n Hn) as [a Ea]. apply nth_error_Some. congruence.
  - exact (p_derivs G y P n Hn).
Qed.
Print Assumptions C86_terminates.

(** Functions and derivatives have the values they had, at every point with the parameters as they are.  [base_ok]: every
    variable holds the value [sigma] gives it, and kept values of numbers are right, which is so after any history (Heap.v,
    [run_base]).  Missing: other values of the parameters, see [C86_parameters_refuted], and unlucky random numbers. *)
Theorem C86_values_partial : forall (F : fld) (fs : funs F) (G : list (gnode (F := F))) st sigma y rounds fuel unit G' st',
  proper G y -> base_ok G sigma st -> simplify_system fs rounds fuel unit y (G, st) = Some (G', st') ->
  let rho0 := random_point unit (y_all_vars y) (sigma Dbl) in
  (forall n, In n (simplified y) -> exists a, has_value fs G rho0 n a) -> telling fs G y rho0 ->
  forall rho, same_parameters y (sigma Dbl) rho -> forall n a, has_value fs G rho n a -> has_value fs G' rho n a.
Proof.
  intros F fs G st sigma y rounds fuel unit G' st' P Hb E rho0 Hd T. apply (simplify_system_ok fs _ _ _ _ _ _ _ _ sigma P Hb E Hd). exact T.
Qed.
Print Assumptions C86_values_partial.

(** Parameters are not randomised: with p=0, the derivative p of p*x becomes 0 for good *)
Theorem C86_parameters_refuted :
  ~ (forall (F : fld) (fs : funs F) (G : list (gnode (F := F))) st sigma y rounds fuel unit G' st',
       proper G y -> base_ok G sigma st -> simplify_system fs rounds fuel unit y (G, st) = Some (G', st') ->
       let rho0 := random_point unit (y_all_vars y) (sigma Dbl) in
       (forall n, In n (simplified y) -> exists a, has_value fs G rho0 n a) -> telling fs G y rho0 ->
       forall rho n a, has_value fs G rho n a -> has_value fs G' rho n a).
Proof.
  intro H. destruct param_value as [G' [st' [a [E [V Va]]]]]. destruct param_derivative as [b [Vb Eb]].
  pose proof (H QcF qc_funs param_nodes (ginit zero_param) zero_param param_system 9 9 luck G' st' (param_proper QcF) (init_base _ _) E
    (param_defined _ _ _) param_luck (start Dbl) 8 b Vb) as [e' [U V']].
  destruct V as [e [U2 V2]]. rewrite (unfolds_fun _ _ _ _ _ U2 U) in V2. rewrite V2 in V'. injection V' as <-. rewrite Va in Eb. discriminate.
Qed.
Print Assumptions C86_parameters_refuted.

(** Every variable holds the values it held, in both number types, and the result can be simplified again *)
Theorem C86_restored : forall (F : fld) (fs : funs F) (G : list (gnode (F := F))) st sigma y rounds fuel unit G' st',
  proper G y -> base_ok G sigma st -> simplify_system fs rounds fuel unit y (G, st) = Some (G', st') ->
  (forall n, In n (simplified y) -> exists a, has_value fs G (random_point unit (y_all_vars y) (sigma Dbl)) n a) ->
  proper G' y /\ base_ok G' sigma st' /\
  forall T v, nth_error G v = Some GVar -> nth_error G' v = Some GVar /\ fst (cache st' T v) = fst (cache st T v).
Proof.
  intros F fs G st sigma y rounds fuel unit G' st' P Hb E Hd.
  destruct (simplify_system_ok fs _ _ _ _ _ _ _ _ sigma P Hb E Hd) as [P' [Hb' _]]. split; [exact P'|]. split; [exact Hb'|].
  intros T v Ev. pose proof (simplify_system_derivatives fs _ _ _ _ _ _ _ P E) as E'.
  destruct (simplify_derivatives_ok fs _ _ _ _ _ _ _ _ sigma E' (p_acyclic G y P) Hb (p_nodup G y P) (p_vars G y P) Hd) as [_ [_ [[_ [K _]] _]]].
  assert (Ev' : nth_error G' v = Some GVar) by (apply (K v GVar Ev); exact I). split; [exact Ev'|].
  rewrite (proj1 Hb' T v Ev'), (proj1 Hb T v Ev). reflexivity.
Qed.
Print Assumptions C86_restored.

(** Evaluating a derivative next, in either number type, gives its value at the values the variables hold *)
Theorem C86_derivatives : forall (F : fld) (fs : funs F) (G : list (gnode (F := F))) st sigma y rounds fuel unit G' st',
  proper G y -> base_ok G sigma st -> no_differentials G -> simplify_system fs rounds fuel unit y (G, st) = Some (G', st') ->
  (forall n, In n (simplified y) -> exists a, has_value fs G (random_point unit (y_all_vars y) (sigma Dbl)) n a) ->
  forall T n, In n (y_derivs y) -> exists e, unfolds G' None n e /\
    exists k, forall fuel', k <= fuel' -> exists st'', geval fs G' fuel' T None st' n = Some (st'', eval fs (sigma T) e).
Proof.
  intros F fs G st sigma y rounds fuel unit G' st' P Hb N E Hd T n Hn.
  destruct (simplify_system_ok fs _ _ _ _ _ _ _ _ sigma P Hb E Hd) as [P' [Hb' [_ [N' [R _]]]]].
  apply eval_clean; [exact (p_acyclic G' y P')|exact (N' N)|exact Hb'|exact (p_derivs G' y P' n Hn)|]. intros m Hm. apply (R n Hn T m Hm).
Qed.
Print Assumptions C86_derivatives.

(** which is the value it had before *)
Theorem C86_derivatives_before_partial : forall (F : fld) (fs : funs F) (G : list (gnode (F := F))) st sigma y rounds fuel unit G' st',
  proper G y -> base_ok G sigma st -> no_differentials G -> simplify_system fs rounds fuel unit y (G, st) = Some (G', st') ->
  let rho0 := random_point unit (y_all_vars y) (sigma Dbl) in
  (forall n, In n (simplified y) -> exists a, has_value fs G rho0 n a) -> telling fs G y rho0 ->
  forall n a, In n (y_derivs y) -> has_value fs G (sigma Dbl) n a ->
  exists k, forall fuel', k <= fuel' -> exists st'', geval fs G' fuel' Dbl None st' n = Some (st'', Some a).
Proof.
  intros F fs G st sigma y rounds fuel unit G' st' P Hb N E rho0 Hd T n a Hn Ha.
  destruct (C86_derivatives F fs G st sigma y rounds fuel unit G' st' P Hb N E Hd Dbl n Hn) as [e [U [k K]]]. exists k. intros fuel' Hf.
  destruct (K fuel' Hf) as [st'' E'']. exists st''. rewrite E''. do 2 f_equal.
  destruct (C86_values_partial F fs G st sigma y rounds fuel unit G' st' P Hb E Hd T (sigma Dbl) (fun _ _ => eq_refl) n a Ha) as [e' [U' V']].
  rewrite (unfolds_fun _ _ _ _ _ U U'). exact V'.
Qed.
Print Assumptions C86_derivatives_before_partial.

(** Not so the functions: their nodes keep values computed at the random point *)
Theorem C86_functions_stale_refuted :
  ~ (forall (F : fld) (fs : funs F) (G : list (gnode (F := F))) sigma y rounds fuel unit G' st',
       proper G y -> no_differentials G -> simplify_system fs rounds fuel unit y (G, ginit sigma) = Some (G', st') ->
       let rho0 := random_point unit (y_all_vars y) (sigma Dbl) in
       (forall n, In n (simplified y) -> exists a, has_value fs G rho0 n a) -> telling fs G y rho0 ->
       forall n a, In n (y_funs y) -> has_value fs G (sigma Dbl) n a ->
       forall fuel' st'' v, geval fs G' fuel' Dbl None st' n = Some (st'', v) -> v = Some a).
Proof.
  intro H. destruct stale_value as [G' [st' [E [[st'' [v [Ev Rv]]] _]]]]. destruct shared_function as [a [Ha Ra]].
  pose proof (H QcF qc_funs shared_nodes start shared_system 9 9 luck G' st' (shared_proper QcF) shared_plain E (shared_defined _ _ _) shared_luck
    6 a (or_introl eq_refl) Ha 9 st'' (Some v) Ev) as X. injection X as ->. rewrite Rv in Ra. discriminate.
Qed.
Print Assumptions C86_functions_stale_refuted.

(** After a reset every function, in either number type, has its value at the values the variables hold, in double precision
    the one it had before *)
Theorem C86_functions_after_reset : forall (F : fld) (fs : funs F) (G : list (gnode (F := F))) st sigma y rounds fuel unit G' st',
  proper G y -> base_ok G sigma st -> no_differentials G -> simplify_system fs rounds fuel unit y (G, st) = Some (G', st') ->
  let rho0 := random_point unit (y_all_vars y) (sigma Dbl) in
  (forall n, In n (simplified y) -> exists a, has_value fs G rho0 n a) ->
  forall T n, In n (y_funs y) -> exists e, unfolds G' None n e /\
    (telling fs G y rho0 -> forall a, has_value fs G (sigma Dbl) n a -> eval fs (sigma Dbl) e = Some a) /\
    exists k, forall fuel', k <= fuel' -> exists st1 st2, reset G' fuel' st' n = Some st1 /\
      geval fs G' fuel' T None st1 n = Some (st2, eval fs (sigma T) e).
Proof.
  intros F fs G st sigma y rounds fuel unit G' st' P Hb N E rho0 Hd T n Hn.
  destruct (simplify_system_ok fs _ _ _ _ _ _ _ _ sigma P Hb E Hd) as [P' [Hb' [_ [N' [_ V]]]]].
  assert (Ln : n < length G') by (destruct (p_funs G' y P' n Hn) as [a Ea]; apply nth_error_Some; congruence).
  destruct (eval_reset fs G' sigma st' T n (p_acyclic G' y P') (N' N) Hb' Ln) as [e [U K]]. exists e. split; [exact U|]. split; [|exact K].
  intros Te a Ha. destruct (V Te (sigma Dbl) (fun _ _ => eq_refl) n a Ha) as [e' [U' V']]. rewrite (unfolds_fun _ _ _ _ _ U U'). exact V'.
Qed.
Print Assumptions C86_functions_after_reset.

(** SimplifyFunctions changes nothing: a Function does not pass the simplification on to its expression *)
Theorem C86_functions_untouched : forall (F : fld) (fs : funs F) (G : list (gnode (F := F))) st y rounds fuel, proper G y -> 0 < rounds -> 0 < fuel ->
  simplify_functions fs rounds fuel y (G, st) = Some (G, st).
Proof. intros F fs G st y rounds fuel P. exact (functions_untouched fs rounds fuel G st y P). Qed.
Print Assumptions C86_functions_untouched.

(** Nor does simplifying Jacobian nodes, which are Functions *)
Theorem C86_jacobian_untouched : forall (F : fld) (fs : funs F) (G : list (gnode (F := F))) st y rounds fuel unit G' st', proper G y -> y_node y = true ->
  (forall n, In n (y_jac y) -> exists a, nth_error G n = Some (GHandle a)) ->
  simplify_system fs rounds fuel unit y (G, st) = Some (G', st') -> G' = G.
Proof. intros F fs G st y rounds fuel unit G' st' P. exact (jacobian_untouched fs rounds fuel unit G st y G' st' P). Qed.
Print Assumptions C86_jacobian_untouched.

(** The hypotheses hold for the function (y+1)*3 of x and y, whose derivatives share a node with it: at the start x=1, y=2 the
    function is worth 9 and the derivative for y is worth 3 before and after *)
Example C86_nontrivial : proper (F := QcF) shared_nodes shared_system /\ base_ok shared_nodes start (ginit start) /\ no_differentials (F := QcF) shared_nodes /\
  telling qc_funs shared_nodes shared_system (random_point luck (y_all_vars shared_system) (start Dbl)) /\
  (forall n, In n (simplified shared_system) -> exists a, has_value qc_funs shared_nodes (random_point luck (y_all_vars shared_system) (start Dbl)) n a) /\
  (exists a, has_value qc_funs shared_nodes (start Dbl) 14 a /\ rq a = QArith_base.Qmake 3 1) /\
  exists G' st', simplify_system qc_funs 9 9 luck shared_system (shared_nodes, ginit start) = Some (G', st') /\
    exists st'' v, geval qc_funs G' 9 Dbl None st' 14 = Some (st'', Some v) /\ rq v = QArith_base.Qmake 3 1.
Proof.
  split; [apply shared_proper|]. split; [apply init_base|]. split; [exact shared_plain|]. split; [exact shared_luck|].
  split; [apply shared_defined|]. split; [exact shared_derivative|].
  destruct stale_value as [G' [st' [E [_ V]]]]. exists G', st'. split; [exact E|exact V].
Qed.

(** When Simplify returns from a node, no sum below it (through sums and products) has a sum for an operand, and no product
    has a product: every fold was counted, and the rounds went on *)
Theorem C86_unnested : forall (F : fld) (fs : funs F) (G : list (gnode (F := F))) st rounds fuel n G' st',
  operands_given_in G -> graph_simplify fs rounds fuel (G, st) n = Some (G', st') -> unnested G' n.
Proof. intros F fs G st rounds fuel n G' st' N E. exact (proj1 (simplify_unnested fs rounds fuel (G, st) (G', st') n N E)). Qed.
Print Assumptions C86_unnested.

(** x + (y - x) becomes x + y - x *)
Example C86_unnested_met : operands_given_in nested_nodes /\
  exists G' st', graph_simplify qc_funs 9 9 (nested_nodes, ginit nested_values) 3 = Some (G', st') /\
  nth_error G' 3 = Some (GSum [(true, 0); (true, 1); (false, 0)]).
Proof. exact (conj nested_nodes_given nested_nodes_simplified). Qed.
