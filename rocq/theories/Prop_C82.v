(** C82: a system answers for the values set last. *)
From Coq Require Import ZArith List Arith Lia Bool.
From Verif Require Import Base Expr Heap SysCache SysCacheProof SysCacheEx.
Import ListNotations.

(** The trees stand for expressions: every function, space derivative and time derivative has one *)
Theorem C82_defined : forall (F : fld) (s : csys (F := F)), sound s ->
  (forall n, In n (c_funs s) -> exists e, unfolds (c_graph s) None n e) /\
  (forall ii jj v, ii < length (c_funs s) -> nth_error (c_vars s) jj = Some v -> exists e, derivative_in s v ii jj e) /\
  (c_path s <> None -> forall ii, ii < length (c_funs s) -> exists e, time_derivative_in s ii e).
Proof.
  intros F s Hs.
  assert (U : forall dv n, n < length (c_graph s) -> exists e, unfolds (c_graph s) dv n e).
  { intros dv n H. destruct (unfold_exists _ (snd_wf s Hs) dv n H) as [e He]. exists e, (S n). exact He. }
  assert (N : forall (l : list nat) k, k < length l -> exists n, nth_error l k = Some n /\ In n l).
  { intros l k H. destruct (nth_error l k) as [n|] eqn:E; [exists n; split; [reflexivity|exact (nth_error_In _ _ E)]|].
    apply nth_error_None in E. lia. }
  split; [|split].
  - intros n H. apply U. exact (proj1 (snd_funs s Hs n H)).
  - intros ii jj v Hi Hj. unfold derivative_in. destruct (c_node s) eqn:E.
    + destruct (snd_jac s Hs E) as [L J]. unfold num_functions in L. destruct (N (c_jac s) ii) as [j [Ej Ij]]; [lia|].
      destruct (J j Ij) as [[a Ha] _]. destruct (U (Some v) j) as [e He]; [apply nth_error_Some; congruence|]. exists e, j. auto.
    + destruct (snd_space s Hs E) as [L J]. unfold num_functions in *.
      assert (Lj : jj < length (c_vars s)) by (apply nth_error_Some; congruence).
      destruct (N (c_space s) (ii + jj * length (c_funs s))) as [n [En In']]; [rewrite L; nia|].
      destruct (U None n (proj1 (J n In'))) as [e He]. exists e, n. auto.
  - intros Hp ii Hi. unfold time_derivative_in. destruct (c_node s) eqn:E.
    + destruct (snd_jac s Hs E) as [L J]. unfold num_functions in L. destruct (N (c_jac s) ii) as [j [Ej Ij]]; [lia|].
      destruct (c_path s) as [p|]; [|congruence]. destruct (J j Ij) as [[a Ha] _].
      destruct (U (Some p) j) as [e He]; [apply nth_error_Some; congruence|]. exists e, j, p. auto.
    + destruct (snd_time s Hs E) as [L J]. specialize (L Hp). unfold num_functions in L.
      destruct (N (c_time s) ii) as [n [En In']]; [lia|]. destruct (U None n (proj1 (J n In'))) as [e He]. exists e, n. auto.
Qed.
Print Assumptions C82_defined.

(** Eval(x), Eval(x,t) in double precision, and in multiple precision if the system was evaluated in double precision before:
    whatever was set, reset and evaluated before, in either number type, the functions and the patch at x, t and the values last
    given to everything else.  Missing: systems only used in multiple precision, see [C82_mp_refuted]. *)
Theorem C82_eval_at_partial : forall (F : fld) (fs : funs F) (s : csys (F := F)), sound s ->
  forall sigma h st T x t, run fs s (init sigma) h = Some st -> acceptable s x t = true ->
  T = Dbl \/ existsb (evaluates_double s) h = true ->
  let rho := last_given s sigma (h ++ [EvalAt T x t]) T in
  map rho (c_vars s) = x /\ option_map rho (c_path s) = t /\
  exists st' r, step fs s st (EvalAt T x t) = Some (st', r) /\ right_values fs s rho x r.
Proof.
  intros F fs s Hs sigma h st T x t Hr Ha HT rho.
  destruct (point_given s Hs sigma h T x t (EvalAt T x t) Ha) as [P1 P2]; [auto|].
  split; [exact P1|]. split; [exact P2|]. exact (eval_at fs s Hs sigma h st T x t Hr Ha HT).
Qed.
Print Assumptions C82_eval_at_partial.

(** Evaluating a new system in multiple precision is undefined: the straight-line program, which was not compiled, is run too *)
Theorem C82_mp_refuted :
  ~ (forall (F : fld) (fs : funs F) (s : csys (F := F)), sound s -> forall sigma h st T x t,
       run fs s (init sigma) h = Some st -> acceptable s x t = true -> step fs s st (EvalAt T x t) <> None).
Proof.
  intro H. apply (H QcF qc_funs (homotopy false) (homotopy_sound false) (fun _ _ => qc 0 1) [] _ Mp (pt 1 2) (tm 3) eq_refl eq_refl).
  exact mp_undefined.
Qed.
Print Assumptions C82_mp_refuted.


(** Jacobian(x), Jacobian(x,t) in both number types *)
Theorem C82_jacobian_at : forall (F : fld) (fs : funs F) (s : csys (F := F)), sound s ->
  forall sigma h st T x t, run fs s (init sigma) h = Some st -> acceptable s x t = true ->
  let rho := last_given s sigma (h ++ [JacobianAt T x t]) T in
  map rho (c_vars s) = x /\ option_map rho (c_path s) = t /\
  exists st' r, step fs s st (JacobianAt T x t) = Some (st', r) /\ right_jacobian fs s rho x r.
Proof.
  intros F fs s Hs sigma h st T x t Hr Ha rho.
  destruct (point_given s Hs sigma h T x t (JacobianAt T x t) Ha) as [P1 P2]; [auto|].
  split; [exact P1|]. split; [exact P2|]. exact (jacobian_at fs s Hs sigma h st T x t Hr Ha).
Qed.
Print Assumptions C82_jacobian_at.

(** TimeDerivative(x,t), and TimeDerivative(x) at the time last set *)
Theorem C82_time_at : forall (F : fld) (fs : funs F) (s : csys (F := F)), sound s -> c_path s <> None ->
  forall sigma h st T x t, run fs s (init sigma) h = Some st -> length x = length (c_vars s) ->
  let rho := last_given s sigma (h ++ [TimeAt T x t]) T in
  map rho (c_vars s) = x /\
  match t with
  | Some a => option_map rho (c_path s) = Some a
  | None => option_map rho (c_path s) = option_map (last_given s sigma h T) (c_path s)
  end /\
  exists st' r, step fs s st (TimeAt T x t) = Some (st', r) /\ right_time fs s rho r.
Proof.
  intros F fs s Hs Hp sigma h st T x t Hr Hx rho.
  assert (H : map rho (c_vars s) = x /\ match t with Some a => option_map rho (c_path s) = Some a
              | None => option_map rho (c_path s) = option_map (last_given s sigma h T) (c_path s) end).
  { destruct t as [a|].
    - apply (point_given s Hs sigma h T x (Some a) (TimeAt T x (Some a))); [|auto].
      unfold acceptable. rewrite (proj2 (Nat.eqb_eq _ _) Hx). destruct (c_path s); [reflexivity|congruence].
    - unfold rho. exact (point_given_no_time s Hs sigma h T x Hx). }
  destruct H as [H1 H2]. split; [exact H1|]. split; [exact H2|]. exact (time_at fs s Hs sigma h st T x t Hr Hp Hx).
Qed.
Print Assumptions C82_time_at.

(** Eval(), Jacobian() and TimeDerivative() answer for the values given by SetAndReset, or by Jacobian(x) of a system without path
    variable, as long as nothing of that number type is set: in between the other type may be used and everything be evaluated and
    reset in any order.  (This is how predictors and correctors use systems.)  Missing: the values set by other calls, see
    [C82_here_refuted]. *)
Theorem C82_here_partial : forall (F : fld) (fs : funs F) (s : csys (F := F)), sound s ->
  forall sigma h T x t o h' st, acceptable s x t = true -> o = SetAndReset T x t \/ (t = None /\ o = JacobianAt T x None) ->
  forallb (sets_nothing T) h' = true -> run fs s (init sigma) (h ++ o :: h') = Some st ->
  let rho := last_given s sigma (h ++ [o]) T in
  map rho (c_vars s) = x /\ option_map rho (c_path s) = t /\
  (T = Dbl \/ existsb (evaluates_double s) (h ++ o :: h') = true -> exists st' r, step fs s st (EvalHere T) = Some (st', r) /\ right_values fs s rho x r) /\
  (exists st' r, step fs s st (JacobianHere T) = Some (st', r) /\ right_jacobian fs s rho x r) /\
  (c_path s <> None -> exists st' r, step fs s st (TimeHere T) = Some (st', r) /\ right_time fs s rho r).
Proof.
  intros F fs s Hs sigma h T x t o h' st Ha Ho Hq Hr rho.
  destruct (point_given s Hs sigma h T x t o Ha) as [P1 P2].
  { destruct Ho as [->|[-> ->]]; auto. }
  split; [exact P1|]. split; [exact P2|]. exact (evaluations_here fs s Hs sigma h T x t o h' st Ha Ho Hq Hr).
Qed.
Print Assumptions C82_here_partial.

(** Eval() does not use "the previously set variable and time values": after Eval(x0,t0) and Jacobian(x1,t1) it returns the functions
    at x0, t0 and the patch at x1 *)
Theorem C82_here_refuted :
  ~ (forall (F : fld) (fs : funs F) (s : csys (F := F)), sound s -> forall sigma h st st' r,
       run fs s (init sigma) h = Some st -> step fs s st (EvalHere Dbl) = Some (st', r) ->
       right_values fs s (last_given s sigma h Dbl) (map (last_given s sigma h Dbl) (c_vars s)) r).
Proof.
  intro H. specialize (H QcF qc_funs (homotopy false) (homotopy_sound false) (fun _ _ => qc 0 1)
    [EvalAt Dbl (pt 1 2) (tm 3); JacobianAt Dbl (pt 4 5) (tm 6)]).
  destruct (stale_run false) as [st [st' [r [R [S1 S2]]]]]. specialize (H st st' r R S1).
  exact (stale_wrong false r S2 H).
Qed.
Print Assumptions C82_here_refuted.

(** A call which throws has changed nothing, unless it is TimeDerivative(x), TimeDerivative(x,t) or SetAndReset(x,t) of a system without
    path variable *)
Theorem C82_throws_partial : forall (F : fld) (fs : funs F) (s : csys (F := F)) st o st',
  step fs s st o = Some (st', Thrown) ->
  c_path s <> None \/ match o with TimeAt _ _ _ | SetAndReset _ _ (Some _) => False | _ => True end -> st' = st.
Proof. exact throws_unchanged. Qed.
Print Assumptions C82_throws_partial.

(** ... which have set the variables *)
Theorem C82_throws_refuted :
  ~ (forall (F : fld) (fs : funs F) (s : csys (F := F)), sound s -> forall sigma h st o st',
       run fs s (init sigma) h = Some st -> step fs s st o = Some (st', Thrown) -> st' = st).
Proof.
  intro H. specialize (H QcF qc_funs no_path no_path_sound (fun _ _ => qc 0 1) [] (init (fun _ _ => qc 0 1)) (TimeAt Dbl (pt 4 5) (tm 6))).
  destruct throw_example as [st' [E C]]. specialize (H st' eq_refl E). rewrite H in C. cbn in C. discriminate C.
Qed.
Print Assumptions C82_throws_refuted.

(** TimeDerivative written into a given vector: no write after its end if it has an entry for every function and every patch equation *)
Theorem C82_vector_partial : forall (F : fld) (fs : funs F) (s : csys (F := F)), sound s -> forall st T n,
  n < length (c_funs s) \/ length (c_funs s) + match c_patch s with Some (k, _, _) => k | None => 0 end <= n -> step fs s st (TimeInPlace T n) <> None.
Proof. intros F. exact vector_total. Qed.
Print Assumptions C82_vector_partial.

(** ... but the size test of the code lets vectors pass which are too short for a patched system *)
Theorem C82_vector_refuted :
  ~ (forall (F : fld) (fs : funs F) (s : csys (F := F)), sound s -> forall st T n, step fs s st (TimeInPlace T n) <> None).
Proof.
  intro H. apply (H QcF qc_funs (homotopy false) (homotopy_sound false) (init (fun _ _ => qc 0 1)) Dbl 2). reflexivity.
Qed.
Print Assumptions C82_vector_refuted.

(** the hypotheses are met, with derivative trees and with Jacobian nodes: (x+t) y, x - p and the patch x + 2y - 1 *)
Example C82_case : forall b, sound (homotopy b) /\ acceptable (homotopy b) (pt 1 2) (tm 3) = true /\
  answer (homotopy b) [] (EvalAt Dbl (pt 1 2) (tm 3)) = vals [8; 1; 4]%Z /\
  answer (homotopy b) [EvalAt Dbl (pt 1 2) (tm 3)] (JacobianAt Dbl (pt 4 5) (tm 6)) = mat [[5; 10]; [1; 0]; [1; 2]]%Z /\
  answer (homotopy b) [EvalAt Dbl (pt 1 2) (tm 3)] (TimeAt Dbl (pt 4 5) None) = vals [5; 0; 0]%Z /\
  answer (homotopy b) [EvalAt Dbl (pt 1 2) (tm 3)] (EvalAt Mp (pt 4 5) (tm 6)) = vals [50; 4; 13]%Z /\
  answer (homotopy b) [SetAndReset Dbl (pt 1 2) (tm 3); JacobianHere Dbl; SetVariables Mp (pt 7 7); TimeHere Dbl] (EvalHere Dbl) = vals [8; 1; 4]%Z /\
  answer (homotopy b) [EvalAt Dbl (pt 1 2) (tm 3); JacobianAt Dbl (pt 4 5) (tm 6)] (EvalHere Dbl) = vals [8; 1; 13]%Z.
Proof.
  intro b. split; [exact (homotopy_sound b)|]. split; [destruct b; reflexivity|].
  destruct (homotopy_answers b) as [A1 [A2 [A3 [A0 A4]]]]. repeat (split; [assumption|]). exact (homotopy_stale b).
Qed.
