(** Evaluating a whole system through its function trees: values set once and used by several evaluations, time
    derivatives, implicit parameters, and the caches of the nodes which functions and derivatives share.
    Models core/include/bertini2/system/system.hpp:173-306, 339-838 and 963-1067 for EvalMethod::FunctionTree.

    Simplifications.  The system has been differentiated (SetVariables and SetPathVariable do it at the latest,
    system.hpp:980-981, 1021-1022), so the nodes are fixed.  Precision is not modelled (C78).  The values of the
    patch are functions of the point (C18). *)
From Coq Require Import ZArith List Arith Lia Bool.
From Verif Require Import Base Expr Heap.
Import ListNotations.

Section SysCache.
  Context {F : fld}.
  Variable fs : funs F.

  (** system.hpp:1743-1787.  Nodes are addresses in the graph.  [c_node] tells whether the derivative method is
      DerivMethod::JacobianNode.  [c_patch]: number of equations of the patch, its values and its Jacobian. *)
  Record csys := mkSys {
    c_graph : list (gnode (F := F));
    c_funs : list nat;
    c_space : list nat;
    c_time : list nat;
    c_jac : list nat;
    c_vars : list nat;
    c_path : option nat;
    c_impl : list nat;
    c_node : bool;
    c_patch : option (nat * (list F -> list F) * (list F -> list (list F))) }.

  (** the values kept in the nodes, current_variable_values_, and is_evaluated_ of the straight-line program
      (straight_line_program.hpp:612), which was not compiled and has neither memory nor functions *)
  Record cstate := mkC {
    nodes : gstate (F := F);
    cur : numtype -> list F;
    ran : bool }.

  Inductive reply :=
  | Done
  | Thrown
  | Values (l : list (option F))
  | Matrix (rows : list (list (option F))).

  Section Operations.
    Variable s : csys.
    Let G := c_graph s.
    Let fuel := S (length G).

    (** system.cpp:166-169 NumNaturalFunctions; system.hpp:872-875 NumPatches *)
    Definition num_patches : nat := match c_patch s with Some (n, _, _) => n | None => 0 end.
    Definition num_functions : nat := length (c_funs s).

    (** system.hpp:988-990 *)
    Fixpoint set_all (T : numtype) (vs : list nat) (x : list F) (g : gstate) : gstate :=
      match vs, x with
      | v :: vs', a :: x' => set_all T vs' x' (set_value g T v a)
      | _, _ => g
      end.

    Definition set_cur (c : numtype -> list F) (T : numtype) (x : list F) : numtype -> list F :=
      fun T' => if numtype_eqb T' T then x else c T'.

    (** system.hpp:963-1002 SetVariables; [None] is the exception *)
    Definition set_variables (T : numtype) (x : list F) (st : cstate) : option cstate :=
      if length x =? length (c_vars s)
      then Some (mkC (set_all T (c_vars s) x (nodes st)) (set_cur (cur st) T x) (ran st))
      else None.

    (** system.hpp:1014-1033 SetPathVariable *)
    Definition set_path (T : numtype) (t : F) (st : cstate) : option cstate :=
      match c_path s with
      | Some p => Some (mkC (set_value (nodes st) T p t) (cur st) (ran st))
      | None => None
      end.

    (** Reset of each node of a list; [None] is a dangling address *)
    Definition reset_nodes (l : list nat) (st : cstate) : option cstate :=
      match fold_left (fun acc n => match acc with Some g => reset G fuel g n | None => None end) l (Some (nodes st)) with
      | Some g => Some (mkC g (cur st) (ran st))
      | None => None
      end.

    (** system.hpp:173-187 ResetFunctions, 192-222 ResetJacobian, 224-253 ResetTimeDerivatives, 258-263 Reset *)
    Definition reset_functions := reset_nodes (c_funs s).
    Definition reset_jacobian := reset_nodes (if c_node s then c_jac s else c_space s).
    Definition reset_time := reset_nodes (if c_node s then c_jac s else c_time s).
    Definition and_then (o : option cstate) (f : cstate -> option cstate) : option cstate :=
      match o with Some st => f st | None => None end.
    Definition reset_all (st : cstate) : option cstate :=
      and_then (and_then (reset_functions st) reset_jacobian) reset_time.

    (** evaluation of a list of nodes, one after the other *)
    Fixpoint eval_nodes (T : numtype) (l : list nat) (g : gstate) : option (gstate * list (option F)) :=
      match l with
      | [] => Some (g, [])
      | n :: l' =>
          match geval fs G fuel T None g n with
          | Some (g1, v) => match eval_nodes T l' g1 with Some (g2, vs) => Some (g2, v :: vs) | None => None end
          | None => None
          end
      end.
    Fixpoint evalJ_nodes (T : numtype) (l : list (nat * nat)) (g : gstate) : option (gstate * list (option F)) :=
      match l with
      | [] => Some (g, [])
      | (n, v) :: l' =>
          match evalJ fs G fuel T (Some v) g n with
          | Some (g1, a) => match evalJ_nodes T l' g1 with Some (g2, vs) => Some (g2, a :: vs) | None => None end
          | None => None
          end
      end.

    (** the rows which the patch adds; [None]: the point kept has another size (nothing was set) *)
    Definition patch_values (x : list F) : option (list (option F)) :=
      match c_patch s with
      | None => Some []
      | Some (_, v, _) => if length x =? length (c_vars s) then Some (map Some (v x)) else None
      end.
    Definition patch_jacobian (x : list F) : option (list (list (option F))) :=
      match c_patch s with
      | None => Some []
      | Some (_, _, j) => if length x =? length (c_vars s) then Some (map (map Some) (j x)) else None
      end.

    (** system.hpp:270-323 Eval() and EvalInPlace(f).  After the trees the straight-line program is run, as there is
        no break (line 290).  It has no functions, so the values stay.  If it has not been run before, in multiple
        precision the first number of its empty memory is read (straight_line_program.cpp:213), which is undefined;
        after a run in double precision it is not run again (straight_line_program.hpp:358, straight_line_program.cpp:311). *)
    Definition eval_here (T : numtype) (st : cstate) : option (cstate * reply) :=
      if match T with Dbl => true | Mp => ran st end then
        match eval_nodes T (c_funs s) (nodes st), patch_values (cur st T) with
        | Some (g, l), Some r => Some (mkC g (cur st) true, Values (l ++ r))
        | _, _ => None
        end
      else None.

    Definition rows_of (cells : nat -> nat -> option F) : list (list (option F)) :=
      map (fun ii => map (cells ii) (seq 0 (length (c_vars s)))) (seq 0 num_functions).

    (** system.hpp:470-517 JacobianInPlace(J), 531-538 Jacobian(): the space derivatives are stored column by column,
        the Jacobian nodes are evaluated row by row.  [None]: a derivative is missing. *)
    Definition jacobian_here (T : numtype) (st : cstate) : option (cstate * reply) :=
      if c_node s then
        if length (c_jac s) <? num_functions then None
        else
          match evalJ_nodes T (list_prod (firstn num_functions (c_jac s)) (c_vars s)) (nodes st), patch_jacobian (cur st T) with
          | Some (g, l), Some r =>
              Some (mkC g (cur st) (ran st), Matrix (rows_of (fun ii jj => nth (ii * length (c_vars s) + jj) l None) ++ r))
          | _, _ => None
          end
      else
        if length (c_space s) <? num_functions * length (c_vars s) then None
        else
          match eval_nodes T (firstn (num_functions * length (c_vars s)) (c_space s)) (nodes st), patch_jacobian (cur st T) with
          | Some (g, l), Some r =>
              Some (mkC g (cur st) (ran st), Matrix (rows_of (fun ii jj => nth (ii + jj * num_functions) l None) ++ r))
          | _, _ => None
          end.

    (** system.hpp:757-807 TimeDerivativeInPlace(v) with a vector of [n] entries; what is returned are its first
        entries, the others are left alone.  [None] is a write after its end, or a missing derivative. *)
    Definition time_in_place (T : numtype) (n : nat) (st : cstate) : option (cstate * reply) :=
      if n <? num_functions then Some (st, Thrown)
      else
        match c_path s with
        | None => Some (st, Thrown)
        | Some p =>
            if n <? num_functions + num_patches then None
            else
              match (if c_node s
                     then if length (c_jac s) <? num_functions then None
                          else evalJ_nodes T (map (fun j => (j, p)) (firstn num_functions (c_jac s))) (nodes st)
                     else if length (c_time s) <? num_functions then None
                          else eval_nodes T (firstn num_functions (c_time s)) (nodes st)) with
              | Some (g, l) => Some (mkC g (cur st) (ran st), Values (l ++ repeat (Some f0) num_patches))
              | None => None
              end
        end.

    (** system.hpp:823-831 TimeDerivative() *)
    Definition time_here (T : numtype) (st : cstate) : option (cstate * reply) :=
      match c_path s with
      | None => Some (st, Thrown)
      | Some _ => time_in_place T (num_functions + num_patches) st
      end.

    (** The tests of sizes and path variable, system.hpp:343-350, 409-412, 555-559, 612-616 *)
    Definition acceptable (x : list F) (t : option F) : bool :=
      (length x =? length (c_vars s)) &&
      match c_path s, t with Some _, Some _ | None, None => true | _, _ => false end.

    (** SetVariables, then SetPathVariable if there is a time.  The exception leaves what was set before it. *)
    Definition set_values (T : numtype) (x : list F) (t : option F) (st : cstate) : cstate * bool :=
      match set_variables T x st with
      | None => (st, false)
      | Some st1 =>
          match t with
          | None => (st1, true)
          | Some a => match set_path T a st1 with Some st2 => (st2, true) | None => (st1, false) end
          end
      end.

    Definition after_setting (r : cstate * bool) (reset : cstate -> option cstate)
        (use : cstate -> option (cstate * reply)) : option (cstate * reply) :=
      match r with
      | (st, false) => Some (st, Thrown)
      | (st, true) => match reset st with Some st1 => use st1 | None => None end
      end.

    (** what a user can do; the arguments are number type, point and time *)
    Inductive sop :=
    | SetVariables (T : numtype) (x : list F)
    | SetPathVariable (T : numtype) (t : F)
    | SetImplicitParameters (T : numtype) (p : list F)
    | SetAndReset (T : numtype) (x : list F) (t : option F)
    | ResetFunctions
    | ResetJacobian
    | ResetTimeDerivatives
    | ResetAll
    | EvalHere (T : numtype)
    | JacobianHere (T : numtype)
    | TimeHere (T : numtype)
    | TimeInPlace (T : numtype) (n : nat)
    | EvalAt (T : numtype) (x : list F) (t : option F)
    | JacobianAt (T : numtype) (x : list F) (t : option F)
    | TimeAt (T : numtype) (x : list F) (t : option F).

    Definition finish (o : option cstate) : option (cstate * reply) :=
      match o with Some st => Some (st, Done) | None => None end.

    (** system.hpp:1058-1067 SetImplicitParameters; 1036-1051 SetAndReset; 339-455 Eval(x), Eval(x,t);
        550-592, 606-667 Jacobian(x), Jacobian(x,t); 680-753 TimeDerivative(x), TimeDerivative(x,t).
        [None] is undefined behaviour. *)
    Definition step (st : cstate) (o : sop) : option (cstate * reply) :=
      match o with
      | SetVariables T x => match set_variables T x st with Some st1 => Some (st1, Done) | None => Some (st, Thrown) end
      | SetPathVariable T t => match set_path T t st with Some st1 => Some (st1, Done) | None => Some (st, Thrown) end
      | SetImplicitParameters T p =>
          if length p =? length (c_impl s) then Some (mkC (set_all T (c_impl s) p (nodes st)) (cur st) (ran st), Done)
          else Some (st, Thrown)
      | SetAndReset T x t => after_setting (set_values T x t st) reset_all (fun st1 => Some (st1, Done))
      | ResetFunctions => finish (reset_functions st)
      | ResetJacobian => finish (reset_jacobian st)
      | ResetTimeDerivatives => finish (reset_time st)
      | ResetAll => finish (reset_all st)
      | EvalHere T => eval_here T st
      | JacobianHere T => jacobian_here T st
      | TimeHere T => time_here T st
      | TimeInPlace T n => time_in_place T n st
      | EvalAt T x t =>
          if acceptable x t then after_setting (set_values T x t st) reset_functions (eval_here T) else Some (st, Thrown)
      | JacobianAt T x t =>
          if acceptable x t
          then after_setting (set_values T x t st) (match t with None => reset_all | Some _ => reset_jacobian end) (jacobian_here T)
          else Some (st, Thrown)
      | TimeAt T x t => after_setting (set_values T x t st) reset_time (time_here T)
      end.

    Fixpoint run (st : cstate) (h : list sop) : option cstate :=
      match h with
      | [] => Some st
      | o :: h' => match step st o with Some (st1, _) => run st1 h' | None => None end
      end.

    (** new nodes have no valid value; the variables have some value *)
    Definition init (sigma : numtype -> env F) : cstate := mkC (ginit sigma) (fun _ => []) false.

    (** ** Specification *)

    (** the values which a call gives to variables of the type [T] *)
    Definition given (T : numtype) (o : sop) : list (nat * F) :=
      let point T' x := if numtype_eqb T T' && (length x =? length (c_vars s)) then combine (c_vars s) x else [] in
      let time T' t := match c_path s, t with
                       | Some p, Some a => if numtype_eqb T T' then [(p, a)] else []
                       | _, _ => [] end in
      match o with
      | SetVariables T' x => point T' x
      | SetPathVariable T' t => time T' (Some t)
      | SetImplicitParameters T' p =>
          if numtype_eqb T T' && (length p =? length (c_impl s)) then combine (c_impl s) p else []
      | EvalAt T' x t | JacobianAt T' x t => if acceptable x t then point T' x ++ time T' t else []
      | TimeAt T' x t | SetAndReset T' x t => if length x =? length (c_vars s) then point T' x ++ time T' t else []
      | _ => []
      end.

    (** the value last given to each variable *)
    Definition last_given (sigma : numtype -> env F) (h : list sop) (T : numtype) : env F :=
      fold_left (fun rho p => upd rho (fst p) (snd p)) (flat_map (given T) h) (sigma T).

    (** the nodes are what the names say.  Trees of functions and of derivatives with respect to a variable contain no
        Differential; the Jacobian nodes are roots; variables, path variable and implicit parameters are different. *)
    Record sound : Prop := {
      snd_wf : well_founded_graph G;
      snd_exp : plain_exponents G;
      snd_vars : forall v, In v (c_vars s) -> nth_error G v = Some GVar;
      snd_path : forall p, c_path s = Some p -> nth_error G p = Some GVar /\ ~ In p (c_vars s);
      snd_nodup : NoDup (c_vars s);
      snd_impl : forall v, In v (c_impl s) -> nth_error G v = Some GVar;
      snd_funs : forall n, In n (c_funs s) -> n < length G /\ plain G n;
      snd_space : c_node s = false -> length (c_space s) = num_functions * length (c_vars s) /\
                  forall n, In n (c_space s) -> n < length G /\ plain G n;
      snd_time : c_node s = false -> (c_path s <> None -> length (c_time s) = num_functions) /\
                 forall n, In n (c_time s) -> n < length G /\ plain G n;
      snd_jac : c_node s = true -> length (c_jac s) = num_functions /\
                 forall j, In j (c_jac s) -> (exists a, nth_error G j = Some (GHandle a)) /\ no_parents G (eq j) /\
                                             ~ In j (c_funs s) }.

    (** the call does not change values of type [T]: it may set values of the other type, reset, and evaluate *)
    Definition sets_nothing (T : numtype) (o : sop) : bool :=
      match o with
      | SetVariables T' _ | SetPathVariable T' _ | SetImplicitParameters T' _ | SetAndReset T' _ _
      | EvalAt T' _ _ | JacobianAt T' _ _ | TimeAt T' _ _ => negb (numtype_eqb T' T)
      | _ => true
      end.

    (** the call evaluates the functions in double precision *)
    Definition evaluates_double (o : sop) : bool :=
      match o with EvalHere Dbl => true | EvalAt Dbl x t => acceptable x t | _ => false end.

    (** the derivative in row [ii] and column [jj]: the expression which the space derivative, or the Jacobian node
        evaluated for the variable, stands for *)
    Definition derivative_in (v : nat) (ii jj : nat) (e : expr F) : Prop :=
      if c_node s then exists j, nth_error (c_jac s) ii = Some j /\ unfolds G (Some v) j e
      else exists n, nth_error (c_space s) (ii + jj * num_functions) = Some n /\ unfolds G None n e.
    Definition time_derivative_in (ii : nat) (e : expr F) : Prop :=
      if c_node s then exists j p, nth_error (c_jac s) ii = Some j /\ c_path s = Some p /\ unfolds G (Some p) j e
      else exists n, nth_error (c_time s) ii = Some n /\ unfolds G None n e.

    (** the answers at the values [rho] and the point [x]: functions, then patch *)
    Definition right_values (rho : env F) (x : list F) (r : reply) : Prop :=
      exists l p, r = Values (l ++ p) /\
        Forall2 (fun n v => forall e, unfolds G None n e -> v = eval fs rho e) (c_funs s) l /\
        match c_patch s with Some (_, f, _) => p = map Some (f x) | None => p = [] end.
    Definition right_jacobian (rho : env F) (x : list F) (r : reply) : Prop :=
      exists l p, r = Matrix (l ++ p) /\ length l = length (c_funs s) /\
        (forall ii jj v e, ii < length (c_funs s) -> nth_error (c_vars s) jj = Some v -> derivative_in v ii jj e ->
           exists row, nth_error l ii = Some row /\ nth_error row jj = Some (eval fs rho e)) /\
        (forall row, In row l -> length row = length (c_vars s)) /\
        match c_patch s with Some (_, _, j) => p = map (map Some) (j x) | None => p = [] end.
    Definition right_time (rho : env F) (r : reply) : Prop :=
      exists l, r = Values (l ++ repeat (Some f0) match c_patch s with Some (n, _, _) => n | None => 0 end) /\ length l = length (c_funs s) /\
        forall ii e, ii < length (c_funs s) -> time_derivative_in ii e -> nth_error l ii = Some (eval fs rho e).
  End Operations.
End SysCache.
