(** Systems as objects: functions shared between systems, the choice of evaluation and differentiation method, cached
    derivatives and straight-line program, copying, moving, swapping and arithmetic.
    Models core/include/bertini2/system/system.hpp and core/src/system/system.cpp.

    Simplifications.  One number type is used at a time (what two types do to the program is C14): [mp] tells whether it
    is the multiple precision type.  A straight-line program is the list of expressions compiled into it with its
    inputs; that running it gives their values is C13 and C14.  Trees are evaluated afresh, as every entry point
    modelled here resets what it evaluates (C10).  The variables are the list given by [Variables()] (C15).
    Derivative trees are not changed by later changes of the functions.  Precision is not modelled.  Patches only
    appear where systems are combined, their values are C17 and C18. *)
From Coq Require Import ZArith List Arith Lia Bool.
From Verif Require Import Base Expr Diff Homog StartIndex.
Import ListNotations.

(** An entry of a vector or matrix returned: the value of an expression, or whatever was in memory. *)
Inductive entry (A : Type) := Known (v : option A) | Garbage.
Arguments Known {A} _.
Arguments Garbage {A}.

(** system.hpp:65-76 (DefaultEvalMethod and DefaultDerivMethod: system.cpp:41-49) *)
Inductive eval_method := FunctionTree | SLP.
Inductive deriv_method := JacobianNode | Derivatives.

Section SysState.
  Context {F : fld}.

  (** straight_line_program.hpp:600-612: a compiled program.  [s_env] are the inputs in its memory. *)
  Record program := {
    s_funs : list (expr F);
    s_jac : list (expr F);
    s_vars : list nat;
    s_path : option nat;
    s_env : nat -> F }.

  (** system.hpp:1743-1787.  [None] for [slp] is the default constructed program. *)
  Record system := {
    fns : list nat;
    vars : list nat;
    path : option nat;
    differentiated : bool;
    jacobian : list (expr F);
    space_derivatives : list (expr F);
    slp : option program;
    emethod : eval_method;
    dmethod : deriv_method;
    patch_of : option (list (list F)) }.

  (** system.hpp:111, 1784-1785 *)
  Definition new_system : system := Build_system [] [] None false [] [] None SLP Derivatives None.

  (** The world: what each Function object stands for ([heap]), the values of the variable nodes ([vals]) and the
      system objects. *)
  Record world := {
    heap : nat -> expr F;
    vals : nat -> F;
    sys : nat -> system }.

  Definition set_sys (w : world) (s : nat) (v : system) : world :=
    {| heap := heap w; vals := vals w; sys := fun i => if i =? s then v else sys w i |}.
  Definition set_vals (w : world) (v : nat -> F) : world := {| heap := heap w; vals := v; sys := sys w |}.
  Definition set_heap (w : world) (h : nat -> expr F) : world := {| heap := h; vals := vals w; sys := sys w |}.

  (** Giving values to a list of variables; later ones win. *)
  Fixpoint bind (vs : list nat) (x : list F) (rho : nat -> F) : nat -> F :=
    match vs, x with
    | v :: vs', a :: x' => bind vs' x' (upd rho v a)
    | _, _ => rho
    end.
  Definition bind_path (p : option nat) (t : option F) (rho : nat -> F) : nat -> F :=
    match p, t with
    | Some v, Some a => upd rho v a
    | _, _ => rho
    end.

  Section Operations.
    (** [fs]: the elementary functions; [simp]: what the simplification of derivatives (system.cpp:1076-1140) does to a
        tree; [mp]: the number type *)
    Context (fs : funs F) (simp : expr F -> expr F) (mp : bool).

    (** system.cpp:376-380: column major *)
    Definition all_derivatives (h : nat -> expr F) (y : system) : list (expr F) :=
      flat_map (fun v => map (fun k => simp (differentiate v (h k))) (fns y)) (vars y).

    (** system.cpp:360-368: the trees made with Jacobian nodes.  [jacobian] holds the functions they are the derivatives
        of; the value of such a tree for a variable is that of the derivative (C54). *)
    Definition differentiate_jacobian_node (h : nat -> expr F) (y : system) : system :=
      {| fns := fns y; vars := vars y; path := path y; differentiated := true; jacobian := map h (fns y);
         space_derivatives := space_derivatives y; slp := slp y; emethod := emethod y; dmethod := dmethod y;
         patch_of := patch_of y |}.

    (** system.cpp:370-391 *)
    Definition differentiate_derivatives (h : nat -> expr F) (y : system) : system :=
      {| fns := fns y; vars := vars y; path := path y; differentiated := true; jacobian := jacobian y;
         space_derivatives := all_derivatives h y; slp := slp y; emethod := emethod y; dmethod := dmethod y;
         patch_of := patch_of y |}.

    (** system.cpp:346-353, with straight_line_program.cpp (Compile), which asks for the space derivatives
        (system.cpp:393-399, again computed for Jacobian nodes).  The memory is new. *)
    Definition compile_slp (h : nat -> expr F) (y : system) : system :=
      let y := match dmethod y with
               | JacobianNode => differentiate_derivatives h y
               | Derivatives => if differentiated y then y else differentiate_derivatives h y
               end in
      {| fns := fns y; vars := vars y; path := path y; differentiated := differentiated y; jacobian := jacobian y;
         space_derivatives := space_derivatives y;
         slp := Some {| s_funs := map h (fns y); s_jac := space_derivatives y; s_vars := vars y; s_path := path y;
                        s_env := fun _ => f0 |};
         emethod := emethod y; dmethod := dmethod y; patch_of := patch_of y |}.

    (** system.cpp:323-358 *)
    Definition differentiate_system (h : nat -> expr F) (y : system) : system :=
      let y := match dmethod y with
               | JacobianNode => differentiate_jacobian_node h y
               | Derivatives => differentiate_derivatives h y
               end in
      match emethod y with
      | FunctionTree => y
      | SLP => compile_slp h y
      end.

    Definition differentiate_if_needed (h : nat -> expr F) (y : system) : system :=
      if differentiated y then y else differentiate_system h y.

    Definition set_slp_env (y : system) (p : program) (rho : nat -> F) : system :=
      {| fns := fns y; vars := vars y; path := path y; differentiated := differentiated y; jacobian := jacobian y;
         space_derivatives := space_derivatives y;
         slp := Some {| s_funs := s_funs p; s_jac := s_jac p; s_vars := s_vars p; s_path := s_path p; s_env := rho |};
         emethod := emethod y; dmethod := dmethod y; patch_of := patch_of y |}.

    (** system.hpp:963-1002 SetVariables and 1014-1033 SetPathVariable, with straight_line_program.hpp:504-524, 534-553:
        a program which was not compiled has no variables, no path variable and the precision of doubles. *)
    Definition set_values (w : world) (s : nat) (x : list F) (t : option F) : outcome world :=
      let y := differentiate_if_needed (heap w) (sys w s) in
      match emethod y with
      | FunctionTree => Value (set_vals (set_sys w s y) (bind_path (path y) t (bind (vars y) x (vals w))))
      | SLP =>
          match slp y with
          | None => if mp then Throws else match t with Some _ => Throws | None => Value (set_sys w s y) end
          | Some p =>
              if length x <? length (s_vars p) then UB
              else match t, s_path p with
                   | Some a, None => Throws
                   | _, _ => Value (set_sys (set_vals w (bind_path (path y) t (vals w))) s
                                      (set_slp_env y p (bind_path (s_path p) t (bind (s_vars p) x (s_env p)))))
                   end
          end
      end.

    (** straight_line_program.hpp:357-367: copying the values of the program into a vector; [None] is an out-of-range
        access (in the multiple precision type line 213 of straight_line_program.cpp reads the empty memory of a
        program which was not compiled). *)
    Fixpoint overwrite (l values : list (entry F)) : option (list (entry F)) :=
      match values, l with
      | [], _ => Some l
      | v :: values', _ :: l' => option_map (cons v) (overwrite l' values')
      | _ :: _, [] => None
      end.
    Definition slp_functions (y : system) (l : list (entry F)) : option (list (entry F)) :=
      match slp y with
      | None => if mp then None else Some l
      | Some p => overwrite l (map (fun e => Known (eval fs (s_env p) e)) (s_funs p))
      end.

    (** system.hpp:270-306.  As in the code, the tree evaluation is followed by that of the program. *)
    Definition eval_in_place (w : world) (s : nat) : outcome (list (entry F)) :=
      let y := sys w s in
      let l := match emethod y with
               | FunctionTree => map (fun k => Known (eval fs (vals w) (heap w k))) (fns y)
               | SLP => map (fun _ => Garbage) (fns y)
               end in
      match slp_functions y l with
      | Some l => Value l
      | None => UB
      end.

    (** The tests of sizes and path variable: system.hpp:339-352, 379-410, 552-564 and similar *)
    Definition acceptable (y : system) (x : list F) (t : option F) : bool :=
      (length x =? length (vars y)) &&
      match path y, t with Some _, Some _ | None, None => true | _, _ => false end.

    (** system.hpp:339-455: [Eval(x)] and [Eval(x, t)], with the world they leave behind *)
    Definition eval_system (w : world) (s : nat) (x : list F) (t : option F) : outcome (world * list (entry F)) :=
      if acceptable (sys w s) x t then
        match set_values w s x t with
        | Value w' => match eval_in_place w' s with Value l => Value (w', l) | Throws => Throws | UB => UB end
        | Throws => Throws
        | UB => UB
        end
      else Throws.

    (** system.hpp:483-508: entry (ii, jj) of the matrix, [None] for an out-of-range access *)
    Definition jacobian_entry (w : world) (y : system) (ii jj : nat) : option (entry F) :=
      match emethod y with
      | FunctionTree =>
          match dmethod y with
          | JacobianNode =>
              match nth_error (jacobian y) ii, nth_error (vars y) jj with
              | Some e, Some v => Some (Known (eval fs (vals w) (differentiate v e)))
              | _, _ => None
              end
          | Derivatives => option_map (fun e => Known (eval fs (vals w) e)) (nth_error (space_derivatives y) (ii + jj * length (fns y)))
          end
      | SLP =>
          match slp y with
          | None => if mp then None else Some Garbage
          | Some p =>
              if (ii <? length (s_funs p)) && (jj <? length (s_vars p))
              then option_map (fun e => Known (eval fs (s_env p) e)) (nth_error (s_jac p) (ii + jj * length (s_funs p)))
              else Some Garbage
          end
      end.

    (** straight_line_program.hpp:388-392 writes outside the matrix if the program is larger than it. *)
    Definition jacobian_fits (y : system) : bool :=
      match emethod y, slp y with
      | SLP, Some p => (length (s_funs p) <=? length (fns y)) && (length (s_vars p) <=? length (vars y))
      | _, _ => true
      end.

    Definition jacobian_in_place (w : world) (s : nat) : outcome (list (list (entry F))) :=
      let y := sys w s in
      if jacobian_fits y then
        match sequence (map (fun ii => sequence (map (fun jj => jacobian_entry w y ii jj) (seq 0 (length (vars y)))))
                          (seq 0 (length (fns y)))) with
        | Some m => Value m
        | None => UB
        end
      else UB.

    (** system.hpp:552-666: [Jacobian(x)] and [Jacobian(x, t)] *)
    Definition jacobian_system (w : world) (s : nat) (x : list F) (t : option F)
      : outcome (world * list (list (entry F))) :=
      if acceptable (sys w s) x t then
        match set_values w s x t with
        | Value w' => match jacobian_in_place w' s with Value m => Value (w', m) | Throws => Throws | UB => UB end
        | Throws => Throws
        | UB => UB
        end
      else Throws.

    (** * Modifying systems *)

    Definition with_functions (y : system) (l : list nat) (d : bool) : system :=
      {| fns := l; vars := vars y; path := path y; differentiated := d; jacobian := jacobian y;
         space_derivatives := space_derivatives y; slp := slp y; emethod := emethod y; dmethod := dmethod y;
         patch_of := patch_of y |}.
    Definition with_variables (y : system) (l : list nat) (p : option nat) (d : bool) (pt : option (list (list F))) : system :=
      {| fns := fns y; vars := l; path := p; differentiated := d; jacobian := jacobian y;
         space_derivatives := space_derivatives y; slp := slp y; emethod := emethod y; dmethod := dmethod y;
         patch_of := pt |}.
    Definition with_methods (y : system) (e : eval_method) (d : deriv_method) : system :=
      {| fns := fns y; vars := vars y; path := path y; differentiated := differentiated y; jacobian := jacobian y;
         space_derivatives := space_derivatives y; slp := slp y; emethod := e; dmethod := d; patch_of := patch_of y |}.

    Definition set_root (w : world) (k : nat) (e : expr F) : world :=
      set_heap w (fun i => if i =? k then e else heap w i).

    (** system.cpp:95-148: what a copy contains.  The program, the differentiation method and the simplification switch
        are not copied. *)
    Definition copy_of (y : system) : system :=
      {| fns := fns y; vars := vars y; path := path y; differentiated := differentiated y; jacobian := jacobian y;
         space_derivatives := space_derivatives y; slp := None; emethod := emethod y; dmethod := Derivatives;
         patch_of := patch_of y |}.

    (** system.cpp:56-92: what [a] contains after it was swapped with [b].  The program and the differentiation method
        are not swapped. *)
    Definition swapped (a b : system) : system :=
      {| fns := fns b; vars := vars b; path := path b; differentiated := differentiated b; jacobian := jacobian b;
         space_derivatives := space_derivatives b; slp := slp a; emethod := emethod b; dmethod := dmethod a;
         patch_of := patch_of b |}.

    (** system.cpp:1322-1323: [f->SetRoot(g->EntryNode() + f->EntryNode())] for the functions [f] of one and [g] of the
        other system, in order *)
    Fixpoint add_functions (h : nat -> expr F) (la lb : list nat) : nat -> expr F :=
      match la, lb with
      | a :: la', b :: lb' => add_functions (fun i => if i =? a then Sum [(true, h b); (true, h a)] else h i) la' lb'
      | _, _ => h
      end.

    (** system.cpp:1336-1339 *)
    Fixpoint times_functions (h : nat -> expr F) (n : expr F) (la : list nat) : nat -> expr F :=
      match la with
      | a :: la' => times_functions (fun i => if i =? a then Mul [(true, n); (true, h a)] else h i) n la'
      | [] => h
      end.

    Definition patches_differ (a b : option (list (list F))) : bool :=
      match a, b with
      | Some p, Some q => if list_eq_dec (list_eq_dec feq_dec) p q then false else true
      | _, _ => false
      end.
    Definition num_patches (y : system) : nat := match patch_of y with Some p => length p | None => 0 end.
    Definition with_patch (y : system) (pt : option (list (list F))) : system :=
      with_variables y (vars y) (path y) (differentiated y) pt.

    (** system.cpp:1295-1326.  The tests on homogenizing variables and groups (1303-1307) are left out. *)
    Definition plus_assign (w : world) (a : nat) (yb : system) : outcome world :=
      let ya := sys w a in
      if negb (length (fns ya) + num_patches ya =? length (fns yb) + num_patches yb) then Throws
      else if negb (length (vars ya) =? length (vars yb)) then Throws
      else if patches_differ (patch_of ya) (patch_of yb) then Throws
      else if length (fns yb) <? length (fns ya) then UB
      else
        let w := match patch_of ya, patch_of yb with
                 | None, Some q => set_sys w a (with_patch ya (Some q))
                 | _, _ => w
                 end in
        Value (set_heap w (add_functions (heap w) (fns ya) (fns yb))).

    (** system.cpp:1334-1341 *)
    Definition times_assign (w : world) (a : nat) (n : expr F) : world :=
      set_heap w (times_functions (heap w) n (fns (sys w a))).

    Inductive op :=
    | SetRoot (k : nat) (e : expr F)             (* function.hpp: a new Function, or SetRoot of an old one *)
    | AddFunction (s k : nat)                    (* system.cpp:694-698 *)
    | AddVariables (s : nat) (v : list nat)      (* system.cpp:585-630: the ordering gets longer *)
    | AddPathVariable (s v : nat)                (* system.cpp:739-744 *)
    | Homogenize (s : nat) (h : nat -> expr F) (v : list nat)
        (* system.cpp:409-486: the functions become [h], the variables [v] *)
    | SetEvalMethod (s : nat) (m : eval_method)  (* system.hpp:1583-1586 *)
    | SetDerivMethod (s : nat) (m : deriv_method) (* system.hpp:1602-1605 *)
    | Differentiate (s : nat)                    (* system.cpp:323-358 *)
    | ReorderFunctions (s : nat) (p : list nat)  (* system.cpp:987-1053: sorted by degree, here any order *)
    | CopyVariableStructure (s o : nat)          (* system.cpp:850-866 *)
    | CopyPatches (s o : nat)                    (* system.cpp:912-919 *)
    | Construct (d : nat)                        (* system.hpp:111 *)
    | CopyConstruct (d a : nat)                  (* system.cpp:95-148 *)
    | MoveConstruct (d a : nat)                  (* system.hpp:128-131 *)
    | CopyAssign (d a : nat)                     (* system.cpp:151-155 *)
    | MoveAssign (d a : nat)                     (* system.hpp:141: all members are moved; what remains is not used again *)
    | Swap (a b : nat)                           (* system.cpp:56-92 *)
    | PlusAssign (a b : nat)                     (* system.cpp:1295-1326 *)
    | TimesAssign (a : nat) (n : expr F)         (* system.cpp:1334-1341 *)
    | Plus (d a b : nat)                         (* system.cpp:1328-1331: the operand is copied twice *)
    | Times (d a : nat) (n : expr F)             (* system.cpp:1344-1353 *)
    | Concatenate (d a b : nat)                  (* system.cpp:1357-1378 *)
    | Eval (s : nat) (x : list F) (t : option F)
    | Jacobian (s : nat) (x : list F) (t : option F).

    Definition step (w : world) (o : op) : outcome world :=
      match o with
      | SetRoot k e => Value (set_root w k e)
      | AddFunction s k => Value (set_sys w s (with_functions (sys w s) (fns (sys w s) ++ [k]) false))
      | AddVariables s v => Value (set_sys w s (with_variables (sys w s) (vars (sys w s) ++ v) (path (sys w s)) false None))
      | AddPathVariable s v =>
          Value (set_sys w s (with_variables (sys w s) (vars (sys w s)) (Some v) false (patch_of (sys w s))))
      | Homogenize s h v =>
          Value (set_heap (set_sys w s (with_variables (sys w s) v (path (sys w s)) false (patch_of (sys w s))))
                   (fun i => if in_dec Nat.eq_dec i (fns (sys w s)) then h i else heap w i))
      | SetEvalMethod s m => Value (set_sys w s (with_methods (sys w s) m (dmethod (sys w s))))
      | SetDerivMethod s m => Value (set_sys w s (with_methods (sys w s) (emethod (sys w s)) m))
      | Differentiate s => Value (set_sys w s (differentiate_system (heap w) (sys w s)))
      | ReorderFunctions s p =>
          match sequence (map (nth_error (fns (sys w s))) p) with
          | Some l => Value (set_sys w s (with_functions (sys w s) l (differentiated (sys w s))))
          | None => UB
          end
      | CopyVariableStructure s o =>
          Value (set_sys w s (with_variables (sys w s) (vars (sys w o)) (path (sys w o)) (differentiated (sys w s)) (patch_of (sys w s))))
      | CopyPatches s o =>
          match patch_of (sys w o) with
          | Some p => Value (set_sys w s (with_patch (sys w s) (Some p)))
          | None => Throws
          end
      | Construct d => Value (set_sys w d new_system)
      | CopyConstruct d a => Value (set_sys w d (copy_of (sys w a)))
      | MoveConstruct d a => let y := sys w a in
          Value (set_sys (set_sys w a (swapped y new_system)) d (swapped new_system y))
      | CopyAssign d a => Value (set_sys w d (copy_of (sys w a)))
      | MoveAssign d a => let y := sys w a in
          if d =? a then Value w else Value (set_sys (set_sys w a new_system) d y)
      | Swap a b => let ya := sys w a in let yb := sys w b in
          Value (set_sys (set_sys w a (swapped ya yb)) b (swapped yb ya))
      | PlusAssign a b => plus_assign w a (sys w b)
      | TimesAssign a n => Value (times_assign w a n)
      | Plus d a b => plus_assign (set_sys w d (copy_of (sys w a))) d (sys w b)
      | Times d a n => Value (times_assign (set_sys w d (copy_of (sys w a))) d n)
      | Concatenate d a b => let ya := sys w a in let yb := sys w b in
          if negb (length (vars ya) =? length (vars yb)) then Throws
          else if (if list_eq_dec Nat.eq_dec (vars ya) (vars yb) then false else true) then Throws
          else if patches_differ (patch_of ya) (patch_of yb) then Throws
          else match patch_of ya, patch_of yb with
               | None, Some _ => Throws
               | _, _ => Value (set_sys w d (with_functions (copy_of ya) (fns ya ++ fns yb)
                                  (match fns yb with [] => differentiated ya | _ => false end)))
               end
      | Eval s x t =>
          match eval_system w s x t with Value (w', _) => Value w' | Throws => Throws | UB => UB end
      | Jacobian s x t =>
          match jacobian_system w s x t with Value (w', _) => Value w' | Throws => Throws | UB => UB end
      end.

    (** A history.  An exception is caught by the caller; the tests which throw come first, so nothing was changed.
        (An exception for a program which was not compiled leaves other values of the variables: not modelled.) *)
    Fixpoint run (w : world) (l : list op) : option world :=
      match l with
      | [] => Some w
      | o :: l' =>
          match step w o with
          | Value w' => run w' l'
          | Throws => run w l'
          | UB => None
          end
      end.

    Definition start (h : nat -> expr F) (v : nat -> F) : world :=
      {| heap := h; vals := v; sys := fun _ => new_system |}.

    (** * Specification *)

    (** The values of the variables at a point *)
    Definition at_point (y : system) (x : list F) (t : option F) (rho : nat -> F) : nat -> F :=
      bind_path (path y) t (bind (vars y) x rho).

    (** The functions only use the variables of the system and its path variable. *)
    Definition self_contained (w : world) (s : nat) : Prop :=
      forall k, In k (fns (sys w s)) -> forall v, occurs v (heap w k) -> In v (vars (sys w s)) \/ path (sys w s) = Some v.

    (** What evaluation should return: the values of the functions of the system at the point, and of their
        derivatives with respect to the variables. *)
    Definition function_values (w : world) (s : nat) (x : list F) (t : option F) : list (entry F) :=
      map (fun k => Known (eval fs (at_point (sys w s) x t (fun _ => f0)) (heap w k))) (fns (sys w s)).
    Definition jacobian_values (w : world) (s : nat) (x : list F) (t : option F) : list (list (entry F)) :=
      map (fun k => map (fun v => Known (eval fs (at_point (sys w s) x t (fun _ => f0)) (differentiate v (heap w k))))
                      (vars (sys w s))) (fns (sys w s)).

    (** An entry returned agrees with the expected one: it was computed, and has the expected value if there is one.
        (Simplified derivatives may have values where the derivatives have none.) *)
    Definition agrees (expected returned : entry F) : Prop :=
      (exists v, returned = Known v) /\ forall y, expected = Known (Some y) -> returned = Known (Some y).

    (** The system evaluates right: at every point of the right size. *)
    Definition evaluates_right (w : world) (s : nat) : Prop :=
      forall x t, acceptable (sys w s) x t = true ->
        (exists w', eval_system w s x t = Value (w', function_values w s x t)) /\
        (exists w' m, jacobian_system w s x t = Value (w', m) /\ Forall2 (Forall2 agrees) (jacobian_values w s x t) m).

    (** * Proofs *)

    (** Simplification of the derivatives does not change a value (what is known of that is C09). *)
    Definition simp_ok : Prop := forall rho e y, eval fs rho e = Some y -> eval fs rho (simp e) = Some y.

    (** The caches of a differentiated system are those of its current functions and variables. *)
    Record fresh (h : nat -> expr F) (y : system) : Prop := {
      fr_jac : emethod y = FunctionTree -> dmethod y = JacobianNode -> jacobian y = map h (fns y);
      fr_space : emethod y = FunctionTree -> dmethod y = Derivatives -> space_derivatives y = all_derivatives h y;
      fr_slp : emethod y = SLP -> exists p, slp y = Some p /\ s_funs p = map h (fns y) /\
                 s_jac p = all_derivatives h y /\ s_vars p = vars y /\ s_path p = path y }.

    Definition good (h : nat -> expr F) (y : system) : Prop :=
      (differentiated y = true -> fresh h y) /\ (emethod y = FunctionTree -> slp y = None /\ mp = false).

    Lemma differentiate_system_fresh : forall h y, fresh h (differentiate_system h y).
    Proof.
      intros h y. unfold differentiate_system, compile_slp.
      destruct (dmethod y) eqn:D; cbn; destruct (emethod y) eqn:E; cbn; rewrite ?D; cbn;
        split; cbn; rewrite ?D, ?E; try discriminate; try reflexivity; intros _; eexists; split; try reflexivity; repeat split.
    Qed.

    Lemma differentiate_system_same : forall h y, let y' := differentiate_system h y in
      fns y' = fns y /\ vars y' = vars y /\ path y' = path y /\ emethod y' = emethod y /\ dmethod y' = dmethod y /\
      patch_of y' = patch_of y /\ differentiated y' = true /\ (emethod y = FunctionTree -> slp y' = slp y).
    Proof.
      intros h y. unfold differentiate_system, compile_slp.
      destruct (dmethod y) eqn:D; cbn; destruct (emethod y) eqn:E; cbn; rewrite ?D; cbn; repeat split; auto; discriminate.
    Qed.

    Lemma if_needed_same : forall h y, let y' := differentiate_if_needed h y in
      fns y' = fns y /\ vars y' = vars y /\ path y' = path y /\ emethod y' = emethod y /\ dmethod y' = dmethod y /\
      patch_of y' = patch_of y /\ differentiated y' = true /\ (emethod y = FunctionTree -> slp y' = slp y).
    Proof.
      intros h y. unfold differentiate_if_needed. destruct (differentiated y) eqn:D; [repeat split; auto|].
      apply differentiate_system_same.
    Qed.

    Lemma if_needed_good : forall h y, good h y -> fresh h (differentiate_if_needed h y) /\ good h (differentiate_if_needed h y).
    Proof.
      intros h y [G1 G2].
      assert (Fr : fresh h (differentiate_if_needed h y)).
      { unfold differentiate_if_needed. destruct (differentiated y) eqn:D; [auto|apply differentiate_system_fresh]. }
      split; [exact Fr|split; [intros _; exact Fr|]].
      destruct (if_needed_same h y) as (_ & _ & _ & E & _ & _ & _ & S). rewrite E. intro T. rewrite S by exact T. auto.
    Qed.

    (** Occurrences in derivatives *)
    Lemma occurs_mul_terms : forall x (l : list (bool * expr F * expr F)) (pre : list (bool * expr F)),
      (forall q, In q l -> forall m e d, q = (m, e, d) -> occurs x d -> occurs x e) ->
      forall s t, In (s, t) (mul_terms pre l) -> occurs x t ->
      (exists p, In p pre /\ occurs x (snd p)) \/ (exists q, In q l /\ occurs x (snd (fst q))).
    Proof.
      intros x. induction l as [|[[m e] d] l IH]; intros pre H s t I O; [destruct I|].
      cbn [mul_terms] in I. apply in_app_or in I. destruct I as [I|I].
      - destruct (float_eq f0 d); [destruct I|]. destruct (float_eq f1 d); [destruct I|].
        destruct I as [I|[]]. injection I as <- <-.
        inversion O as [| |ops s' e' I' O' E| | | | | |]; subst. clear O.
        destruct I' as [I'|I'].
        + injection I' as <- <-. right. exists (m, e, d). split; [now left|]. cbn. eapply H; [now left|reflexivity|exact O'].
        + apply in_app_or in I'. destruct I' as [I'|I']; [left; eauto|]. apply in_app_or in I'. destruct I' as [I'|I'].
          * apply in_map_iff in I'. destruct I' as (q & Eq & Iq). right. exists q. split; [now right|].
            rewrite Eq. exact O'.
          * destruct m; [destruct I'|]. destruct I' as [I'|[]]. injection I' as <- <-.
            right. exists (false, e, d). split; [now left|]. cbn. inversion O'; assumption.
      - destruct (IH (pre ++ [(m, e)])) with (s := s) (t := t) as [(p & Ip & Op)|(q & Iq & Oq)]; auto.
        + intros q Iq. apply H. now right.
        + apply in_app_or in Ip. destruct Ip as [Ip|[<-|[]]]; [left; eauto|].
          right. exists (m, e, d). split; [now left|exact Op].
        + right. exists q. split; [now right|exact Oq].
    Qed.

    Ltac inv_occ :=
      repeat match goal with
      | H : occurs _ (Num _ _) |- _ => inversion H
      | H : occurs _ zero_node |- _ => inversion H
      | H : occurs _ one_node |- _ => inversion H
      | H : occurs _ (int_node _) |- _ => inversion H
      | H : occurs _ half_node |- _ => inversion H
      | H : occurs _ minus_half_node |- _ => inversion H
      | H : occurs _ (times _ _) |- _ => unfold times in H
      | H : occurs _ (over _ _) |- _ => unfold over in H
      | H : occurs _ (Mul _) |- _ => inversion H; subst; clear H
      | H : occurs _ (Sum _) |- _ => inversion H; subst; clear H
      | H : occurs _ (IPow _ _) |- _ => inversion H; subst; clear H
      | H : occurs _ (Neg _) |- _ => inversion H; subst; clear H
      | H : occurs _ (Pow _ _) |- _ => inversion H; subst; clear H
      | H : occurs _ (Fun _ _) |- _ => inversion H; subst; clear H
      | H : In _ [] |- _ => destruct H
      | H : In _ (_ :: _) |- _ => destruct H as [H|H]
      | H : (_, _) = (_, _) |- _ => injection H as <- <-
      end.

    Lemma occurs_differentiate : forall x v (e : expr F), occurs x (differentiate v e) -> occurs x e.
    Proof.
      intros x v e. induction e as [k c|y|ops IH|ops IH|e IH|e n IH|b e IHb IHe|k e IH|e IH] using expr_rect';
        cbn [differentiate]; intro O.
      - inversion O.
      - destruct (y =? v); inversion O.
      - unfold sum_or_zero in O.
        assert (O' : exists s t, In (s, t) (sum_terms (map (fun p => (p, differentiate v (snd p))) ops)) /\ occurs x t).
        { destruct (sum_terms _) eqn:E; inversion O; subst; eauto. }
        destruct O' as (s & t & I & Ot). unfold sum_terms in I. apply in_flat_map in I. destruct I as ([[s' e'] d] & I & I2).
        apply in_map_iff in I. destruct I as ((s2, e2) & Eq & I). cbn in Eq. injection Eq as <- <- <-.
        destruct (is_number e2); [destruct I2|]. destruct (number_eq0 _); [destruct I2|]. destruct I2 as [I2|[]].
        injection I2 as <- <-. econstructor; [exact I|]. rewrite Forall_forall in IH. apply (IH _ I). exact Ot.
      - unfold sum_or_zero in O.
        assert (O' : exists s t, In (s, t) (mul_terms [] (map (fun p => (p, differentiate v (snd p))) ops)) /\ occurs x t).
        { destruct (mul_terms _ _) eqn:E; inversion O; subst; eauto. }
        destruct O' as (s & t & I & Ot). rewrite Forall_forall in IH.
        destruct (occurs_mul_terms x (map (fun p => (p, differentiate v (snd p))) ops) []) with (s := s) (t := t)
          as [(p & [] & _)|(q & Iq & Oq)]; auto.
        + intros q Iq m e d Eq Od. apply in_map_iff in Iq. destruct Iq as ((s2, e2) & Eq2 & I2).
          rewrite <- Eq2 in Eq. cbn in Eq. injection Eq as <- <- <-. apply (IH _ I2). exact Od.
        + apply in_map_iff in Iq. destruct Iq as ((s2, e2) & Eq2 & I2). subst q. cbn in Oq. econstructor; eauto.
      - inversion O; subst. constructor. auto.
      - destruct (n =? 0)%Z; [inversion O|]. destruct (n =? 1)%Z; [constructor; auto|].
        destruct (n =? 2)%Z; constructor; inv_occ; auto.
      - inv_occ; try (apply oc_powb; now auto); try (apply oc_powe; now auto).
      - constructor. destruct k; inv_occ; auto.
      - constructor. auto.
    Qed.

    Lemma bind_in : forall vs x rho rho' v, length x = length vs -> In v vs -> bind vs x rho v = bind vs x rho' v.
    Proof.
      induction vs as [|a vs IH]; intros x rho rho' v L I; [destruct I|].
      destruct x as [|c x]; [discriminate|]. cbn. cbn in L. destruct (in_dec Nat.eq_dec v vs) as [J|J].
      - apply IH; [lia|exact J].
      - destruct I as [<-|I]; [|contradiction].
        assert (K : forall vs x (r : nat -> F), ~ In a vs -> bind vs x r a = r a).
        { clear. induction vs as [|b vs IH]; intros x r N; [reflexivity|]. destruct x as [|c x]; [reflexivity|].
          cbn. rewrite IH by (intro; apply N; now right). unfold upd. destruct (Nat.eq_dec a b); [|reflexivity].
          subst. destruct N. now left. }
        rewrite !K by exact J. unfold upd. destruct (Nat.eq_dec a a); [reflexivity|contradiction].
    Qed.

    Lemma acceptable_length : forall y x t, acceptable y x t = true -> length x = length (vars y) /\ (path y = None <-> t = None).
    Proof.
      intros y x t A. unfold acceptable in A. apply andb_prop in A. destruct A as [A B].
      apply Nat.eqb_eq in A. split; [exact A|]. destruct (path y), t; try discriminate; split; congruence.
    Qed.

    Lemma at_point_env : forall y x t rho rho' v, acceptable y x t = true -> In v (vars y) \/ path y = Some v ->
      at_point y x t rho v = at_point y x t rho' v.
    Proof.
      intros y x t rho rho' v A I. destruct (acceptable_length _ _ _ A) as [L P]. unfold at_point, bind_path.
      destruct (path y) as [pv|] eqn:Ep.
      - destruct t as [a|]; [|discriminate (proj2 P eq_refl)].
        unfold upd. destruct (Nat.eq_dec v pv); [reflexivity|]. destruct I as [I|I]; [|congruence]. now apply bind_in.
      - destruct I as [I|I]; [|discriminate]. destruct t; now apply bind_in.
    Qed.

    Lemma at_point_same : forall y y' x t rho, vars y' = vars y -> path y' = path y -> at_point y' x t rho = at_point y x t rho.
    Proof. intros y y' x t rho E1 E2. unfold at_point. now rewrite E1, E2. Qed.

    Lemma set_sys_same : forall w s y, sys (set_sys w s y) s = y.
    Proof. intros. cbn. now rewrite Nat.eqb_refl. Qed.

    Lemma overwrite_all : forall (l v : list (entry F)), length l = length v -> overwrite l v = Some v.
    Proof.
      induction l as [|a l IH]; intros v L; destruct v as [|b v]; try discriminate; [reflexivity|].
      cbn. rewrite IH by (cbn in L; lia). reflexivity.
    Qed.

    Lemma column_major : forall (A B C : Type) (f : A -> B -> C) (la : list A) (lb : list B) ii jj b a,
      nth_error lb jj = Some b -> nth_error la ii = Some a ->
      nth_error (flat_map (fun b => map (fun a => f a b) la) lb) (ii + jj * length la) = Some (f a b).
    Proof.
      intros A B C f la lb. induction lb as [|b0 lb IH]; intros ii jj b a Eb Ea; [destruct jj; discriminate|].
      assert (Li : ii < length la) by (apply nth_error_Some; congruence).
      destruct jj as [|jj]; cbn [flat_map].
      - cbn in Eb. injection Eb as ->. rewrite Nat.mul_0_l, Nat.add_0_r, nth_error_app1 by (rewrite map_length; lia).
        now apply (map_nth_error (fun a => f a b)).
      - cbn in Eb. rewrite nth_error_app2 by (rewrite map_length; cbn; lia). rewrite map_length.
        replace (ii + S jj * length la - length la) with (ii + jj * length la) by (cbn; lia). now apply IH.
    Qed.

    Lemma sequence_seq : forall (A B : Type) (f : nat -> option B) (R : A -> B -> Prop) (la : list A) off,
      (forall ii a, nth_error la ii = Some a -> exists b, f (off + ii) = Some b /\ R a b) ->
      exists m, sequence (map f (seq off (length la))) = Some m /\ Forall2 R la m.
    Proof.
      intros A B f R. induction la as [|a la IH]; intros off H; [exists []; auto|]. cbn.
      destruct (H 0 a eq_refl) as (b & E & Rb). rewrite Nat.add_0_r in E. rewrite E.
      destruct (IH (S off)) as (m & -> & Fm); [|exists (b :: m); auto].
      intros ii a' Ea. rewrite Nat.add_succ_comm. apply (H (S ii) a' Ea).
    Qed.

    Lemma Forall2_impl' : forall (A B : Type) (P Q : A -> B -> Prop) la lb,
      (forall a b, P a b -> Q a b) -> Forall2 P la lb -> Forall2 Q la lb.
    Proof. induction 2; constructor; auto. Qed.

    Lemma Forall2_map_l : forall (A B C : Type) (g : A -> B) (R : B -> C -> Prop) la lc,
      Forall2 (fun a c => R (g a) c) la lc -> Forall2 R (map g la) lc.
    Proof. induction 1; constructor; auto. Qed.

    Lemma set_values_good : forall w s x t, good (heap w) (sys w s) -> acceptable (sys w s) x t = true ->
      exists w', set_values w s x t = Value w' /\ heap w' = heap w /\ good (heap w) (sys w' s) /\
        fresh (heap w) (sys w' s) /\ fns (sys w' s) = fns (sys w s) /\ vars (sys w' s) = vars (sys w s) /\
        path (sys w' s) = path (sys w s) /\ differentiated (sys w' s) = true /\ (forall i, i <> s -> sys w' i = sys w i) /\
        (emethod (sys w' s) = FunctionTree -> exists rho, vals w' = at_point (sys w s) x t rho) /\
        (emethod (sys w' s) = SLP -> exists p rho, slp (sys w' s) = Some p /\ s_env p = at_point (sys w s) x t rho).
    Proof.
      intros w s x t G A. destruct (if_needed_good _ _ G) as [Fr G'].
      destruct (if_needed_same (heap w) (sys w s)) as (E1 & E2 & E3 & E4 & E5 & E6 & E7 & E8).
      destruct (acceptable_length _ _ _ A) as [L P].
      unfold set_values. set (y := differentiate_if_needed (heap w) (sys w s)) in *.
      destruct (emethod y) eqn:Em.
      - eexists. split; [reflexivity|]. cbn [set_vals heap sys vals]. rewrite set_sys_same. cbn [set_sys heap].
        rewrite E1, E2, E3, Em. repeat match goal with |- _ /\ _ => split end; auto.
        + intros i Ni. cbn. apply Nat.eqb_neq in Ni. now rewrite Ni.
        + intros _. eexists. reflexivity.
        + discriminate.
      - destruct (fr_slp _ _ Fr Em) as (p & Ep & P1 & P2 & P3 & P4). rewrite Ep, P3, P4, E2, E3.
        rewrite (proj2 (Nat.ltb_ge _ _)) by lia.
        assert (Ht : match t with Some _ => path (sys w s) <> None | None => True end).
        { destruct t; [|exact I]. intro N. apply P in N. discriminate. }
        match goal with |- exists w', ?r = Value w' /\ _ => assert (R : r = Value (set_sys (set_vals w (bind_path (path (sys w s)) t (vals w))) s
            (set_slp_env y p (bind_path (path (sys w s)) t (bind (vars (sys w s)) x (s_env p)))))) end.
        { destruct t; [|reflexivity]. destruct (path (sys w s)); [reflexivity|]. now destruct Ht. }
        rewrite R. eexists. split; [reflexivity|]. rewrite set_sys_same. cbn [set_sys set_vals heap sys vals set_slp_env fns vars path differentiated emethod slp].
        assert (Fr' : fresh (heap w) (set_slp_env y p (bind_path (path (sys w s)) t (bind (vars (sys w s)) x (s_env p))))).
        { split; cbn; rewrite ?Em; try discriminate. intros _. eexists; split; [reflexivity|]. cbn. auto. }
        rewrite E1, E2, E3, E7, Em. repeat match goal with |- _ /\ _ => split end; auto.
        + split; [intros _; exact Fr'|]. cbn. rewrite Em. discriminate.
        + intros i Ni. apply Nat.eqb_neq in Ni. now rewrite Ni.
        + discriminate.
        + intros _. eexists. eexists. split; [reflexivity|]. reflexivity.
    Qed.

    Lemma self_contained_eval : forall w s x t rho k, self_contained w s -> acceptable (sys w s) x t = true ->
      In k (fns (sys w s)) ->
      eval fs (at_point (sys w s) x t rho) (heap w k) = eval fs (at_point (sys w s) x t (fun _ => f0)) (heap w k).
    Proof.
      intros w s x t rho k S A I. apply eval_ext. intros v O. apply at_point_env; [exact A|]. apply (S k I v O).
    Qed.

    Lemma self_contained_deriv : forall w s x t rho k u, self_contained w s -> acceptable (sys w s) x t = true ->
      In k (fns (sys w s)) ->
      eval fs (at_point (sys w s) x t rho) (differentiate u (heap w k))
      = eval fs (at_point (sys w s) x t (fun _ => f0)) (differentiate u (heap w k)).
    Proof.
      intros w s x t rho k u S A I. apply eval_ext. intros v O. apply at_point_env; [exact A|].
      apply (S k I v). apply (occurs_differentiate v u), O.
    Qed.

    Lemma good_evaluates : forall w s, simp_ok -> good (heap w) (sys w s) -> self_contained w s -> evaluates_right w s.
    Proof.
      intros w s SO G SC x t A.
      destruct (set_values_good w s x t G A) as (w' & E & Hh & G' & Fr & Ef & Ev & Ep & Ed & _ & HF & HS).
      unfold eval_system, jacobian_system. rewrite A, E. split.
      - exists w'. unfold eval_in_place, slp_functions. destruct (emethod (sys w' s)) eqn:Em.
        + destruct (proj2 G' Em) as [-> ->]. destruct (HF eq_refl) as [rho ->].
          f_equal. f_equal. rewrite Ef, Hh. apply map_ext_in. intros k I. f_equal. now apply self_contained_eval.
        + destruct (HS eq_refl) as (p & rho & Eslp & Er). rewrite Eslp, Er.
          destruct (fr_slp _ _ Fr Em) as (p' & Ep' & P1 & _). rewrite Eslp in Ep'. injection Ep' as <-.
          rewrite P1, map_map, overwrite_all by (rewrite !map_length; reflexivity).
          f_equal. f_equal. rewrite Ef. apply map_ext_in. intros k I. f_equal. now apply self_contained_eval.
      - exists w'. unfold jacobian_in_place.
        assert (Fit : jacobian_fits (sys w' s) = true).
        { unfold jacobian_fits. destruct (emethod (sys w' s)) eqn:Em; [reflexivity|].
          destruct (fr_slp _ _ Fr Em) as (p & -> & P1 & _ & P3 & _). rewrite P1, P3, map_length, !Nat.leb_refl. reflexivity. }
        rewrite Fit.
        set (ent := fun k v => @Known F (eval fs (at_point (sys w s) x t (fun _ => f0)) (differentiate v (heap w k)))).
        assert (Entry : forall ii jj k v, nth_error (fns (sys w' s)) ii = Some k -> nth_error (vars (sys w' s)) jj = Some v ->
          exists en, jacobian_entry w' (sys w' s) ii jj = Some en /\ agrees (ent k v) en).
        { intros ii jj k v Ik Iv. unfold jacobian_entry.
          assert (Ik' : In k (fns (sys w s))) by (rewrite <- Ef; eapply nth_error_In; exact Ik).
          assert (Dv : nth_error (all_derivatives (heap w) (sys w' s)) (ii + jj * length (fns (sys w' s)))
                       = Some (simp (differentiate v (heap w k)))).
          { unfold all_derivatives. apply (column_major _ _ _ (fun k v => simp (differentiate v (heap w k)))); assumption. }
          assert (Ag : forall rho, agrees (ent k v) (Known (eval fs (at_point (sys w s) x t rho) (simp (differentiate v (heap w k)))))).
          { intro rho. split; [eexists; reflexivity|]. intros y Ey. injection Ey as Ey. f_equal. apply SO.
            rewrite <- Ey. now apply self_contained_deriv. }
          destruct (emethod (sys w' s)) eqn:Em.
          - destruct (HF eq_refl) as [rho ->]. destruct (dmethod (sys w' s)) eqn:Dm.
            + rewrite (fr_jac _ _ Fr Em Dm), (map_nth_error _ _ _ Ik), Iv. eexists; split; [reflexivity|].
              unfold ent. rewrite (self_contained_deriv w s x t rho) by assumption. split; eauto.
            + rewrite (fr_space _ _ Fr Em Dm), Dv. cbn. eexists; split; [reflexivity|]. apply Ag.
          - destruct (HS eq_refl) as (p & rho & Eslp & Er). rewrite Eslp, Er.
            destruct (fr_slp _ _ Fr Em) as (p' & Ep' & P1 & P2 & P3 & _). rewrite Eslp in Ep'. injection Ep' as <-.
            assert (L1 : ii < length (fns (sys w' s))) by (apply nth_error_Some; congruence).
            assert (L2 : jj < length (vars (sys w' s))) by (apply nth_error_Some; congruence).
            rewrite P1, P2, P3, map_length. rewrite (proj2 (Nat.ltb_lt _ _) L1), (proj2 (Nat.ltb_lt _ _) L2). cbn [andb].
            rewrite Dv. cbn. eexists; split; [reflexivity|]. apply Ag. }
        destruct (sequence_seq _ _ (fun ii => sequence (map (fun jj => jacobian_entry w' (sys w' s) ii jj)
            (seq 0 (length (vars (sys w' s)))))) (fun k row => Forall2 (fun v en => agrees (ent k v) en) (vars (sys w' s)) row)
            (fns (sys w' s)) 0) as (m & Em & Fm).
        { intros ii k Ek. cbn [Nat.add]. apply sequence_seq. intros jj v Ej. now apply Entry. }
        exists m. rewrite Em. split; [reflexivity|]. unfold jacobian_values. rewrite Ef, Ev in Fm.
        apply Forall2_map_l. eapply Forall2_impl'; [|exact Fm]. intros k row Fr'. cbn in Fr'. apply Forall2_map_l. exact Fr'.
    Qed.

    (** * Careful histories *)

    (** None of these Function objects belongs to a system whose derivatives or program were made since the system was
        last changed. *)
    Definition not_cached (w : world) (l : list nat) : Prop :=
      forall i k, differentiated (sys w i) = true -> In k (fns (sys w i)) -> ~ In k l.

    Definition copyable (y : system) : Prop :=
      differentiated y = false \/ (emethod y = FunctionTree /\ dmethod y = Derivatives).

    (** What a caller has to observe for the answers of all systems to be right *)
    Definition careful (w : world) (o : op) : Prop :=
      match o with
      | SetRoot k _ => not_cached w [k]
      | AddFunction _ _ | AddVariables _ _ | AddPathVariable _ _ | CopyPatches _ _ | Construct _
      | Differentiate _ | Eval _ _ _ | Jacobian _ _ _ | MoveAssign _ _ => True
      | Homogenize s _ _ => forall i, i <> s -> differentiated (sys w i) = true ->
          forall k, In k (fns (sys w i)) -> ~ In k (fns (sys w s))
      | SetEvalMethod s m => m = emethod (sys w s) \/
          (differentiated (sys w s) = false /\ (m = FunctionTree -> slp (sys w s) = None /\ mp = false))
      | SetDerivMethod s m => differentiated (sys w s) = false \/ emethod (sys w s) = SLP \/ m = dmethod (sys w s)
      | ReorderFunctions s p => differentiated (sys w s) = false /\ Forall (fun i => i < length (fns (sys w s))) p
      | CopyVariableStructure s _ => differentiated (sys w s) = false
      | CopyConstruct _ a | MoveConstruct _ a | CopyAssign _ a => copyable (sys w a)
      | Swap a b => differentiated (sys w a) = false /\ differentiated (sys w b) = false /\
          (emethod (sys w b) = FunctionTree -> slp (sys w a) = None) /\
          (emethod (sys w a) = FunctionTree -> slp (sys w b) = None)
      | PlusAssign a b => not_cached w (fns (sys w a)) /\ length (fns (sys w a)) <= length (fns (sys w b))
      | TimesAssign a _ => not_cached w (fns (sys w a))
      | Plus _ a b => differentiated (sys w a) = false /\ not_cached w (fns (sys w a)) /\
          length (fns (sys w a)) <= length (fns (sys w b))
      | Times _ a _ => differentiated (sys w a) = false /\ not_cached w (fns (sys w a))
      | Concatenate _ a b => fns (sys w b) <> [] \/ copyable (sys w a)
      end.

    Fixpoint careful_run (w : world) (l : list op) : Prop :=
      match l with
      | [] => True
      | o :: l' =>
          careful w o /\
          match step w o with
          | Value w' => careful_run w' l'
          | Throws => careful_run w l'
          | UB => True
          end
      end.

    Definition all_good (w : world) : Prop := forall i, good (heap w) (sys w i).

    Lemma fresh_ext : forall h h' y, (forall k, In k (fns y) -> h' k = h k) -> fresh h y -> fresh h' y.
    Proof.
      intros h h' y E [A B C].
      assert (M : map h' (fns y) = map h (fns y)) by (apply map_ext_in; exact E).
      assert (D : all_derivatives h' y = all_derivatives h y).
      { unfold all_derivatives. rewrite !flat_map_concat_map. f_equal. apply map_ext. intro v.
        apply map_ext_in. intros k I. now rewrite E. }
      split; rewrite ?M, ?D; assumption.
    Qed.

    Lemma good_ext : forall h h' y, (differentiated y = true -> forall k, In k (fns y) -> h' k = h k) -> good h y -> good h' y.
    Proof. intros h h' y E [A B]. split; [|exact B]. intro D. apply fresh_ext with h; auto. Qed.

    Lemma good_not_differentiated : forall h y, differentiated y = false -> (emethod y = FunctionTree -> slp y = None /\ mp = false) -> good h y.
    Proof. intros h y D E. split; [rewrite D; discriminate|exact E]. Qed.

    Lemma new_good : forall h, good h new_system.
    Proof. intro h. apply good_not_differentiated; [reflexivity|discriminate]. Qed.

    Lemma set_sys_good : forall w s y, all_good w -> good (heap w) y -> all_good (set_sys w s y).
    Proof. intros w s y A G i. cbn. destruct (i =? s); auto. Qed.

    Lemma copy_good : forall h y, copyable y -> good h y -> good h (copy_of y).
    Proof.
      intros h y C [A B]. split; cbn.
      - intro D. destruct C as [C|[C1 C2]]; [congruence|]. destruct (A D) as [J S P].
        split; cbn; rewrite ?C1; try discriminate. intros _ _. rewrite (S C1 C2). reflexivity.
      - intro E. split; [reflexivity|]. now apply B.
    Qed.

    Lemma moved_good : forall h y, copyable y -> good h y -> good h (swapped new_system y).
    Proof.
      intros h y C [A B]. split; cbn.
      - intro D. destruct C as [C|[C1 C2]]; [congruence|]. destruct (A D) as [J S P].
        split; cbn; rewrite ?C1; try discriminate. intros _ _. rewrite (S C1 C2). reflexivity.
      - intro E. split; [reflexivity|]. now apply B.
    Qed.

    Lemma add_functions_other : forall la lb h i, ~ In i la -> add_functions h la lb i = h i.
    Proof.
      induction la as [|a la IH]; intros lb h i N; [reflexivity|]. destruct lb as [|b lb]; [reflexivity|].
      cbn. rewrite IH by (intro; apply N; now right).
      destruct (Nat.eqb_spec i a); [subst; destruct N; now left|reflexivity].
    Qed.

    Lemma times_functions_other : forall n la h i, ~ In i la -> times_functions h n la i = h i.
    Proof.
      intro n. induction la as [|a la IH]; intros h i N; [reflexivity|]. cbn.
      rewrite IH by (intro; apply N; now right).
      destruct (Nat.eqb_spec i a); [subst; destruct N; now left|reflexivity].
    Qed.

    Lemma with_patch_good : forall h y pt, good h y -> good h (with_patch y pt).
    Proof.
      intros h y pt [A B]. split; cbn; [|exact B]. intro D. destruct (A D) as [J S P]. split; cbn; auto.
    Qed.

    Lemma plus_assign_good : forall w a yb, all_good w -> not_cached w (fns (sys w a)) ->
      length (fns (sys w a)) <= length (fns yb) ->
      match plus_assign w a yb with Value w' => all_good w' | Throws => True | UB => False end.
    Proof.
      intros w a yb A N L. unfold plus_assign.
      destruct (negb (_ =? _)); [exact I|]. destruct (negb (_ =? _)); [exact I|]. destruct (patches_differ _ _); [exact I|].
      rewrite (proj2 (Nat.ltb_ge _ _)) by exact L.
      set (w1 := match patch_of (sys w a), patch_of yb with None, Some q => set_sys w a (with_patch (sys w a) (Some q)) | _, _ => w end).
      assert (A1 : all_good w1).
      { unfold w1. destruct (patch_of (sys w a)), (patch_of yb); try exact A. apply set_sys_good; [exact A|]. apply with_patch_good, A. }
      assert (H1 : heap w1 = heap w) by (unfold w1; destruct (patch_of (sys w a)), (patch_of yb); reflexivity).
      assert (S1 : forall i, differentiated (sys w1 i) = differentiated (sys w i) /\ fns (sys w1 i) = fns (sys w i)).
      { intro i. unfold w1. destruct (patch_of (sys w a)), (patch_of yb); cbn; auto. destruct (Nat.eqb_spec i a); subst; auto. }
      intro i. cbn [set_heap heap sys]. apply good_ext with (heap w1); [|apply A1].
      intros D k I. destruct (S1 i) as [Sd Sf]. rewrite Sd in D. rewrite Sf in I.
      apply add_functions_other. now apply (N i k D).
    Qed.

    Lemma not_cached_copy : forall w d a, differentiated (sys w a) = false -> not_cached w (fns (sys w a)) ->
      not_cached (set_sys w d (copy_of (sys w a))) (fns (sys w a)).
    Proof.
      intros w d a D N i k. cbn. destruct (i =? d); [cbn; congruence|apply N].
    Qed.

    Lemma set_values_others : forall w s x t w', set_values w s x t = Value w' ->
      heap w' = heap w /\ (forall i, i <> s -> sys w' i = sys w i).
    Proof.
      intros w s x t w' E. unfold set_values in E.
      destruct (emethod _); [injection E as <-; split; [reflexivity|]; intros i Ni; cbn; apply Nat.eqb_neq in Ni; now rewrite Ni|].
      destruct (slp _) as [p|].
      - destruct (_ <? _); [discriminate|]. destruct t as [a|], (s_path p); try discriminate;
          injection E as <-; (split; [reflexivity|]); intros i Ni; cbn; apply Nat.eqb_neq in Ni; now rewrite Ni.
      - destruct mp; [discriminate|]. destruct t; [discriminate|]. injection E as <-. split; [reflexivity|].
        intros i Ni; cbn; apply Nat.eqb_neq in Ni; now rewrite Ni.
    Qed.

    Lemma in_jacobian_fits_good : forall w s, good (heap w) (sys w s) -> differentiated (sys w s) = true ->
      jacobian_in_place w s <> UB /\ eval_in_place w s <> UB.
    Proof.
      intros w s [A B] D. specialize (A D). destruct A as [J S P]. split.
      - unfold jacobian_in_place.
        assert (Fit : jacobian_fits (sys w s) = true).
        { unfold jacobian_fits. destruct (emethod (sys w s)) eqn:Em; [reflexivity|].
          destruct (P eq_refl) as (p & -> & P1 & _ & P3 & _). rewrite P1, P3, map_length, !Nat.leb_refl. reflexivity. }
        rewrite Fit. set (m := map _ _).
        assert (K : sequence m <> None); [|destruct (sequence m); congruence].
        assert (SN : forall (X Y : Type) (f : X -> option Y) l, (forall x, In x l -> f x <> None) -> sequence (map f l) <> None).
        { clear. intros X Y f. induction l as [|x l IH]; intro H; [discriminate|]. cbn.
          destruct (f x) eqn:E; [|destruct (H x); [now left|exact E]].
          destruct (sequence (map f l)) eqn:E2; [discriminate|]. apply IH. intros x' I. apply H. now right. }
        unfold m. apply SN. intros ii Ii. apply SN. intros jj Ij. apply in_seq in Ii, Ij.
        destruct (nth_error (fns (sys w s)) ii) as [k|] eqn:Ek; [|apply nth_error_None in Ek; lia].
        destruct (nth_error (vars (sys w s)) jj) as [v|] eqn:Ev; [|apply nth_error_None in Ev; lia].
        assert (Dv : nth_error (all_derivatives (heap w) (sys w s)) (ii + jj * length (fns (sys w s)))
                       = Some (simp (differentiate v (heap w k)))).
        { unfold all_derivatives. apply (column_major _ _ _ (fun k v => simp (differentiate v (heap w k)))); assumption. }
        unfold jacobian_entry. destruct (emethod (sys w s)) eqn:Em.
        + destruct (dmethod (sys w s)) eqn:Dm.
          * rewrite (J eq_refl eq_refl), (map_nth_error _ _ _ Ek), Ev. discriminate.
          * rewrite (S eq_refl eq_refl), Dv. discriminate.
        + destruct (P eq_refl) as (p & -> & P1 & P2 & P3 & _). rewrite P1, P2, P3, map_length.
          destruct (_ && _); [|discriminate]. rewrite Dv. discriminate.
      - unfold eval_in_place, slp_functions. destruct (emethod (sys w s)) eqn:Em.
        + destruct (B eq_refl) as [-> ->]. discriminate.
        + destruct (P eq_refl) as (p & -> & P1 & _). rewrite P1, map_map, overwrite_all by (rewrite !map_length; reflexivity).
          discriminate.
    Qed.

    Lemma set_values_all_good : forall w s x t, all_good w -> acceptable (sys w s) x t = true ->
      exists w', set_values w s x t = Value w' /\ all_good w' /\ differentiated (sys w' s) = true.
    Proof.
      intros w s x t A Acc.
      destruct (set_values_good w s x t (A s) Acc) as (w' & E & Hh & G' & _ & _ & _ & _ & D & O & _).
      exists w'. split; [exact E|split; [|exact D]]. intro i. rewrite Hh. destruct (Nat.eq_dec i s) as [->|Ni]; [exact G'|].
      rewrite (O i Ni). apply A.
    Qed.

    Theorem step_good : forall w o, all_good w -> careful w o ->
      match step w o with Value w' => all_good w' | Throws => True | UB => False end.
    Proof.
      intros w o A C. destruct o as [k e|s k|s v|s v|s h v|s m|s m|s|s p|s o|s o|d|d a|d a|d a|d a|a b|a b|a n|d a b|d a n|d a b|s x t|s x t];
        cbn [step careful] in *.
      - intro i. cbn [set_root set_heap heap sys]. apply good_ext with (heap w); [|apply A].
        intros D k' I. cbn. destruct (Nat.eqb_spec k' k); [|reflexivity]. subst. destruct (C i k D I). now left.
      - apply set_sys_good; [exact A|]. apply good_not_differentiated; [reflexivity|]. apply (A s).
      - apply set_sys_good; [exact A|]. apply good_not_differentiated; [reflexivity|]. apply (A s).
      - apply set_sys_good; [exact A|]. apply good_not_differentiated; [reflexivity|]. apply (A s).
      - intro i. cbn [set_heap set_sys heap sys]. destruct (Nat.eqb_spec i s) as [->|Ni].
        + apply good_not_differentiated; [reflexivity|]. apply (A s).
        + apply good_ext with (heap w); [|apply A]. intros D k I. destruct (in_dec Nat.eq_dec k (fns (sys w s))) as [J|J]; [|reflexivity].
          now destruct (C i Ni D k I).
      - apply set_sys_good; [exact A|]. destruct C as [->|[D E]].
        + destruct (A s) as [G1 G2]. split; cbn; [|exact G2]. intro D. destruct (G1 D) as [J S P]. split; cbn; auto.
        + apply good_not_differentiated; [exact D|exact E].
      - apply set_sys_good; [exact A|]. destruct (A s) as [G1 G2]. split; cbn; [|exact G2]. intro D.
        destruct C as [C|[C|C]]; [congruence| |].
        + destruct (G1 D) as [J S P]. split; cbn; rewrite ?C; try discriminate. intros _. apply P, C.
        + subst m. destruct (G1 D) as [J S P]. split; cbn; auto.
      - apply set_sys_good; [exact A|]. destruct (A s) as [G1 G2]. split; [intros _; apply differentiate_system_fresh|].
        destruct (differentiate_system_same (heap w) (sys w s)) as (_ & _ & _ & E & _ & _ & _ & S). rewrite E. intro T.
        rewrite S by exact T. auto.
      - destruct C as [D P]. 
        assert (K : sequence (map (nth_error (fns (sys w s))) p) <> None).
        { clear D. induction P as [|i p Hi P IH]; [discriminate|]. cbn.
          destruct (nth_error (fns (sys w s)) i) eqn:E; [|apply nth_error_None in E; lia].
          destruct (sequence (map (nth_error (fns (sys w s))) p)); congruence. }
        destruct (sequence _); [|congruence]. apply set_sys_good; [exact A|].
        apply good_not_differentiated; [exact D|]. apply (A s).
      - apply set_sys_good; [exact A|]. apply good_not_differentiated; [exact C|]. apply (A s).
      - destruct (patch_of (sys w o)); [|exact I]. apply set_sys_good; [exact A|]. apply with_patch_good, A.
      - apply set_sys_good; [exact A|apply new_good].
      - apply set_sys_good; [exact A|]. apply copy_good; [exact C|apply A].
      - apply set_sys_good; [apply set_sys_good; [exact A|]|].
        + apply good_not_differentiated; [reflexivity|discriminate].
        + apply moved_good; [exact C|apply A].
      - apply set_sys_good; [exact A|]. apply copy_good; [exact C|apply A].
      - destruct (d =? a); [exact A|]. apply set_sys_good; [apply set_sys_good; [exact A|apply new_good]|apply A].
      - destruct C as (Da & Db & Sa & Sb). apply set_sys_good; [apply set_sys_good; [exact A|]|];
          apply good_not_differentiated; try assumption; cbn; intro E; split; auto; eapply A, E.
      - destruct C as [C L]. apply plus_assign_good; assumption.
      - intro i. cbn [times_assign set_heap heap sys]. apply good_ext with (heap w); [|apply A].
        intros D k I. apply times_functions_other. now apply (C i k D).
      - destruct C as (D & C & L). apply plus_assign_good.
        + apply set_sys_good; [exact A|]. apply copy_good; [now left|apply A].
        + rewrite set_sys_same. now apply not_cached_copy.
        + rewrite set_sys_same. exact L.
      - destruct C as (D & C). intro i. cbn [times_assign set_heap heap sys].
        assert (A1 : all_good (set_sys w d (copy_of (sys w a)))).
        { apply set_sys_good; [exact A|]. apply copy_good; [now left|apply A]. }
        apply good_ext with (heap w); [|apply A1].
        intros Di k I. rewrite set_sys_same. apply times_functions_other.
        apply (not_cached_copy w d a D C i k Di I).
      - destruct (negb _); [exact I|]. destruct (if list_eq_dec _ _ _ then _ else _); [exact I|].
        destruct (patches_differ _ _); [exact I|].
        assert (G : good (heap w) (with_functions (copy_of (sys w a)) (fns (sys w a) ++ fns (sys w b))
                     (match fns (sys w b) with [] => differentiated (sys w a) | _ => false end))).
        { destruct (fns (sys w b)) as [|k l] eqn:E.
          - destruct C as [C|C]; [congruence|]. destruct (copy_good (heap w) (sys w a) C (A a)) as [G1 G2].
            split; cbn; [|exact G2]. intro D. destruct (G1 D) as [J S P]. rewrite app_nil_r in *.
            split; cbn; [exact J|exact S|exact P].
          - apply good_not_differentiated; [reflexivity|]. cbn. intro T. split; [reflexivity|]. now apply (A a). }
        destruct (patch_of (sys w a)), (patch_of (sys w b)); try exact I; apply set_sys_good; assumption.
      - unfold eval_system. destruct (acceptable (sys w s) x t) eqn:Acc; [|exact I].
        destruct (set_values_all_good w s x t A Acc) as (w' & -> & A' & D).
        pose proof (proj2 (in_jacobian_fits_good w' s (A' s) D)) as N. destruct (eval_in_place w' s); [exact A'|exact I|congruence].
      - unfold jacobian_system. destruct (acceptable (sys w s) x t) eqn:Acc; [|exact I].
        destruct (set_values_all_good w s x t A Acc) as (w' & -> & A' & D).
        pose proof (proj1 (in_jacobian_fits_good w' s (A' s) D)) as N. destruct (jacobian_in_place w' s); [exact A'|exact I|congruence].
    Qed.

    Theorem run_good : forall l w, all_good w -> careful_run w l -> exists w', run w l = Some w' /\ all_good w'.
    Proof.
      induction l as [|o l IH]; intros w A C; [exists w; auto|]. destruct C as [C1 C2]. cbn.
      pose proof (step_good w o A C1) as S. destruct (step w o) as [w'| |]; [..|contradiction]; eapply IH; eauto.
    Qed.

    Lemma start_good : forall h v, all_good (start h v).
    Proof. intros h v i. apply new_good. Qed.

    (** After a careful history every system evaluates right. *)
    Theorem careful_history : forall h v l, simp_ok -> careful_run (start h v) l ->
      exists w, run (start h v) l = Some w /\ forall s, self_contained w s -> evaluates_right w s.
    Proof.
      intros h v l SO C. destruct (run_good l _ (start_good h v) C) as (w & E & A). exists w. split; [exact E|].
      intros s SC. apply good_evaluates; auto.
    Qed.
  End Operations.
End SysState.
