(** Straight-line programs: the compiler and the evaluator.

    Models core/src/system/straight_line_program.cpp and
    core/include/bertini2/system/straight_line_program.hpp, over the node graphs of Heap.v (a node is an address).
    [GHandle] nodes are Functions here; Jacobian and Differential nodes make the compiler throw.
    Simplifications: arithmetic is exact and a value which is not finite is [None]; the precision checks and
    [precision(new)] are not modelled (numbers have the same value in every precision); printing and
    serialization are not modelled; [locations_top_level_functions_and_derivatives_] is omitted because both
    branches which look at it do the same thing (straight_line_program.cpp:418-423). *)
From Coq Require Import List Arith Lia ZArith NArith Bool.
From Verif Require Import Base Expr Homog Heap.
Import ListNotations.

(** straight_line_program.hpp:143-161 enum Operation *)
Inductive opcode :=
| OAdd | OSubtract | OMultiply | ODivide | OPower | OExp | OLog | ONegate | OSqrt
| OSin | OCos | OTan | OAsin | OAcos | OAtan | OAssign | OIntPower.

Definition word_of (o : opcode) : N :=
  match o with
  | OAdd => 1 | OSubtract => 2 | OMultiply => 4 | ODivide => 8 | OPower => 16 | OExp => 32 | OLog => 64
  | ONegate => 128 | OSqrt => 256 | OSin => 512 | OCos => 1024 | OTan => 2048 | OAsin => 4096 | OAcos => 8192
  | OAtan => 16384 | OAssign => 32768 | OIntPower => 65536
  end%N.

Definition all_opcodes : list opcode :=
  [OAdd; OSubtract; OMultiply; ODivide; OPower; OExp; OLog; ONegate; OSqrt; OSin; OCos; OTan; OAsin; OAcos; OAtan;
   OAssign; OIntPower].

(** the [switch] of straight_line_program.cpp:230-298: which case is taken *)
Definition opcode_at (w : N) : option opcode := find (fun o => N.eqb (word_of o) w) all_opcodes.

(** straight_line_program.hpp:163-170 *)
Definition trig_operations : N :=
  fold_left N.lor (map word_of [OSin; OCos; OTan; OAsin; OAcos; OAtan]) 0%N.
Definition unary_operations : N :=
  fold_left N.lor (map word_of [OExp; OLog; ONegate; OAssign; OSqrt]) trig_operations.
Definition is_unary (w : N) : bool := negb (N.eqb (N.land w unary_operations) 0).

(** what a compilation or a run ends in *)
Inductive res (A : Type) := Done (a : A) | Threw | Undefined.
Arguments Done {A} _.
Arguments Threw {A}.
Arguments Undefined {A}.

Definition bind {A B} (r : res A) (f : A -> res B) : res B :=
  match r with Done a => f a | Threw => Threw | Undefined => Undefined end.

Section Slp.
  Context {F : fld}.
  Variable fs : funs F.
  Local Open Scope fld_scope.
  Add Field Ffield_slp : (f_th F).

  (** ** The evaluator *)

  Definition memory := nat -> option F.
  Definition put (m : memory) (d : nat) (v : option F) : memory := fun l => if Nat.eqb l d then v else m l.

  Definition lift2 (f : F -> F -> option F) (a b : option F) : option F :=
    match a, b with Some x, Some y => f x y | _, _ => None end.
  Definition lift1 (f : F -> option F) (a : option F) : option F := match a with Some x => f x | None => None end.

  (** the value computed by a binary case; [IntPower] reads integers_[b], which may be out of range *)
  Definition binary_value (ints : list Z) (o : opcode) (m : memory) (a b : nat) : option (option F) :=
    match o with
    | OAdd => Some (lift2 (fun x y => Some (x + y)) (m a) (m b))
    | OSubtract => Some (lift2 (fun x y => Some (x - y)) (m a) (m b))
    | OMultiply => Some (lift2 (fun x y => Some (x * y)) (m a) (m b))
    | ODivide => Some (lift2 (fun x y => if feq_dec y 0 then None else Some (x / y)) (m a) (m b))
    | OPower => Some (lift2 (pw fs) (m a) (m b))
    | OIntPower => match nth_error ints b with
                   | Some z => Some (lift1 (fun x => fpowZ x z) (m a))
                   | None => None
                   end
    | _ => None
    end.

  Definition unary_value (o : opcode) (v : option F) : option F :=
    match o with
    | OAssign => v
    | ONegate => lift1 (fun x => Some (- x)) v
    | OSqrt => lift1 (fn fs KSqrt) v
    | OLog => lift1 (fn fs KLog) v
    | OExp => lift1 (fn fs KExp) v
    | OSin => lift1 (fn fs KSin) v
    | OCos => lift1 (fn fs KCos) v
    | OTan => lift1 (fn fs KTan) v
    | OAsin => lift1 (fn fs KAsin) v
    | OAcos => lift1 (fn fs KAcos) v
    | OAtan => lift1 (fn fs KAtan) v
    | _ => None
    end.

  Definition is_binary_case (o : opcode) : bool :=
    match o with OAdd | OSubtract | OMultiply | ODivide | OPower | OIntPower => true | _ => false end.

  (** straight_line_program.cpp:206-312 the loop of StraightLineProgram::Eval over the flat list of words: the case reads the words it
      needs, and the program counter moves by 3 or 4 according to IsUnary.  [None] is a read outside of
      instructions_ or integers_. *)
  Fixpoint exec (ints : list Z) (w : list N) (m : memory) : option memory :=
    match w with
    | [] => Some m
    | op :: w1 =>
        let effect : option memory :=
          match opcode_at op with
          | None => Some m
          | Some o =>
              if is_binary_case o then
                match w1 with
                | a :: b :: d :: _ => option_map (put m (N.to_nat d)) (binary_value ints o m (N.to_nat a) (N.to_nat b))
                | _ => None
                end
              else
                match w1 with
                | a :: d :: _ => Some (put m (N.to_nat d) (unary_value o (m (N.to_nat a))))
                | _ => None
                end
          end in
        match effect with
        | None => None
        | Some m1 =>
            match w1 with
            | _ :: w2 =>
                match w2 with
                | _ :: w3 => if is_unary op then exec ints w3 m1
                             else match w3 with _ :: w4 => exec ints w4 m1 | [] => Some m1 end
                | [] => Some m1
                end
            | [] => Some m1
            end
        end
    end.

  (** ** The compiler *)

  (** the members of SLPCompiler (straight_line_program.hpp:744-757) and of the program under construction which visiting changes *)
  Record cst := mkC {
    nxt : nat;                       (* next_available_complex_ *)
    locs : nat -> option nat;        (* locations_encountered_nodes_ *)
    code : list N;                   (* instructions_ *)
    nums : list (F * nat);           (* true_values_of_numbers_ *)
    ints : list Z;                   (* integers_ *)
    iloc : Z -> option nat           (* locations_integers_ *)
  }.

  Definition set_loc (st : cst) (n l : nat) : cst :=
    mkC (nxt st) (fun x => if Nat.eqb x n then Some l else locs st x) (code st) (nums st) (ints st) (iloc st).
  Definition bump (st : cst) : cst := mkC (S (nxt st)) (locs st) (code st) (nums st) (ints st) (iloc st).

  (** straight_line_program.cpp:96-109 AddInstruction *)
  Definition emit2 (st : cst) (o : opcode) (a b d : nat) : cst :=
    mkC (nxt st) (locs st) (code st ++ [word_of o; N.of_nat a; N.of_nat b; N.of_nat d]) (nums st) (ints st) (iloc st).
  Definition emit1 (st : cst) (o : opcode) (a d : nat) : cst :=
    mkC (nxt st) (locs st) (code st ++ [word_of o; N.of_nat a; N.of_nat d]) (nums st) (ints st) (iloc st).

  (** straight_line_program.cpp:111-113 AddNumber *)
  Definition add_number (st : cst) (c : F) (l : nat) : cst :=
    mkC (nxt st) (locs st) (code st) (nums st ++ [(c, l)]) (ints st) (iloc st).

  (** straight_line_program.hpp:735-739 DealWithNumber *)
  Definition deal_with_number (st : cst) (n : nat) (c : F) : cst :=
    bump (set_loc (add_number st c (nxt st)) n (nxt st)).

  (** the pattern  if (locations.find(n)==end) n->Accept(this visitor);  locations[n]  : a node which its visit did not
      register is inserted by operator[] with location 0 *)
  Definition ensure (visit : cst -> nat -> res cst) (st : cst) (n : nat) : res (cst * nat) :=
    match locs st n with
    | Some l => Done (st, l)
    | None => bind (visit st n) (fun st1 =>
        match locs st1 n with
        | Some l => Done (st1, l)
        | None => Done (set_loc st1 n 0, 0%nat)
        end)
    end.

  Fixpoint ensure_all (visit : cst -> nat -> res cst) (st : cst) (ops : list (bool * nat))
    : res (cst * list (bool * nat)) :=
    match ops with
    | [] => Done (st, [])
    | (s, n) :: r => bind (ensure visit st n) (fun p =>
        bind (ensure_all visit (fst p) r) (fun q => Done (fst q, (s, snd p) :: snd q)))
    end.

  (** straight_line_program.cpp:456-464 and 519-527: the rest of the operands *)
  Fixpoint chain (yes no : opcode) (st : cst) (prev : nat) (ops : list (bool * nat)) : cst * nat :=
    match ops with
    | [] => (st, prev)
    | (s, l) :: r => chain yes no (bump (emit2 st (if s then yes else no) prev l (nxt st))) (nxt st) r
    end.

  Definition fun_opcode (k : fun_kind) : opcode :=
    match k with
    | KSqrt => OSqrt | KExp => OExp | KLog => OLog | KSin => OSin | KCos => OCos | KTan => OTan
    | KAsin => OAsin | KAcos => OAcos | KAtan => OAtan
    end.

  (** straight_line_program.cpp:554-561: find the exponent in locations_integers_ or add it *)
  Definition integer_location (st : cst) (z : Z) : cst * nat :=
    match iloc st z with
    | Some i => (st, i)
    | None => (mkC (nxt st) (locs st) (code st) (nums st) (ints st ++ [z])
                   (fun y => if Z.eqb y z then Some (length (ints st)) else iloc st y), length (ints st))
    end.

  (** straight_line_program.cpp:344-711 the Visit functions.  Fuel bounds the recursion: [Undefined] when it runs out (a cyclic graph)
      or at a dangling address, and for a sum or product without operands (signs[0]). *)
  Fixpoint visit (G : list (gnode (F := F))) (fuel : nat) (st : cst) (n : nat) : res cst :=
    match fuel with
    | O => Undefined
    | S k =>
        let unary (a : nat) (o : opcode) :=
          bind (ensure (visit G k) st a) (fun p =>
            let (st1, la) := p in
            let d := nxt st1 in Done (bump (emit1 (set_loc st1 n d) o la d))) in
        match nth_error G n with
        | None => Undefined
        | Some GVar => Done st                                                              (* 344-346 *)
        | Some (GNum _ c) => Done (deal_with_number st n c)                                 (* 360-381 *)
        | Some (GDiff _) => Threw                                                           (* 390-392 *)
        | Some (GHandle a) =>                                                               (* 398-424 *)
            bind (ensure (visit G k) st a) (fun p =>
              let (st1, la) := p in
              match locs st1 n with
              | Some d => Done (emit1 st1 OAssign la d)
              | None => let d := nxt st1 in Done (emit1 (bump (set_loc st1 n d)) OAssign la d)
              end)
        | Some (GSum ops) =>                                                                (* 428-473 *)
            bind (ensure_all (visit G k) st ops) (fun p =>
              match snd p with
              | [] => Undefined
              | (s, l) :: r =>
                  let st1 := fst p in
                  let (st2, prev) := if s then (st1, l) else (bump (emit1 st1 ONegate l (nxt st1)), nxt st1) in
                  let (st3, last) := chain OAdd OSubtract st2 prev r in
                  Done (set_loc st3 n last)
              end)
        | Some (GMul ops) =>                                                                (* 480-531 *)
            bind (ensure_all (visit G k) st ops) (fun p =>
              match snd p with
              | [] => Undefined
              | (s, l) :: r =>
                  let st1 := fst p in
                  let (st2, prev) :=
                    if s then (st1, l)
                    else (* Integer::Make(1) is a new node, which nothing else refers to *)
                      let one := nxt st1 in
                      let st1' := bump (add_number st1 1 one) in
                      (bump (emit2 st1' ODivide one l (nxt st1')), nxt st1') in
                  let (st3, last) := chain OMultiply ODivide st2 prev r in
                  Done (set_loc st3 n last)
              end)
        | Some (GIPow a z) =>                                                               (* 537-565 *)
            bind (ensure (visit G k) st a) (fun p =>
              let (st1, la) := p in
              let (st2, lz) := integer_location st1 z in
              let d := nxt st2 in Done (bump (emit2 (set_loc st2 n d) OIntPower la lz d)))
        | Some (GPow b e) =>                                                                (* 568-589 *)
            bind (ensure (visit G k) st b) (fun p =>
              let (st1, lb) := p in
              bind (ensure (visit G k) st1 e) (fun q =>
                let (st2, le) := q in
                let d := nxt st2 in Done (bump (emit2 (set_loc st2 n d) OPower lb le d))))
        | Some (GNeg a) => unary a ONegate                                                  (* 615-625 *)
        | Some (GFun f a) => unary a (fun_opcode f)                                         (* 591-711 *)
        end
    end.

  (** what Compile asks the system for: VariableOrdering(), the path variable, GetNaturalFunctions(),
      GetSpaceDerivatives(), and GetTimeDerivatives(), which is called twice: [dt_first] while reserving memory and
      [dt_second] when visiting.  The two are the same nodes unless derivatives are taken with Jacobian nodes
      (src/system/system.cpp:401-407 differentiates anew at every call then). *)
  Record sysdesc := mkSys {
    vars : list nat;
    path : option nat;
    funcs : list nat;
    dx : list nat;
    dt_first : list nat;
    dt_second : list nat
  }.

  (** locations_encountered_nodes_[n] = next_available_complex_++ *)
  Fixpoint register (st : cst) (l : list nat) : cst :=
    match l with [] => st | n :: r => register (bump (set_loc st n (nxt st))) r end.

  Fixpoint visit_all (G : list (gnode (F := F))) (st : cst) (l : list nat) : res cst :=
    match l with [] => Done st | n :: r => bind (visit G (S (length G)) st n) (fun st1 => visit_all G st1 r) end.

  Definition path_list (S : sysdesc) : list nat := match path S with Some t => [t] | None => [] end.
  Definition if_path (S : sysdesc) (l : list nat) : list nat := match path S with Some _ => l | None => [] end.

  (** the finished program *)
  Record slp := mkSlp {
    n_vars : nat; n_funs : nat;
    in_time : option nat;                                    (* has_path_variable_, input_locations_.Time *)
    out_fun : nat; out_jac : nat; out_dt : nat;              (* output_locations_ *)
    p_code : list N; p_ints : list Z; p_nums : list (F * nat)
  }.

  (** straight_line_program.cpp:739-868 Compile and straight_line_program.cpp:870-876 Clear: [old] is what an earlier use of the compiler left in
      locations_integers_, which Clear does not empty *)
  Definition compile_visits (old : Z -> option nat) (G : list (gnode (F := F))) (S : sysdesc)
    : res (nat * nat * nat * cst) :=
    let st0 := mkC 0 (fun _ => None) [] [] [] old in
    let st1 := register (register st0 (vars S)) (path_list S) in
    let st2 := register st1 (funcs S) in
    let st3 := register st2 (dx S) in
    let st4 := register st3 (if_path S (dt_first S)) in
    bind (visit_all G st4 (funcs S)) (fun st5 =>
    bind (visit_all G st5 (dx S)) (fun st6 =>
    bind (visit_all G st6 (if_path S (dt_second S))) (fun st7 =>
      Done (nxt st1, nxt st2, match path S with Some _ => nxt st3 | None => 0%nat end, st7)))).

  Definition compile (old : Z -> option nat) (G : list (gnode (F := F))) (S : sysdesc) : res slp :=
    bind (compile_visits old G S) (fun r =>
      let '(lf, lj, lt, st) := r in
      Done (mkSlp (length (vars S)) (length (funcs S))
                  (match path S with Some _ => Some (length (vars S)) | None => None end)
                  lf lj lt (code st) (ints st) (nums st))).

  (** what this leaves in locations_integers_ *)
  Definition integers_left (old : Z -> option nat) (G : list (gnode (F := F))) (S : sysdesc) : Z -> option nat :=
    match compile_visits old G S with Done (_, st) => iloc st | _ => old end.

  (** a compiler which has not been used *)
  Definition unused : Z -> option nat := fun _ => None.

  (** ** A program being used *)

  (** memory_ of both types, is_evaluated_ *)
  Record rt := mkR { mem : numtype -> memory; evaluated : bool }.

  Definition set_mem (r : rt) (T : numtype) (m : memory) (flag : bool) : rt :=
    mkR (fun T' => if numtype_eqb T' T then m else mem r T') flag.

  (** straight_line_program.cpp:318-326 CopyNumbersIntoMemory *)
  Definition copy_numbers (p : slp) (m : memory) : memory :=
    fold_left (fun m q => put m (snd q) (Some (fst q))) (p_nums p) m.

  (** the state at the end of Compile; the rest of the memory has whatever values [z] *)
  Definition rt_init (p : slp) (z : numtype -> nat -> F) : rt :=
    mkR (fun T => copy_numbers p (fun l => Some (z T l))) false.

  Inductive rop :=
  | SetVariableValues (T : numtype) (v : list F)
  | SetPathVariable (T : numtype) (t : F)
  | EvalSlp (T : numtype).           (* also the evaluation done by GetFuncVals, GetJacobian, GetTimeDeriv *)

  Fixpoint write_values (m : memory) (l : nat) (n : nat) (v : list F) : option memory :=
    match n with
    | O => Some m
    | S k => match v with x :: r => write_values (put m l (Some x)) (S l) k r | [] => None end
    end.

  Definition rstep (p : slp) (r : rt) (o : rop) : res rt :=
    match o with
    | SetVariableValues T v =>                                   (* straight_line_program.hpp:504-524 *)
        match write_values (mem r T) 0 (n_vars p) v with
        | Some m => Done (set_mem r T m false)
        | None => Undefined
        end
    | SetPathVariable T t =>                                     (* straight_line_program.hpp:534-553 *)
        match in_time p with
        | None => Threw
        | Some l => Done (set_mem r T (put (mem r T) l (Some t)) false)
        end
    | EvalSlp T =>                                               (* straight_line_program.cpp:206-312 *)
        if evaluated r then Done r
        else match exec (p_ints p) (p_code p) (mem r T) with
             | Some m => Done (set_mem r T m true)
             | None => Undefined
             end
    end.

  Fixpoint rrun (p : slp) (r : rt) (h : list rop) : res rt :=
    match h with [] => Done r | o :: h' => bind (rstep p r o) (fun r1 => rrun p r1 h') end.

  (** straight_line_program.hpp:356-367 GetFuncVals, straight_line_program.hpp:380-393 GetJacobian (entry (i,j)), straight_line_program.hpp:406-417 GetTimeDeriv *)
  Definition get_funs (p : slp) (r : rt) (T : numtype) : res (list (option F)) :=
    bind (rstep p r (EvalSlp T)) (fun r1 =>
      Done (map (fun i => mem r1 T (i + out_fun p)%nat) (seq 0 (n_funs p)))).
  Definition get_jac (p : slp) (r : rt) (T : numtype) (i j : nat) : res (option F) :=
    bind (rstep p r (EvalSlp T)) (fun r1 => Done (mem r1 T (i + j * n_funs p + out_jac p)%nat)).
  Definition get_dt (p : slp) (r : rt) (T : numtype) : res (list (option F)) :=
    bind (rstep p r (EvalSlp T)) (fun r1 =>
      Done (map (fun i => mem r1 T (i + out_dt p)%nat) (seq 0 (n_funs p)))).

  (** ** Specification *)

  (** a system whose nodes can be compiled: distinct variables and outputs; functions and derivatives are Function
      nodes; each visit meets only registered variables, nonempty sums and products, no Differentials, and no
      output which is visited later *)
  Definition inputs (S : sysdesc) : list nat := vars S ++ path_list S.
  Definition outputs (S : sysdesc) : list nat := funcs S ++ dx S ++ if_path S (dt_first S).

  Definition node_ok (G : list (gnode (F := F))) (ins : list nat) (m : nat) : Prop :=
    exists nd, nth_error G m = Some nd /\
      match nd with
      | GVar => In m ins
      | GDiff _ => False
      | GSum ops | GMul ops => ops <> []
      | _ => True
      end.

  Definition compilable (G : list (gnode (F := F))) (S : sysdesc) : Prop :=
    NoDup (inputs S ++ outputs S) /\
    (forall x, In x (inputs S) -> nth_error G x = Some GVar) /\
    (forall n, In n (outputs S) -> exists a, nth_error G n = Some (GHandle a)) /\
    (forall n m, In n (outputs S) -> reach G n m -> node_ok G (inputs S) m) /\
    (forall i j n m, i < j -> nth_error (outputs S) i = Some n -> nth_error (outputs S) j = Some m -> ~ reach G n m) /\
    (path S <> None -> dt_second S = dt_first S).

  (** the environment in which the i-th input has the value [f i] *)
  Fixpoint index_of (x : nat) (l : list nat) : nat :=
    match l with [] => 0%nat | y :: r => if Nat.eqb y x then 0%nat else S (index_of x r) end.
  Definition input_env (S : sysdesc) (f : nat -> F) : env F := fun x => f (index_of x (inputs S)).

  (** the inputs of type [T] last set, starting from [f] *)
  Fixpoint last_inputs (nv : nat) (T : numtype) (f : nat -> F) (h : list rop) : nat -> F :=
    match h with
    | [] => f
    | SetVariableValues T' v :: r =>
        last_inputs nv T (if numtype_eqb T' T then (fun i => if Nat.ltb i nv then nth i v 0 else f i) else f) r
    | SetPathVariable T' t :: r =>
        last_inputs nv T (if numtype_eqb T' T then (fun i => if Nat.eqb i nv then t else f i) else f) r
    | EvalSlp _ :: r => last_inputs nv T f r
    end.

  Definition valid_rop (S : sysdesc) (o : rop) : Prop :=
    match o with
    | SetVariableValues _ v => length v = length (vars S)
    | SetPathVariable _ _ => path S <> None
    | EvalSlp _ => True
    end.

  (** the number type of the first evaluation since inputs were last set (in either type), if there was one *)
  Fixpoint evaluated_in (cur : option numtype) (h : list rop) : option numtype :=
    match h with
    | [] => cur
    | EvalSlp T :: r => evaluated_in (match cur with None => Some T | Some _ => cur end) r
    | _ :: r => evaluated_in None r
    end.

End Slp.
