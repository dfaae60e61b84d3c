(** The system parser: the text of a system with its declarations and definitions.

    Models core/include/bertini2/io/parsing/system_rules.hpp:82-301 (SystemParser), system_parsers.hpp:73-92
    (System(std::string)) and the functions of core/src/system/system.cpp:585-744 the rules call.

    Names.v models the rules for names, Parser.v the expressions.  Nodes are represented by their names: the
    names of a system are distinct (C60_scoped), so a name stands for one node; what a Function node is defined
    as is recorded in the order of the calls of SetRoot. *)
From Coq Require Import String Ascii List Arith Lia Bool ZArith.
From Verif Require Import Base Chars NumLit Expr Parser ParserProof Names.
Import ListNotations.
Local Open Scope char_scope.

Inductive group_kind := Affine | Homogeneous | UngroupedVariable.

(** the members of System which the parser changes (system.hpp:1725-1773) *)
Record sys := mkSys {
  groups : list (list text);            (* variable_groups_ *)
  hom_groups : list (list text);        (* hom_variable_groups_ *)
  ungrouped : list text;                (* ungrouped_variables_ *)
  order : list group_kind;              (* time_order_of_variable_groups_ *)
  functions : list text;                (* functions_ *)
  constants : list text;                (* constant_subfunctions_ *)
  parameters : list text;               (* explicit_parameters_ *)
  implicits : list text;                (* implicit_parameters_ *)
  path_variable : option text;          (* path_variable_, have_path_variable_ *)
  subfunctions : list text;             (* subfunctions_ *)
  roots : list (text * tree)            (* calls of Function::SetRoot, oldest first *)
}.

Definition empty_sys : sys := mkSys [] [] [] [] [] [] [] [] None [] [].

(** system.cpp:585-592 *)
Definition add_group (l : list text) (s : sys) : sys :=
  mkSys (groups s ++ [l]) (hom_groups s) (ungrouped s) (order s ++ [Affine]) (functions s) (constants s) (parameters s)
    (implicits s) (path_variable s) (subfunctions s) (roots s).

(** system.cpp:597-604 *)
Definition add_hom_group (l : list text) (s : sys) : sys :=
  mkSys (groups s) (hom_groups s ++ [l]) (ungrouped s) (order s ++ [Homogeneous]) (functions s) (constants s) (parameters s)
    (implicits s) (path_variable s) (subfunctions s) (roots s).

(** system.cpp:622-630 *)
Definition add_ungrouped (l : list text) (s : sys) : sys :=
  mkSys (groups s) (hom_groups s) (ungrouped s ++ l) (order s ++ map (fun _ => UngroupedVariable) l) (functions s)
    (constants s) (parameters s) (implicits s) (path_variable s) (subfunctions s) (roots s).

(** system.cpp:710-714 *)
Definition add_functions (l : list text) (s : sys) : sys :=
  mkSys (groups s) (hom_groups s) (ungrouped s) (order s) (functions s ++ l) (constants s) (parameters s)
    (implicits s) (path_variable s) (subfunctions s) (roots s).

(** system.cpp:728-732 *)
Definition add_constants (l : list text) (s : sys) : sys :=
  mkSys (groups s) (hom_groups s) (ungrouped s) (order s) (functions s) (constants s ++ l) (parameters s)
    (implicits s) (path_variable s) (subfunctions s) (roots s).

(** system.cpp:666-670 *)
Definition add_parameters (l : list text) (s : sys) : sys :=
  mkSys (groups s) (hom_groups s) (ungrouped s) (order s) (functions s) (constants s) (parameters s ++ l)
    (implicits s) (path_variable s) (subfunctions s) (roots s).

(** system.cpp:644-648 *)
Definition add_implicits (l : list text) (s : sys) : sys :=
  mkSys (groups s) (hom_groups s) (ungrouped s) (order s) (functions s) (constants s) (parameters s)
    (implicits s ++ l) (path_variable s) (subfunctions s) (roots s).

(** system.cpp:739-744 *)
Definition add_path_variable (v : text) (s : sys) : sys :=
  mkSys (groups s) (hom_groups s) (ungrouped s) (order s) (functions s) (constants s) (parameters s)
    (implicits s) (Some v) (subfunctions s) (roots s).

(** system.cpp:676-680 *)
Definition add_subfunction (f : text) (s : sys) : sys :=
  mkSys (groups s) (hom_groups s) (ungrouped s) (order s) (functions s) (constants s) (parameters s)
    (implicits s) (path_variable s) (subfunctions s ++ [f]) (roots s).

(** Function::SetRoot, system_rules.hpp:231-234, 241-244 *)
Definition set_root (f : text) (t : tree) (s : sys) : sys :=
  mkSys (groups s) (hom_groups s) (ungrouped s) (order s) (functions s) (constants s) (parameters s)
    (implicits s) (path_variable s) (subfunctions s) (roots s ++ [(f, t)]).

(** the parser's tables and the attribute of the root rule *)
Record pstate := mkP {
  names : list text;                    (* encountered_symbols_ *)
  fnames : list text;                   (* encountered_functions_ *)
  built : sys
}.

(** system_rules.hpp:97-133: a new parser *)
Definition start : pstate := mkP initial_names [] empty_sys.

Section Rules.
  Variable ilit : text -> option Z.

  (** function_parser_ used as a rule: its on_error<fail> (function_rules.hpp:252-263) turns a failed expectation
      into a failure *)
  Definition function_rule (nms : list text) (s : text) : out tree :=
    match p_expression nms ilit (fuel_for s) s with
    | Expect => NoMatch
    | o => o
    end.

  (** system_rules.hpp:172-175, 197-199: keyword > list of new names > ';'.  For functions, constants and
      parameters the names enter both tables (lines 348-353), else only the first (lines 359-363). *)
  Definition declare (kw : text) (is_function : bool) (add : list text -> sys -> sys) (p : pstate) (s : text) : out pstate :=
    match strip_prefix kw (skip s) with
    | None => NoMatch
    | Some r =>
        match declaration (names p) r with
        | None => Expect
        | Some (l, tab, r2) =>
            Match (mkP tab (if is_function then rev l ++ fnames p else fnames p) (add l (built p))) r2
        end
    end.

  (** system_rules.hpp:180 path_variable_ *)
  Definition declare_path_variable (p : pstate) (s : text) : out pstate :=
    match strip_prefix (txt "pathvariable") (skip s) with
    | None => NoMatch
    | Some r =>
        match new_name (names p) r with
        | None => Expect
        | Some (nm, tab, r1) => expect_char ";" r1 (fun r2 => Match (mkP tab (fnames p) (add_path_variable nm (built p))) r2)
        end
    end.

  (** system_rules.hpp:240-246 subfunction_ *)
  Definition subfunction (p : pstate) (s : text) : out pstate :=
    match new_name (names p) s with
    | None => NoMatch
    | Some (nm, tab, r) =>
        expect_char "=" r (fun r1 =>
          expect (function_rule tab r1) (fun t r2 =>
            expect_char ";" r2 (fun r3 =>
              Match (mkP tab (nm :: fnames p) (add_subfunction nm (set_root nm t (built p)))) r3)))
    end.

  (** system_rules.hpp:231-234 definition_ *)
  Definition definition (p : pstate) (s : text) : out pstate :=
    match longest (fnames p) (skip s) with
    | None => NoMatch
    | Some (nm, r) =>
        expect_char "=" r (fun r1 =>
          expect (function_rule (names p) r1) (fun t r2 =>
            expect_char ";" r2 (fun r3 => Match (mkP (names p) (fnames p) (set_root nm t (built p))) r3)))
    end.

  Definition alternative (a b : pstate -> text -> out pstate) (p : pstate) (s : text) : out pstate :=
    match a p s with NoMatch => b p s | o => o end.

  (** system_rules.hpp:141-162: the alternatives of root_rule_ *)
  Definition statement : pstate -> text -> out pstate :=
    alternative (declare (txt "variable_group") false add_group)
    (alternative (declare (txt "hom_variable_group") false add_hom_group)
    (alternative (declare (txt "variable") false add_ungrouped)
    (alternative (declare (txt "function") true add_functions)
    (alternative (declare (txt "constant") true add_constants)
    (alternative (declare (txt "parameter") true add_parameters)
    (alternative (declare (txt "implicit_parameter") false add_implicits)
    (alternative declare_path_variable
    (alternative subfunction
      definition)))))))).

  (** the repetition of root_rule_ *)
  Fixpoint statements (n : nat) (p : pstate) (s : text) : out pstate :=
    match n with
    | O => Fuel
    | S n =>
        match statement p s with
        | Match p' r => statements n p' r
        | NoMatch => Match p s
        | o => o
        end
    end.

  Inductive result :=
  | Accepted (s : sys)
  | Refused                             (* std::runtime_error thrown by System(std::string) *)
  | NumberThrows                        (* the exception of a number constructor *)
  | OutOfFuel.

  (** system_parsers.hpp:73-92; on_error<fail> of root_rule_: system_rules.hpp:290-298 *)
  Definition parse_system (s : text) : result :=
    match statements (S (length s)) start s with
    | Match p r => match skip r with [] => Accepted (built p) | _ :: _ => Refused end
    | NoMatch | Expect => Refused
    | Convert => NumberThrows
    | Fuel => OutOfFuel
    end.
End Rules.
