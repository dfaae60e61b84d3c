(** Specification of the text of a system, independent of the parser. *)
From Coq Require Import String Ascii List Arith Bool ZArith.
From Verif Require Import Base Chars NumLit Expr Parser ParserSpec Names SysParser.
Import ListNotations.
Local Open Scope char_scope.

(** the statements of the input language *)
Inductive stmt :=
| SGroup (l : list text)
| SHomGroup (l : list text)
| SVariables (l : list text)
| SFunctions (l : list text)
| SConstants (l : list text)
| SParameters (l : list text)
| SImplicits (l : list text)
| SPathVariable (v : text)
| SSubfunction (f : text) (t : tree)
| SDefinition (f : text) (t : tree).

(** the keyword and the names of a declaration *)
Definition keyword_of (st : stmt) : option (text * list text) :=
  match st with
  | SGroup l => Some (txt "variable_group", l)
  | SHomGroup l => Some (txt "hom_variable_group", l)
  | SVariables l => Some (txt "variable", l)
  | SFunctions l => Some (txt "function", l)
  | SConstants l => Some (txt "constant", l)
  | SParameters l => Some (txt "parameter", l)
  | SImplicits l => Some (txt "implicit_parameter", l)
  | SPathVariable v => Some (txt "pathvariable", [v])
  | _ => None
  end.

(** names a statement declares, and those among them which can be defined *)
Definition declares (st : stmt) : list text :=
  match st with
  | SGroup l | SHomGroup l | SVariables l | SFunctions l | SConstants l | SParameters l | SImplicits l => l
  | SPathVariable v => [v]
  | SSubfunction f _ => [f]
  | SDefinition _ _ => []
  end.
Definition declares_functions (st : stmt) : list text :=
  match st with
  | SFunctions l | SConstants l | SParameters l => l
  | SSubfunction f _ => [f]
  | _ => []
  end.

(** [stmt_text known fs st s]: [s] is a way of writing [st] where [known] are the names declared so far and [fs] those
    which can be defined.  White space may stand before every token and must stand after a keyword. *)
Inductive stmt_text (num : text -> option Z) (known fs : list text) : stmt -> text -> Prop :=
| t_declaration : forall st kw l w c s w2, keyword_of st = Some (kw, l) -> white w -> is_space c = true ->
    written l s -> white w2 -> stmt_text num known fs st (w ++ kw ++ c :: s ++ w2 ++ [";"])
| t_subfunction : forall f t w w2 e w3, white w -> white w2 -> white w3 -> usual (f :: known) num false Whole e t ->
    stmt_text num known fs (SSubfunction f t) (w ++ f ++ w2 ++ "=" :: e ++ w3 ++ [";"])
| t_definition : forall f t w w2 e w3, In f fs -> white w -> white w2 -> white w3 -> usual known num false Whole e t ->
    stmt_text num known fs (SDefinition f t) (w ++ f ++ w2 ++ "=" :: e ++ w3 ++ [";"]).

(** the text of a sequence of statements; every declared name is a legal one, is not the name of a function of the
    language, and has no keyword and no earlier name as a prefix *)
Inductive program (num : text -> option Z) : list text -> list text -> list stmt -> text -> Prop :=
| program_end : forall known fs w, white w -> program num known fs [] w
| program_next : forall known fs st s p rest, stmt_text num known fs st s ->
    declarable known (declares st) -> Forall (fun nm => forall k, ~ function_name k nm) (declares st) ->
    program num (rev (declares st) ++ known) (rev (declares_functions st) ++ fs) p rest ->
    program num known fs (st :: p) (s ++ rest).

(** the system a sequence of statements describes *)
Definition describes (p : list stmt) (s : sys) : Prop :=
  groups s = flat_map (fun st => match st with SGroup l => [l] | _ => [] end) p /\
  hom_groups s = flat_map (fun st => match st with SHomGroup l => [l] | _ => [] end) p /\
  ungrouped s = flat_map (fun st => match st with SVariables l => l | _ => [] end) p /\
  order s = flat_map (fun st => match st with SGroup _ => [Affine] | SHomGroup _ => [Homogeneous]
                                | SVariables l => map (fun _ => UngroupedVariable) l | _ => [] end) p /\
  functions s = flat_map (fun st => match st with SFunctions l => l | _ => [] end) p /\
  constants s = flat_map (fun st => match st with SConstants l => l | _ => [] end) p /\
  parameters s = flat_map (fun st => match st with SParameters l => l | _ => [] end) p /\
  implicits s = flat_map (fun st => match st with SImplicits l => l | _ => [] end) p /\
  path_variable s = hd_error (rev (flat_map (fun st => match st with SPathVariable v => [v] | _ => [] end) p)) /\
  subfunctions s = flat_map (fun st => match st with SSubfunction f _ => [f] | _ => [] end) p /\
  roots s = flat_map (fun st => match st with SSubfunction f t | SDefinition f t => [(f, t)] | _ => [] end) p.

(** symbols occurring in a tree *)
Fixpoint symbols (t : tree) : list text :=
  match t with
  | TInt _ | TFloat _ | TRat _ _ => []
  | TSym s => [s]
  | TSum ops | TMul ops => flat_map (fun q => symbols (snd q)) ops
  | TNeg t | TIPow t _ | TFun _ t => symbols t
  | TPow b e => symbols b ++ symbols e
  end.

(** every name is declared once, definitions are of declared functions, and the symbols used are declared before (a
    subfunction may use its own name) *)
Fixpoint scoped (known fs : list text) (p : list stmt) : Prop :=
  match p with
  | [] => True
  | st :: r =>
      NoDup (declares st) /\ (forall nm, In nm (declares st) -> identifier nm /\ ~ In nm (declarative ++ known)) /\
      match st with
      | SSubfunction f t => incl (symbols t) (f :: known)
      | SDefinition f t => In f fs /\ incl (symbols t) known
      | _ => True
      end /\
      scoped (rev (declares st) ++ known) (rev (declares_functions st) ++ fs) r
  end.
