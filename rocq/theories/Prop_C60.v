(** C60: the text of a system.  The specification is in SysParserSpec.v: [program] relates statements to the texts that
    write them, [describes] says which system a sequence of statements stands for, [scoped] which names it may use. *)
From Coq Require Import String Ascii List Bool ZArith.
From Verif Require Import Base Chars NumLit Expr Parser ParserSpec ParserEx Names SysParser SysParserSpec SysParserProof SysParserEx.
Import ListNotations.
Local Open Scope char_scope.

(** Every text writing a sequence of declarations and definitions, in ordinary notation and with any white space, is
    accepted, and the system has the variable groups, variables, functions, constants, parameters, path variable and
    subfunctions declared, in order, and the definitions given. *)
Theorem C60_program_partial : forall (num : text -> option Z) (prog : list stmt) (s : text),
  program num initial_names [] prog s -> exists y, parse_system num s = Accepted y /\ describes prog y.
Proof. exact parse_program. Qed.
Print Assumptions C60_program_partial.

Example C60_program_case : program dec initial_names [] small_prog small_text /\
  small_text = txt "variable_group x, y; function f; s = x*y; f = s+x; ".
Proof. split; [exact small_program|reflexivity]. Qed.

(** Whatever is accepted is the system of a sequence of statements in which every name is legal, declared once and
    distinct from the keywords and predefined symbols, only declared functions are defined, and only declared symbols
    are used. *)
Theorem C60_scoped : forall (num : text -> option Z) (s : text) (y : sys), parse_system num s = Accepted y ->
  exists prog, describes prog y /\ scoped initial_names [] prog /\ NoDup (flat_map declares prog).
Proof.
  intros num s y H. destruct (parse_sound num s y H) as (prog & Hd & Hs). exists prog. split; [exact Hd|]. split; [exact Hs|].
  apply (scoped_distinct prog initial_names [] Hs).
Qed.
Print Assumptions C60_scoped.

Example C60_scoped_case : exists y, parse_system dec small_text = Accepted y /\ groups y = [[txt "x"; txt "y"]] /\
  roots y = [(txt "s", TMul [(true, TSym (txt "x")); (true, TSym (txt "y"))]);
             (txt "f", TSum [(true, TSym (txt "s")); (true, TSym (txt "x"))])].
Proof. eexists. split; [vm_compute; reflexivity|]. split; reflexivity. Qed.

(** Every text gets a verdict. *)
Theorem C60_total : forall (num : text -> option Z) (s : text), parse_system num s <> OutOfFuel.
Proof. exact parse_total. Qed.
Print Assumptions C60_total.

(** Definitions need not be well founded: a function defined by itself is accepted, as are two functions defined by each
    other. *)
Theorem C60_recursion_refuted : 
  (exists y, parse_system dec (txt "variable_group x; function f; f = f*x;") = Accepted y /\
     roots y = [(txt "f", TMul [(true, TSym (txt "f")); (true, TSym (txt "x"))])]) /\
  (exists y, parse_system dec (txt "function f, g; f = g; g = f;") = Accepted y /\
     roots y = [(txt "f", TSym (txt "g")); (txt "g", TSym (txt "f"))]) /\
  (exists y, parse_system dec (txt "s = s;") = Accepted y /\ subfunctions y = [txt "s"] /\
     roots y = [(txt "s", TSym (txt "s"))]).
Proof. split; [|split]; eexists; (split; [vm_compute; reflexivity|]); repeat split. Qed.
Print Assumptions C60_recursion_refuted.

(** A declared function need not be defined, and may be defined twice. *)
Theorem C60_undefined_refuted :
  (exists y, parse_system dec (txt "variable_group x; function f;") = Accepted y /\ functions y = [txt "f"] /\ roots y = []) /\
  (exists y, parse_system dec (txt "function f; f = 1; f = 2;") = Accepted y /\
     roots y = [(txt "f", TInt 1); (txt "f", TInt 2)]).
Proof. split; eexists; (split; [vm_compute; reflexivity|]); repeat split. Qed.
Print Assumptions C60_undefined_refuted.

(** The white space after a keyword is optional: a misspelt name may be read as a declaration. *)
Theorem C60_glued_keyword_refuted : exists y, parse_system dec (txt "functional = 2;") = Refused /\
  parse_system dec (txt "functional;") = Accepted y /\ functions y = [txt "al"].
Proof. eexists. split; [vm_compute; reflexivity|]. split; [vm_compute; reflexivity|reflexivity]. Qed.
Print Assumptions C60_glued_keyword_refuted.
