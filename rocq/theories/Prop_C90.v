(** C90: the values of a system given as text.  The specification is in the second part of SysValue.v: [tree_value] is the
    value of a right hand side, [obeys] says that values of the names satisfy the last definition of every name, [execute]
    carries out the statements one after the other, [ordered] that definitions do not go round in a circle, [straight_line]
    that every name is defined once and before it is used. *)
From Coq Require Import String Ascii List Arith Lia Bool ZArith.
From Verif Require Import Base Chars NumLit Expr Parser ParserSpec ParserEx Names SysParser SysParserSpec SysParserProof SysParserEx SysValue SysValueEx.
Import ListNotations.

(** A text in ordinary notation whose functions are all defined, in any order but not in a circle, is accepted, and its
    functions are expressions in the variables.  At every point the definitions determine values for all names, and the
    functions have these values. *)
Theorem C90_values_partial : forall (F : fld) (fs : funs F) (flt special : text -> F) (place : text -> nat) (num : text -> option Z)
  (p : list stmt) (s : text) (rank : text -> nat),
  program num initial_names [] p s -> ordered rank p -> all_defined p ->
  exists y n es, parse_system num s = Accepted y /\ (forall m, n <= m -> functions_of flt special place m y = Some es) /\
    forall rho, (exists v, obeys fs flt special (fun x => rho (place x)) p v) /\
      forall v, obeys fs flt special (fun x => rho (place x)) p v -> map (eval fs rho) es = map v (function_names p).
Proof.
  intros F fs flt special place num p s rank H Ho Ha. destruct (parse_program num p s H) as (y & Hy & Hd).
  destruct (text_values fs flt special place p y Hd (program_scoped _ _ _ _ _ H) rank Ho Ha) as (n & es & A & B).
  exists y, n, es. split; [exact Hy|]. split; [exact A|exact B].
Qed.
Print Assumptions C90_values_partial.

(** The same of every text that is accepted, however it is written. *)
Theorem C90_accepted_partial : forall (F : fld) (fs : funs F) (flt special : text -> F) (place : text -> nat) (num : text -> option Z)
  (s : text) (y : sys), parse_system num s = Accepted y ->
  exists p, describes p y /\ scoped initial_names [] p /\
  forall rank, ordered rank p -> all_defined p ->
  exists n es, (forall m, n <= m -> functions_of flt special place m y = Some es) /\
    forall rho, (exists v, obeys fs flt special (fun x => rho (place x)) p v) /\
      forall v, obeys fs flt special (fun x => rho (place x)) p v -> map (eval fs rho) es = map v (function_names p).
Proof.
  intros F fs flt special place num s y H. destruct (parse_sound num s y H) as (p & Hd & Hs). exists p. split; [exact Hd|]. split; [exact Hs|].
  intros rank Ho Ha. exact (text_values fs flt special place p y Hd Hs rank Ho Ha).
Qed.
Print Assumptions C90_accepted_partial.

(** If every name is defined once, before it is used, then the functions have at every point the values obtained by
    carrying out the statements of the text from the first to the last. *)
Theorem C90_execute_partial : forall (F : fld) (fs : funs F) (flt special : text -> F) (place : text -> nat) (num : text -> option Z)
  (p : list stmt) (s : text),
  program num initial_names [] p s -> straight_line p -> all_defined p ->
  exists y n es, parse_system num s = Accepted y /\ (forall m, n <= m -> functions_of flt special place m y = Some es) /\
    forall rho, map (eval fs rho) es = map (execute fs flt (initially special (fun x => rho (place x)) p) p) (function_names p).
Proof.
  intros F fs flt special place num p s H Hs Ha.
  destruct (C90_values_partial F fs flt special place num p s (index (definitions p)) H (straight_ordered p Hs) Ha) as (y & n & es & A & B & C).
  exists y, n, es. split; [exact A|]. split; [exact B|]. intro rho. apply C. apply (execute_obeys fs flt special place); [exact (program_scoped _ _ _ _ _ H)|exact Hs].
Qed.
Print Assumptions C90_execute_partial.

(** the hypotheses are met by [small_text]: s = x*y; f = s+x, where f is 8 at x = 2, y = 3 *)
Example C90_met : program dec initial_names [] small_prog small_text /\ straight_line small_prog /\ all_defined small_prog /\
  ordered (index (definitions small_prog)) small_prog /\ function_names small_prog = [txt "f"] /\
  option_map rq (execute qc_funs (fun _ => f0) (initially (fun _ => f0)
    (fun x => if text_dec x (txt "x") then qc 2 1 else qc 3 1) small_prog) small_prog (txt "f")) = Some (rq (qc 8 1)).
Proof.
  assert (S1 : straight_line small_prog).
  { split; [intros x [<-|[<-|[]]]; vm_compute; tauto|]. split; [intros []|]. split; [intros x [<-|[<-|[]]]; vm_compute; tauto|].
    split; [intros [H|[]]; discriminate H|exact I]. }
  split; [exact small_program|]. split; [exact S1|]. split; [|split; [exact (straight_ordered _ S1)|split; [reflexivity|vm_compute; reflexivity]]].
  intros f [<-|[]]. eexists. exists [(txt "s", TMul [(true, TSym (txt "x")); (true, TSym (txt "y"))])], []. split; [reflexivity|intros []].
Qed.

(** The parser does not ask for the definitions to make sense.  If one of the functions is not defined, or is defined in a
    circle, the text is accepted all the same, and following the definitions never comes to an end. *)
Theorem C90_circle : forall (F : fld) (flt special : text -> F) (place : text -> nat) (num : text -> option Z) (p : list stmt) (s : text)
  (C : list text) (f : text),
  program num initial_names [] p s -> circle p C -> In f C -> In f (function_names p) ->
  exists y, parse_system num s = Accepted y /\ forall n, functions_of flt special place n y = None.
Proof.
  intros F flt special place num p s C f H Hc Hf Hin. destruct (parse_program num p s H) as (y & Hy & Hd). exists y. split; [exact Hy|].
  intro n. unfold functions_of. apply (nodes_none _ _ _ f).
  - rewrite (functions_eq p y Hd). exact Hin.
  - exact (circle_none F flt special place p y C Hd (program_scoped _ _ _ _ _ H) Hc n f Hf).
Qed.
Print Assumptions C90_circle.

Theorem C90_circle_refuted : forall (F : fld) (flt special : text -> F) (place : text -> nat),
  (exists y, parse_system dec (txt "variable_group x; function f; f = f*x;") = Accepted y /\ forall n, functions_of flt special place n y = None) /\
  (exists y, parse_system dec (txt "variable_group x; function f, g; f = g; g = f;") = Accepted y /\ forall n, functions_of flt special place n y = None) /\
  (exists y, parse_system dec (txt "variable_group x; function f;") = Accepted y /\ forall n, functions_of flt special place n y = None).
Proof.
  intros F flt special place.
  assert (G : forall y p C f, describes p y -> scoped initial_names [] p -> circle p C -> In f C -> In f (functions y) ->
    forall n, functions_of flt special place n y = None).
  { intros y p C f Hd Hs Hc Hf Hin n. unfold functions_of. apply (nodes_none _ _ _ f); [exact Hin|].
    exact (circle_none F flt special place p y C Hd Hs Hc n f Hf). }
  assert (W : forall s y p C f, parse_system dec s = Accepted y -> describes p y -> scoped initial_names [] p -> circle p C -> In f C ->
    In f (functions y) -> exists y, parse_system dec s = Accepted y /\ forall n, functions_of flt special place n y = None).
  { intros s y p C f Hy Hd Hs Hc Hf Hin. exists y. split; [exact Hy|]. exact (G y p C f Hd Hs Hc Hf Hin). }
  split; [|split].
  - eapply (W _ _ circle_prog [txt "f"] (txt "f")); [vm_compute; reflexivity|repeat split|exact circle_scoped|exact circle_circle|left; reflexivity|left; reflexivity].
  - eapply (W _ _ mutual_prog [txt "f"; txt "g"] (txt "f")); [vm_compute; reflexivity|repeat split|exact mutual_scoped|exact mutual_circle|left; reflexivity|left; reflexivity].
  - eapply (W _ _ bare_prog [txt "f"] (txt "f")); [vm_compute; reflexivity|repeat split|exact bare_scoped|exact bare_circle|left; reflexivity|left; reflexivity].
Qed.
Print Assumptions C90_circle_refuted.

(** A definition does not give a name a value once and for all: what is used is the last one, also where the name was used
    before.  Carrying out f = 1; g = f; f = 2 gives g the value 1; the function g of the system has the value 2. *)
Theorem C90_redefined_refuted : forall (special : text -> QcF) (place : text -> nat) (fs : funs QcF) (flt : text -> QcF) (rho : env QcF),
  exists y es, parse_system dec (txt "function f, g; f = 1; g = f; f = 2;") = Accepted y /\
    (forall n, functions_of flt special place (S (S n)) y = Some es) /\ function_names redefined_prog = [txt "f"; txt "g"] /\
    describes redefined_prog y /\
    map (fun e => option_map rq (eval fs rho e)) es = [Some (rq (qc 2 1)); Some (rq (qc 2 1))] /\
    map (fun f => option_map rq (execute fs flt (initially special (fun x => rho (place x)) redefined_prog) redefined_prog f)) [txt "f"; txt "g"] =
      [Some (rq (qc 2 1)); Some (rq (qc 1 1))].
Proof.
  intros special place fs flt rho. eexists. exists [Handle (Num KInteger (fZ 2)); Handle (Handle (Num KInteger (fZ 2)))]. split; [vm_compute; reflexivity|]. split; [intro n; reflexivity|]. split; [reflexivity|].
  split; [repeat split|]. split; reflexivity.
Qed.
Print Assumptions C90_redefined_refuted.
