(** C44: parsing expressions and printing trees.  Ordinary notation is specified in ParserSpec.v. *)
From Coq Require Import String Ascii List Bool ZArith.
From Verif Require Import Base Chars NumLit Expr Parser ParserSpec ParserProof ParserReads PrinterProof ParserEx.
Import ListNotations.
Local Open Scope char_scope.

(** Every text gets a verdict: a tree, a failure or an exception from a number constructor. *)
Theorem C44_parse_total : forall (names : list text) (num : text -> option Z) (s : text),
  parse names num s <> Stuck.
Proof. exact parse_not_stuck. Qed.
Print Assumptions C44_parse_total.

(** Ordinary notation, except a minus sign in front of the first of several terms or in front of a number which is the
    base of a power, is parsed into the tree it denotes. *)
Theorem C44_usual_partial : forall (names : list text) (num : text -> option Z) (s : text) (t : tree) (w : text),
  legal_names names -> usual names num false Whole s t -> white w -> parse names num (s ++ w) = Parsed t.
Proof. exact usual_parse. Qed.
Print Assumptions C44_usual_partial.

Example C44_usual_case : legal_names xy /\ usual xy dec false Whole long_text long_tree.
Proof. split; [exact xy_legal|exact long_usual]. Qed.

(** A leading minus sign negates the whole sum which follows it, not its first term. *)
Theorem C44_minus_takes_all : forall (names : list text) (num : text -> option Z) (s : text) (t : tree),
  legal_names names -> usual names num false SumOf s t ->
  starts is_digit s = false -> starts (Ascii.eqb ".") s = false -> starts (Ascii.eqb "-") s = false ->
  parse names num ("-" :: s) = Parsed (TNeg t).
Proof. exact minus_takes_all. Qed.
Print Assumptions C44_minus_takes_all.

(** Hence full ordinary notation is not respected: -x+y is read as -(x+y). *)
Theorem C44_leading_minus_refuted : exists (names : list text) (num : text -> option Z) (s : text) (t u : tree),
  legal_names names /\ (forall z, num (print_Z z) = Some z) /\ usual names num true Whole s t /\
  parse names num s = Parsed u /\ ~ same_function u t.
Proof.
  exists xy, dec, (txt "-x+y"), (TSum [(true, TNeg (TSym (txt "x"))); (true, TSym (txt "y"))]),
    (TNeg (TSum [(true, TSym (txt "x")); (true, TSym (txt "y"))])).
  split; [exact xy_legal|]. split; [exact dec_print|]. split; [exact minus_x_plus_y|]. split; [vm_compute; reflexivity|].
  apply differ. vm_compute. reflexivity.
Qed.
Print Assumptions C44_leading_minus_refuted.

(** -2^2 is read as (-2)^2. *)
Theorem C44_negative_base_refuted : exists (names : list text) (num : text -> option Z) (s : text) (t u : tree),
  legal_names names /\ (forall z, num (print_Z z) = Some z) /\ usual names num true Whole s t /\
  parse names num s = Parsed u /\ ~ same_function u t.
Proof.
  exists xy, dec, (txt "-2^2"), (TNeg (TPow (TInt 2) (TInt 2))), (TPow (TInt (-2)) (TInt 2)).
  split; [exact xy_legal|]. split; [exact dec_print|]. split; [exact minus_two_squared|]. split; [vm_compute; reflexivity|].
  apply differ. vm_compute. reflexivity.
Qed.
Print Assumptions C44_negative_base_refuted.

(** A blank can change the meaning: -2+x and - 2+x are different functions. *)
Theorem C44_blank_refuted : exists t u : tree,
  parse xy dec (txt "-2+x") = Parsed t /\ parse xy dec (txt "- 2+x") = Parsed u /\ ~ same_function t u.
Proof.
  exists (TSum [(true, TInt (-2)); (true, TSym (txt "x"))]), (TNeg (TSum [(true, TInt 2); (true, TSym (txt "x"))])).
  split; [vm_compute; reflexivity|]. split; [vm_compute; reflexivity|]. apply differ. vm_compute. reflexivity.
Qed.
Print Assumptions C44_blank_refuted.

(** Powers of powers without parentheses are grouped from the left. *)
Theorem C44_power_chain : forall names num s1 t1 w1 s2 t2 w2 s3 t3, legal_names names ->
  usual names num false Atom s1 t1 -> white w1 -> usual names num false Atom s2 t2 -> white w2 ->
  usual names num false Atom s3 t3 ->
  parse names num (s1 ++ w1 ++ "^" :: s2 ++ w2 ++ "^" :: s3) = Parsed (TPow (TPow t1 t2) t3).
Proof. exact power_chain. Qed.
Print Assumptions C44_power_chain.

(** Parsing the text printed for a tree gives the same function.  [readable] asks that the tree has no Float, Rational
    or inverse trigonometric node and no empty sum or product, that a negation is only the last operand of its parent
    and not the base of an integer power, and that a subtracted first operand of a sum is its only one or a positive
    integer. *)
Theorem C44_print_parse_partial : forall (names : list text) (num : text -> option Z) (t : tree),
  legal_names names -> (forall z, num (print_Z z) = Some z) -> readable names t ->
  exists u, parse names num (print t) = Parsed u /\ same_function u t.
Proof. intros names num t Hn Hz. exact (print_parse names num Hn Hz t). Qed.
Print Assumptions C44_print_parse_partial.

Example C44_print_parse_case : legal_names xy /\ (forall z, dec (print_Z z) = Some z) /\ readable xy round_tree /\
  print round_tree = txt "(-5+((x^3)*2/(x-y))-(x+-(y)))".
Proof. split; [exact xy_legal|]. split; [exact dec_print|]. split; [exact round_readable|]. vm_compute. reflexivity. Qed.

(** The restrictions are needed: a negation before another operand, a subtracted first operand and a negation raised to
    an integer power come back as other functions; a rational number and an inverse sine are not read at all. *)
Theorem C44_print_parse_refuted :
  (exists u, parse xy dec (print (TSum [(true, TNeg (TSym (txt "x"))); (true, TSym (txt "y"))])) = Parsed u /\
     ~ same_function u (TSum [(true, TNeg (TSym (txt "x"))); (true, TSym (txt "y"))])) /\
  (exists u, parse xy dec (print (TSum [(false, TSym (txt "x")); (true, TSym (txt "y"))])) = Parsed u /\
     ~ same_function u (TSum [(false, TSym (txt "x")); (true, TSym (txt "y"))])) /\
  (exists u, parse xy dec (print (TIPow (TNeg (TSym (txt "x"))) 2)) = Parsed u /\
     ~ same_function u (TIPow (TNeg (TSym (txt "x"))) 2)) /\
  parse xy dec (print (TRat 1 2)) = Failed /\
  parse xy dec (print (TFun KAsin (TSym (txt "x")))) = Failed.
Proof.
  split; [|split; [|split; [|split; vm_compute; reflexivity]]].
  - exists (TNeg (TSum [(true, TSym (txt "x")); (true, TSym (txt "y"))])). split; [vm_compute; reflexivity|].
    apply differ. vm_compute. reflexivity.
  - exists (TNeg (TSum [(true, TSym (txt "x")); (true, TSym (txt "y"))])). split; [vm_compute; reflexivity|].
    apply differ. vm_compute. reflexivity.
  - exists (TNeg (TPow (TSym (txt "x")) (TInt 2))). split; [vm_compute; reflexivity|].
    apply differ. vm_compute. reflexivity.
Qed.
Print Assumptions C44_print_parse_refuted.
