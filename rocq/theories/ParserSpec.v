(** Specification of ordinary mathematical notation, independent of the grammar of the code.

    [usual names num lead lvl s t]: the text [s] is a way of writing the tree [t].  Sums are written with
    + and -, grouped from the left, of terms; terms with * and /, grouped from the left, of factors; a
    factor is an atom or an atom raised to a power; atoms are symbols, numbers, parenthesised expressions
    and functions applied to a parenthesised argument.  White space may stand before every token.  A
    minus sign in front of digits makes a negative number, which may be an operand of every operator
    except as the base of a power.  A minus sign in front of a whole expression which is one term negates
    that term.  With [lead = true] the term negated by a leading minus sign may also be the first of a
    sum, and may begin with a number: this is full ordinary notation.  [names] are the declared symbols,
    [num] the value of a string of digits. *)
From Coq Require Import String Ascii List Arith Lia Bool ZArith.
From Verif Require Import Base Chars NumLit Expr Parser.
Import ListNotations.
Local Open Scope char_scope.

Definition white (w : text) : Prop := Forall (fun c => is_space c = true) w.

(** the unary functions of the input language *)
Inductive function_name : fun_kind -> text -> Prop :=
| fn_sin : function_name KSin (txt "sin")
| fn_cos : function_name KCos (txt "cos")
| fn_tan : function_name KTan (txt "tan")
| fn_exp : function_name KExp (txt "exp")
| fn_log : function_name KLog (txt "log")
| fn_sqrt : function_name KSqrt (txt "sqrt").

Inductive level := Atom | NegativeNumber | Factor | Term | SumOf | Whole.

Section Usual.
  Variable names : list text.
  Variable num : text -> option Z.
  Variable lead : bool.

  Inductive usual : level -> text -> tree -> Prop :=
  | u_symbol : forall w nm, white w -> In nm names -> usual Atom (w ++ nm) (TSym nm)
  | u_integer : forall w d z, white w -> digit_string d -> num d = Some z -> usual Atom (w ++ d) (TInt z)
  | u_decimal : forall w b e v, white w -> pointed b -> exponent e v -> usual Atom (w ++ b ++ e) (TFloat (b ++ v))
  | u_paren : forall w s t w2, white w -> white w2 -> usual Whole s t ->
      usual Atom (w ++ "(" :: s ++ w2 ++ [")"]) t
  | u_function : forall w k f w1 s t w2, white w -> white w1 -> white w2 -> function_name k f -> usual Whole s t ->
      usual Atom (w ++ f ++ w1 ++ "(" :: s ++ w2 ++ [")"]) (TFun k t)
  | u_negative : forall w d z, white w -> digit_string d -> num ("-" :: d) = Some z ->
      usual NegativeNumber (w ++ "-" :: d) (TInt z)
  | u_factor : forall s t, usual Atom s t -> usual Factor s t
  | u_power : forall s t w s2 u, white w -> usual Atom s t -> usual Atom s2 u ->
      usual Factor (s ++ w ++ "^" :: s2) (TPow t u)
  | u_power_neg : forall s t w s2 u, white w -> usual Atom s t -> usual NegativeNumber s2 u ->
      usual Factor (s ++ w ++ "^" :: s2) (TPow t u)
  | u_factor_neg : forall s t, usual NegativeNumber s t -> usual Factor s t
  | u_term : forall s t, usual Factor s t -> usual Term s t
  | u_times : forall s t w s2 u, white w -> usual Term s t -> usual Factor s2 u ->
      usual Term (s ++ w ++ "*" :: s2) (TMul [(true, t); (true, u)])
  | u_divide : forall s t w s2 u, white w -> usual Term s t -> usual Factor s2 u ->
      usual Term (s ++ w ++ "/" :: s2) (TMul [(true, t); (false, u)])
  | u_sum : forall s t, usual Term s t -> usual SumOf s t
  | u_plus : forall s t w s2 u, white w -> usual SumOf s t -> usual Term s2 u ->
      usual SumOf (s ++ w ++ "+" :: s2) (TSum [(true, t); (true, u)])
  | u_minus : forall s t w s2 u, white w -> usual SumOf s t -> usual Term s2 u ->
      usual SumOf (s ++ w ++ "-" :: s2) (TSum [(true, t); (false, u)])
  | u_lead : forall w s t, lead = true -> white w -> usual Term s t -> usual SumOf (w ++ "-" :: s) (TNeg t)
  | u_whole : forall s t, usual SumOf s t -> usual Whole s t
  | u_negate : forall w s t, white w -> usual Term s t ->
      starts is_digit s = false -> starts (Ascii.eqb ".") s = false -> starts (Ascii.eqb "-") s = false ->
      usual Whole (w ++ "-" :: s) (TNeg t)
  | u_posit : forall w s t, white w -> usual SumOf s t -> usual Whole (w ++ "+" :: s) t.
End Usual.

(** two trees are the same function: equal values at all arguments, for every field, every meaning of
    the symbols and literals, and all elementary functions in which a whole power is the repeated
    product *)
Definition whole_powers {F : fld} (fs : funs F) : Prop :=
  forall (b : F) (z : Z), pw fs b (fZ z) = fpowZ b z.

Definition same_function (t u : tree) : Prop :=
  forall (F : fld) (sym : text -> expr F) (flt : text -> F) (fs : funs F) (rho : env F),
    whole_powers fs -> eval fs rho (meaning sym flt t) = eval fs rho (meaning sym flt u).

(** a symbol table as the system parser makes it: names start with a letter, consist of letters, digits,
    brackets and underscores, and none is the name of a function of the input language *)
Definition legal_names (names : list text) : Prop :=
  Forall (fun nm => starts is_alpha nm = true /\
                    Forall (fun c => is_alnum c = true \/ c = "[" \/ c = "]" \/ c = "_") nm /\
                    (forall k, ~ function_name k nm)) names.
