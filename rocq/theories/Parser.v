(** The grammar for function expressions, and the text printed for function trees.

    Models core/include/bertini2/io/parsing/function_rules.hpp:150-263 (FunctionParser),
    function_parsers.hpp:44-66 (parse) and the print functions of core/src/function_tree/.

    A rule of Boost.Spirit applied to a text has one of five outcomes here: it matches and leaves a rest;
    it does not match, so that the next alternative is tried; an expectation (the operator >) fails, which
    is thrown as an exception and caught at the root rule (on_error<fail>), so that no alternative is
    tried; the conversion of a literal to a number throws, an exception nobody catches; the fuel of the
    model runs out (shown impossible in ParserProof.v).

    Simplifications: the Function node around the result (function_rules.hpp:165) is omitted, its value
    is that of the expression; the symbol table is constant while an expression is parsed, so the tree
    holds the names of symbols; the conversions from text to numbers are oracles. *)
From Coq Require Import String Ascii List Arith Lia Bool ZArith DecimalString.
From Verif Require Import Base Chars NumLit Expr.
Import ListNotations.
Local Open Scope char_scope.

(** nodes which the parser creates or which are printed *)
Inductive tree :=
| TInt (z : Z)                       (* symbols/number.hpp Integer *)
| TFloat (s : text)                  (* symbols/number.hpp Float, made from this literal *)
| TRat (n d : Z)                     (* symbols/number.hpp Rational with real part n/d *)
| TSym (s : text)                    (* a node of the symbol table: variable, function, constant *)
| TSum (ops : list (bool * tree))    (* operators/arithmetic.hpp SumOperator *)
| TMul (ops : list (bool * tree))    (* operators/arithmetic.hpp MultOperator *)
| TNeg (t : tree)
| TIPow (t : tree) (n : Z)           (* IntegerPowerOperator *)
| TPow (b e : tree)                  (* PowerOperator *)
| TFun (k : fun_kind) (t : tree).

Section TreeInd.
  Variable P : tree -> Prop.
  Hypothesis HInt : forall z, P (TInt z).
  Hypothesis HFloat : forall s, P (TFloat s).
  Hypothesis HRat : forall n d, P (TRat n d).
  Hypothesis HSym : forall s, P (TSym s).
  Hypothesis HSum : forall ops, Forall (fun p => P (snd p)) ops -> P (TSum ops).
  Hypothesis HMul : forall ops, Forall (fun p => P (snd p)) ops -> P (TMul ops).
  Hypothesis HNeg : forall t, P t -> P (TNeg t).
  Hypothesis HIPow : forall t n, P t -> P (TIPow t n).
  Hypothesis HPow : forall b e, P b -> P e -> P (TPow b e).
  Hypothesis HFun : forall k t, P t -> P (TFun k t).

  Fixpoint tree_rect' (t : tree) : P t :=
    let go := fix go (ops : list (bool * tree)) : Forall (fun p => P (snd p)) ops :=
        match ops with
        | [] => Forall_nil _
        | p :: r => Forall_cons p (tree_rect' (snd p)) (go r)
        end in
    match t with
    | TInt z => HInt z
    | TFloat s => HFloat s
    | TRat n d => HRat n d
    | TSym s => HSym s
    | TSum ops => HSum ops (go ops)
    | TMul ops => HMul ops (go ops)
    | TNeg t => HNeg t (tree_rect' t)
    | TIPow t n => HIPow t n (tree_rect' t)
    | TPow b e => HPow b e (tree_rect' b) (tree_rect' e)
    | TFun k t => HFun k t (tree_rect' t)
    end.
End TreeInd.

(** The function a tree stands for.  [sym] gives the node of each declared symbol, [flt] the value of a
    literal with a decimal point. *)
Section Meaning.
  Context {F : fld}.
  Local Open Scope fld_scope.
  Variable sym : text -> expr F.
  Variable flt : text -> F.

  Fixpoint meaning (t : tree) : expr F :=
    match t with
    | TInt z => Num KInteger (fZ z)
    | TFloat s => Num KFloat (flt s)
    | TRat n d => Num KRational (fZ n / fZ d)
    | TSym s => sym s
    | TSum ops => Sum (map (fun p => (fst p, meaning (snd p))) ops)
    | TMul ops => Mul (map (fun p => (fst p, meaning (snd p))) ops)
    | TNeg t => Neg (meaning t)
    | TIPow t n => IPow (meaning t) n
    | TPow b e => Pow (meaning b) (meaning e)
    | TFun k t => Fun k (meaning t)
    end.
End Meaning.

(** *** Parsing *)

Inductive out (A : Type) :=
| Match (a : A) (rest : text)
| NoMatch
| Expect                             (* qi::expectation_failure *)
| Convert                            (* exception of a number constructor *)
| Fuel.
Arguments Match {A}. Arguments NoMatch {A}. Arguments Expect {A}. Arguments Convert {A}. Arguments Fuel {A}.

Definition bind {A B} (o : out A) (f : A -> text -> out B) : out B :=
  match o with
  | Match a r => f a r
  | NoMatch => NoMatch
  | Expect => Expect
  | Convert => Convert
  | Fuel => Fuel
  end.

(** the right operand of the expectation operator > *)
Definition expect {A B} (o : out A) (f : A -> text -> out B) : out B :=
  match o with
  | NoMatch => Expect
  | _ => bind o f
  end.

(** > lit(c), with the skipper *)
Definition expect_char {B} (c : ascii) (s : text) (f : text -> out B) : out B :=
  match skip s with
  | d :: r => if Ascii.eqb d c then f r else Expect
  | [] => Expect
  end.

Section Grammar.
  (** encountered_symbols_ *)
  Variable names : list text.
  (** Integer(std::string), symbols/number.hpp:207; [None] when the conversion throws *)
  Variable ilit : text -> option Z.

  (** qi::symbols: the longest entry of the table which is a prefix of the text *)
  Fixpoint longest (l : list text) (s : text) : option (text * text) :=
    match l with
    | [] => None
    | nm :: l' =>
        match strip_prefix nm s, longest l' s with
        | Some r, Some (nm', r') => if Nat.ltb (length nm') (length nm) then Some (nm, r) else Some (nm', r')
        | Some r, None => Some (nm, r)
        | None, o => o
        end
    end.

  (** function_rules.hpp:236-239 number_ *)
  Definition p_number (s : text) : out tree :=
    match long_number s with
    | Some (v, r) => Match (TFloat v) r
    | None =>
        match integer_string s with
        | Some (v, r) => match ilit v with Some z => Match (TInt z) r | None => Convert end
        | None => NoMatch
        end
    end.

  (** function_rules.hpp:219-223 symbol_ *)
  Definition p_symbol (s : text) : out tree :=
    match longest names s with
    | Some (nm, r) => Match (TSym nm) r
    | None => p_number s
    end.

  (** function_rules.hpp:203-208: the keyword at the current position and the text after it *)
  Definition p_keyword (s : text) : option (fun_kind * text) :=
    match strip_prefix (txt "sin") s with Some r => Some (KSin, r) | None =>
    match strip_prefix (txt "cos") s with Some r => Some (KCos, r) | None =>
    match strip_prefix (txt "tan") s with Some r => Some (KTan, r) | None =>
    match strip_prefix (txt "exp") s with Some r => Some (KExp, r) | None =>
    match strip_prefix (txt "log") s with Some r => Some (KLog, r) | None =>
    match strip_prefix (txt "sqrt") s with Some r => Some (KSqrt, r) | None => None
    end end end end end end.

  (** function_rules.hpp:200-208: the alternatives of exp_elem_ after the first, at a position without
      leading white space; [pe] is expression_ *)
  Definition p_other (pe : text -> out tree) (s : text) : out tree :=
    match s with
    | [] => NoMatch
    | c :: r =>
        if Ascii.eqb c "(" then expect (pe r) (fun t r1 => expect_char ")" r1 (fun r2 => Match t r2))
        else if Ascii.eqb c "-" then expect (pe r) (fun t r1 => Match (TNeg t) r1)
        else if Ascii.eqb c "+" then expect (pe r) (fun t r1 => Match t r1)
        else match p_keyword s with
             | Some (k, r0) =>
                 expect_char "(" r0 (fun r1 =>
                   expect (pe r1) (fun t r2 => expect_char ")" r2 (fun r3 => Match (TFun k t) r3)))
             | None => NoMatch
             end
    end.

  (** function_rules.hpp:198-209 exp_elem_ *)
  Definition p_elem_with (pe : text -> out tree) (s0 : text) : out tree :=
    let s := skip s0 in
    match p_symbol s with
    | Match t r => if starts is_alnum (skip r) then p_other pe s else Match t r
    | NoMatch => p_other pe s
    | o => o
    end.

  (** the rules, with fuel.  The operators +=, -=, *=, /= on nodes and pow: operators/arithmetic.hpp
      1100-1105, 1175-1180, 1302-1328, 1345-1365, 1051-1054 (the parser makes no IntegerPowerOperator,
      hence *= never combines powers). *)
  Fixpoint p_expression (n : nat) (s : text) : out tree :=                (* function_rules.hpp:170-175 *)
    match n with
    | O => Fuel
    | S n => bind (p_term n s) (fun t r => expression_loop n t r)
    end
  with expression_loop (n : nat) (acc : tree) (s : text) : out tree :=
    match n with
    | O => Fuel
    | S n =>
        match skip s with
        | c :: r =>
            if Ascii.eqb c "+" then
              expect (p_term n r) (fun t r1 => expression_loop n (TSum [(true, acc); (true, t)]) r1)
            else if Ascii.eqb c "-" then
              expect (p_term n r) (fun t r1 => expression_loop n (TSum [(true, acc); (false, t)]) r1)
            else Match acc s
        | [] => Match acc s
        end
    end
  with p_term (n : nat) (s : text) : out tree :=                          (* function_rules.hpp:178-183 *)
    match n with
    | O => Fuel
    | S n => bind (p_factor n s) (fun t r => term_loop n t r)
    end
  with term_loop (n : nat) (acc : tree) (s : text) : out tree :=
    match n with
    | O => Fuel
    | S n =>
        match skip s with
        | c :: r =>
            if Ascii.eqb c "*" then
              expect (p_factor n r) (fun t r1 => term_loop n (TMul [(true, acc); (true, t)]) r1)
            else if Ascii.eqb c "/" then
              expect (p_factor n r) (fun t r1 => term_loop n (TMul [(true, acc); (false, t)]) r1)
            else Match acc s
        | [] => Match acc s
        end
    end
  with p_factor (n : nat) (s : text) : out tree :=                        (* function_rules.hpp:186-195 *)
    match n with
    | O => Fuel
    | S n => bind (p_elem n s) (fun t r => factor_loop n t r)
    end
  with factor_loop (n : nat) (acc : tree) (s : text) : out tree :=
    match n with
    | O => Fuel
    | S n =>
        match skip s with
        | c :: r =>
            if Ascii.eqb c "^" then
              expect (p_elem n r) (fun t r1 => factor_loop n (TPow acc t) r1)
            else Match acc s
        | [] => Match acc s
        end
    end
  with p_elem (n : nat) (s : text) : out tree :=
    match n with
    | O => Fuel
    | S n => p_elem_with (p_expression n) s
    end.

  Inductive parsed :=
  | Parsed (t : tree)
  | Failed                             (* parse returns false *)
  | Raised                             (* an exception leaves parse *)
  | Stuck.                             (* fuel *)

  Definition fuel_for (s : text) : nat := 6 * length s + 4.

  (** function_parsers.hpp:44-66 parse: a full match is required, white space at the end is skipped *)
  Definition parse (s : text) : parsed :=
    match p_expression (fuel_for s) s with
    | Match t r => match skip r with [] => Parsed t | _ :: _ => Failed end
    | NoMatch | Expect => Failed
    | Convert => Raised
    | Fuel => Stuck
    end.
End Grammar.

(** *** Printing *)

(** the decimal text of an integer (operator<< of boost::multiprecision::mpz_int and of int) *)
Definition print_Z (z : Z) : text := txt (NilZero.string_of_int (Z.to_int z)).

(** SinOperator::print etc., src/function_tree/operators/trig.cpp:55-60, 101-106, 147, 192, 239, 284 and
    arithmetic.cpp:1202-1207, 1284, 1360 *)
Definition print_fun (k : fun_kind) : text :=
  txt (match k with
       | KSqrt => "sqrt" | KExp => "exp" | KLog => "log" | KSin => "sin" | KCos => "cos" | KTan => "tan"
       | KAsin => "asin" | KAcos => "acos" | KAtan => "atan"
       end).

(** Node::print.  Float::print (number.cpp:97-100) is simplified to the literal the number was made
    from. *)
Fixpoint print (t : tree) : text :=
  match t with
  | TInt z => print_Z z                                                   (* number.cpp:62-65 *)
  | TFloat s => s
  | TRat n d => "(" :: print_Z n ++ "/" :: print_Z d ++ txt ",0)"         (* number.cpp:131-134 *)
  | TSym s => s                                                           (* symbol.cpp:58-61 *)
  | TSum ops =>                                                           (* arithmetic.cpp:167-188 *)
      "(" ::
      (match ops with
       | [] => []
       | (sg, t1) :: rest =>
           (if sg : bool then [] else ["-"]) ++ print t1 ++
           (fix go (l : list (bool * tree)) : text :=
              match l with
              | [] => []
              | (sg, u) :: r => (if sg : bool then "+" else "-") :: print u ++ go r
              end) rest
       end) ++ [")"]
  | TMul ops =>                                                           (* arithmetic.cpp:692-711 *)
      "(" ::
      (match ops with
       | [] => []
       | (m, t1) :: rest =>
           (if m : bool then [] else txt "1/") ++ print t1 ++
           (fix go (l : list (bool * tree)) : text :=
              match l with
              | [] => []
              | (m, u) :: r => (if m : bool then "*" else "/") :: print u ++ go r
              end) rest
       end) ++ [")"]
  | TNeg t => "-" :: "(" :: print t ++ [")"]                              (* arithmetic.cpp:467-472 *)
  | TIPow t n => "(" :: print t ++ "^" :: print_Z n ++ [")"]              (* arithmetic.cpp:1137-1142 *)
  | TPow b e => "(" :: print b ++ txt ")^(" ++ print e ++ [")"]           (* arithmetic.cpp:948-951 *)
  | TFun k t => print_fun k ++ "(" :: print t ++ [")"]
  end.
