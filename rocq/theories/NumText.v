(** Multiprecision numbers as text.

    Models core/include/bertini2/io/generators.hpp:150-200 (Classic) and io/parsing/number_parsers.hpp:38-228 (classic),
    on top of the grammar of numbers (NumLit.v).

    The text of one real number is what the number's str() gives, which is Boost's; the theorems range over the forms of
    text it can have: decimal literals, with an exponent written with its sign (e+05, e-05), and nan, inf. The value of a
    text is the business of mpfr_float's constructor and left out: a number read is the text handed to that constructor
    and the number of digits asked for. *)
From Coq Require Import String Ascii List Arith Lia Bool.
From Verif Require Import Chars NumLit.
Import ListNotations.
Local Open Scope char_scope.

(** number_parsers.hpp:56-65: the digits the number is given, when the default precision is d; num_traits.hpp:136-140 *)
Definition lowest_multiple_precision : nat := 20.
Definition digits_for (d : nat) (v : text) : nat := Nat.max (length v) (Nat.max d lowest_multiple_precision).

(** number_parsers.hpp:42-68 the rule, with the skipper before it *)
Definition float_rule (d : nat) (s : text) : option ((text * nat) * text) :=
  match number_string (skip s) with
  | Some (v, r) => Some ((v, digits_for d v), r)
  | None => None
  end.

(** number_parsers.hpp:175-198 parse(first, last, mpfr_float&): phrase_parse skips what follows *)
Definition parse_real (d : nat) (s : text) : option (text * nat) :=
  match float_rule d s with
  | Some (x, r) => match skip r with [] => Some x | _ => None end
  | None => None
  end.

(** number_parsers.hpp:89-121, 204-226 parse(first, last, mpfr_complex&): the parts and the digits of the number *)
Definition parse_complex (d : nat) (s : text) : option (text * text * nat) :=
  match float_rule d s with
  | Some ((re, p), r) =>
      match float_rule d r with
      | Some ((im, q), r') => match skip r' with [] => Some (re, im, Nat.max p q) | _ => None end
      | None => None
      end
  | None => None
  end.

(** generators.hpp:150-185 *)
Definition generate_real (x : text) : text := x.
Definition generate_complex (re im : text) : text := (re ++ " " :: im)%list.

(** ** Proofs *)
Lemma number_exact_rest : forall m b e v r, sign m -> mantissa b -> exponent e v -> literal_end r ->
  number_string (m ++ b ++ e ++ r)%list = Some ((m ++ b ++ v)%list, r).
Proof.
  intros m b e v r Hm Hb He Hr. unfold number_string. destruct Hb as [d Hd|a c Ha Hc Hac].
  - rewrite (long_number_whole _ _ _ _ _ Hm Hd He Hr). apply integer_exact; assumption.
  - rewrite (long_number_exact _ _ _ _ _ Hm (pointed_intro _ _ Ha Hc Hac) He Hr). reflexivity.
Qed.

Lemma digit_not_space : forall c, is_digit c = true -> is_space c = false.
Proof. intros c H. apply alnum_not_space, digit_alnum, H. Qed.

Lemma decimal_start : forall m b r, sign m -> mantissa b -> starts is_space (m ++ b ++ r)%list = false.
Proof.
  intros m b r Hm Hb. destruct Hm; [|reflexivity]. cbn [app]. destruct Hb as [d [Hd Ha]|a c Ha Hc Hac].
  - destruct d as [|x d]; [congruence|]. inversion Ha; subst. apply digit_not_space. assumption.
  - destruct a as [|x a]; [reflexivity|]. inversion Ha; subst. apply digit_not_space. assumption.
Qed.

Lemma space_literal_end : forall w r, Forall (fun c => is_space c = true) w -> w <> [] \/ literal_end r -> literal_end (w ++ r)%list.
Proof.
  intros [|c w] r H [N|L]; try congruence; try exact L; inversion H as [|? ? Hc _]; subst; split; cbn.
  - destruct (is_alnum c) eqn:E; [|reflexivity]. apply alnum_not_space in E. congruence.
  - destruct (Ascii.eqb_spec "." c) as [<-|]; [discriminate Hc|reflexivity].
  - destruct (is_alnum c) eqn:E; [|reflexivity]. apply alnum_not_space in E. congruence.
  - destruct (Ascii.eqb_spec "." c) as [<-|]; [discriminate Hc|reflexivity].
Qed.

Lemma float_rule_exact : forall d w m b e v r, Forall (fun c => is_space c = true) w -> sign m -> mantissa b -> exponent e v ->
  literal_end r -> float_rule d (w ++ m ++ b ++ e ++ r)%list = Some (((m ++ b ++ v)%list, digits_for d (m ++ b ++ v)%list), r).
Proof.
  intros d w m b e v r Hw Hm Hb He Hr. unfold float_rule. rewrite skip_app by exact Hw.
  rewrite skip_start by (apply decimal_start; assumption). rewrite (number_exact_rest _ _ _ _ _ Hm Hb He Hr). reflexivity.
Qed.

(** reading back one number, with spaces around it *)
Lemma real_back : forall d w m b e v w', Forall (fun c => is_space c = true) w -> Forall (fun c => is_space c = true) w' ->
  sign m -> mantissa b -> exponent e v ->
  parse_real d (w ++ (m ++ b ++ e) ++ w')%list = Some ((m ++ b ++ v)%list, digits_for d (m ++ b ++ v)%list).
Proof.
  intros d w m b e v w' Hw Hw' Hm Hb He. unfold parse_real. rewrite <- !app_assoc.
  assert (L : literal_end w') by (rewrite <- (app_nil_r w'); apply space_literal_end; [exact Hw'|right; exact literal_end_nil]).
  rewrite (float_rule_exact d w m b e v w' Hw Hm Hb He L).
  rewrite (skip_nil w' Hw'). reflexivity.
Qed.

Lemma complex_back : forall d m b e v m' b' e' v', sign m -> mantissa b -> exponent e v -> sign m' -> mantissa b' -> exponent e' v' ->
  parse_complex d (generate_complex (m ++ b ++ e) (m' ++ b' ++ e'))%list =
  Some ((m ++ b ++ v)%list, (m' ++ b' ++ v')%list, Nat.max (digits_for d (m ++ b ++ v)%list) (digits_for d (m' ++ b' ++ v')%list)).
Proof.
  intros d m b e v m' b' e' v' Hm Hb He Hm' Hb' He'. unfold parse_complex, generate_complex.
  replace ((m ++ b ++ e) ++ " " :: m' ++ b' ++ e')%list with ([] ++ m ++ b ++ e ++ ([" "] ++ m' ++ b' ++ e' ++ []))%list
    by (rewrite app_nil_r, <- !app_assoc; reflexivity).
  rewrite (float_rule_exact d [] m b e v ([" "] ++ m' ++ b' ++ e' ++ [])%list); try assumption; [|constructor|split; reflexivity].
  rewrite (float_rule_exact d [" "] m' b' e' v' []); try assumption; [reflexivity|repeat constructor|exact literal_end_nil].
Qed.

(** a number with a plus sign in its exponent *)
Lemma plus_exponent : forall c r, c = "e" \/ c = "E" -> opt_exponent (c :: "+" :: r) = ([], (c :: "+" :: r)%list).
Proof. intros c r [->| ->]; reflexivity. Qed.

Lemma plus_rest : forall m b c r, sign m -> mantissa b -> c = "e" \/ c = "E" ->
  number_string (m ++ b ++ c :: "+" :: r)%list = Some ((m ++ b)%list, (c :: "+" :: r)%list).
Proof.
  intros m b c r Hm Hb Hc. set (t := (c :: "+" :: r)%list).
  assert (Sd : starts is_digit t = false) by (unfold t; destruct Hc as [->| ->]; reflexivity).
  assert (Sp : starts (Ascii.eqb ".") t = false) by (unfold t; destruct Hc as [->| ->]; reflexivity).
  assert (Oe : opt_exponent t = ([], t)) by (apply plus_exponent; exact Hc).
  unfold number_string. destruct Hb as [d Hd|a b Ha Hb Hab].
  - assert (Em : opt_minus (m ++ d ++ t)%list = (m, (d ++ t)%list)).
    { destruct Hm; [apply opt_minus_no, digit_not_minus, Hd|reflexivity]. }
    unfold long_number. rewrite Em. rewrite long_whole by assumption. unfold integer_string. rewrite Em.
    unfold no_point. rewrite opt_minus_no by (apply digit_not_minus, Hd). rewrite digits1_exact by assumption.
    rewrite Oe. rewrite app_nil_r. reflexivity.
  - assert (Hp : pointed (a ++ "." :: b)%list) by (constructor; assumption).
    assert (Em : opt_minus (m ++ (a ++ "." :: b) ++ t)%list = (m, ((a ++ "." :: b) ++ t)%list)).
    { destruct Hm; [apply opt_minus_no, pointed_not_minus, Hp|reflexivity]. }
    unfold long_number. rewrite Em. rewrite long_pointed by assumption. rewrite Oe, app_nil_r. reflexivity.
Qed.

Lemma plus_skip : forall c r, c = "e" \/ c = "E" -> skip (c :: "+" :: r)%list = (c :: "+" :: r)%list.
Proof. intros c r H. apply skip_start. destruct H as [->| ->]; reflexivity. Qed.

Lemma real_plus : forall d m b c r, sign m -> mantissa b -> c = "e" \/ c = "E" -> parse_real d (m ++ b ++ c :: "+" :: r)%list = None.
Proof.
  intros d m b c r Hm Hb Hc. unfold parse_real, float_rule. rewrite skip_start by (apply decimal_start; assumption).
  rewrite (plus_rest m b c r Hm Hb Hc). rewrite (plus_skip c r Hc). reflexivity.
Qed.

Lemma float_rule_plus : forall d c r, c = "e" \/ c = "E" -> float_rule d (c :: "+" :: r)%list = None.
Proof.
  intros d c r Hc. unfold float_rule. rewrite (plus_skip c r Hc). destruct Hc as [->| ->]; reflexivity.
Qed.

Lemma complex_plus_re : forall d m b c r im, sign m -> mantissa b -> c = "e" \/ c = "E" ->
  parse_complex d (generate_complex (m ++ b ++ c :: "+" :: r)%list im) = None.
Proof.
  intros d m b c r im Hm Hb Hc. unfold parse_complex, generate_complex. rewrite <- !app_assoc. cbn [app].
  unfold float_rule at 1. rewrite skip_start by (apply decimal_start; assumption). rewrite (plus_rest m b c _ Hm Hb Hc).
  rewrite (float_rule_plus d c _ Hc). reflexivity.
Qed.

Lemma complex_plus_im : forall d m b e v m' b' c r, sign m -> mantissa b -> exponent e v -> sign m' -> mantissa b' -> c = "e" \/ c = "E" ->
  parse_complex d (generate_complex (m ++ b ++ e) (m' ++ b' ++ c :: "+" :: r))%list = None.
Proof.
  intros d m b e v m' b' c r Hm Hb He Hm' Hb' Hc. unfold parse_complex, generate_complex.
  replace ((m ++ b ++ e) ++ " " :: m' ++ b' ++ c :: "+" :: r)%list with ([] ++ m ++ b ++ e ++ (" " :: m' ++ b' ++ c :: "+" :: r))%list
    by (rewrite <- !app_assoc; reflexivity).
  rewrite (float_rule_exact d [] m b e v); try assumption; [|constructor|split; reflexivity].
  unfold float_rule. change (" " :: m' ++ b' ++ c :: "+" :: r)%list with ([" "] ++ (m' ++ b' ++ c :: "+" :: r))%list.
  rewrite skip_app by (repeat constructor). rewrite skip_start by (apply decimal_start; assumption).
  rewrite (plus_rest m' b' c r Hm' Hb' Hc). rewrite (plus_skip c r Hc). reflexivity.
Qed.

(** what is read at all *)
Lemma real_some : forall d s v p, parse_real d s = Some (v, p) ->
  exists w l w', s = (w ++ l ++ w')%list /\ Forall (fun c => is_space c = true) w /\ Forall (fun c => is_space c = true) w' /\
    (decimal l \/ doubly_signed l) /\ p = digits_for d v /\ length v <= p.
Proof.
  intros d s v p H. unfold parse_real, float_rule in H. destruct (number_string (skip s)) as [[v' r]|] eqn:E; [|discriminate].
  destruct (skip r) as [|x q] eqn:Er; [|discriminate]. assert (v' = v /\ digits_for d v' = p) as [-> <-] by (split; congruence). clear H.
  destruct (number_some _ _ _ E) as [l [El Hl]]. destruct (skip_split s) as [w [Hw Es]].
  destruct (skip_split r) as [w' [Hw' Es']]. rewrite Er, app_nil_r in Es'. subst r.
  exists w, l, w'. split; [rewrite Es at 1; f_equal; exact El|]. split; [exact Hw|]. split; [exact Hw'|]. split; [exact Hl|].
  split; [reflexivity|]. unfold digits_for. lia.
Qed.
