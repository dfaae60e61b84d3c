(** Concrete inputs for the expression grammar. *)
From Coq Require Import String Ascii List Arith Lia Bool ZArith DecimalString DecimalZ.
From Verif Require Import Base Chars NumLit Expr Parser ParserSpec ParserProof ParserReads PrinterProof.
Import ListNotations.
Local Open Scope char_scope.

(** decimal conversion of a string of digits with an optional sign; anything else throws *)
Definition dec (s : text) : option Z :=
  match NilZero.int_of_string (string_of_list_ascii s) with Some i => Some (Z.of_int i) | None => None end.

Lemma to_int_proper : forall z, Z.to_int z <> Decimal.Pos Decimal.Nil /\ Z.to_int z <> Decimal.Neg Decimal.Nil.
Proof.
  intros [|p|p]; cbn; (split; [|]); intro E; try discriminate;
    injection E as E; pose proof (DecimalPos.Unsigned.to_uint_nonnil p); contradiction.
Qed.

Lemma dec_print : forall z, dec (print_Z z) = Some z.
Proof.
  intro z. unfold dec, print_Z, txt. rewrite string_of_list_ascii_of_string.
  destruct (to_int_proper z) as [H1 H2]. rewrite NilZero.isi by assumption. f_equal. apply DecimalZ.of_to.
Qed.

Definition xy : list text := [txt "x"; txt "y"].

Lemma xy_legal : legal_names xy.
Proof.
  assert (A : forall c, c = "x" \/ c = "y" -> is_alnum c = true) by (intros c [->| ->]; reflexivity).
  constructor; [|constructor; [|constructor]]; (split; [reflexivity|split;
    [constructor; [left; apply A; auto|constructor]|intros k H; inversion H]]).
Qed.

Lemma qc_whole : whole_powers qc_funs.
Proof.
  intros b z. cbn [pw qc_funs]. unfold rat_pw. rewrite rat_as_int_fZ.
  destruct (Z.ltb_spec z 0) as [H|H]; [reflexivity|]. destruct z as [|p|p]; [reflexivity|reflexivity|lia].
Qed.

(** two trees with different values at x = 1, y = 2 in the rationals *)
Definition at12 (t : tree) : option QcF :=
  eval qc_funs (fun v => fZ (Z.of_nat (S v)))
    (meaning (fun s => if list_eq_dec ascii_dec s (txt "x") then Var 0 else Var 1) (fun _ => f0) t).

Definition same_at (a b : option QcF) : bool :=
  match a, b with Some x, Some y => feqb x y | None, None => true | _, _ => false end.

Lemma differ : forall t u, same_at (at12 t) (at12 u) = false -> ~ same_function t u.
Proof.
  intros t u H S. unfold at12 in H. rewrite (S QcF _ _ qc_funs _ qc_whole) in H. unfold same_at in H.
  destruct (eval _ _ _); [|discriminate]. unfold feqb in H. destruct (feq_dec _ _); congruence.
Qed.

(** -x+y in ordinary notation *)
Lemma minus_x_plus_y : usual xy dec true Whole (txt "-x+y")
  (TSum [(true, TNeg (TSym (txt "x"))); (true, TSym (txt "y"))]).
Proof.
  assert (Hx : usual xy dec true Term (txt "x") (TSym (txt "x"))).
  { apply u_term, u_factor. apply (u_symbol xy dec true [] (txt "x")); [constructor|cbn; tauto]. }
  assert (Hy : usual xy dec true Term (txt "y") (TSym (txt "y"))).
  { apply u_term, u_factor. apply (u_symbol xy dec true [] (txt "y")); [constructor|cbn; tauto]. }
  apply u_whole. apply (u_plus xy dec true (txt "-x") (TNeg (TSym (txt "x"))) [] (txt "y")); [constructor| |exact Hy].
  apply (u_lead xy dec true [] (txt "x")); [reflexivity|constructor|exact Hx].
Qed.

(** -2^2 in ordinary notation *)
Lemma digit2 : digit_string ["2"].
Proof. split; [discriminate|repeat constructor]. Qed.

Lemma minus_two_squared : usual xy dec true Whole (txt "-2^2") (TNeg (TPow (TInt 2) (TInt 2))).
Proof.
  assert (H2 : usual xy dec true Atom (txt "2") (TInt 2)).
  { apply (u_integer xy dec true [] ["2"]); [constructor|exact digit2|reflexivity]. }
  apply u_whole. apply (u_lead xy dec true [] (txt "2^2")); [reflexivity|constructor|]. apply u_term.
  apply (u_power xy dec true (txt "2") (TInt 2) [] (txt "2")); [constructor|exact H2|exact H2].
Qed.

(** 3 * (x - 2*y) ^ 2 / sin( x ) - 4 in ordinary notation without a leading minus sign *)
Definition long_text : text := txt "3 * (x - 2*y) ^ 2 / sin( x ) - 4".
Definition long_tree : tree :=
  TSum [(true, TMul [(true, TMul [(true, TInt 3);
     (true, TPow (TSum [(true, TSym (txt "x")); (false, TMul [(true, TInt 2); (true, TSym (txt "y"))])]) (TInt 2))]);
     (false, TFun KSin (TSym (txt "x")))]); (false, TInt 4)].

Lemma blank : white [" "].
Proof. repeat constructor. Qed.

Lemma long_usual : usual xy dec false Whole long_text long_tree.
Proof.
  assert (Sx : forall w, white w -> usual xy dec false Atom (w ++ txt "x") (TSym (txt "x"))).
  { intros w Hw. apply u_symbol; [exact Hw|cbn; tauto]. }
  assert (Sy : usual xy dec false Atom (txt "y") (TSym (txt "y"))).
  { apply (u_symbol xy dec false []); [constructor|cbn; tauto]. }
  assert (N : forall w c z, white w -> is_digit c = true -> dec [c] = Some z -> usual xy dec false Atom (w ++ [c]) (TInt z)).
  { intros w c z Hw Hc Hz. apply u_integer; [exact Hw|split; [discriminate|repeat constructor; exact Hc]|exact Hz]. }
  assert (Hin : usual xy dec false Whole (txt "x - 2*y")
    (TSum [(true, TSym (txt "x")); (false, TMul [(true, TInt 2); (true, TSym (txt "y"))])])).
  { apply u_whole. apply (u_minus xy dec false (txt "x") _ [" "] (txt " 2*y")); [exact blank| |].
    - apply u_sum, u_term, u_factor. apply (Sx []). constructor.
    - apply (u_times xy dec false (txt " 2") _ [] (txt "y")); [constructor| |].
      + apply u_term, u_factor. apply (N [" "]); [exact blank|reflexivity|reflexivity].
      + apply u_factor. exact Sy. }
  apply u_whole. apply (u_minus xy dec false (txt "3 * (x - 2*y) ^ 2 / sin( x )") _ [" "] (txt " 4")); [exact blank| |].
  - apply u_sum. apply (u_divide xy dec false (txt "3 * (x - 2*y) ^ 2") _ [" "] (txt " sin( x )")); [exact blank| |].
    + apply (u_times xy dec false (txt "3") _ [" "] (txt " (x - 2*y) ^ 2")); [exact blank| |].
      * apply u_term, u_factor. apply (N []); [constructor|reflexivity|reflexivity].
      * apply (u_power xy dec false (txt " (x - 2*y)") _ [" "] (txt " 2")); [exact blank| |].
        -- apply (u_paren xy dec false [" "] (txt "x - 2*y") _ []); [exact blank|constructor|exact Hin].
        -- apply (N [" "]); [exact blank|reflexivity|reflexivity].
    + apply u_factor. apply (u_function xy dec false [" "] KSin (txt "sin") [] (txt " x") _ [" "]);
        [exact blank|constructor|exact blank|constructor|].
      apply u_whole, u_sum, u_term, u_factor. apply (Sx [" "]). exact blank.
  - apply u_term, u_factor. apply (N [" "]); [exact blank|reflexivity|reflexivity].
Qed.

(** a tree the round trip covers: ((x^3)*2/(x-y)-5-(x+-(y))) *)
Definition round_tree : tree :=
  TSum [(false, TInt 5); (true, TMul [(true, TIPow (TSym (txt "x")) 3); (true, TInt 2);
      (false, TSum [(true, TSym (txt "x")); (false, TSym (txt "y"))])]);
      (false, TSum [(true, TSym (txt "x")); (true, TNeg (TSym (txt "y")))])].

Lemma round_readable : readable xy round_tree.
Proof.
  cbn. repeat split; (congruence || tauto || lia || discriminate || idtac).
Qed.

(** three atoms in a row with carets *)
Lemma power_chain : forall names num s1 t1 w1 s2 t2 w2 s3 t3, legal_names names ->
  usual names num false Atom s1 t1 -> white w1 -> usual names num false Atom s2 t2 -> white w2 ->
  usual names num false Atom s3 t3 ->
  parse names num (s1 ++ w1 ++ "^" :: s2 ++ w2 ++ "^" :: s3) = Parsed (TPow (TPow t1 t2) t3).
Proof.
  intros names num s1 t1 w1 s2 t2 w2 s3 t3 Hn H1 Hw1 H2 Hw2 H3.
  apply (usual_reads _ _ _ _ _ Hn) in H1, H2, H3. cbn [rl] in H1, H2, H3.
  replace (s1 ++ w1 ++ "^" :: s2 ++ w2 ++ "^" :: s3) with ((((s1 ++ w1 ++ "^" :: s2) ++ w2 ++ "^" :: s3)) ++ [])
    by (rewrite app_nil_r, <- !app_assoc; reflexivity).
  apply reads_parse; [apply legal_table, Hn| |constructor].
  apply r_whole, r_sum, r_term. apply r_power; [exact Hw2| |exact H3].
  apply r_power; [exact Hw1|apply r_atom; exact H1|exact H2].
Qed.

(** an expression which starts with a minus sign in front of anything but a number: everything that
    follows, up to the closing parenthesis, is negated *)
Lemma minus_takes_all : forall names num s t, legal_names names -> usual names num false SumOf s t ->
  starts is_digit s = false -> starts (Ascii.eqb ".") s = false -> starts (Ascii.eqb "-") s = false ->
  parse names num ("-" :: s) = Parsed (TNeg t).
Proof.
  intros names num s t Hn H Hd Hp Hm. rewrite <- (app_nil_r ("-" :: s)).
  apply reads_parse; [apply legal_table, Hn| |constructor]. apply r_whole_minus.
  apply (r_minus names num [] s t); [constructor| |apply r_whole; apply (usual_reads _ _ _ _ _ Hn H)].
  intro r. pose proof (usual_nonempty _ _ _ _ _ Hn H) as Hne. destruct s as [|c s]; [congruence|].
  cbn in Hd, Hp, Hm |- *. split; [exact Hd|]. split; [exact Hp|]. intro E. cbn. rewrite Ascii.eqb_sym in Hm. congruence.
Qed.
