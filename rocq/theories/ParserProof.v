(** Proofs about the expression grammar: the fuel suffices, more fuel does not change the outcome, and a
    description of texts the grammar reads as intended. *)
From Coq Require Import String Ascii List Arith Lia Bool ZArith DecimalString.
From Verif Require Import Base Chars NumLit Expr Parser.
Import ListNotations.
Local Open Scope char_scope.

Section Grammar.
  Variable names : list text.
  Variable ilit : text -> option Z.

  Local Notation p_expression := (p_expression names ilit).
  Local Notation expression_loop := (expression_loop names ilit).
  Local Notation p_term := (p_term names ilit).
  Local Notation term_loop := (term_loop names ilit).
  Local Notation p_factor := (p_factor names ilit).
  Local Notation factor_loop := (factor_loop names ilit).
  Local Notation p_elem := (p_elem names ilit).

  (** *** The fuel suffices *)

  Definition fine (L : nat) (o : out tree) : Prop :=
    match o with Fuel => False | Match _ r => length r <= L | _ => True end.

  Lemma fine_bind : forall L L' o f, fine L o -> (forall t r, length r <= L -> fine L' (f t r)) -> fine L' (bind o f).
  Proof. intros L L' [t r| | | |] f H Hf; cbn in *; auto. Qed.

  Lemma fine_expect : forall L L' o f, fine L o -> (forall t r, length r <= L -> fine L' (f t r)) -> fine L' (expect o f).
  Proof. intros L L' [t r| | | |] f H Hf; cbn in *; auto. Qed.

  Lemma fine_le : forall L L' o, L <= L' -> fine L o -> fine L' o.
  Proof. intros L L' [t r| | | |] H Ho; cbn in *; auto; lia. Qed.

  Lemma fine_char : forall L c s f, (forall r, length r < length s -> fine L (f r)) -> fine L (expect_char c s f).
  Proof.
    intros L c s f H. unfold expect_char. pose proof (skip_length s) as Hs.
    destruct (skip s) as [|d r]; [exact I|]. cbn in Hs. destruct (Ascii.eqb d c); [apply H; lia|exact I].
  Qed.

  Lemma span_length : forall p s a b, span p s = (a, b) -> length b <= length s.
  Proof. intros p s a b H. rewrite (span_app _ _ _ _ H), app_length. lia. Qed.

  Lemma number_length : forall s t r, p_number ilit s = Match t r -> length r <= length s.
  Proof.
    intros s t r H. unfold p_number in H. 
    assert (Hn : forall v r0, number_string s = Some (v, r0) -> length r0 <= length s).
    { intros v r0 E. destruct (number_some _ _ _ E) as (l & -> & _). rewrite app_length. lia. }
    unfold number_string in Hn. destruct (long_number s) as [[v r0]|].
    - injection H as _ <-. eapply Hn; reflexivity.
    - destruct (integer_string s) as [[v r0]|]; [|discriminate]. destruct (ilit v); [|discriminate].
      injection H as _ <-. eapply Hn; reflexivity.
  Qed.

  Lemma longest_spec : forall l s nm r, longest l s = Some (nm, r) -> In nm l /\ s = nm ++ r.
  Proof.
    induction l as [|a l IH]; intros s nm r H; cbn [longest] in H; [discriminate|].
    destruct (strip_prefix a s) as [r0|] eqn:Ea.
    - apply strip_prefix_some in Ea. destruct (longest l s) as [[nm' r']|] eqn:El.
      + destruct (Nat.ltb (length nm') (length a)).
        * injection H as <- <-. split; [left; reflexivity|exact Ea].
        * destruct (IH _ _ _ El) as [Hin E]. injection H as <- <-. split; [right; exact Hin|exact E].
      + injection H as <- <-. split; [left; reflexivity|exact Ea].
    - destruct (IH _ _ _ H) as [Hin E]. split; [right; exact Hin|exact E].
  Qed.

  Lemma symbol_fine : forall s, fine (length s) (p_symbol names ilit s).
  Proof.
    intro s. unfold p_symbol. destruct (longest names s) as [[nm r]|] eqn:El.
    - destruct (longest_spec _ _ _ _ El) as [_ ->]. cbn. rewrite app_length. lia.
    - pose proof (number_length s) as H. destruct (p_number ilit s) as [t r| | | |] eqn:E; cbn; auto.
      + eapply H; reflexivity.
      + unfold p_number in E. destruct (long_number s) as [[v r]|]; [discriminate|].
        destruct (integer_string s) as [[v r]|]; [|discriminate]. destruct (ilit v); discriminate.
  Qed.

  Lemma keyword_length : forall s k r, p_keyword s = Some (k, r) -> length r < length s.
  Proof.
    intros s k r H. unfold p_keyword in H.
    repeat match type of H with
    | (match strip_prefix ?p s with _ => _ end = _) =>
        let E := fresh "E" in destruct (strip_prefix p s) as [?|] eqn:E;
        [injection H as <- <-; apply strip_prefix_some in E; rewrite E, app_length; cbn; lia|]
    end. discriminate.
  Qed.

  Lemma other_fine : forall pe s, (forall r, length r < length s -> fine (length r) (pe r)) ->
    fine (length s) (p_other pe s).
  Proof.
    intros pe s H. unfold p_other. destruct s as [|c r]; [exact I|].
    destruct (Ascii.eqb c "("); [|destruct (Ascii.eqb c "-"); [|destruct (Ascii.eqb c "+")]].
    - eapply fine_expect; [apply H; cbn; lia|]. intros t r1 H1. apply fine_char. intros r2 H2. cbn. lia.
    - eapply fine_expect; [apply H; cbn; lia|]. intros t r1 H1. cbn. lia.
    - eapply fine_expect; [apply H; cbn; lia|]. intros t r1 H1. cbn. lia.
    - destruct (p_keyword (c :: r)) as [[k r0]|] eqn:Ek; [|exact I]. apply keyword_length in Ek.
      apply fine_char. intros r1 H1. eapply fine_expect; [apply H; lia|]. intros t r2 H2.
      apply fine_char. intros r3 H3. unfold fine. lia.
  Qed.

  Lemma elem_fine : forall pe s, (forall r, length r < length s -> fine (length r) (pe r)) ->
    fine (length s) (p_elem_with names ilit pe s).
  Proof.
    intros pe s H. unfold p_elem_with. pose proof (skip_length s) as Hs.
    assert (Ho : fine (length s) (p_other pe (skip s))).
    { eapply fine_le; [exact Hs|]. apply other_fine. intros r Hr. apply H. lia. }
    pose proof (symbol_fine (skip s)) as Hf. destruct (p_symbol names ilit (skip s)) as [t r| | | |]; auto.
    destruct (starts is_alnum (skip r)); [exact Ho|]. cbn in Hf |- *. lia.
  Qed.

  Lemma enough_fuel : forall n,
    (forall s, 6 * length s + 4 <= n -> fine (length s) (p_expression n s)) /\
    (forall s t, 6 * length s + 1 <= n -> fine (length s) (expression_loop n t s)) /\
    (forall s, 6 * length s + 3 <= n -> fine (length s) (p_term n s)) /\
    (forall s t, 6 * length s + 1 <= n -> fine (length s) (term_loop n t s)) /\
    (forall s, 6 * length s + 2 <= n -> fine (length s) (p_factor n s)) /\
    (forall s t, 6 * length s + 1 <= n -> fine (length s) (factor_loop n t s)) /\
    (forall s, 6 * length s + 1 <= n -> fine (length s) (p_elem n s)).
  Proof.
    induction n as [|n (Ie & Iel & It & Itl & If & Ifl & Ix)].
    { repeat split; intros; lia. }
    split; [|split; [|split; [|split; [|split; [|split]]]]].
    - intros s H. cbn [Parser.p_expression]. eapply fine_bind; [apply It; lia|]. intros t r Hr.
      eapply fine_le; [exact Hr|]. apply Iel. lia.
    - intros s t H. cbn [Parser.expression_loop]. pose proof (skip_length s) as Hs.
      destruct (skip s) as [|c r]; [cbn; lia|]. cbn in Hs.
      destruct (Ascii.eqb c "+"); [|destruct (Ascii.eqb c "-"); [|cbn; lia]];
        (eapply fine_expect; [apply It; lia|]; intros u r1 H1; eapply fine_le; [|apply Iel]; lia).
    - intros s H. cbn [Parser.p_term]. eapply fine_bind; [apply If; lia|]. intros t r Hr.
      eapply fine_le; [exact Hr|]. apply Itl. lia.
    - intros s t H. cbn [Parser.term_loop]. pose proof (skip_length s) as Hs.
      destruct (skip s) as [|c r]; [cbn; lia|]. cbn in Hs.
      destruct (Ascii.eqb c "*"); [|destruct (Ascii.eqb c "/"); [|cbn; lia]];
        (eapply fine_expect; [apply If; lia|]; intros u r1 H1; eapply fine_le; [|apply Itl]; lia).
    - intros s H. cbn [Parser.p_factor]. eapply fine_bind; [apply Ix; lia|]. intros t r Hr.
      eapply fine_le; [exact Hr|]. apply Ifl. lia.
    - intros s t H. cbn [Parser.factor_loop]. pose proof (skip_length s) as Hs.
      destruct (skip s) as [|c r]; [cbn; lia|]. cbn in Hs.
      destruct (Ascii.eqb c "^"); [|cbn; lia].
      eapply fine_expect; [apply Ix; lia|]; intros u r1 H1; eapply fine_le; [|apply Ifl]; lia.
    - intros s H. cbn [Parser.p_elem]. apply elem_fine. intros r Hr. apply Ie. lia.
  Qed.

  Lemma parse_not_stuck : forall s, parse names ilit s <> Stuck.
  Proof.
    intro s. unfold parse. destruct (enough_fuel (fuel_for s)) as (H & _).
    specialize (H s (Nat.le_refl _)). destruct (p_expression (fuel_for s) s) as [t r| | | |]; try discriminate.
    - destruct (skip r); discriminate.
    - destruct H.
  Qed.

  (** *** More fuel does not change the outcome *)

  Definition le_out (o1 o2 : out tree) : Prop := o1 = Fuel \/ o1 = o2.

  Lemma le_bind : forall o1 o2 f g, le_out o1 o2 -> (forall t r, le_out (f t r) (g t r)) ->
    le_out (bind o1 f) (bind o2 g).
  Proof.
    intros o1 o2 f g [->| ->] H; [left; reflexivity|]. destruct o2 as [t r| | | |]; cbn; try (right; reflexivity). apply H.
  Qed.

  Lemma le_expect : forall o1 o2 f g, le_out o1 o2 -> (forall t r, le_out (f t r) (g t r)) ->
    le_out (expect o1 f) (expect o2 g).
  Proof.
    intros o1 o2 f g [->| ->] H; [left; reflexivity|]. destruct o2 as [t r| | | |]; cbn; try (right; reflexivity). apply H.
  Qed.

  Lemma le_char : forall c s f g, (forall r, le_out (f r) (g r)) -> le_out (expect_char c s f) (expect_char c s g).
  Proof.
    intros c s f g H. unfold expect_char. destruct (skip s) as [|d r]; [right; reflexivity|].
    destruct (Ascii.eqb d c); [apply H|right; reflexivity].
  Qed.

  Lemma le_refl : forall o, le_out o o.
  Proof. intro o. right. reflexivity. Qed.

  Lemma le_other : forall pe pe' s, (forall r, le_out (pe r) (pe' r)) -> le_out (p_other pe s) (p_other pe' s).
  Proof.
    intros pe pe' s H. unfold p_other. destruct s as [|c r]; [apply le_refl|].
    destruct (Ascii.eqb c "("); [|destruct (Ascii.eqb c "-"); [|destruct (Ascii.eqb c "+")]].
    - apply le_expect; [apply H|]. intros. apply le_char. intros. apply le_refl.
    - apply le_expect; [apply H|]. intros. apply le_refl.
    - apply le_expect; [apply H|]. intros. apply le_refl.
    - destruct (p_keyword (c :: r)) as [[k r0]|]; [|apply le_refl]. apply le_char. intros r1.
      apply le_expect; [apply H|]. intros. apply le_char. intros. apply le_refl.
  Qed.

  Lemma le_elem : forall pe pe' s, (forall r, le_out (pe r) (pe' r)) ->
    le_out (p_elem_with names ilit pe s) (p_elem_with names ilit pe' s).
  Proof.
    intros pe pe' s H. unfold p_elem_with.
    destruct (p_symbol names ilit (skip s)) as [t r| | | |]; try apply le_refl.
    - destruct (starts is_alnum (skip r)); [apply le_other; exact H|apply le_refl].
    - apply le_other; exact H.
  Qed.

  Lemma fuel_step : forall n,
    (forall s, le_out (p_expression n s) (p_expression (S n) s)) /\
    (forall s t, le_out (expression_loop n t s) (expression_loop (S n) t s)) /\
    (forall s, le_out (p_term n s) (p_term (S n) s)) /\
    (forall s t, le_out (term_loop n t s) (term_loop (S n) t s)) /\
    (forall s, le_out (p_factor n s) (p_factor (S n) s)) /\
    (forall s t, le_out (factor_loop n t s) (factor_loop (S n) t s)) /\
    (forall s, le_out (p_elem n s) (p_elem (S n) s)).
  Proof.
    induction n as [|n (Ie & Iel & It & Itl & If & Ifl & Ix)].
    { split; [|split; [|split; [|split; [|split; [|split]]]]]; intros; left; reflexivity. }
    split; [|split; [|split; [|split; [|split; [|split]]]]].
    - intro s. change (le_out (bind (p_term n s) (expression_loop n)) (bind (p_term (S n) s) (expression_loop (S n)))).
      apply le_bind; [apply It|]. intros. apply Iel.
    - intros s t. cbn [Parser.expression_loop]. destruct (skip s) as [|c r]; [apply le_refl|].
      destruct (Ascii.eqb c "+"); [|destruct (Ascii.eqb c "-"); [|apply le_refl]];
        (apply le_expect; [apply It|]; intros; apply Iel).
    - intro s. change (le_out (bind (p_factor n s) (term_loop n)) (bind (p_factor (S n) s) (term_loop (S n)))).
      apply le_bind; [apply If|]. intros. apply Itl.
    - intros s t. cbn [Parser.term_loop]. destruct (skip s) as [|c r]; [apply le_refl|].
      destruct (Ascii.eqb c "*"); [|destruct (Ascii.eqb c "/"); [|apply le_refl]];
        (apply le_expect; [apply If|]; intros; apply Itl).
    - intro s. change (le_out (bind (p_elem n s) (factor_loop n)) (bind (p_elem (S n) s) (factor_loop (S n)))).
      apply le_bind; [apply Ix|]. intros. apply Ifl.
    - intros s t. cbn [Parser.factor_loop]. destruct (skip s) as [|c r]; [apply le_refl|].
      destruct (Ascii.eqb c "^"); [|apply le_refl].
      apply le_expect; [apply Ix|]; intros; apply Ifl.
    - intro s. change (le_out (p_elem_with names ilit (p_expression n) s) (p_elem_with names ilit (p_expression (S n)) s)).
      apply le_elem. apply Ie.
  Qed.

  (** the outcome of a rule with enough fuel *)
  Definition runs (f : nat -> text -> out tree) (s : text) (o : out tree) : Prop :=
    exists n0, forall n, n0 <= n -> f n s = o.

  Lemma expression_more : forall n k s, p_expression n s <> Fuel -> p_expression (k + n) s = p_expression n s.
  Proof.
    intros n k s H. induction k as [|k IH]; [reflexivity|].
    destruct (fuel_step (k + n)) as (Hs & _). destruct (Hs s) as [E|E].
    - rewrite IH in E. congruence.
    - change (S k + n) with (S (k + n)). rewrite <- E. exact IH.
  Qed.

  Lemma runs_parse : forall s t, runs p_expression s (Match t []) -> parse names ilit s = Parsed t.
  Proof.
    intros s t [n0 H]. unfold parse.
    assert (Hn : p_expression (fuel_for s) s <> Fuel).
    { destruct (enough_fuel (fuel_for s)) as (Hf & _). specialize (Hf s (Nat.le_refl _)).
      intro E. rewrite E in Hf. exact Hf. }
    rewrite <- (expression_more _ n0 s Hn). rewrite H by lia. reflexivity.
  Qed.

  (** trailing white space *)
  Lemma runs_parse_ws : forall s w t, Forall (fun c => is_space c = true) w ->
    runs p_expression s (Match t w) -> parse names ilit s = Parsed t.
  Proof.
    intros s w t Hw [n0 H]. unfold parse.
    assert (Hn : p_expression (fuel_for s) s <> Fuel).
    { destruct (enough_fuel (fuel_for s)) as (Hf & _). specialize (Hf s (Nat.le_refl _)).
      intro E. rewrite E in Hf. exact Hf. }
    rewrite <- (expression_more _ n0 s Hn). rewrite H by lia. rewrite skip_nil by exact Hw. reflexivity.
  Qed.

  Lemma runs_expression : forall s t r o, runs p_term s (Match t r) -> runs (fun n => expression_loop n t) r o ->
    runs p_expression s o.
  Proof.
    intros s t r o [n1 H1] [n2 H2]. exists (S (n1 + n2)). intros [|n] Hn; [lia|].
    cbn [Parser.p_expression]. rewrite H1 by lia. cbn [bind]. apply H2. lia.
  Qed.

  Lemma runs_term : forall s t r o, runs p_factor s (Match t r) -> runs (fun n => term_loop n t) r o ->
    runs p_term s o.
  Proof.
    intros s t r o [n1 H1] [n2 H2]. exists (S (n1 + n2)). intros [|n] Hn; [lia|].
    cbn [Parser.p_term]. rewrite H1 by lia. cbn [bind]. apply H2. lia.
  Qed.

  Lemma runs_factor : forall s t r o, runs p_elem s (Match t r) -> runs (fun n => factor_loop n t) r o ->
    runs p_factor s o.
  Proof.
    intros s t r o [n1 H1] [n2 H2]. exists (S (n1 + n2)). intros [|n] Hn; [lia|].
    cbn [Parser.p_factor]. rewrite H1 by lia. cbn [bind]. apply H2. lia.
  Qed.

  Definition white (w : text) : Prop := Forall (fun c => is_space c = true) w.

  (** an operator and its right operand *)
  Lemma runs_plus : forall w s t u r o, white w -> runs p_term s (Match u r) ->
    runs (fun n => expression_loop n (TSum [(true, t); (true, u)])) r o ->
    runs (fun n => expression_loop n t) (w ++ "+" :: s) o.
  Proof.
    intros w s t u r o Hw [n1 H1] [n2 H2]. exists (S (n1 + n2)). intros [|n] Hn; [lia|].
    cbn [Parser.expression_loop]. rewrite skip_app by exact Hw. cbn [skip].
    change (is_space "+") with false. cbv iota. rewrite Ascii.eqb_refl. rewrite H1 by lia. cbn [expect bind]. apply H2. lia.
  Qed.

  Lemma runs_minus : forall w s t u r o, white w -> runs p_term s (Match u r) ->
    runs (fun n => expression_loop n (TSum [(true, t); (false, u)])) r o ->
    runs (fun n => expression_loop n t) (w ++ "-" :: s) o.
  Proof.
    intros w s t u r o Hw [n1 H1] [n2 H2]. exists (S (n1 + n2)). intros [|n] Hn; [lia|].
    cbn [Parser.expression_loop]. rewrite skip_app by exact Hw. cbn [skip].
    change (is_space "-") with false. change (Ascii.eqb "-" "+") with false. cbv iota.
    rewrite Ascii.eqb_refl. rewrite H1 by lia. cbn [expect bind]. apply H2. lia.
  Qed.

  Lemma runs_times : forall w s t u r o, white w -> runs p_factor s (Match u r) ->
    runs (fun n => term_loop n (TMul [(true, t); (true, u)])) r o ->
    runs (fun n => term_loop n t) (w ++ "*" :: s) o.
  Proof.
    intros w s t u r o Hw [n1 H1] [n2 H2]. exists (S (n1 + n2)). intros [|n] Hn; [lia|].
    cbn [Parser.term_loop]. rewrite skip_app by exact Hw. cbn [skip].
    change (is_space "*") with false. cbv iota. rewrite Ascii.eqb_refl. rewrite H1 by lia. cbn [expect bind]. apply H2. lia.
  Qed.

  Lemma runs_divide : forall w s t u r o, white w -> runs p_factor s (Match u r) ->
    runs (fun n => term_loop n (TMul [(true, t); (false, u)])) r o ->
    runs (fun n => term_loop n t) (w ++ "/" :: s) o.
  Proof.
    intros w s t u r o Hw [n1 H1] [n2 H2]. exists (S (n1 + n2)). intros [|n] Hn; [lia|].
    cbn [Parser.term_loop]. rewrite skip_app by exact Hw. cbn [skip].
    change (is_space "/") with false. change (Ascii.eqb "/" "*") with false. cbv iota.
    rewrite Ascii.eqb_refl. rewrite H1 by lia. cbn [expect bind]. apply H2. lia.
  Qed.

  Lemma runs_caret : forall w s t u r o, white w -> runs p_elem s (Match u r) ->
    runs (fun n => factor_loop n (TPow t u)) r o ->
    runs (fun n => factor_loop n t) (w ++ "^" :: s) o.
  Proof.
    intros w s t u r o Hw [n1 H1] [n2 H2]. exists (S (n1 + n2)). intros [|n] Hn; [lia|].
    cbn [Parser.factor_loop]. rewrite skip_app by exact Hw. cbn [skip].
    change (is_space "^") with false. cbv iota. rewrite Ascii.eqb_refl. rewrite H1 by lia. cbn [expect bind]. apply H2. lia.
  Qed.

  (** the loops stop before any other character *)
  Definition not_in (cs : list ascii) (s : text) : Prop :=
    match skip s with c :: _ => ~ In c cs | [] => True end.

  Lemma eqb_not_in : forall c d cs, ~ In c cs -> In d cs -> Ascii.eqb c d = false.
  Proof. intros c d cs H Hd. destruct (Ascii.eqb_spec c d) as [->|]; [contradiction|reflexivity]. Qed.

  Lemma expression_stops : forall t r, not_in ["+"; "-"] r -> runs (fun n => expression_loop n t) r (Match t r).
  Proof.
    intros t r H. exists 1. intros [|n] Hn; [lia|]. cbn [Parser.expression_loop]. unfold not_in in H.
    destruct (skip r) as [|c r']; [reflexivity|].
    rewrite (eqb_not_in c "+" _ H) by (cbn; auto). rewrite (eqb_not_in c "-" _ H) by (cbn; auto). reflexivity.
  Qed.

  Lemma term_stops : forall t r, not_in ["*"; "/"] r -> runs (fun n => term_loop n t) r (Match t r).
  Proof.
    intros t r H. exists 1. intros [|n] Hn; [lia|]. cbn [Parser.term_loop]. unfold not_in in H.
    destruct (skip r) as [|c r']; [reflexivity|].
    rewrite (eqb_not_in c "*" _ H) by (cbn; auto). rewrite (eqb_not_in c "/" _ H) by (cbn; auto). reflexivity.
  Qed.

  Lemma factor_stops : forall t r, not_in ["^"] r -> runs (fun n => factor_loop n t) r (Match t r).
  Proof.
    intros t r H. exists 1. intros [|n] Hn; [lia|]. cbn [Parser.factor_loop]. unfold not_in in H.
    destruct (skip r) as [|c r']; [reflexivity|].
    rewrite (eqb_not_in c "^" _ H) by (cbn; auto). reflexivity.
  Qed.

  (** *** Elements *)

  (** characters of names: system_rules.hpp:234 *)
  Definition name_char (c : ascii) : bool :=
    is_alnum c || Ascii.eqb c "[" || Ascii.eqb c "]" || Ascii.eqb c "_".

  (** what may follow an element: not a name character, not a decimal point, and no letter or digit even
      after white space *)
  Definition boundary (r : text) : Prop :=
    starts name_char r = false /\ starts (Ascii.eqb ".") r = false /\ starts is_alnum (skip r) = false.

  Definition keywords : list text :=
    [txt "sin"; txt "cos"; txt "tan"; txt "exp"; txt "log"; txt "sqrt"].

  (** a usable symbol table: names start with a letter, consist of name characters, and none is the name
      of a function *)
  Definition table_ok : Prop :=
    Forall (fun nm => starts is_alpha nm = true /\ Forall (fun c => name_char c = true) nm /\ ~ In nm keywords) names.

  Lemma boundary_literal : forall r, boundary r -> literal_end r.
  Proof.
    intros [|c r] (H1 & H2 & _); [split; reflexivity|]. split; [|exact H2].
    cbn in H1 |- *. unfold name_char in H1. rewrite !orb_false_iff in H1. apply H1.
  Qed.

  Lemma longest_none : forall l s, Forall (fun nm => strip_prefix nm s = None) l -> longest l s = None.
  Proof.
    intros l s H. induction H as [|a l Ha _ IH]; cbn; [reflexivity|]. rewrite Ha. exact IH.
  Qed.

  Lemma longest_ge : forall l s nm r, In nm l -> strip_prefix nm s = Some r ->
    exists nm' r', longest l s = Some (nm', r') /\ length nm <= length nm'.
  Proof.
    induction l as [|a l IH]; intros s nm r Hin E; [destruct Hin|]. cbn [longest]. destruct Hin as [->|Hin].
    - rewrite E. destruct (longest l s) as [[nm' r']|].
      + destruct (Nat.ltb_spec (length nm') (length nm)); [exists nm, r|exists nm', r']; split; auto; lia.
      + exists nm, r. split; [reflexivity|lia].
    - destruct (IH s nm r Hin E) as (nm' & r' & El & Hl). rewrite El.
      destruct (strip_prefix a s) as [ra|].
      + destruct (Nat.ltb_spec (length nm') (length a)); [exists a, ra|exists nm', r']; split; auto; lia.
      + exists nm', r'. split; [reflexivity|exact Hl].
  Qed.

  Lemma app_prefix_longer : forall (a b : text) (p : ascii -> bool) r r', (a ++ r = b ++ r')%list ->
    length a <= length b -> Forall (fun c => p c = true) b -> starts p r = false -> a = b /\ r = r'.
  Proof.
    induction a as [|c a IH]; intros b p r r' E Hl Hb Hr.
    - cbn in E. destruct b as [|c b]; [split; [reflexivity|exact E]|]. subst r.
      inversion Hb as [|? ? Hc _]; subst. cbn in Hr. congruence.
    - destruct b as [|d b]; [cbn in Hl; lia|]. cbn in E. injection E as -> E. inversion Hb as [|? ? Hd Hb']; subst.
      cbn in Hl. destruct (IH b p r r' E ltac:(lia) Hb' Hr) as [-> ->]. split; reflexivity.
  Qed.

  Hypothesis Hnames : table_ok.

  Lemma longest_name : forall nm r, In nm names -> boundary r -> longest names (nm ++ r) = Some (nm, r).
  Proof.
    intros nm r Hin (Hb & _).
    destruct (longest_ge names (nm ++ r) nm r Hin (strip_prefix_app _ _)) as (nm' & r' & E & Hl).
    destruct (longest_spec _ _ _ _ E) as [Hin' E']. unfold table_ok in Hnames. rewrite Forall_forall in Hnames.
    destruct (app_prefix_longer nm nm' name_char r r' E' Hl) as [-> ->]; [apply (Hnames _ Hin')|exact Hb|exact E].
  Qed.

  Lemma name_starts : forall nm, In nm names -> exists c r, nm = c :: r /\ is_alpha c = true.
  Proof.
    intros nm H. unfold table_ok in Hnames. rewrite Forall_forall in Hnames. destruct (Hnames _ H) as (Hs & _).
    destruct nm as [|c r]; [discriminate|]. exists c, r. split; [reflexivity|exact Hs].
  Qed.

  (** nothing in the table starts with a character which is not a letter *)
  Lemma longest_nonalpha : forall s, starts is_alpha s = false -> longest names s = None.
  Proof.
    intros s H. apply longest_none. apply Forall_forall. intros nm Hin.
    destruct (strip_prefix nm s) as [r|] eqn:E; [|reflexivity]. apply strip_prefix_some in E.
    destruct (name_starts _ Hin) as (c & r' & -> & Hc). subst s. cbn in H. congruence.
  Qed.

  Lemma digit_not_alpha : forall c, is_digit c = true -> is_alpha c = false.
  Proof.
    intros c H. destruct (is_alpha c) eqn:E; [exfalso|reflexivity].
    destruct c as [b0 b1 b2 b3 b4 b5 b6 b7]; destruct b0, b1, b2, b3, b4, b5, b6, b7; vm_compute in H, E; discriminate.
  Qed.

  Lemma alpha_not_space : forall c, is_alpha c = true -> is_space c = false.
  Proof. intros c H. apply alnum_not_space. unfold is_alnum. rewrite H. reflexivity. Qed.

  Lemma digit_not_space : forall c, is_digit c = true -> is_space c = false.
  Proof. intros c H. apply alnum_not_space, digit_alnum, H. Qed.

  (** a symbol *)
  Lemma elem_symbol : forall w nm r, white w -> In nm names -> boundary r ->
    runs p_elem (w ++ nm ++ r) (Match (TSym nm) r).
  Proof.
    intros w nm r Hw Hin Hr. exists 1. intros [|n] Hn; [lia|]. cbn [Parser.p_elem]. unfold p_elem_with.
    rewrite skip_app by exact Hw.
    destruct (name_starts _ Hin) as (c & nm' & En & Hc).
    rewrite skip_start by (rewrite En; cbn; apply alpha_not_space; exact Hc).
    unfold p_symbol. rewrite longest_name by assumption. destruct Hr as (_ & _ & Hr). rewrite Hr. reflexivity.
  Qed.

  Lemma sign_digits_nonalpha : forall m d r, sign m -> digit_string d ->
    starts is_alpha (m ++ d ++ r)%list = false /\ starts is_space (m ++ d ++ r)%list = false.
  Proof.
    intros m d r Hm [Hd Ha]. destruct Hm; [|split; reflexivity]. destruct d as [|c d]; [congruence|].
    inversion Ha as [|? ? Hc _]; subst. cbn. split; [apply digit_not_alpha|apply digit_not_space]; exact Hc.
  Qed.

  (** a whole number, possibly negative *)
  Lemma elem_integer : forall w m d r z, white w -> sign m -> digit_string d -> ilit (m ++ d) = Some z -> boundary r ->
    runs p_elem (w ++ m ++ d ++ r) (Match (TInt z) r).
  Proof.
    intros w m d r z Hw Hm Hd Hz Hr. exists 1. intros [|n] Hn; [lia|]. cbn [Parser.p_elem]. unfold p_elem_with.
    rewrite skip_app by exact Hw. destruct (sign_digits_nonalpha m d r Hm Hd) as [Ha Hs].
    rewrite skip_start by exact Hs. unfold p_symbol. rewrite longest_nonalpha by exact Ha.
    unfold p_number.
    pose proof (long_number_whole m d [] [] r Hm Hd exp_none (boundary_literal _ Hr)) as El. cbn [app] in El. rewrite El.
    pose proof (integer_exact m d [] [] r Hm Hd exp_none (boundary_literal _ Hr)) as Ei. rewrite !app_nil_r in Ei.
    cbn [app] in Ei. rewrite Ei, Hz. destruct Hr as (_ & _ & Hr). rewrite Hr. reflexivity.
  Qed.

  (** a number with a decimal point *)
  Lemma elem_float : forall w m b e v r, white w -> sign m -> pointed b -> exponent e v -> boundary r ->
    runs p_elem (w ++ m ++ b ++ e ++ r) (Match (TFloat (m ++ b ++ v)) r).
  Proof.
    intros w m b e v r Hw Hm Hb He Hr. exists 1. intros [|n] Hn; [lia|]. cbn [Parser.p_elem]. unfold p_elem_with.
    rewrite skip_app by exact Hw.
    assert (Hs : starts is_alpha (m ++ b ++ e ++ r)%list = false /\ starts is_space (m ++ b ++ e ++ r)%list = false).
    { destruct Hm; [|split; reflexivity]. destruct Hb as [a c Ha Hc Hac]. destruct a as [|x a]; [split; reflexivity|].
      inversion Ha as [|? ? Hx _]; subst. cbn. split; [apply digit_not_alpha|apply digit_not_space]; exact Hx. }
    destruct Hs as [Ha Hs]. rewrite skip_start by exact Hs. unfold p_symbol. rewrite longest_nonalpha by exact Ha.
    unfold p_number. rewrite (long_number_exact _ _ _ _ _ Hm Hb He (boundary_literal _ Hr)).
    destruct Hr as (_ & _ & Hr). rewrite Hr. reflexivity.
  Qed.

  Lemma symbol_none : forall c r, is_alpha c = false -> is_digit c = false -> c <> "-" -> c <> "." ->
    p_symbol names ilit (c :: r) = NoMatch.
  Proof.
    intros c r Ha Hd Hm Hp. unfold p_symbol. rewrite longest_nonalpha by exact Ha. unfold p_number.
    assert (Eo : opt_minus (c :: r) = ([], c :: r)).
    { apply opt_minus_no. cbn. destruct (Ascii.eqb_spec "-" c); [congruence|reflexivity]. }
    assert (Ed : digits1 (c :: r) = None) by (unfold digits1; cbn; rewrite Hd; reflexivity).
    assert (Es : span is_digit (c :: r) = ([], c :: r)) by (apply span_none; exact Hd).
    assert (Ept : point (c :: r) = None).
    { apply point_none. cbn. destruct (Ascii.eqb_spec "." c); [congruence|reflexivity]. }
    unfold long_number. rewrite Eo. unfold digits_after_point. rewrite Es, Ept. unfold digits_before_point. rewrite Ed.
    unfold integer_string. rewrite Eo. unfold no_point. rewrite Eo, Ed. reflexivity.
  Qed.

  (** parentheses *)
  Lemma elem_paren : forall w s t w2 r, white w -> white w2 ->
    runs p_expression s (Match t (w2 ++ ")" :: r)) -> runs p_elem (w ++ "(" :: s) (Match t r).
  Proof.
    intros w s t w2 r Hw Hw2 [n0 H]. exists (S n0). intros [|n] Hn; [lia|]. cbn [Parser.p_elem]. unfold p_elem_with.
    rewrite skip_app by exact Hw. rewrite skip_start by reflexivity.
    rewrite symbol_none by (reflexivity || discriminate). cbn [p_other]. rewrite Ascii.eqb_refl. rewrite H by lia.
    cbn [expect bind]. unfold expect_char. rewrite skip_app by exact Hw2. cbn [skip]. change (is_space ")") with false.
    cbv iota. rewrite Ascii.eqb_refl. reflexivity.
  Qed.

  (** a minus sign which is not part of a literal *)
  Definition no_literal (s : text) : Prop :=
    starts is_digit s = false /\ starts (Ascii.eqb ".") s = false /\
    (match s with c :: r => Ascii.eqb c "-" = true -> starts is_digit r = false | [] => True end).

  Lemma symbol_minus : forall s, no_literal s -> p_symbol names ilit ("-" :: s) = NoMatch.
  Proof.
    intros s (Hd & Hp & Hm). unfold p_symbol. rewrite longest_nonalpha by reflexivity. unfold p_number.
    assert (Ed : digits1 s = None) by (unfold digits1; rewrite span_none by exact Hd; reflexivity).
    unfold long_number. cbn [opt_minus]. rewrite Ascii.eqb_refl. unfold digits_after_point. rewrite span_none by exact Hd.
    rewrite (point_none _ Hp). unfold digits_before_point. rewrite Ed.
    unfold integer_string. cbn [opt_minus]. rewrite Ascii.eqb_refl. unfold no_point.
    destruct s as [|c s]; [reflexivity|]. cbn [opt_minus]. destruct (Ascii.eqb c "-") eqn:Ec.
    - specialize (Hm eq_refl). unfold digits1. rewrite span_none by exact Hm. reflexivity.
    - rewrite Ed. reflexivity.
  Qed.

  Lemma elem_minus : forall w s t r, white w -> no_literal s ->
    runs p_expression s (Match t r) -> runs p_elem (w ++ "-" :: s) (Match (TNeg t) r).
  Proof.
    intros w s t r Hw Hs [n0 H]. exists (S n0). intros [|n] Hn; [lia|]. cbn [Parser.p_elem]. unfold p_elem_with.
    rewrite skip_app by exact Hw. rewrite skip_start by reflexivity. rewrite symbol_minus by exact Hs.
    cbn [p_other]. change (Ascii.eqb "-" "(") with false. cbv iota. rewrite Ascii.eqb_refl. rewrite H by lia. reflexivity.
  Qed.

  Lemma elem_plus : forall w s t r, white w ->
    runs p_expression s (Match t r) -> runs p_elem (w ++ "+" :: s) (Match t r).
  Proof.
    intros w s t r Hw [n0 H]. exists (S n0). intros [|n] Hn; [lia|]. cbn [Parser.p_elem]. unfold p_elem_with.
    rewrite skip_app by exact Hw. rewrite skip_start by reflexivity. rewrite symbol_none by (reflexivity || discriminate).
    cbn [p_other]. change (Ascii.eqb "+" "(") with false. change (Ascii.eqb "+" "-") with false.
    cbv iota. rewrite Ascii.eqb_refl. rewrite H by lia. reflexivity.
  Qed.

  (** the functions the grammar knows, with their keywords *)
  Definition keyword (k : fun_kind) : option text :=
    match k with
    | KSin => Some (txt "sin") | KCos => Some (txt "cos") | KTan => Some (txt "tan")
    | KExp => Some (txt "exp") | KLog => Some (txt "log") | KSqrt => Some (txt "sqrt")
    | KAsin | KAcos | KAtan => None
    end.

  Lemma keyword_in : forall k kw, keyword k = Some kw -> In kw keywords.
  Proof. intros [] kw H; cbn in H; try discriminate; injection H as <-; cbn; tauto. Qed.

  Lemma keyword_alpha : forall k kw, keyword k = Some kw -> Forall (fun c => is_alpha c = true) kw /\ kw <> [].
  Proof.
    intros [] kw H; cbn in H; try discriminate; injection H as <-;
      (split; [repeat constructor|discriminate]).
  Qed.

  Lemma keyword_reads : forall k kw r, keyword k = Some kw -> p_keyword (kw ++ r) = Some (k, r).
  Proof. intros [] kw r H; cbn in H; try discriminate; injection H as <-; reflexivity. Qed.

  (** a name of the table cannot match a keyword followed by a parenthesis or white space, except as a
      proper prefix *)
  Lemma symbol_keyword : forall k kw w r, keyword k = Some kw -> white w ->
    match p_symbol names ilit (kw ++ w ++ "(" :: r) with
    | Match _ r' => starts is_alnum (skip r') = true
    | NoMatch => True
    | _ => False
    end.
  Proof.
    intros k kw w r Hk Hw. unfold p_symbol. destruct (longest names (kw ++ w ++ "(" :: r)) as [[nm r']|] eqn:El.
    - destruct (longest_spec _ _ _ _ El) as [Hin E]. unfold table_ok in Hnames. rewrite Forall_forall in Hnames.
      destruct (Hnames _ Hin) as (_ & Hc & Hk'). destruct (keyword_alpha _ _ Hk) as [Hka Hkn].
      assert (Hst : starts name_char (w ++ "(" :: r) = false).
      { destruct Hw as [|c w Hcw _]; [reflexivity|]. cbn.
        destruct (name_char c) eqn:E'; [|reflexivity].
        destruct c as [b0 b1 b2 b3 b4 b5 b6 b7]; destruct b0, b1, b2, b3, b4, b5, b6, b7;
          vm_compute in Hcw, E'; discriminate. }
      destruct (Nat.le_gt_cases (length kw) (length nm)) as [Hl|Hl].
      + destruct (app_prefix_longer _ _ _ _ _ E Hl Hc Hst) as [-> _]. exfalso. apply Hk'. eapply keyword_in; exact Hk.
      + assert (Hsuf : exists c k', kw = nm ++ c :: k' /\ r' = (c :: k') ++ w ++ "(" :: r).
        { clear - E Hl. revert nm r' E Hl. induction kw as [|c kw IH]; intros nm r' E Hl; [cbn in Hl; lia|].
          destruct nm as [|d nm].
          - exists c, kw. split; [reflexivity|]. cbn in E. symmetry. exact E.
          - cbn in E. injection E as -> E. cbn in Hl. destruct (IH nm r' E ltac:(lia)) as (c' & k' & -> & ->).
            exists c', k'. split; reflexivity. }
        destruct Hsuf as (c & k' & -> & ->). apply Forall_app in Hka. destruct Hka as [_ Hka].
        inversion Hka as [|? ? Hca _]; subst. cbn. rewrite (alpha_not_space _ Hca). cbn. unfold is_alnum. rewrite Hca. reflexivity.
    - destruct kw as [|c kw]; [destruct (keyword_alpha _ _ Hk); congruence|].
      destruct (keyword_alpha _ _ Hk) as [Hka _]. inversion Hka as [|? ? Hca _]; subst.
      assert (Hn : p_number ilit ((c :: kw) ++ w ++ "(" :: r) = NoMatch).
      { assert (Hd : is_digit c = false) by (destruct (is_digit c) eqn:Ed; [rewrite (digit_not_alpha _ Ed) in Hca; discriminate|reflexivity]).
        assert (Hm : c <> "-") by (intros ->; discriminate Hca).
        assert (Hp : c <> ".") by (intros ->; discriminate Hca).
        cbn [app]. unfold p_number.
        assert (Eo : forall q, opt_minus (c :: q) = ([], c :: q)).
        { intro q. apply opt_minus_no. cbn. destruct (Ascii.eqb_spec "-" c); [congruence|reflexivity]. }
        assert (Ed : forall q, digits1 (c :: q) = None) by (intro q; unfold digits1; cbn; rewrite Hd; reflexivity).
        assert (Es : forall q, span is_digit (c :: q) = ([], c :: q)) by (intro q; apply span_none; exact Hd).
        assert (Ept : forall q, point (c :: q) = None).
        { intro q. apply point_none. cbn. destruct (Ascii.eqb_spec "." c); [congruence|reflexivity]. }
        unfold long_number. rewrite Eo. unfold digits_after_point. rewrite Es, Ept. unfold digits_before_point. rewrite Ed.
        unfold integer_string. rewrite Eo. unfold no_point. rewrite Eo, Ed. reflexivity. }
      rewrite Hn. exact I.
  Qed.

  Lemma elem_function : forall w k kw w1 s t w2 r, white w -> white w1 -> white w2 -> keyword k = Some kw ->
    runs p_expression s (Match t (w2 ++ ")" :: r)) ->
    runs p_elem (w ++ kw ++ w1 ++ "(" :: s) (Match (TFun k t) r).
  Proof.
    intros w k kw w1 s t w2 r Hw Hw1 Hw2 Hk [n0 H]. exists (S n0). intros [|n] Hn; [lia|].
    cbn [Parser.p_elem]. unfold p_elem_with. rewrite skip_app by exact Hw.
    destruct (keyword_alpha _ _ Hk) as [Hka Hkn].
    assert (Hss : skip (kw ++ w1 ++ "(" :: s) = kw ++ w1 ++ "(" :: s).
    { apply skip_start. destruct kw as [|c kw]; [congruence|]. inversion Hka; subst. cbn. apply alpha_not_space. assumption. }
    rewrite Hss. pose proof (symbol_keyword k kw w1 s Hk Hw1) as Hsy.
    assert (Ho : p_other (p_expression n) (kw ++ w1 ++ "(" :: s) = Match (TFun k t) r).
    { pose proof (keyword_reads k kw (w1 ++ "(" :: s) Hk) as Hkr.
      destruct kw as [|c kw]; [congruence|]. inversion Hka as [|? ? Hca _]; subst. cbn [app] in *. cbn [p_other].
      destruct (Ascii.eqb_spec c "(") as [->|]; [discriminate Hca|].
      destruct (Ascii.eqb_spec c "-") as [->|]; [discriminate Hca|].
      destruct (Ascii.eqb_spec c "+") as [->|]; [discriminate Hca|].
      rewrite Hkr. unfold expect_char. rewrite skip_app by exact Hw1. cbn [skip]. change (is_space "(") with false. cbv iota.
      rewrite Ascii.eqb_refl. rewrite H by lia. cbn [expect bind]. rewrite skip_app by exact Hw2. cbn [skip].
      change (is_space ")") with false. cbv iota. rewrite Ascii.eqb_refl. reflexivity. }
    destruct (p_symbol names ilit (kw ++ w1 ++ "(" :: s)) as [t' r'| | | |]; try contradiction.
    - rewrite Hsy. exact Ho.
    - exact Ho.
  Qed.
End Grammar.
