(** Numeric literals.

    Models core/include/bertini2/io/parsing/number_rules.hpp:80-161 (LongNum).  The rules are declared
    without a skipper, hence no white space is allowed inside a literal.  Each rule returns the text it
    produces (its attribute, in which E becomes e) and the rest of the input, or [None] for no match. *)
From Coq Require Import String Ascii List Arith Lia Bool.
From Verif Require Import Chars.
Import ListNotations.
Local Open Scope char_scope.

(** -(lit('-'))[_val += "-"]: the sign taken, and the rest *)
Definition opt_minus (s : text) : text * text :=
  match s with
  | c :: r => if Ascii.eqb c "-" then (["-"], r) else ([], s)
  | [] => ([], s)
  end.

(** +(char_('0','9')) *)
Definition digits1 (s : text) : option (text * text) :=
  match span is_digit s with
  | ([], _) => None
  | (d, r) => Some (d, r)
  end.

Definition point (s : text) : option text := strip_prefix ["."] s.

(** number_rules.hpp:107-115 number_with_digits_after_point_ *)
Definition digits_after_point (s : text) : option (text * text) :=
  let (a, r) := span is_digit s in
  match point r with
  | Some r1 => match digits1 r1 with Some (b, r2) => Some (a ++ "." :: b, r2)%list | None => None end
  | None => None
  end.

(** number_rules.hpp:121-129 number_with_digits_before_point_ *)
Definition digits_before_point (s : text) : option (text * text) :=
  match digits1 s with
  | Some (a, r) =>
      match point r with
      | Some r1 => let (b, r2) := span is_digit r1 in Some (a ++ "." :: b, r2)%list
      | None => None
      end
  | None => None
  end.

(** number_rules.hpp:132-138 number_with_no_point_ *)
Definition no_point (s : text) : option (text * text) :=
  let (m, r) := opt_minus s in
  match digits1 r with Some (d, r2) => Some (m ++ d, r2)%list | None => None end.

(** number_rules.hpp:143-155 exponent_notation_ *)
Definition exponent_notation (s : text) : option (text * text) :=
  match s with
  | c :: r =>
      if Ascii.eqb c "e" || Ascii.eqb c "E" then
        let (m, r1) := opt_minus r in
        match digits1 r1 with Some (d, r2) => Some ("e" :: m ++ d, r2)%list | None => None end
      else None
  | [] => None
  end.

(** -exponent_notation_ *)
Definition opt_exponent (s : text) : text * text :=
  match exponent_notation s with Some (e, r) => (e, r) | None => ([], s) end.

(** number_rules.hpp:93-103 long_number_string_ *)
Definition long_number (s : text) : option (text * text) :=
  let (m, r) := opt_minus s in
  match (match digits_after_point r with Some x => Some x | None => digits_before_point r end) with
  | Some (b, r1) => let (e, r2) := opt_exponent r1 in Some (m ++ b ++ e, r2)%list
  | None => None
  end.

(** number_rules.hpp:86-90 integer_string_ *)
Definition integer_string (s : text) : option (text * text) :=
  let (m, r) := opt_minus s in
  match no_point r with
  | Some (b, r1) => let (e, r2) := opt_exponent r1 in Some (m ++ b ++ e, r2)%list
  | None => None
  end.

(** number_rules.hpp:80-84 number_string_ *)
Definition number_string (s : text) : option (text * text) :=
  match long_number s with
  | Some x => Some x
  | None => integer_string s
  end.

(** number_rules.hpp:157-161 rational: the second alternative is tried only when the first fails, and it
    begins with the first *)
Definition rational (s : text) : option (text * text) :=
  match number_string s with
  | Some x => Some x
  | None =>
      match number_string s with
      | Some (a, r) =>
          match r with
          | c :: r1 => if Ascii.eqb c "/" then
                         match number_string r1 with Some (b, r2) => Some (a ++ "/" :: b, r2)%list | None => None end
                       else None
          | [] => None
          end
      | None => None
      end
  end.

(** the whole text is accepted *)
Definition accepts (rule : text -> option (text * text)) (s : text) : Prop :=
  exists v, rule s = Some (v, []).

(** *** Specification *)

Definition all_digits (d : text) : Prop := Forall (fun c => is_digit c = true) d.
Definition digit_string (d : text) : Prop := d <> [] /\ all_digits d.

(** digits with an optional decimal point, at least one digit *)
Inductive mantissa : text -> Prop :=
| mant_whole : forall d, digit_string d -> mantissa d
| mant_point : forall a b, all_digits a -> all_digits b -> (a <> [] \/ b <> []) ->
    mantissa (a ++ "." :: b)%list.

Inductive pointed : text -> Prop :=
| pointed_intro : forall a b, all_digits a -> all_digits b -> (a <> [] \/ b <> []) ->
    pointed (a ++ "." :: b)%list.

Inductive sign : text -> Prop :=
| sign_none : sign []
| sign_minus : sign ["-"].

Inductive exponent : text -> text -> Prop :=
| exp_none : exponent [] []
| exp_some : forall c m d, c = "e" \/ c = "E" -> sign m -> digit_string d ->
    exponent (c :: m ++ d)%list ("e" :: m ++ d)%list.

(** an ordinary decimal literal: sign, mantissa, exponent *)
Inductive decimal : text -> Prop :=
| decimal_intro : forall m b e e', sign m -> mantissa b -> exponent e e' -> decimal (m ++ b ++ e)%list.

(** a whole number with two signs in front *)
Inductive doubly_signed : text -> Prop :=
| doubly_intro : forall b e e', digit_string b -> exponent e e' ->
    doubly_signed ("-" :: "-" :: b ++ e)%list.

(** *** Proofs *)

Lemma digits1_exact : forall d r, digit_string d -> starts is_digit r = false -> digits1 (d ++ r)%list = Some (d, r).
Proof.
  intros d r [Hd Ha] Hr. unfold digits1. rewrite span_exact by assumption. destruct d; [congruence|reflexivity].
Qed.

Lemma digits1_some : forall s d r, digits1 s = Some (d, r) ->
  s = (d ++ r)%list /\ digit_string d /\ starts is_digit r = false.
Proof.
  intros s d r H. unfold digits1 in H. destruct (span is_digit s) as [a b] eqn:E.
  destruct a as [|c a]; [discriminate|]. injection H as <- <-. split; [apply (span_app _ _ _ _ E)|].
  split; [split; [discriminate|apply (span_all _ _ _ _ E)]|apply (span_stop _ _ _ _ E)].
Qed.

Lemma digits1_none : forall s, digits1 s = None -> starts is_digit s = false.
Proof.
  intros s H. unfold digits1 in H. destruct (span is_digit s) as [a b] eqn:E. destruct a; [|discriminate].
  pose proof (span_app _ _ _ _ E) as ->. cbn. exact (span_stop _ _ _ _ E).
Qed.

Lemma opt_minus_no : forall s, starts (Ascii.eqb "-") s = false -> opt_minus s = ([], s).
Proof.
  intros [|c r] H; [reflexivity|]. unfold starts in H. unfold opt_minus.
  destruct (Ascii.eqb_spec c "-") as [->|]; [discriminate H|reflexivity].
Qed.

Lemma opt_minus_spec : forall s m r, opt_minus s = (m, r) -> s = (m ++ r)%list /\ sign m.
Proof.
  intros [|c s] m r H; cbn in H.
  - injection H as <- <-. split; [reflexivity|constructor].
  - destruct (Ascii.eqb_spec c "-") as [->|]; injection H as <- <-; (split; [reflexivity|constructor]).
Qed.

Lemma digit_not_minus : forall d r, digit_string d -> starts (Ascii.eqb "-") (d ++ r)%list = false.
Proof.
  intros [|c d] r [Hd Ha]; [congruence|]. cbn. inversion Ha as [|? ? Hc _]; subst.
  destruct (Ascii.eqb_spec "-" c) as [<-|]; [discriminate Hc|reflexivity].
Qed.

Lemma exponent_spec : forall s v r, opt_exponent s = (v, r) ->
  exists e, s = (e ++ r)%list /\ exponent e v.
Proof.
  intros s v r H. unfold opt_exponent in H. destruct (exponent_notation s) as [[e r']|] eqn:E.
  - injection H as <- <-. unfold exponent_notation in E. destruct s as [|c s]; [discriminate|].
    destruct (Ascii.eqb c "e" || Ascii.eqb c "E") eqn:Ec; [|discriminate].
    destruct (opt_minus s) as [m r1] eqn:Em. destruct (digits1 r1) as [[d r2]|] eqn:Ed; [|discriminate].
    injection E as <- <-. destruct (opt_minus_spec _ _ _ Em) as [-> Hm].
    destruct (digits1_some _ _ _ Ed) as (-> & Hd & _).
    exists (c :: m ++ d)%list. split; [cbn; rewrite <- app_assoc; reflexivity|].
    constructor; [|exact Hm|exact Hd].
    apply orb_true_iff in Ec. destruct Ec as [Ec|Ec]; apply Ascii.eqb_eq in Ec; auto.
  - injection H as <- <-. exists []. split; [reflexivity|constructor].
Qed.

(** text which does not continue a literal *)
Definition literal_end (r : text) : Prop := starts is_alnum r = false /\ starts (Ascii.eqb ".") r = false.

Lemma literal_end_nil : literal_end [].
Proof. split; reflexivity. Qed.

Lemma literal_end_digit : forall r, literal_end r -> starts is_digit r = false.
Proof.
  intros [|c r] [H _]; [reflexivity|]. cbn in H |- *. unfold is_alnum in H. apply orb_false_iff in H. apply H.
Qed.

Lemma exponent_exact : forall e v r, exponent e v -> literal_end r -> opt_exponent (e ++ r)%list = (v, r).
Proof.
  intros e v r H Hr. destruct H as [|c m d Hc Hm Hd].
  - cbn [app]. unfold opt_exponent, exponent_notation. destruct r as [|c r]; [reflexivity|].
    destruct Hr as [Hr _]. cbn in Hr.
    destruct (Ascii.eqb_spec c "e") as [->|]; [discriminate Hr|].
    destruct (Ascii.eqb_spec c "E") as [->|]; [discriminate Hr|]. reflexivity.
  - cbn [app]. unfold opt_exponent, exponent_notation.
    replace (Ascii.eqb c "e" || Ascii.eqb c "E") with true
      by (destruct Hc; subst c; reflexivity).
    assert (Em : opt_minus ((m ++ d) ++ r)%list = (m, (d ++ r)%list)).
    { destruct Hm.
      - apply opt_minus_no. apply digit_not_minus; exact Hd.
      - reflexivity. }
    rewrite Em. rewrite digits1_exact by (assumption || apply literal_end_digit; assumption).
    reflexivity.
Qed.

Lemma exponent_start : forall e v r, exponent e v -> literal_end r ->
  starts is_digit (e ++ r)%list = false /\ starts (Ascii.eqb ".") (e ++ r)%list = false.
Proof.
  intros e v r [|c m d [->| ->] _ _] Hr; [|split; reflexivity|split; reflexivity].
  split; [apply literal_end_digit; exact Hr|apply Hr].
Qed.

Lemma point_none : forall r, starts (Ascii.eqb ".") r = false -> point r = None.
Proof. intros [|c r] H; [reflexivity|]. cbn in H |- *. rewrite H. reflexivity. Qed.

Lemma long_pointed : forall b e, pointed b -> starts is_digit e = false ->
  (match digits_after_point (b ++ e)%list with Some x => Some x | None => digits_before_point (b ++ e)%list end)
  = Some (b, e).
Proof.
  intros b e Hb Hs. destruct Hb as [a b Ha Hb Hab].
  assert (Hp : starts is_digit ("." :: b ++ e)%list = false) by reflexivity.
  rewrite <- app_assoc. change (("." :: b) ++ e)%list with ("." :: b ++ e)%list.
  unfold digits_after_point. rewrite span_exact by assumption.
  unfold point. cbn [strip_prefix]. rewrite Ascii.eqb_refl.
  destruct b as [|c b].
  - unfold digits1 at 1. rewrite span_exact by (constructor || assumption). cbn [app].
    unfold digits_before_point. rewrite digits1_exact.
    + unfold point. cbn [strip_prefix]. rewrite Ascii.eqb_refl. rewrite span_none by exact Hs. reflexivity.
    + split; [destruct Hab; congruence|exact Ha].
    + reflexivity.
  - rewrite digits1_exact; [reflexivity|split; [discriminate|exact Hb]|exact Hs].
Qed.

Lemma long_whole : forall d e, digit_string d -> starts is_digit e = false -> starts (Ascii.eqb ".") e = false ->
  (match digits_after_point (d ++ e)%list with Some x => Some x | None => digits_before_point (d ++ e)%list end) = None.
Proof.
  intros d e Hd Hs Hp.
  unfold digits_after_point. rewrite span_exact by (apply Hd || exact Hs).
  rewrite (point_none _ Hp). unfold digits_before_point. rewrite digits1_exact by assumption.
  rewrite (point_none _ Hp). reflexivity.
Qed.

Lemma pointed_not_minus : forall b r, pointed b -> starts (Ascii.eqb "-") (b ++ r)%list = false.
Proof.
  intros b r [a c Ha Hc H]. rewrite <- app_assoc. destruct a as [|x a]; [reflexivity|].
  apply digit_not_minus. split; [discriminate|exact Ha].
Qed.

(** what the rules make of a literal *)
Lemma long_number_exact : forall m b e v r, sign m -> pointed b -> exponent e v -> literal_end r ->
  long_number (m ++ b ++ e ++ r)%list = Some ((m ++ b ++ v)%list, r).
Proof.
  intros m b e v r Hm Hb He Hr. unfold long_number.
  assert (Em : opt_minus (m ++ b ++ e ++ r)%list = (m, (b ++ e ++ r)%list)).
  { destruct Hm; [apply opt_minus_no, pointed_not_minus, Hb|reflexivity]. }
  rewrite Em. rewrite long_pointed by (exact Hb || apply (exponent_start _ _ _ He Hr)).
  rewrite (exponent_exact _ _ _ He Hr). reflexivity.
Qed.

Lemma long_number_whole : forall m b e v r, sign m -> digit_string b -> exponent e v -> literal_end r ->
  long_number (m ++ b ++ e ++ r)%list = None.
Proof.
  intros m b e v r Hm Hb He Hr. unfold long_number.
  assert (Em : opt_minus (m ++ b ++ e ++ r)%list = (m, (b ++ e ++ r)%list)).
  { destruct Hm; [apply opt_minus_no, digit_not_minus, Hb|reflexivity]. }
  rewrite Em. rewrite long_whole by (exact Hb || apply (exponent_start _ _ _ He Hr)). reflexivity.
Qed.

Lemma integer_exact : forall m b e v r, sign m -> digit_string b -> exponent e v -> literal_end r ->
  integer_string (m ++ b ++ e ++ r)%list = Some ((m ++ b ++ v)%list, r).
Proof.
  intros m b e v r Hm Hb He Hr. unfold integer_string.
  assert (Em : opt_minus (m ++ b ++ e ++ r)%list = (m, (b ++ e ++ r)%list)).
  { destruct Hm; [apply opt_minus_no, digit_not_minus, Hb|reflexivity]. }
  rewrite Em. unfold no_point. rewrite opt_minus_no by (apply digit_not_minus, Hb).
  rewrite digits1_exact by (exact Hb || apply (exponent_start _ _ _ He Hr)). rewrite (exponent_exact _ _ _ He Hr).
  reflexivity.
Qed.

Lemma doubly_exact : forall b e v, digit_string b -> exponent e v ->
  number_string ("-" :: "-" :: b ++ e)%list = Some (("-" :: "-" :: b ++ v)%list, []).
Proof.
  intros b e v Hb He. unfold number_string.
  assert (El : long_number ("-" :: "-" :: b ++ e)%list = None) by reflexivity.
  rewrite El. unfold integer_string. cbn [opt_minus]. rewrite Ascii.eqb_refl.
  unfold no_point. cbn [opt_minus]. rewrite Ascii.eqb_refl.
  rewrite <- (app_nil_r e).
  rewrite digits1_exact by (exact Hb || apply (exponent_start _ _ _ He literal_end_nil)).
  rewrite (exponent_exact _ _ _ He literal_end_nil).
  reflexivity.
Qed.

Lemma number_exact : forall m b e v, sign m -> mantissa b -> exponent e v ->
  number_string (m ++ b ++ e)%list = Some ((m ++ b ++ v)%list, []).
Proof.
  intros m b e v Hm Hb He. rewrite <- (app_nil_r e). pose proof literal_end_nil as Hr.
  unfold number_string. destruct Hb as [d Hd|a c Ha Hc Hac].
  - rewrite (long_number_whole _ _ _ _ _ Hm Hd He Hr). apply integer_exact; assumption.
  - rewrite (long_number_exact _ _ _ _ _ Hm (pointed_intro _ _ Ha Hc Hac) He Hr). reflexivity.
Qed.

Lemma after_point_some : forall s b r, digits_after_point s = Some (b, r) -> s = (b ++ r)%list /\ pointed b.
Proof.
  intros s b r H. unfold digits_after_point in H. destruct (span is_digit s) as [a r0] eqn:E.
  destruct (point r0) as [r1|] eqn:Ep; [|discriminate]. destruct (digits1 r1) as [[d r2]|] eqn:Ed; [|discriminate].
  injection H as <- <-. pose proof (span_app _ _ _ _ E) as ->. apply strip_prefix_some in Ep. subst r0.
  destruct (digits1_some _ _ _ Ed) as (-> & [Hd Hda] & _). split.
  - rewrite <- !app_assoc. reflexivity.
  - constructor; [exact (span_all _ _ _ _ E)|exact Hda|right; exact Hd].
Qed.

Lemma before_point_some : forall s b r, digits_before_point s = Some (b, r) -> s = (b ++ r)%list /\ pointed b.
Proof.
  intros s b r H. unfold digits_before_point in H. destruct (digits1 s) as [[a r0]|] eqn:E; [|discriminate].
  destruct (point r0) as [r1|] eqn:Ep; [|discriminate]. destruct (span is_digit r1) as [d r2] eqn:Ed.
  injection H as <- <-. destruct (digits1_some _ _ _ E) as (-> & [Ha Haa] & _). apply strip_prefix_some in Ep. subst r0.
  pose proof (span_app _ _ _ _ Ed) as ->. split.
  - rewrite <- !app_assoc. reflexivity.
  - constructor; [exact Haa|exact (span_all _ _ _ _ Ed)|left; exact Ha].
Qed.

Lemma number_some : forall s v r, number_string s = Some (v, r) ->
  exists l, s = (l ++ r)%list /\ (decimal l \/ doubly_signed l).
Proof.
  intros s v r H. unfold number_string in H. destruct (long_number s) as [[v' r']|] eqn:El.
  - assert (E : v' = v /\ r' = r) by (split; congruence). destruct E; subst v' r'. clear H.
    unfold long_number in El. destruct (opt_minus s) as [m r0] eqn:Em.
    destruct (opt_minus_spec _ _ _ Em) as [-> Hm].
    destruct (match digits_after_point r0 with Some x => Some x | None => digits_before_point r0 end) as [[b r1]|] eqn:Eb;
      [|discriminate].
    assert (Hb : r0 = (b ++ r1)%list /\ pointed b).
    { destruct (digits_after_point r0) as [[b' r1']|] eqn:Ea.
      - apply after_point_some. congruence.
      - apply before_point_some. exact Eb. }
    destruct Hb as [-> Hb]. destruct (opt_exponent r1) as [e r2] eqn:Ee. injection El as _ <-.
    destruct (exponent_spec _ _ _ Ee) as (e0 & -> & He). exists (m ++ b ++ e0)%list.
    split; [rewrite <- !app_assoc; reflexivity|]. left. destruct Hb as [a c Ha Hc Hac].
    econstructor; [exact Hm|constructor 2; assumption|exact He].
  - unfold integer_string in H. destruct (opt_minus s) as [m r0] eqn:Em.
    destruct (opt_minus_spec _ _ _ Em) as [-> Hm]. unfold no_point in H.
    destruct (opt_minus r0) as [m2 r00] eqn:Em2. destruct (opt_minus_spec _ _ _ Em2) as [-> Hm2].
    destruct (digits1 r00) as [[d r1]|] eqn:Ed; [|discriminate].
    destruct (digits1_some _ _ _ Ed) as (-> & Hd & _). destruct (opt_exponent r1) as [e r2] eqn:Ee.
    injection H as _ <-. destruct (exponent_spec _ _ _ Ee) as (e0 & -> & He).
    destruct Hm2.
    + exists (m ++ d ++ e0)%list. split; [cbn; rewrite <- !app_assoc; reflexivity|]. left.
      econstructor; [exact Hm|constructor 1; exact Hd|exact He].
    + destruct Hm.
      * exists (["-"] ++ d ++ e0)%list. split; [cbn; rewrite <- !app_assoc; reflexivity|]. left.
        econstructor; [constructor|constructor 1; exact Hd|exact He].
      * exists ("-" :: "-" :: d ++ e0)%list. split; [cbn; rewrite <- !app_assoc; reflexivity|]. right.
        econstructor; eassumption.
Qed.

Lemma accepts_iff : forall s, accepts number_string s <-> decimal s \/ doubly_signed s.
Proof.
  intro s. split.
  - intros [v H]. destruct (number_some _ _ _ H) as (l & E & Hl). rewrite app_nil_r in E. subst l. exact Hl.
  - intros [[m b e e' Hm Hb He]|[b e e' Hb He]].
    + eexists. apply number_exact; eassumption.
    + eexists. apply doubly_exact; eassumption.
Qed.

(** the rational rule is the number rule *)
Lemma rational_is_number : forall s, rational s = number_string s.
Proof. intro s. unfold rational. destruct (number_string s) as [[v r]|]; reflexivity. Qed.
