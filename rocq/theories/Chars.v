(** Characters and the primitive recognisers of Boost.Spirit which the grammars of
    core/include/bertini2/io/parsing/ are built from.  Text is a list of ASCII characters; a position in
    the text is the remaining text. *)
From Coq Require Import String Ascii List Arith Lia Bool.
Import ListNotations.
Local Open Scope char_scope.

Definition text := list ascii.
Global Arguments Ascii.eqb : simpl never.

(** the characters of a string literal *)
Definition txt (s : string) : text := list_ascii_of_string s.

Definition between (lo hi : nat) (c : ascii) : bool := Nat.leb lo (nat_of_ascii c) && Nat.leb (nat_of_ascii c) hi.

(** boost::spirit::ascii::space, the skipper of the grammars: tab, newline, vertical tab, form feed,
    carriage return and blank *)
Definition is_space (c : ascii) : bool := between 9 13 c || Ascii.eqb c " ".
Definition is_digit (c : ascii) : bool := between 48 57 c.
(** qi::alpha *)
Definition is_alpha (c : ascii) : bool := between 65 90 c || between 97 122 c.
(** qi::alnum *)
Definition is_alnum (c : ascii) : bool := is_alpha c || is_digit c.

Global Arguments is_space : simpl never.
Global Arguments is_digit : simpl never.
Global Arguments is_alpha : simpl never.
Global Arguments is_alnum : simpl never.

(** the longest prefix of characters satisfying a test, and the rest: the Kleene star over a character
    class *)
Fixpoint span (p : ascii -> bool) (s : text) : text * text :=
  match s with
  | [] => ([], [])
  | c :: r => if p c then let (a, b) := span p r in (c :: a, b) else ([], s)
  end.

(** the skipper: drop leading white space *)
Fixpoint skip (s : text) : text :=
  match s with
  | c :: r => if is_space c then skip r else s
  | [] => []
  end.

(** a literal at the current position *)
Fixpoint strip_prefix (p s : text) : option text :=
  match p, s with
  | [], _ => Some s
  | a :: p', b :: s' => if Ascii.eqb a b then strip_prefix p' s' else None
  | _ :: _, [] => None
  end.

(** the text starts with a character satisfying the test *)
Definition starts (p : ascii -> bool) (s : text) : bool :=
  match s with c :: _ => p c | [] => false end.

Lemma span_app : forall p s a b, span p s = (a, b) -> s = a ++ b.
Proof.
  induction s as [|c r IH]; intros a b H; cbn in H.
  - injection H as <- <-. reflexivity.
  - destruct (p c).
    + destruct (span p r) as [a' b'] eqn:E. injection H as <- <-. cbn. f_equal. apply IH; reflexivity.
    + injection H as <- <-. reflexivity.
Qed.

Lemma span_all : forall p s a b, span p s = (a, b) -> Forall (fun c => p c = true) a.
Proof.
  induction s as [|c r IH]; intros a b H; cbn in H.
  - injection H as <- <-. constructor.
  - destruct (p c) eqn:Ep.
    + destruct (span p r) as [a' b'] eqn:E. injection H as <- <-. constructor; [exact Ep|].
      eapply IH; reflexivity.
    + injection H as <- <-. constructor.
Qed.

Lemma span_stop : forall p s a b, span p s = (a, b) -> starts p b = false.
Proof.
  induction s as [|c r IH]; intros a b H; cbn in H.
  - injection H as <- <-. reflexivity.
  - destruct (p c) eqn:Ep.
    + destruct (span p r) as [a' b'] eqn:E. injection H as <- <-. eapply IH; reflexivity.
    + injection H as <- <-. cbn. exact Ep.
Qed.

Lemma span_exact : forall p a b, Forall (fun c => p c = true) a -> starts p b = false ->
  span p (a ++ b) = (a, b).
Proof.
  intros p a b H Hb. induction H as [|c r Hc _ IH]; cbn.
  - destruct b as [|c b']; [reflexivity|]. cbn in Hb |- *. rewrite Hb. reflexivity.
  - rewrite Hc, IH. reflexivity.
Qed.

Lemma span_none : forall p b, starts p b = false -> span p b = ([], b).
Proof. intros p b H. apply (span_exact p [] b); [constructor|exact H]. Qed.

Lemma skip_length : forall s, length (skip s) <= length s.
Proof. induction s as [|c r IH]; cbn; [lia|]. destruct (is_space c); cbn; lia. Qed.

Lemma skip_idem : forall s, skip (skip s) = skip s.
Proof.
  induction s as [|c r IH]; cbn; [reflexivity|]. destruct (is_space c) eqn:E; [exact IH|]. cbn. rewrite E. reflexivity.
Qed.

Lemma skip_app : forall w s, Forall (fun c => is_space c = true) w -> skip (w ++ s) = skip s.
Proof. intros w s H. induction H as [|c r Hc _ IH]; cbn; [reflexivity|]. rewrite Hc. exact IH. Qed.

Lemma skip_nil : forall w, Forall (fun c => is_space c = true) w -> skip w = [].
Proof. intros w H. rewrite <- (app_nil_r w), skip_app by exact H. reflexivity. Qed.

Lemma skip_start : forall s, starts is_space s = false -> skip s = s.
Proof. intros [|c r] H; cbn in H |- *; [reflexivity|]. rewrite H. reflexivity. Qed.

Lemma skip_stop : forall s, starts is_space (skip s) = false.
Proof. induction s as [|c r IH]; cbn; [reflexivity|]. destruct (is_space c) eqn:E; [exact IH|]. cbn. exact E. Qed.

Lemma skip_split : forall s, exists w, Forall (fun c => is_space c = true) w /\ s = w ++ skip s.
Proof.
  induction s as [|c r IH]; cbn.
  - exists []. split; [constructor|reflexivity].
  - destruct (is_space c) eqn:E.
    + destruct IH as (w & Hw & Er). exists (c :: w). split; [constructor; assumption|]. cbn. f_equal. exact Er.
    + exists []. split; [constructor|reflexivity].
Qed.

Lemma strip_prefix_app : forall p s, strip_prefix p (p ++ s) = Some s.
Proof. induction p as [|a p IH]; intro s; cbn; [reflexivity|]. rewrite Ascii.eqb_refl. apply IH. Qed.

Lemma strip_prefix_some : forall p s r, strip_prefix p s = Some r -> s = p ++ r.
Proof.
  induction p as [|a p IH]; intros s r H; cbn in H.
  - injection H as ->. reflexivity.
  - destruct s as [|b s]; [discriminate|]. destruct (Ascii.eqb_spec a b) as [<-|]; [|discriminate].
    cbn. f_equal. apply IH. exact H.
Qed.

(** every digit is alphanumeric, nothing alphanumeric is white space *)
Lemma digit_alnum : forall c, is_digit c = true -> is_alnum c = true.
Proof. intros c H. unfold is_alnum. rewrite H. apply orb_true_r. Qed.

Lemma alnum_not_space : forall c, is_alnum c = true -> is_space c = false.
Proof.
  intros c H. destruct (is_space c) eqn:E; [exfalso|reflexivity].
  destruct c as [b0 b1 b2 b3 b4 b5 b6 b7]; destruct b0, b1, b2, b3, b4, b5, b6, b7;
    vm_compute in H, E; discriminate.
Qed.
