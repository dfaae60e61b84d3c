(** Declaring names.

    Models core/include/bertini2/io/parsing/system_rules.hpp:97-106 (keywords), 125-133 (symbols known from
    the start), 172-191 (declarations, genericvargp_, new_variable_), 216-225 (unencountered_symbol_,
    valid_variable_name_) and 348-363 (the symbol table grows when a name is read).  new_function_ is the
    same rule with another node.  The difference [a - b] of Boost.Spirit fails when [b] matches at the
    current position, whatever the length of the match; qi::symbols matches a prefix. *)
From Coq Require Import String Ascii List Arith Lia Bool.
From Verif Require Import Chars Parser ParserProof.
Import ListNotations.
Local Open Scope char_scope.

(** system_rules.hpp:97-106 declarative_symbols_ *)
Definition declarative : list text :=
  [txt "variable_group"; txt "hom_variable_group"; txt "variable"; txt "function"; txt "constant";
   txt "parameter"; txt "implicit_parameter"; txt "pathvariable"; txt "random"; txt "random_real"].

(** system_rules.hpp:125-133 encountered_symbols_ of a new parser *)
Definition initial_names : list text := [txt "pi"; txt "Pi"; txt "e"; txt "E"; txt "i"; txt "I"].

(** system_rules.hpp:225 valid_variable_name_: +alpha >> *(alnum | char_("[]_")) *)
Definition valid_name (s : text) : option (text * text) :=
  match span is_alpha s with
  | ([], _) => None
  | (a, r) => let (b, r2) := span name_char r in Some (a ++ b, r2)
  end.

(** system_rules.hpp:217 unencountered_symbol_ *)
Definition fresh_name (names : list text) (s : text) : option (text * text) :=
  match longest declarative s, longest names s with
  | None, None => valid_name s
  | _, _ => None
  end.

(** system_rules.hpp:188-191 new_variable_: declared without a skipper, so white space is skipped before it;
    the name is added to the table (lines 359-363) *)
Definition new_name (names : list text) (s : text) : option (text * list text * text) :=
  match fresh_name names (skip s) with
  | Some (nm, r) => Some (nm, nm :: names, r)
  | None => None
  end.

(** system_rules.hpp:185 genericvargp_ = new_variable_ % ',': the names read, the table after it, the
    rest.  A comma which no new name follows is not consumed. *)
Fixpoint more_names (n : nat) (names : list text) (s : text) : list text * list text * text :=
  match n with
  | O => ([], names, s)
  | S n =>
      match skip s with
      | c :: r =>
          if Ascii.eqb c "," then
            match new_name names r with
            | Some (nm, names', r') => let '(l, tab, r2) := more_names n names' r' in (nm :: l, tab, r2)
            | None => ([], names, s)
            end
          else ([], names, s)
      | [] => ([], names, s)
      end
  end.

Definition name_list (names : list text) (s : text) : option (list text * list text * text) :=
  match new_name names s with
  | Some (nm, names', r) => let '(l, tab, r2) := more_names (length s) names' r in Some (nm :: l, tab, r2)
  | None => None
  end.

(** system_rules.hpp:172-175: the declaration after its keyword, > genericvargp_ > ';' *)
Definition declaration (names : list text) (s : text) : option (list text * list text * text) :=
  match name_list names s with
  | Some (l, tab, r) =>
      match skip r with
      | c :: r2 => if Ascii.eqb c ";" then Some (l, tab, r2) else None
      | [] => None
      end
  | None => None
  end.

(** *** Specification *)

(** a legal identifier: a letter, then letters, digits, brackets and underscores *)
Definition identifier (nm : text) : Prop :=
  exists c r, nm = c :: r /\ is_alpha c = true /\
    Forall (fun d => is_alnum d = true \/ d = "[" \/ d = "]" \/ d = "_") r.

Definition prefix (p s : text) : Prop := exists r, s = p ++ r.

(** what ends an identifier *)
Definition ends_name (r : text) : Prop :=
  match r with [] => True | c :: _ => ~ (is_alnum c = true \/ c = "[" \/ c = "]" \/ c = "_") end.

(** *** Proofs *)

Lemma name_char_spec : forall c, name_char c = true <-> (is_alnum c = true \/ c = "[" \/ c = "]" \/ c = "_").
Proof.
  intro c. unfold name_char. rewrite !orb_true_iff, !Ascii.eqb_eq. tauto.
Qed.

Lemma ends_name_spec : forall r, ends_name r <-> starts name_char r = false.
Proof.
  intros [|c r]; cbn; [tauto|]. rewrite <- name_char_spec. destruct (name_char c); split; intro H; congruence || tauto.
Qed.

Lemma identifier_chars : forall nm, identifier nm -> Forall (fun c => name_char c = true) nm.
Proof.
  intros nm (c & r & -> & Hc & Hr). constructor.
  - apply name_char_spec. left. unfold is_alnum. rewrite Hc. reflexivity.
  - eapply Forall_impl; [|exact Hr]. intros d Hd. apply name_char_spec, Hd.
Qed.

Lemma valid_name_exact : forall nm r, identifier nm -> ends_name r -> valid_name (nm ++ r) = Some (nm, r).
Proof.
  intros nm r H Hr. pose proof (identifier_chars _ H) as Hall. destruct H as (c & q & -> & Hc & Hq).
  apply ends_name_spec in Hr. unfold valid_name.
  destruct (span is_alpha ((c :: q) ++ r)) as [a b] eqn:E. pose proof (span_app _ _ _ _ E) as Eab.
  pose proof (span_all _ _ _ _ E) as Ha. pose proof (span_stop _ _ _ _ E) as Hb.
  destruct a as [|x a]. { cbn in E. rewrite Hc in E. destruct (span is_alpha (q ++ r)). discriminate. }
  assert (Hpre : exists b1, c :: q = (x :: a) ++ b1 /\ b = b1 ++ r).
  { clear - Eab Ha Hall Hr. revert Eab Ha Hall. generalize (x :: a) as p. generalize (c :: q) as nm. clear - Hr.
    induction nm as [|y nm IH]; intros p E Hp Hn.
    - destruct p as [|z p].
      + exists []. split; [reflexivity|]. cbn in E |- *. congruence.
      + exfalso. cbn in E. subst r. cbn in Hr. inversion Hp as [|? ? Hz _]; subst. unfold name_char, is_alnum in Hr.
        rewrite Hz in Hr. discriminate.
    - destruct p as [|z p].
      + exists (y :: nm). split; [reflexivity|]. cbn in E |- *. congruence.
      + cbn in E. injection E as -> E. inversion Hp; subst. inversion Hn; subst.
        destruct (IH p E ltac:(assumption) ltac:(assumption)) as (b1 & -> & ->). exists b1. split; reflexivity. }
  destruct Hpre as (b1 & E1 & ->). rewrite E1 in Hall. apply Forall_app in Hall. destruct Hall as [_ Hb1].
  rewrite (span_exact name_char b1 r Hb1 Hr). rewrite <- E1. reflexivity.
Qed.

Lemma longest_none_iff : forall l s, longest l s = None <-> (forall p, In p l -> ~ prefix p s).
Proof.
  intros l s. split.
  - intros H p Hin [r ->]. destruct (longest_ge l (p ++ r) p r Hin (strip_prefix_app _ _)) as (nm & r' & E & _). congruence.
  - intro H. apply longest_none. apply Forall_forall. intros p Hin. destruct (strip_prefix p s) as [r|] eqn:E; [|reflexivity].
    exfalso. apply (H p Hin). exists r. apply strip_prefix_some, E.
Qed.

(** a prefix which consists of name characters lies inside the identifier *)
Lemma prefix_inside : forall p nm r, Forall (fun c => name_char c = true) p -> starts name_char r = false ->
  prefix p (nm ++ r) -> prefix p nm.
Proof.
  induction p as [|c p IH]; intros nm r Hp Hr [q E].
  - exists nm. reflexivity.
  - inversion Hp as [|? ? Hc Hp']; subst. destruct nm as [|d nm].
    + exfalso. cbn in E. subst r. cbn in Hr. congruence.
    + cbn in E. injection E as -> E. destruct (IH nm r Hp' Hr (ex_intro _ q E)) as [q' ->]. exists q'. reflexivity.
Qed.

Lemma declarative_chars : forall p, In p declarative -> Forall (fun c => name_char c = true) p.
Proof. intros p H. cbn in H. repeat (destruct H as [<-|H]; [cbn; repeat constructor|]). destruct H. Qed.

Definition chars_ok (names : list text) : Prop := forall p, In p names -> Forall (fun c => name_char c = true) p.

Lemma fresh_iff : forall names nm r, chars_ok names -> identifier nm -> ends_name r ->
  (fresh_name names (nm ++ r) = Some (nm, r) <-> forall p, In p (declarative ++ names) -> ~ prefix p nm).
Proof.
  intros names nm r Hn Hid Hr. pose proof (proj1 (ends_name_spec r) Hr) as Hr'.
  unfold fresh_name. rewrite valid_name_exact by assumption. split.
  - intros H p Hin [q Eq].
    assert (Hpre : prefix p (nm ++ r)) by (exists (q ++ r); rewrite Eq, app_assoc; reflexivity).
    apply in_app_iff in Hin. destruct Hin as [Hin|Hin].
    + destruct (longest declarative (nm ++ r)) eqn:E; [discriminate|]. apply longest_none_iff with (p := p) in E; tauto.
    + destruct (longest declarative (nm ++ r)); [discriminate|].
      destruct (longest names (nm ++ r)) eqn:E; [discriminate|]. apply longest_none_iff with (p := p) in E; tauto.
  - intro H.
    assert (E1 : longest declarative (nm ++ r) = None).
    { apply longest_none_iff. intros p Hin Hp. apply (H p); [apply in_app_iff; left; exact Hin|].
      eapply prefix_inside; [apply declarative_chars; exact Hin|exact Hr'|exact Hp]. }
    assert (E2 : longest names (nm ++ r) = None).
    { apply longest_none_iff. intros p Hin Hp. apply (H p); [apply in_app_iff; right; exact Hin|].
      eapply prefix_inside; [apply Hn; exact Hin|exact Hr'|exact Hp]. }
    rewrite E1, E2. reflexivity.
Qed.

(** an accepted name is an identifier, differs from everything declared, and its text was there *)
Lemma fresh_sound : forall names s nm r, fresh_name names s = Some (nm, r) ->
  identifier nm /\ ends_name r /\ s = nm ++ r /\ ~ In nm (declarative ++ names).
Proof.
  intros names s nm r H. unfold fresh_name in H.
  destruct (longest declarative s) eqn:E1; [discriminate|]. destruct (longest names s) eqn:E2; [discriminate|].
  assert (Hs : identifier nm /\ ends_name r /\ s = nm ++ r).
  { unfold valid_name in H. destruct (span is_alpha s) as [a b] eqn:Ea. destruct a as [|c a]; [discriminate|].
    destruct (span name_char b) as [b1 r2] eqn:Eb. injection H as <- <-.
    pose proof (span_all _ _ _ _ Ea) as Ha. pose proof (span_all _ _ _ _ Eb) as Hb. inversion Ha as [|? ? Hc Ha']; subst.
    split; [|split].
    - exists c, (a ++ b1). split; [reflexivity|]. split; [exact Hc|]. apply Forall_app. split.
      + eapply Forall_impl; [|exact Ha']. intros d Hd. left. unfold is_alnum. rewrite Hd. reflexivity.
      + eapply Forall_impl; [|exact Hb]. intros d Hd. apply name_char_spec, Hd.
    - apply ends_name_spec. exact (span_stop _ _ _ _ Eb).
    - rewrite (span_app _ _ _ _ Ea), (span_app _ _ _ _ Eb), app_assoc. reflexivity. }
  destruct Hs as (Hid & Hr & Es). split; [exact Hid|]. split; [exact Hr|]. split; [exact Es|].
  intro Hin. assert (Hp : prefix nm s) by (exists r; exact Es). apply in_app_iff in Hin. destruct Hin as [Hin|Hin].
  - apply longest_none_iff with (p := nm) in E1; tauto.
  - apply longest_none_iff with (p := nm) in E2; tauto.
Qed.

(** *** Lists of names *)

(** names to be declared one after the other: none has a keyword, a known symbol or an earlier name as a
    prefix *)
Fixpoint declarable (names : list text) (l : list text) : Prop :=
  match l with
  | [] => True
  | nm :: r => identifier nm /\ (forall p, In p (declarative ++ names) -> ~ prefix p nm) /\ declarable (nm :: names) r
  end.

(** the text of a declaration: names separated by commas, with white space before each token *)
Inductive written : list text -> text -> Prop :=
| written_one : forall w nm, Forall (fun c => is_space c = true) w -> written [nm] (w ++ nm)
| written_more : forall w nm w2 l s, Forall (fun c => is_space c = true) w -> Forall (fun c => is_space c = true) w2 ->
    written l s -> written (nm :: l) (w ++ nm ++ w2 ++ "," :: s).

Lemma identifier_skip : forall nm r, identifier nm -> skip (nm ++ r) = nm ++ r.
Proof.
  intros nm r (c & q & -> & Hc & _). apply skip_start. cbn. apply alnum_not_space. unfold is_alnum. rewrite Hc. reflexivity.
Qed.

Lemma new_name_exact : forall names w nm r, chars_ok names -> Forall (fun c => is_space c = true) w ->
  identifier nm -> (forall p, In p (declarative ++ names) -> ~ prefix p nm) -> ends_name r ->
  new_name names (w ++ nm ++ r) = Some (nm, nm :: names, r).
Proof.
  intros names w nm r Hn Hw Hid Hp Hr. unfold new_name. rewrite skip_app by exact Hw. rewrite identifier_skip by exact Hid.
  rewrite (proj2 (fresh_iff names nm r Hn Hid Hr) Hp). reflexivity.
Qed.

Lemma chars_ok_cons : forall names nm, chars_ok names -> identifier nm -> chars_ok (nm :: names).
Proof. intros names nm H Hid p [<-|Hp]; [apply identifier_chars, Hid|apply H, Hp]. Qed.

Lemma ends_white : forall w c s, Forall (fun c => is_space c = true) w -> name_char c = false -> ends_name (w ++ c :: s).
Proof.
  intros w c s Hw Hc. apply ends_name_spec. destruct Hw as [|x w Hx _]; [exact Hc|]. cbn.
  destruct (name_char x) eqn:E; [|reflexivity].
  destruct x as [b0 b1 b2 b3 b4 b5 b6 b7]; destruct b0, b1, b2, b3, b4, b5, b6, b7; vm_compute in Hx, E; discriminate.
Qed.

Lemma written_length : forall l s, written l s -> (forall nm, In nm l -> nm <> []) -> length l <= length s.
Proof.
  induction 1 as [w nm Hw|w nm w2 l s Hw Hw2 H IH]; intro Hne.
  - rewrite app_length. cbn. assert (nm <> []) by (apply Hne; left; reflexivity). destruct nm; [congruence|cbn; lia].
  - rewrite !app_length. cbn [length]. assert (length l <= length s) by (apply IH; intros x Hx; apply Hne; right; exact Hx). lia.
Qed.

Lemma declarable_nonempty : forall l names nm, declarable names l -> In nm l -> nm <> [].
Proof.
  induction l as [|a l IH]; intros names nm H Hin; [destruct Hin|]. destruct Hin as [<-|Hin].
  - destruct H as ((c & r & -> & _) & _). discriminate.
  - destruct H as (_ & _ & H). eapply IH; eassumption.
Qed.

Lemma more_names_exact : forall l s, written l s -> forall n names w w2 r, chars_ok names ->
  Forall (fun c => is_space c = true) w -> Forall (fun c => is_space c = true) w2 ->
  declarable names l -> length l <= n ->
  more_names (S n) names (w ++ "," :: s ++ w2 ++ ";" :: r) = (l, rev l ++ names, w2 ++ ";" :: r).
Proof.
  induction 1 as [w0 nm Hw0|w0 nm w02 l s Hw0 Hw02 H IH]; intros n names w w2 r Hn Hw Hw2 Hd Hl;
    cbn [declarable] in Hd; destruct Hd as (Hid & Hp & Hd).
  - cbn [more_names]. rewrite skip_app by exact Hw. rewrite skip_start by reflexivity. rewrite Ascii.eqb_refl.
    rewrite <- app_assoc. rewrite new_name_exact; try assumption; [|apply ends_white; [exact Hw2|reflexivity]].
    destruct n as [|n]; [cbn in Hl; lia|]. cbn [more_names]. rewrite skip_app by exact Hw2. rewrite skip_start by reflexivity.
    change (Ascii.eqb ";" ",") with false. reflexivity.
  - cbn [more_names]. rewrite skip_app by exact Hw. rewrite skip_start by reflexivity. rewrite Ascii.eqb_refl.
    rewrite <- !app_assoc. cbn [app]. rewrite new_name_exact; try assumption; [|apply ends_white; [exact Hw02|reflexivity]].
    destruct n as [|n]; [cbn in Hl; lia|]. cbn in Hl. rewrite IH; try assumption; [|apply chars_ok_cons; assumption|lia].
    cbn [rev]. rewrite <- app_assoc. reflexivity.
Qed.

Lemma declaration_exact : forall names l s w2 r, chars_ok names -> declarable names l -> written l s ->
  Forall (fun c => is_space c = true) w2 ->
  declaration names (s ++ w2 ++ ";" :: r) = Some (l, rev l ++ names, r).
Proof.
  intros names l s w2 r Hn Hd H Hw2. unfold declaration, name_list. destruct H as [w nm Hw|w nm w3 l s Hw Hw3 H].
  - cbn [declarable] in Hd. destruct Hd as (Hid & Hp & _). rewrite <- app_assoc.
    rewrite new_name_exact; try assumption; [|apply ends_white; [exact Hw2|reflexivity]].
    rewrite !app_length. cbn [length]. replace (length w + (length nm + (length w2 + S (length r))))
      with (S (length w + length nm + length w2 + length r)) by lia.
    cbn [more_names]. rewrite skip_app by exact Hw2. rewrite skip_start by reflexivity. change (Ascii.eqb ";" ",") with false.
    cbv iota. rewrite skip_app by exact Hw2. rewrite skip_start by reflexivity. rewrite Ascii.eqb_refl. reflexivity.
  - cbn [declarable] in Hd. destruct Hd as (Hid & Hp & Hd).
    pose proof (written_length _ _ H (fun x Hx => declarable_nonempty _ _ x Hd Hx)) as Hlen.
    rewrite <- !app_assoc. cbn [app]. rewrite new_name_exact; try assumption; [|apply ends_white; [exact Hw3|reflexivity]].
    rewrite !app_length. cbn [length]. rewrite !app_length. cbn [length].
    match goal with |- context [more_names ?m _ _] => replace m with (S (m - 1)) by lia end.
    rewrite (more_names_exact l s H); try assumption; [|apply chars_ok_cons; assumption|lia].
    rewrite skip_app by exact Hw2. rewrite skip_start by reflexivity. rewrite Ascii.eqb_refl.
    cbn [rev]. rewrite <- app_assoc. reflexivity.
Qed.

(** *** Cases *)

Lemma identifier_intro : forall c r, is_alpha c = true ->
  forallb (fun d => is_alnum d || Ascii.eqb d "[" || Ascii.eqb d "]" || Ascii.eqb d "_") r = true -> identifier (c :: r).
Proof.
  intros c r Hc Hr. exists c, r. split; [reflexivity|]. split; [exact Hc|]. apply Forall_forall. intros d Hd.
  apply forallb_forall with (x := d) in Hr; [|exact Hd]. rewrite !orb_true_iff, !Ascii.eqb_eq in Hr. tauto.
Qed.

Lemma no_prefix : forall l s, forallb (fun p => match strip_prefix p s with Some _ => false | None => true end) l = true ->
  forall p, In p l -> ~ prefix p s.
Proof.
  intros l s H p Hin [r ->]. apply forallb_forall with (x := p) in H; [|exact Hin]. rewrite strip_prefix_app in H. discriminate.
Qed.

Lemma initial_chars : chars_ok initial_names.
Proof. intros p H. cbn in H. repeat (destruct H as [<-|H]; [cbn; repeat constructor|]). destruct H. Qed.
