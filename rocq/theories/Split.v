(** Splitting an input file into its configuration and its system.

    Models core/include/bertini2/io/parsing/classic_utilities.hpp:172-301 (SplitInputFileParser) and 379-397
    (ParseInputFile).  The parser runs with ascii::space as the skipper; the lexeme directive skips white space
    and then switches the skipper off.  Line numbers below are those of that file. *)
From Coq Require Import String Ascii List Arith Lia Bool.
From Verif Require Import Chars Comments.
Import ListNotations.
Local Open Scope char_scope.

(** ascii::no_case: letters are compared in lower case *)
Definition lower (c : ascii) : ascii :=
  if between 65 90 c then ascii_of_nat (nat_of_ascii c + 32) else c.

(** a literal inside the no_case directive *)
Fixpoint strip_nocase (p s : text) : option text :=
  match p, s with
  | [], _ => Some s
  | a :: p', b :: s' => if Ascii.eqb (lower a) (lower b) then strip_nocase p' s' else None
  | _ :: _, [] => None
  end.

(** *(char_ - marker) >> marker with the skipper off: the text in front of the first marker, and the text behind it *)
Fixpoint up_to (marker s : text) : option (text * text) :=
  match strip_nocase marker s with
  | Some r => Some ([], r)
  | None =>
      match s with
      | c :: t => match up_to marker t with Some (a, r) => Some (c :: a, r) | None => None end
      | [] => None
      end
  end.

(** *(char_ - marker) >> marker with the skipper on, its text omitted: white space between the characters is passed
    over *)
Fixpoint seek (marker s : text) : option text :=
  match s with
  | [] => None
  | c :: t => if is_space c then seek marker t
              else match strip_nocase marker s with Some r => Some r | None => seek marker t end
  end.

(** the three markers, classic_utilities.hpp:255-262 *)
Definition CONFIG := txt "CONFIG".
Definition INPUT := txt "INPUT".
Definition END_ := txt "END;".

(** classic_utilities.hpp:255-256 config_ *)
Definition config_rule (s : text) : option text := seek CONFIG s.
(** classic_utilities.hpp:258-259 end_ *)
Definition end_rule (s : text) : option (text * text) := up_to END_ (skip s).
(** classic_utilities.hpp:261-262 input_ *)
Definition input_rule (s : text) : option (text * text) := up_to INPUT (skip s).
(** classic_utilities.hpp:266-267 no_decl_ *)
Definition no_decl (s : text) : text := skip s.

(** classic_utilities.hpp:58-134 SplitInputFile *)
Record parts := mkParts { config : text; input : text; readable : bool }.

(** the alternatives of classic_utilities.hpp:201-213, in their order: both_ *)
Definition rule15 (s : text) : option (text * text) :=
  match config_rule s with Some s1 =>
  match end_rule s1 with Some (c, s2) =>
  match input_rule s2 with Some (_, s3) =>
  match end_rule s3 with Some (i, _) => Some (c, i)
  | None => None end | None => None end | None => None end | None => None end.

Definition rule14 (s : text) : option (text * text) :=
  match config_rule s with Some s1 =>
  match end_rule s1 with Some (c, s2) =>
  match input_rule s2 with Some (_, s3) => Some (c, no_decl s3)
  | None => None end | None => None end | None => None end.

Definition rule13 (s : text) : option (text * text) :=
  match config_rule s with Some s1 =>
  match end_rule s1 with Some (c, s2) =>
  match end_rule s2 with Some (i, _) => Some (c, i)
  | None => None end | None => None end | None => None end.

Definition rule11 (s : text) : option (text * text) :=
  match config_rule s with Some s1 =>
  match input_rule s1 with Some (c, s2) =>
  match end_rule s2 with Some (i, _) => Some (c, i)
  | None => None end | None => None end | None => None end.

Definition rule12 (s : text) : option (text * text) :=
  match config_rule s with Some s1 =>
  match end_rule s1 with Some (c, s2) => Some (c, no_decl s2)
  | None => None end | None => None end.

Definition rule10 (s : text) : option (text * text) :=
  match config_rule s with Some s1 =>
  match input_rule s1 with Some (c, s2) => Some (c, no_decl s2)
  | None => None end | None => None end.

Definition orelse {A} (a b : option A) : option A := match a with Some x => Some x | None => b end.

(** classic_utilities.hpp:200-214 both_ *)
Definition both (s : text) : option (text * text) :=
  orelse (rule15 s) (orelse (rule14 s) (orelse (rule13 s) (orelse (rule11 s) (orelse (rule12 s) (rule10 s))))).

(** classic_utilities.hpp:243-253 unreadable_: only whether it matches matters *)
Definition unreadable (s : text) : bool :=
  match config_rule s with
  | Some _ => true
  | None =>
      match end_rule s with
      | Some (_, s1) =>
          match input_rule s1 with
          | Some _ => true
          | None => match end_rule s1 with Some _ => true | None => false end
          end
      | None => false
      end
  end.

(** classic_utilities.hpp:231-241 only_input_.  The four alternatives share one string attribute, to which every rule appends.  With
    [keeps] the characters appended by an alternative that fails later stay there, which is what Boost.Spirit does for
    container attributes; without it they are taken back. *)
Definition only_input (keeps : bool) (s : text) : text :=
  match input_rule s with
  | Some (_, s1) =>
      match end_rule s1 with
      | Some (i, _) => i
      | None => (if keeps then skip s1 else []) ++ no_decl s1
      end
  | None =>
      match end_rule s with
      | Some (i, _) => i
      | None => (if keeps then skip s else []) ++ no_decl s
      end
  end.

(** classic_utilities.hpp:195 root_rule_; config_, input_ and readable_ start as empty, empty and true *)
Definition split_file (keeps : bool) (s : text) : parts :=
  match both s with
  | Some (c, i) => mkParts c i true
  | None => if unreadable s then mkParts [] [] false else mkParts [] (only_input keeps s) true
  end.

(** classic_utilities.hpp:379-397 ParseInputFile *)
Definition parse_input_file (keeps : bool) (s : text) : option parts :=
  match strip s with Some t => Some (split_file keeps t) | None => None end.

(** *** Specification *)

(** the same letters up to case *)
Definition spells (m x : text) : Prop := map lower x = map lower m.

(** the marker occurs somewhere in the text, in any mixture of cases *)
Definition occurs (m s : text) : Prop := exists a x r, s = a ++ x ++ r /\ spells m x.

(** *** Proofs *)

Lemma strip_nocase_some : forall p s r, strip_nocase p s = Some r -> exists x, s = x ++ r /\ spells p x.
Proof.
  induction p as [|a p IH]; intros s r H; cbn in H.
  - injection H as <-. exists []. split; reflexivity.
  - destruct s as [|b s]; [discriminate H|].
    destruct (Ascii.eqb_spec (lower a) (lower b)) as [E|]; [|discriminate H].
    destruct (IH _ _ H) as (x & -> & Hx). exists (b :: x). split; [reflexivity|].
    unfold spells in *. cbn. rewrite Hx, E. reflexivity.
Qed.

Lemma strip_nocase_app : forall p x r, spells p x -> strip_nocase p (x ++ r) = Some r.
Proof.
  unfold spells. induction p as [|a p IH]; intros x r H; destruct x as [|b x]; try discriminate H; [reflexivity|].
  cbn in H. injection H as E H. cbn. rewrite E, Ascii.eqb_refl. apply IH. exact H.
Qed.

(** no proper beginning of the marker is also an end of it *)
Definition borderless (m : text) : bool :=
  forallb (fun k => negb (if list_eq_dec ascii_dec (firstn (length m - k) (map lower m)) (skipn k (map lower m))
                          then true else false))
    (seq 1 (length m - 1)).

Lemma marker_config : borderless CONFIG = true. Proof. reflexivity. Qed.
Lemma marker_input : borderless INPUT = true. Proof. reflexivity. Qed.
Lemma marker_end : borderless END_ = true. Proof. reflexivity. Qed.

Lemma strip_nocase_none : forall m c x r,
  borderless m = true -> spells m x -> ~ occurs m c -> c <> [] -> strip_nocase m (c ++ x ++ r) = None.
Proof.
  intros m c x r Hb Hx Hc Hne. destruct (strip_nocase m (c ++ x ++ r)) as [t|] eqn:E; [exfalso|reflexivity].
  destruct (strip_nocase_some _ _ _ E) as (y & Ey & Hy).
  assert (Ly : length y = length m).
  { unfold spells in Hy. rewrite <- (map_length lower y), Hy, map_length. reflexivity. }
  assert (Lx : length x = length m).
  { unfold spells in Hx. rewrite <- (map_length lower x), Hx, map_length. reflexivity. }
  destruct (le_lt_dec (length m) (length c)) as [L|L].
  - apply Hc. exists [], y, (skipn (length m) c). split; [|exact Hy]. cbn.
    assert (E2 : firstn (length m) (c ++ x ++ r) = firstn (length m) (y ++ t)) by (rewrite Ey; reflexivity).
    rewrite !firstn_app in E2. rewrite Ly in E2. rewrite Nat.sub_diag in E2. cbn in E2.
    replace (length m - length c) with 0 in E2 by lia. cbn in E2. rewrite !app_nil_r in E2.
    rewrite (firstn_all2 y) in E2 by lia. rewrite <- E2. rewrite firstn_skipn. reflexivity.
  - unfold borderless in Hb. rewrite forallb_forall in Hb.
    assert (Lc : length c <> 0) by (destruct c; [contradiction|cbn; discriminate]).
    specialize (Hb (length c)). assert (Hin : In (length c) (seq 1 (length m - 1))) by (apply in_seq; lia).
    specialize (Hb Hin). destruct (list_eq_dec _ _ _) as [|Hd]; [discriminate Hb|]. apply Hd.
    (* y = c ++ firstn (length m - length c) x *)
    assert (E2 : firstn (length m) (c ++ x ++ r) = firstn (length m) (y ++ t)) by (rewrite Ey; reflexivity).
    rewrite !firstn_app in E2. rewrite Ly, Nat.sub_diag in E2. cbn in E2. rewrite app_nil_r in E2.
    rewrite (firstn_all2 y) in E2 by lia. rewrite (firstn_all2 c) in E2 by lia.
    replace (length m - length c - length x) with 0 in E2 by lia. cbn in E2. rewrite app_nil_r in E2.
    unfold spells in Hy, Hx. rewrite <- Hy at 1. rewrite <- Hy.
    rewrite <- E2 at 2. rewrite map_app. rewrite skipn_app, map_length, Nat.sub_diag. cbn.
    rewrite skipn_all2 by (rewrite map_length; lia). cbn.
    rewrite <- firstn_map. rewrite Hx, <- Hy. reflexivity.
Qed.

Lemma occurs_cons : forall m c s, ~ occurs m (c :: s) -> ~ occurs m s.
Proof. intros m c s H (a & x & r & E & Hx). apply H. exists (c :: a), x, r. split; [cbn; rewrite E; reflexivity|exact Hx]. Qed.

Lemma occurs_skip : forall m s, occurs m (skip s) -> occurs m s.
Proof.
  intros m s (a & x & r & E & Hx). destruct (skip_split s) as (w & _ & Es). exists (w ++ a), x, r.
  split; [|exact Hx]. rewrite Es at 1. rewrite E, app_assoc. reflexivity.
Qed.

Lemma up_to_exact : forall m c x r,
  borderless m = true -> spells m x -> ~ occurs m c -> up_to m (c ++ x ++ r) = Some (c, r).
Proof.
  intros m c x r Hb Hx. induction c as [|a c IH]; intro Hc.
  - cbn [app]. pose proof (strip_nocase_app m x r Hx) as E. destruct (x ++ r); cbn [up_to]; rewrite E; reflexivity.
  - pose proof (strip_nocase_none m (a :: c) x r Hb Hx Hc ltac:(discriminate)) as E.
    cbn [app] in *. cbn [up_to]. rewrite E. rewrite IH by (eapply occurs_cons; exact Hc). reflexivity.
Qed.

Lemma up_to_none : forall m s, ~ occurs m s -> up_to m s = None.
Proof.
  intros m s. induction s as [|c s IH]; intro H.
  - cbn. destruct (strip_nocase m []) as [r|] eqn:E; [exfalso|reflexivity].
    destruct (strip_nocase_some _ _ _ E) as (x & Ex & Hx). apply H. exists [], x, r. split; [exact Ex|exact Hx].
  - cbn [up_to]. destruct (strip_nocase m (c :: s)) as [r|] eqn:E.
    + exfalso. destruct (strip_nocase_some _ _ _ E) as (x & Ex & Hx). apply H. exists [], x, r. split; [exact Ex|exact Hx].
    + rewrite IH by (eapply occurs_cons; exact H). reflexivity.
Qed.

Lemma up_to_some : forall m s a r, up_to m s = Some (a, r) -> exists x, s = a ++ x ++ r /\ spells m x.
Proof.
  intros m s. induction s as [|c s IH]; intros a r H.
  - cbn in H. destruct (strip_nocase m []) as [t|] eqn:E; [|discriminate H]. injection H as <- <-.
    destruct (strip_nocase_some _ _ _ E) as (x & Ex & Hx). exists x. split; [exact Ex|exact Hx].
  - cbn [up_to] in H. destruct (strip_nocase m (c :: s)) as [t|] eqn:E.
    + injection H as <- <-. destruct (strip_nocase_some _ _ _ E) as (x & Ex & Hx). exists x. split; [exact Ex|exact Hx].
    + destruct (up_to m s) as [[a' r']|]; [|discriminate H]. injection H as <- <-.
      destruct (IH _ _ eq_refl) as (x & -> & Hx). exists x. split; [reflexivity|exact Hx].
Qed.

(** the marker starts with a character which is not white space in either case *)
Definition solid (m : text) : Prop :=
  match m with c :: _ => forall d, lower d = lower c -> is_space d = false | [] => False end.

Lemma solid_letter : forall c m, is_space (lower c) = false ->
  (forall d, lower d = lower c -> is_space d = is_space (lower c)) -> solid (c :: m).
Proof. intros c m H H2 d E. rewrite (H2 d E). exact H. Qed.

Lemma space_lower : forall d, is_space d = is_space (lower d).
Proof.
  intros d. destruct d as [b0 b1 b2 b3 b4 b5 b6 b7]; destruct b0, b1, b2, b3, b4, b5, b6, b7; vm_compute; reflexivity.
Qed.

Lemma solid_intro : forall c m, is_space (lower c) = false -> solid (c :: m).
Proof. intros c m H d E. rewrite space_lower, E. exact H. Qed.

Lemma solid_config : solid CONFIG. Proof. apply solid_intro. reflexivity. Qed.
Lemma solid_input : solid INPUT. Proof. apply solid_intro. reflexivity. Qed.
Lemma solid_end : solid END_. Proof. apply solid_intro. reflexivity. Qed.

Lemma spells_solid : forall m x r, solid m -> spells m x -> starts is_space (x ++ r) = false.
Proof.
  intros [|c m] x r Hs Hx; [contradiction|]. destruct x as [|d x]; [discriminate Hx|].
  cbn. apply Hs. unfold spells in Hx. cbn in Hx. injection Hx as E _. exact E.
Qed.

Lemma spells_solid_cons : forall m x, solid m -> spells m x -> exists d y, x = d :: y /\ is_space d = false.
Proof.
  intros m x Hs Hx. pose proof (spells_solid m x [] Hs Hx) as H. destruct x as [|d y].
  - destruct m as [|c m]; [contradiction|discriminate Hx].
  - exists d, y. split; [reflexivity|exact H].
Qed.

Lemma seek_exact : forall m c x r,
  borderless m = true -> solid m -> spells m x -> ~ occurs m c -> seek m (c ++ x ++ r) = Some r.
Proof.
  intros m c x r Hb Hs Hx. induction c as [|a c IH]; intro Hc.
  - cbn [app]. destruct (spells_solid_cons m x Hs Hx) as (d & y & -> & Hd).
    pose proof (strip_nocase_app m (d :: y) r Hx) as E. cbn [app] in *. cbn [seek]. rewrite Hd, E. reflexivity.
  - pose proof (strip_nocase_none m (a :: c) x r Hb Hx Hc ltac:(discriminate)) as E.
    cbn [app] in *. cbn [seek]. rewrite E. rewrite IH by (eapply occurs_cons; exact Hc).
    destruct (is_space a); reflexivity.
Qed.

Lemma seek_none : forall m s, ~ occurs m s -> seek m s = None.
Proof.
  intros m s. induction s as [|c s IH]; intro H; [reflexivity|]. cbn [seek].
  rewrite IH by (eapply occurs_cons; exact H). destruct (is_space c); [reflexivity|].
  destruct (strip_nocase m (c :: s)) as [r|] eqn:E; [|reflexivity].
  exfalso. destruct (strip_nocase_some _ _ _ E) as (x & Ex & Hx). apply H. exists [], x, r. split; [exact Ex|exact Hx].
Qed.

Lemma seek_some : forall m s r, seek m s = Some r -> exists a x, s = a ++ x ++ r /\ spells m x.
Proof.
  intros m s. induction s as [|c s IH]; intros r H; [discriminate H|]. cbn [seek] in H.
  destruct (is_space c).
  - destruct (IH _ H) as (a & x & -> & Hx). exists (c :: a), x. split; [reflexivity|exact Hx].
  - destruct (strip_nocase m (c :: s)) as [t|] eqn:E.
    + injection H as <-. destruct (strip_nocase_some _ _ _ E) as (x & Ex & Hx). exists [], x. split; [exact Ex|exact Hx].
    + destruct (IH _ H) as (a & x & -> & Hx). exists (c :: a), x. split; [reflexivity|exact Hx].
Qed.

(** skipping in front of a section: the white space at its beginning goes, the rest stays *)
Lemma skip_section : forall c x r, starts is_space (x ++ r) = false -> skip (c ++ x ++ r) = skip c ++ x ++ r.
Proof.
  induction c as [|a c IH]; intros x r H; cbn [app skip]; [apply skip_start; exact H|].
  destruct (is_space a); [apply IH; exact H|reflexivity].
Qed.

Lemma section_exact : forall m c x r,
  borderless m = true -> solid m -> spells m x -> ~ occurs m c -> up_to m (skip (c ++ x ++ r)) = Some (skip c, r).
Proof.
  intros m c x r Hb Hs Hx Hc. rewrite skip_section by (eapply spells_solid; [exact Hs|exact Hx]).
  apply up_to_exact; [exact Hb|exact Hx|]. intro H. apply Hc. apply occurs_skip. exact H.
Qed.

Lemma section_none : forall m s, ~ occurs m s -> up_to m (skip s) = None.
Proof. intros m s H. apply up_to_none. intro H2. apply H. apply occurs_skip. exact H2. Qed.

Section Layouts.
Context (keeps : bool) (pre c mid i post k e1 n e2 : text).
Hypothesis Hk : spells CONFIG k.
Hypothesis He1 : spells END_ e1.
Hypothesis Hn : spells INPUT n.
Hypothesis He2 : spells END_ e2.
Hypothesis Hpre : ~ occurs CONFIG pre.

Lemma at_config : forall r, config_rule (pre ++ k ++ r) = Some r.
Proof. intro r. apply seek_exact; [reflexivity|exact solid_config|exact Hk|exact Hpre]. Qed.

Lemma at_end : forall x c0 r, spells END_ x -> ~ occurs END_ c0 -> end_rule (c0 ++ x ++ r) = Some (skip c0, r).
Proof. intros x c0 r Hx Hc. apply section_exact; [reflexivity|exact solid_end|exact Hx|exact Hc]. Qed.

Lemma at_input : forall x c0 r, spells INPUT x -> ~ occurs INPUT c0 -> input_rule (c0 ++ x ++ r) = Some (skip c0, r).
Proof. intros x c0 r Hx Hc. apply section_exact; [reflexivity|exact solid_input|exact Hx|exact Hc]. Qed.

Lemma no_end : forall s, ~ occurs END_ s -> end_rule s = None.
Proof. intros s H. apply section_none. exact H. Qed.

Lemma no_input : forall s, ~ occurs INPUT s -> input_rule s = None.
Proof. intros s H. apply section_none. exact H. Qed.

Lemma layout15 : ~ occurs END_ c -> ~ occurs INPUT mid -> ~ occurs END_ i ->
  split_file keeps (pre ++ k ++ c ++ e1 ++ mid ++ n ++ i ++ e2 ++ post) = mkParts (skip c) (skip i) true.
Proof.
  intros Hc Hmid Hi. unfold split_file, both, rule15. rewrite at_config, (at_end e1 c) by assumption.
  rewrite (at_input n mid) by assumption. rewrite (at_end e2 i) by assumption. reflexivity.
Qed.

Lemma layout14 : ~ occurs END_ c -> ~ occurs INPUT mid -> ~ occurs END_ i ->
  split_file keeps (pre ++ k ++ c ++ e1 ++ mid ++ n ++ i) = mkParts (skip c) (skip i) true.
Proof.
  intros Hc Hmid Hi. unfold split_file, both, rule15, rule14. rewrite at_config, (at_end e1 c) by assumption.
  rewrite (at_input n mid) by assumption. rewrite (no_end i) by assumption. reflexivity.
Qed.

Lemma layout13 : ~ occurs END_ c -> ~ occurs INPUT (i ++ e2 ++ post) -> ~ occurs END_ i ->
  split_file keeps (pre ++ k ++ c ++ e1 ++ i ++ e2 ++ post) = mkParts (skip c) (skip i) true.
Proof.
  intros Hc Hin Hi. unfold split_file, both, rule15, rule14, rule13. rewrite at_config, (at_end e1 c) by assumption.
  rewrite no_input by assumption. rewrite (at_end e2 i) by assumption. reflexivity.
Qed.

Lemma occurs_app_l : forall m a b, occurs m a -> occurs m (a ++ b).
Proof. intros m a b (u & x & r & -> & Hx). exists u, x, (r ++ b). split; [rewrite <- !app_assoc; reflexivity|exact Hx]. Qed.

Lemma occurs_app_r : forall m a b, occurs m b -> occurs m (a ++ b).
Proof. intros m a b (u & x & r & -> & Hx). exists (a ++ u), x, r. split; [rewrite <- !app_assoc; reflexivity|exact Hx]. Qed.

Lemma layout12 : ~ occurs END_ c -> ~ occurs INPUT c -> ~ occurs INPUT i -> ~ occurs END_ i ->
  ~ occurs INPUT (c ++ e1 ++ i) ->
  split_file keeps (pre ++ k ++ c ++ e1 ++ i) = mkParts (skip c) (skip i) true.
Proof.
  intros Hc Hci Hin Hi Hall. unfold split_file, both, rule15, rule14, rule13, rule11, rule12.
  rewrite at_config, (at_end e1 c) by assumption. rewrite (no_input i), (no_end i) by assumption.
  rewrite no_input by assumption. reflexivity.
Qed.

Lemma layout11 : ~ occurs INPUT c -> ~ occurs END_ (c ++ n ++ i) -> ~ occurs END_ i ->
  ~ occurs INPUT post -> ~ occurs END_ post ->
  split_file keeps (pre ++ k ++ c ++ n ++ i ++ e2 ++ post) = mkParts (skip c) (skip i) true.
Proof.
  intros Hc Hall Hi Hpi Hpe. unfold split_file, both, rule15, rule14, rule13, rule11.
  rewrite at_config.
  assert (E : end_rule (c ++ n ++ i ++ e2 ++ post) = Some (skip (c ++ n ++ i), post)).
  { replace (c ++ n ++ i ++ e2 ++ post) with ((c ++ n ++ i) ++ e2 ++ post) by (rewrite <- !app_assoc; reflexivity).
    apply at_end; assumption. }
  rewrite E. rewrite (no_input post), (no_end post) by assumption.
  rewrite (at_input n c) by assumption. rewrite (at_end e2 i) by assumption. reflexivity.
Qed.

Lemma layout10 : ~ occurs INPUT c -> ~ occurs END_ (c ++ n ++ i) -> ~ occurs END_ i ->
  split_file keeps (pre ++ k ++ c ++ n ++ i) = mkParts (skip c) (skip i) true.
Proof.
  intros Hc Hall Hi. unfold split_file, both, rule15, rule14, rule13, rule11, rule12, rule10.
  rewrite at_config. rewrite (no_end (c ++ n ++ i)) by assumption. rewrite (at_input n c) by assumption.
  rewrite (no_end i) by assumption. reflexivity.
Qed.
End Layouts.

Section InputOnly.
Context (keeps : bool) (pre i post n e : text).
Hypothesis Hn : spells INPUT n.
Hypothesis He : spells END_ e.

Lemma no_both : forall s, ~ occurs CONFIG s -> both s = None.
Proof.
  intros s H. unfold both, rule15, rule14, rule13, rule12, rule11, rule10, config_rule.
  rewrite (seek_none CONFIG s H). reflexivity.
Qed.

Lemma layout3 : ~ occurs CONFIG (pre ++ n ++ i ++ e ++ post) -> ~ occurs INPUT pre -> ~ occurs END_ (pre ++ n ++ i) ->
  ~ occurs END_ i -> ~ occurs INPUT post -> ~ occurs END_ post ->
  split_file keeps (pre ++ n ++ i ++ e ++ post) = mkParts [] (skip i) true.
Proof.
  intros Hc Hpre Hall Hi Hpi Hpe. unfold split_file. rewrite (no_both _ Hc). unfold unreadable, config_rule.
  rewrite (seek_none CONFIG _ Hc).
  assert (E : end_rule (pre ++ n ++ i ++ e ++ post) = Some (skip (pre ++ n ++ i), post)).
  { replace (pre ++ n ++ i ++ e ++ post) with ((pre ++ n ++ i) ++ e ++ post) by (rewrite <- !app_assoc; reflexivity).
    apply at_end; assumption. }
  rewrite E, (no_input post), (no_end post) by assumption. unfold only_input.
  rewrite (at_input n pre) by assumption. rewrite (at_end e i) by assumption. reflexivity.
Qed.

Lemma layout2 : ~ occurs CONFIG (pre ++ n ++ i) -> ~ occurs INPUT pre -> ~ occurs END_ (pre ++ n ++ i) -> ~ occurs END_ i ->
  split_file keeps (pre ++ n ++ i) = mkParts [] ((if keeps then skip i else []) ++ skip i) true.
Proof.
  intros Hc Hpre Hall Hi. unfold split_file. rewrite (no_both _ Hc). unfold unreadable, config_rule.
  rewrite (seek_none CONFIG _ Hc). rewrite (no_end _ Hall). unfold only_input.
  rewrite (at_input n pre) by assumption. rewrite (no_end i) by assumption. reflexivity.
Qed.

Lemma layout1 : ~ occurs CONFIG (i ++ e ++ post) -> ~ occurs INPUT (i ++ e ++ post) -> ~ occurs END_ i ->
  ~ occurs INPUT post -> ~ occurs END_ post ->
  split_file keeps (i ++ e ++ post) = mkParts [] (skip i) true.
Proof.
  intros Hc Hin Hi Hpi Hpe. unfold split_file. rewrite (no_both _ Hc). unfold unreadable, config_rule.
  rewrite (seek_none CONFIG _ Hc). rewrite (at_end e i) by assumption.
  rewrite (no_input post), (no_end post) by assumption. unfold only_input. rewrite (no_input _ Hin).
  rewrite (at_end e i) by assumption. reflexivity.
Qed.

Lemma layout0 : ~ occurs CONFIG i -> ~ occurs INPUT i -> ~ occurs END_ i ->
  split_file keeps i = mkParts [] ((if keeps then skip i else []) ++ skip i) true.
Proof.
  intros Hc Hin Hi. unfold split_file. rewrite (no_both _ Hc). unfold unreadable, config_rule.
  rewrite (seek_none CONFIG _ Hc). rewrite (no_end _ Hi). unfold only_input. rewrite (no_input _ Hin), (no_end _ Hi).
  reflexivity.
Qed.
End InputOnly.

(** *** Nothing is invented *)

Lemma end_rule_some : forall s c r, end_rule s = Some (c, r) -> exists a x, s = a ++ c ++ x ++ r.
Proof.
  intros s c r H. unfold end_rule in H. destruct (up_to_some _ _ _ _ H) as (x & E & _).
  destruct (skip_split s) as (w & _ & Es). exists w, x. rewrite Es at 1. rewrite E. reflexivity.
Qed.

Lemma input_rule_some : forall s c r, input_rule s = Some (c, r) -> exists a x, s = a ++ c ++ x ++ r.
Proof.
  intros s c r H. unfold input_rule in H. destruct (up_to_some _ _ _ _ H) as (x & E & _).
  destruct (skip_split s) as (w & _ & Es). exists w, x. rewrite Es at 1. rewrite E. reflexivity.
Qed.

Lemma config_rule_some : forall s r, config_rule s = Some r -> exists a, s = a ++ r.
Proof. intros s r H. destruct (seek_some _ _ _ H) as (a & x & -> & _). exists (a ++ x). rewrite <- app_assoc. reflexivity. Qed.

Lemma no_decl_split : forall s, exists w, s = w ++ no_decl s.
Proof. intro s. destruct (skip_split s) as (w & _ & E). exists w. exact E. Qed.

Definition in_order (s c i : text) : Prop := exists a b d, s = a ++ c ++ b ++ i ++ d.

Ltac cfg H s1 E := let w := fresh "w" in destruct (config_rule_some _ _ H) as (w & E).

Lemma both_in_order : forall s c i, both s = Some (c, i) -> in_order s c i.
Proof.
  intros s c i H. unfold both, orelse, rule15, rule14, rule13, rule11, rule12, rule10 in H.
  destruct (config_rule s) as [s1|] eqn:Ec; [|discriminate H].
  destruct (config_rule_some _ _ Ec) as (w & Ew). unfold in_order.
  destruct (end_rule s1) as [[c1 s2]|] eqn:E1.
  - destruct (end_rule_some _ _ _ E1) as (a1 & x1 & Es1).
    destruct (input_rule s2) as [[m s3]|] eqn:E2.
    + destruct (input_rule_some _ _ _ E2) as (a2 & x2 & Es2).
      destruct (end_rule s3) as [[i1 s4]|] eqn:E3.
      * destruct (end_rule_some _ _ _ E3) as (a3 & x3 & Es3). injection H as <- <-.
        exists (w ++ a1), (x1 ++ a2 ++ m ++ x2 ++ a3), (x3 ++ s4). rewrite Ew, Es1, Es2, Es3, <- !app_assoc. reflexivity.
      * injection H as <- <-. destruct (no_decl_split s3) as (v & Ev).
        exists (w ++ a1), (x1 ++ a2 ++ m ++ x2 ++ v), []. rewrite Ew, Es1, Es2, Ev at 1. rewrite <- !app_assoc, app_nil_r. reflexivity.
    + destruct (end_rule s2) as [[i1 s4]|] eqn:E3.
      * destruct (end_rule_some _ _ _ E3) as (a3 & x3 & Es3). injection H as <- <-.
        exists (w ++ a1), (x1 ++ a3), (x3 ++ s4). rewrite Ew, Es1, Es3, <- !app_assoc. reflexivity.
      * destruct (input_rule s1) as [[c2 s5]|] eqn:E4.
        -- destruct (input_rule_some _ _ _ E4) as (a4 & x4 & Es4).
           destruct (end_rule s5) as [[i2 s6]|] eqn:E5.
           ++ destruct (end_rule_some _ _ _ E5) as (a5 & x5 & Es5). injection H as <- <-.
              exists (w ++ a4), (x4 ++ a5), (x5 ++ s6). rewrite Ew, Es4, Es5, <- !app_assoc. reflexivity.
           ++ injection H as <- <-. destruct (no_decl_split s2) as (v & Ev).
              exists (w ++ a1), (x1 ++ v), []. rewrite Ew, Es1, Ev at 1. rewrite <- !app_assoc, app_nil_r. reflexivity.
        -- injection H as <- <-. destruct (no_decl_split s2) as (v & Ev).
           exists (w ++ a1), (x1 ++ v), []. rewrite Ew, Es1, Ev at 1. rewrite <- !app_assoc, app_nil_r. reflexivity.
  - destruct (input_rule s1) as [[c2 s5]|] eqn:E4; [|discriminate H].
    destruct (input_rule_some _ _ _ E4) as (a4 & x4 & Es4).
    destruct (end_rule s5) as [[i2 s6]|] eqn:E5.
    + destruct (end_rule_some _ _ _ E5) as (a5 & x5 & Es5). injection H as <- <-.
      exists (w ++ a4), (x4 ++ a5), (x5 ++ s6). rewrite Ew, Es4, Es5, <- !app_assoc. reflexivity.
    + injection H as <- <-. destruct (no_decl_split s5) as (v & Ev).
      exists (w ++ a4), (x4 ++ v), []. rewrite Ew, Es4, Ev at 1. rewrite <- !app_assoc, app_nil_r. reflexivity.
Qed.

Lemma only_input_factor : forall s, exists a d, s = a ++ only_input false s ++ d.
Proof.
  intro s. unfold only_input. destruct (input_rule s) as [[m s1]|] eqn:E1.
  - destruct (input_rule_some _ _ _ E1) as (a1 & x1 & Es1). destruct (end_rule s1) as [[i s2]|] eqn:E2.
    + destruct (end_rule_some _ _ _ E2) as (a2 & x2 & Es2). exists (a1 ++ m ++ x1 ++ a2), (x2 ++ s2).
      rewrite Es1, Es2, <- !app_assoc. reflexivity.
    + destruct (no_decl_split s1) as (v & Ev). exists (a1 ++ m ++ x1 ++ v), []. cbn [app].
      rewrite Es1, Ev at 1. rewrite <- !app_assoc, app_nil_r. reflexivity.
  - destruct (end_rule s) as [[i s2]|] eqn:E2.
    + destruct (end_rule_some _ _ _ E2) as (a2 & x2 & Es2). exists a2, (x2 ++ s2). rewrite Es2 at 1. reflexivity.
    + destruct (no_decl_split s) as (v & Ev). exists v, []. cbn [app]. rewrite app_nil_r. exact Ev.
Qed.

Lemma split_factors : forall s, in_order s (config (split_file false s)) (input (split_file false s)).
Proof.
  intro s. unfold split_file. destruct (both s) as [[c i]|] eqn:E; [apply both_in_order; exact E|].
  destruct (unreadable s); unfold in_order; cbn [config input].
  - exists [], [], s. reflexivity.
  - destruct (only_input_factor s) as (a & d & E2). exists [], a, d. cbn [app]. exact E2.
Qed.

Lemma split_config_same : forall keeps s, occurs CONFIG s -> config_rule s <> None -> split_file keeps s = split_file false s.
Proof.
  intros keeps s _ H. unfold split_file. destruct (both s) as [[c i]|]; [reflexivity|]. unfold unreadable.
  destruct (config_rule s); [reflexivity|contradiction].
Qed.

Lemma config_rule_iff : forall s, config_rule s <> None <-> occurs CONFIG s.
Proof.
  intro s. split.
  - intro H. destruct (config_rule s) as [r|] eqn:E; [|contradiction].
    destruct (seek_some _ _ _ E) as (a & x & -> & Hx). exists a, x, r. split; [reflexivity|exact Hx].
  - intros (a & x & r & -> & Hx). revert Hx. unfold config_rule. induction a as [|c a IH]; intro Hx.
    + cbn [app]. destruct (spells_solid_cons CONFIG x solid_config Hx) as (d & y & -> & Hd).
      pose proof (strip_nocase_app CONFIG (d :: y) r Hx) as E. cbn [app] in *. cbn [seek]. rewrite Hd.
      rewrite E. discriminate.
    + cbn [app]. cbn [seek]. destruct (is_space c); [apply IH; exact Hx|].
      destruct (strip_nocase CONFIG _); [discriminate|]. apply IH; exact Hx.
Qed.

(** a file with a CONFIG marker but neither END; nor INPUT behind it is reported unreadable *)
Lemma unreadable_config : forall keeps pre k r, spells CONFIG k -> ~ occurs CONFIG pre -> ~ occurs END_ r -> ~ occurs INPUT r ->
  split_file keeps (pre ++ k ++ r) = mkParts [] [] false.
Proof.
  intros keeps pre k r Hk Hpre He Hi. unfold split_file, both, rule15, rule14, rule13, rule11, rule12, rule10, unreadable.
  rewrite (at_config pre k Hk Hpre). rewrite (no_end r He), (no_input r Hi). reflexivity.
Qed.
