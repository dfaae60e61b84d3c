(** C58: splitting an input file into its configuration section and its system section. *)
From Coq Require Import String Ascii List Bool.
From Verif Require Import Chars Comments Split.
Import ListNotations.

(** In the following, [k], [e1], [n] and [e2] are the markers CONFIG, END;, INPUT and END; in any mixture of upper and
    lower case, and [skip] removes the white space at the beginning of a section. *)

(** CONFIG ... END; ... INPUT ... END; ...  The sections may contain anything but the marker that ends them. *)
Theorem C58_all_markers : forall keeps pre k c e1 mid n i e2 post,
  spells CONFIG k -> spells END_ e1 -> spells INPUT n -> spells END_ e2 ->
  ~ occurs CONFIG pre -> ~ occurs END_ c -> ~ occurs INPUT mid -> ~ occurs END_ i ->
  split_file keeps (pre ++ k ++ c ++ e1 ++ mid ++ n ++ i ++ e2 ++ post) = mkParts (skip c) (skip i) true.
Proof. intros keeps pre k c e1 mid n i e2 post H1 H2 H3 H4 H5 H6 H7 H8. apply layout15; assumption. Qed.
Print Assumptions C58_all_markers.

Example C58_all_markers_case :
  split_file true (txt "CONFIG" ++ lf :: txt "MPType: 2;" ++ lf :: txt "End;" ++ lf :: txt "INPUT" ++ lf :: txt "function f;" ++
    lf :: txt "END; the rest") = mkParts (txt "MPType: 2;" ++ [lf]) (txt "function f;" ++ [lf]) true.
Proof. vm_compute. reflexivity. Qed.

(** CONFIG ... END; ... INPUT ...  without an end of the system section *)
Theorem C58_open_end : forall keeps pre k c e1 mid n i,
  spells CONFIG k -> spells END_ e1 -> spells INPUT n ->
  ~ occurs CONFIG pre -> ~ occurs END_ c -> ~ occurs INPUT mid -> ~ occurs END_ i ->
  split_file keeps (pre ++ k ++ c ++ e1 ++ mid ++ n ++ i) = mkParts (skip c) (skip i) true.
Proof. intros keeps pre k c e1 mid n i H1 H2 H3 H5 H6 H7 H8. apply layout14; assumption. Qed.
Print Assumptions C58_open_end.

(** CONFIG ... END; ... END; ...  without INPUT *)
Theorem C58_no_input_marker : forall keeps pre k c e1 i e2 post,
  spells CONFIG k -> spells END_ e1 -> spells END_ e2 ->
  ~ occurs CONFIG pre -> ~ occurs END_ c -> ~ occurs END_ i -> ~ occurs INPUT (i ++ e2 ++ post) ->
  split_file keeps (pre ++ k ++ c ++ e1 ++ i ++ e2 ++ post) = mkParts (skip c) (skip i) true.
Proof. intros keeps pre k c e1 i e2 post H1 H2 H3 H5 H6 H7 H8. apply layout13; assumption. Qed.
Print Assumptions C58_no_input_marker.

(** CONFIG ... END; ...  with nothing else *)
Theorem C58_only_first_end : forall keeps pre k c e1 i,
  spells CONFIG k -> spells END_ e1 ->
  ~ occurs CONFIG pre -> ~ occurs END_ c -> ~ occurs INPUT (c ++ e1 ++ i) -> ~ occurs END_ i ->
  split_file keeps (pre ++ k ++ c ++ e1 ++ i) = mkParts (skip c) (skip i) true.
Proof.
  intros keeps pre k c e1 i H1 H2 H5 H6 H7 H8. apply layout12; try assumption.
  - intro H. apply H7. apply occurs_app_l. exact H.
  - intro H. apply H7. do 2 apply occurs_app_r. exact H.
Qed.
Print Assumptions C58_only_first_end.

(** CONFIG ... INPUT ... END; ...  without an end of the configuration section *)
Theorem C58_no_first_end : forall keeps pre k c n i e2 post,
  spells CONFIG k -> spells INPUT n -> spells END_ e2 ->
  ~ occurs CONFIG pre -> ~ occurs INPUT c -> ~ occurs END_ (c ++ n ++ i) -> ~ occurs INPUT post -> ~ occurs END_ post ->
  split_file keeps (pre ++ k ++ c ++ n ++ i ++ e2 ++ post) = mkParts (skip c) (skip i) true.
Proof.
  intros keeps pre k c n i e2 post H1 H2 H3 H5 H6 H7 H8 H9. apply layout11; try assumption.
  intro H. apply H7. do 2 apply occurs_app_r. exact H.
Qed.
Print Assumptions C58_no_first_end.

(** CONFIG ... INPUT ...  without any end *)
Theorem C58_no_ends : forall keeps pre k c n i,
  spells CONFIG k -> spells INPUT n -> ~ occurs CONFIG pre -> ~ occurs INPUT c -> ~ occurs END_ (c ++ n ++ i) ->
  split_file keeps (pre ++ k ++ c ++ n ++ i) = mkParts (skip c) (skip i) true.
Proof.
  intros keeps pre k c n i H1 H2 H5 H6 H7. apply layout10; try assumption.
  intro H. apply H7. do 2 apply occurs_app_r. exact H.
Qed.
Print Assumptions C58_no_ends.

Example C58_other_layouts_case :
  split_file true (txt "CONFIG a; INPUT b; END; x") = mkParts (txt "a; ") (txt "b; ") true /\
  split_file true (txt "CONFIG a; end; b;") = mkParts (txt "a; ") (txt "b;") true /\
  split_file true (txt "CONFIG a; end; b; END;") = mkParts (txt "a; ") (txt "b; ") true /\
  split_file true (txt "config a; input b;") = mkParts (txt "a; ") (txt "b;") true.
Proof. vm_compute. auto. Qed.

(** ... INPUT ... END; ...  and  ... END; ...  without a configuration section *)
Theorem C58_input_only : forall keeps pre n i e post,
  spells INPUT n -> spells END_ e -> ~ occurs CONFIG (pre ++ n ++ i ++ e ++ post) -> ~ occurs INPUT pre ->
  ~ occurs END_ (pre ++ n ++ i) -> ~ occurs INPUT post -> ~ occurs END_ post ->
  split_file keeps (pre ++ n ++ i ++ e ++ post) = mkParts [] (skip i) true.
Proof.
  intros keeps pre n i e post H1 H2 H3 H4 H5 H6 H7. apply layout3; try assumption.
  intro H. apply H5. do 2 apply occurs_app_r. exact H.
Qed.
Print Assumptions C58_input_only.

Theorem C58_only_end : forall keeps i e post,
  spells END_ e -> ~ occurs CONFIG (i ++ e ++ post) -> ~ occurs INPUT (i ++ e ++ post) -> ~ occurs END_ i -> ~ occurs END_ post ->
  split_file keeps (i ++ e ++ post) = mkParts [] (skip i) true.
Proof.
  intros keeps i e post H1 H2 H3 H4 H5. apply layout1; try assumption.
  intro H. apply H3. do 2 apply occurs_app_r. exact H.
Qed.
Print Assumptions C58_only_end.

(** With no marker at all, or only INPUT, the text is the system section, provided that the parser takes back the
    characters of an alternative that failed. *)
Theorem C58_bare_partial : forall pre n i,
  (~ occurs CONFIG i -> ~ occurs INPUT i -> ~ occurs END_ i -> split_file false i = mkParts [] (skip i) true) /\
  (spells INPUT n -> ~ occurs CONFIG (pre ++ n ++ i) -> ~ occurs INPUT pre -> ~ occurs END_ (pre ++ n ++ i) ->
   split_file false (pre ++ n ++ i) = mkParts [] (skip i) true).
Proof.
  intros pre n i. split.
  - intros H1 H2 H3. apply layout0; assumption.
  - intros H1 H2 H3 H4. apply layout2; try assumption. intro H. apply H4. do 2 apply occurs_app_r. exact H.
Qed.
Print Assumptions C58_bare_partial.

(** Otherwise the system section comes out twice. *)
Theorem C58_bare_refuted : forall i,
  ~ occurs CONFIG i -> ~ occurs INPUT i -> ~ occurs END_ i -> split_file true i = mkParts [] (skip i ++ skip i) true.
Proof. intros i H1 H2 H3. apply layout0; assumption. Qed.
Print Assumptions C58_bare_refuted.

Example C58_bare_case : split_file true (txt "function f; f=x;") = mkParts [] (txt "function f; f=x;function f; f=x;") true /\
  split_file false (txt "function f; f=x;") = mkParts [] (txt "function f; f=x;") true.
Proof. vm_compute. auto. Qed.

(** For every text, with markers wherever they may be, the two sections are pieces of the text that do not overlap, the
    configuration coming first. *)
Theorem C58_pieces_in_order : forall s : text, exists a b d,
  s = a ++ config (split_file false s) ++ b ++ input (split_file false s) ++ d.
Proof. exact split_factors. Qed.
Print Assumptions C58_pieces_in_order.

(** Taking characters back or not makes no difference to a file with a configuration section. *)
Theorem C58_config_independent : forall keeps s, occurs CONFIG s -> split_file keeps s = split_file false s.
Proof. intros keeps s H. apply split_config_same; [exact H|]. apply config_rule_iff. exact H. Qed.
Print Assumptions C58_config_independent.

(** A configuration section with no end is reported. *)
Theorem C58_unreadable : forall keeps pre k r, spells CONFIG k -> ~ occurs CONFIG pre -> ~ occurs END_ r -> ~ occurs INPUT r ->
  split_file keeps (pre ++ k ++ r) = mkParts [] [] false.
Proof. exact unreadable_config. Qed.
Print Assumptions C58_unreadable.

Example C58_unreadable_case : split_file true (txt "CONFIG a;") = mkParts [] [] false.
Proof. vm_compute. reflexivity. Qed.

(** A marker is found inside a word: a variable named friend ends the section, and one named input1 starts it. *)
Theorem C58_marker_in_word_refuted : forall keeps,
  split_file keeps (txt "CONFIG a; END; variable_group friend; function f; END;") =
    mkParts (txt "a; ") (txt "variable_group fri") true /\
  split_file keeps (txt "CONFIG a; END; variable_group input1; function f; END;") =
    mkParts (txt "a; ") (txt "1; function f; ") true.
Proof. intros keeps. split; destruct keeps; vm_compute; reflexivity. Qed.
Print Assumptions C58_marker_in_word_refuted.

(** A configuration section without its END; followed by one more END; at the very end of the file swallows the system. *)
Theorem C58_trailing_end_refuted : forall keeps,
  split_file keeps (txt "CONFIG a; INPUT b; END; c; END;") = mkParts (txt "a; INPUT b; ") (txt "c; ") true.
Proof. intros keeps. destruct keeps; vm_compute; reflexivity. Qed.
Print Assumptions C58_trailing_end_refuted.
