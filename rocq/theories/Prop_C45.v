(** C45: declaring fresh names. *)
From Coq Require Import String Ascii List Bool.
From Verif Require Import Chars Parser ParserProof Names.
Import ListNotations.
Local Open Scope char_scope.

(** A legal name is accepted exactly when no keyword, no predefined symbol and no declared name is a prefix of it.
    (All names in the table consist of characters of identifiers.) *)
Theorem C45_accepted_iff_partial : forall (names : list text) (nm rest : text),
  chars_ok names -> identifier nm -> ends_name rest ->
  (fresh_name names (nm ++ rest) = Some (nm, rest) <-> (forall p, In p (declarative ++ names) -> ~ prefix p nm)).
Proof. exact fresh_iff. Qed.
Print Assumptions C45_accepted_iff_partial.

Example C45_accepted_case : chars_ok initial_names /\ identifier (txt "x_1[2]") /\ ends_name (txt ", y;") /\
  (forall p, In p (declarative ++ initial_names) -> ~ prefix p (txt "x_1[2]")).
Proof.
  split; [exact initial_chars|]. split; [apply identifier_intro; reflexivity|]. split.
  - apply ends_name_spec. reflexivity.
  - apply no_prefix. vm_compute. reflexivity.
Qed.

(** Whatever is accepted is a legal name, read in full, which was not declared before. *)
Theorem C45_accepted_sound : forall (names : list text) (s nm rest : text),
  fresh_name names s = Some (nm, rest) ->
  identifier nm /\ ends_name rest /\ s = nm ++ rest /\ ~ In nm (declarative ++ names).
Proof. exact fresh_sound. Qed.
Print Assumptions C45_accepted_sound.

Example C45_sound_case : fresh_name initial_names (txt "x1+y") = Some (txt "x1", txt "+y").
Proof. vm_compute. reflexivity. Qed.

(** A declaration of several names, with any white space around them, declares all of them in order when none has a
    keyword, a known symbol or an earlier name as a prefix. *)
Theorem C45_declaration_partial : forall (names l : list text) (s w rest : text),
  chars_ok names -> declarable names l -> written l s -> Forall (fun c => is_space c = true) w ->
  declaration names (s ++ w ++ ";" :: rest) = Some (l, rev l ++ names, rest).
Proof. exact declaration_exact. Qed.
Print Assumptions C45_declaration_partial.

Example C45_declaration_case : declarable initial_names [txt "x"; txt "y"; txt "z1"] /\
  written [txt "x"; txt "y"; txt "z1"] (txt " x,y , z1").
Proof.
  split.
  - cbn [declarable]. split; [apply identifier_intro; reflexivity|]. split; [apply no_prefix; vm_compute; reflexivity|].
    split; [apply identifier_intro; reflexivity|]. split; [apply no_prefix; vm_compute; reflexivity|].
    split; [apply identifier_intro; reflexivity|]. split; [apply no_prefix; vm_compute; reflexivity|]. exact I.
  - apply (written_more (txt " ") (txt "x") [] _ (txt "y , z1")); [repeat constructor|constructor|].
    apply (written_more [] (txt "y") (txt " ") _ (txt " z1")); [constructor|repeat constructor|].
    apply (written_one (txt " ") (txt "z1")). repeat constructor.
Qed.

(** The property itself fails: after x1, the legal and fresh name x10 is rejected; the rejection makes the whole
    declaration fail. *)
Theorem C45_fresh_name_refuted : exists (names : list text) (nm rest : text),
  declaration initial_names (txt "x1;") = Some ([txt "x1"], names, []) /\
  identifier nm /\ ends_name rest /\ ~ In nm (declarative ++ names) /\
  fresh_name names (nm ++ rest) = None /\ declaration names (nm ++ rest) = None.
Proof.
  exists (txt "x1" :: initial_names), (txt "x10"), (txt ";"). split; [vm_compute; reflexivity|].
  split; [apply identifier_intro; reflexivity|]. split; [apply ends_name_spec; reflexivity|].
  split; [|split; vm_compute; reflexivity].
  intro H. vm_compute in H. repeat (destruct H as [H|H]; [discriminate|]). exact H.
Qed.
Print Assumptions C45_fresh_name_refuted.

(** A new parser already rejects every name which begins with e, E, i, I, pi or Pi. *)
Theorem C45_first_letter_refuted : forall c r rest, In c ["e"; "E"; "i"; "I"] ->
  fresh_name initial_names ((c :: r) ++ rest) = None.
Proof.
  intros c r rest Hc. unfold fresh_name. destruct (longest declarative ((c :: r) ++ rest)) as [|]; [reflexivity|].
  destruct (longest initial_names ((c :: r) ++ rest)) eqn:E; [reflexivity|].
  pose proof (proj1 (longest_none_iff _ _) E [c]) as H. exfalso. apply H; [|exists (r ++ rest); reflexivity].
  cbn in Hc |- *. intuition (subst; auto 10).
Qed.
Print Assumptions C45_first_letter_refuted.

Example C45_first_letter_case : In "e" ["e"; "E"; "i"; "I"] /\ identifier (txt "eps") /\ identifier (txt "index").
Proof. split; [left; reflexivity|]. split; apply identifier_intro; reflexivity. Qed.
