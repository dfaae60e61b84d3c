(** C57: the number grammar. *)
From Coq Require Import String Ascii List Bool.
From Verif Require Import Chars NumLit.
Import ListNotations.
Local Open Scope char_scope.

(** Every decimal literal (sign, digits with an optional point, exponent) is accepted in full, and the text handed to
    the number constructor is the literal with e for the exponent mark. *)
Theorem C57_decimal_accepted : forall m b e v, sign m -> mantissa b -> exponent e v ->
  number_string (m ++ b ++ e) = Some (m ++ b ++ v, []).
Proof. exact number_exact. Qed.
Print Assumptions C57_decimal_accepted.

Example C57_decimal_case : sign ["-"] /\ mantissa (txt "12.") /\ exponent (txt "E-3") (txt "e-3").
Proof.
  split; [constructor|]. split.
  - apply (mant_point (txt "12") []); [repeat constructor|constructor|left; discriminate].
  - apply (exp_some "E" ["-"] (txt "3")); [right; reflexivity|constructor|split; [discriminate|repeat constructor]].
Qed.

(** The accepted texts are the decimal literals and the whole numbers with two minus signs. *)
Theorem C57_accepted_iff_partial : forall s : text, accepts number_string s <-> decimal s \/ doubly_signed s.
Proof. exact accepts_iff. Qed.
Print Assumptions C57_accepted_iff_partial.

(** Hence the grammar accepts a text which is no decimal literal. *)
Theorem C57_two_signs_refuted : exists s, accepts number_string s /\ ~ decimal s.
Proof.
  exists (txt "--2"). split; [exists (txt "--2"); vm_compute; reflexivity|].
  intro H. remember (txt "--2") as s eqn:E. destruct H as [m b e e' Hm Hb He].
  assert (Hb1 : forall r, exists c q, (b ++ r)%list = c :: q /\ c <> "-").
  { intro r. destruct Hb as [d [Hd Ha]|a b Ha Hb Hab].
    - destruct d as [|c d]; [congruence|]. exists c, (d ++ r)%list. split; [reflexivity|]. inversion Ha; subst. intros ->. discriminate.
    - destruct a as [|c a].
      + exists ".", (b ++ r)%list. split; [reflexivity|discriminate].
      + exists c, ((a ++ "." :: b) ++ r)%list. split; [reflexivity|]. inversion Ha; subst. intros ->. discriminate. }
  destruct (Hb1 e) as (c & q & Eq & Hc). rewrite Eq in E. destruct Hm; cbn in E; injection E as E1 E2; congruence.
Qed.
Print Assumptions C57_two_signs_refuted.

(** The rule for rational numbers never reads a fraction: it is the rule for numbers. *)
Theorem C57_rational_refuted : (forall s, rational s = number_string s) /\ ~ accepts rational (txt "1/2").
Proof. split; [exact rational_is_number|]. intros [v H]. vm_compute in H. discriminate. Qed.
Print Assumptions C57_rational_refuted.
