(** C69: multiprecision numbers written are read back. *)
From Coq Require Import String Ascii List Arith Lia Bool.
From Verif Require Import Chars NumLit NumText.
Import ListNotations.
Local Open Scope char_scope.

(** A real number in decimal notation, with white space around it, is read in full: the text given to the constructor is the
    text written (with e for the exponent mark), and the digits asked for are at least its length, the default precision
    and 20. *)
Theorem C69_real_partial : forall d w m b e v w', Forall (fun c => is_space c = true) w -> Forall (fun c => is_space c = true) w' ->
  sign m -> mantissa b -> exponent e v ->
  exists p, parse_real d (w ++ generate_real (m ++ b ++ e) ++ w') = Some (m ++ b ++ v, p) /\
    p = Nat.max (length (m ++ b ++ v)) (Nat.max d 20).
Proof. intros d w m b e v w' Hw Hw' Hm Hb He. eexists. split; [exact (real_back d w m b e v w' Hw Hw' Hm Hb He)|reflexivity]. Qed.
Print Assumptions C69_real_partial.

(** So is a complex number, with the digits of the longer of its parts. *)
Theorem C69_complex_partial : forall d m b e v m' b' e' v',
  sign m -> mantissa b -> exponent e v -> sign m' -> mantissa b' -> exponent e' v' ->
  exists p, parse_complex d (generate_complex (m ++ b ++ e) (m' ++ b' ++ e')) = Some (m ++ b ++ v, m' ++ b' ++ v', p) /\
    length (m ++ b ++ v) <= p /\ length (m' ++ b' ++ v') <= p /\ d <= p /\ 20 <= p.
Proof.
  intros d m b e v m' b' e' v' Hm Hb He Hm' Hb' He'. eexists. split; [exact (complex_back d m b e v m' b' e' v' Hm Hb He Hm' Hb' He')|].
  unfold digits_for, lowest_multiple_precision. lia.
Qed.
Print Assumptions C69_complex_partial.

Example C69_complex_case : sign ["-"] /\ mantissa (txt "1.5") /\ exponent (txt "e-07") (txt "e-07") /\
  parse_complex 16 (generate_complex (txt "-1.5e-07") (txt "0.25")) = Some (txt "-1.5e-07", txt "0.25", 20).
Proof.
  split; [constructor|]. split; [apply (mant_point (txt "1") (txt "5")); [repeat constructor|repeat constructor|left; discriminate]|].
  split; [|vm_compute; reflexivity].
  apply (exp_some "e" ["-"] (txt "07")); [left; reflexivity|constructor|split; [discriminate|repeat constructor]].
Qed.

(** Whatever is read is a decimal literal or a whole number with two signs, with white space around it. *)
Theorem C69_read_only : forall d s v p, parse_real d s = Some (v, p) ->
  exists w l w', s = (w ++ l ++ w') /\ Forall (fun c => is_space c = true) w /\ Forall (fun c => is_space c = true) w' /\
    (decimal l \/ doubly_signed l) /\ length v <= p.
Proof.
  intros d s v p H. destruct (real_some d s v p H) as [w [l [w' [A [B [C [D [_ E]]]]]]]]. exists w, l, w'. auto.
Qed.
Print Assumptions C69_read_only.

(** No number with a plus sign in its exponent is read back, *)
Theorem C69_exponent_refuted : forall d m b c r, sign m -> mantissa b -> c = "e" \/ c = "E" ->
  parse_real d (generate_real (m ++ b ++ c :: "+" :: r)) = None.
Proof. exact real_plus. Qed.
Print Assumptions C69_exponent_refuted.

(** nor any complex number with such a part. *)
Theorem C69_complex_exponent_refuted : forall d m b c r, sign m -> mantissa b -> c = "e" \/ c = "E" ->
  (forall im, parse_complex d (generate_complex (m ++ b ++ c :: "+" :: r) im) = None) /\
  (forall m' b' e v, sign m' -> mantissa b' -> exponent e v -> parse_complex d (generate_complex (m' ++ b' ++ e) (m ++ b ++ c :: "+" :: r)) = None).
Proof.
  intros d m b c r Hm Hb Hc. split; [intro im; exact (complex_plus_re d m b c r im Hm Hb Hc)|].
  intros m' b' e v Hm' Hb' He. exact (complex_plus_im d m' b' e v m b c r Hm' Hb' He Hm Hb Hc).
Qed.
Print Assumptions C69_complex_exponent_refuted.

Example C69_exponent_case : parse_real 16 (generate_real (txt "1.5e+30")) = None /\ parse_real 16 (generate_real (txt "1.5e30")) <> None.
Proof. split; [vm_compute; reflexivity|vm_compute; discriminate]. Qed.

(** Numbers that are not finite are not read back, nor is a complex number written without its imaginary part. *)
Theorem C69_other_refuted : forall d, parse_real d (txt "nan") = None /\ parse_real d (txt "inf") = None /\
  parse_real d (txt "-inf") = None /\ parse_complex d (txt "1.5") = None.
Proof. intro d. split; [|split; [|split]]; vm_compute; reflexivity. Qed.
Print Assumptions C69_other_refuted.
