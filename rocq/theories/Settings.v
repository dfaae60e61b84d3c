(** Reading the configuration section: the parsers of core/include/bertini2/io/parsing/settings_parsers/ and
    FillConfigStruct (core/include/bertini2/io/parsing/settings_parsers.hpp:59-72).

    All parsers of structures have the same form (for instance settings_parsers/tracking.hpp:245-350):
    root_rule_ = ((s1 ^ s2 ^ ...) >> -no_setting_) | no_setting_, s = *(char_ - all_names_) >> (no_case[name] >> ':')
    >> value >> ';', no_setting_ = *(char_ - all_names_), all_names_ = (no_case[name1] >> ':') | ...
    The skipper is ascii::space.  What is not modelled: the conversion of the text of a number to double or
    multiple precision (NumTraits::FromString). *)
From Coq Require Import String Ascii List Arith Lia Bool ZArith ListDec.
From Verif Require Import Chars NumLit Split.
Import ListNotations.
Local Open Scope char_scope.

(** the kinds of values: a number as text (number_string_, rational), qi::uint_, qi::int_, the name of a variable
    (settings_parsers/algorithm.hpp:250-254) *)
Inductive kind := Number | Unsigned | Signed | Name.
Inductive value := Text (t : text) | Int (z : Z).

(** a parser of a structure: the settings in the order of the permutation *)
Definition table := list (text * kind).

Definition digit_value (c : ascii) : Z := Z.of_nat (nat_of_ascii c) - 48.
Definition number_of (d : text) : Z := fold_left (fun a c => a * 10 + digit_value c)%Z d 0%Z.

(** qi::uint_: fails when the number does not fit into 32 bits *)
Definition uint (s : text) : option (Z * text) :=
  match digits1 s with
  | Some (d, r) => if (number_of d <? 2 ^ 32)%Z then Some (number_of d, r) else None
  | None => None
  end.

(** qi::int_: an optional sign, and the number has to fit *)
Definition int (s : text) : option (Z * text) :=
  match s with
  | c :: t =>
      if Ascii.eqb c "-" then
        match digits1 t with
        | Some (d, r) => if (number_of d <=? 2 ^ 31)%Z then Some ((- number_of d)%Z, r) else None
        | None => None
        end
      else
        match digits1 (if Ascii.eqb c "+" then t else s) with
        | Some (d, r) => if (number_of d <? 2 ^ 31)%Z then Some (number_of d, r) else None
        | None => None
        end
  | [] => None
  end.

(** the characters of the name of a variable after the first: qi::alnum | char_("[]_") (settings_parsers/algorithm.hpp:250) *)
Definition name_char (c : ascii) : bool :=
  is_alnum c || Ascii.eqb c "[" || Ascii.eqb c "]" || Ascii.eqb c "_".
(** the skipper drops white space between the characters collected by a rule *)
Definition squeeze (s : text) : text := filter (fun c => negb (is_space c)) s.
Definition variable_name (s : text) : option (text * text) :=
  match s with
  | c :: t => if is_alpha c then let (a, r) := span (fun d => name_char d || is_space d) t in Some (c :: squeeze a, r) else None
  | [] => None
  end.

(** the value of a setting; every value parser skips white space first *)
Definition parse_value (k : kind) (s : text) : option (value * text) :=
  match k with
  | Number => match number_string (skip s) with Some (t, r) => Some (Text t, r) | None => None end
  | Unsigned => match uint (skip s) with Some (z, r) => Some (Int z, r) | None => None end
  | Signed => match int (skip s) with Some (z, r) => Some (Int z, r) | None => None end
  | Name => match variable_name (skip s) with Some (t, r) => Some (Text t, r) | None => None end
  end.

(** The rules of the other kinds have a semantic action, which assigns the value.  The rule of a name has none
    (settings_parsers/algorithm.hpp:254): its attribute, a string, collects the characters of all its parts that have an attribute,
    also those of *(char_ - all_names_) before the name of the setting. *)
Definition attribute (k : kind) (before : text) (v : value) : value :=
  match k, v with Name, Text t => Text (squeeze before ++ t) | _, _ => v end.

(** a one-character literal after white space *)
Definition lit (c : ascii) (s : text) : option text :=
  match skip s with d :: r => if Ascii.eqb c d then Some r else None | [] => None end.

(** no_case[name] >> ':' *)
Definition name_at (n s : text) : option text :=
  match strip_nocase n (skip s) with Some r => lit ":" r | None => None end.

Definition is_some {A} (o : option A) : bool := match o with Some _ => true | None => false end.

(** all_names_ *)
Definition any_name (names : list text) (s : text) : bool := existsb (fun n => is_some (name_at n s)) names.

(** *(char_ - all_names_).  The position after it differs from that of the code at most by white space, which is skipped
    by everything that follows. *)
Fixpoint scan (names : list text) (s : text) : text :=
  match s with
  | [] => []
  | c :: t => if is_space c then scan names t else if any_name names s then s else scan names t
  end.

(** the rule of one setting *)
Definition setting (names : list text) (n : text) (k : kind) (s : text) : option (value * text) :=
  match name_at n (scan names s) with
  | Some r => match parse_value k r with
              | Some (v, r2) =>
                  match lit ";" r2 with
                  | Some r3 => Some (attribute k (firstn (length s - length (scan names s)) s) v, r3)
                  | None => None
                  end
              | None => None
              end
  | None => None
  end.

(** the value slots of a structure: a slot is filled once its setting has been read, else the default stays *)
Definition slots := list (option value).

(** one pass of the permutation parser over its elements (boost::spirit::any_if_ns: all elements are tried, those
    already matched are passed over): the slots, the rest and whether some element matched *)
Fixpoint pass (names : list text) (tab : table) (sl : slots) (s : text) : slots * text * bool :=
  match tab, sl with
  | (n, k) :: tab', x :: sl' =>
      match x with
      | Some _ => let '(sl2, s2, b) := pass names tab' sl' s in (x :: sl2, s2, b)
      | None =>
          match setting names n k s with
          | Some (v, r) => let '(sl2, s2, _) := pass names tab' sl' r in (Some v :: sl2, s2, true)
          | None => let '(sl2, s2, b) := pass names tab' sl' s in (None :: sl2, s2, b)
          end
      end
  | _, _ => (sl, s, false)
  end.

(** the permutation parser: passes until one matches nothing.  Each matching pass fills a slot, so as many passes as
    there are settings, and one more, are enough. *)
Fixpoint permutation (fuel : nat) (names : list text) (tab : table) (sl : slots) (s : text) : slots * text :=
  match fuel with
  | O => (sl, s)
  | S fuel' => let '(sl2, s2, b) := pass names tab sl s in
               if b then permutation fuel' names tab sl2 s2 else (sl2, s2)
  end.

(** root_rule_ and FillConfigStruct: None is the exception thrown when the text is not read to its end.  When the
    permutation matches nothing the second alternative no_setting_ is tried from the beginning, which is the same as
    -no_setting_ after nothing. *)
Definition read_settings (tab : table) (s : text) : option slots :=
  let names := map fst tab in
  let '(sl, r) := permutation (S (length tab)) names tab (map (fun _ => None) tab) s in
  match scan names r with [] => Some sl | _ => None end.

(** *** The tables *)

(** settings_parsers/tracking.hpp:245-350 SteppingConfig *)
Definition stepping : table :=
  [(txt "maxstepsize", Number); (txt "stepsuccessfactor", Number); (txt "stepfailfactor", Number);
   (txt "stepsforincrease", Unsigned); (txt "maxnumbersteps", Unsigned)].
(** settings_parsers/tracking.hpp:522-670 AdaptiveMultiplePrecisionConfig *)
Definition amp : table :=
  [(txt "coefficientbound", Number); (txt "degreebound", Number); (txt "epsilon", Number); (txt "phi", Number);
   (txt "psi", Number); (txt "ampsafetydigits1", Signed); (txt "ampsafetydigits2", Signed); (txt "ampmaxprec", Unsigned);
   (txt "maxstepsprecisiondecrease", Unsigned); (txt "maxnumprecdecreases", Unsigned)].
(** settings_parsers/endgames.hpp:45-110 SecurityConfig *)
Definition security : table := [(txt "securitylevel", Signed); (txt "securitymaxnorm", Number)].
(** settings_parsers/endgames.hpp:142-220 EndgameConfig *)
Definition endgame : table :=
  [(txt "samplefactor", Number); (txt "nbhdradius", Number); (txt "numsamplepoints", Unsigned)].
(** settings_parsers/endgames.hpp:254-305 PowerSeriesConfig *)
Definition power_series : table := [(txt "maxcyclenum", Unsigned)].
(** settings_parsers/endgames.hpp:338-400 CauchyConfig *)
Definition cauchy : table := [(txt "cycletimecutoff", Number); (txt "ratiotimecutoff", Number)].
(** settings_parsers/endgames.hpp:432-498 TrackBackConfig *)
Definition track_back : table :=
  [(txt "mincycletrackback", Unsigned); (txt "junkremovaltrackback", Signed); (txt "maxldtdepth", Unsigned)].
(** settings_parsers/algorithm.hpp:44-135 TolerancesConfig *)
Definition tolerances : table :=
  [(txt "tracktolbeforeeg", Number); (txt "tracktolduringeg", Number); (txt "finaltol", Number);
   (txt "pathtruncationthreshold", Number)].
(** settings_parsers/algorithm.hpp:174-316 ZeroDimConfig *)
Definition zero_dim : table :=
  [(txt "initialprec", Signed); (txt "pathvarname", Name); (txt "maxcrossedpathresolves", Signed); (txt "starttime", Number);
   (txt "endgamebdry", Number); (txt "targettime", Number)].
(** settings_parsers/algorithm.hpp:318-373 MidPathConfig *)
Definition mid_path : table := [(txt "midpathtol", Number)].
(** settings_parsers/algorithm.hpp:402-457 AutoRetrackConfig *)
Definition auto_retrack : table := [(txt "retracktolfactor", Number)].
(** settings_parsers/algorithm.hpp:486-563 SharpeningConfig *)
Definition sharpening : table :=
  [(txt "sharpendigits", Unsigned); (txt "functiontolerance", Number); (txt "ratiotolerance", Number)].
(** settings_parsers/algorithm.hpp:596-703 RegenerationConfig *)
Definition regeneration : table :=
  [(txt "regenremoveinf", Signed); (txt "regenhigherdimtest", Signed); (txt "regenstartlevel", Signed);
   (txt "slicetolbeforeeg", Number); (txt "slicetolduringeg", Number); (txt "slicefinaltol", Number)].
(** settings_parsers/algorithm.hpp:737-815 PostProcessingConfig *)
Definition post_processing : table :=
  [(txt "imagthreshold", Number); (txt "endpointfinitethreshold", Number); (txt "endpointsamethreshold", Number)].

Definition tables : list table :=
  [stepping; amp; security; endgame; power_series; cauchy; track_back; tolerances; mid_path; auto_retrack; sharpening;
   regeneration; post_processing].
Definition all_tables : list table := zero_dim :: tables.

(** *** Specification *)

Definition blank (w : text) : Prop := Forall (fun c => is_space c = true) w.

(** how a value is written: a decimal literal (with any number of the digits; two minus signs are allowed before a whole
    number), digits, or digits with a sign *)
Definition small_e (c : ascii) : ascii := if Ascii.eqb c "E" then "e" else c.

Inductive value_text : kind -> text -> value -> Prop :=
| written_number : forall l, decimal l \/ doubly_signed l -> value_text Number l (Text (map small_e l))
| written_unsigned : forall d, digit_string d -> (number_of d < 2 ^ 32)%Z -> value_text Unsigned d (Int (number_of d))
| written_plain : forall d, digit_string d -> (number_of d < 2 ^ 31)%Z -> value_text Signed d (Int (number_of d))
| written_plus : forall d, digit_string d -> (number_of d < 2 ^ 31)%Z -> value_text Signed ("+" :: d) (Int (number_of d))
| written_minus : forall d, digit_string d -> (number_of d <= 2 ^ 31)%Z -> value_text Signed ("-" :: d) (Int (- number_of d))
| written_name : forall c t, is_alpha c = true -> Forall (fun d => name_char d = true \/ is_space d = true) t ->
    value_text Name (c :: t) (Text (c :: squeeze t)).

(** the name, in any mixture of cases, followed by a colon, stands nowhere in the text *)
Definition quiet (names : list text) (s : text) : Prop :=
  forall n a x w b, In n names -> s = a ++ x ++ w ++ ":" :: b -> blank w -> ~ spells n x.

(** name : value ;  with white space between, after the text junk *)
Inductive entry (tab : table) (junk : text) : text -> nat -> value -> Prop :=
| entry_intro : forall i n k x w1 w2 t v w3, nth_error tab i = Some (n, k) -> spells n x -> blank w1 -> blank w2 -> blank w3 ->
    value_text k t v -> entry tab junk (x ++ w1 ++ ":" :: w2 ++ t ++ w3 ++ [";"]) i (attribute k junk v).

(** a configuration text: settings of the structure, in any order, with other text between them *)
Inductive written (tab : table) : text -> list (nat * value) -> Prop :=
| written_end : forall junk, quiet (map fst tab) junk -> written tab junk []
| written_entry : forall junk e i v s l, quiet (map fst tab) junk -> entry tab junk e i v -> written tab s l ->
    written tab (junk ++ e ++ s) ((i, v) :: l).

(** the value a list of settings gives to the i-th member of the structure *)
Fixpoint lookup (i : nat) (l : list (nat * value)) : option value :=
  match l with
  | [] => None
  | (j, v) :: l' => if Nat.eqb i j then Some v else lookup i l'
  end.

(** *** Proofs *)

Lemma small_e_digits : forall d, all_digits d -> map small_e d = d.
Proof.
  intros d H. induction H as [|c d Hc _ IH]; [reflexivity|]. cbn. rewrite IH. f_equal. unfold small_e.
  destruct (Ascii.eqb_spec c "E") as [->|]; [discriminate Hc|reflexivity].
Qed.

Lemma small_e_sign : forall m, sign m -> map small_e m = m.
Proof. intros m []; reflexivity. Qed.

Lemma small_e_mantissa : forall b, mantissa b -> map small_e b = b.
Proof.
  intros b [d [_ Hd]|a c Ha Hc _]; [apply small_e_digits; exact Hd|]. rewrite map_app. cbn [map].
  rewrite (small_e_digits a Ha), (small_e_digits c Hc). reflexivity.
Qed.

Lemma small_e_exponent : forall e v, exponent e v -> map small_e e = v.
Proof.
  intros e v [|c m d Hc Hm [_ Hd]]; [reflexivity|]. cbn [map]. rewrite map_app, (small_e_sign m Hm), (small_e_digits d Hd).
  destruct Hc as [-> | ->]; reflexivity.
Qed.

Lemma number_full : forall l r, decimal l \/ doubly_signed l -> literal_end r -> number_string (l ++ r) = Some (map small_e l, r).
Proof.
  intros l r H Hr. unfold number_string. destruct H as [[m b e v Hm Hb He]|[b e v Hb He]].
  - rewrite !map_app, (small_e_sign m Hm), (small_e_mantissa b Hb), (small_e_exponent e v He).
    rewrite <- !app_assoc. destruct Hb as [d Hd|a c Ha Hc Hac].
    + rewrite (long_number_whole m d e v r Hm Hd He Hr), (integer_exact m d e v r Hm Hd He Hr). reflexivity.
    + rewrite (long_number_exact m (a ++ "." :: c) e v r Hm (pointed_intro a c Ha Hc Hac) He Hr). reflexivity.
  - cbn [map]. rewrite map_app, (small_e_digits b (proj2 Hb)), (small_e_exponent e v He).
    change (("-" :: "-" :: b ++ e) ++ r) with ("-" :: "-" :: (b ++ e) ++ r). rewrite <- app_assoc.
    assert (El : long_number ("-" :: "-" :: b ++ e ++ r) = None) by reflexivity.
    rewrite El. unfold integer_string. cbn [opt_minus]. rewrite Ascii.eqb_refl.
    unfold no_point. cbn [opt_minus]. rewrite Ascii.eqb_refl.
    rewrite digits1_exact by (exact Hb || apply (exponent_start _ _ _ He Hr)).
    rewrite (exponent_exact _ _ _ He Hr). reflexivity.
Qed.

(** the value of the number rule, for every text it accepts *)
Lemma number_some_value : forall s v r, number_string s = Some (v, r) ->
  exists l, s = l ++ r /\ (decimal l \/ doubly_signed l) /\ v = map small_e l.
Proof.
  intros s v r H. unfold number_string in H. destruct (long_number s) as [[v' r']|] eqn:El.
  - assert (E : v' = v /\ r' = r) by (split; congruence). destruct E; subst v' r'. clear H.
    unfold long_number in El. destruct (opt_minus s) as [m r0] eqn:Em.
    destruct (opt_minus_spec _ _ _ Em) as [-> Hm].
    destruct (match digits_after_point r0 with Some x => Some x | None => digits_before_point r0 end) as [[b r1]|] eqn:Eb;
      [|discriminate].
    assert (Hb : r0 = (b ++ r1)%list /\ pointed b).
    { destruct (digits_after_point r0) as [[b' r1']|] eqn:Ea.
      - apply after_point_some. congruence.
      - apply before_point_some. exact Eb. }
    destruct Hb as [-> Hb]. destruct (opt_exponent r1) as [e r2] eqn:Ee. injection El as <- <-.
    destruct (exponent_spec _ _ _ Ee) as (e0 & -> & He). exists (m ++ b ++ e0)%list.
    split; [rewrite <- !app_assoc; reflexivity|]. destruct Hb as [a c Ha Hc Hac]. split.
    + left. econstructor; [exact Hm|constructor 2; assumption|exact He].
    + rewrite !map_app. rewrite (small_e_sign m Hm), (small_e_exponent _ _ He). cbn [map].
      rewrite (small_e_digits a Ha), (small_e_digits c Hc). reflexivity.
  - unfold integer_string in H. destruct (opt_minus s) as [m r0] eqn:Em.
    destruct (opt_minus_spec _ _ _ Em) as [-> Hm]. unfold no_point in H.
    destruct (opt_minus r0) as [m2 r00] eqn:Em2. destruct (opt_minus_spec _ _ _ Em2) as [-> Hm2].
    destruct (digits1 r00) as [[d r1]|] eqn:Ed; [|discriminate].
    destruct (digits1_some _ _ _ Ed) as (-> & Hd & _). destruct (opt_exponent r1) as [e r2] eqn:Ee.
    injection H as <- <-. destruct (exponent_spec _ _ _ Ee) as (e0 & -> & He).
    exists (m ++ m2 ++ d ++ e0). split; [rewrite <- !app_assoc; reflexivity|]. split.
    + destruct Hm2.
      * left. change (m ++ [] ++ d ++ e0) with (m ++ d ++ e0). econstructor; [exact Hm|constructor 1; exact Hd|exact He].
      * destruct Hm.
        -- left. change ([] ++ ["-"] ++ d ++ e0) with (["-"] ++ d ++ e0).
           econstructor; [constructor|constructor 1; exact Hd|exact He].
        -- right. change (["-"] ++ ["-"] ++ d ++ e0) with ("-" :: "-" :: d ++ e0). econstructor; eassumption.
    + rewrite !map_app, (small_e_sign m Hm), (small_e_sign m2 Hm2), (small_e_digits d (proj2 Hd)), (small_e_exponent _ _ He).
      rewrite <- !app_assoc. reflexivity.
Qed.

Lemma skip_blank : forall w s, blank w -> skip (w ++ s) = skip s.
Proof. exact skip_app. Qed.

Lemma digits_not_space : forall d r, digit_string d -> starts is_space (d ++ r) = false.
Proof.
  intros [|c d] r [H Hd]; [congruence|]. cbn. inversion Hd; subst. apply alnum_not_space, digit_alnum. assumption.
Qed.

Lemma decimal_not_space : forall l r, decimal l \/ doubly_signed l -> starts is_space (l ++ r) = false.
Proof.
  intros l r [[m b e v Hm Hb He]|[b e v Hb He]]; [|reflexivity].
  destruct Hm; [|reflexivity]. cbn [app]. destruct Hb as [d Hd|a c Ha Hc Hac].
  - rewrite <- app_assoc. apply digits_not_space. exact Hd.
  - destruct a as [|x a]; [reflexivity|]. cbn. inversion Ha; subst. apply alnum_not_space, digit_alnum. assumption.
Qed.

(** what follows a value does not continue it *)
Lemma blank_end : forall w c s, blank w -> is_alnum c = false -> c <> "." -> literal_end (w ++ c :: s).
Proof.
  intros w c s Hw Hc Hd. destruct w as [|x w].
  - split; cbn; [exact Hc|]. destruct (Ascii.eqb_spec "." c) as [<-|]; [congruence|reflexivity].
  - inversion Hw as [|? ? Hx _]; subst. split; cbn.
    + destruct (is_alnum x) eqn:E; [|reflexivity]. rewrite (alnum_not_space _ E) in Hx. discriminate Hx.
    + destruct (Ascii.eqb_spec "." x) as [<-|]; [discriminate Hx|reflexivity].
Qed.

Lemma lit_exact : forall c w r, blank w -> is_space c = false -> lit c (w ++ c :: r) = Some r.
Proof.
  intros c w r Hw Hc. unfold lit. rewrite (skip_blank w _ Hw), skip_start by exact Hc. rewrite Ascii.eqb_refl. reflexivity.
Qed.

Lemma squeeze_blank : forall w, blank w -> squeeze w = [].
Proof. intros w H. induction H as [|c w Hc _ IH]; [reflexivity|]. cbn. rewrite Hc. exact IH. Qed.

Lemma parse_value_exact : forall k t v w w3 s, value_text k t v -> blank w -> blank w3 ->
  exists r, parse_value k (w ++ t ++ w3 ++ ";" :: s) = Some (v, r) /\ lit ";" r = Some s.
Proof.
  intros k t v w w3 s H Hw Hw3. unfold parse_value.
  assert (Hr : literal_end (w3 ++ ";" :: s)) by (apply blank_end; [exact Hw3|reflexivity|discriminate]).
  assert (Hl : lit ";" (w3 ++ ";" :: s) = Some s) by (apply lit_exact; [exact Hw3|reflexivity]).
  set (r := w3 ++ ";" :: s) in *. rewrite (skip_blank w _ Hw).
  assert (Hrd := literal_end_digit r Hr).
  destruct H as [l Hv|d Hd Hb|d Hd Hb|d Hd Hb|d Hd Hb|c t Hc Ht]; [exists r; split; [|exact Hl]..|].
  - rewrite skip_start by (apply decimal_not_space; exact Hv). rewrite (number_full l r Hv Hr). reflexivity.
  - rewrite skip_start by (apply digits_not_space; exact Hd). unfold uint. rewrite (digits1_exact d r Hd Hrd).
    rewrite (proj2 (Z.ltb_lt _ _) Hb). reflexivity.
  - rewrite skip_start by (apply digits_not_space; exact Hd). unfold int.
    pose proof (digits1_exact d r Hd Hrd) as E.
    destruct (d ++ r) as [|c t] eqn:Ed; [discriminate E|].
    assert (Hc : is_digit c = true).
    { destruct Hd as [Hd1 Hd2]. destruct d as [|c' d']; [congruence|]. cbn in Ed. injection Ed as <- _. inversion Hd2; assumption. }
    destruct (Ascii.eqb_spec c "-") as [->|_]; [discriminate Hc|].
    destruct (Ascii.eqb_spec c "+") as [->|_]; [discriminate Hc|].
    rewrite E, (proj2 (Z.ltb_lt _ _) Hb). reflexivity.
  - rewrite skip_start by reflexivity. unfold int. cbn [app]. change (Ascii.eqb "+" "-") with false. change (Ascii.eqb "+" "+") with true.
    cbn iota. rewrite (digits1_exact d r Hd Hrd), (proj2 (Z.ltb_lt _ _) Hb). reflexivity.
  - rewrite skip_start by reflexivity. unfold int. cbn [app]. change (Ascii.eqb "-" "-") with true.
    cbn iota. rewrite (digits1_exact d r Hd Hrd), (proj2 (Z.leb_le _ _) Hb). reflexivity.
  - exists (";" :: s). split; [|reflexivity]. rewrite skip_start.
    2: { cbn. apply alnum_not_space. unfold is_alnum. rewrite Hc. reflexivity. }
    cbn [app variable_name]. rewrite Hc. unfold r. rewrite app_assoc, (span_exact _ (t ++ w3) (";" :: s)).
    + unfold squeeze. rewrite filter_app. fold (squeeze t). fold (squeeze w3). rewrite (squeeze_blank w3 Hw3), app_nil_r. reflexivity.
    + apply Forall_app. split.
      * eapply Forall_impl; [|exact Ht]. intros a [Ha|Ha]; rewrite Ha; [reflexivity|apply orb_true_r].
      * eapply Forall_impl; [|exact Hw3]. intros a Ha. rewrite Ha. apply orb_true_r.
    + reflexivity.
Qed.

Lemma parse_value_some : forall k s v r, parse_value k s = Some (v, r) ->
  exists w t, s = w ++ t ++ r /\ blank w /\ value_text k t v.
Proof.
  intros k s v r H. destruct (skip_split s) as (w & Hw & Es). exists w. unfold parse_value in H. destruct k.
  - destruct (number_string (skip s)) as [[t r']|] eqn:E; [|discriminate H]. injection H as <- <-.
    destruct (number_some_value _ _ _ E) as (l & El & Hl & ->). exists l. split; [rewrite Es at 1; rewrite El; reflexivity|].
    split; [exact Hw|]. constructor. exact Hl.
  - unfold uint in H. destruct (digits1 (skip s)) as [[d r']|] eqn:E; [|discriminate H].
    destruct (Z.ltb_spec (number_of d) (2 ^ 32)) as [Hb|]; [|discriminate H]. injection H as <- <-.
    destruct (digits1_some _ _ _ E) as (Ed & Hd & _). exists d. split; [rewrite Es at 1; rewrite Ed; reflexivity|].
    split; [exact Hw|]. constructor; assumption.
  - unfold int in H. destruct (skip s) as [|c t] eqn:Et; [discriminate H|].
    destruct (Ascii.eqb_spec c "-") as [->|_].
    + destruct (digits1 t) as [[d r']|] eqn:E; [|discriminate H].
      destruct (Z.leb_spec (number_of d) (2 ^ 31)) as [Hb|]; [|discriminate H]. injection H as <- <-.
      destruct (digits1_some _ _ _ E) as (Ed & Hd & _). exists ("-" :: d). split; [rewrite Es, Ed; reflexivity|].
      split; [exact Hw|]. constructor; assumption.
    + destruct (Ascii.eqb_spec c "+") as [->|_].
      * destruct (digits1 t) as [[d r']|] eqn:E; [|discriminate H].
        destruct (Z.ltb_spec (number_of d) (2 ^ 31)) as [Hb|]; [|discriminate H]. injection H as <- <-.
        destruct (digits1_some _ _ _ E) as (Ed & Hd & _). exists ("+" :: d). split; [rewrite Es, Ed; reflexivity|].
        split; [exact Hw|]. constructor; assumption.
      * destruct (digits1 (c :: t)) as [[d r']|] eqn:E; [|discriminate H].
        destruct (Z.ltb_spec (number_of d) (2 ^ 31)) as [Hb|]; [|discriminate H]. injection H as <- <-.
        destruct (digits1_some _ _ _ E) as (Ed & Hd & _). exists d. split; [rewrite Es, Ed; reflexivity|].
        split; [exact Hw|]. constructor; assumption.
  - unfold variable_name in H. destruct (skip s) as [|c t] eqn:Et; [discriminate H|].
    destruct (is_alpha c) eqn:Ec; [|discriminate H].
    destruct (span (fun d => name_char d || is_space d) t) as [a r'] eqn:E. injection H as <- <-.
    exists (c :: a). split; [rewrite Es, (span_app _ _ _ _ E); reflexivity|]. split; [exact Hw|]. constructor; [exact Ec|].
    eapply Forall_impl; [|exact (span_all _ _ _ _ E)]. intros d Hd. apply orb_true_iff in Hd. exact Hd.
Qed.

Lemma lit_some : forall c s r, lit c s = Some r -> exists w, s = w ++ c :: r /\ blank w.
Proof.
  intros c s r H. unfold lit in H. destruct (skip_split s) as (w & Hw & Es). destruct (skip s) as [|d t]; [discriminate H|].
  destruct (Ascii.eqb_spec c d) as [<-|]; [|discriminate H]. injection H as <-. exists w. split; [exact Es|exact Hw].
Qed.

(** names consist of characters other than white space and the colon *)
Definition plain (n : text) : Prop := n <> [] /\ Forall (fun c => is_space c = false /\ c <> ":") n.

Lemma colon_lower : forall d, d = ":" <-> lower d = ":".
Proof.
  intro d. destruct d as [b0 b1 b2 b3 b4 b5 b6 b7]; destruct b0, b1, b2, b3, b4, b5, b6, b7; vm_compute; split; intro H;
    solve [reflexivity | discriminate H].
Qed.

Lemma spells_plain : forall n x, plain n -> spells n x -> plain x.
Proof.
  intros n x [Hne Hf] Hx. unfold spells in Hx. split.
  - intros ->. destruct n; [congruence|discriminate Hx].
  - clear Hne. revert x Hx. induction Hf as [|c n [Hc Hc2] _ IH]; intros x Hx; destruct x as [|d x]; try discriminate Hx; constructor.
    + cbn in Hx. injection Hx as E _. split.
      * rewrite space_lower, E, <- space_lower. exact Hc.
      * intro Hd. apply Hc2. apply (proj2 (colon_lower c)). rewrite <- E. apply (proj1 (colon_lower d)). exact Hd.
    + apply IH. cbn in Hx. injection Hx as _ E. exact E.
Qed.

Lemma plain_start : forall x r, plain x -> starts is_space (x ++ r) = false.
Proof. intros [|c x] r [H Hf]; [congruence|]. cbn. inversion Hf as [|? ? [Hc _] _]; subst. exact Hc. Qed.

Lemma name_at_exact : forall n x w r, plain n -> spells n x -> blank w -> name_at n (x ++ w ++ ":" :: r) = Some r.
Proof.
  intros n x w r Hp Hx Hw. unfold name_at. rewrite skip_start by (apply plain_start; eapply spells_plain; eassumption).
  rewrite (strip_nocase_app n x _ Hx). apply lit_exact; [exact Hw|reflexivity].
Qed.

Lemma name_at_some : forall n s r, starts is_space s = false -> name_at n s = Some r ->
  exists x w, s = x ++ w ++ ":" :: r /\ spells n x /\ blank w.
Proof.
  intros n s r Hs H. unfold name_at in H. rewrite (skip_start s Hs) in H.
  destruct (strip_nocase n s) as [t|] eqn:E; [|discriminate H]. destruct (strip_nocase_some _ _ _ E) as (x & -> & Hx).
  destruct (lit_some _ _ _ H) as (w & -> & Hw). exists x, w. split; [reflexivity|]. split; assumption.
Qed.

Lemma blank_no_colon : forall w, blank w -> ~ In ":" w.
Proof. intros w H Hin. unfold blank in H. rewrite Forall_forall in H. specialize (H _ Hin). discriminate H. Qed.

Lemma plain_no_colon : forall x, plain x -> ~ In ":" x.
Proof. intros x [_ H] Hin. rewrite Forall_forall in H. destruct (H _ Hin) as [_ Hc]. congruence. Qed.

(** a text is cut at its first colon in one way only *)
Lemma first_colon : forall a b a' b', ~ In ":" a -> ~ In ":" a' -> a ++ ":" :: b = a' ++ ":" :: b' -> a = a' /\ b = b'.
Proof.
  induction a as [|c a IH]; intros b a' b' Ha Ha' E; destruct a' as [|c' a']; cbn in E.
  - injection E as E. split; [reflexivity|exact E].
  - injection E as <- _. exfalso. apply Ha'. left. reflexivity.
  - injection E as -> _. exfalso. apply Ha. left. reflexivity.
  - injection E as <- E. destruct (IH b a' b') as [-> ->]; [|  |exact E|split; reflexivity].
    + intro H. apply Ha. right. exact H.
    + intro H. apply Ha'. right. exact H.
Qed.

(** white space at the end of a text whose rest does not end in white space is determined by the text *)
Lemma plain_last : forall x, plain x -> exists y c, x = y ++ [c] /\ is_space c = false.
Proof.
  intros x [Hne Hf]. destruct (exists_last Hne) as (y & c & E). exists y, c. split; [exact E|].
  rewrite E in Hf. apply Forall_app in Hf. destruct Hf as [_ Hf]. inversion Hf as [|? ? [Hc _] _]; subst. exact Hc.
Qed.

Lemma trailing_blank : forall y c w y' c' w', is_space c = false -> is_space c' = false -> blank w -> blank w' ->
  (y ++ [c]) ++ w = (y' ++ [c']) ++ w' -> y ++ [c] = y' ++ [c'] /\ w = w'.
Proof.
  intros y c w y' c' w' Hc Hc' Hw Hw' E.
  assert (R : rev w ++ c :: rev y = rev w' ++ c' :: rev y').
  { apply (f_equal (@rev ascii)) in E. rewrite !rev_app_distr in E. cbn in E. exact E. }
  assert (Hrw : forall v : text, blank v -> blank (rev v)).
  { intros v Hv. unfold blank in *. rewrite Forall_forall in *. intros z Hz. apply Hv. apply in_rev. exact Hz. }
  assert (S1 : span is_space (rev w ++ c :: rev y) = (rev w, c :: rev y)) by (apply span_exact; [apply Hrw; exact Hw|exact Hc]).
  assert (S2 : span is_space (rev w' ++ c' :: rev y') = (rev w', c' :: rev y')) by (apply span_exact; [apply Hrw; exact Hw'|exact Hc']).
  rewrite R in S1. rewrite S1 in S2.
  assert (Ew : rev w = rev w') by congruence.
  assert (Ec : c :: rev y = c' :: rev y') by congruence.
  apply (f_equal (@rev ascii)) in Ew. rewrite !rev_involutive in Ew. split; [|exact Ew].
  apply (f_equal (@rev ascii)) in Ec. cbn in Ec. rewrite !rev_involutive in Ec. exact Ec.
Qed.

(** Well-formed tables: names are plain, and no name ends in another name. *)
Definition suffix_free (names : list text) : Prop :=
  forall n m a, In n names -> In m names -> map lower m = a ++ map lower n -> a = [].
Definition names_ok (names : list text) : Prop :=
  (forall n, In n names -> plain n) /\ suffix_free names /\ NoDup (map (map lower) names).

Section Names.
Context (names : list text) (Hok : names_ok names).

Lemma any_name_true : forall s n r, In n names -> name_at n s = Some r -> any_name names s = true.
Proof.
  intros s n r Hin H. unfold any_name. apply existsb_exists. exists n. split; [exact Hin|]. rewrite H. reflexivity.
Qed.

Lemma any_name_some : forall s, any_name names s = true -> exists n r, In n names /\ name_at n s = Some r.
Proof.
  intros s H. unfold any_name in H. apply existsb_exists in H. destruct H as (n & Hin & H).
  destruct (name_at n s) as [r|] eqn:E; [|discriminate H]. exists n, r. split; [exact Hin|exact E].
Qed.

Lemma quiet_cons : forall c s, quiet names (c :: s) -> quiet names s.
Proof. intros c s H n a x w b Hin E Hw. apply (H n (c :: a) x w b Hin); [cbn; rewrite E; reflexivity|exact Hw]. Qed.

Lemma scan_quiet : forall s, quiet names s -> scan names s = [].
Proof.
  induction s as [|c s IH]; intro H; [reflexivity|]. cbn [scan]. rewrite IH by (eapply quiet_cons; exact H).
  destruct (is_space c) eqn:Ec; [reflexivity|]. destruct (any_name names (c :: s)) eqn:E; [exfalso|reflexivity].
  destruct (any_name_some _ E) as (n & r & Hin & Hn). destruct (name_at_some n (c :: s) r Ec Hn) as (x & w & Es & Hx & Hw).
  exact (H n [] x w r Hin Es Hw Hx).
Qed.

(** scanning stops exactly at the next name *)
Lemma scan_exact : forall junk n x w r, quiet names junk -> In n names -> spells n x -> blank w ->
  scan names (junk ++ x ++ w ++ ":" :: r) = x ++ w ++ ":" :: r.
Proof.
  destruct Hok as [Hplain [Hsuf _]]. intros junk n x w r Hq Hin Hx Hw.
  assert (Px : plain x) by (apply (spells_plain n); [apply Hplain; exact Hin|exact Hx]).
  induction junk as [|c junk IH].
  - cbn [app]. pose proof (name_at_exact n x w r (Hplain n Hin) Hx Hw) as E.
    pose proof (plain_start x (w ++ ":" :: r) Px) as Hs.
    destruct (x ++ w ++ ":" :: r) as [|d t] eqn:Ed; [reflexivity|]. cbn [scan]. cbn in Hs. rewrite Hs.
    rewrite (any_name_true _ n r Hin E). reflexivity.
  - cbn [app scan]. rewrite IH by (eapply quiet_cons; exact Hq). destruct (is_space c) eqn:Ec; [reflexivity|].
    destruct (any_name names (c :: junk ++ x ++ w ++ ":" :: r)) eqn:E; [exfalso|reflexivity].
    destruct (any_name_some _ E) as (m & r' & Hm & Hn).
    destruct (name_at_some m (c :: junk ++ x ++ w ++ ":" :: r) r' Ec Hn) as (y & w' & Es & Hy & Hw').
    assert (Py : plain y) by (apply (spells_plain m); [apply Hplain; exact Hm|exact Hy]).
    assert (Hnc : ~ In ":" (y ++ w')).
    { intro H. apply in_app_or in H. destruct H as [H|H]; [exact (plain_no_colon y Py H)|exact (blank_no_colon w' Hw' H)]. }
    destruct (in_dec ascii_dec ":" (c :: junk)) as [Hj|Hj].
    + (* the colon lies in the junk *)
      apply in_split in Hj. destruct Hj as (j1 & j2 & Ej).
      assert (Hfirst : exists j1 j2, c :: junk = j1 ++ ":" :: j2 /\ ~ In ":" j1).
      { clear - Ej. revert j1 j2 Ej. generalize (c :: junk) as u. induction u as [|d u IHu]; intros j1 j2 Ej.
        - destruct j1; discriminate Ej.
        - destruct (ascii_dec d ":") as [->|Hd].
          + exists [], u. split; [reflexivity|]. intros [].
          + destruct j1 as [|d' j1]; [injection Ej as -> _; congruence|]. cbn in Ej. injection Ej as _ Ej.
            destruct (IHu _ _ Ej) as (k1 & k2 & Ek & Hk). exists (d :: k1), k2. split; [cbn; rewrite Ek; reflexivity|].
            intros [H|H]; [congruence|exact (Hk H)]. }
      destruct Hfirst as (k1 & k2 & Ek & Hk).
      assert (E2 : k1 ++ ":" :: (k2 ++ x ++ w ++ ":" :: r) = (y ++ w') ++ ":" :: r').
      { transitivity (c :: junk ++ x ++ w ++ ":" :: r); [|rewrite Es, <- app_assoc; reflexivity].
        transitivity ((c :: junk) ++ x ++ w ++ ":" :: r); [|reflexivity]. rewrite Ek, <- app_assoc. reflexivity. }
      destruct (first_colon _ _ _ _ Hk Hnc E2) as [Ek1 _].
      apply (Hq m [] y w' k2 Hm); [|exact Hw'|exact Hy]. cbn [app]. rewrite Ek, Ek1, <- app_assoc. reflexivity.
    + assert (Hnj : ~ In ":" (((c :: junk) ++ x) ++ w)).
      { intro H. apply in_app_or in H. destruct H as [H|H]; [|exact (blank_no_colon w Hw H)].
        apply in_app_or in H. destruct H as [H|H]; [exact (Hj H)|exact (plain_no_colon x Px H)]. }
      assert (E2 : (((c :: junk) ++ x) ++ w) ++ ":" :: r = (y ++ w') ++ ":" :: r').
      { transitivity (c :: junk ++ x ++ w ++ ":" :: r); [cbn; rewrite <- !app_assoc; reflexivity|].
        rewrite Es, <- app_assoc. reflexivity. }
      destruct (first_colon _ _ _ _ Hnj Hnc E2) as [E3 _].
      destruct (plain_last x Px) as (x0 & cx & Ex & Hcx). destruct (plain_last y Py) as (y0 & cy & Ey & Hcy).
      rewrite Ex, Ey in E3. rewrite app_assoc in E3.
      destruct (trailing_blank _ _ _ _ _ _ Hcx Hcy Hw Hw' E3) as [E4 _].
      rewrite <- app_assoc, <- Ex, <- Ey in E4.
      assert (E5 : map lower m = map lower (c :: junk) ++ map lower n).
      { unfold spells in Hx, Hy. rewrite <- Hy, <- E4, map_app, Hx. reflexivity. }
      pose proof (Hsuf n m _ Hin Hm E5) as E6. discriminate E6.
Qed.

Lemma scan_split : forall s, exists junk, s = junk ++ scan names s /\ quiet names junk /\
  (scan names s = [] \/ (any_name names (scan names s) = true /\ starts is_space (scan names s) = false)).
Proof.
  destruct Hok as [Hplain _]. induction s as [|c s IH].
  - exists []. split; [reflexivity|]. split; [|left; reflexivity]. intros n a x w b Hin E. destruct a, x, w; discriminate E.
  - cbn [scan]. destruct IH as (junk & Es & Hq & Hr).
    assert (Hstep : any_name names (c :: s) = false \/ is_space c = true -> quiet names (c :: junk)).
    { intros Hc n a x w b Hin E Hw Hx. destruct a as [|a0 a].
      - cbn [app] in E. assert (Px : plain x) by (apply (spells_plain n); [apply Hplain; exact Hin|exact Hx]).
        assert (Es2 : c :: s = x ++ w ++ ":" :: (b ++ scan names s)).
        { rewrite Es at 1. transitivity ((c :: junk) ++ scan names s); [reflexivity|]. rewrite E, <- !app_assoc. reflexivity. }
        destruct Hc as [Hc|Hc].
        + pose proof (name_at_exact n x w (b ++ scan names s) (Hplain n Hin) Hx Hw) as Hn. rewrite <- Es2 in Hn.
          rewrite (any_name_true _ n _ Hin Hn) in Hc. discriminate Hc.
        + pose proof (plain_start x (w ++ ":" :: b ++ scan names s) Px) as Hs. rewrite <- Es2 in Hs. cbn in Hs. congruence.
      - cbn in E. injection E as _ E. exact (Hq n a x w b Hin E Hw Hx). }
    destruct (is_space c) eqn:Ec.
    + exists (c :: junk). split; [cbn; rewrite Es at 1; reflexivity|]. split; [apply Hstep; right; reflexivity|exact Hr].
    + destruct (any_name names (c :: s)) eqn:E.
      * exists []. split; [reflexivity|]. split; [|right; split; [exact E|exact Ec]].
        intros n a x w b Hin E2. destruct a, x, w; discriminate E2.
      * exists (c :: junk). split; [cbn; rewrite Es at 1; reflexivity|]. split; [apply Hstep; left; reflexivity|exact Hr].
Qed.

(** two names at one place are the same *)
Lemma name_unique : forall n m x w r y w' r', In n names -> In m names -> spells n x -> spells m y -> blank w -> blank w' ->
  x ++ w ++ ":" :: r = y ++ w' ++ ":" :: r' -> n = m /\ x = y /\ w = w' /\ r = r'.
Proof.
  destruct Hok as [Hplain [_ Hnd]]. intros n m x w r y w' r' Hn Hm Hx Hy Hw Hw' E.
  assert (Px : plain x) by (apply (spells_plain n); [apply Hplain; exact Hn|exact Hx]).
  assert (Py : plain y) by (apply (spells_plain m); [apply Hplain; exact Hm|exact Hy]).
  rewrite !app_assoc in E.
  assert (H1 : ~ In ":" (x ++ w)).
  { intro H. apply in_app_or in H. destruct H as [H|H]; [exact (plain_no_colon x Px H)|exact (blank_no_colon w Hw H)]. }
  assert (H2 : ~ In ":" (y ++ w')).
  { intro H. apply in_app_or in H. destruct H as [H|H]; [exact (plain_no_colon y Py H)|exact (blank_no_colon w' Hw' H)]. }
  destruct (first_colon _ _ _ _ H1 H2 E) as [E2 Er].
  destruct (plain_last x Px) as (x0 & cx & Ex & Hcx). destruct (plain_last y Py) as (y0 & cy & Ey & Hcy).
  rewrite Ex, Ey in E2. destruct (trailing_blank _ _ _ _ _ _ Hcx Hcy Hw Hw' E2) as [E3 Ew].
  rewrite <- Ex, <- Ey in E3. split; [|split; [exact E3|split; [exact Ew|exact Er]]].
  assert (El : map lower n = map lower m) by (unfold spells in Hx, Hy; rewrite <- Hx, E3; exact Hy).
  clear - Hnd Hn Hm El. induction names as [|a l IH]; [destruct Hn|].
  cbn in Hnd. inversion Hnd as [|? ? Hni Hnd']; subst. destruct Hn as [<-|Hn], Hm as [<-|Hm].
  - reflexivity.
  - exfalso. apply Hni. rewrite El. apply in_map. exact Hm.
  - exfalso. apply Hni. rewrite <- El. apply in_map. exact Hn.
  - apply IH; assumption.
Qed.
End Names.

Section Table.
Context (tab : table) (Hok : names_ok (map fst tab)).
Let names := map fst tab.

Lemma nth_name : forall i n k, nth_error tab i = Some (n, k) -> In n names.
Proof. intros i n k H. unfold names. apply in_map_iff. exists (n, k). split; [reflexivity|]. eapply nth_error_In. exact H. Qed.

(** the settings read from the front of a text *)
Inductive reads : text -> list (nat * value) -> text -> Prop :=
| reads_nil : forall s, reads s [] s
| reads_cons : forall junk e i v s l r, quiet names junk -> entry tab junk e i v -> reads s l r ->
    reads (junk ++ e ++ s) ((i, v) :: l) r.

Lemma reads_app : forall s l r l2 r2, reads s l r -> reads r l2 r2 -> reads s (l ++ l2) r2.
Proof.
  intros s l r l2 r2 H H2. induction H as [s|junk e i v s l r Hq He _ IH]; [exact H2|]. cbn. constructor; auto.
Qed.

Lemma reads_written : forall s l r, reads s l r -> quiet names r -> written tab s l.
Proof.
  intros s l r H Hr. induction H as [s|junk e i v s l r Hq He _ IH]; [constructor; exact Hr|].
  constructor; auto.
Qed.

Lemma index_unique : forall i j n k k', nth_error tab i = Some (n, k) -> nth_error tab j = Some (n, k') -> i = j.
Proof.
  intros i j n k k' Hi Hj. destruct Hok as [_ [_ Hnd]].
  assert (Hnd2 : NoDup (map fst tab)) by (apply NoDup_map_inv in Hnd; exact Hnd).
  rewrite NoDup_nth_error in Hnd2. apply Hnd2.
  - apply nth_error_Some. rewrite nth_error_map, Hi. discriminate.
  - rewrite !nth_error_map, Hi, Hj. reflexivity.
Qed.

Lemma firstn_junk : forall a b : text, firstn (length (a ++ b) - length b) (a ++ b) = a.
Proof. intros a b. rewrite app_length, Nat.add_sub, firstn_app, Nat.sub_diag, firstn_all, app_nil_r. reflexivity. Qed.

(** the rule of a setting succeeds exactly on a text whose next setting is that one *)
Lemma setting_exact : forall junk e i v s, quiet names junk -> entry tab junk e i v ->
  forall j n k, nth_error tab j = Some (n, k) ->
  setting names n k (junk ++ e ++ s) = if Nat.eqb j i then Some (v, s) else None.
Proof.
  intros junk e i v s Hq He j n k Hj. destruct He as [i m k' x w1 w2 t v w3 Hi Hx Hw1 Hw2 Hw3 Hv].
  assert (E : (x ++ w1 ++ ":" :: w2 ++ t ++ w3 ++ [";"]) ++ s = x ++ w1 ++ ":" :: (w2 ++ t ++ w3 ++ ";" :: s)).
  { rewrite <- !app_assoc. cbn. rewrite <- !app_assoc. reflexivity. }
  unfold setting. rewrite E. rewrite (scan_exact names Hok junk m x w1 _ Hq (nth_name _ _ _ Hi) Hx Hw1).
  destruct Hok as [Hplain _]. destruct (Nat.eqb_spec j i) as [->|Hne].
  - assert (E2 : n = m /\ k = k') by (split; congruence). destruct E2; subst m k'.
    rewrite (name_at_exact n x w1 _ (Hplain n (nth_name _ _ _ Hi)) Hx Hw1).
    destruct (parse_value_exact k t v w2 w3 s Hv Hw2 Hw3) as (r & Er & Hl). rewrite Er, Hl, firstn_junk. reflexivity.
  - destruct (name_at n (x ++ w1 ++ ":" :: w2 ++ t ++ w3 ++ ";" :: s)) as [r'|] eqn:En; [exfalso|reflexivity].
    assert (Px : plain x) by (apply (spells_plain m); [apply Hplain; eapply nth_name; exact Hi|exact Hx]).
    apply name_at_some in En; [|apply plain_start; exact Px]. destruct En as (y & w' & Ey & Hy & Hw').
    destruct (name_unique names Hok m n x w1 _ y w' r' (nth_name _ _ _ Hi) (nth_name _ _ _ Hj) Hx Hy Hw1 Hw' Ey) as (-> & _).
    apply Hne. eapply index_unique; eassumption.
Qed.

Lemma setting_quiet : forall s n k, quiet names s -> plain n -> setting names n k s = None.
Proof.
  intros s n k Hq Hp. unfold setting. rewrite (scan_quiet names s Hq). destruct n as [|c n]; [destruct Hp; congruence|]. reflexivity.
Qed.

Lemma setting_some : forall i n k s v r, nth_error tab i = Some (n, k) -> setting names n k s = Some (v, r) ->
  exists junk e, s = junk ++ e ++ r /\ quiet names junk /\ entry tab junk e i v.
Proof.
  intros i n k s v r Hi H. destruct (scan_split names Hok s) as (junk & Es & Hq & Hr). unfold setting in H.
  destruct (name_at n (scan names s)) as [r1|] eqn:En; [|discriminate H].
  destruct (parse_value k r1) as [[v' r2]|] eqn:Ev; [|discriminate H].
  destruct (lit ";" r2) as [r3|] eqn:El; [|discriminate H]. 
  assert (Ej : firstn (length s - length (scan names s)) s = junk).
  { clear - Es. set (u := scan names s) in *. clearbody u. rewrite Es. apply firstn_junk. }
  rewrite Ej in H. injection H as <- ->.
  assert (Hs : starts is_space (scan names s) = false) by (destruct Hr as [-> |[_ Hs]]; [reflexivity|exact Hs]).
  destruct (name_at_some n _ r1 Hs En) as (x & w1 & E1 & Hx & Hw1).
  destruct (parse_value_some _ _ _ _ Ev) as (w2 & t & E2 & Hw2 & Hv). destruct (lit_some _ _ _ El) as (w3 & E3 & Hw3).
  exists junk, (x ++ w1 ++ ":" :: w2 ++ t ++ w3 ++ [";"]). split; [|split; [exact Hq|]].
  - rewrite Es at 1. rewrite E1, E2, E3, <- !app_assoc. cbn. rewrite <- !app_assoc. reflexivity.
  - econstructor; eassumption.
Qed.

(** filling slots *)
Definition fill (l : list (nat * value)) (sl : slots) (d : nat) : slots :=
  map (fun p : nat * option value => match lookup (fst p) l with Some v => Some v | None => snd p end)
    (combine (seq d (length sl)) sl).

Lemma fill_nil : forall sl d, fill [] sl d = sl.
Proof.
  induction sl as [|x sl IH]; intro d; [reflexivity|]. unfold fill in *. cbn [length seq combine map lookup fst snd].
  rewrite IH. reflexivity.
Qed.

Lemma fill_cons : forall l x sl d, fill l (x :: sl) d =
  (match lookup d l with Some v => Some v | None => x end) :: fill l sl (S d).
Proof. reflexivity. Qed.

Lemma fill_length : forall l sl d, length (fill l sl d) = length sl.
Proof. intros l sl d. unfold fill. rewrite map_length, combine_length, seq_length. lia. Qed.

Lemma lookup_app : forall i a b, lookup i (a ++ b) = match lookup i a with Some v => Some v | None => lookup i b end.
Proof. induction a as [|[j v] a IH]; intro b; [reflexivity|]. cbn. destruct (Nat.eqb i j); [reflexivity|apply IH]. Qed.

Lemma lookup_none : forall i l, ~ In i (map fst l) -> lookup i l = None.
Proof.
  induction l as [|[j v] l IH]; intro H; [reflexivity|]. cbn. destruct (Nat.eqb_spec i j) as [->|_].
  - exfalso. apply H. left. reflexivity.
  - apply IH. intro H2. apply H. right. exact H2.
Qed.

Lemma lookup_in : forall i l, In i (map fst l) -> exists v, lookup i l = Some v /\ In (i, v) l.
Proof.
  induction l as [|[j v] l IH]; intro H; [destruct H|]. cbn. destruct (Nat.eqb_spec i j) as [->|Hne].
  - exists v. split; [reflexivity|]. left. reflexivity.
  - destruct H as [H|H]; [cbn in H; congruence|]. destruct (IH H) as (u & E & Hin). exists u. split; [exact E|]. right. exact Hin.
Qed.

Lemma fill_fill : forall l l2 sl d, (forall i, In i (map fst l) -> ~ In i (map fst l2)) -> fill l2 (fill l sl d) d = fill (l ++ l2) sl d.
Proof.
  intros l l2 sl. induction sl as [|x sl IH]; intros d H; [reflexivity|]. rewrite !fill_cons, IH by exact H.
  rewrite lookup_app. destruct (lookup d l) as [v|] eqn:E.
  - assert (Hin : In d (map fst l)).
    { destruct (in_dec Nat.eq_dec d (map fst l)) as [Hin|Hin]; [exact Hin|]. rewrite (lookup_none _ _ Hin) in E. discriminate E. }
    rewrite (lookup_none d l2) by (apply H; exact Hin). reflexivity.
  - destruct (lookup d l2); reflexivity.
Qed.

(** a fresh setting: its slot is still empty *)
Definition fresh (l : list (nat * value)) (sl : slots) (d : nat) : Prop :=
  NoDup (map fst l) /\ forall i, In i (map fst l) -> d <= i /\ nth_error sl (i - d) = Some None.

(** soundness of a pass *)
Lemma pass_reads : forall tab' sl d s sl2 s2 b, skipn d tab = tab' -> length sl = length tab' ->
  pass names tab' sl s = (sl2, s2, b) ->
  exists l, reads s l s2 /\ sl2 = fill l sl d /\ fresh l sl d /\ (b = false <-> l = []).
Proof.
  induction tab' as [|[n k] tab' IH]; intros sl d s sl2 s2 b Hd Hlen H.
  - destruct sl; [|discriminate Hlen]. cbn in H. injection H as <- <- <-. exists []. split; [constructor|].
    split; [reflexivity|]. split; [split; [constructor|intros i []]|]. split; reflexivity.
  - destruct sl as [|x sl]; [discriminate Hlen|]. cbn in Hlen. injection Hlen as Hlen.
    assert (Hi : nth_error tab d = Some (n, k)).
    { rewrite <- (firstn_skipn d tab), Hd.
      destruct (le_lt_dec (length tab) d) as [Hle|Hlt].
      - rewrite skipn_all2 in Hd by exact Hle. discriminate Hd.
      - rewrite nth_error_app2 by (rewrite firstn_length; lia). rewrite firstn_length.
        replace (d - Nat.min d (length tab)) with 0 by lia. reflexivity. }
    assert (Hd2 : skipn (S d) tab = tab').
    { change (S d) with (1 + d). clear - Hd. revert tab Hd. induction d as [|d IHd]; intros t Hd.
      - cbn in Hd. rewrite Hd. reflexivity.
      - destruct t as [|a t]; [discriminate Hd|]. cbn in Hd |- *. apply (IHd t Hd). }
    cbn [pass] in H.
    assert (Hfr : forall l y, fresh l sl (S d) -> fresh l (y :: sl) d).
    { intros l y [F1 F2]. split; [exact F1|]. intros i Hin. destruct (F2 i Hin) as [L E]. split; [lia|].
      replace (i - d) with (S (i - S d)) by lia. exact E. }
    assert (Hlk : forall l, fresh l sl (S d) -> lookup d l = None).
    { intros l [_ F2]. apply lookup_none. intro Hin. destruct (F2 d Hin) as [L _]. lia. }
    destruct x as [x|].
    + destruct (pass names tab' sl s) as [[sl' s'] b'] eqn:E. injection H as <- <- <-.
      destruct (IH _ _ _ _ _ _ Hd2 Hlen E) as (l & R & -> & F & Hb). exists l. split; [exact R|].
      split; [rewrite fill_cons, (Hlk l F); reflexivity|]. split; [apply Hfr; exact F|exact Hb].
    + destruct (setting names n k s) as [[v r]|] eqn:Es.
      * destruct (pass names tab' sl r) as [[sl' s'] b'] eqn:E. injection H as <- <- <-.
        destruct (IH _ _ _ _ _ _ Hd2 Hlen E) as (l & R & -> & F & Hb).
        destruct (setting_some _ _ _ _ _ _ Hi Es) as (junk & e & -> & Hq & He).
        exists ((d, v) :: l). split; [constructor; assumption|]. split.
        -- rewrite fill_cons. cbn [lookup]. rewrite Nat.eqb_refl. f_equal.
           assert (G : forall q d', S d <= d' -> fill l q d' = fill ((d, v) :: l) q d').
           { induction q as [|y q IHs]; intros d' L; [reflexivity|]. rewrite !fill_cons. cbn [lookup].
             destruct (Nat.eqb_spec d' d) as [->|_]; [lia|]. rewrite (IHs (S d')) by lia. reflexivity. }
           apply G. lia.
        -- split; [|split; intro Hx; discriminate Hx]. destruct (Hfr l None F) as [F1 F2]. split.
           ++ cbn. constructor; [|exact F1]. intro Hin. destruct F as [_ F3]. destruct (F3 d Hin) as [L _]. lia.
           ++ cbn [map fst]. intros i Hin. destruct Hin as [Hin|Hin]; [|apply F2; exact Hin].
              subst i. split; [lia|]. rewrite Nat.sub_diag. reflexivity.
      * destruct (pass names tab' sl s) as [[sl' s'] b'] eqn:E. injection H as <- <- <-.
        destruct (IH _ _ _ _ _ _ Hd2 Hlen E) as (l & R & -> & F & Hb). exists l. split; [exact R|].
        split; [rewrite fill_cons, (Hlk l F); reflexivity|]. split; [apply Hfr; exact F|exact Hb].
Qed.

(** reading is deterministic *)
Lemma written_cons_inv : forall s i v l, written tab s ((i, v) :: l) ->
  exists junk e s', s = junk ++ e ++ s' /\ quiet names junk /\ entry tab junk e i v /\ written tab s' l.
Proof. intros s i v l H. inversion H; subst. exists junk, e, s0. auto. Qed.

Lemma entry_index : forall junk e i v, entry tab junk e i v -> exists n k, nth_error tab i = Some (n, k).
Proof. intros junk e i v []. eauto. Qed.

Lemma written_reads : forall s l, written tab s l -> forall l1 r, reads s l1 r -> exists l2, l = l1 ++ l2 /\ written tab r l2.
Proof.
  intros s l H l1 r R. revert l H. induction R as [s|junk e i v s l1 r Hq He _ IH]; intros l H.
  - exists l. split; [reflexivity|exact H].
  - destruct (entry_index junk e i v He) as (n & k & Hi).
    pose proof (setting_exact junk e i v s Hq He i n k Hi) as Es. rewrite Nat.eqb_refl in Es.
    destruct l as [|[i' v'] l'].
    + inversion H as [junk' Hq'|]; subst.
      assert (Hp : plain n) by (destruct Hok as [Hp _]; apply Hp; eapply nth_name; exact Hi).
      rewrite (setting_quiet _ n k Hq' Hp) in Es. discriminate Es.
    + destruct (written_cons_inv _ _ _ _ H) as (junk' & e' & s' & E & Hq' & He' & Hw').
      rewrite E in Es. rewrite (setting_exact junk' e' i' v' s' Hq' He' i n k Hi) in Es.
      destruct (Nat.eqb_spec i i') as [<-|_]; [|discriminate Es].
      assert (Ev : v' = v /\ s' = s) by (split; congruence). destruct Ev; subst v' s'.
      destruct (IH l' Hw') as (l2 & -> & Hw2). exists l2. split; [reflexivity|exact Hw2].
Qed.

(** when a pass matches nothing, the next setting in the text, if any, has been read before *)
Lemma pass_stops : forall tab' sl d s sl2 s2, skipn d tab = tab' -> length sl = length tab' ->
  pass names tab' sl s = (sl2, s2, false) ->
  forall i n k v r, nth_error tab i = Some (n, k) -> d <= i -> setting names n k s = Some (v, r) -> nth_error sl (i - d) <> Some None.
Proof.
  induction tab' as [|[n0 k0] tab' IH]; intros sl d s sl2 s2 Hd Hlen H i n k v r Hi L Es Hn.
  - assert (E : nth_error tab i = None).
    { apply nth_error_None. apply (f_equal (@length (text * kind))) in Hd. rewrite skipn_length in Hd. cbn in Hd. lia. }
    congruence.
  - destruct sl as [|x sl]; [discriminate Hlen|]. cbn in Hlen. injection Hlen as Hlen.
    assert (Hd0 : nth_error tab d = Some (n0, k0)).
    { rewrite <- (firstn_skipn d tab), Hd.
      destruct (le_lt_dec (length tab) d) as [Hle|Hlt].
      - rewrite skipn_all2 in Hd by exact Hle. discriminate Hd.
      - rewrite nth_error_app2 by (rewrite firstn_length; lia). rewrite firstn_length.
        replace (d - Nat.min d (length tab)) with 0 by lia. reflexivity. }
    assert (Hd2 : skipn (S d) tab = tab').
    { change (S d) with (1 + d). clear - Hd. revert tab Hd. induction d as [|d IHd]; intros t Hd.
      - cbn in Hd. rewrite Hd. reflexivity.
      - destruct t as [|a t]; [discriminate Hd|]. cbn in Hd |- *. apply (IHd t Hd). }
    cbn [pass] in H. destruct (Nat.eq_dec i d) as [->|Hne].
    + rewrite Nat.sub_diag in Hn. cbn in Hn. injection Hn as ->.
      assert (E : n0 = n /\ k0 = k) by (split; congruence). destruct E; subst n0 k0. rewrite Es in H.
      destruct (pass names tab' sl r) as [[? ?] ?]. discriminate H.
    + assert (L2 : S d <= i) by lia. replace (i - d) with (S (i - S d)) in Hn by lia. cbn in Hn.
      destruct x as [x|].
      * destruct (pass names tab' sl s) as [[sl' s'] b'] eqn:E. injection H as _ _ ->.
        exact (IH _ _ _ _ _ Hd2 Hlen E i n k v r Hi L2 Es Hn).
      * destruct (setting names n0 k0 s) as [[v0 r0]|].
        -- destruct (pass names tab' sl r0) as [[? ?] ?]. discriminate H.
        -- destruct (pass names tab' sl s) as [[sl' s'] b'] eqn:E. injection H as _ _ ->.
           exact (IH _ _ _ _ _ Hd2 Hlen E i n k v r Hi L2 Es Hn).
Qed.

(** the number of empty slots *)
Fixpoint empties (sl : slots) : nat :=
  match sl with [] => 0 | Some _ :: r => empties r | None :: r => S (empties r) end.

Lemma empties_le : forall sl, empties sl <= length sl.
Proof. induction sl as [|[v|] sl IH]; cbn; lia. Qed.

Lemma pass_empties : forall tab' sl s sl2 s2 b, length sl = length tab' -> pass names tab' sl s = (sl2, s2, b) ->
  length sl2 = length sl /\ empties sl2 <= empties sl /\ (b = true -> empties sl2 < empties sl).
Proof.
  induction tab' as [|[n k] tab' IH]; intros sl s sl2 s2 b Hlen H.
  - destruct sl; [|discriminate Hlen]. cbn in H. injection H as <- <- <-. split; [reflexivity|]. split; [lia|]. discriminate.
  - destruct sl as [|x sl]; [discriminate Hlen|]. cbn in Hlen. injection Hlen as Hlen. cbn [pass] in H. destruct x as [x|].
    + destruct (pass names tab' sl s) as [[sl' s'] b'] eqn:E. injection H as <- <- <-.
      destruct (IH _ _ _ _ _ Hlen E) as (E1 & E2 & E3). cbn. split; [lia|]. split; [lia|exact E3].
    + destruct (setting names n k s) as [[v r]|].
      * destruct (pass names tab' sl r) as [[sl' s'] b'] eqn:E. injection H as <- <- <-.
        destruct (IH _ _ _ _ _ Hlen E) as (E1 & E2 & E3). cbn. split; [lia|]. split; [lia|]. intros _. lia.
      * destruct (pass names tab' sl s) as [[sl' s'] b'] eqn:E. injection H as <- <- <-.
        destruct (IH _ _ _ _ _ Hlen E) as (E1 & E2 & E3). cbn. split; [lia|]. split; [lia|]. intro Hb. specialize (E3 Hb). lia.
Qed.

Lemma permutation_reads : forall fuel sl s sl2 s2, length sl = length tab ->
  permutation fuel names tab sl s = (sl2, s2) -> empties sl < fuel ->
  exists l, reads s l s2 /\ sl2 = fill l sl 0 /\ fresh l sl 0 /\
    forall i n k v r, nth_error tab i = Some (n, k) -> setting names n k s2 = Some (v, r) -> nth_error sl2 i <> Some None.
Proof.
  induction fuel as [|fuel IH]; intros sl s sl2 s2 Hlen H Hfuel; [lia|]. cbn [permutation] in H.
  destruct (pass names tab sl s) as [[sl1 s1] b] eqn:E.
  destruct (pass_reads tab sl 0 s sl1 s1 b eq_refl Hlen E) as (l & R & El & F & Hb).
  destruct (pass_empties tab sl s sl1 s1 b Hlen E) as (E1 & E2 & E3).
  destruct b.
  - destruct (IH sl1 s1 sl2 s2 ltac:(lia) H ltac:(specialize (E3 eq_refl); lia)) as (l2 & R2 & El2 & F2 & Hstop).
    assert (Hdis : forall i, In i (map fst l) -> ~ In i (map fst l2)).
    { intros i Hin Hin2. destruct F2 as [_ F2]. destruct (F2 i Hin2) as [_ Hn]. rewrite Nat.sub_0_r in Hn.
      rewrite El in Hn. clear - Hn Hin.
      assert (G : forall q d j, nth_error (fill l q d) j = Some None -> ~ In (d + j) (map fst l)).
      { induction q as [|y q IHs]; intros d j Hj Hi; [destruct j; discriminate Hj|]. rewrite fill_cons in Hj. destruct j as [|j].
        - rewrite Nat.add_0_r in Hi. cbn in Hj. destruct (lookup_in d l Hi) as (u & Eu & _). rewrite Eu in Hj. discriminate Hj.
        - cbn in Hj. apply (IHs (S d) j Hj). replace (S d + j) with (d + S j) by lia. exact Hi. }
      exact (G sl 0 i Hn Hin). }
    exists (l ++ l2). split; [eapply reads_app; eassumption|]. split.
    { rewrite El2, El. apply fill_fill. exact Hdis. }
    split; [|exact Hstop]. destruct F as [Fa Fb], F2 as [Fc Fd]. split.
    + rewrite map_app. clear - Fa Fc Hdis. induction (map fst l) as [|a m IHm]; [exact Fc|]. cbn.
      inversion Fa as [|? ? Hni Hnd]; subst. constructor.
      * intro Hin. apply in_app_or in Hin. destruct Hin as [Hin|Hin]; [exact (Hni Hin)|]. apply (Hdis a); [left; reflexivity|exact Hin].
      * apply IHm; [exact Hnd|]. intros i Hi. apply Hdis. right. exact Hi.
    + intros i Hin. rewrite map_app in Hin. apply in_app_or in Hin. destruct Hin as [Hin|Hin]; [apply Fb; exact Hin|].
      split; [lia|]. destruct (Fd i Hin) as [_ Hn]. rewrite Nat.sub_0_r in *. rewrite El in Hn. clear - Hn.
      assert (G : forall q d j, nth_error (fill l q d) j = Some None -> nth_error q j = Some None).
      { induction q as [|y q IHs]; intros d j Hj; [destruct j; discriminate Hj|]. rewrite fill_cons in Hj. destruct j as [|j].
        - cbn in Hj |- *. destruct (lookup d l); [discriminate Hj|exact Hj].
        - cbn in Hj |- *. exact (IHs (S d) j Hj). }
      exact (G sl 0 i Hn).
  - injection H as <- <-. exists l. split; [exact R|]. split; [exact El|]. split; [exact F|].
    assert (El0 : l = []) by (apply Hb; reflexivity). subst l. rewrite fill_nil in El. subst sl1.
    inversion R; subst. intros i n k v r Hi Hs. pose proof (pass_stops tab sl 0 s1 sl s1 eq_refl Hlen E i n k v r Hi ltac:(lia) Hs) as Hn.
    rewrite Nat.sub_0_r in Hn. exact Hn.
Qed.

Definition empty_slots : slots := map (fun _ => None) tab.

Lemma empty_none : forall i, nth_error empty_slots i = Some None \/ nth_error empty_slots i = None.
Proof.
  intro i. unfold empty_slots. rewrite nth_error_map. destruct (nth_error tab i); [left|right]; reflexivity.
Qed.

(** the result expected for a list of settings *)
Definition given (l : list (nat * value)) : slots := map (fun i => lookup i l) (seq 0 (length tab)).

Lemma fill_given : forall l, fill l empty_slots 0 = given l.
Proof.
  intro l. unfold given, empty_slots. clear. generalize 0 as d. induction tab as [|a t IH]; intro d; [reflexivity|].
  cbn [map]. rewrite fill_cons. cbn [length seq map]. rewrite IH. destruct (lookup d l); reflexivity.
Qed.

Theorem read_sound : forall s sl, read_settings tab s = Some sl ->
  exists l, written tab s l /\ NoDup (map fst l) /\ sl = given l.
Proof.
  intros s sl H. unfold read_settings in H. fold names in H. fold empty_slots in H.
  destruct (permutation (S (length tab)) names tab empty_slots s) as [sl2 r] eqn:E.
  assert (Hlen : length empty_slots = length tab) by (unfold empty_slots; apply map_length).
  destruct (permutation_reads _ _ _ _ _ Hlen E ltac:(pose proof (empties_le empty_slots); lia)) as (l & R & El & [F1 _] & _).
  destruct (scan_split names Hok r) as (junk & Er & Hq & _). destruct (scan names r); [|discriminate H]. injection H as <-.
  rewrite app_nil_r in Er. subst junk. exists l. split; [eapply reads_written; eassumption|]. split; [exact F1|].
  rewrite El. apply fill_given.
Qed.

Theorem read_complete : forall s l, written tab s l ->
  read_settings tab s = if (if ListDec.NoDup_dec Nat.eq_dec (map fst l) then true else false) then Some (given l) else None.
Proof.
  intros s l Hw. unfold read_settings. fold names. fold empty_slots.
  destruct (permutation (S (length tab)) names tab empty_slots s) as [sl2 r] eqn:E.
  assert (Hlen : length empty_slots = length tab) by (unfold empty_slots; apply map_length).
  destruct (permutation_reads _ _ _ _ _ Hlen E ltac:(pose proof (empties_le empty_slots); lia)) as (l1 & R & El & [F1 _] & Hstop).
  destruct (written_reads s l Hw l1 r R) as (l2 & -> & Hw2).
  destruct l2 as [|[i v] l2].
  - inversion Hw2 as [junk Hq|]; subst. rewrite (scan_quiet names r Hq). rewrite app_nil_r.
    destruct (ListDec.NoDup_dec Nat.eq_dec (map fst l1)) as [_|Hn]; [|contradiction]. rewrite fill_given. reflexivity.
  - destruct (written_cons_inv _ _ _ _ Hw2) as (junk & e & s' & -> & Hq & He & Hw').
    destruct (entry_index junk e i v He) as (n & k & Hi).
    pose proof (setting_exact junk e i v s' Hq He i n k Hi) as Es. rewrite Nat.eqb_refl in Es.
    pose proof (Hstop i n k v s' Hi Es) as Hn.
    assert (Hin : In i (map fst l1)).
    { destruct (in_dec Nat.eq_dec i (map fst l1)) as [Hin|Hin]; [exact Hin|]. exfalso. apply Hn.
      rewrite El, fill_given. unfold given. rewrite nth_error_map.
      assert (Li : i < length tab) by (apply nth_error_Some; congruence).
      rewrite (nth_error_nth' _ 0) by (rewrite seq_length; exact Li). rewrite seq_nth by exact Li. cbn.
      rewrite (lookup_none i l1 Hin). reflexivity. }
    destruct (ListDec.NoDup_dec Nat.eq_dec (map fst (l1 ++ (i, v) :: l2))) as [Hnd|_].
    + exfalso. rewrite map_app in Hnd. cbn in Hnd. apply NoDup_remove_2 in Hnd. apply Hnd. apply in_or_app. left. exact Hin.
    + destruct (scan names (junk ++ e ++ s')) eqn:Esc; [|reflexivity]. exfalso.
      unfold setting in Es. rewrite Esc in Es. destruct Hok as [Hp _]. destruct (Hp n (nth_name _ _ _ Hi)) as [Hne _].
      destruct n as [|c n]; [congruence|]. discriminate Es.
Qed.
End Table.

(** *** The tables of the code are well formed *)

Definition plainb (n : text) : bool :=
  match n with [] => false | _ => forallb (fun c => negb (is_space c) && negb (Ascii.eqb c ":")) n end.

Fixpoint suffixb (n m : text) : bool :=
  match m with
  | [] => false
  | _ :: m' => (if list_eq_dec ascii_dec n m' then true else false) || suffixb n m'
  end.

Fixpoint nodupb (l : list text) : bool :=
  match l with
  | [] => true
  | x :: r => negb (existsb (fun y => if list_eq_dec ascii_dec x y then true else false) r) && nodupb r
  end.

Definition names_okb (names : list text) : bool :=
  forallb plainb names
  && forallb (fun n => forallb (fun m => negb (suffixb (map lower n) (map lower m))) names) names
  && nodupb (map (map lower) names).

Lemma plainb_plain : forall n, plainb n = true -> plain n.
Proof.
  intros [|c n] H; [discriminate H|]. split; [discriminate|]. unfold plainb in H. rewrite forallb_forall in H.
  apply Forall_forall. intros d Hd. specialize (H d Hd). apply andb_true_iff in H. destruct H as [H1 H2].
  apply negb_true_iff in H1, H2. split; [exact H1|]. intros ->. discriminate H2.
Qed.

Lemma suffixb_false : forall m n a, suffixb n m = false -> m = a ++ n -> a = [].
Proof.
  induction m as [|c m IH]; intros n a H E; [destruct a; [reflexivity|discriminate E]|].
  destruct a as [|d a]; [reflexivity|]. cbn in E. injection E as <- E. cbn in H. apply orb_false_iff in H. destruct H as [H1 H2].
  assert (Ea : a = []) by (apply (IH n a H2 E)). subst a. cbn in E. subst m.
  destruct (list_eq_dec ascii_dec n n) as [_|Hn]; [discriminate H1|]. congruence.
Qed.

Lemma nodupb_nodup : forall l, nodupb l = true -> NoDup l.
Proof.
  induction l as [|x r IH]; intro H; [constructor|]. cbn in H. apply andb_true_iff in H. destruct H as [H1 H2].
  constructor; [|apply IH; exact H2]. intro Hin. apply negb_true_iff in H1. rewrite <- not_true_iff_false in H1. apply H1.
  apply existsb_exists. exists x. split; [exact Hin|]. destruct (list_eq_dec ascii_dec x x); congruence.
Qed.

Lemma names_okb_ok : forall names, names_okb names = true -> names_ok names.
Proof.
  intros names H. unfold names_okb in H. apply andb_true_iff in H. destruct H as [H H3]. apply andb_true_iff in H. destruct H as [H1 H2].
  rewrite forallb_forall in H1, H2. split; [|split].
  - intros n Hn. apply plainb_plain. apply H1. exact Hn.
  - intros n m a Hn Hm E. specialize (H2 n Hn). rewrite forallb_forall in H2. specialize (H2 m Hm). apply negb_true_iff in H2.
    eapply suffixb_false; eassumption.
  - apply nodupb_nodup. exact H3.
Qed.

Lemma tables_ok : forall tab, In tab all_tables -> names_ok (map fst tab).
Proof.
  intros tab H. apply names_okb_ok. revert tab H. apply (proj1 (Forall_forall _ all_tables)).
  repeat (constructor; [vm_compute; reflexivity|]). constructor.
Qed.
