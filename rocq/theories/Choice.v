(** The settings which choose one of several alternatives: the parsers of PrecisionType and Predictor
    (core/include/bertini2/io/parsing/settings_parsers/tracking.hpp:67-222) and AlgoChoice (settings_parsers/algorithm.hpp:849-925).
    root_rule_ = (config_name_ >> -no_setting_) | no_setting_[default],
    config_name_ = *(char_ - (no_case[name] >> ':')) >> (no_case[name] >> ':') >> symbols >> ';'. *)
From Coq Require Import String Ascii List Arith Lia Bool ZArith.
From Verif Require Import Chars NumLit Split Settings.
Import ListNotations.
Local Open Scope char_scope.

(** *(char_ - stop) with the skipper on *)
Fixpoint until (stop : text -> bool) (s : text) : text :=
  match s with
  | [] => []
  | c :: t => if is_space c then until stop t else if stop s then s else until stop t
  end.

(** qi::symbols: the longest symbol the text starts with.  The values are the names of the enumerators. *)
Fixpoint symbol (tab : list (text * text)) (s : text) : option (nat * text * text) :=
  match tab with
  | [] => None
  | (w, v) :: tab' =>
      match strip_prefix w s, symbol tab' s with
      | Some r, Some (n, v', r') => if Nat.ltb (length w) n then Some (n, v', r') else Some (length w, v, r)
      | Some r, None => Some (length w, v, r)
      | None, o => o
      end
  end.

(** what no_setting_ stops at: the name followed by a colon without white space between them (settings_parsers/tracking.hpp:102), or
    the name alone (settings_parsers/tracking.hpp:190, settings_parsers/algorithm.hpp:894) *)
Inductive ending := WithColon | NameOnly.
Definition no_setting_stop (e : ending) (name : text) (s : text) : bool :=
  is_some (strip_nocase (match e with WithColon => name ++ [":"] | NameOnly => name end) s).

Record choice := mkChoice { cname : text; cending : ending; csymbols : list (text * text); cdefault : text }.

(** FillConfigStruct for such a setting; None is the exception *)
Definition read_choice (p : choice) (s : text) : option text :=
  let rest := until (no_setting_stop (cending p) (cname p)) in
  let default := match rest s with [] => Some (cdefault p) | _ => None end in
  match name_at (cname p) (scan [cname p] s) with
  | Some r =>
      match symbol (csymbols p) (skip r) with
      | Some (_, v, r2) =>
          match lit ";" r2 with
          | Some r3 => match rest r3 with [] => Some v | _ => None end
          | None => default
          end
      | None => default
      end
  | None => default
  end.

(** settings_parsers/tracking.hpp:87-102 *)
Definition precision_type : choice :=
  mkChoice (txt "mptype") WithColon
    [(txt "0", txt "Fixed"); (txt "1", txt "Adaptive"); (txt "2", txt "Adaptive")] (txt "Adaptive").

(** settings_parsers/tracking.hpp:167-190 *)
Definition predictor : choice :=
  mkChoice (txt "odepredictor") NameOnly
    [(txt "-1", txt "Constant"); (txt "0", txt "Euler"); (txt "1", txt "Heun"); (txt "2", txt "RK4"); (txt "3", txt "Heun");
     (txt "4", txt "RKNorsett34"); (txt "5", txt "RKF45"); (txt "6", txt "RKCashKarp45"); (txt "7", txt "RKDormandPrince56");
     (txt "8", txt "RKVerner67")] (txt "RKF45").

(** algorithm.hpp:870-895 *)
Definition track_type : choice :=
  mkChoice (txt "tracktype") NameOnly
    [(txt "-4", txt "EvalFunctions"); (txt "-3", txt "EvalFunctionJacobian"); (txt "-2", txt "NewtonIteration");
     (txt "-1", txt "NewtonIterationCondNum"); (txt "0", txt "ZeroDim"); (txt "1", txt "NID"); (txt "2", txt "SampleComponent");
     (txt "3", txt "MembershipTest"); (txt "4", txt "ExtractWitnessSet"); (txt "5", txt "WitnessSetProjection");
     (txt "6", txt "IsosingularStab")] (txt "ZeroDim").

Definition choices : list choice := [precision_type; predictor; track_type].

(** *** Proofs *)

Lemma until_none : forall e name s, ~ occurs name s -> until (no_setting_stop e name) s = [].
Proof.
  intros e name s. induction s as [|c s IH]; intro H; [reflexivity|]. cbn [until].
  rewrite IH by (eapply occurs_cons; exact H). destruct (is_space c); [reflexivity|].
  destruct (no_setting_stop e name (c :: s)) eqn:E; [exfalso|reflexivity].
  unfold no_setting_stop in E. destruct e.
  - destruct (strip_nocase (name ++ [":"]) (c :: s)) as [r|] eqn:Es; [|discriminate E].
    destruct (strip_nocase_some _ _ _ Es) as (x & Ex & Hx). unfold spells in Hx. rewrite map_app in Hx.
    apply H. exists [], (firstn (length name) x), (skipn (length name) x ++ r). cbn [app]. split.
    + rewrite Ex, app_assoc, firstn_skipn. reflexivity.
    + unfold spells. rewrite <- firstn_map, Hx. rewrite <- (map_length lower name). rewrite firstn_app.
      rewrite Nat.sub_diag. cbn. rewrite app_nil_r, firstn_all. reflexivity.
  - destruct (strip_nocase name (c :: s)) as [r|] eqn:Es; [|discriminate E].
    destruct (strip_nocase_some _ _ _ Es) as (x & Ex & Hx). apply H. exists [], x, r. split; [exact Ex|exact Hx].
Qed.

Lemma quiet_of_absent : forall name s, ~ occurs name s -> quiet [name] s.
Proof.
  intros name s H n a x w b [<-|[]] E _ Hx. apply H. exists a, x, (w ++ ":" :: b). split; [exact E|exact Hx].
Qed.

Lemma choice_ok : forall p, In p choices -> names_ok [cname p].
Proof. intros p [<-|[<-|[<-|[]]]]; apply names_okb_ok; vm_compute; reflexivity. Qed.

Lemma choice_symbols : forall p w v r, In p choices -> In (w, v) (csymbols p) ->
  (exists n, symbol (csymbols p) (w ++ r) = Some (n, v, r)) /\ starts is_space (w ++ r) = false.
Proof.
  intros p w v r [<-|[<-|[<-|[]]]] H; cbn [precision_type predictor track_type csymbols] in H |- *;
    repeat (destruct H as [H|H]; [injection H as <- <-; split; [eexists; reflexivity|reflexivity]|]); destruct H.
Qed.

Lemma read_chosen : forall p junk x w1 w2 w v w3 tail, In p choices ->
  quiet [cname p] junk -> spells (cname p) x -> blank w1 -> blank w2 -> blank w3 -> In (w, v) (csymbols p) ->
  ~ occurs (cname p) tail ->
  read_choice p (junk ++ x ++ w1 ++ ":" :: w2 ++ w ++ w3 ++ ";" :: tail) = Some v.
Proof.
  intros p junk x w1 w2 w v w3 tail Hp Hq Hx Hw1 Hw2 Hw3 Hin Ht. pose proof (choice_ok p Hp) as Hok.
  unfold read_choice. rewrite (scan_exact [cname p] Hok junk (cname p) x w1 _ Hq (or_introl eq_refl) Hx Hw1).
  rewrite (name_at_exact (cname p) x w1 _ (proj1 Hok _ (or_introl eq_refl)) Hx Hw1).
  destruct (choice_symbols p w v (w3 ++ ";" :: tail) Hp Hin) as [[n E] Hs].
  rewrite (skip_blank w2 _ Hw2), (skip_start _ Hs), E. rewrite (lit_exact ";" w3 tail Hw3 eq_refl).
  rewrite (until_none _ _ _ Ht). reflexivity.
Qed.

Lemma read_default : forall p s, In p choices -> ~ occurs (cname p) s -> read_choice p s = Some (cdefault p).
Proof.
  intros p s Hp H. unfold read_choice. rewrite (scan_quiet [cname p] s (quiet_of_absent _ _ H)). rewrite (until_none _ _ _ H).
  destruct Hp as [<-|[<-|[<-|[]]]]; reflexivity.
Qed.

Lemma until_some : forall stop s a c t, s = a ++ c :: t -> is_space c = false -> stop (c :: t) = true -> until stop s <> [].
Proof.
  intros stop s a c t -> Hc Hs. induction a as [|b a IH]; cbn [app until].
  - rewrite Hc, Hs. discriminate.
  - destruct (is_space b); [exact IH|]. destruct (stop (b :: a ++ c :: t)); [discriminate|exact IH].
Qed.

(** a second setting of the same name is an error *)
Lemma read_twice : forall p junk x w1 w2 w v w3 mid y tail, In p choices ->
  quiet [cname p] junk -> spells (cname p) x -> blank w1 -> blank w2 -> blank w3 -> In (w, v) (csymbols p) ->
  spells (cname p) y ->
  read_choice p (junk ++ x ++ w1 ++ ":" :: w2 ++ w ++ w3 ++ ";" :: mid ++ y ++ ":" :: tail) = None.
Proof.
  intros p junk x w1 w2 w v w3 mid y tail Hp Hq Hx Hw1 Hw2 Hw3 Hin Hy. pose proof (choice_ok p Hp) as Hok.
  unfold read_choice. rewrite (scan_exact [cname p] Hok junk (cname p) x w1 _ Hq (or_introl eq_refl) Hx Hw1).
  rewrite (name_at_exact (cname p) x w1 _ (proj1 Hok _ (or_introl eq_refl)) Hx Hw1).
  destruct (choice_symbols p w v (w3 ++ ";" :: mid ++ y ++ ":" :: tail) Hp Hin) as [[n E] Hs].
  rewrite (skip_blank w2 _ Hw2), (skip_start _ Hs), E. rewrite (lit_exact ";" w3 _ Hw3 eq_refl).
  destruct (until _ (mid ++ y ++ ":" :: tail)) eqn:Eu; [exfalso|reflexivity].
  assert (Py : plain y) by (apply (spells_plain (cname p)); [apply Hok; left; reflexivity|exact Hy]).
  destruct y as [|c y]; [destruct Py; congruence|].
  apply (until_some (no_setting_stop (cending p) (cname p)) (mid ++ (c :: y) ++ ":" :: tail) mid c (y ++ ":" :: tail)).
  - reflexivity.
  - exact (plain_start (c :: y) [] Py).
  - unfold no_setting_stop. destruct (cending p).
    + change (c :: y ++ ":" :: tail) with ((c :: y) ++ [":"] ++ tail). rewrite app_assoc.
      rewrite strip_nocase_app; [reflexivity|]. unfold spells in *. rewrite !map_app, Hy. reflexivity.
    + change (c :: y ++ ":" :: tail) with ((c :: y) ++ ":" :: tail). rewrite (strip_nocase_app _ _ _ Hy). reflexivity.
  - exact Eu.
Qed.

Lemma symbol_none : forall tab s, (forall w v, In (w, v) tab -> strip_prefix w s = None) -> symbol tab s = None.
Proof.
  induction tab as [|[w v] tab IH]; intros s H; [reflexivity|]. cbn [symbol].
  rewrite (H w v (or_introl eq_refl)). apply IH. intros w' v' Hi. apply (H w' v'). right. exact Hi.
Qed.

Lemma strip_prefix_app : forall w s r, strip_prefix w s = Some r -> s = w ++ r.
Proof.
  induction w as [|c w IH]; intros s r H; [injection H as ->; reflexivity|].
  destruct s as [|d s]; [discriminate H|]. cbn [strip_prefix] in H.
  destruct (Ascii.eqb c d) eqn:E; [|discriminate H]. apply Ascii.eqb_eq in E. subst d. cbn [app]. rewrite (IH s r H). reflexivity.
Qed.

(** an alternative that does not exist, written with the colon directly after the name *)
Lemma read_unknown : forall p junk x w2 u, In p choices -> quiet [cname p] junk -> spells (cname p) x -> blank w2 ->
  starts is_space u = false -> (forall w v r, In (w, v) (csymbols p) -> u <> w ++ r) ->
  read_choice p (junk ++ x ++ ":" :: w2 ++ u) = None.
Proof.
  intros p junk x w2 u Hp Hq Hx Hw2 Hu Hno. pose proof (choice_ok p Hp) as Hok.
  assert (Px : plain x) by (apply (spells_plain (cname p)); [apply Hok; left; reflexivity|exact Hx]).
  unfold read_choice.
  pose proof (scan_exact [cname p] Hok junk (cname p) x [] (w2 ++ u) Hq (or_introl eq_refl) Hx (Forall_nil _)) as Es.
  cbn [app] in Es. rewrite Es.
  pose proof (name_at_exact (cname p) x [] (w2 ++ u) (proj1 Hok _ (or_introl eq_refl)) Hx (Forall_nil _)) as En.
  cbn [app] in En. rewrite En. rewrite (skip_blank w2 _ Hw2), (skip_start _ Hu).
  rewrite symbol_none.
  2: { intros w v Hi. destruct (strip_prefix w u) as [r|] eqn:E; [|reflexivity]. exfalso.
       exact (Hno w v r Hi (strip_prefix_app _ _ _ E)). }
  destruct (until _ _) eqn:Eu; [exfalso|reflexivity].
  destruct x as [|c x]; [destruct Px; congruence|].
  eapply (until_some (no_setting_stop (cending p) (cname p)) _ junk c (x ++ ":" :: w2 ++ u)); [reflexivity| | |exact Eu].
  - exact (plain_start (c :: x) [] Px).
  - unfold no_setting_stop. destruct (cending p).
    + change (c :: x ++ ":" :: w2 ++ u) with ((c :: x) ++ [":"] ++ w2 ++ u). rewrite app_assoc.
      rewrite strip_nocase_app; [reflexivity|]. unfold spells in *. rewrite !map_app, Hx. reflexivity.
    + change (c :: x ++ ":" :: w2 ++ u) with ((c :: x) ++ ":" :: w2 ++ u). rewrite (strip_nocase_app _ _ _ Hx). reflexivity.
Qed.

(** *** NewtonConfig (settings_parsers/tracking.hpp:385-459): the text before the setting stops at the name even without a
    colon (line 425), the text after it only at the name with a colon (lines 422 and 428).  None is the exception,
    Some None the default. *)
Definition newton_name : text := txt "maxnewtonits".
Definition newton_setting (s : text) : option (Z * text) :=
  match name_at newton_name (until (fun t => is_some (strip_nocase newton_name t)) s) with
  | Some r =>
      match uint (skip r) with
      | Some (v, r2) => match lit ";" r2 with Some r3 => Some (v, r3) | None => None end
      | None => None
      end
  | None => None
  end.
Definition read_newton (s : text) : option (option Z) :=
  let no_setting o r := match scan [newton_name] r with [] => Some o | _ => None end in
  match newton_setting s with
  | Some (v, r) => no_setting (Some v) r
  | None => no_setting None s
  end.

(** one such setting in a text *)
Inductive newton_written : text -> option Z -> Prop :=
| newton_none : forall s, quiet [newton_name] s -> newton_written s None
| newton_one : forall junk x w1 w2 d w3 tail, ~ occurs newton_name junk ->
    spells newton_name x -> blank w1 -> blank w2 -> blank w3 -> digit_string d -> (number_of d < 2 ^ 32)%Z ->
    quiet [newton_name] tail ->
    newton_written (junk ++ x ++ w1 ++ ":" :: w2 ++ d ++ w3 ++ ";" :: tail) (Some (number_of d)).

Definition newton_stop (t : text) : bool := is_some (strip_nocase newton_name t).

Lemma until_split : forall s, exists a, s = a ++ until newton_stop s /\ ~ occurs newton_name a /\
  starts is_space (until newton_stop s) = false.
Proof.
  induction s as [|c s IH].
  { exists []. split; [reflexivity|]. split; [|reflexivity]. intros (a & x & r & E & Hx). destruct a; [|discriminate E].
    destruct x; [discriminate Hx|discriminate E]. }
  cbn [until]. destruct IH as (a & Ea & Ha & Hs).
  assert (Hstep : newton_stop (c :: s) = false \/ is_space c = true -> ~ occurs newton_name (c :: a)).
  { intros Hc (b & x & r & E & Hx). destruct b as [|b0 b].
    - cbn [app] in E. assert (Px : plain x) by (apply (spells_plain newton_name); [apply plainb_plain; reflexivity|exact Hx]).
      assert (Es : c :: s = x ++ r ++ until newton_stop s).
      { rewrite Ea at 1. change (c :: a ++ until newton_stop s) with ((c :: a) ++ until newton_stop s).
        rewrite E, <- app_assoc. reflexivity. }
      destruct Hc as [Hc|Hc].
      + unfold newton_stop in Hc. rewrite Es, (strip_nocase_app _ _ _ Hx) in Hc. discriminate Hc.
      + pose proof (plain_start x (r ++ until newton_stop s) Px) as Hp. rewrite <- Es in Hp. cbn in Hp. congruence.
    - cbn in E. injection E as _ E. apply Ha. exists b, x, r. split; [exact E|exact Hx]. }
  destruct (is_space c) eqn:Ec.
  - exists (c :: a). split; [cbn; rewrite Ea at 1; reflexivity|]. split; [apply Hstep; right; reflexivity|exact Hs].
  - destruct (newton_stop (c :: s)) eqn:Es.
    + exists []. split; [reflexivity|]. split; [|exact Ec]. intros (b & x & r & E & Hx). destruct b; [|discriminate E].
      destruct x; [discriminate Hx|discriminate E].
    + exists (c :: a). split; [cbn; rewrite Ea at 1; reflexivity|]. split; [apply Hstep; left; reflexivity|exact Hs].
Qed.

Lemma until_name_at : forall junk x r, ~ occurs newton_name junk -> spells newton_name x ->
  until newton_stop (junk ++ x ++ r) = x ++ r.
Proof.
  intros junk x r Hj Hx. pose proof (strip_nocase_app newton_name x r Hx) as E.
  assert (Px : plain x) by (apply (spells_plain newton_name); [apply plainb_plain; reflexivity|exact Hx]).
  induction junk as [|c junk IH].
  - pose proof (plain_start x r Px) as Hs. cbn [app]. destruct (x ++ r) as [|d t]; [reflexivity|]. cbn in Hs. cbn [until].
    unfold newton_stop. rewrite Hs, E. reflexivity.
  - cbn [app until]. rewrite IH by (eapply occurs_cons; exact Hj). destruct (is_space c); [reflexivity|]. unfold newton_stop.
    change (c :: junk ++ x ++ r) with ((c :: junk) ++ x ++ r).
    rewrite (strip_nocase_none newton_name (c :: junk) x r); [reflexivity|reflexivity|exact Hx|exact Hj|discriminate].
Qed.

Lemma newton_ok : names_ok [newton_name].
Proof. apply names_okb_ok. vm_compute. reflexivity. Qed.

Lemma newton_setting_some : forall s v r, newton_setting s = Some (v, r) ->
  exists junk x w1 w2 d w3, s = junk ++ x ++ w1 ++ ":" :: w2 ++ d ++ w3 ++ ";" :: r /\ ~ occurs newton_name junk /\
    spells newton_name x /\ blank w1 /\ blank w2 /\ blank w3 /\ digit_string d /\ (number_of d < 2 ^ 32)%Z /\ v = number_of d.
Proof.
  intros s v r H. unfold newton_setting in H. destruct (until_split s) as (junk & Es & Hj & Hs).
  fold newton_stop in H.
  destruct (name_at newton_name (until newton_stop s)) as [r1|] eqn:En; [|discriminate H].
  destruct (name_at_some _ _ _ Hs En) as (x & w1 & Ex & Hx & Hw1).
  destruct (uint (skip r1)) as [[v' r2]|] eqn:Eu; [|discriminate H].
  destruct (lit ";" r2) as [r3|] eqn:El; [|discriminate H]. injection H as -> ->.
  destruct (lit_some _ _ _ El) as (w3 & E3 & Hw3).
  destruct (parse_value_some Unsigned r1 (Int v) r2) as (w2 & d & E2 & Hw2 & Hv).
  { unfold parse_value. rewrite Eu. reflexivity. }
  inversion Hv as [| d' Hd Hb | | | |]; subst d'.
  exists junk, x, w1, w2, d, w3. rewrite Es, Ex, E2, E3 at 1. subst. auto 10.
Qed.

Lemma newton_exact : forall junk x w1 w2 d w3 tail, ~ occurs newton_name junk ->
  spells newton_name x -> blank w1 -> blank w2 -> blank w3 -> digit_string d -> (number_of d < 2 ^ 32)%Z ->
  newton_setting (junk ++ x ++ w1 ++ ":" :: w2 ++ d ++ w3 ++ ";" :: tail) = Some (number_of d, tail).
Proof.
  intros junk x w1 w2 d w3 tail Hj Hx Hw1 Hw2 Hw3 Hd Hb. unfold newton_setting.
  change (fun t => is_some (strip_nocase newton_name t)) with newton_stop. rewrite (until_name_at junk x _ Hj Hx).
  rewrite (name_at_exact newton_name x w1 _ (proj1 newton_ok _ (or_introl eq_refl)) Hx Hw1).
  destruct (parse_value_exact Unsigned d (Int (number_of d)) w2 w3 tail (written_unsigned d Hd Hb) Hw2 Hw3) as (r & Er & El).
  unfold parse_value in Er. destruct (uint (skip (w2 ++ d ++ w3 ++ ";" :: tail))) as [[z r']|]; [|discriminate Er].
  injection Er as -> ->. rewrite El. reflexivity.
Qed.

Lemma scan_nil_quiet : forall s, scan [newton_name] s = [] <-> quiet [newton_name] s.
Proof.
  intro s. split; [|apply scan_quiet]. intro H. destruct (scan_split [newton_name] newton_ok s) as (junk & Es & Hq & _).
  rewrite H, app_nil_r in Es. subst. exact Hq.
Qed.

Theorem newton_read : forall s o, read_newton s = Some o <-> newton_written s o.
Proof.
  intros s o. unfold read_newton. split.
  - destruct (newton_setting s) as [[v r]|] eqn:E; intro H.
    + destruct (scan [newton_name] r) eqn:Er; [|discriminate H]. injection H as <-.
      destruct (newton_setting_some _ _ _ E) as (junk & x & w1 & w2 & d & w3 & -> & Hj & Hx & H1 & H2 & H3 & Hd & Hb & ->).
      constructor; try assumption. apply scan_nil_quiet. exact Er.
    + destruct (scan [newton_name] s) eqn:Er; [|discriminate H]. injection H as <-. constructor. apply scan_nil_quiet. exact Er.
  - intros [t Hq|junk x w1 w2 d w3 tail Hj Hx H1 H2 H3 Hd Hb Hq].
    + destruct (newton_setting t) as [[v r]|] eqn:E; [exfalso|rewrite (proj2 (scan_nil_quiet t) Hq); reflexivity].
      destruct (newton_setting_some _ _ _ E) as (junk & x & w1 & w2 & d & w3 & -> & _ & Hx & Hw1 & _).
      exact (Hq newton_name junk x w1 _ (or_introl eq_refl) eq_refl Hw1 Hx).
    + rewrite (newton_exact junk x w1 w2 d w3 tail Hj Hx H1 H2 H3 Hd Hb).
      rewrite (proj2 (scan_nil_quiet tail) Hq). reflexivity.
Qed.
