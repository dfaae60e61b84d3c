(** C59: reading the configuration section into the structures of settings. *)
From Coq Require Import String Ascii List Bool ZArith.
From Verif Require Import Chars NumLit Split Settings Choice.
Import ListNotations.
Local Open Scope char_scope.

(** For each structure of settings and every text: if the text consists of settings of the structure, each at most once,
    in any order, in any mixture of cases, with white space around names and values, and any other text between them
    (for instance settings of other structures), reading succeeds, every setting has the value given for it (but see
    C59_path_variable_refuted for the name of the path variable), and a setting not given keeps its default (an empty
    slot). *)
Theorem C59_settings_read : forall tab s l, In tab all_tables -> written tab s l -> NoDup (map fst l) ->
  read_settings tab s = Some (map (fun i => lookup i l) (seq 0 (length tab))).
Proof.
  intros tab s l Ht Hw Hn. rewrite (read_complete tab (tables_ok tab Ht) s l Hw).
  destruct (ListDec.NoDup_dec Nat.eq_dec (map fst l)); [reflexivity|contradiction].
Qed.
Print Assumptions C59_settings_read.

(** A setting given twice is an error. *)
Theorem C59_twice_is_error : forall tab s l, In tab all_tables -> written tab s l -> ~ NoDup (map fst l) -> read_settings tab s = None.
Proof.
  intros tab s l Ht Hw Hn. rewrite (read_complete tab (tables_ok tab Ht) s l Hw).
  destruct (ListDec.NoDup_dec Nat.eq_dec (map fst l)); [contradiction|reflexivity].
Qed.
Print Assumptions C59_twice_is_error.

(** Nothing else is accepted: when reading succeeds the text was of that form. *)
Theorem C59_only_settings : forall tab s sl, In tab all_tables -> read_settings tab s = Some sl ->
  exists l, written tab s l /\ NoDup (map fst l) /\ sl = map (fun i => lookup i l) (seq 0 (length tab)).
Proof. intros tab s sl Ht. exact (read_sound tab (tables_ok tab Ht) s sl). Qed.
Print Assumptions C59_only_settings.

Example C59_settings_case :
  read_settings tolerances (txt "tracktype: 1; FinalTol : 1E-12 ; tracktolbeforeeg:1e-5;  junk") =
    Some [Some (Text (txt "1e-5")); None; Some (Text (txt "1e-12")); None] /\
  read_settings tolerances (txt "finaltol: 1e-3; finaltol: 1e-4;") = None /\
  read_settings stepping (txt "maxnumbersteps: 4294967296;") = None /\
  read_settings amp (txt "AMPMaxPrec: 300; ampsafetydigits1: -2;") =
    Some [None; None; None; None; None; Some (Int (-2)); None; Some (Int 300); None; None].
Proof. vm_compute. auto. Qed.

Example C59_written_case : exists l,
  written tolerances (txt "a FinalTol : 3 ;b") l /\ NoDup (map fst l) /\ l <> [].
Proof.
  assert (H : read_settings tolerances (txt "a FinalTol : 3 ;b") = Some [None; None; Some (Text (txt "3")); None]) by reflexivity.
  destruct (C59_only_settings tolerances _ _ ltac:(cbn; tauto) H)
    as (l & Hw & Hn & E). exists l. split; [exact Hw|]. split; [exact Hn|]. intros ->. vm_compute in E. discriminate E.
Qed.

(** The value of a setting is what is written after its name, except for names of variables; of these there is only one. *)
Theorem C59_value_plain : forall tab n k, In tab all_tables -> In (n, k) tab -> n <> txt "pathvarname" ->
  forall before v, attribute k before v = v.
Proof.
  intros tab n k Ht Hin Hn before v. destruct k; try reflexivity. exfalso. revert tab Ht n Hin Hn.
  apply (proj1 (Forall_forall (fun tab => forall n, In (n, Name) tab -> n <> txt "pathvarname" -> False) all_tables)).
  repeat constructor; intros n Hin Hn; repeat (destruct Hin as [Hin|Hin]; [try discriminate Hin; apply Hn; congruence|]); destruct Hin.
Qed.
Print Assumptions C59_value_plain.

(** The rule of the name of the path variable has no action of its own: the name is preceded by all the text skipped since
    the last setting of the structure. *)
Theorem C59_path_variable_refuted :
  read_settings zero_dim (txt "finaltol: 1e-3; pathvarname: t;") =
    Some [None; Some (Text (txt "finaltol:1e-3;t")); None; None; None; None] /\
  In zero_dim all_tables.
Proof. vm_compute. auto. Qed.
Print Assumptions C59_path_variable_refuted.

(** Right at the beginning, or right after another setting of the structure, the name is the one given. *)
Theorem C59_path_variable_partial : forall x w0 w1 w2 c t w3 tail l,
  blank w0 -> spells (txt "pathvarname") x -> blank w1 -> blank w2 -> blank w3 -> is_alpha c = true ->
  Forall (fun d => is_alnum d = true \/ In d (txt "[]_")) t -> written zero_dim tail l -> ~ In 1 (map fst l) -> NoDup (map fst l) ->
  exists sl, read_settings zero_dim (w0 ++ x ++ w1 ++ ":" :: w2 ++ (c :: t) ++ w3 ++ ";" :: tail) = Some sl /\
    nth_error sl 1 = Some (Some (Text (c :: t))).
Proof.
  intros x w0 w1 w2 c t w3 tail l H0 Hx H1 H2 H3 Hc Ht' Hw Hni Hnd.
  assert (Ht : Forall (fun d => name_char d = true) t).
  { eapply Forall_impl; [|exact Ht']. intros d [H|[<-|[<-|[<-|[]]]]]; [unfold name_char; now rewrite H|reflexivity..]. }
  assert (Hq : quiet (map fst zero_dim) w0).
  { intros n a y w b _ E _ _. apply (f_equal (fun s => In ":" s)) in E.
    assert (Hin : In ":" w0) by (rewrite E; rewrite !in_app_iff; cbn; auto).
    exact (blank_no_colon w0 H0 Hin). }
  assert (Hsq : squeeze t = t).
  { clear - Ht. unfold squeeze. induction Ht as [|d t Hd _ IH]; [reflexivity|]. cbn.
    assert (Hs : is_space d = false).
    { clear - Hd. destruct d as [b0 b1 b2 b3 b4 b5 b6 b7]; destruct b0, b1, b2, b3, b4, b5, b6, b7; vm_compute in Hd |- *; congruence. }
    rewrite Hs. cbn. rewrite IH. reflexivity. }
  assert (He : entry zero_dim w0 (x ++ w1 ++ ":" :: w2 ++ (c :: t) ++ w3 ++ [";"]) 1 (attribute Name w0 (Text (c :: squeeze t)))).
  { eapply entry_intro with (n := txt "pathvarname") (k := Name); try eassumption; [reflexivity|].
    constructor; [exact Hc|]. eapply Forall_impl; [|exact Ht]. intros a Ha. left. exact Ha. }
  pose proof (written_entry zero_dim w0 _ 1 _ tail l Hq He Hw) as Hall.
  cbn [attribute] in Hall. rewrite (squeeze_blank w0 H0), Hsq in Hall. cbn [app] in Hall.
  exists (map (fun i => lookup i ((1, Text (c :: t)) :: l)) (seq 0 (length zero_dim))). split; [|reflexivity].
  etransitivity; [|exact (C59_settings_read zero_dim _ _ ltac:(cbn; auto) Hall ltac:(cbn; constructor; assumption))]. f_equal.
  rewrite <- !app_assoc. do 3 f_equal. cbn [app]. f_equal. rewrite <- !app_assoc. do 2 f_equal. cbn [app]. rewrite <- !app_assoc.
  reflexivity.
Qed.
Print Assumptions C59_path_variable_partial.

Example C59_path_variable_case :
  read_settings zero_dim (txt " PathVarName : t_1 ; starttime: 2;") =
    Some [None; Some (Text (txt "t_1")); None; Some (Text (txt "2")); None; None].
Proof. vm_compute. reflexivity. Qed.

(** Whole numbers are read as signed numbers also for members without a sign, and a fraction is not a number although the
    rule of the sample factor and the step size factors is called rational. *)
Theorem C59_fraction_refuted :
  read_settings endgame (txt "samplefactor: 1/2;") = None /\ read_settings stepping (txt "stepsuccessfactor: 3/2;") = None /\
  read_settings zero_dim (txt "initialprec: -1;") = Some [Some (Int (-1)); None; None; None; None; None].
Proof. vm_compute. auto. Qed.
Print Assumptions C59_fraction_refuted.

(** The member each setting changes, structure by structure (core/include/bertini2/endgames/config.hpp, trackers/config.hpp,
    nag_algorithms/common/config.hpp and the semantic actions in io/parsing/settings_parsers/): the position in the list of
    the result is the position in these lists. *)
Definition members : list (list (string * string)) :=
  [[("initial_ambient_precision", "initialprec"); ("path_variable_name", "pathvarname");
    ("max_num_crossed_path_resolve_attempts", "maxcrossedpathresolves"); ("start_time", "starttime");
    ("endgame_boundary", "endgamebdry"); ("target_time", "targettime")];
   [("max_step_size", "maxstepsize"); ("step_size_success_factor", "stepsuccessfactor");
    ("step_size_fail_factor", "stepfailfactor");
    ("consecutive_successful_steps_before_stepsize_increase", "stepsforincrease"); ("max_num_steps", "maxnumbersteps")];
   [("coefficient_bound", "coefficientbound"); ("degree_bound", "degreebound"); ("epsilon", "epsilon"); ("Phi", "phi");
    ("Psi", "psi"); ("safety_digits_1", "ampsafetydigits1"); ("safety_digits_2", "ampsafetydigits2");
    ("maximum_precision", "ampmaxprec");
    ("consecutive_successful_steps_before_precision_decrease", "maxstepsprecisiondecrease");
    ("max_num_precision_decreases", "maxnumprecdecreases")];
   [("level", "securitylevel"); ("max_norm", "securitymaxnorm")];
   [("sample_factor", "samplefactor"); ("min_track_time", "nbhdradius"); ("num_sample_points", "numsamplepoints")];
   [("max_cycle_number", "maxcyclenum")];
   [("cycle_cutoff_time", "cycletimecutoff"); ("ratio_cutoff_time", "ratiotimecutoff")];
   [("minimum_cycle", "mincycletrackback"); ("junk_removal_test", "junkremovaltrackback"); ("max_depth_LDT", "maxldtdepth")];
   [("newton_before_endgame", "tracktolbeforeeg"); ("newton_during_endgame", "tracktolduringeg"); ("final_tolerance", "finaltol");
    ("path_truncation_threshold", "pathtruncationthreshold")];
   [("same_point_tolerance", "midpathtol")];
   [("midpath_decrease_tolerance_factor", "retracktolfactor")];
   [("sharpendigits", "sharpendigits"); ("function_residual_tolerance", "functiontolerance"); ("ratio_tolerance", "ratiotolerance")];
   [("remove_infinite_endpoints", "regenremoveinf"); ("higher_dimension_check", "regenhigherdimtest");
    ("start_level", "regenstartlevel"); ("newton_before_endgame", "slicetolbeforeeg");
    ("newton_during_endgame", "slicetolduringeg"); ("final_tolerance", "slicefinaltol")];
   [("real_threshold", "imagthreshold"); ("endpoint_finite_threshold", "endpointfinitethreshold");
    ("same_point_tolerance", "endpointsamethreshold")]]%string.

Theorem C59_members : map (map fst) all_tables = map (map (fun p => txt (snd p))) members.
Proof. vm_compute. reflexivity. Qed.
Print Assumptions C59_members.

(** The number of iterations of Newton's method: exactly when the text has the setting once, after text that does not
    contain its name, the number is read; exactly when it contains the name with a colon nowhere, the default stays. *)
Theorem C59_newton_read : forall s o, read_newton s = Some o <-> newton_written s o.
Proof. exact newton_read. Qed.
Print Assumptions C59_newton_read.

Example C59_newton_case :
  read_newton (txt "finaltol: 1; MaxNewtonIts : 3 ; b") = Some (Some 3%Z) /\ read_newton (txt "maxnewton 7") = Some None /\
  read_newton (txt "maxnewtonits: 3; maxnewtonits: 3;") = None.
Proof. vm_compute. auto. Qed.

(** Other than for the other structures, the name without a colon in the text before the setting is an error. *)
Theorem C59_newton_name_refuted :
  read_newton (txt "maxnewtonits is 3; maxnewtonits: 3;") = None /\
  read_settings power_series (txt "maxcyclenum is 3; maxcyclenum: 3;") = Some [Some (Int 3)].
Proof. vm_compute. auto. Qed.
Print Assumptions C59_newton_name_refuted.

(** The choices of precision, predictor and algorithm: a text without the name gives the default, one with the setting
    given once gives the chosen alternative, and one with the setting given twice is an error. *)
Theorem C59_choice_default : forall p s, In p choices -> ~ occurs (cname p) s -> read_choice p s = Some (cdefault p).
Proof. exact read_default. Qed.
Print Assumptions C59_choice_default.

Theorem C59_choice_read : forall p junk x w1 w2 w v w3 tail, In p choices ->
  quiet [cname p] junk -> spells (cname p) x -> blank w1 -> blank w2 -> blank w3 -> In (w, v) (csymbols p) ->
  ~ occurs (cname p) tail ->
  read_choice p (junk ++ x ++ w1 ++ ":" :: w2 ++ w ++ w3 ++ ";" :: tail) = Some v.
Proof. exact read_chosen. Qed.
Print Assumptions C59_choice_read.

Theorem C59_choice_twice : forall p junk x w1 w2 w v w3 mid y tail, In p choices ->
  quiet [cname p] junk -> spells (cname p) x -> blank w1 -> blank w2 -> blank w3 -> In (w, v) (csymbols p) ->
  spells (cname p) y ->
  read_choice p (junk ++ x ++ w1 ++ ":" :: w2 ++ w ++ w3 ++ ";" :: mid ++ y ++ ":" :: tail) = None.
Proof. exact read_twice. Qed.
Print Assumptions C59_choice_twice.

Example C59_choice_case :
  read_choice precision_type (txt "finaltol: 1; MPType : 0 ;") = Some (txt "Fixed") /\
  read_choice predictor (txt "odepredictor: -1;") = Some (txt "Constant") /\
  read_choice track_type (txt "odepredictor: -1;") = Some (txt "ZeroDim") /\
  read_choice predictor (txt "odepredictor: 9;") = None.
Proof. vm_compute. auto. Qed.

(** The alternatives and their numbers. *)
Definition alternatives : list (choice * list (string * string)) :=
  [(precision_type, [("0", "Fixed"); ("1", "Adaptive"); ("2", "Adaptive")]);
   (predictor, [("-1", "Constant"); ("0", "Euler"); ("1", "Heun"); ("2", "RK4"); ("3", "Heun"); ("4", "RKNorsett34");
     ("5", "RKF45"); ("6", "RKCashKarp45"); ("7", "RKDormandPrince56"); ("8", "RKVerner67")]);
   (track_type, [("-4", "EvalFunctions"); ("-3", "EvalFunctionJacobian"); ("-2", "NewtonIteration");
     ("-1", "NewtonIterationCondNum"); ("0", "ZeroDim"); ("1", "NID"); ("2", "SampleComponent"); ("3", "MembershipTest");
     ("4", "ExtractWitnessSet"); ("5", "WitnessSetProjection"); ("6", "IsosingularStab")])]%string.

Theorem C59_alternatives : forall p l w v junk x w1 w2 w3 tail, In (p, l) alternatives -> In (w, v) l ->
  quiet [cname p] junk -> spells (cname p) x -> blank w1 -> blank w2 -> blank w3 -> ~ occurs (cname p) tail ->
  read_choice p (junk ++ x ++ w1 ++ ":" :: w2 ++ txt w ++ w3 ++ ";" :: tail) = Some (txt v).
Proof.
  intros p l w v junk x w1 w2 w3 tail Hp Hin Hq Hx H1 H2 H3 Ht. apply C59_choice_read; try assumption.
  - destruct Hp as [E|[E|[E|[]]]]; injection E as <- _; cbn; tauto.
  - destruct Hp as [E|[E|[E|[]]]]; injection E as <- <-;
      repeat (destruct Hin as [Hin|Hin]; [injection Hin as <- <-; vm_compute; tauto|]); destruct Hin.
Qed.
Print Assumptions C59_alternatives.

Theorem C59_choice_names : map cname choices = [txt "mptype"; txt "odepredictor"; txt "tracktype"] /\
  map cdefault choices = [txt "Adaptive"; txt "RKF45"; txt "ZeroDim"].
Proof. split; reflexivity. Qed.
Print Assumptions C59_choice_names.

(** An alternative that does not exist is an error if the colon follows the name directly. *)
Theorem C59_unknown_choice_partial : forall p junk x w2 u, In p choices -> quiet [cname p] junk -> spells (cname p) x ->
  blank w2 -> starts is_space u = false -> (forall w v r, In (w, v) (csymbols p) -> u <> w ++ r) ->
  read_choice p (junk ++ x ++ ":" :: w2 ++ u) = None.
Proof. exact read_unknown. Qed.
Print Assumptions C59_unknown_choice_partial.

(** With white space before the colon it is silently the default for the type of precision, and an error for the others. *)
Theorem C59_unknown_choice_refuted :
  read_choice precision_type (txt "mptype : 7;") = Some (txt "Adaptive") /\
  read_choice precision_type (txt "mptype: 7;") = None /\
  read_choice predictor (txt "odepredictor : 9;") = None /\ In precision_type choices.
Proof. vm_compute. auto. Qed.
Print Assumptions C59_unknown_choice_refuted.

(** Names are found inside longer names: the setting SliceFinalTol of the regeneration structure also changes FinalTol of
    the tolerances, and giving both is an error. *)
Theorem C59_name_in_name_refuted :
  read_settings tolerances (txt "slicefinaltol: 1e-3;") = Some [None; None; Some (Text (txt "1e-3")); None] /\
  read_settings tolerances (txt "finaltol: 1e-12; slicefinaltol: 1e-3;") = None /\
  In tolerances tables /\ In regeneration tables /\ In (txt "slicefinaltol", Number) regeneration.
Proof. vm_compute. intuition. Qed.
Print Assumptions C59_name_in_name_refuted.
