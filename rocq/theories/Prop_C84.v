(** C84: settings given to the constructor of an endgame, in any order, are the ones it uses.

    [unpermute us default given] is the tuple of settings of an endgame which needs the settings of types [us], made
    with the settings [given]; [None] means that the program does not compile.  [config_get] and [set_all] are Get, and
    any sequence of calls of Set.  The functions take the type of the types, its equality test and the type of the values
    first. *)
From Coq Require Import List Permutation.
From Verif Require Import Permuted.
Import ListNotations.

(** The program compiles exactly when the given settings are of different types, all needed.  Then there is one setting
    for each needed type, in the order of the needed types: the given one if there is one, otherwise the default. *)
Theorem C84_unpermute : forall Ty Ty_eq V (us : list Ty) (default : Ty -> V) (given : list (Ty * V)), NoDup us -> us <> [] ->
  ((exists c, unpermute Ty Ty_eq V us default given = Some c) <-> NoDup (map fst given) /\ incl (map fst given) us) /\
  forall c, unpermute Ty Ty_eq V us default given = Some c ->
    map fst c = us /\
    (forall t v, In (t, v) given -> In (t, v) c) /\
    (forall t, In t us -> ~ In t (map fst given) -> In (t, default t) c).
Proof.
  intros Ty Ty_eq V us default given N E.
  assert (R : forall c, unpermute Ty Ty_eq V us default given = Some c -> acceptable Ty V us given).
  { intros c H. destruct (acceptable_dec Ty Ty_eq V us given) as [A|A]; [exact A|].
    rewrite (unpermute_rejects Ty Ty_eq V us default given A) in H by (left; exact E). discriminate. }
  split.
  - split.
    + intros [c H]. destruct (R c H) as (_ & A & B). split; assumption.
    + intros [A B]. eexists. apply unpermute_accepts. split; [exact N|split; assumption].
  - intros c H. pose proof (R c H) as A. rewrite (unpermute_accepts Ty Ty_eq V us default given A) in H. injection H as <-.
    destruct A as (_ & A & B). split; [rewrite map_map; apply map_id|]. split.
    + intros t v I. apply in_map_iff. exists t. split.
      * f_equal. unfold value_of. apply last_value_in; assumption.
      * apply B. apply in_map_iff. exists (t, v). auto.
    + intros t I J. apply in_map_iff. exists t. split; [|exact I].
      f_equal. unfold value_of. apply last_value_absent. exact J.
Qed.
Print Assumptions C84_unpermute.

(** the order in which settings are given makes no difference *)
Theorem C84_any_order : forall Ty Ty_eq V (us : list Ty) (default : Ty -> V) (given given' : list (Ty * V)),
  Permutation given given' -> unpermute Ty Ty_eq V us default given = unpermute Ty Ty_eq V us default given'.
Proof. intros. apply unpermute_order. assumption. Qed.
Print Assumptions C84_any_order.

(** After any sequence of calls of Set, Get gives the value last set; the given one if it was never set; the default one
    if it was not given either. *)
Theorem C84_get : forall Ty Ty_eq V (us : list Ty) (default : Ty -> V) (given h : list (Ty * V)),
  NoDup us -> NoDup (map fst given) -> incl (map fst given) us -> incl (map fst h) us ->
  exists c c', make Ty Ty_eq V us default given = Some c /\ set_all Ty Ty_eq V c h = Some c' /\
    forall t, In t us ->
      (forall h1 v h2, h = h1 ++ (t, v) :: h2 -> ~ In t (map fst h2) -> config_get Ty Ty_eq V t c' = Some v) /\
      (forall v, ~ In t (map fst h) -> In (t, v) given -> config_get Ty Ty_eq V t c' = Some v) /\
      (~ In t (map fst h) -> ~ In t (map fst given) -> config_get Ty Ty_eq V t c' = Some (default t)).
Proof.
  intros Ty Ty_eq V us default given h N A B I.
  destruct (made_and_set Ty Ty_eq V us default given h) as (c & c' & H1 & H2 & H3); [split; [exact N|split; assumption]|exact I|].
  exists c, c'. split; [exact H1|]. split; [exact H2|]. intros t Ht. rewrite (H3 t Ht). split; [|split].
  - intros h1 v h2 -> X. rewrite last_value_app. cbn [last_value]. destruct (Ty_eq t t); [|contradiction].
    rewrite last_value_absent by exact X. reflexivity.
  - intros v X Y. rewrite last_value_absent by exact X. f_equal. apply last_value_in; assumption.
  - intros X Y. rewrite !last_value_absent by assumption. reflexivity.
Qed.
Print Assumptions C84_get.

(** Get and Set of a setting that the endgame has not got do not compile. *)
Theorem C84_foreign : forall Ty Ty_eq V (us : list Ty) (default : Ty -> V) (given : list (Ty * V)) c t v,
  make Ty Ty_eq V us default given = Some c -> NoDup us -> us <> [] -> ~ In t us ->
  config_get Ty Ty_eq V t c = None /\ config_set Ty Ty_eq V t v c = None.
Proof.
  intros Ty Ty_eq V us default given c t v H N E X.
  destruct (C84_unpermute Ty Ty_eq V us default given N E) as [_ U]. destruct (U c H) as [F _]. rewrite <- F in X.
  split; [apply get_needs; exact X|]. unfold config_set.
  destruct (is_template_parameter Ty Ty_eq t (map fst c)) eqn:P; [|reflexivity].
  apply template_parameter_In in P. contradiction.
Qed.
Print Assumptions C84_foreign.

(** A Cauchy endgame made with security settings 7 and its own settings 5, in this order; afterwards its endgame settings
    are changed twice.  The power series endgame cannot be made with Cauchy settings, and no endgame with two of a kind. *)
Example C84_case :
  let d := fun _ : setting => 1 in
  unpermute setting setting_eq nat cauchy_configs d [(Security, 7); (CauchyC, 5)]
    = Some [(CauchyC, 5); (EndgameC, 1); (Security, 7)] /\
  (exists c, set_all setting setting_eq nat [(CauchyC, 5); (EndgameC, 1); (Security, 7)] [(EndgameC, 2); (EndgameC, 3)] = Some c /\
     config_get setting setting_eq nat EndgameC c = Some 3 /\ config_get setting setting_eq nat Security c = Some 7 /\
     config_get setting setting_eq nat PowerSeriesC c = None) /\
  unpermute setting setting_eq nat power_series_configs d [(CauchyC, 5)] = None /\
  unpermute setting setting_eq nat cauchy_configs d [(Security, 7); (Security, 7)] = None /\
  NoDup cauchy_configs /\ NoDup power_series_configs.
Proof.
  cbn. split; [reflexivity|]. split; [eexists; repeat split|]. split; [reflexivity|]. split; [reflexivity|].
  split; repeat constructor; cbn; intuition discriminate.
Qed.
