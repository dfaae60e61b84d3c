(** Settings given to constructors in any order: detail/enable_permuted_arguments.hpp, detail/typelist.hpp,
    detail/is_template_parameter.hpp and detail/configured.hpp.

    C++ types are elements of a type with decidable equality, values are tagged with their type.  What the compiler
    rejects is [None]. *)
From Coq Require Import List Arith Lia Permutation Bool.
Import ListNotations.

Section Permuted.
  Variable Ty : Type.
  Variable Ty_eq : forall a b : Ty, {a = b} + {a <> b}.
  Variable V : Type.

  (** IndexByType, enable_permuted_arguments.hpp:50-65; a second occurrence is a failed static_assert *)
  Fixpoint index_by_type (t : Ty) (l : list Ty) : option nat :=
    match l with
    | [] => Some 0
    | u :: r =>
        if Ty_eq t u
        then match index_by_type t r with
             | Some i => if i =? length r then Some 0 else None
             | None => None
             end
        else option_map S (index_by_type t r)
    end.

  (** the values of a tuple of references *)
  Definition tuple : Type := list (Ty * V).

  (** GetByIndex, enable_permuted_arguments.hpp:68-85 *)
  Definition get_by_index (i j : nat) (present absent : tuple) : option (Ty * V) :=
    if i =? length present then nth_error absent j else nth_error present i.

  (** all the template instantiations have to be valid *)
  Fixpoint all_some {A : Type} (l : list (option A)) : option (list A) :=
    match l with
    | [] => Some []
    | Some a :: r => option_map (cons a) (all_some r)
    | None :: _ => None
    end.

  (** AreValidArguments and ValidateTypes, enable_permuted_arguments.hpp:91-100, as used in 127-130 *)
  Definition valid_argument (us : list Ty) (t : Ty) : bool :=
    match index_by_type t us with Some i => negb (i =? length us) | None => false end.

  (** Unpermute, enable_permuted_arguments.hpp:118-136; [default] is DefaultConstruct, lines 105-111; the
      references are copied into a tuple of values by TypeList::Unpermute, typelist.hpp:55-60 *)
  Definition unpermute (us : list Ty) (default : Ty -> V) (present : tuple) : option tuple :=
    let absent := map (fun u => (u, default u)) us in
    if forallb (fun a => valid_argument us (fst a)) present
    then all_some (map (fun u =>
           match index_by_type u (map fst present), index_by_type u us with
           | Some i, Some j => get_by_index i j present absent
           | _, _ => None
           end) us)
    else None.

  (** IsTemplateParameter, is_template_parameter.hpp:45-65 *)
  Fixpoint is_template_parameter (t : Ty) (l : list Ty) : bool :=
    match l with [] => false | u :: r => (if Ty_eq t u then true else false) || is_template_parameter t r end.

  (** std::get of a type from a tuple: the type must occur once *)
  Definition std_get (t : Ty) (c : tuple) : option V :=
    if count_occ Ty_eq (map fst c) t =? 1
    then match find (fun a => if Ty_eq t (fst a) then true else false) c with Some a => Some (snd a) | None => None end
    else None.

  (** Configured::Get and Configured::Set, configured.hpp:97-107 *)
  Definition config_get (t : Ty) (c : tuple) : option V :=
    if is_template_parameter t (map fst c) then std_get t c else None.
  Definition config_set (t : Ty) (v : V) (c : tuple) : option tuple :=
    if is_template_parameter t (map fst c) && (count_occ Ty_eq (map fst c) t =? 1)
    then Some (map (fun a => if Ty_eq t (fst a) then (fst a, v) else a) c) else None.

  (** An endgame is made with settings (EndgameBase, base_endgame.hpp:226-234; CauchyEndgame, cauchy.hpp:328-335;
      PowerSeriesEndgame, powerseries.hpp:292-300), and then Set is called. *)
  Definition make (us : list Ty) (default : Ty -> V) (given : tuple) : option tuple := unpermute us default given.
  Fixpoint set_all (c : tuple) (h : list (Ty * V)) : option tuple :=
    match h with
    | [] => Some c
    | (t, v) :: r => match config_set t v c with Some c' => set_all c' r | None => None end
    end.

  (** ** Specification *)
  (** the last value with a given type *)
  Fixpoint last_value (t : Ty) (l : list (Ty * V)) (d : V) : V :=
    match l with [] => d | (u, v) :: r => last_value t r (if Ty_eq t u then v else d) end.

  Definition acceptable (us : list Ty) (given : tuple) : Prop :=
    NoDup us /\ NoDup (map fst given) /\ incl (map fst given) us.

  (** ** Proofs *)
  Lemma index_absent : forall t l, ~ In t l -> index_by_type t l = Some (length l).
  Proof.
    induction l as [|u l IH]; intro H; cbn; [reflexivity|]. destruct (Ty_eq t u) as [->|N]; [exfalso; apply H; left; reflexivity|].
    rewrite IH by (intro; apply H; right; assumption). reflexivity.
  Qed.
  Lemma index_full : forall t l, index_by_type t l = Some (length l) -> ~ In t l.
  Proof.
    induction l as [|u l IH]; cbn; intro H; [tauto|]. destruct (Ty_eq t u) as [->|N].
    - destruct (index_by_type u l) as [i|]; [|discriminate]. destruct (i =? length l); discriminate.
    - destruct (index_by_type t l) as [i|]; [|discriminate]. injection H as ->. intros [X|X]; [congruence|]. exact (IH eq_refl X).
  Qed.
  Lemma index_once : forall t l, count_occ Ty_eq l t = 1 ->
    exists l1 l2, l = l1 ++ t :: l2 /\ ~ In t l1 /\ ~ In t l2 /\ index_by_type t l = Some (length l1).
  Proof.
    induction l as [|u l IH]; cbn; intro H; [discriminate|]. destruct (Ty_eq u t) as [->|N].
    - injection H as H. apply count_occ_not_In in H. destruct (Ty_eq t t); [|contradiction].
      rewrite (index_absent _ _ H), Nat.eqb_refl. exists [], l. auto.
    - destruct (Ty_eq t u); [congruence|]. destruct (IH H) as (l1 & l2 & -> & A & B & ->).
      exists (u :: l1), l2. split; [reflexivity|]. split; [intros [X|X]; congruence || auto|]. auto.
  Qed.
  Lemma index_many : forall t l, 2 <= count_occ Ty_eq l t -> index_by_type t l = None.
  Proof.
    induction l as [|u l IH]; cbn; intro H; [lia|]. destruct (Ty_eq u t) as [->|N].
    - destruct (Ty_eq t t); [|contradiction].
      destruct (index_by_type t l) as [i|] eqn:E; [|reflexivity]. destruct (Nat.eqb_spec i (length l)) as [->|]; [|reflexivity].
      apply index_full in E. apply (count_occ_not_In Ty_eq) in E. lia.
    - destruct (Ty_eq t u); [congruence|]. rewrite IH by exact H. reflexivity.
  Qed.

  Lemma count_cases : forall t (l : list Ty), ~ In t l /\ count_occ Ty_eq l t = 0 \/ count_occ Ty_eq l t = 1 \/ 2 <= count_occ Ty_eq l t.
  Proof.
    intros t l. destruct (count_occ Ty_eq l t) as [|[|n]] eqn:E; [left|right; left; reflexivity|right; right; lia].
    apply (count_occ_not_In Ty_eq) in E. auto.
  Qed.

  Lemma all_some_map : forall (A B : Type) (g : A -> option B) (h : A -> B) l, (forall a, In a l -> g a = Some (h a)) ->
    all_some (map g l) = Some (map h l).
  Proof.
    intros A B g h. induction l as [|a l IH]; intro H; cbn; [reflexivity|].
    rewrite (H a) by (left; reflexivity). rewrite IH by (intros; apply H; right; assumption). reflexivity.
  Qed.
  Lemma all_some_none : forall (A B : Type) (g : A -> option B) l a, In a l -> g a = None -> all_some (map g l) = None.
  Proof.
    intros A B g. induction l as [|b l IH]; intros a H E; cbn; [destruct H|]. destruct H as [->|H]; [rewrite E; reflexivity|].
    rewrite (IH a H E). destruct (g b); reflexivity.
  Qed.

  Definition value_of (default : Ty -> V) (given : tuple) (u : Ty) : V := last_value u given (default u).

  Lemma last_value_absent : forall t l d, ~ In t (map fst l) -> last_value t l d = d.
  Proof.
    intros t. induction l as [|[u v] l IH]; intros d H; cbn; [reflexivity|]. cbn in H.
    destruct (Ty_eq t u) as [->|]; [exfalso; apply H; left; reflexivity|]. apply IH. tauto.
  Qed.
  Lemma last_value_app : forall t l r d, last_value t (l ++ r) d = last_value t r (last_value t l d).
  Proof. intros t. induction l as [|[u v] l IH]; intros r d; cbn; [reflexivity|apply IH]. Qed.

  Lemma map_fst_split : forall (l : tuple) l1 t l2, map fst l = l1 ++ t :: l2 ->
    exists m1 v m2, l = m1 ++ (t, v) :: m2 /\ map fst m1 = l1 /\ map fst m2 = l2.
  Proof.
    intros l l1 t l2 E. apply map_eq_app in E. destruct E as (m1 & r & -> & E1 & E2).
    destruct r as [|[u v] m2]; [discriminate|]. cbn in E2. injection E2 as <- <-. exists m1, v, m2. auto.
  Qed.

  Lemma unpermute_accepts : forall us default given, acceptable us given ->
    unpermute us default given = Some (map (fun u => (u, value_of default given u)) us).
  Proof.
    intros us default given (Nu & Ng & I). unfold unpermute.
    assert (F : forallb (fun a => valid_argument us (fst a)) given = true).
    { apply forallb_forall. intros [t v] H. unfold valid_argument. cbn [fst].
      assert (Ht : In t us) by (apply I; apply in_map_iff; exists (t, v); auto).
      destruct (index_once t us) as (l1 & l2 & E & _ & _ & ->).
      { apply NoDup_count_occ'; assumption. }
      rewrite E, app_length. cbn [length]. apply negb_true_iff, Nat.eqb_neq. lia. }
    rewrite F. apply all_some_map. intros u Hu.
    destruct (index_once u us) as (l1 & l2 & Eu & _ & _ & ->).
    { apply NoDup_count_occ'; assumption. }
    destruct (in_dec Ty_eq u (map fst given)) as [H|H].
    - destruct (index_once u (map fst given)) as (g1 & g2 & Eg & A & B & ->).
      { apply NoDup_count_occ'; assumption. }
      unfold get_by_index. assert (Lg : length given = length (g1 ++ u :: g2)) by (rewrite <- Eg, map_length; reflexivity).
      rewrite app_length in Lg. cbn [length] in Lg. destruct (Nat.eqb_spec (length g1) (length given)); [lia|].
      destruct (map_fst_split given g1 u g2 Eg) as (m1 & v & m2 & -> & M1 & M2).
      rewrite <- M1, map_length, nth_error_app2, Nat.sub_diag by lia. cbn [nth_error].
      do 2 f_equal. unfold value_of. rewrite last_value_app. cbn [last_value]. destruct (Ty_eq u u); [|contradiction].
      rewrite last_value_absent by (rewrite M2; exact B). reflexivity.
    - rewrite (index_absent _ _ H), map_length. unfold get_by_index. rewrite Nat.eqb_refl.
      rewrite Eu, map_app, nth_error_app2 by (rewrite map_length; lia). rewrite map_length, Nat.sub_diag. cbn [map nth_error].
      do 2 f_equal. unfold value_of. rewrite last_value_absent by exact H. reflexivity.
  Qed.

  Lemma unpermute_rejects : forall us default given, ~ acceptable us given -> us <> [] \/ given <> [] ->
    unpermute us default given = None.
  Proof.
    intros us default given Na Ne. unfold unpermute.
    destruct (forallb (fun a => valid_argument us (fst a)) given) eqn:F; [|reflexivity].
    assert (I : incl (map fst given) us).
    { intros t H. apply in_map_iff in H. destruct H as ([t' v] & E & H). cbn in E. subst t'.
      rewrite forallb_forall in F. specialize (F _ H). unfold valid_argument in F. cbn [fst] in F.
      destruct (in_dec Ty_eq t us) as [X|X]; [exact X|]. rewrite (index_absent _ _ X), Nat.eqb_refl in F. discriminate. }
    destruct (ListDec.NoDup_dec Ty_eq us) as [Nu|Nu].
    - destruct (ListDec.NoDup_dec Ty_eq (map fst given)) as [Ng|Ng]; [exfalso; apply Na; split; [exact Nu|split; assumption]|].
      assert (D : exists t, 2 <= count_occ Ty_eq (map fst given) t).
      { clear - Ng Ty_eq. induction (map fst given) as [|u l IH]; [exfalso; apply Ng; constructor|].
        destruct (in_dec Ty_eq u l) as [X|X].
        - exists u. cbn. destruct (Ty_eq u u); [|contradiction]. apply (count_occ_In Ty_eq) in X. lia.
        - destruct IH as [t Ht]; [intro; apply Ng; constructor; assumption|]. exists t. cbn. destruct (Ty_eq u t); lia. }
      destruct D as [t D]. eapply all_some_none with (a := t).
      + apply I. apply (count_occ_In Ty_eq). lia.
      + cbn beta. rewrite (index_many _ _ D). reflexivity.
    - assert (D : exists t, 2 <= count_occ Ty_eq us t).
      { clear - Nu Ty_eq. induction us as [|u l IH]; [exfalso; apply Nu; constructor|].
        destruct (in_dec Ty_eq u l) as [X|X].
        - exists u. cbn. destruct (Ty_eq u u); [|contradiction]. apply (count_occ_In Ty_eq) in X. lia.
        - destruct IH as [t Ht]; [intro; apply Nu; constructor; assumption|]. exists t. cbn. destruct (Ty_eq u t); lia. }
      destruct D as [t D]. eapply all_some_none with (a := t).
      + apply (count_occ_In Ty_eq). lia.
      + cbn beta. rewrite (index_many _ _ D). destruct (index_by_type t (map fst given)); reflexivity.
  Qed.

  Lemma acceptable_permutation : forall us g g', Permutation g g' -> acceptable us g -> acceptable us g'.
  Proof.
    intros us g g' P (A & B & C). split; [exact A|]. split.
    - apply Permutation_NoDup with (1 := Permutation_map fst P). exact B.
    - intros t H. apply C. apply Permutation_in with (2 := H). apply Permutation_sym, Permutation_map, P.
  Qed.

  Lemma last_value_in : forall t v l d, NoDup (map fst l) -> In (t, v) l -> last_value t l d = v.
  Proof.
    intros t v. induction l as [|[u w] l IH]; intros d N H; [destruct H|]. cbn in N. apply NoDup_cons_iff in N. destruct N as [N1 N2].
    cbn. destruct H as [E|H].
    - injection E as -> ->. destruct (Ty_eq t t); [|contradiction]. apply last_value_absent. exact N1.
    - apply IH; assumption.
  Qed.

  Lemma value_permutation : forall default g g' u, Permutation g g' -> NoDup (map fst g) -> value_of default g u = value_of default g' u.
  Proof.
    intros default g g' u P N. unfold value_of.
    destruct (in_dec Ty_eq u (map fst g)) as [H|H].
    - apply in_map_iff in H. destruct H as ([t v] & E & H). cbn in E. subst t.
      rewrite (last_value_in u v g) by assumption. symmetry. apply last_value_in.
      + apply Permutation_NoDup with (1 := Permutation_map fst P). exact N.
      + apply Permutation_in with (1 := P). exact H.
    - rewrite !last_value_absent; auto. intro X. apply H.
      apply Permutation_in with (2 := X). apply Permutation_sym, Permutation_map, P.
  Qed.

  Lemma acceptable_dec : forall us g, {acceptable us g} + {~ acceptable us g}.
  Proof.
    intros us g. unfold acceptable.
    destruct (ListDec.NoDup_dec Ty_eq us); [|right; tauto]. destruct (ListDec.NoDup_dec Ty_eq (map fst g)); [|right; tauto].
    destruct (ListDec.incl_dec Ty_eq (map fst g) us); [left|right]; tauto.
  Qed.

  Lemma unpermute_order : forall us default g g', Permutation g g' -> unpermute us default g = unpermute us default g'.
  Proof.
    intros us default g g' P. destruct (acceptable_dec us g) as [A|A].
    - rewrite (unpermute_accepts _ _ _ A), (unpermute_accepts _ _ _ (acceptable_permutation _ _ _ P A)).
      f_equal. apply map_ext. intro u. f_equal. apply value_permutation; [exact P|apply A].
    - assert (A' : ~ acceptable us g') by (intro X; apply A; exact (acceptable_permutation _ _ _ (Permutation_sym P) X)).
      destruct us as [|u us].
      + destruct g as [|a g]; [apply Permutation_nil in P; subst; reflexivity|].
        destruct g' as [|b g']; [apply Permutation_sym, Permutation_nil in P; discriminate|]. reflexivity.
      + rewrite !unpermute_rejects; auto; left; discriminate.
  Qed.

  (** Get after Set *)
  Lemma template_parameter_In : forall t l, is_template_parameter t l = true <-> In t l.
  Proof.
    intros t. induction l as [|u l IH]; cbn; [split; [discriminate|tauto]|].
    rewrite orb_true_iff, IH. destruct (Ty_eq t u) as [->|N]; split; intuition congruence.
  Qed.

  Lemma get_of : forall us (f : Ty -> V) t, NoDup us -> In t us -> config_get t (map (fun u => (u, f u)) us) = Some (f t).
  Proof.
    intros us f t N H. unfold config_get, std_get. 
    assert (E : map fst (map (fun u => (u, f u)) us) = us) by (rewrite map_map; cbn; apply map_id).
    rewrite E. rewrite (proj2 (template_parameter_In t us) H).
    rewrite (proj1 (NoDup_count_occ' Ty_eq us) N t H). cbn [Nat.eqb].
    clear E. induction us as [|u us IH]; [destruct H|]. cbn [map find fst]. destruct (Ty_eq t u) as [->|X]; [reflexivity|].
    apply NoDup_cons_iff in N. destruct H as [->|H]; [congruence|]. apply IH; tauto.
  Qed.

  Lemma set_of : forall us (f : Ty -> V) t v, NoDup us -> In t us ->
    config_set t v (map (fun u => (u, f u)) us) = Some (map (fun u => (u, if Ty_eq u t then v else f u)) us).
  Proof.
    intros us f t v N H. unfold config_set.
    assert (E : map fst (map (fun u => (u, f u)) us) = us) by (rewrite map_map; cbn; apply map_id).
    rewrite E. rewrite (proj2 (template_parameter_In t us) H).
    rewrite (proj1 (NoDup_count_occ' Ty_eq us) N t H). cbn [Nat.eqb andb]. f_equal. rewrite map_map. apply map_ext.
    intro u. cbn [fst]. destruct (Ty_eq t u) as [->|X]; destruct (Ty_eq u _); congruence || (destruct (Ty_eq u t); congruence) || reflexivity.
  Qed.

  Lemma set_all_of : forall us h (f : Ty -> V), NoDup us -> incl (map fst h) us ->
    set_all (map (fun u => (u, f u)) us) h = Some (map (fun u => (u, last_value u h (f u))) us).
  Proof.
    intros us. induction h as [|[t v] h IH]; intros f N I; cbn [set_all last_value]; [reflexivity|].
    rewrite set_of; [|exact N|apply I; left; reflexivity].
    apply (IH (fun u => if Ty_eq u t then v else f u)); [exact N|]. intros x Hx. apply I. right. exact Hx.
  Qed.

  Lemma made_and_set : forall us default given h, acceptable us given -> incl (map fst h) us ->
    exists c c', make us default given = Some c /\ set_all c h = Some c' /\
      forall t, In t us -> config_get t c' = Some (last_value t h (last_value t given (default t))).
  Proof.
    intros us default given h A I. exists (map (fun u => (u, value_of default given u)) us).
    eexists. split; [apply unpermute_accepts; exact A|]. split; [apply set_all_of; [apply A|exact I]|].
    intros t Ht. apply (get_of us (fun u => last_value u h (value_of default given u)) t); [apply A|exact Ht].
  Qed.

  Lemma get_needs : forall t c, ~ In t (map fst c) -> config_get t c = None.
  Proof.
    intros t c H. unfold config_get. destruct (is_template_parameter t (map fst c)) eqn:E; [|reflexivity].
    apply template_parameter_In in E. contradiction.
  Qed.
End Permuted.

(** the settings an endgame is made with, endgames/config.hpp:96-144 *)
Inductive setting : Type := Security | EndgameC | PowerSeriesC | CauchyC | TrackBackC.
Definition setting_eq : forall a b : setting, {a = b} + {a <> b}.
Proof. decide equality. Defined.
(** AlgoTraits::NeededConfigs, endgames/config.hpp:157-161 and 173-176 *)
Definition power_series_configs : list setting := [PowerSeriesC; EndgameC; Security].
Definition cauchy_configs : list setting := [CauchyC; EndgameC; Security].
