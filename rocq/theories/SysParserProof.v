From Coq Require Import String Ascii List Arith Lia Bool ZArith.
From Verif Require Import Base Chars NumLit Expr Parser ParserSpec ParserProof ParserReads Names SysParser SysParserSpec.
Import ListNotations.
Local Open Scope char_scope.

(** the effect of a statement *)
Definition effect (st : stmt) (s : sys) : sys :=
  match st with
  | SGroup l => add_group l s
  | SHomGroup l => add_hom_group l s
  | SVariables l => add_ungrouped l s
  | SFunctions l => add_functions l s
  | SConstants l => add_constants l s
  | SParameters l => add_parameters l s
  | SImplicits l => add_implicits l s
  | SPathVariable v => add_path_variable v s
  | SSubfunction f t => add_subfunction f (set_root f t s)
  | SDefinition f t => set_root f t s
  end.
Definition after (st : stmt) (p : pstate) : pstate :=
  mkP (rev (declares st) ++ names p) (rev (declares_functions st) ++ fnames p) (effect st (built p)).

Lemma describes_run : forall p, describes p (fold_left (fun s st => effect st s) p empty_sys).
Proof.
  intro p. rewrite <- (rev_involutive p). induction (rev p) as [|st q IH].
  - cbn. repeat split.
  - cbn [rev]. rewrite fold_left_app. cbn [fold_left]. unfold describes in *.
    rewrite !flat_map_app. cbn [flat_map]. rewrite !app_nil_r, ?rev_app_distr.
    destruct IH as (H1 & H2 & H3 & H4 & H5 & H6 & H7 & H8 & H9 & H10 & H11).
    destruct st; cbn [effect groups hom_groups ungrouped order functions constants parameters implicits path_variable
      subfunctions roots add_group add_hom_group add_ungrouped add_functions add_constants add_parameters add_implicits
      add_path_variable add_subfunction set_root rev app hd_error]; rewrite ?app_nil_r;
      repeat split; try congruence; assumption.
Qed.

(** *** Completeness *)

Definition ready (p : pstate) : Prop :=
  legal_names (names p) /\ chars_ok (names p) /\ incl (fnames p) (names p) /\
  (forall f k, In f (fnames p) -> In k declarative -> ~ prefix k f).

Lemma identifier_legal : forall nm, identifier nm -> (forall k, ~ function_name k nm) ->
  starts is_alpha nm = true /\ Forall (fun c => is_alnum c = true \/ c = "[" \/ c = "]" \/ c = "_") nm /\
  (forall k, ~ function_name k nm).
Proof.
  intros nm (c & r & -> & Hc & Hr) Hk. split; [exact Hc|]. split; [|exact Hk]. constructor; [|exact Hr].
  left. unfold is_alnum. rewrite Hc. reflexivity.
Qed.

Lemma declarable_identifier : forall l known nm, declarable known l -> In nm l ->
  identifier nm /\ (forall k, In k declarative -> ~ prefix k nm).
Proof.
  induction l as [|a l IH]; intros known nm H Hin; [destruct Hin|]. destruct H as (Hid & Hp & H). destruct Hin as [<-|Hin].
  - split; [exact Hid|]. intros k Hk. apply Hp. apply in_app_iff. left. exact Hk.
  - eapply IH; eassumption.
Qed.

Lemma functions_declared : forall st nm, In nm (declares_functions st) -> In nm (declares st).
Proof. intros [] nm H; cbn in *; tauto. Qed.

Lemma ready_after : forall st p, ready p -> declarable (names p) (declares st) ->
  Forall (fun nm => forall k, ~ function_name k nm) (declares st) -> ready (after st p).
Proof.
  intros st p (Hl & Hc & Hi & Hk) Hd Hf. unfold ready, after. cbn [names fnames]. split; [|split; [|split]].
  - unfold legal_names. apply Forall_app. split; [|exact Hl]. apply Forall_forall. intros nm Hnm. apply in_rev in Hnm.
    apply identifier_legal; [eapply declarable_identifier; eassumption|]. rewrite Forall_forall in Hf. apply Hf, Hnm.
  - intros nm Hnm. apply in_app_iff in Hnm. destruct Hnm as [Hnm|Hnm]; [|apply Hc, Hnm]. apply in_rev in Hnm.
    apply identifier_chars. eapply declarable_identifier; eassumption.
  - intros nm Hnm. apply in_app_iff in Hnm. apply in_app_iff. destruct Hnm as [Hnm|Hnm]; [left|right; apply Hi, Hnm].
    apply in_rev in Hnm. apply in_rev. rewrite rev_involutive. apply functions_declared, Hnm.
  - intros f k Hnm Hkk. apply in_app_iff in Hnm. destruct Hnm as [Hnm|Hnm]; [|apply Hk; assumption].
    apply in_rev in Hnm. apply functions_declared in Hnm. eapply declarable_identifier; eassumption.
Qed.

Section Complete.
Variable ilit : text -> option Z.

Lemma function_rule_usual : forall nms e t w r, legal_names nms -> usual nms ilit false Whole e t -> white w ->
  function_rule ilit nms (e ++ w ++ ";" :: r) = Match t (w ++ ";" :: r).
Proof.
  intros nms e t w r Hl Hu Hw. unfold function_rule.
  pose proof (reads_ok nms ilit (legal_table _ Hl) RWhole e t (usual_reads _ _ _ _ _ Hl Hu)) as H. cbn [read_ok] in H.
  destruct (H (w ++ ";" :: r)) as [n0 Hn].
  { apply boundary_cons; [exact Hw|reflexivity|reflexivity|discriminate]. }
  { apply not_in_cons; [exact Hw|reflexivity|]. cbn. intuition discriminate. }
  assert (Hf : p_expression nms ilit (fuel_for (e ++ w ++ ";" :: r)) (e ++ w ++ ";" :: r) <> Fuel).
  { destruct (enough_fuel nms ilit (fuel_for (e ++ w ++ ";" :: r))) as (Hf & _). specialize (Hf _ (Nat.le_refl _)).
    intro E. rewrite E in Hf. exact Hf. }
  rewrite <- (expression_more nms ilit _ n0 _ Hf). rewrite Hn by lia. reflexivity.
Qed.

Lemma expect_char_here : forall B c w r (f : text -> out B), white w -> is_space c = false ->
  expect_char c (w ++ c :: r) f = f r.
Proof.
  intros B c w r f Hw Hc. unfold expect_char. rewrite skip_app by exact Hw. rewrite skip_start by exact Hc.
  rewrite Ascii.eqb_refl. reflexivity.
Qed.

(** no keyword matches at an identifier which has none as a prefix *)
Lemma no_keyword : forall nm r, identifier nm -> ends_name r -> (forall k, In k declarative -> ~ prefix k nm) ->
  forall k, In k declarative -> strip_prefix k (nm ++ r) = None.
Proof.
  intros nm r Hid Hr Hk k Hin. destruct (strip_prefix k (nm ++ r)) as [q|] eqn:E; [|reflexivity]. exfalso.
  apply (Hk k Hin). eapply prefix_inside; [apply declarative_chars; exact Hin|apply ends_name_spec; exact Hr|].
  exists q. apply strip_prefix_some, E.
Qed.

Lemma statement_nokey : forall p w nm r, white w -> identifier nm -> ends_name r ->
  (forall k, In k declarative -> ~ prefix k nm) ->
  statement ilit p (w ++ nm ++ r) = alternative (subfunction ilit) (definition ilit) p (w ++ nm ++ r).
Proof.
  intros p w nm r Hw Hid Hr Hk. unfold statement, declare, declare_path_variable. unfold alternative at 1 2 3 4 5 6 7 8.
  rewrite skip_app by exact Hw. rewrite identifier_skip by exact Hid.
  rewrite !(no_keyword nm r Hid Hr Hk) by (cbn; tauto). reflexivity.
Qed.

Lemma space_not_name : forall c, is_space c = true -> name_char c = false.
Proof.
  intros c H. destruct (name_char c) eqn:E; [|reflexivity].
  destruct c as [b0 b1 b2 b3 b4 b5 b6 b7]; destruct b0, b1, b2, b3, b4, b5, b6, b7; vm_compute in H, E; discriminate.
Qed.

Lemma strip_prefix_space : forall k kw c r, ~ In c k -> strip_prefix k kw = None -> strip_prefix k (kw ++ c :: r) = None.
Proof.
  induction k as [|a k IH]; intros kw c r Hin H; [discriminate H|]. destruct kw as [|b kw]; cbn in H |- *.
  - destruct (Ascii.eqb_spec a c) as [->|]; [|reflexivity]. exfalso. apply Hin. left. reflexivity.
  - destruct (Ascii.eqb a b); [|reflexivity]. apply IH; [intro K; apply Hin; right; exact K|exact H].
Qed.

Lemma statement_declaration : forall p st kw l w c s w2 r, ready p -> keyword_of st = Some (kw, l) -> white w ->
  is_space c = true -> written l s -> white w2 -> declarable (names p) (declares st) ->
  statement ilit p (w ++ kw ++ c :: s ++ w2 ++ ";" :: r) = Match (after st p) r.
Proof.
  intros p st kw l w c s w2 r (_ & Hch & _) Hkw Hw Hc Hs Hw2 Hd.
  assert (El : declares st = l) by (destruct st; cbn in Hkw |- *; congruence). rewrite El in Hd.
  assert (Hs' : written l (c :: s)).
  { destruct Hs as [w0 nm H0|w0 nm w02 l s H0 H02 H].
    - apply (written_one (c :: w0) nm). constructor; assumption.
    - apply (written_more (c :: w0) nm w02 l s); [constructor; assumption|exact H02|exact H]. }
  pose proof (declaration_exact (names p) l (c :: s) w2 r Hch Hd Hs' Hw2) as Hdecl. cbn [app] in Hdecl.
  assert (Hsk : skip (w ++ kw ++ c :: s ++ w2 ++ ";" :: r) = kw ++ c :: s ++ w2 ++ ";" :: r).
  { rewrite skip_app by exact Hw. apply skip_start. destruct st; cbn in Hkw; try discriminate Hkw; injection Hkw as <- <-; reflexivity. }
  unfold statement, declare, declare_path_variable, alternative. rewrite Hsk.
  assert (Hno : forall k, In k declarative -> strip_prefix k kw = None -> strip_prefix k (kw ++ c :: s ++ w2 ++ ";" :: r) = None).
  { intros k Hk Hn. apply strip_prefix_space; [|exact Hn]. intro Hin.
    pose proof (proj1 (Forall_forall _ _) (declarative_chars k Hk) c Hin) as E.
    cbv beta in E. rewrite (space_not_name c Hc) in E. discriminate E. }
  assert (Hyes : strip_prefix kw (kw ++ c :: s ++ w2 ++ ";" :: r) = Some (c :: s ++ w2 ++ ";" :: r)) by apply strip_prefix_app.
  destruct st; cbn [keyword_of] in Hkw; try discriminate Hkw;
    match type of Hkw with Some (?a, ?b) = _ => assert (Ek : kw = a) by congruence; assert (El2 : l = b) by congruence end;
    clear Hkw; clear El; subst kw l;
    repeat (first [rewrite Hyes | rewrite Hno by (first [reflexivity | cbn; tauto])]);
    unfold after; cbn [declares declares_functions effect];
    try (rewrite Hdecl; reflexivity).
  (* the path variable *)
  unfold declaration, name_list in Hdecl. destruct (new_name (names p) (c :: s ++ w2 ++ ";" :: r)) as [[[nm tab] r1]|]; [|discriminate].
  destruct (more_names (length (c :: s ++ w2 ++ ";" :: r)) tab r1) as [[l2 tab2] r2] eqn:Em.
  destruct (skip r2) as [|d r3] eqn:Er2; [discriminate|]. destruct (Ascii.eqb d ";") eqn:Ed; [|discriminate].
  injection Hdecl as E1 E2 E3 E4. subst l2.
  assert (Hmore : forall n known q l' tab' r', more_names n known q = (l', tab', r') -> l' = [] -> tab' = known /\ r' = q).
  { clear. intros [|n] known q l' tab' r' H E; cbn in H.
    - injection H as _ <- <-. split; reflexivity.
    - destruct (skip q) as [|a q']; [injection H as _ <- <-; split; reflexivity|].
      destruct (Ascii.eqb a ","); [|injection H as _ <- <-; split; reflexivity].
      destruct (new_name known q') as [[[nm kn] q2]|]; [|injection H as _ <- <-; split; reflexivity].
      destruct (more_names n kn q2) as [[la ta] ra]. injection H as <- _ _. discriminate E. }
  destruct (Hmore _ _ _ _ _ _ Em eq_refl) as [<- <-]. unfold expect_char. rewrite Er2, Ed. subst. reflexivity.
Qed.

Lemma ends_equals : forall w2 r, white w2 -> ends_name (w2 ++ "=" :: r).
Proof. intros w2 r H. apply ends_white; [exact H|reflexivity]. Qed.

Lemma statement_subfunction : forall p f t w w2 e w3 r, ready p -> white w -> white w2 -> white w3 ->
  usual (f :: names p) ilit false Whole e t -> declarable (names p) [f] -> (forall k, ~ function_name k f) ->
  statement ilit p (w ++ f ++ w2 ++ "=" :: e ++ w3 ++ ";" :: r) = Match (after (SSubfunction f t) p) r.
Proof.
  intros p f t w w2 e w3 r Hr Hw Hw2 Hw3 Hu Hd Hf. destruct Hr as (Hl & Hc & _). destruct Hd as (Hid & Hp & _).
  rewrite statement_nokey; [|exact Hw|exact Hid|apply ends_equals, Hw2|].
  2: { intros k Hk. apply Hp. apply in_app_iff. left. exact Hk. }
  unfold alternative, subfunction.
  rewrite new_name_exact; try assumption; [|apply ends_equals, Hw2]. rewrite expect_char_here by (assumption || reflexivity).
  rewrite function_rule_usual with (t := t); try assumption.
  - cbn [expect bind]. rewrite expect_char_here by (assumption || reflexivity). reflexivity.
  - constructor; [|exact Hl]. apply identifier_legal; assumption.
Qed.

Lemma statement_definition : forall p f t w w2 e w3 r, ready p -> white w -> white w2 -> white w3 -> In f (fnames p) ->
  usual (names p) ilit false Whole e t ->
  statement ilit p (w ++ f ++ w2 ++ "=" :: e ++ w3 ++ ";" :: r) = Match (after (SDefinition f t) p) r.
Proof.
  intros p f t w w2 e w3 r Hr Hw Hw2 Hw3 Hin Hu. destruct Hr as (Hl & Hc & Hi & Hk).
  assert (Hlf : starts is_alpha f = true /\ Forall (fun c => is_alnum c = true \/ c = "[" \/ c = "]" \/ c = "_") f /\
                (forall k, ~ function_name k f)) by (apply (proj1 (Forall_forall _ _) Hl); apply Hi, Hin).
  assert (Hid : identifier f).
  { destruct Hlf as (H1 & H2 & _). destruct f as [|c f]; [discriminate H1|]. exists c, f. inversion H2; subst. auto. }
  rewrite statement_nokey; [|exact Hw|exact Hid|apply ends_equals, Hw2|intros k Hkk; apply Hk; assumption].
  unfold alternative, subfunction, new_name. rewrite skip_app by exact Hw. rewrite identifier_skip by exact Hid.
  assert (Hfresh : fresh_name (names p) (f ++ w2 ++ "=" :: e ++ w3 ++ ";" :: r) = None).
  { unfold fresh_name. destruct (longest declarative _) as [|]; [reflexivity|].
    destruct (longest (names p) (f ++ w2 ++ "=" :: e ++ w3 ++ ";" :: r)) eqn:E; [reflexivity|].
    exfalso. pose proof (proj1 (longest_none_iff _ _) E f (Hi _ Hin)) as H. apply H. exists (w2 ++ "=" :: e ++ w3 ++ ";" :: r). reflexivity. }
  rewrite Hfresh. unfold definition. rewrite skip_app by exact Hw. rewrite identifier_skip by exact Hid.
  assert (Hlf2 : table_ok (fnames p)).
  { apply legal_table. apply Forall_forall. intros x Hx. apply (proj1 (Forall_forall _ _) Hl). apply Hi, Hx. }
  rewrite (longest_name (fnames p) Hlf2 f _ Hin) by (apply boundary_cons; [exact Hw2|reflexivity|reflexivity|discriminate]).
  rewrite expect_char_here by (assumption || reflexivity). rewrite function_rule_usual with (t := t); try assumption.
  cbn [expect bind]. rewrite expect_char_here by (assumption || reflexivity). reflexivity.
Qed.

Lemma statement_text : forall p st s r, ready p -> stmt_text ilit (names p) (fnames p) st s ->
  declarable (names p) (declares st) -> Forall (fun nm => forall k, ~ function_name k nm) (declares st) ->
  statement ilit p (s ++ r) = Match (after st p) r /\ 0 < length s.
Proof.
  intros p st s r Hr Ht Hd Hf. destruct Ht as [st kw l w c s w2 Hk Hw Hc Hs Hw2|f t w w2 e w3 Hw Hw2 Hw3 Hu|f t w w2 e w3 Hin Hw Hw2 Hw3 Hu].
  - split; [|rewrite !app_length; cbn; lia]. rewrite <- !app_assoc. cbn [app]. rewrite <- !app_assoc. cbn [app].
    eapply statement_declaration; eassumption.
  - split; [|rewrite !app_length; cbn; lia]. rewrite <- !app_assoc. cbn [app]. rewrite <- !app_assoc. cbn [app].
    eapply statement_subfunction; try eassumption. cbn in Hf. inversion Hf; subst. assumption.
  - split; [|rewrite !app_length; cbn; lia]. rewrite <- !app_assoc. cbn [app]. rewrite <- !app_assoc. cbn [app].
    eapply statement_definition; eassumption.
Qed.

(** nothing matches at the end of the text *)
Lemma statement_nil : forall p w, ready p -> white w -> statement ilit p w = NoMatch.
Proof.
  intros p w (Hl & _ & Hi & _) Hw. unfold statement, alternative, declare, declare_path_variable, subfunction, definition, new_name, fresh_name.
  rewrite skip_nil by exact Hw. cbn [strip_prefix txt].
  assert (H : forall l, (forall nm, In nm l -> nm <> []) -> longest l [] = None).
  { intros l H. apply longest_none. apply Forall_forall. intros nm Hnm. destruct nm; [exfalso; apply (H _ Hnm); reflexivity|reflexivity]. }
  assert (Hne : forall nm, In nm (names p) -> nm <> []).
  { intros nm Hnm ->. destruct (proj1 (Forall_forall _ _) Hl _ Hnm) as [E _]. discriminate E. }
  rewrite (H declarative), (H (names p)), (H (fnames p)).
  - reflexivity.
  - intros nm Hnm. apply Hne, Hi, Hnm.
  - exact Hne.
  - intros nm Hnm. cbn in Hnm. repeat (destruct Hnm as [<-|Hnm]; [discriminate|]). destruct Hnm.
Qed.

Lemma statements_program : forall known fs prog s, program ilit known fs prog s -> forall p n, names p = known -> fnames p = fs ->
  ready p -> length s < n ->
  exists q w, statements ilit n p s = Match q w /\ white w /\ built q = fold_left (fun s st => effect st s) prog (built p).
Proof.
  induction 1 as [known fs w Hw|known fs st s prog rest Ht Hd Hf _ IH]; intros p n En Ef Hr Hn.
  - destruct n as [|n]; [lia|]. exists p, w. cbn [statements]. rewrite statement_nil by assumption.
    split; [reflexivity|]. split; [exact Hw|reflexivity].
  - subst known fs. destruct (statement_text p st s rest Hr Ht Hd Hf) as [E Hs]. rewrite app_length in Hn.
    destruct n as [|n]; [lia|]. cbn [statements]. rewrite E.
    destruct (IH (after st p) n eq_refl eq_refl) as (q & w & Eq & Hw & Eb); [apply ready_after; assumption|lia|].
    exists q, w. split; [exact Eq|]. split; [exact Hw|]. exact Eb.
Qed.

Lemma ready_start : ready start.
Proof.
  unfold ready, start. cbn [names fnames]. split; [|split; [exact initial_chars|split; [intros x []|intros f k []]]].
  unfold legal_names, initial_names. repeat constructor; cbn; try (intros k H; inversion H); tauto.
Qed.

Theorem parse_program : forall prog s, program ilit initial_names [] prog s ->
  exists y, parse_system ilit s = Accepted y /\ describes prog y.
Proof.
  intros prog s H. destruct (statements_program _ _ _ _ H start (S (length s)) eq_refl eq_refl ready_start ltac:(lia)) as (q & w & E & Hw & Eb).
  exists (built q). unfold parse_system. rewrite E. rewrite skip_nil by exact Hw. split; [reflexivity|].
  rewrite Eb. apply describes_run.
Qed.
End Complete.

(** *** Soundness *)

Section Symbols.
  Variable nms : list text.
  Variable ilit : text -> option Z.

  Definition known_symbols (o : out tree) : Prop := match o with Match t _ => incl (symbols t) nms | _ => True end.

  Lemma ks_bind : forall o f, known_symbols o -> (forall t r, incl (symbols t) nms -> known_symbols (f t r)) -> known_symbols (bind o f).
  Proof. intros [t r| | | |] f H Hf; cbn in *; auto. Qed.
  Lemma ks_expect : forall o f, known_symbols o -> (forall t r, incl (symbols t) nms -> known_symbols (f t r)) -> known_symbols (expect o f).
  Proof. intros [t r| | | |] f H Hf; cbn in *; auto. Qed.
  Lemma ks_char : forall c s f, (forall r, known_symbols (f r)) -> known_symbols (expect_char c s f).
  Proof. intros c s f H. unfold expect_char. destruct (skip s) as [|d r]; [exact I|]. destruct (Ascii.eqb d c); [apply H|exact I]. Qed.

  Lemma ks_symbol : forall s, known_symbols (p_symbol nms ilit s).
  Proof.
    intro s. unfold p_symbol. destruct (longest nms s) as [[nm r]|] eqn:El.
    - destruct (longest_spec _ _ _ _ El) as [Hin _]. cbn. intros x [<-|[]]. exact Hin.
    - unfold p_number. destruct (long_number s) as [[v r]|]; [cbn; intros x []|].
      destruct (integer_string s) as [[v r]|]; [|exact I]. destruct (ilit v); [cbn; intros x []|exact I].
  Qed.

  Lemma ks_other : forall pe s, (forall r, known_symbols (pe r)) -> known_symbols (p_other pe s).
  Proof.
    intros pe s H. unfold p_other. destruct s as [|c r]; [exact I|].
    destruct (Ascii.eqb c "("); [|destruct (Ascii.eqb c "-"); [|destruct (Ascii.eqb c "+")]].
    - apply ks_expect; [apply H|]. intros t r1 Ht. apply ks_char. intro r2. exact Ht.
    - apply ks_expect; [apply H|]. intros t r1 Ht. exact Ht.
    - apply ks_expect; [apply H|]. intros t r1 Ht. exact Ht.
    - destruct (p_keyword (c :: r)) as [[k r0]|]; [|exact I]. apply ks_char. intro r1. apply ks_expect; [apply H|].
      intros t r2 Ht. apply ks_char. intro r3. exact Ht.
  Qed.

  Lemma ks_elem : forall pe s, (forall r, known_symbols (pe r)) -> known_symbols (p_elem_with nms ilit pe s).
  Proof.
    intros pe s H. unfold p_elem_with. pose proof (ks_symbol (skip s)) as Hs. pose proof (ks_other pe (skip s) H) as Ho.
    destruct (p_symbol nms ilit (skip s)) as [t r| | | |]; auto. destruct (starts is_alnum (skip r)); assumption.
  Qed.

  Lemma incl_two : forall t u, incl (symbols t) nms -> incl (symbols u) nms -> incl (symbols t ++ symbols u ++ []) nms.
  Proof. intros t u Ht Hu. rewrite app_nil_r. apply incl_app; assumption. Qed.

  Lemma ks_all : forall n,
    (forall s, known_symbols (p_expression nms ilit n s)) /\
    (forall s t, incl (symbols t) nms -> known_symbols (expression_loop nms ilit n t s)) /\
    (forall s, known_symbols (p_term nms ilit n s)) /\
    (forall s t, incl (symbols t) nms -> known_symbols (term_loop nms ilit n t s)) /\
    (forall s, known_symbols (p_factor nms ilit n s)) /\
    (forall s t, incl (symbols t) nms -> known_symbols (factor_loop nms ilit n t s)) /\
    (forall s, known_symbols (p_elem nms ilit n s)).
  Proof.
    induction n as [|n (Ie & Iel & It & Itl & If & Ifl & Ix)]; [repeat split; intros; exact I|].
    split; [|split; [|split; [|split; [|split; [|split]]]]].
    - intros s. cbn [Parser.p_expression]. apply ks_bind; [apply It|]. intros t r Ht. apply Iel, Ht.
    - intros s t Ht. cbn [Parser.expression_loop]. destruct (skip s) as [|c r]; [exact Ht|].
      destruct (Ascii.eqb c "+"); [|destruct (Ascii.eqb c "-"); [|exact Ht]];
        (apply ks_expect; [apply It|]; intros u r1 Hu; apply Iel; cbn; apply incl_two; assumption).
    - intros s. cbn [Parser.p_term]. apply ks_bind; [apply If|]. intros t r Ht. apply Itl, Ht.
    - intros s t Ht. cbn [Parser.term_loop]. destruct (skip s) as [|c r]; [exact Ht|].
      destruct (Ascii.eqb c "*"); [|destruct (Ascii.eqb c "/"); [|exact Ht]];
        (apply ks_expect; [apply If|]; intros u r1 Hu; apply Itl; cbn; apply incl_two; assumption).
    - intros s. cbn [Parser.p_factor]. apply ks_bind; [apply Ix|]. intros t r Ht. apply Ifl, Ht.
    - intros s t Ht. cbn [Parser.factor_loop]. destruct (skip s) as [|c r]; [exact Ht|].
      destruct (Ascii.eqb c "^"); [|exact Ht]. apply ks_expect; [apply Ix|]. intros u r1 Hu. apply Ifl. cbn.
      apply incl_app; assumption.
    - intros s. cbn [Parser.p_elem]. apply ks_elem. apply Ie.
  Qed.

  Lemma function_rule_symbols : forall s t r, function_rule ilit nms s = Match t r -> incl (symbols t) nms /\ length r <= length s.
  Proof.
    intros s t r H. unfold function_rule in H. destruct (ks_all (fuel_for s)) as (Hk & _). specialize (Hk s).
    destruct (enough_fuel nms ilit (fuel_for s)) as (Hf & _). specialize (Hf s (Nat.le_refl _)).
    destruct (p_expression nms ilit (fuel_for s) s) as [t' r'| | | |]; try discriminate H. injection H as <- <-. split; assumption.
  Qed.

  Lemma function_rule_fuel : forall s, function_rule ilit nms s <> Fuel.
  Proof.
    intro s. unfold function_rule. destruct (enough_fuel nms ilit (fuel_for s)) as (Hf & _). specialize (Hf s (Nat.le_refl _)).
    destruct (p_expression nms ilit (fuel_for s) s); try discriminate. destruct Hf.
  Qed.
End Symbols.

Lemma new_name_sound : forall nms s nm tab r, new_name nms s = Some (nm, tab, r) ->
  tab = nm :: nms /\ identifier nm /\ ~ In nm (declarative ++ nms) /\ length r < length s.
Proof.
  intros nms s nm tab r H. unfold new_name in H. destruct (fresh_name nms (skip s)) as [[nm' r']|] eqn:E; [|discriminate H].
  injection H as <- <- <-. destruct (fresh_sound _ _ _ _ E) as (Hid & _ & Es & Hn). split; [reflexivity|]. split; [exact Hid|].
  split; [exact Hn|]. pose proof (skip_length s) as Hs. rewrite Es, app_length in Hs. destruct Hid as (c & q & -> & _). cbn in Hs. lia.
Qed.

Lemma more_names_sound : forall n nms s l tab r, more_names n nms s = (l, tab, r) ->
  tab = rev l ++ nms /\ NoDup l /\ (forall nm, In nm l -> identifier nm /\ ~ In nm (declarative ++ nms)) /\ length r <= length s.
Proof.
  induction n as [|n IH]; intros nms s l tab r H; cbn [more_names] in H.
  - injection H as <- <- <-. split; [reflexivity|]. split; [constructor|]. split; [intros nm []|lia].
  - assert (Hstop : ([], nms, s) = (l, tab, r) -> tab = rev l ++ nms /\ NoDup l /\
       (forall nm, In nm l -> identifier nm /\ ~ In nm (declarative ++ nms)) /\ length r <= length s).
    { intro E. injection E as <- <- <-. split; [reflexivity|]. split; [constructor|]. split; [intros nm []|lia]. }
    pose proof (skip_length s) as Hs. destruct (skip s) as [|c q]; [exact (Hstop H)|].
    destruct (Ascii.eqb c ","); [|exact (Hstop H)]. destruct (new_name nms q) as [[[nm nms'] r']|] eqn:En; [|exact (Hstop H)].
    destruct (more_names n nms' r') as [[l0 tab0] r0] eqn:Em. injection H as <- <- <-.
    destruct (new_name_sound _ _ _ _ _ En) as (-> & Hid & Hn & Hlen). destruct (IH _ _ _ _ _ Em) as (-> & Hnd & Hall & Hlen0).
    split; [cbn [rev]; rewrite <- app_assoc; reflexivity|]. split; [|split].
    + constructor; [|exact Hnd]. intro Hin. destruct (Hall _ Hin) as [_ K]. apply K. apply in_app_iff. right. left. reflexivity.
    + intros x [<-|Hx]; [split; assumption|]. destruct (Hall _ Hx) as [Hi K]. split; [exact Hi|]. intro J. apply K.
      apply in_app_iff in J. apply in_app_iff. destruct J as [J|J]; [left; exact J|right; right; exact J].
    + cbn in Hs. lia.
Qed.

Lemma declaration_sound : forall nms s l tab r, declaration nms s = Some (l, tab, r) ->
  tab = rev l ++ nms /\ NoDup l /\ (forall nm, In nm l -> identifier nm /\ ~ In nm (declarative ++ nms)) /\ length r < length s.
Proof.
  intros nms s l tab r H. unfold declaration in H. destruct (name_list nms s) as [[[l0 tab0] r0]|] eqn:E; [|discriminate H].
  unfold name_list in E. destruct (new_name nms s) as [[[nm nms'] r']|] eqn:En; [|discriminate E].
  destruct (more_names (length s) nms' r') as [[l1 tab1] r1] eqn:Em. injection E as <- <- <-.
  pose proof (skip_length r1) as Hs. destruct (skip r1) as [|c r2]; [discriminate H|]. destruct (Ascii.eqb c ";"); [|discriminate H].
  injection H as <- <- <-.
  destruct (new_name_sound _ _ _ _ _ En) as (-> & Hid & Hn & Hlen). destruct (more_names_sound _ _ _ _ _ _ Em) as (-> & Hnd & Hall & Hlen0).
  split; [cbn [rev]; rewrite <- app_assoc; reflexivity|]. split; [|split].
  - constructor; [|exact Hnd]. intro Hin. destruct (Hall _ Hin) as [_ K]. apply K. apply in_app_iff. right. left. reflexivity.
  - intros x [<-|Hx]; [split; assumption|]. destruct (Hall _ Hx) as [Hi K]. split; [exact Hi|]. intro J. apply K.
    apply in_app_iff in J. apply in_app_iff. destruct J as [J|J]; [left; exact J|right; right; exact J].
  - cbn in Hs. lia.
Qed.

Section Sound.
Variable ilit : text -> option Z.

(** what a statement that matched did *)
Definition step_ok (p : pstate) (s : text) (o : out pstate) : Prop :=
  match o with
  | Match p' r => length r < length s /\ exists st, p' = after st p /\ NoDup (declares st) /\
      (forall nm, In nm (declares st) -> identifier nm /\ ~ In nm (declarative ++ names p)) /\
      match st with
      | SSubfunction f t => incl (symbols t) (f :: names p)
      | SDefinition f t => In f (fnames p) /\ incl (symbols t) (names p)
      | _ => True
      end
  | Fuel => False
  | _ => True
  end.

Lemma step_declare : forall kw isf add mk p s,
  (forall l, declares (mk l) = l /\ declares_functions (mk l) = (if isf : bool then l else []) /\ effect (mk l) = add l /\
             match mk l with SSubfunction _ _ | SDefinition _ _ => False | _ => True end) ->
  step_ok p s (declare kw isf add p s).
Proof.
  intros kw isf add mk p s Hmk. unfold declare. pose proof (skip_length s) as Hs.
  destruct (strip_prefix kw (skip s)) as [r|] eqn:E; [|exact I]. apply strip_prefix_some in E. rewrite E, app_length in Hs.
  destruct (declaration (names p) r) as [[[l tab] r2]|] eqn:Ed; [|exact I].
  destruct (declaration_sound _ _ _ _ _ Ed) as (-> & Hnd & Hall & Hlen). cbn [step_ok]. split; [lia|].
  destruct (Hmk l) as (H1 & H2 & H3 & H4). exists (mk l). unfold after. rewrite H1, H2, H3.
  split; [destruct isf; reflexivity|]. split; [exact Hnd|]. split; [exact Hall|]. destruct (mk l); tauto.
Qed.

Lemma step_path : forall p s, step_ok p s (declare_path_variable p s).
Proof.
  intros p s. unfold declare_path_variable. pose proof (skip_length s) as Hs.
  destruct (strip_prefix (txt "pathvariable") (skip s)) as [r|] eqn:E; [|exact I]. apply strip_prefix_some in E. rewrite E, app_length in Hs.
  destruct (new_name (names p) r) as [[[nm tab] r1]|] eqn:En; [|exact I].
  destruct (new_name_sound _ _ _ _ _ En) as (-> & Hid & Hn & Hlen). unfold expect_char. pose proof (skip_length r1) as Hs1.
  destruct (skip r1) as [|d r2]; [exact I|]. destruct (Ascii.eqb d ";"); [|exact I]. cbn in Hs1. cbn [step_ok]. split; [lia|].
  exists (SPathVariable nm). cbn [declares]. split; [reflexivity|]. split; [repeat constructor; intros []|]. split; [|exact I].
  intros x [<-|[]]. split; assumption.
Qed.

Lemma step_subfunction : forall p s, step_ok p s (subfunction ilit p s).
Proof.
  intros p s. unfold subfunction. destruct (new_name (names p) s) as [[[nm tab] r]|] eqn:En; [|exact I].
  destruct (new_name_sound _ _ _ _ _ En) as (-> & Hid & Hn & Hlen). unfold expect_char. pose proof (skip_length r) as Hs.
  destruct (skip r) as [|c r1]; [exact I|]. destruct (Ascii.eqb c "="); [|exact I]. cbn in Hs.
  pose proof (function_rule_fuel (nm :: names p) ilit r1) as Hfu.
  destruct (function_rule ilit (nm :: names p) r1) as [t r2| | | |] eqn:Ef; try exact I; [|congruence]. cbn [expect bind].
  destruct (function_rule_symbols _ _ _ _ _ Ef) as [Hsym Hl2]. pose proof (skip_length r2) as Hs2.
  destruct (skip r2) as [|d r3]; [exact I|]. destruct (Ascii.eqb d ";"); [|exact I]. cbn in Hs2. cbn [step_ok]. split; [lia|].
  exists (SSubfunction nm t). cbn [declares]. split; [reflexivity|]. split; [repeat constructor; intros []|]. split; [|exact Hsym].
  intros x [<-|[]]. split; assumption.
Qed.

Lemma step_definition : forall p s, step_ok p s (definition ilit p s).
Proof.
  intros p s. unfold definition. pose proof (skip_length s) as Hs0. destruct (longest (fnames p) (skip s)) as [[nm r]|] eqn:El; [|exact I].
  destruct (longest_spec _ _ _ _ El) as [Hin E]. rewrite E, app_length in Hs0. unfold expect_char. pose proof (skip_length r) as Hs.
  destruct (skip r) as [|c r1]; [exact I|]. destruct (Ascii.eqb c "="); [|exact I]. cbn in Hs.
  pose proof (function_rule_fuel (names p) ilit r1) as Hfu.
  destruct (function_rule ilit (names p) r1) as [t r2| | | |] eqn:Ef; try exact I; [|congruence]. cbn [expect bind].
  destruct (function_rule_symbols _ _ _ _ _ Ef) as [Hsym Hl2]. pose proof (skip_length r2) as Hs2.
  destruct (skip r2) as [|d r3]; [exact I|]. destruct (Ascii.eqb d ";"); [|exact I]. cbn in Hs2. cbn [step_ok]. split; [lia|].
  exists (SDefinition nm t). cbn [declares]. split; [destruct p; reflexivity|]. split; [constructor|]. split; [intros x []|].
  split; assumption.
Qed.

Lemma step_alternative : forall a b p s, step_ok p s (a p s) -> step_ok p s (b p s) -> step_ok p s (alternative a b p s).
Proof. intros a b p s Ha Hb. unfold alternative. destruct (a p s); assumption. Qed.

Lemma step_statement : forall p s, step_ok p s (statement ilit p s).
Proof.
  intros p s. unfold statement.
  apply step_alternative; [apply (step_declare _ _ _ SGroup); intro l; repeat split|].
  apply step_alternative; [apply (step_declare _ _ _ SHomGroup); intro l; repeat split|].
  apply step_alternative; [apply (step_declare _ _ _ SVariables); intro l; repeat split|].
  apply step_alternative; [apply (step_declare _ _ _ SFunctions); intro l; repeat split|].
  apply step_alternative; [apply (step_declare _ _ _ SConstants); intro l; repeat split|].
  apply step_alternative; [apply (step_declare _ _ _ SParameters); intro l; repeat split|].
  apply step_alternative; [apply (step_declare _ _ _ SImplicits); intro l; repeat split|].
  apply step_alternative; [apply step_path|]. apply step_alternative; [apply step_subfunction|apply step_definition].
Qed.

Lemma statements_sound : forall n p s, length s < n ->
  match statements ilit n p s with
  | Match q r => exists prog, built q = fold_left (fun y st => effect st y) prog (built p) /\ scoped (names p) (fnames p) prog
  | Fuel => False
  | _ => True
  end.
Proof.
  induction n as [|n IH]; intros p s Hn; [lia|]. cbn [statements]. pose proof (step_statement p s) as H.
  destruct (statement ilit p s) as [p' r| | | |]; try exact I; [| |exact H].
  - destruct H as (Hlen & st & -> & Hnd & Hall & Hst). specialize (IH (after st p) r ltac:(lia)).
    destruct (statements ilit n (after st p) r) as [q r'| | | |]; try exact I; [|exact IH].
    destruct IH as (prog & Eb & Hsc). exists (st :: prog). split; [exact Eb|]. cbn [scoped]. split; [exact Hnd|].
    split; [exact Hall|]. split; [exact Hst|exact Hsc].
  - exists []. split; [reflexivity|exact I].
Qed.

Theorem parse_sound : forall s y, parse_system ilit s = Accepted y ->
  exists prog, describes prog y /\ scoped initial_names [] prog.
Proof.
  intros s y H. unfold parse_system in H. pose proof (statements_sound (S (length s)) start s ltac:(lia)) as Hs.
  destruct (statements ilit (S (length s)) start s) as [q r| | | |]; try discriminate H.
  destruct (skip r); [|discriminate H]. injection H as <-. destruct Hs as (prog & Eb & Hsc). exists prog.
  split; [|exact Hsc]. rewrite Eb. apply describes_run.
Qed.

Theorem parse_total : forall s, parse_system ilit s <> OutOfFuel.
Proof.
  intros s H. unfold parse_system in H. pose proof (statements_sound (S (length s)) start s ltac:(lia)) as Hs.
  destruct (statements ilit (S (length s)) start s) as [q r| | | |]; try discriminate H; [|exact Hs].
  destruct (skip r); discriminate H.
Qed.
End Sound.

(** consequences of [scoped] *)
Lemma scoped_distinct : forall p known fs, scoped known fs p -> NoDup (flat_map declares p) /\
  forall nm, In nm (flat_map declares p) -> identifier nm /\ ~ In nm (declarative ++ known).
Proof.
  induction p as [|st p IH]; intros known fs H; cbn [flat_map].
  - split; [constructor|intros nm []].
  - destruct H as (Hnd & Hall & _ & H). destruct (IH _ _ H) as [Hnd' Hall']. split.
    + clear - Hnd Hnd' Hall'. induction (declares st) as [|a l IHl]; [exact Hnd'|]. inversion Hnd as [|? ? Ha Hl]; subst. cbn [app].
      constructor; [|apply IHl; [exact Hl|]].
      * intro Hin. apply in_app_iff in Hin. destruct Hin as [Hin|Hin]; [contradiction|]. destruct (Hall' _ Hin) as [_ K]. apply K.
        cbn [rev]. rewrite !in_app_iff. right. left. right. left. reflexivity.
      * intros nm Hin. destruct (Hall' _ Hin) as [Hi K]. split; [exact Hi|]. intro J. apply K. cbn [rev].
        rewrite !in_app_iff in J. rewrite !in_app_iff. tauto.
    + intros nm Hin. apply in_app_iff in Hin. destruct Hin as [Hin|Hin]; [apply Hall, Hin|]. destruct (Hall' _ Hin) as [Hi K].
      split; [exact Hi|]. intro J. apply K. rewrite !in_app_iff in J. rewrite !in_app_iff. tauto.
Qed.
