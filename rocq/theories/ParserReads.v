(** A description of texts the grammar reads as intended; ordinary notation and printed trees are
    instances. *)
From Coq Require Import String Ascii List Arith Lia Bool ZArith DecimalString.
From Verif Require Import Base Chars NumLit Expr Parser ParserSpec ParserProof.
Import ListNotations.
Local Open Scope char_scope.

Inductive rlevel := RAtom | RPower | RTerm | RSum | RMinus | RWhole.

Section Reads.
  Variable names : list text.
  Variable ilit : text -> option Z.

  Inductive reads : rlevel -> text -> tree -> Prop :=
  | r_symbol : forall w nm, white w -> In nm names -> reads RAtom (w ++ nm) (TSym nm)
  | r_integer : forall w m d z, white w -> sign m -> digit_string d -> ilit (m ++ d) = Some z ->
      reads RAtom (w ++ m ++ d) (TInt z)
  | r_float : forall w m b e v, white w -> sign m -> pointed b -> exponent e v ->
      reads RAtom (w ++ m ++ b ++ e) (TFloat (m ++ b ++ v))
  | r_paren : forall w s t w2, white w -> white w2 -> reads RWhole s t ->
      reads RAtom (w ++ "(" :: s ++ w2 ++ [")"]) t
  | r_function : forall w k f w1 s t w2, white w -> white w1 -> white w2 -> keyword k = Some f -> reads RWhole s t ->
      reads RAtom (w ++ f ++ w1 ++ "(" :: s ++ w2 ++ [")"]) (TFun k t)
  | r_atom : forall s t, reads RAtom s t -> reads RPower s t
  | r_power : forall s t w s2 u, white w -> reads RPower s t -> reads RAtom s2 u ->
      reads RPower (s ++ w ++ "^" :: s2) (TPow t u)
  | r_term : forall s t, reads RPower s t -> reads RTerm s t
  | r_times : forall s t w s2 u, white w -> reads RTerm s t -> reads RPower s2 u ->
      reads RTerm (s ++ w ++ "*" :: s2) (TMul [(true, t); (true, u)])
  | r_divide : forall s t w s2 u, white w -> reads RTerm s t -> reads RPower s2 u ->
      reads RTerm (s ++ w ++ "/" :: s2) (TMul [(true, t); (false, u)])
  | r_sum : forall s t, reads RTerm s t -> reads RSum s t
  | r_plus : forall s t w s2 u, white w -> reads RSum s t -> reads RTerm s2 u ->
      reads RSum (s ++ w ++ "+" :: s2) (TSum [(true, t); (true, u)])
  | r_subtract : forall s t w s2 u, white w -> reads RSum s t -> reads RTerm s2 u ->
      reads RSum (s ++ w ++ "-" :: s2) (TSum [(true, t); (false, u)])
  | r_whole : forall s t, reads RSum s t -> reads RWhole s t
  | r_minus : forall w s t, white w -> (forall r, no_literal (s ++ r)) -> reads RWhole s t ->
      reads RMinus (w ++ "-" :: s) (TNeg t)
  | r_posit : forall w s t, white w -> reads RWhole s t -> reads RMinus (w ++ "+" :: s) t
  | r_whole_minus : forall s t, reads RMinus s t -> reads RWhole s t
  (* a minus sign in the last operand *)
  | r_plus_last : forall s t w s2 u, white w -> reads RSum s t -> reads RMinus s2 u ->
      reads RWhole (s ++ w ++ "+" :: s2) (TSum [(true, t); (true, u)])
  | r_subtract_last : forall s t w s2 u, white w -> reads RSum s t -> reads RMinus s2 u ->
      reads RWhole (s ++ w ++ "-" :: s2) (TSum [(true, t); (false, u)])
  | r_times_last : forall s t w s2 u, white w -> reads RTerm s t -> reads RMinus s2 u ->
      reads RWhole (s ++ w ++ "*" :: s2) (TMul [(true, t); (true, u)])
  | r_divide_last : forall s t w s2 u, white w -> reads RTerm s t -> reads RMinus s2 u ->
      reads RWhole (s ++ w ++ "/" :: s2) (TMul [(true, t); (false, u)]).

  Definition ops5 : list ascii := ["+"; "-"; "*"; "/"; "^"].

  (** what it means for the parser to read a text at each level, whatever follows *)
  Definition read_ok (l : rlevel) (s : text) (t : tree) : Prop :=
    match l with
    | RAtom => forall r, boundary r -> runs (p_elem names ilit) (s ++ r) (Match t r)
    | RPower => forall r o, boundary r -> runs (fun n => factor_loop names ilit n t) r o ->
        runs (p_factor names ilit) (s ++ r) o
    | RTerm => forall r o, boundary r -> not_in ["^"] r -> runs (fun n => term_loop names ilit n t) r o ->
        runs (p_term names ilit) (s ++ r) o
    | RSum => forall r o, boundary r -> not_in ["*"; "/"; "^"] r -> runs (fun n => expression_loop names ilit n t) r o ->
        runs (p_expression names ilit) (s ++ r) o
    | RMinus => forall r, boundary r -> not_in ops5 r -> runs (p_elem names ilit) (s ++ r) (Match t r)
    | RWhole => forall r, boundary r -> not_in ops5 r -> runs (p_expression names ilit) (s ++ r) (Match t r)
    end.

  Lemma not_in_sub : forall cs cs' r, incl cs cs' -> not_in cs' r -> not_in cs r.
  Proof. intros cs cs' r H Hn. unfold not_in in *. destruct (skip r); [exact I|]. intro Hi. apply Hn, H, Hi. Qed.

  Lemma boundary_cons : forall w c s, white w -> is_space c = false -> name_char c = false -> c <> "." ->
    boundary (w ++ c :: s).
  Proof.
    intros w c s Hw Hsp Hc Hp.
    assert (Ha : is_alnum c = false) by (unfold name_char in Hc; rewrite !orb_false_iff in Hc; apply Hc).
    split; [|split].
    - destruct Hw as [|x w Hx _]; [exact Hc|]. cbn. destruct (name_char x) eqn:E; [|reflexivity].
      destruct x as [b0 b1 b2 b3 b4 b5 b6 b7]; destruct b0, b1, b2, b3, b4, b5, b6, b7; vm_compute in Hx, E; discriminate.
    - destruct Hw as [|x w Hx _]; cbn.
      + destruct (Ascii.eqb_spec "." c); [congruence|reflexivity].
      + destruct (Ascii.eqb_spec "." x) as [<-|]; [discriminate Hx|reflexivity].
    - rewrite skip_app by exact Hw. rewrite skip_start by exact Hsp. exact Ha.
  Qed.

  Lemma not_in_cons : forall cs w c s, white w -> is_space c = false -> ~ In c cs -> not_in cs (w ++ c :: s).
  Proof.
    intros cs w c s Hw Hs Hc. unfold not_in. rewrite skip_app by exact Hw. rewrite skip_start by exact Hs. exact Hc.
  Qed.

  Hypothesis Hnames : table_ok names.

  Ltac side := first [assumption | reflexivity | discriminate].

  (** a text read at level RWhole followed by a closing parenthesis *)
  Lemma close : forall s t w2 r, white w2 -> read_ok RWhole s t ->
    runs (p_expression names ilit) ((s ++ w2 ++ [")"]) ++ r) (Match t (w2 ++ ")" :: r)).
  Proof.
    intros s t w2 r Hw2 H. rewrite <- !app_assoc. cbn [app].
    assert (Hb : boundary (w2 ++ ")" :: r)) by (apply boundary_cons; [exact Hw2|reflexivity|reflexivity|discriminate]).
    assert (Hn : not_in ops5 (w2 ++ ")" :: r)).
    { apply not_in_cons; [exact Hw2|reflexivity|]. cbn. intros [E|[E|[E|[E|[E|[]]]]]]; discriminate E. }
    exact (H _ Hb Hn).
  Qed.

  Lemma minus_factor : forall s t r, read_ok RMinus s t -> boundary r -> not_in ops5 r ->
    runs (p_factor names ilit) (s ++ r) (Match t r).
  Proof.
    intros s t r H Hb Hn. eapply runs_factor; [apply H; assumption|].
    apply factor_stops. eapply not_in_sub; [|exact Hn]. unfold ops5. intros x [<-|[]]. cbn. tauto.
  Qed.

  Lemma minus_term : forall s t r, read_ok RMinus s t -> boundary r -> not_in ops5 r ->
    runs (p_term names ilit) (s ++ r) (Match t r).
  Proof.
    intros s t r H Hb Hn. eapply runs_term; [apply minus_factor; eassumption|].
    apply term_stops. eapply not_in_sub; [|exact Hn]. unfold ops5. intros x [<-|[<-|[]]]; cbn; tauto.
  Qed.

  Lemma minus_expression : forall s t r, read_ok RMinus s t -> boundary r -> not_in ops5 r ->
    runs (p_expression names ilit) (s ++ r) (Match t r).
  Proof.
    intros s t r H Hb Hn. eapply runs_expression; [apply minus_term; eassumption|].
    apply expression_stops. eapply not_in_sub; [|exact Hn]. unfold ops5. intros x [<-|[<-|[]]]; cbn; tauto.
  Qed.

  Ltac opc := first [assumption | reflexivity | discriminate | (let E := fresh in cbn; intros E; intuition discriminate)].

  Lemma reads_ok : forall l s t, reads l s t -> read_ok l s t.
  Proof.
    induction 1 as [w nm Hw Hin|w m d z Hw Hm Hd Hz|w m b e v Hw Hm Hb He|w s t w2 Hw Hw2 _ IH|w k f w1 s t w2 Hw Hw1 Hw2 Hk _ IH
      |s t _ IH|s t w s2 u Hw _ IH1 _ IH2|s t _ IH|s t w s2 u Hw _ IH1 _ IH2|s t w s2 u Hw _ IH1 _ IH2|s t _ IH
      |s t w s2 u Hw _ IH1 _ IH2|s t w s2 u Hw _ IH1 _ IH2|s t _ IH|w s t Hw Hl _ IH|w s t Hw _ IH|s t _ IH
      |s t w s2 u Hw _ IH1 _ IH2|s t w s2 u Hw _ IH1 _ IH2|s t w s2 u Hw _ IH1 _ IH2|s t w s2 u Hw _ IH1 _ IH2].
    - intros r Hr. rewrite <- app_assoc. apply elem_symbol; assumption.
    - intros r Hr. rewrite <- !app_assoc. apply elem_integer; assumption.
    - intros r Hr. rewrite <- !app_assoc. apply elem_float; assumption.
    - intros r Hr. rewrite <- app_assoc. change (("(" :: s ++ w2 ++ [")"]) ++ r)%list with ("(" :: ((s ++ w2 ++ [")"]) ++ r))%list.
      eapply elem_paren; [exact Hnames|exact Hw|exact Hw2|]. apply close; assumption.
    - intros r Hr. rewrite <- !app_assoc. change (("(" :: s ++ w2 ++ [")"]) ++ r)%list with ("(" :: ((s ++ w2 ++ [")"]) ++ r))%list.
      eapply elem_function; [exact Hnames|exact Hw|exact Hw1|exact Hw2|exact Hk|]. apply close; assumption.
    - intros r o Hr Ho. eapply runs_factor; [apply IH; exact Hr|exact Ho].
    - intros r o Hr Ho. rewrite <- !app_assoc. cbn [app]. apply IH1; [apply boundary_cons; opc|].
      eapply runs_caret; [exact Hw|apply IH2; exact Hr|exact Ho].
    - intros r o Hr Hn Ho. eapply runs_term; [|exact Ho]. apply IH; [exact Hr|]. apply factor_stops. exact Hn.
    - intros r o Hr Hn Ho. rewrite <- !app_assoc. cbn [app]. apply IH1; [apply boundary_cons; opc|apply not_in_cons; opc|].
      eapply runs_times; [exact Hw|apply IH2; [exact Hr|apply factor_stops; exact Hn]|exact Ho].
    - intros r o Hr Hn Ho. rewrite <- !app_assoc. cbn [app]. apply IH1; [apply boundary_cons; opc|apply not_in_cons; opc|].
      eapply runs_divide; [exact Hw|apply IH2; [exact Hr|apply factor_stops; exact Hn]|exact Ho].
    - intros r o Hr Hn Ho. eapply runs_expression; [|exact Ho].
      apply IH; [exact Hr| |apply term_stops]; (eapply not_in_sub; [|exact Hn]); intros x Hx; cbn in Hx |- *; tauto.
    - intros r o Hr Hn Ho. rewrite <- !app_assoc. cbn [app]. apply IH1; [apply boundary_cons; opc|apply not_in_cons; opc|].
      eapply runs_plus; [exact Hw| |exact Ho].
      apply IH2; [exact Hr| |apply term_stops]; (eapply not_in_sub; [|exact Hn]); intros x Hx; cbn in Hx |- *; tauto.
    - intros r o Hr Hn Ho. rewrite <- !app_assoc. cbn [app]. apply IH1; [apply boundary_cons; opc|apply not_in_cons; opc|].
      eapply runs_minus; [exact Hw| |exact Ho].
      apply IH2; [exact Hr| |apply term_stops]; (eapply not_in_sub; [|exact Hn]); intros x Hx; cbn in Hx |- *; tauto.
    - intros r Hr Hn. apply IH; [exact Hr| |apply expression_stops]; (eapply not_in_sub; [|exact Hn]); intros x Hx;
        unfold ops5; cbn in Hx |- *; tauto.
    - intros r Hr Hn. rewrite <- app_assoc. cbn [app]. apply elem_minus; [exact Hnames|exact Hw|apply Hl|]. apply IH; assumption.
    - intros r Hr Hn. rewrite <- app_assoc. cbn [app]. apply elem_plus; [exact Hnames|exact Hw|]. apply IH; assumption.
    - intros r Hr Hn. apply minus_expression; assumption.
    - intros r Hr Hn. rewrite <- !app_assoc. cbn [app]. apply IH1; [apply boundary_cons; opc|apply not_in_cons; opc|].
      eapply runs_plus; [exact Hw|apply minus_term; [exact IH2|exact Hr|exact Hn]|].
      apply expression_stops. eapply not_in_sub; [|exact Hn]. intros x Hx; unfold ops5; cbn in Hx |- *; tauto.
    - intros r Hr Hn. rewrite <- !app_assoc. cbn [app]. apply IH1; [apply boundary_cons; opc|apply not_in_cons; opc|].
      eapply runs_minus; [exact Hw|apply minus_term; [exact IH2|exact Hr|exact Hn]|].
      apply expression_stops. eapply not_in_sub; [|exact Hn]. intros x Hx; unfold ops5; cbn in Hx |- *; tauto.
    - intros r Hr Hn. rewrite <- !app_assoc. cbn [app].
      eapply runs_expression; [apply IH1; [apply boundary_cons; opc|apply not_in_cons; opc|]|].
      + eapply runs_times; [exact Hw|apply minus_factor; [exact IH2|exact Hr|exact Hn]|].
        apply term_stops. eapply not_in_sub; [|exact Hn]. intros x Hx; unfold ops5; cbn in Hx |- *; tauto.
      + apply expression_stops. eapply not_in_sub; [|exact Hn]. intros x Hx; unfold ops5; cbn in Hx |- *; tauto.
    - intros r Hr Hn. rewrite <- !app_assoc. cbn [app].
      eapply runs_expression; [apply IH1; [apply boundary_cons; opc|apply not_in_cons; opc|]|].
      + eapply runs_divide; [exact Hw|apply minus_factor; [exact IH2|exact Hr|exact Hn]|].
        apply term_stops. eapply not_in_sub; [|exact Hn]. intros x Hx; unfold ops5; cbn in Hx |- *; tauto.
      + apply expression_stops. eapply not_in_sub; [|exact Hn]. intros x Hx; unfold ops5; cbn in Hx |- *; tauto.
  Qed.

  Lemma boundary_white : forall w, white w -> boundary w.
  Proof.
    intros w Hw. destruct Hw as [|c w Hc Hw]; [split; [reflexivity|split; reflexivity]|]. split; [|split].
    - cbn. destruct (name_char c) eqn:E; [|reflexivity].
      destruct c as [b0 b1 b2 b3 b4 b5 b6 b7]; destruct b0, b1, b2, b3, b4, b5, b6, b7; vm_compute in Hc, E; discriminate.
    - cbn. destruct (Ascii.eqb_spec "." c) as [<-|]; [discriminate Hc|reflexivity].
    - rewrite skip_nil; [reflexivity|]. constructor; assumption.
  Qed.

  Lemma reads_parse : forall s t w, reads RWhole s t -> white w -> parse names ilit (s ++ w) = Parsed t.
  Proof.
    intros s t w H Hw. apply runs_parse_ws with (w := w); [exact Hw|]. apply (reads_ok _ _ _ H).
    - apply boundary_white, Hw.
    - unfold not_in. rewrite skip_nil by exact Hw. exact I.
  Qed.
End Reads.

(** *** Ordinary notation *)

Lemma legal_table : forall names, legal_names names -> table_ok names.
Proof.
  intros names H. unfold table_ok, legal_names in *. rewrite Forall_forall in *. intros nm Hin.
  destruct (H nm Hin) as (H1 & H2 & H3). split; [exact H1|]. split.
  - eapply Forall_impl; [|exact H2]. intros c Hc. unfold name_char.
    destruct Hc as [Hc|[->|[->| ->]]]; [rewrite Hc; reflexivity|reflexivity|reflexivity|reflexivity].
  - intro Hk. cbn in Hk. destruct Hk as [<-|[<-|[<-|[<-|[<-|[<-|[]]]]]]].
    + exact (H3 KSin fn_sin). + exact (H3 KCos fn_cos). + exact (H3 KTan fn_tan). + exact (H3 KExp fn_exp).
    + exact (H3 KLog fn_log). + exact (H3 KSqrt fn_sqrt).
Qed.

Lemma function_keyword : forall k f, function_name k f -> keyword k = Some f.
Proof. intros k f []; reflexivity. Qed.

Definition rl (l : level) : rlevel :=
  match l with Atom => RAtom | NegativeNumber => RAtom | Factor => RPower | Term => RTerm | SumOf => RSum | Whole => RWhole end.

Lemma usual_nonempty : forall names num l s t, legal_names names -> usual names num false l s t -> s <> [].
Proof.
  intros names num l s t Hn H. induction H; try assumption;
    try (destruct w; discriminate);
    try (intro E; apply app_eq_nil in E; destruct E as [E _]; contradiction);
    try discriminate.
  - unfold legal_names in Hn. rewrite Forall_forall in Hn. destruct (Hn _ H0) as (Hs & _).
    intro E. apply app_eq_nil in E. destruct E as [_ ->]. discriminate Hs.
  - destruct H0 as [Hd _]. intro E. apply app_eq_nil in E. tauto.
  - destruct H0 as [a b Ha Hb Hab]. intro E. apply app_eq_nil in E. destruct E as [_ E]. destruct a; discriminate.
  - intro E. apply app_eq_nil in E. destruct E as [_ E]. destruct H2; discriminate.
Qed.

Lemma usual_reads : forall names num l s t, legal_names names -> usual names num false l s t -> reads names num (rl l) s t.
Proof.
  intros names num l s t Hn H. induction H; cbn [rl] in *.
  - apply r_symbol; assumption.
  - apply (r_integer names num w [] d z); [assumption|constructor|assumption|assumption].
  - apply (r_float names num w [] b e v); [assumption|constructor|assumption|assumption].
  - apply r_paren; assumption.
  - apply r_function; try assumption. apply function_keyword. assumption.
  - apply (r_integer names num w ["-"] d z); [assumption|constructor|assumption|assumption].
  - apply r_atom; assumption.
  - apply r_power; [assumption|apply r_atom; assumption|assumption].
  - apply r_power; [assumption|apply r_atom; assumption|assumption].
  - apply r_atom; assumption.
  - apply r_term; assumption.
  - apply r_times; assumption.
  - apply r_divide; assumption.
  - apply r_sum; assumption.
  - apply r_plus; assumption.
  - apply r_subtract; assumption.
  - discriminate.
  - apply r_whole; assumption.
  - apply r_whole_minus. apply r_minus; [assumption| |apply r_whole, r_sum; assumption].
    intro r. pose proof (usual_nonempty _ _ _ _ _ Hn H0) as Hne. destruct s as [|c s]; [congruence|].
    cbn in H1, H2, H3 |- *. split; [exact H1|]. split; [exact H2|].
    intro E. cbn. rewrite Ascii.eqb_sym in H3. congruence.
  - apply r_whole_minus. apply r_posit; [assumption|]. apply r_whole. assumption.
Qed.

Lemma usual_parse : forall names num s t w, legal_names names -> usual names num false Whole s t -> white w ->
  parse names num (s ++ w) = Parsed t.
Proof.
  intros names num s t w Hn H Hw. apply reads_parse; [apply legal_table, Hn|apply (usual_reads _ _ _ _ _ Hn H)|exact Hw].
Qed.
