(** Settings in ini format.

    Models core/include/bertini2/settings/configIni_parse.hpp:60-74, 130-150 (ConfigToIni), used with ascii::space as the
    skipper.  The lexeme directive skips white space, line ends included, before it switches the skipper off. *)
From Coq Require Import String Ascii List Arith Lia Bool.
From Verif Require Import Chars Comments.
Import ListNotations.
Local Open Scope char_scope.

(** ** Model *)
Definition not_semicolon (c : ascii) : bool := negb (Ascii.eqb c ";").
Definition not_colon (c : ascii) : bool := negb (Ascii.eqb c ":").

(** boost::algorithm::to_lower_copy, configIni_parse.hpp:60-74 (in the C locale) *)
Definition lower_char (c : ascii) : ascii := if between 65 90 c then ascii_of_nat (nat_of_ascii c + 32) else c.
Definition lower (s : text) : text := map lower_char s.

(** configIni_parse.hpp:142 colon_ *)
Definition colon (s : text) : option (text * text) :=
  let (a, r) := span not_colon (skip s) in match r with _ :: r2 => Some (a, r2) | [] => None end.

(** the omitted part of yes_eol_: an optional semicolon and what follows it on the line *)
Definition remark (s : text) : text :=
  match s with
  | c :: r => if Ascii.eqb c ";" then snd (span not_eol r) else s
  | [] => []
  end.

(** configIni_parse.hpp:145 yes_eol_ *)
Definition yes_eol (s : text) : option (text * text) :=
  let (a, r) := span (fun c => not_eol c && not_semicolon c) (skip s) in
  match eol (remark r) with Some r2 => Some (a, r2) | None => None end.

(** configIni_parse.hpp:148 no_eol_: it always matches, to the end of the text *)
Definition no_eol (s : text) : text := fst (span not_semicolon (skip s)).

(** configIni_parse.hpp:136 line_ *)
Definition ini_line (s : text) : option (text * text) :=
  match colon s with
  | Some (k, r) => match yes_eol r with Some (v, r2) => Some (lower k ++ "=" :: v, r2) | None => None end
  | None => None
  end.

(** configIni_parse.hpp:139 last_line_ *)
Definition ini_last (s : text) : option text :=
  match colon s with
  | Some (k, r) => Some (lower k ++ "=" :: no_eol r)
  | None => None
  end.

(** configIni_parse.hpp:132 root_rule_: the text made and the text left; None when the fuel is not enough *)
Fixpoint ini_loop (n : nat) (s : text) : option (text * text) :=
  match n with
  | O => None
  | S n =>
      match ini_line s with
      | Some (a, r) => match ini_loop n r with Some (t, u) => Some (a ++ lf :: t, u) | None => None end
      | None => match ini_last s with Some a => Some (a, []) | None => Some ([], s) end
      end
  end.

(** phrase_parse: the match, and whether the text has been used up *)
Inductive converted := Converted (t : text) | Left_over (t rest : text) | No_fuel.
Definition to_ini (s : text) : converted :=
  match ini_loop (S (length s)) s with
  | Some (t, r) => match skip r with [] => Converted t | _ :: _ => Left_over t (skip r) end
  | None => No_fuel
  end.

(** ** Specification *)
(** a name: no colon and no line end in it, and it does not begin with white space *)
Definition setting_name (k : text) : Prop :=
  Forall (fun c => c <> ":" /\ c <> lf /\ c <> cr) k /\ exists c r, k = c :: r /\ is_space c = false.
(** a value: no semicolon and no line end in it, not empty, and it does not begin with white space *)
Definition setting_value (v : text) : Prop :=
  Forall (fun c => c <> ";" /\ c <> lf /\ c <> cr) v /\ exists c r, v = c :: r /\ is_space c = false.
(** a remark: nothing, or a semicolon and the rest of the line *)
Definition setting_remark (c : text) : Prop := c = [] \/ exists r, c = ";" :: r /\ Forall (fun c => c <> lf /\ c <> cr) r.
Definition line_end (e : text) : Prop := e = [lf] \/ e = [cr] \/ e = [cr; lf].
Definition white (w : text) : Prop := Forall (fun c => is_space c = true) w.
Definition blanks (w : text) : Prop := Forall (fun c => is_space c = true /\ c <> lf /\ c <> cr) w.

(** [config l o s]: the text [s] has the lines [l], and [o] is its last line if no line end follows it; there may be
    blank lines *)
Inductive config : list (text * text) -> option (text * text) -> text -> Prop :=
| config_end : forall w, white w -> config [] None w
| config_last : forall w k w2 v c, white w -> setting_name k -> blanks w2 -> setting_value v -> setting_remark c ->
    config [] (Some (k, v)) (w ++ k ++ ":" :: w2 ++ v ++ c)
| config_line : forall w k w2 v c e l o s, white w -> setting_name k -> blanks w2 -> setting_value v -> setting_remark c -> line_end e ->
    config l o s -> config ((k, v) :: l) o (w ++ k ++ ":" :: w2 ++ v ++ c ++ e ++ s).

(** small letters in place of capitals *)
Definition capitals : text := txt "ABCDEFGHIJKLMNOPQRSTUVWXYZ".
Definition smalls : text := txt "abcdefghijklmnopqrstuvwxyz".
Definition small (c d : ascii) : Prop := (~ In c capitals /\ d = c) \/ exists i, nth_error capitals i = Some c /\ nth_error smalls i = Some d.

Definition ini_of (kv : text * text) (t : text) : Prop := exists k, Forall2 small (fst kv) k /\ t = k ++ "=" :: snd kv.
Inductive ini : list (text * text) -> option (text * text) -> text -> Prop :=
| ini_end : ini [] None []
| ini_end_last : forall kv t, ini_of kv t -> ini [] (Some kv) t
| ini_next : forall kv l o t u, ini_of kv t -> ini l o u -> ini (kv :: l) o (t ++ lf :: u).

(** ** Proofs *)
Lemma lower_small : forall c, small c (lower_char c).
Proof.
  intro c. unfold small, lower_char, between.
  destruct (Nat.leb 65 (nat_of_ascii c)) eqn:A; destruct (Nat.leb (nat_of_ascii c) 90) eqn:B; cbn [andb];
    try (left; split; [|reflexivity]; intro H; repeat (destruct H as [<-|H]; [vm_compute in A, B; discriminate|]); destruct H).
  right. apply Nat.leb_le in A. apply Nat.leb_le in B. exists (nat_of_ascii c - 65).
  rewrite <- (ascii_nat_embedding c) at 2. set (n := nat_of_ascii c) in *. clearbody n. 
  assert (H : In n (seq 65 26)) by (apply in_seq; lia). clear A B.
  repeat (destruct H as [<-|H]; [split; vm_compute; reflexivity|]). destruct H.
Qed.

Lemma lower_spec : forall k, Forall2 small k (lower k).
Proof. induction k as [|c k IH]; [constructor|]. constructor; [apply lower_small|exact IH]. Qed.

Lemma not_eol_spec : forall c, c <> lf /\ c <> cr -> not_eol c = true.
Proof.
  intros c [A B]. unfold not_eol. destruct (Ascii.eqb c lf) eqn:E; [apply Ascii.eqb_eq in E; contradiction|].
  destruct (Ascii.eqb c cr) eqn:E2; [apply Ascii.eqb_eq in E2; contradiction|]. reflexivity.
Qed.
Lemma neq_spec : forall c d, c <> d -> negb (Ascii.eqb c d) = true.
Proof. intros c d H. destruct (Ascii.eqb c d) eqn:E; [apply Ascii.eqb_eq in E; contradiction|reflexivity]. Qed.

Lemma colon_exact : forall w k r, white w -> setting_name k -> colon (w ++ k ++ ":" :: r) = Some (k, r).
Proof.
  intros w k r Hw [Hk (c & q & E & Hc)]. unfold colon. rewrite skip_app by exact Hw. rewrite skip_start by (rewrite E; exact Hc).
  rewrite (span_exact not_colon k (":" :: r)); [reflexivity| |reflexivity]. eapply Forall_impl; [|exact Hk]. intros a (A & _). apply neq_spec, A.
Qed.

Lemma value_chars : forall v, setting_value v -> Forall (fun c => not_eol c && not_semicolon c = true) v /\ starts is_space v = false.
Proof.
  intros v [H (c & q & -> & Hc)]. split; [|exact Hc]. eapply Forall_impl; [|exact H]. intros a (A & B). cbn beta.
  rewrite (not_eol_spec a B). apply neq_spec, A.
Qed.

Lemma starts_app : forall p v s, v <> [] -> starts p (v ++ s) = starts p v.
Proof. intros p [|c v] s H; [contradiction|reflexivity]. Qed.

Lemma value_nonempty : forall v, setting_value v -> v <> [].
Proof. intros v [_ (c & q & -> & _)]. discriminate. Qed.

Lemma skip_value : forall w v s, white w -> setting_value v -> skip (w ++ v ++ s) = v ++ s.
Proof.
  intros w v s Hw Hv. rewrite skip_app by exact Hw. apply skip_start. rewrite starts_app by (apply value_nonempty, Hv). apply value_chars, Hv.
Qed.

Lemma blanks_white : forall w, blanks w -> white w.
Proof. intros w H. eapply Forall_impl; [|exact H]. intros a (A & _). exact A. Qed.

(** what a line end leaves differs from the text after it by white space only *)
Lemma line_end_eol : forall e s, line_end e -> exists r, eol (e ++ s) = Some r /\ skip r = skip s.
Proof.
  intros e s [->|[->| ->]]; cbn [app eol].
  - change (Ascii.eqb lf cr) with false. change (Ascii.eqb lf lf) with true. exists s. split; reflexivity.
  - change (Ascii.eqb cr cr) with true. cbv iota. destruct s as [|d s]; [exists []; split; reflexivity|].
    destruct (Ascii.eqb d lf) eqn:E; [|exists (d :: s); split; reflexivity]. apply Ascii.eqb_eq in E. subst d. exists s. split; reflexivity.
  - change (Ascii.eqb cr cr) with true. change (Ascii.eqb lf lf) with true. exists s. split; reflexivity.
Qed.

Lemma line_end_stop : forall e s, line_end e -> starts not_eol (e ++ s) = false /\ starts (Ascii.eqb ";") (e ++ s) = false /\ remark (e ++ s) = e ++ s.
Proof. intros e s [->|[->| ->]]; repeat split; reflexivity. Qed.

Lemma remark_exact : forall c s, setting_remark c -> starts not_eol s = false -> remark s = s -> remark (c ++ s) = s.
Proof.
  intros c s [->|(r & -> & H)] Hs Hr; [exact Hr|]. cbn [app remark]. change (Ascii.eqb ";" ";") with true. cbv iota.
  rewrite (span_exact not_eol r s); [reflexivity| |exact Hs]. eapply Forall_impl; [|exact H]. intros a A. apply not_eol_spec, A.
Qed.

Lemma remark_stops : forall c s, setting_remark c -> starts not_eol s = false ->
  starts (fun c => not_eol c && not_semicolon c) (c ++ s) = false.
Proof.
  intros c s [->|(r & -> & H)] Hs; [|reflexivity]. cbn [app]. destruct s as [|d s]; [reflexivity|]. cbn [starts] in *. rewrite Hs. reflexivity.
Qed.

Lemma yes_eol_exact : forall w v c e s, blanks w -> setting_value v -> setting_remark c -> line_end e ->
  exists r, yes_eol (w ++ v ++ c ++ e ++ s) = Some (v, r) /\ skip r = skip s.
Proof.
  intros w v c e s Hw Hv Hc He. unfold yes_eol. rewrite skip_value by (try apply blanks_white; assumption).
  destruct (line_end_stop e s He) as (E1 & _ & E2). destruct (value_chars v Hv) as [V _].
  rewrite (span_exact _ v (c ++ e ++ s) V (remark_stops c (e ++ s) Hc E1)). rewrite (remark_exact c (e ++ s) Hc E1 E2).
  destruct (line_end_eol e s He) as (r & -> & R). exists r. split; [reflexivity|exact R].
Qed.

Lemma yes_eol_none : forall w v c, blanks w -> setting_value v -> setting_remark c -> yes_eol (w ++ v ++ c) = None.
Proof.
  intros w v c Hw Hv Hc. unfold yes_eol. rewrite skip_value by (try apply blanks_white; assumption). destruct (value_chars v Hv) as [V _].
  pose proof (remark_stops c [] Hc eq_refl) as S. rewrite app_nil_r in S. rewrite (span_exact _ v c V S).
  pose proof (remark_exact c [] Hc eq_refl eq_refl) as R. rewrite app_nil_r in R. rewrite R. reflexivity.
Qed.

Lemma no_eol_exact : forall w v c, blanks w -> setting_value v -> setting_remark c -> no_eol (w ++ v ++ c) = v.
Proof.
  intros w v c Hw Hv Hc. unfold no_eol. rewrite skip_value by (try apply blanks_white; assumption).
  rewrite (span_exact not_semicolon v c); [reflexivity| |].
  - destruct Hv as [H _]. eapply Forall_impl; [|exact H]. intros a (A & _). apply neq_spec, A.
  - destruct Hc as [->|(r & -> & _)]; reflexivity.
Qed.

Lemma loop_skip : forall n s r, skip r = skip s -> ini_loop n r = match ini_loop n s with
  | Some (t, u) => match ini_line s, ini_last s with None, None => Some (t, r) | _, _ => Some (t, u) end | None => None end.
Proof.
  intros [|n] s r H; [reflexivity|]. cbn [ini_loop].
  assert (A : colon r = colon s) by (unfold colon; rewrite H; reflexivity).
  assert (B : ini_line r = ini_line s) by (unfold ini_line; rewrite A; reflexivity).
  assert (C : ini_last r = ini_last s) by (unfold ini_last; rewrite A; reflexivity).
  rewrite B, C. destruct (ini_line s) as [[a q]|].
  - destruct (ini_loop n q) as [[t u]|]; reflexivity.
  - destruct (ini_last s); reflexivity.
Qed.

Lemma blank_nothing : forall s, skip s = [] -> ini_line s = None /\ ini_last s = None.
Proof.
  intros s H. assert (colon s = None) as E by (unfold colon; rewrite H; reflexivity). unfold ini_line, ini_last. rewrite E. split; reflexivity.
Qed.

Lemma loop_exact : forall l o s, config l o s -> forall n r, skip r = skip s -> length l < n ->
  exists t u, ini_loop n r = Some (t, u) /\ skip u = [] /\ ini l o t.
Proof.
  intros l o s H. induction H as [w Hw|w k w2 v c Hw Hk Hw2 Hv Hc|w k w2 v c e l o s Hw Hk Hw2 Hv Hc He H IH]; intros n r Hr Hn;
    (destruct n as [|n]; [cbn in Hn; lia|]); rewrite (loop_skip _ _ _ Hr); cbn [ini_loop].
  - assert (E : skip w = []) by (apply skip_nil, Hw). destruct (blank_nothing w E) as [-> ->]. exists [], r. split; [reflexivity|].
    split; [rewrite Hr; exact E|constructor].
  - assert (A := colon_exact w k (w2 ++ v ++ c) Hw Hk). unfold ini_line, ini_last. rewrite A.
    rewrite (yes_eol_none w2 v c Hw2 Hv Hc), (no_eol_exact w2 v c Hw2 Hv Hc). exists (lower k ++ "=" :: v), []. split; [reflexivity|].
    split; [reflexivity|]. constructor. exists (lower k). split; [apply lower_spec|reflexivity].
  - assert (A := colon_exact w k (w2 ++ v ++ c ++ e ++ s) Hw Hk). unfold ini_line. rewrite A.
    destruct (yes_eol_exact w2 v c e s Hw2 Hv Hc He) as (q & -> & Hq). destruct (IH n q Hq ltac:(cbn in Hn; lia)) as (t & u & -> & Hu & Ht).
    exists ((lower k ++ "=" :: v) ++ lf :: t), u. split; [reflexivity|]. split; [exact Hu|]. constructor; [|exact Ht].
    exists (lower k). split; [apply lower_spec|reflexivity].
Qed.

Lemma config_length : forall l o s, config l o s -> length l <= length s.
Proof.
  intros l o s H. induction H; cbn [length]; rewrite ?app_length; cbn [length]; rewrite ?app_length; lia.
Qed.

Lemma to_ini_exact : forall l o s, config l o s -> exists t, to_ini s = Converted t /\ ini l o t.
Proof.
  intros l o s H. unfold to_ini. pose proof (config_length l o s H). destruct (loop_exact l o s H (S (length s)) s eq_refl ltac:(lia)) as (t & u & -> & Hu & Ht).
  exists t. rewrite Hu. split; [reflexivity|exact Ht].
Qed.

(** every text gets a verdict *)
Lemma colon_length : forall s k r, colon s = Some (k, r) -> length r < length s.
Proof.
  intros s k r H. unfold colon in H. destruct (span not_colon (skip s)) as [a b] eqn:E. destruct b as [|d b]; [discriminate|]. injection H as <- <-.
  apply span_app in E. pose proof (skip_length s). rewrite E, app_length in H. cbn in H. lia.
Qed.
Lemma yes_eol_length : forall s v r, yes_eol s = Some (v, r) -> length r <= length s.
Proof.
  intros s v r H. unfold yes_eol in H. destruct (span _ (skip s)) as [a b] eqn:E. destruct (eol (remark b)) as [q|] eqn:Q; [|discriminate]. injection H as <- <-.
  apply span_app in E. pose proof (skip_length s). rewrite E, app_length in H. apply eol_length in Q.
  assert (length (remark b) <= length b).
  { destruct b as [|c b]; [cbn; lia|]. cbn [remark]. destruct (Ascii.eqb c ";"); [|lia]. pose proof (span_length2 not_eol b). cbn. lia. }
  lia.
Qed.
Lemma loop_total : forall n s, length s < n -> ini_loop n s <> None.
Proof.
  induction n as [|n IH]; intros s H; [lia|]. cbn [ini_loop]. destruct (ini_line s) as [[a r]|] eqn:E.
  - unfold ini_line in E. destruct (colon s) as [[k q]|] eqn:C; [|discriminate]. destruct (yes_eol q) as [[v p]|] eqn:Y; [|discriminate]. injection E as <- <-.
    apply colon_length in C. apply yes_eol_length in Y. specialize (IH p ltac:(lia)). destruct (ini_loop n p) as [[t u]|]; [discriminate|contradiction].
  - destruct (ini_last s); discriminate.
Qed.
Lemma to_ini_total : forall s, to_ini s <> No_fuel.
Proof.
  intros s H. unfold to_ini in H. pose proof (loop_total (S (length s)) s ltac:(lia)). destruct (ini_loop (S (length s)) s) as [[t u]|]; [|contradiction].
  destruct (skip u); discriminate.
Qed.
