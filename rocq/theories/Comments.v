(** Removing comments from an input file.

    Models core/include/bertini2/io/parsing/classic_utilities.hpp:339-346 (CommentStripper: root_rule_, line_,
    last_line_), called with ascii::space as the skipper (lines 379-387).  The lexeme directive skips white
    space, line ends included, before it switches the skipper off. *)
From Coq Require Import String Ascii List Arith Lia Bool.
From Verif Require Import Chars.
Import ListNotations.
Local Open Scope char_scope.

Definition lf : ascii := "010".
Definition cr : ascii := "013".

Definition not_eol (c : ascii) : bool := negb (Ascii.eqb c lf || Ascii.eqb c cr).
Definition not_percent (c : ascii) : bool := negb (Ascii.eqb c "%").

(** qi::eol: an optional carriage return and an optional line feed, one of the two at least *)
Definition eol (s : text) : option text :=
  match s with
  | c :: r =>
      if Ascii.eqb c cr then
        match r with d :: r2 => if Ascii.eqb d lf then Some r2 else Some r | [] => Some r end
      else if Ascii.eqb c lf then Some r else None
  | [] => None
  end.

(** the omitted part of both rules: -("%" >> lexeme[*(char_ - eol)]); the inner lexeme does not skip, as the
    skipper is already off *)
Definition comment (s : text) : text :=
  match s with
  | c :: r => if Ascii.eqb c "%" then snd (span not_eol r) else s
  | [] => []
  end.

(** classic_utilities.hpp:342-343 line_ *)
Definition line (s : text) : option (text * text) :=
  let (a, r) := span (fun c => not_eol c && not_percent c) (skip s) in
  match eol (comment r) with Some r2 => Some (a, r2) | None => None end.

(** classic_utilities.hpp:345-346 last_line_: it always matches *)
Definition last_line (s : text) : text * text :=
  let (a, r) := span not_percent (skip s) in (a, comment r).

(** classic_utilities.hpp:339 root_rule_: lines while they match, then the last line; None when the fuel is
    not enough *)
Fixpoint strip_loop (n : nat) (s : text) : option text :=
  match n with
  | O => None
  | S n =>
      match line s with
      | Some (a, r) => match strip_loop n r with Some t => Some (a ++ lf :: t) | None => None end
      | None => let (a, _) := last_line s in Some (a ++ [lf])
      end
  end.

Definition strip (s : text) : option text := strip_loop (S (length s)) s.

(** *** Specification *)

(** the first line of a text and the lines after it; lines end with \n, \r or \r\n *)
Fixpoint cut (s : text) : text * list text :=
  match s with
  | [] => ([], [])
  | c :: r =>
      let (l, ls) := cut r in
      if Ascii.eqb c lf then ([], l :: ls)
      else if Ascii.eqb c cr then
        match r with
        | d :: _ => if Ascii.eqb d lf then (l, ls) else ([], l :: ls)
        | [] => ([], l :: ls)
        end
      else (c :: l, ls)
  end.

Definition lines (s : text) : list text := fst (cut s) :: snd (cut s).

Fixpoint before_percent (l : text) : text :=
  match l with [] => [] | c :: r => if Ascii.eqb c "%" then [] else c :: before_percent r end.

Definition blank (l : text) : bool := forallb is_space l.

(** white space at the start of a line *)
Fixpoint unindent (l : text) : text :=
  match l with [] => [] | c :: r => if is_space c then unindent r else l end.

Definition stripped_line (l : text) : text := before_percent (unindent l) ++ [lf].

(** blank lines but the last one disappear; every other line loses its indentation and its comment *)
Fixpoint stripped (l : text) (ls : list text) : text :=
  match ls with
  | [] => stripped_line l
  | l2 :: ls2 => (if blank l then [] else stripped_line l) ++ stripped l2 ls2
  end.

(** a text without its comments: [inside] says whether a comment is being read *)
Fixpoint uncomment (inside : bool) (s : text) : text :=
  match s with
  | [] => []
  | c :: r =>
      if Ascii.eqb c lf || Ascii.eqb c cr then c :: uncomment false r
      else if inside then uncomment true r
      else if Ascii.eqb c "%" then uncomment true r
      else c :: uncomment false r
  end.

Definition visible (s : text) : text := filter (fun c => negb (is_space c)) s.

(** *** Proofs *)

Lemma lf_space : is_space lf = true. Proof. reflexivity. Qed.
Lemma cr_space : is_space cr = true. Proof. reflexivity. Qed.

Definition result (s : text) : text := stripped (fst (cut s)) (snd (cut s)).

Lemma result_space : forall c s, is_space c = true -> result (c :: s) = result s.
Proof.
  intros c s Hc. unfold result. cbn [cut]. destruct (cut s) as [l ls] eqn:E.
  assert (Hnew : stripped (fst (@nil ascii, l :: ls)) (snd (@nil ascii, l :: ls)) = stripped (fst (l, ls)) (snd (l, ls)))
    by reflexivity.
  destruct (Ascii.eqb c lf); [exact Hnew|]. destruct (Ascii.eqb c cr).
  - destruct s as [|d s]; [exact Hnew|]. destruct (Ascii.eqb d lf); [reflexivity|exact Hnew].
  - cbn [fst snd]. destruct ls as [|l2 ls]; cbn [stripped]; unfold stripped_line; cbn [unindent]; rewrite Hc;
      [reflexivity|]. unfold blank. cbn [forallb]. rewrite Hc. reflexivity.
Qed.

Lemma result_skip : forall s, result (skip s) = result s.
Proof.
  intro s. destruct (skip_split s) as (w & Hw & Es). rewrite Es at 2. clear Es. induction Hw as [|c w Hc _ IH]; [reflexivity|].
  cbn [app]. rewrite result_space by exact Hc. exact IH.
Qed.

(** a text whose first line is [l]: either it is over, or an end of line follows *)
Lemma cut_span : forall s, fst (cut s) = fst (span not_eol s) /\
  match eol (snd (span not_eol s)) with
  | Some r => snd (cut s) = lines r
  | None => snd (cut s) = [] /\ snd (span not_eol s) = []
  end.
Proof.
  induction s as [|c s IH]; [cbn; auto|]. cbn [cut span]. unfold not_eol at 1 3 5. destruct (cut s) as [l ls] eqn:E.
  destruct (Ascii.eqb c lf) eqn:El.
  - cbn [orb negb fst snd eol]. apply Ascii.eqb_eq in El. subst c. change (Ascii.eqb lf cr) with false.
    change (Ascii.eqb lf lf) with true. cbv iota. split; [reflexivity|]. unfold lines. rewrite E. reflexivity.
  - destruct (Ascii.eqb c cr) eqn:Ec.
    + cbn [orb negb fst snd eol]. rewrite Ec. destruct s as [|d s2].
      * cbn in E. injection E as <- <-. split; reflexivity.
      * destruct (Ascii.eqb d lf) eqn:Ed.
        -- cbn [cut] in E. rewrite Ed in E. destruct (cut s2) as [l2 ls2] eqn:E2. injection E as <- <-.
           split; [reflexivity|]. unfold lines. rewrite E2. reflexivity.
        -- split; [reflexivity|]. unfold lines. rewrite E. reflexivity.
    + cbn [orb negb]. destruct (span not_eol s) as [a b] eqn:Es. cbn [fst snd] in *.
      destruct IH as [IH1 IH2]. rewrite <- IH1. split; [reflexivity|]. exact IH2.
Qed.

Lemma eqb_sym : forall a b : ascii, Ascii.eqb a b = Ascii.eqb b a.
Proof. intros a b. destruct (Ascii.eqb a b) eqn:E, (Ascii.eqb b a) eqn:E2; try reflexivity;
  [apply Ascii.eqb_eq in E|apply Ascii.eqb_eq in E2]; subst; rewrite Ascii.eqb_refl in *; discriminate. Qed.

(** reading up to an end of line or a percent sign and jumping over the comment *)
Lemma line_parts : forall s, let (a, r) := span (fun c => not_eol c && not_percent c) s in
  a = before_percent (fst (span not_eol s)) /\ comment r = snd (span not_eol s).
Proof.
  induction s as [|c s IH]; [cbn; auto|]. cbn [span].
  destruct (span (fun c => not_eol c && not_percent c) s) as [a r].
  destruct (span not_eol s) as [a2 r2] eqn:E2. cbn [fst snd] in IH. destruct IH as [IH1 IH2].
  destruct (not_eol c) eqn:E; cbn [andb fst snd].
  - unfold not_percent. destruct (Ascii.eqb c "%") eqn:Ep; cbn [negb fst snd before_percent comment]; rewrite Ep.
    + rewrite E2. split; reflexivity.
    + split; [f_equal; exact IH1|exact IH2].
  - split; [reflexivity|]. cbn [comment]. destruct (Ascii.eqb c "%") eqn:Ep; [|reflexivity].
    apply Ascii.eqb_eq in Ep. subst c. discriminate E.
Qed.

Lemma last_parts : forall s, forallb not_eol s = true -> fst (span not_percent s) = before_percent s.
Proof.
  induction s as [|c s IH]; intro H; [reflexivity|]. cbn [forallb] in H. apply andb_prop in H. destruct H as [_ H].
  cbn [span before_percent]. destruct (span not_percent s) as [a b]. unfold not_percent. cbn [fst] in IH.
  destruct (Ascii.eqb c "%"); [reflexivity|]. cbn [negb fst]. f_equal. exact (IH H).
Qed.

Lemma eol_length : forall s r, eol s = Some r -> length r < length s.
Proof.
  intros [|c s] r H; [discriminate|]. cbn in H. destruct (Ascii.eqb c cr).
  - destruct s as [|d s]; [injection H as <-; cbn; lia|]. destruct (Ascii.eqb d lf); injection H as <-; cbn; lia.
  - destruct (Ascii.eqb c lf); [injection H as <-; cbn; lia|discriminate].
Qed.

Lemma unindent_skip : forall l, unindent l = skip l.
Proof. induction l as [|c l IH]; [reflexivity|]. cbn. destruct (is_space c); [exact IH|reflexivity]. Qed.

Lemma span_length2 : forall p s, length (snd (span p s)) <= length s.
Proof.
  intros p s. destruct (span p s) as [a b] eqn:E. rewrite (span_app _ _ _ _ E), app_length. cbn. lia.
Qed.

Lemma strip_loop_exact : forall n s, length s < n -> strip_loop n s = Some (result s).
Proof.
  induction n as [|n IH]; intros s Hs; [lia|]. cbn [strip_loop]. rewrite <- (result_skip s).
  unfold line, last_line. pose proof (skip_length s) as Hk. assert (Hst : starts is_space (skip s) = false) by apply skip_stop.
  set (u := skip s) in *. clearbody u.
  pose proof (line_parts u) as H. pose proof (cut_span u) as [H1 H2].
  destruct (span (fun c => not_eol c && not_percent c) u) as [a r]. destruct H as [Ha Hr]. rewrite Hr.
  pose proof (span_length2 not_eol u) as Hl2.
  destruct (span not_eol u) as [b r2] eqn:Es. cbn [fst snd] in *.
  destruct (eol r2) as [r3|] eqn:Ee.
  - pose proof (eol_length _ _ Ee) as Hlen. rewrite IH by lia. f_equal. unfold result. rewrite H1, H2. unfold lines.
    cbn [stripped].
    assert (Hb : blank b = false /\ unindent b = b \/ b = []).
    { destruct b as [|c b]; [right; reflexivity|]. left. apply span_app in Es. rewrite Es in Hst. cbn in Hst.
      unfold blank. cbn [forallb unindent]. rewrite Hst. split; reflexivity. }
    destruct Hb as [[Hb1 Hb2]|Hb].
    + rewrite Hb1. unfold stripped_line. rewrite Hb2, Ha, <- app_assoc. reflexivity.
    + (* impossible: an end of line at the start *)
      exfalso. clear - Es Ee Hst Hb. apply span_app in Es. rewrite Hb in Es. cbn in Es. rewrite <- Es in Ee. destruct u as [|c u]; [discriminate|]. cbn [eol] in Ee. cbn in Hst.
      destruct (Ascii.eqb c cr) eqn:E1; [apply Ascii.eqb_eq in E1; subst c; discriminate|].
      destruct (Ascii.eqb c lf) eqn:E2; [apply Ascii.eqb_eq in E2; subst c; discriminate|discriminate Ee].
  - destruct H2 as [H2 Hr2]. subst r2. pose proof (span_all _ _ _ _ Es) as Hall. apply span_app in Es.
    rewrite Hr2, app_nil_r in Es. rewrite <- Es in *.
    destruct (span not_percent u) as [a' r'] eqn:Ep. f_equal. unfold result. rewrite H1, H2. cbn [stripped].
    unfold stripped_line. rewrite unindent_skip, skip_start by exact Hst. f_equal.
    change a' with (fst (a', r')). rewrite <- Ep. apply last_parts. apply forallb_forall. rewrite Forall_forall in Hall. exact Hall.
Qed.

Lemma strip_exact : forall s, strip s = Some (stripped (fst (cut s)) (snd (cut s))).
Proof. intro s. apply strip_loop_exact. lia. Qed.

(** *** consequences *)

Lemma before_no_percent : forall l, ~ In "%" (before_percent l).
Proof.
  induction l as [|c l IH]; [easy|]. cbn. destruct (Ascii.eqb c "%") eqn:E; [easy|].
  intros [Hc|H]; [subst c; discriminate|tauto].
Qed.

Lemma stripped_no_percent : forall ls l, ~ In "%" (stripped l ls).
Proof.
  assert (Hl : forall l, ~ In "%" (stripped_line l)).
  { intros l H. apply in_app_iff in H. destruct H as [H|[H|[]]]; [exact (before_no_percent _ H)|discriminate H]. }
  induction ls as [|l2 ls IH]; intro l; [apply Hl|]. cbn [stripped]. intro H. apply in_app_iff in H.
  destruct H as [H|H]; [|exact (IH _ H)]. destruct (blank l); [destruct H|exact (Hl _ H)].
Qed.

Lemma visible_app : forall a b, visible (a ++ b) = visible a ++ visible b.
Proof. intros. apply filter_app. Qed.

Lemma visible_unindent : forall l, visible (before_percent (unindent l)) = visible (before_percent l).
Proof.
  induction l as [|c l IH]; [reflexivity|]. cbn [unindent]. destruct (is_space c) eqn:E; [|reflexivity].
  rewrite IH. cbn [before_percent]. destruct (Ascii.eqb c "%") eqn:Ep; [apply Ascii.eqb_eq in Ep; subst c; discriminate|].
  unfold visible at 2. cbn [filter]. rewrite E. reflexivity.
Qed.

Lemma visible_line : forall l, visible (stripped_line l) = visible (before_percent l).
Proof. intro l. unfold stripped_line. rewrite visible_app, visible_unindent. cbn. apply app_nil_r. Qed.

Lemma visible_blank : forall l, blank l = true -> visible (before_percent l) = [].
Proof.
  induction l as [|c l IH]; intro H; [reflexivity|]. unfold blank in H. cbn in H. apply andb_prop in H. destruct H as [Hc H].
  cbn. destruct (Ascii.eqb c "%"); [reflexivity|]. unfold visible. cbn. rewrite Hc. cbn. exact (IH H).
Qed.

Lemma visible_stripped : forall ls l, visible (stripped l ls) = flat_map (fun l => visible (before_percent l)) (l :: ls).
Proof.
  induction ls as [|l2 ls IH]; intro l; cbn [stripped flat_map].
  - rewrite visible_line, app_nil_r. reflexivity.
  - rewrite visible_app, IH. cbn [flat_map]. f_equal. destruct (blank l) eqn:E; [|apply visible_line].
    rewrite visible_blank by exact E. reflexivity.
Qed.

Lemma visible_space : forall c s, is_space c = true -> visible (c :: s) = visible s.
Proof. intros c s H. unfold visible. cbn. rewrite H. reflexivity. Qed.

Lemma visible_uncomment : forall s,
  visible (uncomment false s) = flat_map (fun l => visible (before_percent l)) (fst (cut s) :: snd (cut s)) /\
  visible (uncomment true s) = flat_map (fun l => visible (before_percent l)) (snd (cut s)).
Proof.
  induction s as [|c s [IH1 IH2]]; [split; reflexivity|]. cbn [cut uncomment]. destruct (cut s) as [l ls] eqn:E.
  cbn [fst snd] in *. destruct (Ascii.eqb c lf) eqn:El.
  - cbn [orb fst snd]. apply Ascii.eqb_eq in El. subst c. rewrite visible_space by reflexivity. cbn [flat_map before_percent].
    rewrite IH1. split; reflexivity.
  - destruct (Ascii.eqb c cr) eqn:Ec; cbn [orb].
    + apply Ascii.eqb_eq in Ec. subst c. rewrite visible_space by reflexivity. rewrite IH1.
      destruct s as [|d s]; [split; reflexivity|]. destruct (Ascii.eqb d lf) eqn:Ed; [|split; reflexivity].
      cbn [cut] in E. rewrite Ed in E. destruct (cut s). injection E as <- <-. split; reflexivity.
    + cbn [fst snd]. rewrite IH2. split; [|reflexivity]. cbn [flat_map before_percent]. destruct (Ascii.eqb c "%"); [exact IH2|].
      unfold visible at 1 2. cbn [filter]. cbn [flat_map] in IH1. unfold visible at 1 2 in IH1.
      destruct (negb (is_space c)); cbn [app]; rewrite IH1; reflexivity.
Qed.

Lemma strip_visible : forall s, exists t, strip s = Some t /\ visible t = visible (uncomment false s).
Proof.
  intro s. eexists. split; [apply strip_exact|]. rewrite visible_stripped. symmetry. apply visible_uncomment.
Qed.
