(** The text of the data files of the zero dimensional solver.

    Models core/include/bertini2/nag_algorithms/output.hpp:71-134, 158-164, 176-219 (MainData, RawData, NumVariables,
    Variables, EndPoint, EndPointMDFull, EndPointMDRaw), with the numbers of generators.hpp:169-200 (NumText.v).
    Simplified: what the stream makes of one number (a double, an integer, a success code) is left arbitrary, a text; so is the
    text of the systems. *)
From Coq Require Import String Ascii List Arith ZArith Lia Bool DecimalString DecimalZ DecimalFacts.
From Verif Require Import Chars NumLit NumText Parser.
Import ListNotations.
Local Open Scope char_scope.
Local Open Scope list_scope.

Definition newline : ascii := "010".

(** what is known about one path when the files are written: zero_dim_solve.hpp:109-143 SolutionMetaData, and the final solution with its
    precision.  [started] says that endgame_success is not NeverStarted *)
Record path_data := PathData {
  started : bool;
  index : text; solution : text; condition : text; function_residual : text; newton_residual : text;
  final_time : text * text; max_precision : text; first_increase : text * text;
  accuracy : text; accuracy_user : text; cycles : text; multiplicity : text; before : text; during : text;
  digits : text; point : list (text * text) }.

(** generators.hpp:169-185 *)
Definition complex_text (c : text * text) : text := generate_complex (fst c) (snd c).

(** each of these texts followed by the end of its line *)
Definition lines (l : list text) : text := concat (map (fun t => t ++ [newline]) l).

(** output.hpp:176-196 EndPointMDFull with the default "\n" at the end, then 158-164 EndPoint (generators.hpp:188-200, every coordinate
    followed by the end of the line) with "\n\n" at the end *)
Definition main_lines (d : path_data) : list text :=
  [index d; solution d; condition d; function_residual d; newton_residual d; complex_text (final_time d); max_precision d;
   complex_text (first_increase d); accuracy d; accuracy_user d; cycles d; multiplicity d; before d ++ " " :: during d; []]
  ++ map complex_text (point d) ++ [[]; []].

(** output.hpp:200-219 EndPointMDRaw with "\n\n" at the end *)
Definition raw_lines (d : path_data) : list text :=
  [index d; digits d] ++ map complex_text (point d) ++
  [function_residual d; condition d; newton_residual d; complex_text (final_time d); accuracy d; complex_text (first_increase d); cycles d; during d; []; []].

(** output.hpp:71-96 MainData, with 116-122 NumVariables and 125-134 Variables: [n] is NumVariables(), [vars] the names in the order of the variables,
    and the three texts are those of target, start system and homotopy *)
Definition main_data (n : nat) (vars : list text) (ds : list path_data) (target start homotopy : text) : text :=
  print_Z (Z.of_nat n) ++ [newline] ++ concat (map (fun v => v ++ [" "]) vars) ++ [newline; newline] ++
  concat (map (fun d => lines (main_lines d)) (filter started ds)) ++
  [newline; newline] ++ target ++ [newline; newline] ++ start ++ [newline; newline] ++ homotopy ++ [newline; newline].

(** output.hpp:98-113 RawData *)
Definition raw_data (n : nat) (ds : list path_data) (target : text) : text :=
  print_Z (Z.of_nat n) ++ [newline; newline] ++
  concat (map (fun d => lines (raw_lines d)) (filter started ds)) ++
  [newline; newline] ++ target ++ [newline; newline].

(** ** Specification *)

(** the lines of a file *)
Fixpoint file_lines (s : text) : list text :=
  match s with
  | [] => [[]]
  | c :: s' => if Ascii.eqb c newline then [] :: file_lines s'
               else match file_lines s' with [] => [[c]] | l :: r => (c :: l) :: r end
  end.

(** a number is written as some characters, none of which is a space or the end of a line *)
Definition number_text (t : text) : Prop := t <> [] /\ ~ In " " t /\ ~ In newline t.
Definition complex_texts (c : text * text) : Prop := number_text (fst c) /\ number_text (snd c).

(** the data of a path *)
Record path_ok (d : path_data) : Prop := {
  ok_point : Forall complex_texts (point d);
  ok_times : complex_texts (final_time d) /\ complex_texts (first_increase d);
  ok_numbers : Forall number_text [index d; solution d; condition d; function_residual d; newton_residual d; max_precision d;
    accuracy d; accuracy_user d; cycles d; multiplicity d; before d; during d; digits d] }.

(** what each of the two files says about a path *)
Definition in_main (d : path_data) :=
  ((index d, solution d, multiplicity d, cycles d), (condition d, function_residual d, newton_residual d), (accuracy d, accuracy_user d),
   (final_time d, first_increase d, max_precision d), (before d, during d), point d).
Definition in_raw (d : path_data) :=
  ((index d, cycles d), (condition d, function_residual d, newton_residual d), accuracy d, (final_time d, first_increase d, digits d), during d, point d).

(** ** Proofs *)
Lemma file_lines_nonnil : forall s, file_lines s <> [].
Proof. intros [|c s]; cbn; [discriminate|]. destruct (Ascii.eqb c newline); [discriminate|]. destruct (file_lines s); discriminate. Qed.

Lemma file_lines_app : forall t s, ~ In newline t -> file_lines (t ++ newline :: s) = t :: file_lines s.
Proof.
  induction t as [|c t IH]; intros s H; cbn [app file_lines]; [reflexivity|].
  destruct (Ascii.eqb_spec c newline) as [->|N]; [elim H; left; reflexivity|]. rewrite IH; [reflexivity|]. intro K. apply H. right. exact K.
Qed.

Lemma file_lines_lines : forall l s, Forall (fun t => ~ In newline t) l -> file_lines (lines l ++ s) = l ++ file_lines s.
Proof.
  induction l as [|t l IH]; intros s H; [reflexivity|]. inversion H as [|? ? H1 H2]; subst. unfold lines. cbn [map concat]. rewrite <- !app_assoc. cbn [app].
  rewrite file_lines_app by exact H1. f_equal. exact (IH s H2).
Qed.

Fixpoint join (l : list text) : text := match l with [] => [] | [t] => t | t :: r => t ++ newline :: join r end.
Lemma join_file_lines : forall s, join (file_lines s) = s.
Proof.
  induction s as [|c s IH]; [reflexivity|]. cbn [file_lines]. pose proof (file_lines_nonnil s) as N. destruct (Ascii.eqb_spec c newline) as [->|Hc].
  - destruct (file_lines s) as [|l r]; [elim N; reflexivity|]. cbn [join]. cbn [app]. f_equal. exact IH.
  - destruct (file_lines s) as [|l r]; [elim N; reflexivity|]. destruct r as [|l' r]; cbn [join app] in *; f_equal; exact IH.
Qed.
Lemma file_lines_inj : forall s t, file_lines s = file_lines t -> s = t.
Proof. intros s t H. rewrite <- (join_file_lines s), <- (join_file_lines t), H. reflexivity. Qed.

Lemma lines_app : forall l m, lines (l ++ m) = lines l ++ lines m.
Proof. intros l m. unfold lines. rewrite map_app, concat_app. reflexivity. Qed.
Lemma lines_concat : forall (f : path_data -> list text) ds, concat (map (fun d => lines (f d)) ds) = lines (flat_map f ds).
Proof. induction ds as [|d ds IH]; [reflexivity|]. cbn [map concat flat_map]. rewrite lines_app, IH. reflexivity. Qed.

Lemma complex_no_newline : forall c, complex_texts c -> ~ In newline (complex_text c).
Proof.
  intros [re im] [[_ [_ A]] [_ [_ B]]]. unfold complex_text, generate_complex. cbn [fst snd] in *. intro H. apply in_app_or in H as [H|[H|H]]; [exact (A H)|discriminate|exact (B H)].
Qed.

Lemma split_at_space : forall a b x y : text, ~ In " " a -> ~ In " " b -> a ++ " " :: x = b ++ " " :: y -> a = b /\ x = y.
Proof.
  induction a as [|c a IH]; intros [|e b] x y Ha Hb E; cbn [app] in E.
  - injection E as <-. auto.
  - injection E as <- _. elim Hb. left. reflexivity.
  - injection E as -> _. elim Ha. left. reflexivity.
  - injection E as <- E. destruct (IH b x y) as [-> ->]; [intro H; apply Ha; right; exact H|intro H; apply Hb; right; exact H|exact E|]. auto.
Qed.

Lemma complex_inj : forall c c', complex_texts c -> complex_texts c' -> complex_text c = complex_text c' -> c = c'.
Proof.
  intros [re im] [re' im'] [[_ [A _]] _] [[_ [B _]] _] E. unfold complex_text, generate_complex in E. cbn [fst snd] in *.
  destruct (split_at_space _ _ _ _ A B E) as [-> ->]. reflexivity.
Qed.

Lemma point_inj : forall p q, Forall complex_texts p -> Forall complex_texts q -> map complex_text p = map complex_text q -> p = q.
Proof.
  induction p as [|c p IH]; intros [|e q] Hp Hq E; try discriminate; [reflexivity|]. inversion Hp; subst. inversion Hq; subst. cbn [map] in E.
  assert (E1 := f_equal (hd []) E). assert (E2 := f_equal (@tl text) E). cbn in E1, E2. f_equal; [apply complex_inj; assumption|apply IH; assumption].
Qed.

Lemma print_Z_inj : forall a b, print_Z a = print_Z b -> a = b.
Proof.
  intros a b H. unfold print_Z in H. assert (E : NilZero.string_of_int (Z.to_int a) = NilZero.string_of_int (Z.to_int b)).
  { unfold txt in H. rewrite <- (string_of_list_ascii_of_string (NilZero.string_of_int (Z.to_int a))), <- (string_of_list_ascii_of_string (NilZero.string_of_int (Z.to_int b))), H. reflexivity. }
  assert (Q : forall z, NilZero.int_of_string (NilZero.string_of_int (Z.to_int z)) = Some (Z.to_int z)).
  { intro z. apply NilZero.isi; destruct z as [|p|p]; cbn [Z.to_int]; try discriminate; intro K; injection K as K; exact (DecimalPos.Unsigned.to_uint_nonnil p K). }
  assert (S : Some (Z.to_int a) = Some (Z.to_int b)) by (rewrite <- (Q a), <- (Q b), E; reflexivity). injection S as S.
  rewrite <- (DecimalZ.of_to a), <- (DecimalZ.of_to b), S. reflexivity.
Qed.

Lemma cons_inj : forall (A : Type) (a b : A) l m, a :: l = b :: m -> a = b /\ l = m.
Proof. intros A a b l m H. injection H as -> ->. auto. Qed.
Lemma app_inj_length : forall (A : Type) (a b x y : list A), length a = length b -> a ++ x = b ++ y -> a = b /\ x = y.
Proof.
  induction a as [|c a IH]; intros [|e b] x y L E; try discriminate; [auto|]. cbn [app] in E. destruct (cons_inj _ _ _ _ _ E) as [-> E']. destruct (IH b x y) as [-> ->]; auto.
Qed.

(** lists of texts none of which is empty, followed by the empty text *)
Lemma until_empty : forall a b x y : list text, Forall (fun t => t <> []) a -> Forall (fun t => t <> []) b -> a ++ [] :: x = b ++ [] :: y -> a = b /\ x = y.
Proof.
  induction a as [|c a IH]; intros [|e b] x y Ha Hb E; cbn [app] in E; destruct (cons_inj _ _ _ _ _ E) as [E1 E2].
  - auto.
  - inversion Hb; subst. congruence.
  - inversion Ha; subst. congruence.
  - inversion Ha; subst. inversion Hb; subst. destruct (IH b x y) as [-> ->]; auto.
Qed.

Section Blocks.
  Variable f : path_data -> list text.
  Hypothesis f_cut : forall d d' x y, path_ok d -> path_ok d' -> f d ++ x = f d' ++ y -> f d = f d' /\ x = y.
  Hypothesis f_head : forall d, path_ok d -> exists t r, f d = t :: r /\ t <> [].

  Lemma blocks_inj : forall ds ds' R R', Forall path_ok ds -> Forall path_ok ds' ->
    flat_map f ds ++ [] :: R = flat_map f ds' ++ [] :: R' -> Forall2 (fun d d' => f d = f d') ds ds' /\ R = R'.
  Proof.
    induction ds as [|d ds IH]; intros [|d' ds'] R R' H H' E; cbn [flat_map app] in E.
    - destruct (cons_inj _ _ _ _ _ E) as [_ ->]. split; [constructor|reflexivity].
    - inversion H'; subst. destruct (f_head d') as (t & r & Et & Nt); [assumption|]. rewrite Et in E. cbn [app] in E. destruct (cons_inj _ _ _ _ _ E) as [K _]. elim Nt. symmetry. exact K.
    - inversion H; subst. destruct (f_head d) as (t & r & Et & Nt); [assumption|]. rewrite Et in E. cbn [app] in E. destruct (cons_inj _ _ _ _ _ E) as [K _]. elim Nt. exact K.
    - inversion H; subst. inversion H'; subst. rewrite <- !app_assoc in E. destruct (f_cut d d' _ _ ltac:(assumption) ltac:(assumption) E) as [E1 E2].
      destruct (IH ds' R R') as [A B]; try assumption. split; [constructor; assumption|exact B].
  Qed.
End Blocks.

Lemma filter_ok : forall ds, Forall path_ok ds -> Forall path_ok (filter started ds).
Proof. intros ds H. apply Forall_forall. intros d Hd. apply filter_In in Hd. rewrite Forall_forall in H. apply H, Hd. Qed.

Lemma numbers : forall d, path_ok d -> forall t, In t [index d; solution d; condition d; function_residual d; newton_residual d; max_precision d;
    accuracy d; accuracy_user d; cycles d; multiplicity d; before d; during d; digits d] -> number_text t.
Proof. intros d H. apply Forall_forall. exact (ok_numbers d H). Qed.

Lemma point_no_newline : forall d, path_ok d -> Forall (fun t => ~ In newline t) (map complex_text (point d)).
Proof. intros d H. apply Forall_map. eapply Forall_impl; [|exact (ok_point d H)]. intros c Hc. apply complex_no_newline, Hc. Qed.

Lemma number_no_newline : forall t, number_text t -> ~ In newline t.
Proof. intros t H. apply H. Qed.

Ltac clean H := apply number_no_newline, (numbers _ H); cbn; tauto.
Lemma raw_no_newline : forall d, path_ok d -> Forall (fun t => ~ In newline t) (raw_lines d).
Proof.
  intros d H. unfold raw_lines. apply Forall_app. split; [constructor; [clean H|constructor; [clean H|constructor]]|]. apply Forall_app. split; [exact (point_no_newline d H)|].
  constructor; [clean H|]. constructor; [clean H|]. constructor; [clean H|]. constructor; [apply complex_no_newline, (ok_times d H)|]. constructor; [clean H|].
  constructor; [apply complex_no_newline, (ok_times d H)|]. constructor; [clean H|]. constructor; [clean H|]. repeat constructor; intros [].
Qed.
Lemma main_no_newline : forall d, path_ok d -> Forall (fun t => ~ In newline t) (main_lines d).
Proof.
  intros d H. unfold main_lines. apply Forall_app. split.
  - constructor; [clean H|]. constructor; [clean H|]. constructor; [clean H|]. constructor; [clean H|]. constructor; [clean H|]. constructor; [apply complex_no_newline, (ok_times d H)|].
    constructor; [clean H|]. constructor; [apply complex_no_newline, (ok_times d H)|]. constructor; [clean H|]. constructor; [clean H|]. constructor; [clean H|]. constructor; [clean H|].
    constructor; [|constructor; [intros []|constructor]]. intro K. apply in_app_or in K as [K|[K|K]]; [revert K; clean H|discriminate|revert K; clean H].
  - apply Forall_app. split; [exact (point_no_newline d H)|]. repeat constructor; intros [].
Qed.
Lemma flat_no_newline : forall (f : path_data -> list text) ds, (forall d, path_ok d -> Forall (fun t => ~ In newline t) (f d)) -> Forall path_ok ds ->
  Forall (fun t => ~ In newline t) (flat_map f ds).
Proof. intros f ds Hf. induction 1 as [|d ds Hd _ IH]; [constructor|]. cbn [flat_map]. apply Forall_app. split; [apply Hf; exact Hd|exact IH]. Qed.

Lemma raw_length : forall n d, length (point d) = n -> length (raw_lines d) = (n + 12)%nat.
Proof. intros n d H. unfold raw_lines. rewrite !app_length, map_length, H. cbn. lia. Qed.
Lemma main_length : forall n d, length (point d) = n -> length (main_lines d) = (n + 16)%nat.
Proof. intros n d H. unfold main_lines. rewrite !app_length, map_length, H. cbn. lia. Qed.

Lemma print_no_newline : forall z, ~ In newline (print_Z z).
Proof.
  intros z H. unfold print_Z in H. assert (U : forall u, ~ In newline (txt (NilEmpty.string_of_uint u))) by (induction u; cbn; [tauto|intros [K|K]; [discriminate|tauto]..]).
  destruct (Z.to_int z) as [u|u]; cbn in H.
  - destruct u; try exact (U _ H). cbn in H. destruct H as [H|[]]. discriminate.
  - destruct H as [H|H]; [discriminate|]. destruct u; try exact (U _ H). cbn in H. destruct H as [H|[]]. discriminate.
Qed.

Lemma raw_file_lines : forall n ds target, Forall path_ok ds ->
  file_lines (raw_data n ds target) = [print_Z (Z.of_nat n); []] ++ flat_map raw_lines (filter started ds) ++ [[]; []] ++ file_lines (target ++ [newline; newline]).
Proof.
  intros n ds target H. unfold raw_data. cbn [app]. rewrite file_lines_app by apply print_no_newline. f_equal. cbn [file_lines]. rewrite Ascii.eqb_refl. f_equal.
  rewrite lines_concat. rewrite file_lines_lines by (apply flat_no_newline; [apply raw_no_newline|apply filter_ok; exact H]). f_equal.
Qed.

Lemma main_file_lines : forall n vars ds target start homotopy, Forall path_ok ds -> Forall (fun v => ~ In newline v) vars ->
  file_lines (main_data n vars ds target start homotopy) = [print_Z (Z.of_nat n); concat (map (fun v => v ++ [" "]) vars); []] ++ flat_map main_lines (filter started ds) ++ [[]; []] ++
    file_lines (target ++ [newline; newline] ++ start ++ [newline; newline] ++ homotopy ++ [newline; newline]).
Proof.
  intros n vars ds target start homotopy H Hv. unfold main_data. cbn [app]. rewrite file_lines_app by apply print_no_newline. f_equal.
  rewrite file_lines_app. 2:{ intro K. apply in_concat in K as (t & Ht & K). apply in_map_iff in Ht as (v & <- & Hin). rewrite Forall_forall in Hv. apply in_app_or in K as [K|[K|[]]]; [exact (Hv v Hin K)|discriminate]. }
  f_equal. cbn [file_lines]. rewrite Ascii.eqb_refl. f_equal.
  rewrite lines_concat. rewrite file_lines_lines by (apply flat_no_newline; [apply main_no_newline|apply filter_ok; exact H]). f_equal.
Qed.

Lemma raw_part : forall d d', path_ok d -> path_ok d' -> raw_lines d = raw_lines d' -> in_raw d = in_raw d'.
Proof.
  intros d d' H H' E. unfold raw_lines in E. destruct (app_inj_length _ _ _ _ _ (eq_refl : length [index d; digits d] = length [index d'; digits d']) E) as [E1 E2].
  destruct (app_inj_length _ (map complex_text (point d)) (map complex_text (point d')) _ _ ltac:(assert (L := f_equal (@length text) E2); rewrite !app_length in L; cbn [length] in L; lia) E2) as [E3 E4].
  destruct (cons_inj _ _ _ _ _ E1) as [A1 A2]. destruct (cons_inj _ _ _ _ _ A2) as [A3 _].
  do 8 (let X := fresh "X" in destruct (cons_inj _ _ _ _ _ E4) as [X E5]; clear E4; rename E5 into E4).
  unfold in_raw. rewrite A1, A3, (point_inj _ _ (ok_point d H) (ok_point d' H') E3).
  rewrite (complex_inj _ _ (proj1 (ok_times d H)) (proj1 (ok_times d' H')) X2), (complex_inj _ _ (proj2 (ok_times d H)) (proj2 (ok_times d' H')) X4). congruence.
Qed.

Lemma main_part : forall d d', path_ok d -> path_ok d' -> main_lines d = main_lines d' -> in_main d = in_main d'.
Proof.
  intros d d' H H' E. unfold main_lines in E. match type of E with ?a ++ _ = ?b ++ _ => destruct (app_inj_length _ a b _ _ eq_refl E) as [E4 E2] end.
  destruct (app_inj_length _ (map complex_text (point d)) (map complex_text (point d')) _ _ ltac:(assert (L := f_equal (@length text) E2); rewrite !app_length in L; cbn [length] in L; lia) E2) as [E3 _].
  do 13 (let X := fresh "X" in destruct (cons_inj _ _ _ _ _ E4) as [X E5]; clear E4; rename E5 into E4).
  assert (Hb : forall d, path_ok d -> ~ In " " (before d)) by (intros e He; assert (N : number_text (before e)) by (apply (numbers e He); cbn; tauto); apply N).
  destruct (split_at_space _ _ _ _ (Hb d H) (Hb d' H') X11) as [B1 B2].
  unfold in_main. rewrite (point_inj _ _ (ok_point d H) (ok_point d' H') E3).
  rewrite (complex_inj _ _ (proj1 (ok_times d H)) (proj1 (ok_times d' H')) X4), (complex_inj _ _ (proj2 (ok_times d H)) (proj2 (ok_times d' H')) X6). congruence.
Qed.

Lemma forall2_map : forall (B : Type) (f : path_data -> list text) (g : path_data -> B) ds ds', Forall path_ok ds -> Forall path_ok ds' ->
  (forall d d', path_ok d -> path_ok d' -> f d = f d' -> g d = g d') -> Forall2 (fun d d' => f d = f d') ds ds' -> map g ds = map g ds'.
Proof. intros B f g ds ds' H H' Hg F. revert H H'. induction F as [|d d' ds ds' E F IH]; intros H H'; [reflexivity|]. inversion H; subst. inversion H'; subst. cbn [map]. f_equal; auto. Qed.

Lemma names_inj : forall vs ws, Forall (fun v => ~ In " " v) vs -> Forall (fun v => ~ In " " v) ws ->
  concat (map (fun v => v ++ [" "]) vs) = concat (map (fun v => v ++ [" "]) ws) -> vs = ws.
Proof.
  induction vs as [|v vs IH]; intros [|w ws] H H' E; cbn [map concat] in E; [reflexivity| | |].
  - destruct w; discriminate.
  - destruct v; discriminate.
  - inversion H; subst. inversion H'; subst. rewrite <- !app_assoc in E. cbn [app] in E. destruct (split_at_space v w _ _ ltac:(assumption) ltac:(assumption) E) as [-> E']. f_equal. apply IH; assumption.
Qed.

(** the k-th block *)
Lemma block_at : forall (f : path_data -> list text) size ds R k d j, Forall (fun d => length (f d) = size) ds ->
  nth_error ds k = Some d -> (j < size)%nat -> nth_error (flat_map f ds ++ R) (k * size + j) = nth_error (f d) j.
Proof.
  intros f size ds R k d j. revert k. induction ds as [|e ds IH]; intros [|k] H Hk Hj; try discriminate; inversion H as [|? ? H1 H2]; subst x l; cbn [flat_map]; rewrite <- app_assoc.
  - cbn in Hk. injection Hk as ->. cbn [Nat.mul Nat.add]. rewrite nth_error_app1; [reflexivity|]. rewrite H1. exact Hj.
  - rewrite nth_error_app2 by (rewrite H1; cbn; lia). rewrite H1. replace (S k * size + j - size)%nat with (k * size + j)%nat by (cbn; lia). apply IH; assumption.
Qed.

(** where a block ends *)
Lemma complex_nonempty : forall c, complex_text c <> [].
Proof. intros [re im]. unfold complex_text, generate_complex. destruct re; discriminate. Qed.
Lemma point_nonempty : forall d, Forall (fun t => t <> []) (map complex_text (point d)).
Proof. intro d. apply Forall_map. apply Forall_forall. intros c _. apply complex_nonempty. Qed.
Ltac filled H := let N := fresh in assert (N := fun t => numbers _ H t); cbn [In] in N; apply N; tauto.

Lemma raw_cut : forall d d' x y, path_ok d -> path_ok d' -> raw_lines d ++ x = raw_lines d' ++ y -> raw_lines d = raw_lines d' /\ x = y.
Proof.
  assert (S : forall d, path_ok d -> exists l, raw_lines d = l ++ [[]; []] /\ Forall (fun t => t <> []) l).
  { intros d H. exists ([index d; digits d] ++ map complex_text (point d) ++
      [function_residual d; condition d; newton_residual d; complex_text (final_time d); accuracy d; complex_text (first_increase d); cycles d; during d]).
    split; [unfold raw_lines; rewrite <- !app_assoc; reflexivity|]. apply Forall_app. split; [constructor; [filled H|constructor; [filled H|constructor]]|].
    apply Forall_app. split; [apply point_nonempty|]. repeat (constructor; [first [apply complex_nonempty|filled H]|]). constructor. }
  intros d d' x y H H' E. destruct (S d H) as (l & El & Hl). destruct (S d' H') as (l' & El' & Hl'). rewrite El, El' in *. rewrite <- !app_assoc in E. cbn [app] in E.
  destruct (until_empty _ _ _ _ Hl Hl' E) as [-> E']. destruct (cons_inj _ _ _ _ _ E') as [_ ->]. auto.
Qed.

Lemma main_cut : forall d d' x y, path_ok d -> path_ok d' -> main_lines d ++ x = main_lines d' ++ y -> main_lines d = main_lines d' /\ x = y.
Proof.
  intros d d' x y H H' E. unfold main_lines in *. rewrite <- !app_assoc in E. match type of E with ?a ++ _ = ?b ++ _ => destruct (app_inj_length _ a b _ _ eq_refl E) as [E1 E2] end.
  cbn [app] in E2. destruct (until_empty _ _ _ _ (point_nonempty d) (point_nonempty d') E2) as [E3 E4]. destruct (cons_inj _ _ _ _ _ E4) as [_ ->]. rewrite E1, E3. auto.
Qed.

Lemma raw_head : forall d, path_ok d -> exists t r, raw_lines d = t :: r /\ t <> [].
Proof. intros d H. eexists _, _. split; [reflexivity|]. filled H. Qed.
Lemma main_head : forall d, path_ok d -> exists t r, main_lines d = t :: r /\ t <> [].
Proof. intros d H. eexists _, _. split; [reflexivity|]. filled H. Qed.

(** ** An example: the data of a finished path and of one which was given up *)
Definition finished : path_data := PathData true (txt "0") (txt "0") (txt "12.5") (txt "1e-12") (txt "2e-13") (txt "0.001", txt "0") (txt "16") (txt "0", txt "0")
  (txt "1e-9") (txt "1e-8") (txt "1") (txt "1") (txt "0") (txt "0") (txt "16") [(txt "1.5e-01", txt "-2"); (txt "1", txt "0")].
Definition given_up : path_data := PathData false (txt "1") (txt "1") (txt "0") (txt "0") (txt "0") (txt "0", txt "0") (txt "0") (txt "0", txt "0")
  (txt "0") (txt "0") (txt "0") (txt "1") (txt "3") (txt "-1") (txt "16") [].
