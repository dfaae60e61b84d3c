(** C96: The data files say unambiguously what was found on the paths which reached the endgame. *)
From Coq Require Import String Ascii List Arith ZArith Lia Bool.
From Verif Require Import Chars NumLit NumText Parser DataFiles.
Import ListNotations.
Local Open Scope char_scope.
Local Open Scope list_scope.

(** Two raw data files with the same text have the same number of variables, the same target and the same data about the same paths,
    in the same order.  [path_ok]: numbers are written without spaces and ends of lines. *)
Theorem C96_raw_unambiguous : forall n n' ds ds' target target', Forall path_ok ds -> Forall path_ok ds' ->
  raw_data n ds target = raw_data n' ds' target' ->
  n = n' /\ map in_raw (filter started ds) = map in_raw (filter started ds') /\ target = target'.
Proof.
  intros n n' ds ds' target target' H H' E. apply (f_equal file_lines) in E. rewrite !raw_file_lines in E by assumption. cbn [app] in E.
  destruct (cons_inj _ _ _ _ _ E) as [E1 E2]. destruct (cons_inj _ _ _ _ _ E2) as [_ E3]. clear E E2. apply print_Z_inj in E1.
  destruct (blocks_inj raw_lines raw_cut raw_head _ _ _ _ (filter_ok _ H) (filter_ok _ H') E3) as [F R]. destruct (cons_inj _ _ _ _ _ R) as [_ R'].
  split; [lia|]. split; [exact (forall2_map _ raw_lines in_raw _ _ (filter_ok _ H) (filter_ok _ H') raw_part F)|].
  apply file_lines_inj in R'. apply app_inv_tail in R'. exact R'.
Qed.
Print Assumptions C96_raw_unambiguous.

(** The same for the main data file; the names of the variables are also in it, and the texts of the three systems one after the other. *)
Theorem C96_main_unambiguous : forall n n' vars vars' ds ds' target target' start start' homotopy homotopy', Forall path_ok ds -> Forall path_ok ds' ->
  Forall (fun v => ~ In " " v /\ ~ In newline v) vars -> Forall (fun v => ~ In " " v /\ ~ In newline v) vars' ->
  main_data n vars ds target start homotopy = main_data n' vars' ds' target' start' homotopy' ->
  n = n' /\ vars = vars' /\ map in_main (filter started ds) = map in_main (filter started ds') /\
  target ++ [newline; newline] ++ start ++ [newline; newline] ++ homotopy = target' ++ [newline; newline] ++ start' ++ [newline; newline] ++ homotopy'.
Proof.
  intros n n' vars vars' ds ds' target target' start start' homotopy homotopy' H H' V V' E. apply (f_equal file_lines) in E.
  assert (N : forall vs, Forall (fun v => ~ In " " v /\ ~ In newline v) vs -> Forall (fun v => ~ In newline v) vs) by (intros vs K; eapply Forall_impl; [|exact K]; cbn; tauto).
  assert (S : forall vs, Forall (fun v => ~ In " " v /\ ~ In newline v) vs -> Forall (fun v => ~ In " " v) vs) by (intros vs K; eapply Forall_impl; [|exact K]; cbn; tauto).
  rewrite !main_file_lines in E by auto. cbn [app] in E.
  destruct (cons_inj _ _ _ _ _ E) as [E1 E2]. destruct (cons_inj _ _ _ _ _ E2) as [E3 E4]. destruct (cons_inj _ _ _ _ _ E4) as [_ E5]. clear E E2 E4. apply print_Z_inj in E1.
  destruct (blocks_inj main_lines main_cut main_head _ _ _ _ (filter_ok _ H) (filter_ok _ H') E5) as [F R]. destruct (cons_inj _ _ _ _ _ R) as [_ R'].
  split; [lia|]. split; [apply names_inj; auto|]. split; [exact (forall2_map _ main_lines in_main _ _ (filter_ok _ H) (filter_ok _ H') main_part F)|].
  apply file_lines_inj in R'. apply (app_inv_tail [newline; newline]). cbn [app]. rewrite <- !app_assoc. cbn [app]. rewrite <- !app_assoc. exact R'.
Qed.
Print Assumptions C96_main_unambiguous.

(** Where things are, if every end point written has as many coordinates as there are variables: in the raw data file the first line
    is the number of variables, the block of the k-th path written begins at line 2 + k (n + 12) (counted from 0) with the path index and the precision, and the
    coordinates follow, *)
Theorem C96_raw_places : forall n ds target k d, Forall path_ok ds -> Forall (fun d => length (point d) = n) ds ->
  nth_error (filter started ds) k = Some d ->
  let line := nth_error (file_lines (raw_data n ds target)) in
  let first := 2 + k * (n + 12) in
  line 0 = Some (print_Z (Z.of_nat n)) /\ line first = Some (index d) /\ line (first + 1) = Some (digits d) /\
  (forall i c, nth_error (point d) i = Some c -> line (first + 2 + i) = Some (fst c ++ " " :: snd c)) /\
  line (first + n + 2) = Some (function_residual d) /\ line (first + n + 3) = Some (condition d) /\ line (first + n + 4) = Some (newton_residual d) /\
  line (first + n + 5) = Some (fst (final_time d) ++ " " :: snd (final_time d)) /\ line (first + n + 6) = Some (accuracy d) /\
  line (first + n + 7) = Some (fst (first_increase d) ++ " " :: snd (first_increase d)) /\ line (first + n + 8) = Some (cycles d) /\ line (first + n + 9) = Some (during d).
Proof.
  intros n ds target k d H Hn Hk line first. unfold line. rewrite raw_file_lines by exact H.
  assert (Ld : length (point d) = n) by (rewrite Forall_forall in Hn; apply Hn; apply nth_error_In in Hk; apply filter_In in Hk; apply Hk).
  assert (B : forall j, j < n + 12 -> nth_error ([print_Z (Z.of_nat n); []] ++ flat_map raw_lines (filter started ds) ++ [[]; []] ++ file_lines (target ++ [newline; newline])) (first + j)
    = nth_error (raw_lines d) j).
  { intros j Hj. unfold first. cbn [app Nat.add nth_error]. apply block_at; [|exact Hk|exact Hj]. apply Forall_forall. intros e He. apply raw_length.
    rewrite Forall_forall in Hn. apply Hn. apply filter_In in He. apply He. }
  assert (L : forall j r, nth_error (map complex_text (point d) ++ r) (n + j) = nth_error r j).
  { intros j r. rewrite nth_error_app2 by (rewrite map_length; lia). rewrite map_length. f_equal. lia. }
  split; [reflexivity|]. split; [replace first with (first + 0) by lia; rewrite B by lia; reflexivity|]. split; [rewrite B by lia; reflexivity|].
  split; [intros i c Hc; assert (Hi : i < n) by (rewrite <- Ld; apply nth_error_Some; congruence); rewrite <- Nat.add_assoc, B by lia; unfold raw_lines; cbn [app Nat.add nth_error];
    rewrite nth_error_app1 by (rewrite map_length; lia); rewrite nth_error_map, Hc; reflexivity|].
  repeat split; (match goal with |- nth_error _ (?x + n + ?m) = _ => replace (x + n + m) with (x + (2 + (n + (m - 2)))) by lia end;
    rewrite B by lia; unfold raw_lines; cbn [app Nat.add nth_error]; rewrite L; reflexivity).
Qed.
Print Assumptions C96_raw_places.

(** and in the main data file it begins at line 3 + k (n + 16), with the path index, the solution index, the condition number, and so on; the multiplicity
    is the line 11 of the block, the two success codes are line 12, and the coordinates begin after an empty line. *)
Theorem C96_main_places : forall n vars ds target start homotopy k d, Forall path_ok ds -> Forall (fun d => length (point d) = n) ds ->
  Forall (fun v => ~ In newline v) vars -> nth_error (filter started ds) k = Some d ->
  let line := nth_error (file_lines (main_data n vars ds target start homotopy)) in
  let first := 3 + k * (n + 16) in
  line 0 = Some (print_Z (Z.of_nat n)) /\ line 1 = Some (concat (map (fun v => v ++ [" "]) vars)) /\
  line (first + 0) = Some (index d) /\ line (first + 1) = Some (solution d) /\ line (first + 2) = Some (condition d) /\
  line (first + 3) = Some (function_residual d) /\ line (first + 4) = Some (newton_residual d) /\
  line (first + 5) = Some (fst (final_time d) ++ " " :: snd (final_time d)) /\ line (first + 6) = Some (max_precision d) /\
  line (first + 7) = Some (fst (first_increase d) ++ " " :: snd (first_increase d)) /\ line (first + 8) = Some (accuracy d) /\ line (first + 9) = Some (accuracy_user d) /\
  line (first + 10) = Some (cycles d) /\ line (first + 11) = Some (multiplicity d) /\ line (first + 12) = Some (before d ++ " " :: during d) /\
  (forall i c, nth_error (point d) i = Some c -> line (first + 14 + i) = Some (fst c ++ " " :: snd c)).
Proof.
  intros n vars ds target start homotopy k d H Hn V Hk line first. unfold line. rewrite main_file_lines by assumption.
  assert (Ld : length (point d) = n) by (rewrite Forall_forall in Hn; apply Hn; apply nth_error_In in Hk; apply filter_In in Hk; apply Hk).
  set (rest := file_lines _).
  assert (B : forall j, j < n + 16 -> nth_error ([print_Z (Z.of_nat n); concat (map (fun v => v ++ [" "]) vars); []] ++ flat_map main_lines (filter started ds) ++ [[]; []] ++ rest) (first + j)
    = nth_error (main_lines d) j).
  { intros j Hj. unfold first. cbn [app Nat.add nth_error]. apply block_at; [|exact Hk|exact Hj]. apply Forall_forall. intros e He. apply main_length.
    rewrite Forall_forall in Hn. apply Hn. apply filter_In in He. apply He. }
  split; [reflexivity|]. split; [reflexivity|].
  do 13 (split; [rewrite B by lia; reflexivity|]).
  intros i c Hc. assert (Hi : i < n) by (rewrite <- Ld; apply nth_error_Some; congruence). rewrite <- Nat.add_assoc, B by lia. unfold main_lines. cbn [app Nat.add nth_error].
  rewrite nth_error_app1 by (rewrite map_length; lia). rewrite nth_error_map, Hc. reflexivity.
Qed.
Print Assumptions C96_main_places.

(** A coordinate line is read back by the library's own parser of complex numbers, provided no exponent has a plus sign (C69). *)
Theorem C96_coordinates_read_partial : forall n ds target k d i re im p m b e v m' b' e' v', Forall path_ok ds -> Forall (fun d => length (point d) = n) ds ->
  nth_error (filter started ds) k = Some d -> nth_error (point d) i = Some (re, im) ->
  sign m -> mantissa b -> exponent e v -> sign m' -> mantissa b' -> exponent e' v' -> re = m ++ b ++ e -> im = m' ++ b' ++ e' ->
  exists line q, nth_error (file_lines (raw_data n ds target)) (4 + k * (n + 12) + i) = Some line /\
    parse_complex p line = Some (m ++ b ++ v, m' ++ b' ++ v', q).
Proof.
  intros n ds target k d i re im p m b e v m' b' e' v' H Hn Hk Hi Sm Mb Ee Sm' Mb' Ee' -> ->.
  destruct (C96_raw_places n ds target k d H Hn Hk) as (_ & _ & _ & P & _). specialize (P i _ Hi). cbn [fst snd] in P.
  eexists _, _. split; [replace (4 + k * (n + 12) + i) with (2 + k * (n + 12) + 2 + i) by lia; exact P|]. apply complex_back; assumption.
Qed.
Print Assumptions C96_coordinates_read_partial.

(** Paths which did not reach the endgame leave no trace in either file. *)
Theorem C96_unstarted_missing_refuted : forall n vars ds d ds' target start homotopy, started d = false ->
  raw_data n (ds ++ d :: ds') target = raw_data n (ds ++ ds') target /\
  main_data n vars (ds ++ d :: ds') target start homotopy = main_data n vars (ds ++ ds') target start homotopy.
Proof.
  intros n vars ds d ds' target start homotopy E. assert (F : filter started (ds ++ d :: ds') = filter started (ds ++ ds')) by (rewrite !filter_app; cbn [filter]; rewrite E; reflexivity).
  unfold raw_data, main_data. rewrite F. split; reflexivity.
Qed.
Print Assumptions C96_unstarted_missing_refuted.

(** One path of two was finished. *)
Example C96_met : Forall path_ok [given_up; finished] /\ filter started [given_up; finished] = [finished] /\ length (point finished) = 2 /\
  nth_error (file_lines (raw_data 2 [given_up; finished] (txt "x^2-1"))) 4 = Some (txt "1.5e-01 -2") /\
  parse_complex 16 (txt "1.5e-01 -2") = Some (txt "1.5e-01", txt "-2", 20).
Proof.
  assert (T : forall t : text, forallb (fun c => negb (Ascii.eqb c " ") && negb (Ascii.eqb c newline)) t = true -> t <> [] -> number_text t).
  { intros t H N. rewrite forallb_forall in H. split; [exact N|]. split; intro K; apply H in K; rewrite Ascii.eqb_refl in K; cbn in K; [discriminate|]. rewrite andb_false_r in K. discriminate. }
  split; [|split; [reflexivity|split; [reflexivity|split; reflexivity]]].
  repeat constructor; cbn; try (apply T; [reflexivity|discriminate]); intros; try discriminate; try (intuition discriminate).
Qed.
