(** C92: from the text of a system to its solutions.  The specification is in the second part of TextSolve.v:
    [square_text] says which texts are treated, [solves_text] that carrying out the statements of the text at a point gives
    every function the value 0. *)
From Coq Require Import String Ascii List Arith Lia Bool ZArith.
From Verif Require Import Base Poly Chars NumLit Expr Degree Homog HomogSys Patch ComplexField StartIndex DegreeAll TotalDegree SolveSetup SolveSetupEx PowNode
  Parser ParserSpec ParserEx Names SysParser SysParserSpec SysParserProof SysValue TextSolve TextSolveEx.
Import ListNotations.
Local Open Scope nat_scope.
Local Open Scope fld_scope.
Local Opaque CF.

(** The parser accepts the text, and the solver accepts the system the parser has made, whatever the random numbers.
    [as_int] is the test for integral exponents, which is to recognise the positive integers. *)
Theorem C92_set_up_partial : forall fs rho flt special place fresh num p s d, funs_ok fs -> (forall n, (0 < n)%Z -> as_int fs (fZ n) = Some n) ->
  square_text num p s d -> places place fresh (variable_names p) ->
  exists y n t, parse_system num s = Accepted y /\ (forall m, (n <= m)%nat -> target_of flt special place m y = Some t) /\
    forall draw rand g, exists z, system_setup fs rho fresh draw rand g t = Value z.
Proof.
  intros fs rho flt special place fresh num p s d Hfs Hint H Pl. destruct (text_target fs flt special place num p s d H) as (y & n & t & Hy & Ht).
  exists y, n, t. split; [exact Hy|]. split; [exact Ht|]. intros draw rand g.
  exact (text_setup fs Hfs Hint rho flt special place fresh num p s d H Pl y n t Hy (Ht n (Nat.le_refl n)) draw rand g).
Qed.
Print Assumptions C92_set_up_partial.

(** The number of paths is the product of the degrees of the functions in the text. *)
Theorem C92_number_partial : forall fs rho flt special place fresh num p s d, funs_ok fs -> (forall n, (0 < n)%Z -> as_int fs (fZ n) = Some n) ->
  square_text num p s d -> places place fresh (variable_names p) ->
  forall y n t draw rand g z, parse_system num s = Accepted y -> target_of flt special place n y = Some t ->
  system_setup fs rho fresh draw rand g t = Value z ->
  num_start_points (degrees (SolveSetup.start z)) = fold_right Z.mul 1%Z (map (fun f => Z.of_nat (d f)) (function_names p)).
Proof.
  intros fs rho flt special place fresh num p s d Hfs Hint H Pl y n t draw rand g z Hy Ht Hz.
  exact (text_number fs Hfs Hint rho flt special place fresh num p s d H Pl y n t Hy Ht draw rand g z Hz).
Qed.
Print Assumptions C92_number_partial.

(** The start points are the zeros of the homotopy at t = 1 on the patch, each of one index. *)
Theorem C92_starts_partial : forall fs rho flt special place fresh num p s d, funs_ok fs -> (forall n, (0 < n)%Z -> as_int fs (fZ n) = Some n) ->
  square_text num p s d -> places place fresh (variable_names p) ->
  forall y n t draw rand g z, parse_system num s = Accepted y -> target_of flt special place n y = Some t ->
  system_setup fs rho fresh draw rand g t = Value z ->
  let patch := [map (draw 0%nat) (seq 0 (S (length (variable_names p))))] in
  (forall i x, (0 <= i < num_start_points (degrees (SolveSetup.start z)))%Z -> start_point (SolveSetup.start z) i = Value x ->
     length x = S (length (variable_names p)) /\ on_patch patch x /\ zero_of fs rho z x 1) /\
  (g <> 0 -> (forall k, rand k <> 0) -> forall x, length x = S (length (variable_names p)) -> on_patch patch x -> zero_of fs rho z x 1 ->
     exists! i, (0 <= i < num_start_points (degrees (SolveSetup.start z)))%Z /\ start_point (SolveSetup.start z) i = Value x).
Proof.
  intros fs rho flt special place fresh num p s d Hfs Hint H Pl y n t draw rand g z Hy Ht Hz patch. split.
  - exact (text_starts fs Hfs Hint rho flt special place fresh num p s d H Pl y n t Hy Ht draw rand g z Hz).
  - exact (text_all_starts fs Hfs Hint rho flt special place fresh num p s d H Pl y n t Hy Ht draw rand g z Hz).
Qed.
Print Assumptions C92_starts_partial.

(** A finite point is a zero of the homotopy at t = 0 exactly if, divided by its first coordinate, it solves the
    equations of the text. *)
Theorem C92_ends_partial : forall fs rho flt special place fresh num p s d, funs_ok fs -> (forall n, (0 < n)%Z -> as_int fs (fZ n) = Some n) ->
  square_text num p s d -> places place fresh (variable_names p) ->
  forall y n t draw rand g z, parse_system num s = Accepted y -> target_of flt special place n y = Some t ->
  system_setup fs rho fresh draw rand g t = Value z ->
  forall h xs, h <> 0 -> length xs = length (variable_names p) ->
  (zero_of fs rho z (h :: xs) 0 <-> solves_text fs flt special p (map (fun a => a / h) xs)).
Proof.
  intros fs rho flt special place fresh num p s d Hfs Hint H Pl y n t draw rand g z Hy Ht Hz.
  exact (text_ends fs Hfs Hint rho flt special place fresh num p s d H Pl y n t Hy Ht draw rand g z Hz).
Qed.
Print Assumptions C92_ends_partial.

(** No solution of the text is missing, unless the patch sends it to infinity. *)
Theorem C92_every_solution_partial : forall fs rho flt special place fresh num p s d, funs_ok fs -> (forall n, (0 < n)%Z -> as_int fs (fZ n) = Some n) ->
  square_text num p s d -> places place fresh (variable_names p) ->
  forall y n t draw rand g z, parse_system num s = Accepted y -> target_of flt special place n y = Some t ->
  system_setup fs rho fresh draw rand g t = Value z ->
  forall a, length a = length (variable_names p) -> solves_text fs flt special p a ->
  inner (map (draw 0%nat) (seq 0 (S (length (variable_names p))))) (1 :: a) <> 0 ->
  exists! x, length x = S (length (variable_names p)) /\ on_patch [map (draw 0%nat) (seq 0 (S (length (variable_names p))))] x /\ zero_of fs rho z x 0 /\
    exists h xs, x = h :: xs /\ h <> 0 /\ map (fun u => u / h) xs = a.
Proof.
  intros fs rho flt special place fresh num p s d Hfs Hint H Pl y n t draw rand g z Hy Ht Hz.
  exact (text_every_solution fs Hfs Hint rho flt special place fresh num p s d H Pl y n t Hy Ht draw rand g z Hz).
Qed.
Print Assumptions C92_every_solution_partial.

(** All hypotheses are met by the complex numbers with integral powers and [conic_text]: s = x^2; f = x*y-1; g = s+y, which
    has the solution (-1, -1) and four paths. *)
Example C92_met : funs_ok cf_funs /\ (forall n, (0 < n)%Z -> as_int cf_funs (fZ n) = Some n) /\
  square_text dec conic_prog conic_text conic_degrees /\ places conic_place fresh10 (variable_names conic_prog) /\
  variable_names conic_prog = [txt "x"; txt "y"] /\ function_names conic_prog = [txt "f"; txt "g"] /\
  fold_right Z.mul 1%Z (map (fun f => Z.of_nat (conic_degrees f)) (function_names conic_prog)) = 4%Z /\
  (forall flt special, solves_text cf_funs flt special conic_prog [- (1); - (1)]) /\
  inner [1; 1; 1] (1 :: [- (1); - (1)] : list CF) <> 0.
Proof.
  split; [exact cf_funs_ok|]. split; [intros n _; exact (cf_as_int_fZ n)|]. split; [exact conic_square|]. split; [exact conic_places|].
  split; [reflexivity|]. split; [reflexivity|]. split; [reflexivity|]. split; [exact conic_text_solution|exact conic_patch].
Qed.

(** Not for every polynomial text: f = (x+y)^2-1; g = x-y is accepted and set up, but the homotopy has at t = 0 the zero
    (2, 2, 2), and (1, 1) solves nothing. *)
Theorem C92_square_refuted : forall fs rho flt special, funs_ok fs -> (forall n, (0 < n)%Z -> as_int fs (fZ n) = Some n) ->
  exists p y t draw, parse_system dec (txt "variable_group x, y; function f, g; f = (x+y)^2-1; g = x-y;") = Accepted y /\ describes p y /\
    (forall n, target_of flt special conic_place (S n) y = Some t) /\ places conic_place fresh10 (variable_names p) /\
    variable_names p = [txt "x"; txt "y"] /\
    forall rand g, exists z h xs, system_setup fs rho fresh10 draw rand g t = Value z /\ h <> 0 /\ length xs = 2%nat /\
      on_patch [map (draw 0%nat) (seq 0 3)] (h :: xs) /\ zero_of fs rho z (h :: xs) 0 /\
      ~ solves_text fs flt special p (map (fun a => a / h) xs).
Proof.
  intros fs rho flt special Hfs Hint. destruct squared_parsed as (y & Hy & Hd & Ht). exists squared_prog, y, squared_target, stray_draw.
  split; [exact Hy|]. split; [exact Hd|]. split; [exact (Ht flt special)|]. split; [exact conic_places|]. split; [reflexivity|]. intros rand g.
  destruct (squared_set_up fs Hfs Hint rho rand g) as (z & Ez & Zz). exists z, (1 + 1), [1 + 1; 1 + 1]. split; [exact Ez|]. split; [exact two_ne|].
  split; [reflexivity|]. split; [exact stray_on_patch|]. split; [exact Zz|]. exact (squared_no_solution fs Hfs flt special).
Qed.
Print Assumptions C92_square_refuted.

(** And for some the set-up throws: f = (x-1)^2-4, with the solutions 3 and -1, is homogenized to (x-h)^2-4h^2, but AutoPatch does not
    accept this, since the degree of (x-h)^2 is taken to be 4. *)
Theorem C92_throws_refuted : forall fs rho flt special, funs_ok fs -> (forall n, (0 < n)%Z -> as_int fs (fZ n) = Some n) ->
  exists p y t, parse_system dec (txt "variable_group x; function f; f = (x-1)^2-4;") = Accepted y /\ describes p y /\
    (forall n, target_of flt special conic_place (S n) y = Some t) /\ places conic_place fresh10 (variable_names p) /\
    variable_names p = [txt "x"] /\ (forall a, solves_text fs flt special p [a] <-> a = 1 + 1 + 1 \/ a = - (1)) /\
    forall draw rand g, system_setup fs rho fresh10 draw rand g t = Throws.
Proof.
  intros fs rho flt special Hfs Hint. destruct shifted_parsed as (y & Hy & Hd & Ht). exists shifted_prog, y, shifted_target.
  split; [exact Hy|]. split; [exact Hd|]. split; [exact (Ht flt special)|]. split; [exact shifted_places|]. split; [reflexivity|].
  split; [exact (shifted_solutions fs Hfs flt special)|]. exact (shifted_set_up fs Hint rho).
Qed.
Print Assumptions C92_throws_refuted.
