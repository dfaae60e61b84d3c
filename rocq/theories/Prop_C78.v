(** C78: the precision a system works in. *)
From Coq Require Import List Arith Bool.
From Verif Require Import SysPrec.
Import ListNotations.

(** After DefaultPrecision(p) and precision(p) of a system, whatever was done before, the system can be evaluated at every
    point and time of precision p; and so on as long as no other precision is set and the system's variables and
    evaluation method stay.  Before, the evaluation method must not have been set, nor the system be made a copy, without
    something being added to it later. *)
Theorem C78_evaluates_partial : forall (d : nat) (before after : list op) (s p : nat) (x : list nat) (t : option nat),
  settled s before = true -> Forall (keeps s p) after ->
  let w := runs (before ++ [DefaultPrecision p; SetPrecision s p] ++ after) (start d) in
  point_of p (sys w s) x t -> snd (evaluate w s x t) = Evaluated.
Proof. exact evaluates_after. Qed.
Print Assumptions C78_evaluates_partial.

(** A homotopy and its target, which share two variables: after a history of tracking in 16 and 30 digits both are
    switched to 50 digits, the target is evaluated and used, and the homotopy evaluated at a point and a time. *)
Example C78_case : let after := [SetPrecision 1 50; Evaluate 1 [50; 50] None; AddFunction 0; NewSystem 2; NewVariable 7] in
  let w := runs (tracked ++ [DefaultPrecision 50; SetPrecision 0 50] ++ after) (start 16) in
  settled 0 tracked = true /\ Forall (keeps 0 50) after /\ point_of 50 (sys w 0) [50; 50] (Some 50) /\
  how (sys w 0) = Tree /\ how (sys w 1) = Program /\ differentiated (sys w 1) = true.
Proof.
  cbv zeta. split; [reflexivity|]. split; [repeat constructor; discriminate|].
  split; [split; [reflexivity|split; [discriminate|split; [repeat constructor|reflexivity]]]|]. repeat split.
Qed.

(** An evaluation which succeeds was given a point whose first coordinate has the precision of the system, as has the
    first variable.  The time has the precision of the path variable.  With the function tree each coordinate has the
    precision of its variable; with the program the first has that of the program. *)
Theorem C78_checked : forall (w : pworld) (s : nat) (x : list nat) (t : option nat),
  snd (evaluate w s x t) = Evaluated ->
  exists a x' v vs, x = a :: x' /\ vars (sys w s) = v :: vs /\ length x' = length vs /\
    a = prec (sys w s) /\ vprec w v = prec (sys w s) /\
    (match t, path (sys w s) with Some b, Some u => vprec w u = b | None, None => True | _, _ => False end) /\
    match how (sys w s) with
    | Tree => Forall2 (fun u b => vprec w u = b) (vars (sys w s)) x
    | Program => a = if differentiated (sys w s) then p_prec (slp (sys w s)) else default w
    end.
Proof. exact evaluated_first. Qed.
Print Assumptions C78_checked.

Example C78_checked_case : let w := runs tracked (start 16) in
  snd (evaluate w 0 [30; 30] (Some 30)) = Evaluated /\ snd (evaluate w 0 [16; 16] (Some 16)) = PointPrecision /\
  snd (evaluate w 0 [30; 30] (Some 16)) = Assertion /\ snd (evaluate w 0 [30; 30] None) = TimeMissing /\
  snd (evaluate w 0 [30] (Some 30)) = WrongLength /\ snd (evaluate w 1 [30; 30] (Some 30)) = NoPathVariable.
Proof. repeat split. Qed.

(** precision(p) reaches the system, its variables and its path variable, in every history; other variables, other
    systems and the default precision stay. *)
Theorem C78_precision_reaches : forall (d : nat) (l : list op) (s p : nat),
  let w := runs l (start d) in let w' := step w (SetPrecision s p) in
  prec (sys w' s) = p /\
  (forall v, In v (vars (sys w s)) \/ path (sys w s) = Some v -> vprec w' v = p) /\
  (forall v, ~ In v (vars (sys w s)) -> path (sys w s) <> Some v -> vprec w' v = vprec w v) /\
  default w' = default w /\ forall i, i <> s -> sys w' i = sys w i.
Proof. exact precision_reaches. Qed.
Print Assumptions C78_precision_reaches.

(** Evaluating changes no precision. *)
Theorem C78_evaluation_keeps : forall (w : pworld) (s : nat) (x : list nat) (t : option nat),
  let w' := fst (evaluate w s x t) in
  default w' = default w /\ (forall v, vprec w' v = vprec w v) /\
  forall i, prec (sys w' i) = prec (sys w i) /\ vars (sys w' i) = vars (sys w i) /\ path (sys w' i) = path (sys w i) /\
    how (sys w' i) = how (sys w i) /\ (differentiated (sys w i) = true -> sys w' i = sys w i).
Proof. exact evaluation_keeps. Qed.
Print Assumptions C78_evaluation_keeps.

(** precision(p) alone is not enough: a program compiled later has the default precision, and the system throws at
    points of its own precision. *)
Theorem C78_without_default_refuted : exists (l : list op) (s p : nat), settled s l = true /\
  let w := runs (l ++ [SetPrecision s p]) (start 30) in
  prec (sys w s) = p /\ point_of p (sys w s) [p] None /\ snd (evaluate w s [p] None) = ProgramPrecision.
Proof.
  exists made, 0, 40. split; [reflexivity|]. cbv zeta. split; [reflexivity|]. split; [|exact only_system].
  split; [reflexivity|]. split; [discriminate|]. split; [repeat constructor|reflexivity].
Qed.
Print Assumptions C78_without_default_refuted.

(** Another system with a common variable spoils it: system 1 could be evaluated, and nothing was done to it. *)
Theorem C78_shared_refuted : exists (l l' : list op) (s : nat),
  snd (evaluate (runs l (start 30)) s [30] None) = Evaluated /\
  Forall (fun o => match o with SetPrecision i _ => i <> s | DefaultPrecision _ => True | _ => False end) l' /\
  let w := runs (l ++ l') (start 30) in
  default w = 30 /\ prec (sys w s) = 30 /\ snd (evaluate w s [30] None) = VariablePrecision.
Proof.
  exists (made ++ [NewSystem 1; AddVariables 1 [0]; AddFunction 1; Evaluate 1 [30] None]),
    [DefaultPrecision 40; SetPrecision 0 40; DefaultPrecision 30], 1.
  split; [reflexivity|]. split; [repeat constructor; discriminate|]. repeat split.
Qed.
Print Assumptions C78_shared_refuted.

(** Only the first coordinate and the first variable are looked at by a program: other coordinates and other variables
    may have any precision. *)
Theorem C78_uniform_refuted : forall q r : nat, exists (l : list op) (v : nat), let w := runs l (start 30) in
  In v (vars (sys w 0)) /\ prec (sys w 0) = 30 /\ vprec w v = r /\ snd (evaluate w 0 [30; q] None) = Evaluated.
Proof.
  intros q r. exists (made ++ [DefaultPrecision r; NewVariable 1; AddVariables 0 [1]; DefaultPrecision 30]), 1.
  cbv zeta. split; [now right; left|]. repeat split.
Qed.
Print Assumptions C78_uniform_refuted.

(** With the function tree an assertion fails instead. *)
Theorem C78_added_refuted : exists l : list op, let w := runs l (start 30) in
  default w = 30 /\ prec (sys w 0) = 30 /\ point_of 30 (sys w 0) [30; 30] None /\
  snd (evaluate w 0 [30; 30] None) = Assertion.
Proof.
  exists (made ++ [SetMethod 0 Tree; DefaultPrecision 40; NewVariable 1; AddVariables 0 [1]; DefaultPrecision 30]).
  cbv zeta. split; [reflexivity|]. split; [reflexivity|]. split; [|reflexivity].
  split; [reflexivity|]. split; [discriminate|]. split; [repeat constructor|reflexivity].
Qed.
Print Assumptions C78_added_refuted.

(** Setting the evaluation method of a system in use, or copying it, leaves it without a program: it throws, or in the
    precision of doubles reads from an empty memory. *)
Theorem C78_method_refuted :
  (let l := made ++ [SetMethod 0 Tree; Evaluate 0 [30] None; SetMethod 0 Program] in
   snd (evaluate (runs l (start 30)) 0 [30] None) = ProgramPrecision) /\
  (let l := made ++ [SetMethod 0 Tree; Evaluate 0 [16] None; SetMethod 0 Program] in
   snd (evaluate (runs l (start 16)) 0 [16] None) = Undefined) /\
  (let l := made ++ [Evaluate 0 [30] None; Copy 1 0; DefaultPrecision 40; SetPrecision 1 40] in
   snd (evaluate (runs l (start 30)) 1 [40] None) = Undefined).
Proof. repeat split. Qed.
Print Assumptions C78_method_refuted.

(** PleaseAssumeUniformPrecision has no effect. *)
Theorem C78_assume_refuted : forall (d : nat) (l : list op) (s i : nat),
  assume (sys (runs (l ++ [AssumeUniform s true]) (start d)) i) = false.
Proof. intros d l s i. apply assume_off. Qed.
Print Assumptions C78_assume_refuted.

(** A system without variables is evaluated nowhere. *)
Theorem C78_no_variables_refuted : forall (w : pworld) (s : nat) (x : list nat) (t : option nat),
  vars (sys w s) = [] -> snd (evaluate w s x t) <> Evaluated.
Proof. exact no_variables. Qed.
Print Assumptions C78_no_variables_refuted.
