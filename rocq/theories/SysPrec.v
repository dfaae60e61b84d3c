(** Which precision a system, its variables and its straight-line program work in, and which multiple precision points
    it agrees to be evaluated at.
    Models the precision members and checks of core/include/bertini2/system/system.hpp, core/src/system/system.cpp,
    core/src/function_tree/symbols/variable.cpp and the straight-line programs.

    Simplifications.  Only precisions are kept of numbers: the values are SysState.v (C47 to C50) and the precision of numbers
    inside of trees is C71.  Checks are compiled in: BERTINI_DISABLE_PRECISION_CHECKS and NDEBUG are not defined.  The
    variables of a system are in the order of Variables() (C15).  Variables are shared between systems, as they are
    shared pointers.  The precision of the patch is C19. *)
From Coq Require Import List Arith Lia Bool.
Import ListNotations.

(** system.hpp:65-69 *)
Inductive method := Tree | Program.

(** straight_line_program.hpp:599: the precision of a program, and whether it was made by the compiler *)
Record program := { p_prec : nat; p_compiled : bool }.

(** straight_line_program.hpp:599: before compilation the precision is that of doubles *)
Definition no_program : program := {| p_prec := 16; p_compiled := false |}.

(** system.hpp:1743-1787, the members which have to do with precision *)
Record psystem := {
  vars : list nat;
  path : option nat;
  prec : nat;
  assume : bool;
  differentiated : bool;
  how : method;
  slp : program }.

(** The default precision, the precision of the value of each variable object, and the systems *)
Record pworld := {
  default : nat;
  vprec : nat -> nat;
  sys : nat -> psystem }.

Definition set_sys (w : pworld) (s : nat) (y : psystem) : pworld :=
  {| default := default w; vprec := vprec w; sys := fun i => if i =? s then y else sys w i |}.

(** system.hpp:111 and 1782-1785 *)
Definition new_system (d : nat) : psystem :=
  {| vars := []; path := None; prec := d; assume := false; differentiated := false; how := Program; slp := no_program |}.

(** system.cpp:323-358 with straight_line_program.cpp:738-742: a program is compiled in default precision *)
Definition differentiate (d : nat) (y : psystem) : psystem :=
  {| vars := vars y; path := path y; prec := prec y; assume := assume y; differentiated := true; how := how y;
     slp := match how y with Tree => slp y | Program => {| p_prec := d; p_compiled := true |} end |}.

Definition differentiate_if_needed (d : nat) (y : psystem) : psystem :=
  if differentiated y then y else differentiate d y.

Definition memb (v : nat) (l : list nat) : bool := existsb (Nat.eqb v) l.

(** system.cpp:238-320; straight_line_program.cpp:68-90 for the program; variable.cpp:170-174 for variables.  The
    functions reach no further variables: they are in the variables and the path variable of the system. *)
Definition set_precision (w : pworld) (s p : nat) : pworld :=
  let y := sys w s in
  if assume y && (p =? prec y) then w
  else
    let touched v := memb v (vars y) || match path y with Some t => v =? t | None => false end in
    let w' := {| default := default w; vprec := fun v => if touched v then p else vprec w v; sys := sys w |} in
    set_sys w' s
      {| vars := vars y; path := path y; prec := p; assume := assume y; differentiated := differentiated y; how := how y;
         slp := if differentiated y
                then match how y with
                     | Tree => slp y
                     | Program => {| p_prec := p; p_compiled := p_compiled (slp y) |}
                     end
                else slp y |}.

(** system.hpp:1519-1522: the argument is not used *)
Definition assume_uniform (y : psystem) (val : bool) : psystem :=
  {| vars := vars y; path := path y; prec := prec y; assume := false; differentiated := differentiated y; how := how y;
     slp := slp y |}.

(** system.hpp:1583-1586 *)
Definition set_method (y : psystem) (m : method) : psystem :=
  {| vars := vars y; path := path y; prec := prec y; assume := assume y; differentiated := differentiated y; how := m;
     slp := slp y |}.

(** system.cpp:581-627: a group is added, whose variables come last here *)
Definition add_variables (y : psystem) (vs : list nat) : psystem :=
  {| vars := vars y ++ vs; path := path y; prec := prec y; assume := assume y; differentiated := false; how := how y;
     slp := slp y |}.

(** system.cpp:740-745 *)
Definition add_path_variable (y : psystem) (v : nat) : psystem :=
  {| vars := vars y; path := Some v; prec := prec y; assume := assume y; differentiated := false; how := how y;
     slp := slp y |}.

(** system.cpp:685-705 *)
Definition add_function (y : psystem) : psystem :=
  {| vars := vars y; path := path y; prec := prec y; assume := assume y; differentiated := false; how := how y;
     slp := slp y |}.

(** system.cpp:92-148: everything but the program *)
Definition copy_system (y : psystem) : psystem :=
  {| vars := vars y; path := path y; prec := prec y; assume := assume y; differentiated := differentiated y; how := how y;
     slp := no_program |}.

(** What an evaluation does: it finishes; it throws for one of the reasons the code gives; an assertion fails; or it
    reads memory which is not there. *)
Inductive verdict :=
  | Evaluated
  | WrongLength
  | TimeMissing
  | NoPathVariable
  | EmptyPoint
  | PointPrecision
  | VariablePrecision
  | ProgramPrecision
  | TimePrecision
  | ProgramWithoutTime
  | Assertion
  | Undefined.

(** variable.cpp:50-60 in the loop of system.hpp:988-990 *)
Definition values_fit (w : pworld) (vs x : list nat) : bool :=
  forallb (fun a => vprec w (fst a) =? snd a) (combine vs x).

(** system.hpp:962-1000 for multiple precision; a point is the list of the precisions of its coordinates.
    eigen_extensions.hpp:291-298: the precision of a point is that of its first coordinate;
    straight_line_program.hpp:504-524. *)
Definition set_variables (w : pworld) (s : nat) (x : list nat) : pworld * option verdict :=
  let y := sys w s in
  if negb (length x =? length (vars y)) then (w, Some WrongLength)
  else match x, vars y with
  | [], _ | _, [] => (w, Some EmptyPoint)
  | a :: _, v :: _ =>
      if negb (a =? prec y) then (w, Some PointPrecision)
      else if negb (vprec w v =? prec y) then (w, Some VariablePrecision)
      else
        let y := differentiate_if_needed (default w) y in
        let w' := set_sys w s y in
        match how y with
        | Tree => if values_fit w (vars y) x then (w', None) else (w', Some Assertion)
        | Program => if a =? p_prec (slp y) then (w', None) else (w', Some ProgramPrecision)
        end
  end.

(** system.hpp:1013-1033 with straight_line_program.hpp:534-553.  A program which was not compiled has no path
    variable; a compiled one has one if the system had, which is not changed without compiling again. *)
Definition set_path_variable (w : pworld) (s t : nat) : pworld * option verdict :=
  let y := sys w s in
  match path y with
  | None => (w, Some NoPathVariable)
  | Some v =>
      let y := differentiate_if_needed (default w) y in
      let w' := set_sys w s y in
      if negb (vprec w v =? t) then (w', Some Assertion)
      else match how y with
      | Tree => (w', None)
      | Program =>
          if negb (t =? 16) && negb (t =? p_prec (slp y)) then (w', Some TimePrecision)
          else if p_compiled (slp y) then (w', None) else (w', Some ProgramWithoutTime)
      end
  end.

(** Running a program which was not compiled reads from an empty memory. *)
Definition run (w : pworld) (s : nat) : pworld * verdict :=
  let y := sys w s in
  match how y with
  | Tree => (w, Evaluated)
  | Program => (w, if p_compiled (slp y) then Evaluated else Undefined)
  end.

(** system.hpp:339-357 without time, 401-418 with time *)
Definition evaluate (w : pworld) (s : nat) (x : list nat) (t : option nat) : pworld * verdict :=
  let y := sys w s in
  if negb (length x =? length (vars y)) then (w, WrongLength)
  else match t, path y with
  | None, Some _ => (w, TimeMissing)
  | Some _, None => (w, NoPathVariable)
  | None, None =>
      match set_variables w s x with
      | (w', Some e) => (w', e)
      | (w', None) => run w' s
      end
  | Some a, Some _ =>
      match set_variables w s x with
      | (w', Some e) => (w', e)
      | (w', None) =>
          match set_path_variable w' s a with
          | (w'', Some e) => (w'', e)
          | (w'', None) => run w'' s
          end
      end
  end.

(** What a program using the library does *)
Inductive op :=
  | DefaultPrecision (p : nat)
  | NewVariable (v : nat)
  | NewSystem (s : nat)
  | AddVariables (s : nat) (vs : list nat)
  | AddPathVariable (s v : nat)
  | AddFunction (s : nat)
  | SetPrecision (s p : nat)
  | SetMethod (s : nat) (m : method)
  | AssumeUniform (s : nat) (val : bool)
  | Copy (s o : nat)
  | Evaluate (s : nat) (x : list nat) (t : option nat).

(** A new variable has a random value in default precision: variable.cpp:37-47 *)
Definition step (w : pworld) (o : op) : pworld :=
  match o with
  | DefaultPrecision p => {| default := p; vprec := vprec w; sys := sys w |}
  | NewVariable v =>
      {| default := default w; vprec := fun i => if i =? v then default w else vprec w i; sys := sys w |}
  | NewSystem s => set_sys w s (new_system (default w))
  | AddVariables s vs => set_sys w s (add_variables (sys w s) vs)
  | AddPathVariable s v => set_sys w s (add_path_variable (sys w s) v)
  | AddFunction s => set_sys w s (add_function (sys w s))
  | SetPrecision s p => set_precision w s p
  | SetMethod s m => set_sys w s (set_method (sys w s) m)
  | AssumeUniform s val => set_sys w s (assume_uniform (sys w s) val)
  | Copy s o => set_sys w s (copy_system (sys w o))
  | Evaluate s x t => fst (evaluate w s x t)
  end.

Definition runs (l : list op) (w : pworld) : pworld := fold_left step l w.

Definition start (d : nat) : pworld := {| default := d; vprec := fun _ => d; sys := fun _ => new_system d |}.

(** Specification. *)

(** The point [x] and time [t] have the precision [p] throughout, as many coordinates as the system has variables, at
    least one, and a time exactly if the system has a path variable. *)
Definition point_of (p : nat) (y : psystem) (x : list nat) (t : option nat) : Prop :=
  length x = length (vars y) /\ vars y <> [] /\ Forall (eq p) x /\
  match path y with Some _ => t = Some p | None => t = None end.

(** Steps which leave system [s] in precision [p] alone: anything which neither changes precisions to something else,
    nor the variables of [s], nor its evaluation method. *)
Definition keeps (s p : nat) (o : op) : Prop :=
  match o with
  | DefaultPrecision q => q = p
  | NewSystem s' | AddVariables s' _ | AddPathVariable s' _ | SetMethod s' _ | Copy s' _ => s' <> s
  | SetPrecision _ q => q = p
  | NewVariable _ | AddFunction _ | AssumeUniform _ _ | Evaluate _ _ _ => True
  end.

(** Since the evaluation method of [s] was last set, or [s] was last made a copy, something was added to [s]. *)
Definition settled (s : nat) (l : list op) : bool :=
  fold_left (fun b o =>
    match o with
    | SetMethod s' _ | Copy s' _ => if s' =? s then false else b
    | NewSystem s' | AddVariables s' _ | AddPathVariable s' _ | AddFunction s' => if s' =? s then true else b
    | _ => b
    end) l true.

(** Invariants. *)

Lemma memb_in v l : memb v l = true <-> In v l.
Proof.
  unfold memb. rewrite existsb_exists. split.
  - intros (x & I & E). apply Nat.eqb_eq in E. now subst.
  - intros I. exists v. split; [exact I|apply Nat.eqb_refl].
Qed.

Lemma sys_set w s y i : sys (set_sys w s y) i = if i =? s then y else sys w i.
Proof. reflexivity. Qed.

(** Evaluation only ever differentiates the system. *)
Lemma set_variables_state w s x :
  let w' := fst (set_variables w s x) in
  default w' = default w /\ (forall v, vprec w' v = vprec w v) /\
  (forall i, i <> s -> sys w' i = sys w i) /\
  (sys w' s = sys w s \/ sys w' s = differentiate_if_needed (default w) (sys w s)).
Proof.
  unfold set_variables.
  assert (Same : default w = default w /\ (forall v, vprec w v = vprec w v) /\ (forall i, i <> s -> sys w i = sys w i) /\
                 (sys w s = sys w s \/ sys w s = differentiate_if_needed (default w) (sys w s))) by (repeat split; auto).
  assert (Other : forall e : option verdict,
    let w' := fst (set_sys w s (differentiate_if_needed (default w) (sys w s)), e) in
    default w' = default w /\ (forall v, vprec w' v = vprec w v) /\ (forall i, i <> s -> sys w' i = sys w i) /\
    (sys w' s = sys w s \/ sys w' s = differentiate_if_needed (default w) (sys w s))).
  { intros e. cbn. repeat split; auto.
    - intros i N. apply Nat.eqb_neq in N. now rewrite N.
    - right. now rewrite Nat.eqb_refl. }
  destruct (negb (length x =? length (vars (sys w s)))); [exact Same|].
  destruct x as [|a x]; [exact Same|]. destruct (vars (sys w s)) as [|v vs]; [exact Same|].
  destruct (negb (a =? prec (sys w s))); [exact Same|].
  destruct (negb (vprec w v =? prec (sys w s))); [exact Same|]. cbv zeta.
  destruct (how (differentiate_if_needed (default w) (sys w s))).
  - destruct (values_fit _ _ _); apply Other.
  - destruct (a =? _); apply Other.
Qed.

Lemma set_path_state w s t :
  let w' := fst (set_path_variable w s t) in
  default w' = default w /\ (forall v, vprec w' v = vprec w v) /\
  (forall i, i <> s -> sys w' i = sys w i) /\
  (sys w' s = sys w s \/ sys w' s = differentiate_if_needed (default w) (sys w s)).
Proof.
  unfold set_path_variable.
  assert (Other : forall e : option verdict,
    let w' := fst (set_sys w s (differentiate_if_needed (default w) (sys w s)), e) in
    default w' = default w /\ (forall v, vprec w' v = vprec w v) /\ (forall i, i <> s -> sys w' i = sys w i) /\
    (sys w' s = sys w s \/ sys w' s = differentiate_if_needed (default w) (sys w s))).
  { intros e. cbn. repeat split; auto.
    - intros i N. apply Nat.eqb_neq in N. now rewrite N.
    - right. now rewrite Nat.eqb_refl. }
  destruct (path (sys w s)); [|cbn; repeat split; auto]. cbv zeta.
  destruct (negb _); [apply Other|]. destruct (how _); [apply Other|].
  destruct (_ && _); [apply Other|]. destruct (p_compiled _); apply Other.
Qed.

Lemma needed_twice d y : differentiate_if_needed d (differentiate_if_needed d y) = differentiate_if_needed d y.
Proof. unfold differentiate_if_needed. destruct (differentiated y) eqn:E; [now rewrite E|reflexivity]. Qed.

Lemma run_state w s : fst (run w s) = w.
Proof. unfold run. now destruct (how (sys w s)). Qed.

Lemma evaluate_state w s x t :
  let w' := fst (evaluate w s x t) in
  default w' = default w /\ (forall v, vprec w' v = vprec w v) /\
  (forall i, i <> s -> sys w' i = sys w i) /\
  (sys w' s = sys w s \/ sys w' s = differentiate_if_needed (default w) (sys w s)).
Proof.
  unfold evaluate.
  destruct (negb (length x =? length (vars (sys w s)))); [cbn; repeat split; auto|].
  pose proof (set_variables_state w s x) as V. destruct (set_variables w s x) as [w1 e1] eqn:E1. cbn in V.
  destruct V as (V1 & V2 & V3 & V4).
  destruct t as [a|]; destruct (path (sys w s)); try (cbn; repeat split; auto; fail).
  - destruct e1 as [e1|]; [cbn; repeat split; auto|].
    pose proof (set_path_state w1 s a) as P. destruct (set_path_variable w1 s a) as [w2 e2] eqn:E2. cbn in P.
    destruct P as (P1 & P2 & P3 & P4).
    assert (G : default w2 = default w /\ (forall v, vprec w2 v = vprec w v) /\ (forall i, i <> s -> sys w2 i = sys w i) /\
                (sys w2 s = sys w s \/ sys w2 s = differentiate_if_needed (default w) (sys w s))).
    { split; [congruence|]. split; [intros v; rewrite P2; apply V2|]. split; [intros i N; rewrite P3, V3; auto|].
      rewrite V1 in P4. destruct P4 as [P4|P4]; rewrite P4; [exact V4|].
      destruct V4 as [V4|V4]; rewrite V4; [now right|]. right. apply needed_twice. }
    destruct e2; cbv zeta; [exact G|]. rewrite run_state. exact G.
  - destruct e1; cbv zeta; [cbn; repeat split; auto|]. rewrite run_state. repeat split; auto.
Qed.

(** The assumption of uniform precision can not be switched on. *)
Lemma assume_off d l s : assume (sys (runs l (start d)) s) = false.
Proof.
  unfold runs.
  assert (G : forall w, (forall i, assume (sys w i) = false) -> forall i, assume (sys (fold_left step l w) i) = false).
  { induction l as [|o l IH]; intros w H i; [apply H|]. cbn. apply IH. clear i IH. intros i.
    destruct o; cbn [step]; try (rewrite sys_set; destruct (i =? _); [|apply H]); cbn; auto.
    - unfold set_precision. rewrite H. cbn [andb]. rewrite sys_set. destruct (i =? _); cbn; auto.
    - pose proof (evaluate_state w s0 x t) as (_ & _ & A & B). destruct (Nat.eq_dec i s0) as [->|N].
      + destruct B as [B|B]; rewrite B; [apply H|]. unfold differentiate_if_needed, differentiate.
        destruct (differentiated (sys w s0)); cbn; apply H.
      + rewrite A by exact N. apply H. }
  apply G. reflexivity.
Qed.

(** System [s] works in precision [p]. *)
Definition at_precision (s p : nat) (w : pworld) : Prop :=
  default w = p /\ prec (sys w s) = p /\ assume (sys w s) = false /\
  (forall v, In v (vars (sys w s)) -> vprec w v = p) /\
  (forall v, path (sys w s) = Some v -> vprec w v = p) /\
  (differentiated (sys w s) = true -> how (sys w s) = Program ->
   p_prec (slp (sys w s)) = p /\ p_compiled (slp (sys w s)) = true).

Lemma needed_fields d y : let y' := differentiate_if_needed d y in
  vars y' = vars y /\ path y' = path y /\ prec y' = prec y /\ assume y' = assume y /\ how y' = how y /\
  differentiated y' = true /\
  slp y' = if differentiated y then slp y else match how y with Tree => slp y | Program => {| p_prec := d; p_compiled := true |} end.
Proof. unfold differentiate_if_needed. destruct (differentiated y) eqn:E; cbn; repeat split; auto. Qed.

Lemma at_evaluates s p w x t :
  at_precision s p w -> point_of p (sys w s) x t -> snd (evaluate w s x t) = Evaluated.
Proof.
  intros (D & P & A & V & T & S) (L & N & U & Q). unfold evaluate. rewrite L, Nat.eqb_refl. cbn [negb].
  assert (SV : set_variables w s x = (set_sys w s (differentiate_if_needed (default w) (sys w s)), None)).
  { unfold set_variables. rewrite L, Nat.eqb_refl. cbn [negb].
    destruct x as [|a x]; [destruct (vars (sys w s)); [congruence|discriminate L]|].
    destruct (vars (sys w s)) as [|v vs] eqn:Vs; [congruence|].
    inversion U as [|? ? Ea Ux]. subst a. rewrite P, Nat.eqb_refl, (V v), Nat.eqb_refl by now left. cbn [negb]. cbv zeta.
    destruct (needed_fields (default w) (sys w s)) as (F1 & _ & _ & _ & F5 & _ & F7).
    destruct (how (differentiate_if_needed (default w) (sys w s))) eqn:M.
    - rewrite F1, Vs.
      replace (values_fit w (v :: vs) (p :: x)) with true; [reflexivity|]. symmetry. unfold values_fit. apply forallb_forall.
      intros [i b] I. cbn. pose proof (in_combine_l _ _ _ _ I) as I1. pose proof (in_combine_r _ _ _ _ I) as I2.
      apply Nat.eqb_eq. rewrite (V i I1). rewrite Forall_forall in U. exact (U b I2).
    - rewrite F7. destruct (differentiated (sys w s)) eqn:Df.
      + destruct (S eq_refl) as [S1 S2]; [congruence|]. rewrite S1, Nat.eqb_refl. reflexivity.
      + rewrite <- F5. cbn. rewrite D, Nat.eqb_refl. reflexivity. }
  set (y' := differentiate_if_needed (default w) (sys w s)) in *.
  destruct (needed_fields (default w) (sys w s)) as (F1 & F2 & _ & _ & F5 & F6 & F7). fold y' in F1, F2, F5, F6, F7.
  assert (NT : differentiate_if_needed (default w) y' = y') by apply needed_twice.
  assert (C : how y' = Program -> p_prec (slp y') = p /\ p_compiled (slp y') = true).
  { intros M. rewrite F7. destruct (differentiated (sys w s)) eqn:Df.
    - apply S; [reflexivity|congruence].
    - rewrite <- F5, M. cbn. auto. }
  destruct (path (sys w s)) as [v|] eqn:Pa; subst t; rewrite SV.
  - unfold set_path_variable. rewrite sys_set, Nat.eqb_refl, F2. cbv zeta. change (default (set_sys w s y')) with (default w).
    change (vprec (set_sys w s y') v) with (vprec w v).
    rewrite NT, (T v eq_refl), Nat.eqb_refl. cbn [negb].
    destruct (how y') eqn:M.
    + unfold run. rewrite sys_set, Nat.eqb_refl, M. reflexivity.
    + destruct (C eq_refl) as [C1 C2]. rewrite C1, Nat.eqb_refl. cbn [negb]. rewrite andb_false_r, C2.
      unfold run. rewrite sys_set, Nat.eqb_refl, M, C2. reflexivity.
  - unfold run. rewrite sys_set, Nat.eqb_refl. destruct (how y') eqn:M; [reflexivity|].
    destruct (C eq_refl) as [_ C2]. rewrite C2. reflexivity.
Qed.

Lemma step_keeps s p w o : at_precision s p w -> (forall i, assume (sys w i) = false) -> keeps s p o ->
  at_precision s p (step w o).
Proof.
  intros (D & P & A & V & T & S) AA K. destruct o; cbn [step]; cbn in K.
  - subst. repeat split; auto; apply S; auto.
  - unfold at_precision. cbn. repeat split; auto.
    + intros i I. destruct (i =? v); auto.
    + intros i I. destruct (i =? v); auto.
    + apply S; auto.
    + apply S; auto.
  - apply Nat.eqb_neq in K. rewrite Nat.eqb_sym in K. unfold at_precision. rewrite sys_set, K. repeat split; auto; apply S; auto.
  - apply Nat.eqb_neq in K. rewrite Nat.eqb_sym in K. unfold at_precision. rewrite sys_set, K. repeat split; auto; apply S; auto.
  - apply Nat.eqb_neq in K. rewrite Nat.eqb_sym in K. unfold at_precision. rewrite sys_set, K. repeat split; auto; apply S; auto.
  - unfold at_precision. rewrite sys_set. destruct (s =? s0) eqn:E.
    + apply Nat.eqb_eq in E. subst s0. cbn. repeat split; auto; discriminate.
    + repeat split; auto; apply S; auto.
  - subst p0. unfold set_precision. rewrite AA. cbn [andb]. unfold at_precision. rewrite sys_set.
    destruct (s =? s0) eqn:E.
    + apply Nat.eqb_eq in E. subst s0. cbn. split; [exact D|]. split; [reflexivity|]. split; [auto|].
      split; [intros v I; destruct (memb v _ || _); auto|]. split; [intros v I; destruct (memb v _ || _); auto|].
      intros Df M. rewrite Df, M. cbn. split; [reflexivity|]. apply S; auto.
    + cbn. split; [exact D|]. split; [exact P|]. split; [exact A|].
      split; [intros v I; destruct (memb v _ || _); auto|]. split; [intros v I; destruct (memb v _ || _); auto|exact S].
  - apply Nat.eqb_neq in K. rewrite Nat.eqb_sym in K. unfold at_precision. rewrite sys_set, K. repeat split; auto; apply S; auto.
  - unfold at_precision. rewrite sys_set. destruct (s =? s0) eqn:E.
    + apply Nat.eqb_eq in E. subst s0. cbn. repeat split; auto; apply S; auto.
    + repeat split; auto; apply S; auto.
  - apply Nat.eqb_neq in K. rewrite Nat.eqb_sym in K. unfold at_precision. rewrite sys_set, K. repeat split; auto; apply S; auto.
  - destruct (evaluate_state w s0 x t) as (E1 & E2 & E3 & E4). unfold at_precision. rewrite E1.
    destruct (Nat.eq_dec s s0) as [<-|N].
    + assert (Q : sys (fst (evaluate w s x t)) s = sys w s \/
                  sys (fst (evaluate w s x t)) s = differentiate_if_needed (default w) (sys w s)) by exact E4.
      destruct Q as [Q|Q]; rewrite Q.
      * split; [exact D|]. split; [exact P|]. split; [exact A|]. split; [intros; rewrite E2; auto|].
        split; [intros; rewrite E2; auto|exact S].
      * destruct (needed_fields (default w) (sys w s)) as (F1 & F2 & F3 & F4 & F5 & F6 & F7).
        rewrite F1, F2, F3, F4, F5, F7. split; [exact D|]. split; [exact P|]. split; [exact A|].
        split; [intros; rewrite E2; auto|]. split; [intros; rewrite E2; auto|].
        intros _ M. destruct (differentiated (sys w s)) eqn:Df; [apply S; auto|]. rewrite M. cbn. auto.
    + rewrite (E3 s N). split; [exact D|]. split; [exact P|]. split; [exact A|]. split; [intros; rewrite E2; auto|].
      split; [intros; rewrite E2; auto|exact S].
Qed.

Lemma runs_app l l' w : runs (l ++ l') w = runs l' (runs l w).
Proof. apply fold_left_app. Qed.

Lemma runs_keep d s p l l' : at_precision s p (runs l (start d)) -> Forall (keeps s p) l' ->
  at_precision s p (runs (l ++ l') (start d)).
Proof.
  intros H K. revert l H. induction K as [|o l' K1 K2 IH]; intros l H.
  - now rewrite app_nil_r.
  - replace (l ++ o :: l') with ((l ++ [o]) ++ l') by now rewrite <- app_assoc. apply IH.
    rewrite runs_app. cbn. apply step_keeps; auto. intros i. apply assume_off.
Qed.

(** A compiled program if there has to be one. *)
Lemma settled_compiled d l s : settled s l = true ->
  differentiated (sys (runs l (start d)) s) = true -> how (sys (runs l (start d)) s) = Program ->
  p_compiled (slp (sys (runs l (start d)) s)) = true.
Proof.
  unfold settled, runs. induction l as [|o l IH] using rev_ind; [discriminate|].
  rewrite !fold_left_app. cbn [fold_left]. set (w := fold_left step l (start d)) in *.
  set (b := fold_left _ l true) in *.
  destruct o; cbn [step]; try (intros K; exact (IH K)); try (rewrite !sys_set, (Nat.eqb_sym s); destruct (_ =? s) eqn:Es; [apply Nat.eqb_eq in Es; subst|exact IH]);
    try discriminate; cbn; try (intros _; discriminate).
  - intros K. specialize (IH K). unfold set_precision. destruct (_ && _); [exact IH|]. rewrite !sys_set.
    destruct (s =? s0) eqn:E; [|exact IH]. apply Nat.eqb_eq in E. subst s0. cbn. intros Df M. rewrite Df, M. cbn. auto.
  - auto.
  - intros K. specialize (IH K). pose proof (evaluate_state w s0 x t) as (_ & _ & A & B). destruct (Nat.eq_dec s s0) as [<-|N].
    + destruct B as [B|B]; rewrite B; [exact IH|].
      destruct (needed_fields (default w) (sys w s)) as (_ & _ & _ & _ & F5 & _ & F7). rewrite F5, F7.
      intros _ M. destruct (differentiated (sys w s)) eqn:Df; [apply IH; auto|]. now rewrite M.
    + rewrite A by exact N. exact IH.
Qed.

Lemma switched d l s p :
  (differentiated (sys (runs l (start d)) s) = true -> how (sys (runs l (start d)) s) = Program ->
   p_compiled (slp (sys (runs l (start d)) s)) = true) ->
  at_precision s p (runs (l ++ [DefaultPrecision p; SetPrecision s p]) (start d)).
Proof.
  intros C. rewrite runs_app. set (w := runs l (start d)) in *. cbn. unfold set_precision. cbn [sys].
  assert (A : assume (sys w s) = false) by apply assume_off. rewrite A. cbn [andb]. unfold at_precision.
  rewrite sys_set, Nat.eqb_refl. cbn. split; [reflexivity|]. split; [reflexivity|]. split; [auto|].
  split; [|split].
  - intros v I. apply memb_in in I. now rewrite I.
  - intros v E. rewrite E, Nat.eqb_refl, orb_true_r. reflexivity.
  - intros Df M. rewrite Df, M. cbn. split; [reflexivity|]. now apply C.
Qed.

(** After DefaultPrecision(p) and precision(p), whatever happened before, evaluation at points of precision p works. *)
Lemma evaluates_after d l l' s p x t :
  settled s l = true -> Forall (keeps s p) l' ->
  let w := runs (l ++ [DefaultPrecision p; SetPrecision s p] ++ l') (start d) in
  point_of p (sys w s) x t -> snd (evaluate w s x t) = Evaluated.
Proof.
  intros P K. cbv zeta. rewrite app_assoc. intros Q. eapply at_evaluates; [|exact Q]. apply runs_keep; [|exact K].
  apply switched. apply settled_compiled. exact P.
Qed.

(** Whatever the history, a successful evaluation was at a point whose first coordinate has the precision of the
    system. *)
Lemma evaluated_first w s x t : snd (evaluate w s x t) = Evaluated ->
  exists a x' v vs, x = a :: x' /\ vars (sys w s) = v :: vs /\ length x' = length vs /\
    a = prec (sys w s) /\ vprec w v = prec (sys w s) /\
    (match t, path (sys w s) with Some b, Some u => vprec w u = b | None, None => True | _, _ => False end) /\
    match how (sys w s) with
    | Tree => Forall2 (fun u b => vprec w u = b) (vars (sys w s)) x
    | Program => a = if differentiated (sys w s) then p_prec (slp (sys w s)) else default w
    end.
Proof.
  unfold evaluate. destruct (length x =? length (vars (sys w s))) eqn:L; [|discriminate]. cbn [negb].
  intros H.
  assert (E : exists w', set_variables w s x = (w', None)).
  { destruct t, (path (sys w s)); try discriminate H; destruct (set_variables w s x) as [w1 [e|]] eqn:E; try (now exists w1);
      exfalso; cbn in H; subst e; clear -E;
      unfold set_variables in E; repeat (match type of E with context [if ?b then _ else _] => destruct b end; try discriminate E);
      destruct x; try discriminate E; destruct (vars (sys w s)); try discriminate E;
      repeat (match type of E with context [if ?b then _ else _] => destruct b end; try discriminate E);
      cbv zeta in E; destruct (how _); try discriminate E;
      repeat (match type of E with context [if ?b then _ else _] => destruct b end; try discriminate E). }
  destruct E as [w' E]. rewrite E in H.
  assert (EW : w' = set_sys w s (differentiate_if_needed (default w) (sys w s)) /\
    exists a x' v vs, x = a :: x' /\ vars (sys w s) = v :: vs /\ length x' = length vs /\ a = prec (sys w s) /\
      vprec w v = prec (sys w s) /\
      match how (sys w s) with
      | Tree => Forall2 (fun u b => vprec w u = b) (vars (sys w s)) x
      | Program => a = if differentiated (sys w s) then p_prec (slp (sys w s)) else default w
      end).
  { unfold set_variables in E. rewrite L in E. cbn [negb] in E. destruct x as [|a x]; [discriminate E|].
    destruct (vars (sys w s)) as [|v vs] eqn:Vs; [discriminate E|].
    destruct (a =? prec (sys w s)) eqn:E1; [|discriminate E]. destruct (vprec w v =? prec (sys w s)) eqn:E2; [|discriminate E].
    cbn [negb] in E. cbv zeta in E.
    destruct (needed_fields (default w) (sys w s)) as (F1 & _ & _ & _ & F5 & _ & F7).
    rewrite F5, F1, F7, Vs in E. destruct (how (sys w s)) eqn:M.
    - destruct (values_fit w (v :: vs) (a :: x)) eqn:Fi; [|discriminate E]. injection E as <-. split; [reflexivity|].
      exists a, x, v, vs. apply Nat.eqb_eq in E1, E2, L. cbn in L. repeat split; auto.
      unfold values_fit in Fi. clear -Fi L.
      assert (L' : length (a :: x) = length (v :: vs)) by (cbn; lia). clear L. revert L' Fi.
      generalize (a :: x), (v :: vs). intros m n. revert m. induction n as [|u n IH]; intros [|b m] L; try discriminate L; [constructor|].
      cbn. intros G. apply andb_true_iff in G. destruct G as [G1 G2]. apply Nat.eqb_eq in G1. constructor; [exact G1|].
      apply IH; [cbn in L; lia|exact G2].
    - destruct (a =? _) eqn:E3 in E; [|discriminate E]. injection E as <-. split; [reflexivity|].
      apply Nat.eqb_eq in E1, E2, L, E3. cbn in L. exists a, x, v, vs. repeat split; auto.
      rewrite E3. destruct (differentiated (sys w s)); reflexivity. }
  destruct EW as (-> & a & x' & v & vs & H1 & H2 & H3 & H4 & H5 & H6). exists a, x', v, vs.
  split; [exact H1|]. split; [exact H2|]. split; [exact H3|]. split; [exact H4|]. split; [exact H5|]. split; [|exact H6].
  destruct t as [b|], (path (sys w s)) as [u|] eqn:Pa; try discriminate H; [|exact I].
  set (w' := set_sys w s (differentiate_if_needed (default w) (sys w s))) in *.
  unfold set_path_variable in H. unfold w' at 1 in H. rewrite sys_set, Nat.eqb_refl in H.
  destruct (needed_fields (default w) (sys w s)) as (_ & F2 & _). rewrite F2, Pa in H. cbv zeta in H.
  change (vprec w' u) with (vprec w u) in H. destruct (vprec w u =? b) eqn:Q; [now apply Nat.eqb_eq in Q|]. discriminate H.
Qed.

(** Witnesses. *)

(** One variable, system 0 with a function. *)
Definition made : list op := [NewVariable 0; NewSystem 0; AddVariables 0 [0]; AddFunction 0].

(** precision(40) alone: the program is compiled in the default precision 30 *)
Lemma only_system : snd (evaluate (runs (made ++ [SetPrecision 0 40]) (start 30)) 0 [40] None) = ProgramPrecision.
Proof. reflexivity. Qed.

(** two systems with a common variable *)
Definition sharing : list op :=
  made ++ [NewSystem 1; AddVariables 1 [0]; AddFunction 1; Evaluate 1 [30] None; DefaultPrecision 40; SetPrecision 0 40;
           DefaultPrecision 30].
Lemma shared : snd (evaluate (runs sharing (start 30)) 1 [30] None) = VariablePrecision.
Proof. reflexivity. Qed.

(** An evaluation changes no precision and nothing visible of any system. *)
Lemma evaluation_keeps w s x t : let w' := fst (evaluate w s x t) in
  default w' = default w /\ (forall v, vprec w' v = vprec w v) /\
  forall i, prec (sys w' i) = prec (sys w i) /\ vars (sys w' i) = vars (sys w i) /\ path (sys w' i) = path (sys w i) /\
    how (sys w' i) = how (sys w i) /\ (differentiated (sys w i) = true -> sys w' i = sys w i).
Proof.
  destruct (evaluate_state w s x t) as (A & B & C & D). split; [exact A|]. split; [exact B|]. intros i.
  destruct (Nat.eq_dec i s) as [->|N]; [|rewrite C by exact N; repeat split; auto].
  destruct D as [D|D]; rewrite D; [repeat split; auto|].
  destruct (needed_fields (default w) (sys w s)) as (F1 & F2 & F3 & F4 & F5 & F6 & F7). repeat split; auto.
  intros E. unfold differentiate_if_needed. now rewrite E.
Qed.

(** precision(p) reaches the system, its variables and its path variable, and nothing else. *)
Lemma precision_reaches d l s p : let w := runs l (start d) in let w' := step w (SetPrecision s p) in
  prec (sys w' s) = p /\
  (forall v, In v (vars (sys w s)) \/ path (sys w s) = Some v -> vprec w' v = p) /\
  (forall v, ~ In v (vars (sys w s)) -> path (sys w s) <> Some v -> vprec w' v = vprec w v) /\
  default w' = default w /\ forall i, i <> s -> sys w' i = sys w i.
Proof.
  cbv zeta. cbn [step]. unfold set_precision. rewrite assume_off. cbn [andb]. set (w := runs l (start d)).
  split; [now rewrite sys_set, Nat.eqb_refl|]. cbn. split; [|split; [|split]].
  - intros v [I|E]; [apply memb_in in I; now rewrite I|]. now rewrite E, Nat.eqb_refl, orb_true_r.
  - intros v N1 N2. destruct (memb v (vars (sys w s))) eqn:M; [apply memb_in in M; contradiction|]. cbn.
    destruct (path (sys w s)) as [t|]; [|reflexivity]. destruct (v =? t) eqn:E; [|reflexivity].
    apply Nat.eqb_eq in E. subst. contradiction.
  - reflexivity.
  - intros i N. apply Nat.eqb_neq in N. now rewrite N.
Qed.

(** no point is good for a system without variables *)
Lemma no_variables w s x t : vars (sys w s) = [] -> snd (evaluate w s x t) <> Evaluated.
Proof. intros E H. apply evaluated_first in H. destruct H as (a & x' & v & vs & _ & V & _). congruence. Qed.

(** a homotopy (0) and a target (1) with common variables, tracked in changing precision *)
Definition tracked : list op :=
  [NewVariable 0; NewVariable 1; NewVariable 9; NewSystem 1; AddVariables 1 [0; 1]; AddFunction 1; Evaluate 1 [16; 16] None;
   NewSystem 0; AddVariables 0 [0; 1]; AddPathVariable 0 9; SetMethod 0 Tree; AddFunction 0; Evaluate 0 [16; 16] (Some 16);
   DefaultPrecision 30; SetPrecision 0 30; Evaluate 0 [30; 30] (Some 30)].
