(** Histories of systems: concrete cases for SysState.v and SysArith.v. *)
From Coq Require Import ZArith List Arith Lia Bool.
From Verif Require Import Base Expr Diff Homog StartIndex SysState SysArith.
Import ListNotations.

(** Function 0 is x^2, function 1 is x, function 2 is 5x, for the variable x = 0. *)
Definition ex_heap (k : nat) : expr QcF :=
  match k with
  | 0 => IPow (Var 0) 2
  | 1 => Var 0
  | _ => Mul [(true, Num KInteger (qc 5 1)); (true, Var 0)]
  end.
Definition ex_start : world (F := QcF) := start ex_heap (fun _ => qc 0 1).
Definition keep (e : expr QcF) : expr QcF := e.

(** What [Eval] and [Jacobian] of system [s] return after a history; [None] if the history is undefined *)
Definition eval_after (mp : bool) (l : list op) (s : nat) (x : list QcF) : option (outcome (list (entry QcF))) :=
  option_map (fun w => match eval_system qc_funs keep mp w s x None with Value (_, v) => Value v | Throws => Throws | UB => UB end)
    (run qc_funs keep mp ex_start l).
Definition jacobian_after (mp : bool) (l : list op) (s : nat) (x : list QcF) : option (outcome (list (list (entry QcF)))) :=
  option_map (fun w => match jacobian_system qc_funs keep mp w s x None with Value (_, v) => Value v | Throws => Throws | UB => UB end)
    (run qc_funs keep mp ex_start l).
(** What they should return *)
Definition values_after (mp : bool) (l : list op) (s : nat) (x : list QcF) : option (list (entry QcF)) :=
  option_map (fun w => function_values qc_funs w s x None) (run qc_funs keep mp ex_start l).
Definition derivatives_after (mp : bool) (l : list op) (s : nat) (x : list QcF) : option (list (list (entry QcF))) :=
  option_map (fun w => jacobian_values qc_funs w s x None) (run qc_funs keep mp ex_start l).

(** System 0 has the function x^2, system 1 the function x. *)
Definition two_systems : list (op (F := QcF)) :=
  [AddFunction 0 0; AddVariables 0 [0]; AddFunction 1 1; AddVariables 1 [0]].
Definition three : list QcF := [qc 3 1].
Definition two : list QcF := [qc 2 1].

Definition known (z : Z) : entry QcF := Known (Some (qc z 1)).

(** ** C50 *)

Lemma plus_assign_stale :
  jacobian_after false (two_systems ++ [Eval 0 two None; PlusAssign 0 1]) 0 three = Some (Value [[known 6]]) /\
  derivatives_after false (two_systems ++ [Eval 0 two None; PlusAssign 0 1]) 0 three = Some [[known 7]].
Proof. vm_compute. auto. Qed.

Lemma times_assign_stale :
  jacobian_after false (two_systems ++ [Eval 0 two None; TimesAssign 0 (Num KInteger (qc 2 1))]) 0 three = Some (Value [[known 6]]) /\
  derivatives_after false (two_systems ++ [Eval 0 two None; TimesAssign 0 (Num KInteger (qc 2 1))]) 0 three = Some [[known 12]].
Proof. vm_compute. auto. Qed.

(** System 2 has the functions x^2 and x, in decreasing order of degree. *)
Definition to_reorder : list (op (F := QcF)) :=
  [AddFunction 2 0; AddFunction 2 1; AddVariables 2 [0]; Eval 2 two None; ReorderFunctions 2 [1; 0]].
Lemma reorder_stale :
  jacobian_after false to_reorder 2 three = Some (Value [[known 6]; [known 1]]) /\
  derivatives_after false to_reorder 2 three = Some [[known 1]; [known 6]].
Proof. vm_compute. auto. Qed.

Lemma set_root_stale :
  jacobian_after false (two_systems ++ [Eval 0 two None; SetRoot 0 (Var 0)]) 0 three = Some (Value [[known 6]]) /\
  derivatives_after false (two_systems ++ [Eval 0 two None; SetRoot 0 (Var 0)]) 0 three = Some [[known 1]].
Proof. vm_compute. auto. Qed.

(** ** C49 *)

(** Choosing the trees after an evaluation by the program: the values are those at the point used before (2). *)
Lemma to_trees_stale :
  eval_after false (two_systems ++ [Eval 0 two None; SetEvalMethod 0 FunctionTree]) 0 three = Some (Value [known 4]) /\
  values_after false (two_systems ++ [Eval 0 two None; SetEvalMethod 0 FunctionTree]) 0 three = Some [known 9].
Proof. vm_compute. auto. Qed.

(** Choosing the program after an evaluation by trees: nothing is computed. *)
Lemma to_program_garbage :
  eval_after false (two_systems ++ [SetEvalMethod 0 FunctionTree; Eval 0 two None; SetEvalMethod 0 SLP]) 0 three = Some (Value [Garbage]).
Proof. vm_compute. reflexivity. Qed.

(** Choosing another way of differentiating after the system was differentiated: the derivatives do not exist. *)
Lemma deriv_method_undefined :
  jacobian_after false (two_systems ++ [SetEvalMethod 0 FunctionTree; Eval 0 two None; SetDerivMethod 0 JacobianNode]) 0 three = Some UB.
Proof. vm_compute. reflexivity. Qed.

(** Evaluation by trees in multiple precision reads the memory of a program which does not exist. *)
Lemma trees_mp_undefined :
  eval_after true (two_systems ++ [SetEvalMethod 0 FunctionTree]) 0 three = Some UB.
Proof. vm_compute. reflexivity. Qed.

(** ** C48 *)

Lemma copy_garbage :
  eval_after false (two_systems ++ [Eval 0 two None]) 0 three = Some (Value [known 9]) /\
  eval_after false (two_systems ++ [Eval 0 two None; CopyConstruct 3 0]) 3 three = Some (Value [Garbage]) /\
  eval_after false (two_systems ++ [Eval 0 two None; MoveConstruct 3 0]) 3 three = Some (Value [Garbage]).
Proof. vm_compute. auto. Qed.

(** After a swap each system evaluates the functions it had before. *)
Lemma swap_wrong :
  eval_after false (two_systems ++ [Eval 0 two None; Eval 1 two None; Swap 0 1]) 0 three = Some (Value [known 9]) /\
  values_after false (two_systems ++ [Eval 0 two None; Eval 1 two None; Swap 0 1]) 0 three = Some [known 3].
Proof. vm_compute. auto. Qed.

(** ** C47 *)

Lemma sum_changes_operand :
  eval_after false two_systems 0 three = Some (Value [known 9]) /\
  eval_after false (two_systems ++ [Plus 2 0 1]) 2 three = Some (Value [known 12]) /\
  eval_after false (two_systems ++ [Plus 2 0 1]) 0 three = Some (Value [known 12]).
Proof. vm_compute. auto. Qed.

Lemma product_changes_operand :
  eval_after false two_systems 0 three = Some (Value [known 9]) /\
  eval_after false (two_systems ++ [Times 2 0 (Num KInteger (qc 2 1))]) 0 three = Some (Value [known 18]).
Proof. vm_compute. auto. Qed.

(** [Concatenate(a, b)] with only [b] patched is an error, though the code means to copy the patch. *)
Definition patched : list (op (F := QcF)) := two_systems ++ [AddVariables 5 [0]].
Definition patch_world : world (F := QcF) :=
  set_sys (start ex_heap (fun _ => qc 0 1)) 1 (with_patch new_system (Some [[qc 1 1]])).
Lemma concatenate_patched_throws :
  step qc_funs keep false patch_world (Concatenate 2 0 1) = Throws /\
  step qc_funs keep false patch_world (Concatenate 2 1 0) <> Throws.
Proof. split; [reflexivity|discriminate]. Qed.

(** ** Careful histories *)

(** Two systems, evaluated, with the methods chosen first; a copy made before evaluation; functions added later *)
Definition careful_ex : list (op (F := QcF)) :=
  two_systems ++ [SetEvalMethod 1 FunctionTree; SetDerivMethod 1 JacobianNode; CopyConstruct 3 0; Eval 0 two None; Jacobian 1 two None;
                  AddFunction 0 2; Eval 0 three None; MoveAssign 4 0; Concatenate 2 4 1; Jacobian 2 two None].

(** A test of the rules which only look at one system *)
Definition is_none {A : Type} (o : option A) : bool := match o with None => true | Some _ => false end.
Definition copyableb (y : system (F := QcF)) : bool :=
  negb (differentiated y) || match emethod y, dmethod y with FunctionTree, Derivatives => true | _, _ => false end.
Definition carefulb (mp : bool) (w : world (F := QcF)) (o : op (F := QcF)) : bool :=
  match o with
  | AddFunction _ _ | AddVariables _ _ | AddPathVariable _ _ | CopyPatches _ _ | Construct _
  | Differentiate _ | Eval _ _ _ | Jacobian _ _ _ | MoveAssign _ _ => true
  | SetEvalMethod s m => negb (differentiated (sys w s)) &&
      match m with SLP => true | FunctionTree => is_none (slp (sys w s)) && negb mp end
  | SetDerivMethod s m => negb (differentiated (sys w s))
  | CopyConstruct _ a | MoveConstruct _ a | CopyAssign _ a => copyableb (sys w a)
  | Swap a b => negb (differentiated (sys w a)) && negb (differentiated (sys w b)) && is_none (slp (sys w a)) && is_none (slp (sys w b))
  | Concatenate _ a b => match fns (sys w b) with [] => false | _ => true end
  | _ => false
  end.
Fixpoint careful_runb (mp : bool) (w : world (F := QcF)) (l : list (op (F := QcF))) : bool :=
  match l with
  | [] => true
  | o :: l' =>
      carefulb mp w o &&
      match step qc_funs keep mp w o with
      | Value w' => careful_runb mp w' l'
      | Throws => careful_runb mp w l'
      | UB => true
      end
  end.

Lemma is_none_eq : forall (A : Type) (o : option A), is_none o = true -> o = None.
Proof. now destruct o. Qed.

Lemma carefulb_ok : forall mp w o, carefulb mp w o = true -> careful mp w o.
Proof.
  intros mp w o. destruct o as [k e|s k|s v|s v|s h v|s m|s m|s|s p|s o|s o|d|d a|d a|d a|d a|a b|a b|a n|d a b|d a n|d a b|s x t|s x t];
    cbn [carefulb careful]; try discriminate; try (intros _; exact I); intro H.
  - right. apply andb_prop in H as [D H]. apply negb_true_iff in D. split; [exact D|]. intros ->.
    apply andb_prop in H as [S M]. split; [now apply is_none_eq|now apply negb_true_iff in M].
  - left. now apply negb_true_iff in H.
  - unfold copyableb in H. apply orb_prop in H as [H|H]; [left; now apply negb_true_iff|right].
    destruct (emethod (sys w a)), (dmethod (sys w a)); try discriminate; auto.
  - unfold copyableb in H. apply orb_prop in H as [H|H]; [left; now apply negb_true_iff|right].
    destruct (emethod (sys w a)), (dmethod (sys w a)); try discriminate; auto.
  - unfold copyableb in H. apply orb_prop in H as [H|H]; [left; now apply negb_true_iff|right].
    destruct (emethod (sys w a)), (dmethod (sys w a)); try discriminate; auto.
  - repeat match goal with H : _ && _ = true |- _ => apply andb_prop in H as [? ?] end.
    repeat match goal with H : negb _ = true |- _ => apply negb_true_iff in H | H : is_none _ = true |- _ => apply is_none_eq in H end.
    auto.
  - left. intro E. now rewrite E in H.
Qed.

Lemma careful_runb_ok : forall mp l w, careful_runb mp w l = true -> careful_run qc_funs keep mp w l.
Proof.
  intro mp. induction l as [|o l IH]; intros w H; [exact I|]. cbn in *. apply andb_prop in H as [H1 H2].
  split; [now apply carefulb_ok|]. destruct (step qc_funs keep mp w o); auto.
Qed.

Lemma careful_ex_ok : careful_run qc_funs keep false ex_start careful_ex.
Proof. apply careful_runb_ok. vm_compute. reflexivity. Qed.

Lemma careful_ex_values :
  jacobian_after false careful_ex 2 three = Some (Value [[known 6]; [known 5]; [known 1]]) /\
  eval_after false careful_ex 3 three = Some (Value [known 9]).
Proof. vm_compute. auto. Qed.

Lemma keep_ok : simp_ok qc_funs keep.
Proof. intros rho e y E. exact E. Qed.

Definition ex_world : world (F := QcF) := match run qc_funs keep false ex_start two_systems with Some w => w | None => ex_start end.
Lemma ex_world_reached : reached qc_funs keep false ex_world.
Proof.
  exists ex_heap, (fun _ => qc 0 1), two_systems. split; [apply careful_runb_ok; vm_compute; reflexivity|reflexivity].
Qed.

Lemma ex_world_not_differentiated : forall i, differentiated (sys ex_world i) = false.
Proof. intro i. destruct i as [|[|i]]; reflexivity. Qed.

Lemma ex_world_not_cached : forall l, not_cached ex_world l.
Proof. intros l i k D. rewrite ex_world_not_differentiated in D. discriminate. Qed.

Lemma ex_world_self_contained : forall s, In s [0; 1] -> self_contained ex_world s.
Proof.
  intros s [<-|[<-|[]]] k I v O; left; cbn in I; destruct I as [<-|[]]; left; inversion O; subst; try reflexivity.
  match goal with H : occurs v (Var 0) |- _ => now inversion H end.
Qed.

(** The sum and product of the two systems, and their homotopy *)
Lemma sum_careful : careful false ex_world (Plus 2 0 1) /\ careful false ex_world (Times 2 0 (Num KInteger (qc 2 1))) /\
  careful false ex_world (Concatenate 2 0 1) /\ careful false ex_world (Swap 0 1) /\ copyable (sys ex_world 0).
Proof.
  unfold careful. repeat match goal with |- _ /\ _ => split end; try reflexivity; try apply ex_world_not_cached; try (cbn; lia); try (left; reflexivity); try (left; discriminate); intros; reflexivity.
Qed.

(** The homotopy from 5*x to x^2, with gamma = 7 and t the variable 9, at x = 3 and t = 1/2:
    (1 - 1/2) * 9 + 7 * 1/2 * 3 = 15. *)
Definition homotopy_value : option (outcome (list (entry QcF))) :=
  option_map (fun w => match eval_system qc_funs keep false w 6 three (Some (qc 1 2)) with Value (_, v) => Value v | Throws => Throws | UB => UB end)
    (run qc_funs keep false ex_world (form_homotopy 6 0 1 2 3 4 9 (qc 7 1))).
Lemma homotopy_value_15 : homotopy_value = Some (Value [known 15]).
Proof. vm_compute. reflexivity. Qed.

(** The target system evaluates to 9 before, and to the value of the homotopy afterwards. *)
Lemma target_changed :
  eval_after false (two_systems ++ [SetEvalMethod 0 FunctionTree]) 0 three = Some (Value [known 9]) /\
  eval_after false (two_systems ++ SetEvalMethod 0 FunctionTree :: form_homotopy 6 0 1 2 3 4 9 (qc 7 1) ++ [Eval 6 three (Some (qc 1 2))]) 0 three
    = Some (Value [known 15]).
Proof. vm_compute. auto. Qed.

Lemma homotopy_hypotheses : NoDup [6; 0; 1; 2; 3; 4] /\ NoDup (fns (sys ex_world 0) ++ fns (sys ex_world 1)) /\
  length (fns (sys ex_world 0)) = length (fns (sys ex_world 1)) /\ vars (sys ex_world 0) = vars (sys ex_world 1) /\
  patch_of (sys ex_world 0) = patch_of (sys ex_world 1) /\ path (sys ex_world 0) = None /\ path (sys ex_world 1) = None /\
  ~ In 9 (vars (sys ex_world 0)) /\ differentiated (sys ex_world 0) = false /\ differentiated (sys ex_world 1) = false.
Proof.
  repeat match goal with |- _ /\ _ => split end; try reflexivity.
  - repeat constructor; cbn; lia.
  - repeat constructor; cbn; lia.
  - cbn. lia.
Qed.
