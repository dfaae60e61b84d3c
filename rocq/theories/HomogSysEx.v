(** Concrete systems for HomogSys.v. *)
From Coq Require Import List Arith Lia ZArith Bool QArith Qcanon.
From Verif Require Import Base Poly Expr Degree Homog HomogSys.
Import ListNotations.
Local Open Scope fld_scope.

Definition c_env : env QcF := fun _ => 1.
Definition num (z : Z) : expr QcF := Num KInteger (qc z 1).
Definition fresh10 (k : nat) : nat := (10 + k)%nat.

(** x y z - x + 3 and (x + z^2)(u + 2 v), groups {x, y} and {z}, homogeneous group {u, v} *)
Definition two_f1 : expr QcF := Sum [(true, Mul [(true, Var 0); (true, Var 1); (true, Var 2)]); (false, Var 0); (true, num 3)].
Definition two_f2 : expr QcF := Mul [(true, Sum [(true, Var 0); (true, IPow (Var 2) 2)]); (true, Sum [(true, Var 3); (true, Mul [(true, num 2); (true, Var 4)])])].
Definition two_sys : psys QcF := mkPS [two_f1; two_f2] [[0; 1]; [2]]%nat [[3; 4]]%nat [] [].

(** -(x^2 + x) + x^2 *)
Definition drop_f : expr QcF := Sum [(true, Neg (Sum [(true, IPow (Var 0) 2); (true, Var 0)])); (true, IPow (Var 0) 2)].
Definition drop_sys : psys QcF := mkPS [drop_f] [[0]]%nat [] [] [].
(** -(x^2 + h x) + x^2 *)
Definition drop_f1 : expr QcF := Sum [(true, Neg (Sum [(true, IPow (Var 0) 2); (true, Mul [(true, Var 10); (true, Var 0)])])); (true, IPow (Var 0) 2)].
(** -(x^2 + h x) + h x^2 *)
Definition drop_f2 : expr QcF := Sum [(true, Neg (Sum [(true, IPow (Var 0) 2); (true, Mul [(true, Var 10); (true, Var 0)])])); (true, Mul [(true, Var 10); (true, IPow (Var 0) 2)])].

(** x / u with u not in a group *)
Definition ratio_sys : psys QcF := mkPS [Mul [(true, Var 0); (false, Var 1)]] [[0]]%nat [] [1]%nat [].

(** x + y, homogeneous in {x, y} *)
Definition natural_sys : psys QcF := mkPS [Sum [(true, Var 0); (true, Var 1)]] [[0; 1]]%nat [] [] [].

Ltac trees :=
  repeat match goal with
  | |- Forall _ [] => apply Forall_nil
  | |- Forall _ (_ :: _) => apply Forall_cons; cbn [fst snd]
  | |- _ -> _ => discriminate
  | |- pure _ (Num _ _) => apply pu_num
  | |- pure _ (num _) => apply pu_num
  | |- pure _ (Var _) => apply pu_var
  | |- pure _ (Sum _) => apply pu_sum
  | |- pure _ (Mul _) => apply pu_mul
  | |- pure _ (Neg _) => apply pu_neg
  | |- pure _ (IPow _ _) => apply pu_ipow; [|left; lia]
  | |- modest _ (num _) => apply mt_num
  | |- modest _ (Var _) => apply mt_var
  | |- modest _ (Sum _) => apply mt_sum
  | |- modest _ (Mul _) => apply mt_mul
  | |- modest _ (Neg _) => apply mt_neg
  | |- modest _ (IPow _ _) => apply mt_ipow; [right; apply mo_var|]
  | |- expanded _ (num _) => apply ex_num
  | |- expanded _ (Var _) => apply ex_var
  | |- expanded _ (Sum _) => apply ex_sum
  | |- expanded _ (Mul _) => apply ex_mul
  | |- expanded _ (IPow _ _) => apply ex_ipow; apply mo_var
  end.

Lemma two_homogenizable : homogenizable qc_funs c_env fresh10 two_sys.
Proof.
  split; [reflexivity|]. split; [|split; [|split]].
  - intros g [[<-|[<-|[]]]|[<-|[]]]; repeat constructor; cbn; lia.
  - intros i j H. unfold fresh10 in H. lia.
  - intro k. split; [cbn; unfold fresh10; lia|]. intros f [<-|[<-|[]]] Hx; apply occursb_spec in Hx; discriminate.
  - intros f [<-|[<-|[]]]; (split; [|split]).
    + unfold two_f1. trees.
    + intros g [<-|[<-|[]]]; unfold two_f1; trees.
    + intros g [<-|[]]. split; [unfold two_f1; trees|vm_compute; reflexivity].
    + unfold two_f2. trees.
    + intros g [<-|[<-|[]]]; unfold two_f2; trees.
    + intros g [<-|[]]. split; [unfold two_f2; trees|vm_compute; reflexivity].
Qed.

Lemma two_expanded : forall f, In f (fns two_sys) -> expanded (unknowns two_sys) f.
Proof. intros f [<-|[<-|[]]]; unfold two_f1, two_f2; trees. Qed.

Lemma drop_homogenizable : homogenizable qc_funs c_env fresh10 drop_sys.
Proof.
  split; [reflexivity|]. split; [|split; [|split]].
  - intros g [[<-|[]]|[]]; repeat constructor; cbn; lia.
  - intros i j H. unfold fresh10 in H. lia.
  - intro k. split; [cbn; unfold fresh10; lia|]. intros f [<-|[]] Hx; apply occursb_spec in Hx; discriminate.
  - intros f [<-|[]]; (split; [|split]).
    + unfold drop_f. trees.
    + intros g [<-|[]]; unfold drop_f; trees. left. exists 0%nat. intros v [<-|[]] N; contradiction.
    + intros g [].
Qed.

Lemma drop_first : homogenize_sys qc_funs c_env fresh10 drop_sys = Some (mkPS [drop_f1] [[0]]%nat [] [] [10]%nat).
Proof. vm_cast_no_check (eq_refl (Some (mkPS [drop_f1] [[0]]%nat [] [] [10]%nat))). Qed.
Lemma drop_second : homogenize_sys qc_funs c_env fresh10 (mkPS [drop_f1] [[0]]%nat [] [] [10]%nat) = Some (mkPS [drop_f2] [[0]]%nat [] [] [10]%nat).
Proof. vm_cast_no_check (eq_refl (Some (mkPS [drop_f2] [[0]]%nat [] [] [10]%nat))). Qed.
Lemma drop_not_accepted : is_homogeneous_sys qc_funs c_env (mkPS [drop_f1] [[0]]%nat [] [] [10]%nat) = false.
Proof. vm_compute. reflexivity. Qed.
Lemma drop_spoiled : forall d, ~ scales qc_funs [10; 0]%nat d drop_f2.
Proof.
  intros d H. specialize (H c_env (qc 2 1) (qc (-1) 1) (@f0 QcF) ltac:(vm_compute; reflexivity) ltac:(vm_compute; reflexivity)).
  symmetry in H. apply fmul_integral in H. destruct H as [H|H].
  - apply fpow_eq0 in H. apply (f_equal rq) in H. vm_compute in H. discriminate.
  - apply (f_equal rq) in H. vm_compute in H. discriminate.
Qed.

Lemma ratio_accepted : is_polynomial_sys qc_funs c_env ratio_sys = Some true.
Proof. vm_compute. reflexivity. Qed.

Lemma natural_graded : graded [0; 1]%nat 1 (Sum [(true, @Var QcF 0); (true, Var 1)]).
Proof. apply gd_sum. apply Forall_cons; [|apply Forall_cons; [|apply Forall_nil]]; apply gd_var; cbn; tauto. Qed.
Lemma natural_rejected : is_homogeneous_sys qc_funs c_env natural_sys = false.
Proof. reflexivity. Qed.
