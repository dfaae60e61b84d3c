(** Concrete targets for SolveSetup.v. *)
From Coq Require Import List Arith Lia ZArith Bool Reals Lra Ring Field.
From Coquelicot Require Import Complex.
From Verif Require Import Base Poly Expr Degree Homog HomogSys Patch ComplexField StartIndex DegreeAll TotalDegree SolveSetup.
Import ListNotations.
Local Open Scope fld_scope.

Definition one_node : expr CF := Num KInteger 1.
Definition fresh10 (k : nat) : nat := (10 + k)%nat.

(** x y - 1 and x^2 + y in the variables 0 and 1 *)
Definition conic_f : expr CF := Sum [(true, Mul [(true, Var 0); (true, Var 1)]); (false, one_node)].
Definition conic_g : expr CF := Sum [(true, IPow (Var 0) 2); (true, Var 1)].
Definition conic_target : psys CF := mkPS [conic_f; conic_g] [[0; 1]%nat] [] [] [].

(** (x+y)^2 - 1 and x - y *)
Definition square_f : expr CF := Sum [(true, IPow (Sum [(true, Var 0); (true, Var 1)]) 2); (false, one_node)].
Definition square_g : expr CF := Sum [(true, Var 0); (false, Var 1)].
Definition square_target : psys CF := mkPS [square_f; square_g] [[0; 1]%nat] [] [] [].
(** what becomes of the first: (x+y)^2 - h^4 *)
Definition square_f1 : expr CF := Sum [(true, IPow (Sum [(true, Var 0); (true, Var 1)]) 2); (false, Mul [(true, IPow (Var 10) 4); (true, one_node)])].

(** -(x^2 + x) + x^2 *)
Definition drop_f : expr CF := Sum [(true, Neg (Sum [(true, IPow (Var 0) 2); (true, Var 0)])); (true, IPow (Var 0) 2)].
Definition drop_target : psys CF := mkPS [drop_f] [[0]%nat] [] [] [].

Add Field CFx : (f_th CF).
Local Opaque CF.

Ltac trees :=
  repeat match goal with
  | |- Forall _ [] => apply Forall_nil
  | |- Forall _ (_ :: _) => apply Forall_cons; cbn [fst snd]
  | |- _ -> _ => discriminate
  | |- pure _ (Num _ _) => apply pu_num
  | |- pure _ one_node => apply pu_num
  | |- pure _ (Var _) => apply pu_var
  | |- pure _ (Sum _) => apply pu_sum
  | |- pure _ (Mul _) => apply pu_mul
  | |- pure _ (Neg _) => apply pu_neg
  | |- pure _ (IPow _ _) => apply pu_ipow; [|left; lia]
  | |- modest _ one_node => apply mt_num
  | |- modest _ (Var _) => apply mt_var
  | |- modest _ (Sum _) => apply mt_sum
  | |- modest _ (Mul _) => apply mt_mul
  | |- modest _ (Neg _) => apply mt_neg
  | |- modest _ (IPow _ _) => apply mt_ipow; [right; apply mo_var|]
  | |- expanded _ one_node => apply ex_num
  | |- expanded _ (Var _) => apply ex_var
  | |- expanded _ (Sum _) => apply ex_sum
  | |- expanded _ (Mul _) => apply ex_mul
  | |- expanded _ (IPow _ _) => apply ex_ipow; apply mo_var
  end.

Lemma conic_ready : forall fs rho, ready fs rho fresh10 conic_target [0; 1]%nat.
Proof.
  intros fs rho. unfold ready. split; [|split; [reflexivity|split; [discriminate|split; [reflexivity|split; [reflexivity|split; [reflexivity|split]]]]]].
  - split; [reflexivity|]. split; [|split; [|split]].
    + intros g [[<-|[]]|[]]; repeat constructor; cbn; lia.
    + intros i j H. unfold fresh10 in H. lia.
    + intro k. split; [cbn; unfold fresh10; lia|]. intros f [<-|[<-|[]]] Hx; apply occursb_spec in Hx; discriminate.
    + intros f [<-|[<-|[]]]; (split; [|split]); try (intros g []); unfold conic_f, conic_g; try (intros <-); trees; try (intros [] ); try contradiction.
  - intros f [<-|[<-|[]]]; (split; [|split]).
    + intros v Hv. apply occursb_spec in Hv. destruct v as [|[|v]]; cbn in *; try tauto; discriminate.
    + discriminate.
    + intro point. cbn. eexists. reflexivity.
    + intros v Hv. apply occursb_spec in Hv. destruct v as [|[|v]]; cbn in *; try tauto; discriminate.
    + discriminate.
    + intro point. cbn. eexists. reflexivity.
  - reflexivity.
Qed.

Lemma conic_expanded : forall f, In f (fns conic_target) -> expanded [0; 1]%nat f.
Proof. intros f [<-|[<-|[]]]; unfold conic_f, conic_g; trees. Qed.

Lemma square_set_up : forall fs rho draw rand g,
  system_setup fs rho fresh10 draw rand g square_target
  = Value (mkSetUp (mkPS [square_f1; square_g] [[0; 1]%nat] [] [] [10]%nat)
      (mkStructure [Affine; Affine] [4; 1]%nat [rand 0; rand 1]%nat true (Some [[draw 0 0; draw 0 1; draw 0 2]%nat])) g).
Proof. intros. reflexivity. Qed.

Lemma drop_set_up : forall fs rho draw rand g, system_setup fs rho fresh10 draw rand g drop_target = Throws.
Proof. intros. reflexivity. Qed.

Lemma two_ne : (1 + 1 : CF) <> 0.
Proof.
  intro T. assert (T' := f_equal (fun z : CF => fst (z : Complex.C)) T).
  rewrite <- CF_one, <- CF_zero, !CF_plus in T'. cbn in T'. lra.
Qed.
Lemma three_ne : (1 + 1 + 1 : CF) <> 0.
Proof.
  intro T. assert (T' := f_equal (fun z : CF => fst (z : Complex.C)) T).
  rewrite <- CF_one, <- CF_zero, !CF_plus in T'. cbn in T'. rewrite CF_plus in T'. cbn in T'. lra.
Qed.

(** the point h = x = y = 2 *)
Definition stray : list CF := [1 + 1; 1 + 1; 1 + 1].
(** a patch on which it lies *)
Definition stray_draw (g k : nat) : CF := if (k =? 0)%nat then 1 / (1 + 1) else 0.

Lemma stray_on_patch : on_patch [map (stray_draw 0) (seq 0 3)] stray.
Proof.
  unfold on_patch. split; [reflexivity|]. constructor; [|constructor]. unfold inner, stray. cbn. field. exact two_ne.
Qed.

Lemma stray_zero : forall fs rho rand g z, system_setup fs rho fresh10 stray_draw rand g square_target = Value z -> zero_of fs rho z stray 0.
Proof.
  intros fs rho rand g z H. rewrite square_set_up in H. injection H as <-. unfold zero_of, homotopy_values, values, stray.
  eexists. split; [reflexivity|]. cbn. unfold all_zero.
  change (Pos.to_nat 2) with 2%nat. change (Pos.to_nat 4) with 4%nat. cbn [fpow]. apply Forall_cons; [ring|]. apply Forall_cons; [ring|]. apply Forall_nil.
Qed.

Lemma stray_no_solution : forall fs rho, ~ solves fs rho (fns square_target) [0; 1]%nat (map (fun a => a / (1 + 1)) [1 + 1; 1 + 1]).
Proof.
  intros fs rho H. unfold solves in H. apply Forall_inv in H. cbn in H. change (Pos.to_nat 2) with 2%nat in H. cbn [fpow] in H. apply some_inj in H. apply three_ne. rewrite <- H. field. exact two_ne.
Qed.

(** the target can be solved: -(x^2 + x) + x^2 = - x *)
Lemma drop_value : forall fs point, eval fs point drop_f = Some (- point 0%nat).
Proof. intros. cbn. change (Pos.to_nat 2) with 2%nat. cbn [fpow]. f_equal. ring. Qed.

Lemma drop_polynomial : forall fs rho, homogenizable fs rho fresh10 drop_target.
Proof.
  intros fs rho. split; [reflexivity|]. split; [|split; [|split]].
  - intros g [[<-|[]]|[]]; repeat constructor; cbn; lia.
  - intros i j H. unfold fresh10 in H. lia.
  - intro k. split; [cbn; unfold fresh10; lia|]. intros f [<-|[]] Hx; apply occursb_spec in Hx; discriminate.
  - intros f [<-|[]]; (split; [|split]).
    + unfold drop_f. trees.
    + intros g [<-|[]]; unfold drop_f; trees. left. exists 0%nat. intros v [<-|[]] N; contradiction.
    + intros g [].
Qed.

(** the solution (x, y) = (-1, -1) of the conics is reached *)
Lemma conic_solution : forall fs rho, solves fs rho (fns conic_target) [0; 1]%nat [- (1); - (1)].
Proof. intros. unfold solves. cbn [fns conic_target]. apply Forall_cons; [|apply Forall_cons; [|apply Forall_nil]]; cbn; try change (Pos.to_nat 2) with 2%nat; cbn [fpow]; f_equal; ring. Qed.

Lemma conic_patch : inner [1; 1; 1] (1 :: [- (1); - (1)] : list CF) <> 0.
Proof. unfold inner. cbn. intro T. apply (@f1_neq_f0 CF). transitivity (- (1 * 1 + (1 * - (1) + (1 * - (1) + 0)) : CF)); [ring|]. rewrite T. ring. Qed.

Lemma square_values : forall fs point,
  eval fs point square_f = Some ((point 0%nat + point 1%nat) * (point 0%nat + point 1%nat) - 1) /\
  eval fs point square_g = Some (point 0%nat - point 1%nat).
Proof. intros. cbn. change (Pos.to_nat 2) with 2%nat. cbn [fpow]. split; f_equal; ring. Qed.
