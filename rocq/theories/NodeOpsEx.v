(** Concrete graphs and formulas for NodeOps.v. *)
From Coq Require Import List Arith Lia ZArith Bool QArith Qcanon.
From Verif Require Import Base Expr Homog Heap NodeOps.
Import ListNotations.
Open Scope nat_scope.

(** two variables and the product x*y *)
Definition xy_graph : list (gnode (F := QcF)) := [GVar; GVar; GMul [(true, 0); (true, 1)]; GSum [(true, 2); (true, 0)]].
Definition xy_env : env QcF := fun n => match n with 0 => qc 2 1 | _ => qc 3 1 end.

Lemma xy_wf : well_founded_graph xy_graph.
Proof. apply wf_by_check. vm_compute. reflexivity. Qed.

(** ((x*y) + 2) * (y - x) / (x^2 * x^3) - (-y) at (2,3): 8*1/32 + 3 = 13/4 *)
Definition xy_formula : formula (F := QcF) :=
  FSub (FDiv (FMul (FAdd (FNode 2) (FNum KInteger (qc 2 1))) (FSub (FNode 1) (FNode 0)))
             (FMul (FIPow (FNode 0) 2) (FIPow (FNode 0) 3)))
       (FNeg (FNode 1)).

Lemma xy_mentions : forall n, In n (mentions xy_formula) -> n < length xy_graph.
Proof. intros n H. cbn in H |- *. lia. Qed.

Lemma xy_moderate : moderate xy_graph xy_formula.
Proof. cbn. repeat split; lia. Qed.

Lemma xy_value : forall dv, meaning qc_funs (value qc_funs xy_graph dv xy_env) xy_formula = Some (qc 13 4) /\
  exists G' n, build xy_graph xy_formula = Some (G', n) /\ value qc_funs G' dv xy_env n = Some (qc 13 4) /\
    In (GIPow 0 5) G'.
Proof.
  intro dv. split; [vm_compute; reflexivity|].
  assert (H : option_map (fun r => nth_error (fst r) 10) (build xy_graph xy_formula) = Some (Some (GIPow 0 5))) by reflexivity.
  destruct (build xy_graph xy_formula) as [[G' n]|] eqn:E; [|discriminate H].
  exists G', n. split; [reflexivity|]. split.
  - rewrite (proj2 (proj2 (proj2 (build_meaning qc_funs _ _ _ _ dv xy_env xy_wf xy_mentions E)))). vm_compute. reflexivity.
  - apply (nth_error_In G' 10). cbn [option_map fst] in H. congruence.
Qed.

(** exponents a program can write *)
Fixpoint int_exponents {F : fld} (f : formula (F := F)) : Prop :=
  match f with
  | FNode _ | FNum _ _ => True
  | FAdd f g | FSub f g | FMul f g | FDiv f g | FPow f g => int_exponents f /\ int_exponents g
  | FNeg f | FFun _ f => int_exponents f
  | FIPow f z => (- 2 ^ 31 <= z < 2 ^ 31)%Z /\ int_exponents f
  end.

(** pow(x, 2147483647) * pow(x, 1) *)
Definition big_product : formula (F := QcF) := FMul (FIPow (FNode 0) (2 ^ 31 - 1)) (FIPow (FNode 0) 1).
Lemma big_product_undefined : build xy_graph big_product = None /\ int_exponents big_product.
Proof. split; [vm_compute; reflexivity|]. cbn. lia. Qed.

(** x*y, then  *= y : the product is multiplied, and so is the operand of (x*y) + x *)
Lemma xy_factor : exists G', add_factor xy_graph 2 true 1 = Some G' /\ ~ reach xy_graph 1 2 /\ ~ reach xy_graph 0 2 /\
  value qc_funs xy_graph None xy_env 2 = Some (qc 6 1) /\ value qc_funs G' None xy_env 2 = Some (qc 18 1) /\
  value qc_funs xy_graph None xy_env 3 = Some (qc 8 1) /\ value qc_funs G' None xy_env 3 = Some (qc 20 1) /\
  well_founded_graph G'.
Proof.
  eexists. split; [reflexivity|].
  assert (R : forall n m, n < 2 -> reach xy_graph n m -> m = n).
  { intros n m L R. induction R as [|m nd c R IH Em Hc]; [reflexivity|]. rewrite IH in Em.
    destruct n as [|[|n]]; [injection Em as <-; destruct Hc|injection Em as <-; destruct Hc|lia]. }
  split; [intro H; specialize (R 1 2 ltac:(lia) H); discriminate|].
  split; [intro H; specialize (R 0 2 ltac:(lia) H); discriminate|].
  repeat split; try (vm_compute; reflexivity). apply wf_by_check. vm_compute. reflexivity.
Qed.

(** the same with the product evaluated before and not reset after: the old value comes back *)
Definition xy_sigma : numtype -> env QcF := fun _ => xy_env.
Lemma xy_stale : exists st G', grun qc_funs xy_graph (ginit xy_sigma) [Eval Dbl None 2] = Some st /\
  add_factor xy_graph 2 true 1 = Some G' /\
  eval_result qc_funs G' st Dbl None 2 = Some (Some (qc 6 1)) /\
  (exists st', gstep qc_funs G' st (Reset 2) = Some st' /\ eval_result qc_funs G' st' Dbl None 2 = Some (Some (qc 18 1))).
Proof.
  eexists. eexists. split; [reflexivity|]. split; [reflexivity|]. split; [vm_compute; reflexivity|].
  eexists. split; [reflexivity|]. vm_compute. reflexivity.
Qed.

Lemma overflow_witness : exists (G : list (gnode (F := QcF))) f,
  well_founded_graph G /\ (forall m, In m (mentions f) -> m < length G) /\ int_exponents f /\ build G f = None.
Proof.
  exists xy_graph, big_product. split; [exact xy_wf|]. split; [intros m H; cbn in H |- *; lia|].
  destruct big_product_undefined as [A B]. split; assumption.
Qed.

Lemma neq8 : qc 8 1 <> qc 20 1.
Proof. intro H. apply (f_equal (fun q => feqb q (qc 8 1))) in H. vm_compute in H. discriminate. Qed.
Lemma neq6 : qc 6 1 <> qc 18 1.
Proof. intro H. apply (f_equal (fun q => feqb q (qc 6 1))) in H. vm_compute in H. discriminate. Qed.

Lemma shared_witness : exists (G : list (gnode (F := QcF))) p b G' n rho v w,
  well_founded_graph G /\ add_factor G p true b = Some G' /\ n <> p /\
  denotes qc_funs G None rho n v /\ denotes qc_funs G' None rho n w /\ v <> w.
Proof.
  destruct xy_factor as [G' [A [_ [_ [_ [_ [V [V' W']]]]]]]].
  exists xy_graph, 2, 1, G', 3, xy_env, (Some (qc 8 1)), (Some (qc 20 1)).
  split; [exact xy_wf|]. split; [exact A|]. split; [discriminate|]. split; [|split].
  - rewrite <- V. apply value_denotes; [exact xy_wf|cbn; lia].
  - rewrite <- V'. apply value_denotes; [exact W'|]. injection A as <-. cbn. lia.
  - intro H. apply neq8. congruence.
Qed.

Lemma stale_witness : exists (G : list (gnode (F := QcF))) sigma st p b G' v w,
  well_founded_graph G /\ grun qc_funs G (ginit sigma) [Eval Dbl None p] = Some st /\ add_factor G p true b = Some G' /\
  eval_result qc_funs G' st Dbl None p = Some (Some v) /\
  (exists st', gstep qc_funs G' st (Reset p) = Some st' /\ eval_result qc_funs G' st' Dbl None p = Some (Some w)) /\ v <> w.
Proof.
  destruct xy_stale as [st [G' [A [B [D E]]]]].
  exists xy_graph, xy_sigma, st, 2, 1, G', (qc 6 1), (qc 18 1). split; [exact xy_wf|]. split; [exact A|]. split; [exact B|].
  split; [exact D|]. split; [exact E|]. exact neq6.
Qed.
