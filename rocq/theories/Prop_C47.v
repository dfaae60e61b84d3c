(** C47: arithmetic on systems returns new systems and leaves the operands evaluating as before. *)
From Coq Require Import List ZArith.
From Verif Require Import Base Expr Diff StartIndex SysState SysArith SysEx.
Import ListNotations.

(** Concatenate, in a world reached by any history observing [careful]: the result evaluates to the values of both
    operands; the functions and the operands are unchanged. *)
Theorem C47_concatenate : forall (F : fld) (fs : funs F) simp mp w w' d a b, simp_ok fs simp -> reached fs simp mp w ->
  self_contained w a -> self_contained w b -> path (sys w b) = path (sys w a) -> d <> a -> d <> b ->
  careful mp w (Concatenate d a b) -> step fs simp mp w (Concatenate d a b) = Value w' ->
  evaluates_right fs simp mp w' d /\ vars (sys w' d) = vars (sys w a) /\ path (sys w' d) = path (sys w a) /\
  (forall x t, function_values fs w' d x t = function_values fs w a x t ++ function_values fs w b x t) /\
  heap w' = heap w /\ sys w' a = sys w a /\ sys w' b = sys w b.
Proof. exact @concatenate_ok. Qed.
Print Assumptions C47_concatenate.

(** The sum d = a + b evaluates to the sum of the values, and b evaluates as before.  Missing: that a evaluates as
    before, which is false (below). *)
Theorem C47_sum_partial : forall (F : fld) (fs : funs F) simp mp w w' d a b, simp_ok fs simp -> reached fs simp mp w ->
  self_contained w a -> self_contained w b -> NoDup (fns (sys w a)) ->
  (forall k, In k (fns (sys w a)) -> ~ In k (fns (sys w b))) ->
  vars (sys w b) = vars (sys w a) -> path (sys w b) = path (sys w a) -> d <> b ->
  careful mp w (Plus d a b) -> step fs simp mp w (Plus d a b) = Value w' ->
  evaluates_right fs simp mp w' d /\ evaluates_right fs simp mp w' b /\
  vars (sys w' d) = vars (sys w a) /\ path (sys w' d) = path (sys w a) /\ sys w' b = sys w b /\
  forall x t, function_values fs w' d x t = pointwise fadd (function_values fs w a x t) (function_values fs w b x t) /\
              function_values fs w' b x t = function_values fs w b x t.
Proof. exact @plus_ok. Qed.
Print Assumptions C47_sum_partial.

(** The product d = n * a evaluates to the product.  Missing: that a evaluates as before, which is false (below). *)
Theorem C47_product_partial : forall (F : fld) (fs : funs F) simp mp w w' d a n, simp_ok fs simp -> reached fs simp mp w ->
  self_contained w a -> NoDup (fns (sys w a)) ->
  (forall v, occurs v n -> In v (vars (sys w a)) \/ path (sys w a) = Some v) ->
  careful mp w (Times d a n) -> step fs simp mp w (Times d a n) = Value w' ->
  evaluates_right fs simp mp w' d /\ vars (sys w' d) = vars (sys w a) /\ path (sys w' d) = path (sys w a) /\
  forall x t, function_values fs w' d x t =
    map (both fmul (Known (eval fs (at_point (sys w a) x t (fun _ => f0)) n))) (function_values fs w a x t).
Proof. exact @times_ok. Qed.
Print Assumptions C47_product_partial.

(** The claim is false: after d = a + b the system a (x^2, 9 at x = 3) evaluates to the sum 12. *)
Theorem C47_sum_changes_operand_refuted : exists (history : list op) (d a b : nat),
  eval_after false history a three = Some (Value [known 9]) /\
  eval_after false (history ++ [Plus d a b]) d three = Some (Value [known 12]) /\
  eval_after false (history ++ [Plus d a b]) a three = Some (Value [known 12]).
Proof. exact (ex_intro _ two_systems (ex_intro _ 2 (ex_intro _ 0 (ex_intro _ 1 sum_changes_operand)))). Qed.
Print Assumptions C47_sum_changes_operand_refuted.

(** The same for products: after 2 * a the system a evaluates to 18. *)
Theorem C47_product_changes_operand_refuted : exists (history : list op) (d a : nat) n,
  eval_after false history a three = Some (Value [known 9]) /\
  eval_after false (history ++ [Times d a n]) a three = Some (Value [known 18]).
Proof. exact (ex_intro _ two_systems (ex_intro _ 2 (ex_intro _ 0 (ex_intro _ _ product_changes_operand)))). Qed.
Print Assumptions C47_product_changes_operand_refuted.

(** Concatenating to an unpatched system a patched one throws, in the other order it does not. *)
Theorem C47_concatenate_patched_refuted : exists (w : world (F := QcF)) (d a b : nat),
  step qc_funs keep false w (Concatenate d a b) = Throws /\ step qc_funs keep false w (Concatenate d b a) <> Throws.
Proof. exact (ex_intro _ patch_world (ex_intro _ 2 (ex_intro _ 0 (ex_intro _ 1 concatenate_patched_throws)))). Qed.
Print Assumptions C47_concatenate_patched_refuted.

(** The hypotheses are met by the systems x^2 and x. *)
Example C47_hypotheses_met : simp_ok qc_funs keep /\ reached qc_funs keep false ex_world /\
  self_contained ex_world 0 /\ self_contained ex_world 1 /\
  (careful false ex_world (Plus 2 0 1) /\ careful false ex_world (Times 2 0 (Num KInteger (qc 2 1))) /\
   careful false ex_world (Concatenate 2 0 1) /\ careful false ex_world (Swap 0 1) /\ copyable (sys ex_world 0)).
Proof.
  exact (conj keep_ok (conj ex_world_reached (conj (ex_world_self_contained 0 (or_introl eq_refl))
    (conj (ex_world_self_contained 1 (or_intror (or_introl eq_refl))) sum_careful)))).
Qed.
