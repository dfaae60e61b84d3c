(** C55: the homotopy formed for a target and a start system is (1-t) target + gamma t start. *)
From Coq Require Import List ZArith.
From Verif Require Import Base Expr Diff StartIndex SysState SysArith SysEx.
Import ListNotations.
Local Open Scope fld_scope.

(** In a world reached by any history observing [careful], for systems which were not differentiated since their last
    change and share no function: the homotopy evaluates and differentiates right, its variables are those of the
    target, and its values at (x, tau) are (1 - tau) f(x) + gamma tau g(x). *)
Theorem C55_homotopy : forall (F : fld) (fs : funs F) simp mp w homotopy target st d1 d2 d3 t (gamma : F),
  simp_ok fs simp -> reached fs simp mp w -> self_contained w target -> self_contained w st ->
  NoDup [homotopy; target; st; d1; d2; d3] ->
  NoDup (fns (sys w target) ++ fns (sys w st)) -> length (fns (sys w target)) = length (fns (sys w st)) ->
  vars (sys w target) = vars (sys w st) -> patch_of (sys w target) = patch_of (sys w st) ->
  path (sys w target) = None -> path (sys w st) = None -> ~ In t (vars (sys w target)) ->
  differentiated (sys w target) = false -> differentiated (sys w st) = false ->
  not_cached w (fns (sys w target) ++ fns (sys w st)) ->
  exists w', run fs simp mp w (form_homotopy homotopy target st d1 d2 d3 t gamma) = Some w' /\
    evaluates_right fs simp mp w' homotopy /\ vars (sys w' homotopy) = vars (sys w target) /\ path (sys w' homotopy) = Some t /\
    forall x tau, function_values fs w' homotopy x (Some tau)
      = pointwise fadd (map (both fmul (Known (Some (f1 - tau)))) (function_values fs w target x None))
                       (map (both fmul (Known (Some (gamma * tau)))) (function_values fs w st x None)).
Proof. exact @form_homotopy_ok. Qed.
Print Assumptions C55_homotopy.
Local Close Scope fld_scope.

(** The target system does not stay what it was: at x = 3 it evaluates to 9 before and to the value of the
    homotopy, 15, after the homotopy was formed and evaluated. *)
Theorem C55_target_kept_refuted : exists (history : list op) (homotopy target st d1 d2 d3 t : nat) (gamma : QcF),
  eval_after false history target three = Some (Value [known 9]) /\
  eval_after false (history ++ form_homotopy homotopy target st d1 d2 d3 t gamma ++ [Eval homotopy three (Some (qc 1 2))]) target three
    = Some (Value [known 15]).
Proof.
  exact (ex_intro _ (two_systems ++ [SetEvalMethod 0 FunctionTree]) (ex_intro _ 6 (ex_intro _ 0 (ex_intro _ 1 (ex_intro _ 2 (ex_intro _ 3
    (ex_intro _ 4 (ex_intro _ 9 (ex_intro _ (qc 7 1) target_changed))))))))).
Qed.
Print Assumptions C55_target_kept_refuted.

(** The hypotheses are met by the target x^2 and the start system x; at x = 3, t = 1/2, gamma = 7 the value is 15. *)
Example C55_hypotheses_met : simp_ok qc_funs keep /\ reached qc_funs keep false ex_world /\
  self_contained ex_world 0 /\ self_contained ex_world 1 /\ (forall l, not_cached ex_world l) /\
  homotopy_value = Some (Value [known 15]) /\
  (NoDup [6; 0; 1; 2; 3; 4] /\ NoDup (fns (sys ex_world 0) ++ fns (sys ex_world 1)) /\
   length (fns (sys ex_world 0)) = length (fns (sys ex_world 1)) /\ vars (sys ex_world 0) = vars (sys ex_world 1) /\
   patch_of (sys ex_world 0) = patch_of (sys ex_world 1) /\ path (sys ex_world 0) = None /\ path (sys ex_world 1) = None /\
   ~ In 9 (vars (sys ex_world 0)) /\ differentiated (sys ex_world 0) = false /\ differentiated (sys ex_world 1) = false).
Proof.
  exact (conj keep_ok (conj ex_world_reached (conj (ex_world_self_contained 0 (or_introl eq_refl))
    (conj (ex_world_self_contained 1 (or_intror (or_introl eq_refl))) (conj ex_world_not_cached (conj homotopy_value_15 homotopy_hypotheses)))))).
Qed.
