(** C11: homogenization of functions sharing sub-expressions. *)
From Coq Require Import List ZArith.
From Verif Require Import Base Expr Homog Heap HeapHomog.
Import ListNotations.

(** Proved part: the functions [roots] of the graph [G] stand for the trees [es], and no node at or below which
    homogenization changes something is met twice.  Then homogenizing the functions one after the other, in place,
    leaves the functions standing for the trees homogenized separately, and throws exactly if one of these does.
    Missing: a sub-expression which does change and is shared; there the claim is false (below). *)
Theorem C11_homogenize_shared_partial : forall (F : fld) (fs : funs F) (rho : env F) (vs : list nat) (h : nat)
  (G : list (gnode (F := F))) roots es, nth_error G h = Some GVar -> unshared_work fs rho vs h G roots es ->
  (forall es', sequence (map (homogenize fs rho vs h) es) = Some es' ->
     exists G' N, (forall k, N <= k -> hom_functions fs rho vs h k G roots = HDone G') /\ Forall2 (unfolds G' None) roots es') /\
  (sequence (map (homogenize fs rho vs h) es) = None ->
     exists G' N, forall k, N <= k -> hom_functions fs rho vs h k G roots = HThrow G').
Proof. exact @hom_functions_ok. Qed.
Print Assumptions C11_homogenize_shared_partial.

(** The full claim is false: s * s with s = x + 1 shared becomes (x + h^2)^2 instead of (x + h)^2; at x = 1, h = 2
    these are 25 and 9. *)
Theorem C11_homogenize_shared_refuted :
  unfold 9 shared_sum None 4 = Some square_tree /\
  homogenize qc_funs at_1_2 [0] 1 square_tree = Some square_hom /\
  hom_functions qc_funs at_1_2 [0] 1 9 shared_sum [4] = HDone shared_hom /\
  (exists e, unfold 9 shared_hom None 4 = Some e /\ eval qc_funs at_1_2 e = Some (qc 25 1)) /\
  eval qc_funs at_1_2 square_hom = Some (qc 9 1) /\ qc 25 1 <> qc 9 1.
Proof. exact shared_sum_wrong. Qed.
Print Assumptions C11_homogenize_shared_refuted.

(** The hypotheses are met: (x + 1) x^2 and x^2 + 1 share x^2 and 1. *)
Example C11_hypotheses_met : forall (F : fld) (fs : funs F) (rho : env F),
  nth_error (two_functions (F := F)) 1 = Some GVar /\
  unshared_work fs rho [0] 1 two_functions [5; 6] [f_tree; g_tree].
Proof. exact (fun F fs rho => conj eq_refl (two_functions_unshared fs rho)). Qed.
