(** C38: the midpath check.  sup nv x is the largest modulus among the nv coordinates of x, apart nv x y that of the
    difference. *)
From Coq Require Import List ZArith Lia Reals Lra Bool Arith.
From Coquelicot Require Import Complex.
From Verif Require Import Base Newton Endgame EgSeries Midpath ZeroDim ZeroDimEx.
Import ListNotations.
Local Open Scope R_scope.

(** The first check returns true exactly when no two paths i < j that reached the boundary are closer than the
    tolerance relative to the point of path i.  A later check returns true only if no earlier one failed. *)
Theorem C38_returns :
  forall (nv : nat) (tol : R) (start : nat -> nat -> C) (data : list ((nat -> C) * code)) (st : checker),
  snd (check nv tol start data st) = true <->
  passed st = true /\
  forall i j, ~ ((i < j)%nat /\ exists x y,
      nth_error data i = Some (x, Success) /\ nth_error data j = Some (y, Success) /\ apart nv x y < tol * sup nv x).
Proof. exact check_returns. Qed.
Print Assumptions C38_returns.

(** The first check reports every path of a crossing once, with the paths it crossed, each once. *)
Theorem C38_reports :
  forall (nv : nat) (tol : R) (start : nat -> nat -> C) (data : list ((nat -> C) * code)),
  let crosses i j := meets nv tol data i j \/ meets nv tol data j i in
  let l := crossed (fst (check nv tol start data new_checker)) in
  NoDup (map index l) /\
  (forall i, In i (map index l) <-> exists j, crosses i j) /\
  forall v, In v l ->
    NoDup (map fst (partners v)) /\
    (forall j, In j (map fst (partners v)) <-> crosses (index v) j) /\
    (rerun v = true <-> exists j, crosses (index v) j /\ apart nv (start (index v)) (start j) <= tol).
Proof. exact first_check. Qed.
Print Assumptions C38_reports.

(** Once a check has failed every later one fails, whatever the data, and the old paths are still reported. *)
Theorem C38_later_checks_refuted :
  forall (nv : nat) (tol : R) (start : nat -> nat -> C) (data later : list ((nat -> C) * code)) (st : checker),
  snd (check nv tol start data st) = false ->
  snd (check nv tol start later (fst (check nv tol start data st))) = false /\
  forall i, In i (map index (crossed (fst (check nv tol start data st)))) ->
    In i (map index (crossed (fst (check nv tol start later (fst (check nv tol start data st)))))).
Proof.
  intros nv tol start data later st H. split; [|intros i; apply check_keeps].
  destruct (snd (check nv tol start later (fst (check nv tol start data st)))) eqn:E; [|reflexivity].
  apply check_returns in E. destruct E as [E _]. rewrite check_state in E. congruence.
Qed.
Print Assumptions C38_later_checks_refuted.

(** A crossing which is found and then resolved: the second check fails, a fresh checker passes the same data. *)
Theorem C38_resolved_refuted : forall start : nat -> nat -> C,
  let first := check 1 (1 / 2) start [(const1 1, Success); (const1 1, Success)] new_checker in
  let second := check 1 (1 / 2) start [(const1 1, Success); (const1 3, Success)] (fst first) in
  snd first = false /\ snd second = false /\
  snd (check 1 (1 / 2) start [(const1 1, Success); (const1 3, Success)] new_checker) = true.
Proof. exact resolved_still_fails. Qed.
Print Assumptions C38_resolved_refuted.

(** "Within tolerance" is not symmetric, and equal points at the origin are never within tolerance. *)
Theorem C38_distance_refuted :
  (forall start, snd (check 1 (1 / 2) start [(const1 3, Success); (const1 5, Success)] new_checker) = true /\
                 snd (check 1 (1 / 2) start [(const1 5, Success); (const1 3, Success)] new_checker) = false) /\
  (forall start tol, snd (check 1 tol start [(const1 0, Success); (const1 0, Success)] new_checker) = true).
Proof. exact (conj order_matters origin_unseen). Qed.
Print Assumptions C38_distance_refuted.
