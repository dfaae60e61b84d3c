(** C70: start points given by the user. *)
From Coq Require Import List Arith Lia Bool.
From Verif Require Import PatchPrecision UserStart.
Import ListNotations.

(** The start points are exactly the given points, in the order given: in the number type they were given in they are
    the given points themselves, *)
Theorem C70_given : forall (D V S : Type) (to_mp : nat -> D -> @mpnum V) (to_dbl : @mpnum V -> D) (s : S) (dp : list (list D)) (mp : list (list (@mpnum V))) d,
  map (point_dbl to_dbl (make_dbl s dp)) (seq 0 (num_points (make_dbl (V := V) s dp))) = map Some dp /\
  map (point_mp to_mp d (make_mp s mp)) (seq 0 (num_points (make_mp (D := D) s mp))) = map Some mp.
Proof. intros. split; apply points_all. Qed.
Print Assumptions C70_given.

(** in the other number type each coordinate is converted. *)
Theorem C70_converted : forall (D V S : Type) (to_mp : nat -> D -> @mpnum V) (to_dbl : @mpnum V -> D) (s : S) (dp : list (list D)) (mp : list (list (@mpnum V))) d,
  map (point_mp to_mp d (make_dbl s dp)) (seq 0 (num_points (make_dbl (V := V) s dp))) = map (fun p => Some (map (to_mp d) p)) dp /\
  map (point_dbl to_dbl (make_mp s mp)) (seq 0 (num_points (make_mp (D := D) s mp))) = map (fun p => Some (map to_dbl p)) mp.
Proof.
  intros. split; unfold point_mp, point_dbl; cbn [make_dbl make_mp in_dbl num_points dpoints mpoints].
  - rewrite <- (map_map (nth_error dp) (fun o => match o with Some r => Some (map (to_mp d) r) | None => None end)).
    rewrite points_all, map_map. reflexivity.
  - rewrite <- (map_map (nth_error mp) (fun o => match o with Some r => Some (map to_dbl r) | None => None end)).
    rewrite points_all, map_map. reflexivity.
Qed.
Print Assumptions C70_converted.

(** An index is defined exactly if it is below the number of start points. *)
Theorem C70_range : forall (D V S : Type) (to_mp : nat -> D -> @mpnum V) (to_dbl : @mpnum V -> D) (u : user (D := D) (V := V) (S := S)) d i,
  (point_dbl to_dbl u i <> None <-> i < num_points u) /\ (point_mp to_mp d u i <> None <-> i < num_points u).
Proof.
  intros D V S to_mp to_dbl u d i. unfold point_dbl, point_mp, num_points. destruct (in_dbl u).
  - rewrite <- nth_error_Some. split; [tauto|]. destruct (nth_error (dpoints u) i); split; congruence.
  - rewrite <- nth_error_Some. split; [|tauto]. destruct (nth_error (mpoints u) i); split; congruence.
Qed.
Print Assumptions C70_range.

(** Saving and restoring never gives the start system back: one list of points is left unread, so what follows is read
    from the wrong place; *)
Theorem C70_restore_refuted : forall (D V S : Type) (base s : S) (dp : list (list D)) (mp : list (list (@mpnum V))),
  load (D := D) (V := V) (save base (make_dbl s dp)) = None /\ load (D := D) (V := V) (save base (make_mp s mp)) = None.
Proof.
  intros. unfold load. rewrite load_construct_dbl, load_construct_mp. split; reflexivity.
Qed.
Print Assumptions C70_restore_refuted.

(** the part read before that point has all the points if they were given in double precision, *)
Theorem C70_restore_partial : forall (D V S : Type) (base s : S) (dp : list (list D)),
  exists rest, load_construct (save (V := V) base (make_dbl s dp)) = Some (make_dbl s dp, rest).
Proof. intros. eexists. apply load_construct_dbl. Qed.
Print Assumptions C70_restore_partial.

(** and none of them otherwise. *)
Theorem C70_restore_mp_refuted : forall (D V S : Type) (base s : S) (mp : list (list (@mpnum V))),
  exists u rest, load_construct (save (D := D) base (make_mp s mp)) = Some (u, rest) /\ num_points u = 0.
Proof. intros. eexists. eexists. split; [apply load_construct_mp|reflexivity]. Qed.
Print Assumptions C70_restore_mp_refuted.

(** Multiprecision start points have the precision they were given with, whatever the current default precision. *)
Theorem C70_precision_refuted : forall (D V S : Type) (to_mp : nat -> D -> @mpnum V) (s : S) (x : @mpnum V) d, prec x <> d ->
  exists p, point_mp to_mp d (make_mp (D := D) s [[x]]) 0 = Some [p] /\ prec p <> d.
Proof. intros D V S to_mp s x d H. exists x. split; [reflexivity|exact H]. Qed.
Print Assumptions C70_precision_refuted.

Example C70_ex :
  let u := make_dbl (V := nat) tt [[3; 4]; [5; 6]] in
  num_points u = 2 /\ point_mp (fun d x => mkNum x d) 30 u 1 = Some [mkNum 5 30; mkNum 6 30] /\
  point_dbl (fun m => val m) (make_mp tt [[mkNum 7 40]]) 0 = Some [7].
Proof. repeat split. Qed.
