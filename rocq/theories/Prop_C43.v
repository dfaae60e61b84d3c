(** C43: purging the pool.  A slot of the pool holds an object or nothing; ext x counts the owners of x outside. *)
From Coq Require Import List Lia Bool Arith.
From Verif Require Import Pool.
Import ListNotations.

(** After a purge the pool starts with the slots whose count is not one, in order; then follow as many slots as had
    count one, each empty or one of these. *)
Theorem C43_purge_partial : forall (ext : nat -> nat) (mem : list (option nat)), exists gap,
  purge ext mem = filter (fun s => negb (Nat.eqb (use_count ext mem s) 1)) mem ++ gap /\
  length gap = length (filter (fun s => negb (negb (Nat.eqb (use_count ext mem s) 1))) mem) /\
  forall s, In s gap -> s = None \/ use_count ext mem s = 1.
Proof. exact purge_spec. Qed.
Print Assumptions C43_purge_partial.

(** An object somebody else holds is never dropped. *)
Theorem C43_referenced_kept : forall (ext : nat -> nat) (mem : list (option nat)) (x : nat),
  In (Some x) mem -> 1 <= ext x -> occurrences x (purge ext mem) = occurrences x mem.
Proof.
  intros ext mem x H E. apply purge_keeps; [exact H|]. pose proof (occ_in x mem H). lia.
Qed.
Print Assumptions C43_referenced_kept.

(** The pool never shrinks. *)
Theorem C43_size_refuted : forall (ext : nat -> nat) (mem : list (option nat)), length (purge ext mem) = length mem.
Proof. exact purge_size. Qed.
Print Assumptions C43_size_refuted.

(** If the objects nobody else holds come last, none of them is dropped. *)
Theorem C43_unreferenced_kept_refuted : forall (ext : nat -> nat) (mem a b : list (option nat)), mem = a ++ b ->
  (forall s, In s a -> negb (Nat.eqb (use_count ext mem s) 1) = true) ->
  (forall s, In s b -> negb (Nat.eqb (use_count ext mem s) 1) = false) ->
  purge ext mem = mem.
Proof. exact purge_nothing. Qed.
Print Assumptions C43_unreferenced_kept_refuted.

(** Make leaves behind an object which neither the pool nor the caller holds. *)
Theorem C43_make_refuted : forall w : world,
  (forall x, In (Some x) (held w) -> x < next w) ->
  let (w', x) := make w in
  exists y, In y (live w') /\ y <> x /\ ~ In (Some y) (held w').
Proof.
  intros w H. cbn. exists (next w). split; [apply in_app_iff; right; left; reflexivity|]. split; [lia|].
  intro K. apply in_app_iff in K. destruct K as [K|[K|[]]]; [apply H in K; lia|]. injection K. lia.
Qed.
Print Assumptions C43_make_refuted.

(** Four objects, the first and the third without other owners: the first is dropped, the third stays. *)
Example C43_four :
  purge (fun x => Nat.modulo x 2) [Some 0; Some 1; Some 2; Some 3] = [Some 1; Some 3; Some 2; None].
Proof. reflexivity. Qed.

(** An object that was put in twice is never dropped although nobody else holds it. *)
Example C43_twice : purge (fun _ => 0) [Some 0; Some 0; Some 1] = [Some 0; Some 0; Some 1].
Proof. reflexivity. Qed.
