(** Runs of the tracker of Events.v on concrete settings (TrackEx.v). *)
From Coq Require Import List ZArith Lia Reals Lra Bool Arith.
From Coquelicot Require Import Complex.
From Verif Require Import Newton Track AmpCost Amp TrackEx Events.
Import ListNotations.
Local Open Scope R_scope.

(** a corrector which moves to 1, and a test which finds 1 too large *)
Definition to_one (_ : nat) (_ : nat) (_ : C) : code * nat := (Success, 1%nat).
Definition one_diverges (_ : nat) (x : nat) : bool := Nat.eqb x 1.

Lemma truncated_run : exists l s, emit_track demo 0 tiny_eps true one_diverges keep to_one (demo_at 0 7 1 0 0 0 0 0) 1 true 0 16 1 0%nat = (l, Finished GoingToInfinity s) /\
  path_recorded l = [] /\ announced l = [1%nat] /\ space s = 1%nat /\ time s = 1.
Proof.
  unfold emit_track. rewrite demo_init. cbn [emit_run].
  assert (E : exists l s, emit_turn demo 0 tiny_eps true one_diverges keep to_one 0 (demo_at 1 0 1 0 0 0 0 0) = (l, Stop GoingToInfinity s) /\
    path_recorded l = [] /\ announced l = [1%nat] /\ space s = 1%nat /\ time s = 1).
  { unfold emit_turn. cbn [time demo_at prec step]. rewrite close_real by (unfold tiny_eps; lra).
    unfold fixed_pre. cbn [max_num_steps demo nsucc demo_at Nat.leb step min_step_size]. destruct (Rlt_dec 1 (1/100)); [lra|]. cbn [is_success].
    unfold emit_iterate, keep, to_one. cbn [is_success negb]. cbn [space set_space one_diverges Nat.eqb andb].
    eexists. eexists. split; [reflexivity|]. repeat split. }
  destruct E as (l & s & E & A). rewrite E. exists ((Initializing 1 0 0%nat, demo_at 0 7 1 0 0 0 0 0) :: l), s. split; [reflexivity|]. exact A.
Qed.

(** a path with one failed and two successful steps *)
Lemma demo_emits : exists l, emit_track demo 0 tiny_eps true never keep fail_once (demo_at 0 7 1 0 0 0 0 0) 4 true 0 16 1 0%nat =
    (l, Finished Success (demo_at (1 - 1/2 - 1/2) 2 (1/2) (-(1/2)) 2 1 2 0)) /\ length (path_recorded l) = 2%nat /\ failures l = 1%nat.
Proof.
  pose proof demo_run as D. unfold fixed_track in D. pose proof (run_same demo 0 tiny_eps true never keep fail_once 4 0 (fixed_init demo 0 true 0 16 1 0%nat)) as R.
  rewrite D in R. cbn [snd] in R. unfold emit_track. destruct (emit_run _ _ _ _ _ _ _ _ _ _) as [l o] eqn:E. cbn [snd] in R. subst o.
  destruct (run_path _ _ _ _ _ _ _ _ _ _ _ _ E) as (_ & _ & _ & A & B). cbn in A, B.
  eexists. split; [reflexivity|]. split; [change (path_recorded ((Initializing 1 0 0%nat, demo_at 0 7 1 0 0 0 0 0) :: l)) with (path_recorded l); symmetry; exact A|]. change (failures ((Initializing 1 0 0%nat, demo_at 0 7 1 0 0 0 0 0) :: l)) with (failures l). symmetry. exact B.
Qed.
