(** Runs of the power series endgame with its events, for C99. *)
From Coq Require Import List ZArith Lia Reals Lra Bool Arith.
From Coquelicot Require Import Complex.
From Verif Require Import Base ComplexField Newton Endgame EndgameProof EndgameEx EgEvents.
Import ListNotations.
Local Open Scope R_scope.

(** The times 2, 3/4, 7/16, 23/64 go towards 1/3 while the target is 1; every approximation is 5. *)
Definition told_run : list eg_note * out (code * est) :=
  emit_ps_run (far 1) (RtoC 1) (scripted (fun _ => 1)) no_refine (fun x => x) (fun _ _ _ => [RtoC 5])
    [RtoC 9] 1 (RtoC 2) [RtoC 1].

Lemma told_run_events : exists s,
  told_run = ([(ESampleRefined, [RtoC 9]); (ESampleRefined, [RtoC 9]); (ESampleRefined, [RtoC 9]);
               (EInEGOperatingZone, [RtoC 5]); (ESampleRefined, [RtoC 5]);
               (ESampleRefined, [RtoC 5]); (ESampleRefined, [RtoC 5]); (ESampleRefined, [RtoC 5]); (ESampleRefined, [RtoC 5]);
               (EApproximatedRoot, [RtoC 5]); (EConverged, [RtoC 5])], Ok (Success, s)).
Proof.
  unfold told_run, emit_ps_run, initial_samples.
  cbn [num_sample_points far Nat.sub initial_loop with_ps ps_t ps_x back rev app]. rewrite far_time.
  cbn [scripted fst snd is_success tracked with_ps ps_t ps_x back rev app]. rewrite far_time.
  cbn [scripted fst snd is_success tracked with_ps ps_t ps_x back rev app].
  cbn [emit_ps_loop]. rewrite lt_b_true by (cbn [final_tolerance far]; lra).
  unfold ps_advance, emit_advance, ps_approximation.
  cbn [fst snd ps_t ps_x with_hist refined with_ps tracked refine_all no_refine is_success back rev app].
  rewrite far_time. rewrite lt_b_false.
  2:{ cbn [min_track_time far]. rewrite Cmod_sub_R, Rabs_left by lra. lra. }
  cbn [scripted fst snd is_success no_refine num_sample_points far app length Nat.add Nat.ltb Nat.leb
       ps_t ps_x with_hist refined with_ps tracked refine_all emit_refine_all security_level Z.leb Z.compare andb].
  rewrite lt_b_false.
  2:{ cbn [final_tolerance far]. rewrite dist_R. replace (5 - 5) with 0 by ring. rewrite Rabs_R0. lra. }
  eexists. reflexivity.
Qed.

(** The tracker fails at once. *)
Definition lost_run (old : vec) : list eg_note * out (code * est) :=
  emit_ps_run (far 1) (RtoC 1) (fun _ _ _ _ => (FailedToConverge, [])) no_refine (fun x => x)
    (fun _ _ _ => [RtoC 5]) old 1 (RtoC 2) [RtoC 1].

Lemma lost_run_events : forall old, exists s, lost_run old = ([(EEndgameFailure, old)], Ok (FailedToConverge, s)).
Proof. intros. eexists. reflexivity. Qed.

(** The next time is nearer to the target than the settings allow. *)
Definition near : config := mkConfig 3 (1 / 4) 100 (1 / 2) 1 1 (1 / 10) 100 (3 / 4) 0 (1 / 2) 5 1.
Definition near_run : list eg_note * out (code * est) :=
  emit_ps_run near (RtoC 1) (scripted (fun _ => 1)) no_refine (fun x => x) (fun _ _ _ => [RtoC 5])
    [RtoC 9] 1 (RtoC 2) [RtoC 1].

Lemma near_time : forall r, midpoint_time near (RtoC 1) (RtoC r) = RtoC ((r + 1) / 4).
Proof. exact (far_time 1). Qed.

Lemma near_run_events : exists s, snd near_run = Ok (MinTrackTimeReached, s) /\
  told EMinTrackTimeReached (fst near_run) = [[RtoC 5]].
Proof.
  unfold near_run, emit_ps_run, initial_samples.
  cbn [num_sample_points near Nat.sub initial_loop with_ps ps_t ps_x back rev app]. rewrite near_time.
  cbn [scripted fst snd is_success tracked with_ps ps_t ps_x back rev app]. rewrite near_time.
  cbn [scripted fst snd is_success tracked with_ps ps_t ps_x back rev app].
  cbn [emit_ps_loop]. rewrite lt_b_true by (cbn [final_tolerance near]; lra).
  unfold ps_advance, emit_advance, ps_approximation.
  cbn [fst snd ps_t ps_x with_hist refined with_ps tracked refine_all no_refine is_success back rev app].
  rewrite near_time. rewrite lt_b_true.
  2:{ cbn [min_track_time near]. rewrite Cmod_sub_R, Rabs_left by lra. lra. }
  eexists. split; reflexivity.
Qed.
