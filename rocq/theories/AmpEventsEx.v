(** Runs of the tracker of AmpEvents.v on concrete settings (TrackEx.v). *)
From Coq Require Import List ZArith Lia Reals Lra Bool Arith.
From Coquelicot Require Import Complex.
From Verif Require Import Newton Track AmpCost Amp TrackEx AmpEvents.
Import ListNotations.

(** a state left by an earlier path, in 50 digits *)
Definition left_over : st nat := mkSt (RtoC 0) 7%nat 1%R (RtoC 0) 3 0 0 0 0 50%Z 0 0.
(** a refinement which fails the first time *)
Definition refined_later (k : nat) (x : nat) (_ : C) : code * nat := match k with O => (FailedToConverge, x) | _ => (Success, S x) end.

(** the start point is at the end time already: after a refinement in higher precision there is nothing to do *)
Lemma refined_run : exists l s, amp_emit_track demo demo_amp (RtoC 0) tiny_eps true never keep succeed no_digits no_digits no_interval same refined_later
    left_over true 1 true 0%R 16%Z (RtoC 0) 0%nat = (l, Finished Success s) /\
  map fst l = [AInitializing (RtoC 0) (RtoC 0) 0%nat; APrecisionChanged 16 LowestMultiplePrecision; APrecisionChanged LowestMultiplePrecision 16; ATrackingEnded] /\
  prec s = LowestMultiplePrecision.
Proof.
  unfold amp_emit_track. cbv zeta. generalize (first_step demo true 0%R (RtoC 0) (RtoC 0)). intros h.
  unfold emit_refinement, refine_stored, refined_later. cbn [is_success space time prec maximum_precision demo_amp].
  cbn [emit_refinement_loop prec maximum_precision demo_amp]. change (300 <? 16)%Z with false. change (16 =? DoublePrecision)%Z with true. cbv iota.
  unfold refine_stored, change_precision, emit_change. cbn [prec]. change (LowestMultiplePrecision =? 16)%Z with false. cbv iota. cbn [space time is_success set_space step delta nsucc nfail csucc cfail since_inc prec since_decr ndecr].
  cbn [amp_emit_run]. unfold amp_emit_turn. cbn [time prec]. rewrite close_zero. cbn [emit_cleanup]. unfold emit_change, change_precision. cbn [prec].
  change (16 =? LowestMultiplePrecision)%Z with false. cbv iota. eexists. eexists. split; [reflexivity|]. split; reflexivity.
Qed.

(** the same with a refinement which succeeds at once *)
Lemma nothing_told : exists s s', amp_emit_track demo demo_amp (RtoC 0) tiny_eps true never keep succeed no_digits no_digits no_interval same refined
    left_over true 1 true 0%R 16%Z (RtoC 0) 0%nat = ([(AInitializing (RtoC 0) (RtoC 0) 0%nat, left_over); (ATrackingEnded, s)], Finished Success s') /\ prec s = 16%Z.
Proof.
  unfold amp_emit_track. cbv zeta. generalize (first_step demo true 0%R (RtoC 0) (RtoC 0)). intros h.
  unfold emit_refinement, refine_stored, refined. cbn [is_success space time set_space step delta nsucc nfail csucc cfail since_inc prec since_decr ndecr].
  cbn [amp_emit_run]. unfold amp_emit_turn. cbn [time prec]. rewrite close_zero. cbn [emit_cleanup]. unfold emit_change, change_precision. cbn [prec].
  change (16 =? 16)%Z with true. cbv iota. eexists. eexists. split; [reflexivity|]. reflexivity.
Qed.

(** a path with one successful step *)
Lemma amp_demo_emits : exists l s, amp_emit_track demo demo_amp (RtoC 0) tiny_eps true never keep succeed no_digits no_digits no_interval same refined
    left_over true 2 true 0%R 16%Z (RtoC 1) 0%nat = (l, Finished Success s) /\ length (amp_path l) = 1%nat.
Proof.
  destruct demo_amp_run as (a & b & D & T0 & T1 & _). unfold amp_track in D. unfold amp_emit_track. cbv zeta. rewrite refinement_same in D.
  destruct (emit_refinement _ _ _ _) as [l0 [[c s]|]] eqn:Er; cbn [snd] in D; [|discriminate].
  destruct (is_success c); [|discriminate].
  pose proof (amp_run_same demo demo_amp (RtoC 0) tiny_eps true never keep succeed no_digits no_digits no_interval same (Some 16%Z) 2 0 s) as R. rewrite D in R. cbn [snd] in R.
  destruct (amp_emit_run _ _ _ _ _ _ _ _ _ _ _ _ _ _ _ _) as [l' o] eqn:E. cbn [snd] in R. subst o.
  eexists. eexists. split; [reflexivity|].
  apply refinement_told in Er; [|exact tiny_eps]. destruct Er as (_ & _ & _ & Ti & _ & _ & Pa & _). cbn [time] in Ti.
  change (length (amp_path (l0 ++ l')) = 1%nat). rewrite amp_path_app, Pa. cbn [app].
  apply amp_run_path in E. destruct E as (_ & Q & N & _ & _).
  cbn [run] in D.
  destruct (turn _ _ _ _ _ _ _ 0 s) as [c1 s1|s1|] eqn:Et; [discriminate| |discriminate].
  assert (Ns : nsucc s1 = S (nsucc s) \/ nsucc s1 = nsucc s /\ time s1 = time s).
  { unfold turn in Et. destruct (close _ _ _); [discriminate|]. destruct (is_success _); [|discriminate].
    destruct (amp_iterate _ _ _ _ _ _ _ _ _ _ _) as [[c2 s2]|] eqn:Ei; [|discriminate]. rewrite amp_iterate_same in Ei.
    destruct (amp_emit_iterate _ _ _ _ _ _ _ _ _ _ _) as [le r] eqn:Ee. cbn [snd] in Ei. subst r. apply amp_iterate_step in Ee. destruct Ee as (_ & _ & K1 & _ & K3 & _).
    destruct (_ && _); [discriminate|]. destruct (is_success c2); injection Et as <-; [left; cbn; rewrite K3; reflexivity|right; split; [exact K3|exact K1]]. }
  destruct (turn _ _ _ _ _ _ _ 1 s1) as [c3 s3|s3|] eqn:Et2; cbn in D; [|discriminate|discriminate].
  injection D as Da Db _ Dc. subst a b s3.
  assert (Ne : time s1 <> time s). { rewrite T1, T0. intros K. apply (f_equal fst) in K. cbn in K. lra. }
  destruct Ns as [Ns|[_ Ns]]; [|contradiction]. lia.
Qed.
