(** What the power series endgame tells its observers:
    core/include/bertini2/endgames/events.hpp, powerseries.hpp and base_endgame.hpp.

    The run is the one of Endgame.v, with the events in the order in which NotifyObservers is called.
    An event is paired with what FinalApproximation() (base_endgame.hpp:266-270) answers while it is
    told.  PrecisionChanged, which RefineSample emits in adaptive precision (amp_endgame.hpp:122), is
    not modelled; nor are the events of the tracker. *)
From Coq Require Import List ZArith Reals Bool Arith.
From Coquelicot Require Import Complex.
From Verif Require Import Base ComplexField Newton Endgame.
Import ListNotations.
Local Open Scope R_scope.

(** endgames/events.hpp:45-148, those which powerseries.hpp and base_endgame.hpp emit. *)
Inductive eg_event :=
| EEndgameFailure | EMinTrackTimeReached | ERefiningFailed | ESecurityMaxNormReached
| EApproximatedRoot | EConverged | ESampleRefined | EInEGOperatingZone.

Definition eg_note : Set := (eg_event * vec)%type.

Section Emit.
Variable cfg : config.
Variable target : C.
Variable track : nat -> C -> C -> vec -> code * vec.
Variable refine : nat -> vec -> C -> code * vec.
Variable dehom : vec -> vec.
Variable extrapolate : nat -> list C -> list vec -> vec.

(** RefineAllSamples, base_endgame.hpp:168-182: one event for each sample until one fails.  [fin] is
    final_approximation_. *)
Fixpoint emit_refine_all (fin : vec) (k : nat) (xs : list vec) (ts : list C) : list eg_note :=
  match xs, ts with
  | x :: xs', t :: ts' =>
      if is_success (fst (refine k x t))
      then (ESampleRefined, fin) :: emit_refine_all fin (S k) xs' ts'
      else []
  | _, _ => []
  end.

(** AdvanceTime, powerseries.hpp:565-621: the events at lines 581, 589, 605 and 611. *)
Definition emit_advance (fin : vec) (s : est) : list eg_note :=
  match back (ps_t s), back (ps_x s) with
  | Some t, Some x =>
      let t' := midpoint_time cfg target t in
      if lt_b (Cmod (t' - target)%C) (min_track_time cfg) then [(EMinTrackTimeReached, fin)]
      else
        let r := track (ntrack s) t t' x in
        if is_success (fst r) then
          [(EInEGOperatingZone, fin);
           (if is_success (fst (refine (nrefine s) (snd r) t')) then ESampleRefined else ERefiningFailed, fin)]
        else []
  | _, _ => []
  end.

(** The loop of RunImpl, powerseries.hpp:696-738: [prev] is previous_approximation_, and
    final_approximation_ too when a turn begins (line 735).  The extrapolation writes
    final_approximation_ (line 709) before ApproximatedRoot is told (line 717).  Its code is always
    Success (powerseries.hpp:545), so the failure at lines 710-714 is left out. *)
Fixpoint emit_ps_loop (fuel : nat) (err : R) (prev : vec) (s : est) : list eg_note * out (code * est) :=
  if lt_b (final_tolerance cfg) err then
    match fuel with
    | 0%nat => ([], More s)
    | S fuel' =>
        let l := emit_advance prev s in
        match ps_advance cfg target track refine s with
        | Ok (c, s1) =>
            if is_success c then
              let a := ps_approximation refine extrapolate s1 in
              let latest := fst a in
              let l1 := l ++ emit_refine_all prev (nrefine s1) (ps_x s1) (ps_t s1)
                          ++ [(EApproximatedRoot, latest)] in
              if Z.leb (security_level cfg) 0 && (exceeds cfg dehom latest && exceeds cfg dehom prev)
              then (l1 ++ [(ESecurityMaxNormReached, latest)], Ok (SecurityMaxNormReached, snd a))
              else let '(l2, o) := emit_ps_loop fuel' (dist latest prev) latest (snd a) in (l1 ++ l2, o)
            else (l ++ [(EEndgameFailure, prev)], Ok (c, s1))
        | o => (l, o)
        end
    end
  else ([(EConverged, prev)], Ok (Success, s)).

(** RunImpl, powerseries.hpp:640-741; [old] is what final_approximation_ holds from before. *)
Definition emit_ps_run (old : vec) (fuel : nat) (start : C) (x : vec) : list eg_note * out (code * est) :=
  match initial_samples cfg target track start x empty with
  | Ok (c, s1) =>
      if is_success c then
        let a := ps_approximation refine extrapolate s1 in
        let '(l, o) := emit_ps_loop fuel 1 (fst a) (snd a) in
        (emit_refine_all old (nrefine s1) (ps_x s1) (ps_t s1) ++ l, o)
      else ([(EEndgameFailure, old)], Ok (c, s1))
  | o => ([], o)
  end.

End Emit.

(** ** Specification *)

(** EndgameFailure and the classes derived from it, events.hpp:50-75. *)
Definition tells_failure (e : eg_event) : Prop :=
  match e with
  | EEndgameFailure | EMinTrackTimeReached | ERefiningFailed | ESecurityMaxNormReached => True
  | _ => False
  end.

Definition same_event (e e' : eg_event) : bool :=
  match e, e' with
  | EEndgameFailure, EEndgameFailure | EMinTrackTimeReached, EMinTrackTimeReached
  | ERefiningFailed, ERefiningFailed | ESecurityMaxNormReached, ESecurityMaxNormReached
  | EApproximatedRoot, EApproximatedRoot | EConverged, EConverged
  | ESampleRefined, ESampleRefined | EInEGOperatingZone, EInEGOperatingZone => true
  | _, _ => false
  end.

Definition told (e : eg_event) (l : list eg_note) : list vec :=
  map snd (filter (fun q => same_event e (fst q)) l).

(** Neither success nor failure. *)
Definition neutral (q : eg_note) : Prop := ~ tells_failure (fst q) /\ fst q <> EConverged.
