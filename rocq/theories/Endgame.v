(** The control flow of the two endgames: core/include/bertini2/endgames/base_endgame.hpp,
    powerseries.hpp and cauchy.hpp.

    Times are complex numbers in exact arithmetic, points are lists of complex numbers.  What the
    tracker and the refinement answer is arbitrary, and may differ from one call to the next: the
    oracles are indexed by the number of the call.  Precision changes are not modelled. *)
From Coq Require Import List ZArith Lia Reals Lra Bool Arith.
From Coquelicot Require Import Complex.
From Verif Require Import Base ComplexField Newton.
Import ListNotations.
Local Open Scope R_scope.

(** Vec<CT>.  Eigen requires equal sizes for sums and differences (all vectors of a run have as many
    entries as the system has variables); on lists of different sizes the operations below truncate. *)
Definition vec : Set := list C.

Definition vadd (x y : vec) : vec := map (fun p => (fst p + snd p)%C) (combine x y).
Definition vsub (x y : vec) : vec := map (fun p => (fst p - snd p)%C) (combine x y).
Definition vdiv (x : vec) (n : nat) : vec := map (fun z => (z / RtoC (INR n))%C) x.

(** lpNorm<Eigen::Infinity> *)
Fixpoint linf (x : vec) : R := match x with [] => 0 | z :: r => Rmax (Cmod z) (linf r) end.
Definition dist (x y : vec) : R := linf (vsub x y).

Definition lt_b (a b : R) : bool := if Rlt_dec a b then true else false.

(** endgames/config.hpp:96-136: EndgameConfig, SecurityConfig, CauchyConfig, and the tracking
    tolerance of the tracker. *)
Record config := mkConfig {
  num_sample_points : nat; sample_factor : R; min_track_time : R; final_tolerance : R;
  security_level : Z; security_max_norm : R;
  cycle_cutoff_time : R; ratio_cutoff_time : R; min_stabilization : R;
  num_needed : nat; max_cauchy_ratio : R; fail_safe : nat;
  tracking_tolerance : R }.

(** The state of an endgame.  [ps_t], [ps_x]: pseg_times_ and pseg_samples_ (cauchy.hpp), times_ and
    samples_ (powerseries.hpp).  [ca_t], [ca_x]: cauchy_times_ and cauchy_samples_.  [cyc]:
    cycle_number_ (unbounded here, "unsigned" in the code).  [hist] lists the approximations made so
    far, oldest first: what observers of ApproximatedRoot see.  The last three fields count the calls
    of the oracles and are not part of the C++ state. *)
Record est := mkEst {
  ps_t : list C; ps_x : list vec; ca_t : list C; ca_x : list vec; cyc : nat;
  hist : list vec; ntrack : nat; nrefine : nat; nck : nat }.

Inductive out (A : Type) :=
| Ok (a : A)
| BadConfig            (* ValidateConfigs throws *)
| BadSize              (* ComputeCauchyApproximationOfXAtT0 throws *)
| Undef                (* undefined behaviour *)
| More (s : est).      (* the fuel of the model is used up *)
Arguments Ok {A}. Arguments BadConfig {A}. Arguments BadSize {A}. Arguments Undef {A}. Arguments More {A}.

Definition bind {A B} (o : out A) (k : A -> out B) : out B :=
  match o with
  | Ok a => k a | BadConfig => BadConfig | BadSize => BadSize | Undef => Undef | More s => More s
  end.

(** [when_ok o k]: "if (code != Success) return code;" *)
Definition when_ok {A} (o : out (code * est)) (fail : code * est -> A) (k : est -> out A) : out A :=
  bind o (fun r => if is_success (fst r) then k (snd r) else Ok (fail r)).

(** back() and front() of a deque; None when it is empty (undefined behaviour). *)
Definition back {A} (l : list A) : option A := match rev l with [] => None | a :: _ => Some a end.
Definition front {A} (l : list A) : option A := match l with [] => None | a :: _ => Some a end.
Definition set_back {A} (l : list A) (a : A) : list A := removelast l ++ [a].
Definition set_front {A} (l : list A) (a : A) : list A := match l with [] => [] | _ :: r => a :: r end.

Definition with_ps (s : est) (t : list C) (x : list vec) : est :=
  mkEst t x (ca_t s) (ca_x s) (cyc s) (hist s) (ntrack s) (nrefine s) (nck s).
Definition with_ca (s : est) (t : list C) (x : list vec) : est :=
  mkEst (ps_t s) (ps_x s) t x (cyc s) (hist s) (ntrack s) (nrefine s) (nck s).
Definition with_cyc (s : est) (c : nat) : est :=
  mkEst (ps_t s) (ps_x s) (ca_t s) (ca_x s) c (hist s) (ntrack s) (nrefine s) (nck s).
Definition with_hist (s : est) (h : list vec) : est :=
  mkEst (ps_t s) (ps_x s) (ca_t s) (ca_x s) (cyc s) h (ntrack s) (nrefine s) (nck s).
Definition tracked (s : est) : est :=
  mkEst (ps_t s) (ps_x s) (ca_t s) (ca_x s) (cyc s) (hist s) (S (ntrack s)) (nrefine s) (nck s).
Definition refined (s : est) (n : nat) : est :=
  mkEst (ps_t s) (ps_x s) (ca_t s) (ca_x s) (cyc s) (hist s) (ntrack s) (n + nrefine s) (nck s).
Definition estimated (s : est) : est :=
  mkEst (ps_t s) (ps_x s) (ca_t s) (ca_x s) (cyc s) (hist s) (ntrack s) (nrefine s) (S (nck s)).

Section Endgame.
Variable cfg : config.
Variable target : C.
(** TrackPath(result, start_time, end_time, start_point): the n-th call of a run. *)
Variable track : nat -> C -> C -> vec -> code * vec.
(** RefineSample (fixed_prec_endgame.hpp:76-88, amp_endgame.hpp:93-140) and Tracker::Refine: the n-th
    call of a run, with the point and its time. *)
Variable refine : nat -> vec -> C -> code * vec.

Notation n := (num_sample_points cfg).
Notation f := (sample_factor cfg).

(** ** base_endgame.hpp *)

(** base_endgame.hpp:362: the next time of ComputeInitialSamples. *)
Definition midpoint_time (t : C) : C := ((t + target) * RtoC f)%C.

(** ComputeInitialSamples, base_endgame.hpp:360-370, the loop; [k] samples remain. *)
Fixpoint initial_loop (k : nat) (s : est) : out (code * est) :=
  match k with
  | 0%nat => Ok (Success, s)
  | S k' =>
      match back (ps_t s), back (ps_x s) with
      | Some t, Some x =>
          let t' := midpoint_time t in
          let r := track (ntrack s) t t' x in
          let s' := tracked (with_ps s (ps_t s ++ [t']) (ps_x s ++ [snd r])) in
          if is_success (fst r) then initial_loop k' s' else Ok (fst r, s')
      | _, _ => Undef
      end
  end.

(** ComputeInitialSamples, base_endgame.hpp:341-373 (the assertion that num_sample_points is
    positive is not modelled). *)
Definition initial_samples (start : C) (x : vec) (s : est) : out (code * est) :=
  initial_loop (n - 1) (with_ps s [start] [x]).

(** RefineAllSamples, base_endgame.hpp:168-191: refines each sample in place until one fails; the
    callers ignore the code. *)
Fixpoint refine_all (k : nat) (xs : list vec) (ts : list C) : list vec * nat :=
  match xs, ts with
  | x :: xs', t :: ts' =>
      let r := refine k x t in
      if is_success (fst r)
      then let q := refine_all (S k) xs' ts' in (snd r :: fst q, S (snd q))
      else (snd r :: xs', 1%nat)
  | _, _ => (xs, 0%nat)
  end.

(** ** cauchy.hpp *)

(** cauchy.hpp:408-414: the next time on the circle.  [polar r a] is r e^{ia}. *)
Definition polar_c (r a : R) : C := (r * cos a, r * sin a).

Definition circle_time (ii : nat) (start : C) : C :=
  if Nat.eqb ii (n - 1) then start
  else (polar_c (Cmod (start - target)%C)
                (INR (ii + 1) * 2 * acos (-1) / INR n + arg (start - target)%C) + target)%C.

(** CircleTrack, cauchy.hpp:384-445; [k] steps remain and [ii] is the number of the next one. *)
Fixpoint circle_loop (k ii : nat) (start : C) (s : est) : out (code * est) :=
  match k with
  | 0%nat => Ok (Success, s)
  | S k' =>
      match back (ca_t s), back (ca_x s) with
      | Some t, Some x =>
          let t' := circle_time ii start in
          let r := track (ntrack s) t t' x in
          if is_success (fst r)
          then circle_loop k' (S ii) start (tracked (with_ca s (ca_t s ++ [t']) (ca_x s ++ [snd r])))
          else Ok (fst r, tracked s)
      | _, _ => Undef
      end
  end.

(** CircleTrack, cauchy.hpp:367-448, with ValidateConfigs (340-348). *)
Definition circle_track (s : est) : out (code * est) :=
  if Nat.ltb n 3 then BadConfig
  else match back (ca_t s) with Some start => circle_loop n 0 start s | None => Undef end.

(** CheckClosedLoop, cauchy.hpp:615-643.  Refine writes its result even when it does not converge,
    and its code is ignored. *)
Definition check_closed (s : est) : out (bool * est) :=
  match front (ca_x s), back (ca_x s), front (ca_t s), back (ca_t s) with
  | Some a, Some b, Some ta, Some tb =>
      if lt_b (dist a b) (tracking_tolerance cfg) then Ok (true, s)
      else
        let xs1 := set_front (ca_x s) (snd (refine (nrefine s) a ta)) in
        match back xs1 with
        | Some b1 =>
            let xs2 := set_back xs1 (snd (refine (S (nrefine s)) b1 tb)) in
            let s' := refined (with_ca s (ca_t s) xs2) 2 in
            match front xs2, back xs2 with
            | Some a2, Some b2 => Ok (lt_b (dist a2 b2) (tracking_tolerance cfg), s')
            | _, _ => Undef
            end
        | None => Undef
        end
  | _, _, _, _ => Undef
  end.

(** The loop of RatioEGOperatingZoneTest, cauchy.hpp:680-692. *)
Fixpoint min_max (xs : list vec) (mn mx : R) : R * R :=
  match xs with
  | [] => (mn, mx)
  | x :: r =>
      let v := linf x in
      min_max r (if Rlt_dec v mn then v else mn) (if Rlt_dec mx v then v else mx)
  end.

(** RatioEGOperatingZoneTest, cauchy.hpp:666-705.  [norm] of a complex number is the square of its
    modulus.  Reading a sample which is not there is undefined. *)
Definition ratio_test (s : est) : out bool :=
  match front (ca_t s) with
  | None => Undef
  | Some t =>
      if lt_b (Cmod (t - target)%C * Cmod (t - target)%C) (ratio_cutoff_time cfg) then Ok true
      else if Nat.ltb (length (ca_x s)) n then Undef
      else
        let m := min_max (firstn n (ca_x s)) (10 ^ 300) 0 in
        Ok (negb (lt_b (final_tolerance cfg) (fst m) && lt_b (final_tolerance cfg) (snd m)
                  && lt_b (fst m / snd m) (max_cauchy_ratio cfg)
                  && lt_b (final_tolerance cfg) (snd m - fst m)))
  end.

(** cauchy.hpp:1025: the next time of the Cauchy endgame. *)
Definition cauchy_time (t : C) : C := ((target - t) * RtoC f + t)%C.

(** AdvanceTime and RotateOntoPS, cauchy.hpp:1013-1044 and 792-803. *)
Definition advance (s : est) : out (code * est) :=
  match back (ps_t s), back (ps_x s) with
  | Some t, Some x =>
      let t' := cauchy_time t in
      if lt_b (Cmod (t' - target)%C) (min_track_time cfg) then Ok (MinTrackTimeReached, s)
      else
        let r := track (ntrack s) t t' x in
        if is_success (fst r)
        then Ok (Success, tracked (with_ps s (tl (ps_t s) ++ [t']) (tl (ps_x s) ++ [snd r])))
        else Ok (fst r, tracked s)
  | _, _ => Undef
  end.

(** ClearAndSeedCauchyData, cauchy.hpp:805-817. *)
Definition seed (s : est) : out est :=
  match back (ps_t s), back (ps_x s) with
  | Some t, Some x => Ok (with_ca s [t] [x])
  | _, _ => Undef
  end.

(** ComputeCOverK, cauchy.hpp:481-507: the logarithms of random combinations of the samples are
    not modelled, [estimate] is arbitrary; needs three samples. *)
Variable estimate : nat -> list vec -> R.

Definition c_over_k (s : est) : out (R * est) :=
  if Nat.ltb (length (ps_x s)) 3 then Undef
  else let e := estimate (nck s) (ps_x s) in
       Ok (if Rlt_dec e 1 then 1 else e, estimated s).

(** CheckForCOverKStabilization, cauchy.hpp:524-548: compares the first num_needed_for_stabilization
    entries. *)
Fixpoint stable (l : list R) : bool :=
  match l with
  | a :: (b :: _) as r =>
      let d := if Rlt_dec a b then a / b else b / a in
      if Rlt_dec d (min_stabilization cfg) then false else stable r
  | _ => true
  end.

Definition stabilized (l : list R) : bool := stable (firstn (num_needed cfg) l).

(** The first loop of GetIntoEGZone, cauchy.hpp:880-887. *)
Fixpoint zone_first (k : nat) (l : list R) (s : est) : out (code * est * list R) :=
  match k with
  | 0%nat => Ok (Success, s, l)
  | S k' =>
      when_ok (advance s) (fun r => (r, l)) (fun s1 =>
        bind (c_over_k s1) (fun e => zone_first k' (l ++ [fst e]) (snd e)))
  end.

(** The second loop of GetIntoEGZone, cauchy.hpp:890-900. *)
Fixpoint zone_loop (fuel : nat) (l : list R) (s : est) : out (code * est) :=
  match back (ps_t s) with
  | None => Undef
  | Some t =>
      if negb (stabilized l) && lt_b (cycle_cutoff_time cfg) (Cmod (t - target)%C) then
        match fuel with
        | 0%nat => More s
        | S fuel' =>
            when_ok (advance s) (fun r => r) (fun s1 =>
              bind (c_over_k s1) (fun e => zone_loop fuel' (tl l ++ [fst e]) (snd e)))
        end
      else Ok (Success, s)
  end.

(** GetIntoEGZone, cauchy.hpp:861-905. *)
Definition get_into_zone (fuel : nat) (start : C) (x : vec) (s : est) : out (code * est) :=
  when_ok (initial_samples start x s) (fun r => r) (fun s1 =>
    bind (c_over_k s1) (fun e =>
      bind (zone_first (num_needed cfg) [fst e] (snd e)) (fun r =>
        if is_success (fst (fst r)) then zone_loop fuel (snd r) (snd (fst r)) else Ok (fst r)))).

(** The inner loop of InitialCauchyLoops, cauchy.hpp:754-776. *)
Fixpoint closing_loop (fuel : nat) (s : est) : out (code * est) :=
  bind (check_closed s) (fun b =>
    if fst b then Ok (Success, snd b)
    else if Nat.ltb (fail_safe cfg) (cyc (snd b)) then Ok (CycleNumTooHigh, snd b)
    else match fuel with
         | 0%nat => More (snd b)
         | S fuel' =>
             bind (circle_track (snd b)) (fun r =>
               let s1 := with_cyc (snd r) (S (cyc (snd r))) in
               if is_success (fst r) then closing_loop fuel' s1 else Ok (fst r, s1))
         end).

(** InitialCauchyLoops, cauchy.hpp:732-788. *)
Fixpoint initial_loops (fuel : nat) (s : est) : out (code * est) :=
  match fuel with
  | 0%nat => More s
  | S fuel' =>
      bind (seed (with_cyc s 0)) (fun s0 =>
        bind (circle_track s0) (fun r =>
          let s1 := with_cyc (snd r) (S (cyc (snd r))) in
          if is_success (fst r) then
            bind (ratio_test s1) (fun b =>
              if b then closing_loop fuel s1
              else when_ok (advance s1) (fun r => r) (fun s2 => initial_loops fuel' s2))
          else Ok (fst r, s1)))
  end.

(** ComputeCauchySamples, cauchy.hpp:977-1003. *)
Fixpoint samples_loop (fuel : nat) (s : est) : out (code * est) :=
  if Nat.ltb (cyc s) (fail_safe cfg) then
    match fuel with
    | 0%nat => More s
    | S fuel' =>
        bind (circle_track s) (fun r =>
          let s1 := with_cyc (snd r) (S (cyc (snd r))) in
          if is_success (fst r) then
            bind (check_closed s1) (fun b =>
              if fst b then Ok (Success, snd b) else samples_loop fuel' (snd b))
          else Ok (fst r, s1))
    end
  else Ok (CycleNumTooHigh, s).

Definition cauchy_samples (fuel : nat) (s : est) : out (code * est) :=
  bind (seed s) (fun s0 => samples_loop fuel (with_cyc s0 0)).

(** ComputeCauchyApproximationOfXAtT0, cauchy.hpp:922-957; [nv] is NumVariables. *)
Variable nv : nat.

Definition cauchy_approximation (s : est) : out (vec * est) :=
  if Nat.eqb (length (ca_x s)) (cyc s * n + 1) then
    let q := refine_all (nrefine s) (ca_x s) (ca_t s) in
    let sum := fold_left vadd (firstn (cyc s * n) (fst q)) (repeat (RtoC 0) nv) in
    let a := vdiv sum (cyc s * n) in
    Ok (a, with_hist (refined (with_ca s (ca_t s) (fst q)) (snd q)) (hist s ++ [a]))
  else BadSize.

(** DehomogenizePoint followed by lpNorm<Infinity>. *)
Variable dehom : vec -> vec.
Definition size_of (x : vec) : R := linf (dehom x).
Definition exceeds (x : vec) : bool := lt_b (security_max_norm cfg) (size_of x).

(** The do-while loop of RunImpl, cauchy.hpp:1109-1150.  [np] is norm_of_dehom_prev: None while the
    variable has not been given a value.  Comparing such a variable is undefined behaviour; copying
    it (line 1139, when the level is 0) is not treated as such. *)
Fixpoint cauchy_loop (fuel : nat) (prev : vec) (np : option R) (s : est) : out (code * est) :=
  bind (cauchy_approximation s) (fun a =>
    let latest := fst a in
    let s1 := snd a in
    if lt_b (dist latest prev) (final_tolerance cfg) then Ok (Success, s1)
    else
      let next (nl : option R) :=
        match fuel with
        | 0%nat => More s1
        | S fuel' =>
            when_ok (advance s1) (fun r => r) (fun s2 =>
              when_ok (cauchy_samples fuel' s2) (fun r => r) (fun s3 =>
                cauchy_loop fuel' latest nl s3))
        end in
      if Z.eqb (security_level cfg) 0 then next None
      else match np with
           | None => Undef
           | Some p =>
               if lt_b (security_max_norm cfg) p && exceeds latest
               then Ok (SecurityMaxNormReached, s1)
               else next (Some (size_of latest))
           end).

(** RunImpl, cauchy.hpp:1067-1153 (sizes and precisions of the arguments are not modelled).
    [fresh] is what a real variable holds before it is assigned: None for double, Some 0 for
    mpfr_float. *)
Definition empty : est := mkEst [] [] [] [] 0 [] 0 0 0.

Definition cauchy_run (fresh : option R) (fuel : nat) (start : C) (x : vec) : out (code * est) :=
  when_ok (get_into_zone fuel start x empty) (fun r => r) (fun s1 =>
    when_ok (initial_loops fuel s1) (fun r => r) (fun s2 =>
      cauchy_loop fuel x
        (if Z.leb (security_level cfg) 0 then Some (size_of x) else fresh) s2)).

(** ** powerseries.hpp *)

(** AdvanceTime, powerseries.hpp:565-617. *)
Definition ps_advance (s : est) : out (code * est) :=
  match back (ps_t s), back (ps_x s) with
  | Some t, Some x =>
      let t' := midpoint_time t in
      if lt_b (Cmod (t' - target)%C) (min_track_time cfg) then Ok (MinTrackTimeReached, s)
      else
        let r := track (ntrack s) t t' x in
        if is_success (fst r) then
          let q := refine (nrefine s) (snd r) t' in
          let ts := ps_t s ++ [t'] in
          let xs := ps_x s ++ [snd q] in
          let pop {A} (l : list A) := if Nat.ltb (n + 1) (length ts) then tl l else l in
          if is_success (fst q)
          then Ok (Success, refined (tracked (with_ps s (pop ts) (pop xs))) 1)
          else Ok (fst q, refined (tracked (with_ps s ts xs)) 1)
        else Ok (fst r, tracked s)
  | _, _ => Undef
  end.

(** RefineAllSamples, ComputeAllDerivatives and ComputeApproximationOfXAtT0 in RunImpl
    (powerseries.hpp:676-684 and 706-715): [extrapolate] is the n-th extrapolation from the refined
    samples (EgSeries.v models it). *)
Variable extrapolate : nat -> list C -> list vec -> vec.

Definition ps_approximation (s : est) : vec * est :=
  let q := refine_all (nrefine s) (ps_x s) (ps_t s) in
  let a := extrapolate (length (hist s)) (ps_t s) (fst q) in
  (a, with_hist (refined (with_ps s (ps_t s) (fst q)) (snd q)) (hist s ++ [a])).

(** The loop of RunImpl, powerseries.hpp:696-736; [err] is approximate_error_.  norm_of_dehom_of_prev
    is read only where it has been assigned (level <= 0), so it is recomputed here from [prev]. *)
Fixpoint ps_loop (fuel : nat) (err : R) (prev : vec) (s : est) : out (code * est) :=
  if lt_b (final_tolerance cfg) err then
    match fuel with
    | 0%nat => More s
    | S fuel' =>
        when_ok (ps_advance s) (fun r => r) (fun s1 =>
          let a := ps_approximation s1 in
          let latest := fst a in
          if Z.leb (security_level cfg) 0 && (exceeds latest && exceeds prev)
          then Ok (SecurityMaxNormReached, snd a)
          else ps_loop fuel' (dist latest prev) latest (snd a))
    end
  else Ok (Success, s).

(** RunImpl, powerseries.hpp:640-741. *)
Definition ps_run (fuel : nat) (start : C) (x : vec) : out (code * est) :=
  when_ok (initial_samples start x empty) (fun r => r) (fun s1 =>
    let a := ps_approximation s1 in
    ps_loop fuel 1 (fst a) (snd a)).

End Endgame.
