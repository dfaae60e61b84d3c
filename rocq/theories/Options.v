(** The settings of the zero-dimensional solver and the choice of its parts at run time.
    Models core/include/bertini2/nag_algorithms/zero_dim_solve.hpp:306-415, 490-500, 519-532, 573-604, 687-735, 811,
    core/include/bertini2/nag_algorithms/common/config.hpp:60-135, core/include/bertini2/nag_algorithms/common/policies.hpp:190-222,
    core/include/bertini2/blackbox/switches_zerodim.hpp:47-131 and core/include/bertini2/blackbox/user_homotopy.hpp:46-58.
    What Solve does with its parameters is in ZeroDim.v. *)
From Coq Require Import List ZArith Lia Reals Lra Bool Arith String.
From Coquelicot Require Import Complex.
From Verif Require Import Base Newton Endgame EgSeries EgSeriesEx Midpath ZeroDim.
Import ListNotations.
Local Open Scope R_scope.
Local Open Scope list_scope.

(** * Settings *)

(** TolerancesConfig, PostProcessingConfig, ZeroDimConfig and AutoRetrackConfig, config.hpp:60-70, 81-86, 121-147 *)
Record tolerances := Tols { t_before : R; t_during : R; t_final : R; t_truncation : R }.
Record post := Post { p_real : R; p_finite : R; p_same : R }.
Record zdconf := ZD { z_precision : nat; z_attempts : nat; z_start : C; z_boundary : C; z_target : C; z_name : string }.
Definition default_tols : tolerances := Tols (1 / 100000) (1 / 1000000) (1 / 100000000000) 100000.
Definition default_post : post := Post (1 / 100000000) (1 / 100000) (1 / 10000000000).
Definition default_zd : zdconf := ZD 16 2 (RtoC 1) (RtoC (1 / 10)) (RtoC 0) "ZERO_DIM_PATH_VARIABLE".
Definition default_factor : R := 1 / 2.
Definition default_mid : R := 1 / 100000.

(** The parts of the tracker the settings reach: the path variable of the homotopy it refers to, its truncation threshold;
    [Tk] stands for its other settings, [Eg] for those of the endgame. *)
Section Options.
Context {Tk Eg : Type}.
Variables (tk0 : Tk) (eg0 : Eg) (settings0 : settings).
Record trk := Trk { path_name : string; truncation : R; more : Tk }.

(** What a run of the tracker or the endgame can depend on: tracker, (endgame settings,) default precision, times; then
    as in ZeroDim.v *)
Variable track : trk -> nat -> C -> C -> nat -> settings -> (nat -> C) -> (nat -> C) * code * R.
Variable endgame : trk -> Eg -> C -> C -> nat -> settings -> (nat -> C) -> (nat -> C) * code * R.
Variable nv num_start_points : nat.
Variable start_point : nat -> (nat -> C).

Record obj := Obj {
  tols : tolerances; pst : post; zd : zdconf; factor : R; midtol : R;
  tr : trk; eg : Eg; core : solver }.

(** DefaultSettingsSetup, DefaultSystemSetup, DefaultTrackerSetup, DefaultMidpathSetup, zero_dim_solve.hpp:341-415; the
    homotopy is formed with the name of the path variable, policies.hpp:191-222 *)
Definition default_settings (o : obj) : obj :=
  Obj default_tols default_post default_zd default_factor (midtol o) (tr o) (eg o) (core o).
Definition system_setup (o : obj) : obj :=
  Obj (tols o) (pst o) (zd o) (factor o) (midtol o) (Trk (z_name (zd o)) (truncation (tr o)) (more (tr o))) (eg o) (core o).
Definition tracker_setup (o : obj) : obj :=
  Obj (tols o) (pst o) (zd o) (factor o) (midtol o) (Trk (path_name (tr o)) (t_truncation (tols o)) tk0) (eg o)
      (set_tolerance (t_before (tols o)) (core o)).
Definition midpath_setup (o : obj) : obj :=
  Obj (tols o) (pst o) (zd o) (factor o) default_mid (tr o) (eg o) (core o).

(** the constructor, zero_dim_solve.hpp:306-311 *)
Definition construct : obj :=
  midpath_setup (tracker_setup (system_setup (default_settings
    (Obj default_tols default_post default_zd default_factor default_mid (Trk "" 100000 tk0) eg0 (new_solver settings0))))).

(** Solve, zero_dim_solve.hpp:519-532, with the settings read at 581, 593-598, 625-627, 661, 689, 698, 732-733, 811 *)
Definition run_solve (o : obj) : obj :=
  Obj (tols o) (pst o) (zd o) (factor o) (midtol o) (tr o) (eg o)
    (solve nv num_start_points start_point
       (track (tr o) (z_precision (zd o)) (z_start (zd o)) (z_boundary (zd o)))
       (endgame (tr o) (eg o) (z_boundary (zd o)) (z_target (zd o)))
       (t_before (tols o)) (t_during (tols o)) (factor o) (p_same (pst o)) (midtol o) (z_attempts (zd o)) (core o)).

Inductive oop :=
| SetTolerances (t : tolerances)  (* Set<TolerancesConfig> etc., detail/configured.hpp:102-106 *)
| SetPost (p : post)
| SetZeroDim (z : zdconf)
| SetRetrack (f : R)
| SetMidpath (r : R)              (* zero_dim_solve.hpp:398-401 *)
| SetToEndgame (e : Eg)           (* zero_dim_solve.hpp:496-500 *)
| SetTracker (t : R) (k : Tk)     (* settings of GetTracker() *)
| TrackerSetup                    (* DefaultTrackerSetup *)
| SystemSetup                     (* DefaultSystemSetup *)
| Solve.

Definition ostep (o : obj) (op : oop) : obj :=
  match op with
  | SetTolerances t => Obj t (pst o) (zd o) (factor o) (midtol o) (tr o) (eg o) (core o)
  | SetPost p => Obj (tols o) p (zd o) (factor o) (midtol o) (tr o) (eg o) (core o)
  | SetZeroDim z => Obj (tols o) (pst o) z (factor o) (midtol o) (tr o) (eg o) (core o)
  | SetRetrack f => Obj (tols o) (pst o) (zd o) f (midtol o) (tr o) (eg o) (core o)
  | SetMidpath r => Obj (tols o) (pst o) (zd o) (factor o) r (tr o) (eg o) (core o)
  | SetToEndgame e => Obj (tols o) (pst o) (zd o) (factor o) (midtol o) (tr o) e (core o)
  | SetTracker t k => Obj (tols o) (pst o) (zd o) (factor o) (midtol o) (Trk (path_name (tr o)) t k) (eg o) (core o)
  | TrackerSetup => tracker_setup o
  | SystemSetup => system_setup o
  | Solve => run_solve o
  end.
Definition orun (l : list oop) : obj := fold_left ostep l construct.

(** * Specification *)

(** The value of a setting asked for last, or its default *)
Definition asked {A : Type} (read : oop -> option A) (a0 : A) (l : list oop) : A :=
  fold_left (fun a op => match read op with Some x => x | None => a end) l a0.
Definition asked_tols := asked (fun op => match op with SetTolerances t => Some t | _ => None end) default_tols.
Definition asked_post := asked (fun op => match op with SetPost p => Some p | _ => None end) default_post.
Definition asked_zd := asked (fun op => match op with SetZeroDim z => Some z | _ => None end) default_zd.
Definition asked_factor := asked (fun op => match op with SetRetrack f => Some f | _ => None end) default_factor.
Definition asked_mid := asked (fun op => match op with SetMidpath r => Some r | _ => None end) default_mid.
Definition asked_eg := asked (fun op => match op with SetToEndgame e => Some e | _ => None end) eg0.

(** Two histories which differ at most in the final tolerance and the thresholds for real and finite points *)
Definition same_op (a b : oop) : Prop :=
  match a, b with
  | SetTolerances t, SetTolerances t' => t_before t = t_before t' /\ t_during t = t_during t' /\ t_truncation t = t_truncation t'
  | SetPost p, SetPost p' => p_same p = p_same p'
  | _, _ => a = b
  end.
(** ... or also in the truncation threshold and the name of the path variable, if the tracker and the systems are not set
    up again *)
Definition same_op' (a b : oop) : Prop :=
  match a, b with
  | SetTolerances t, SetTolerances t' => t_before t = t_before t' /\ t_during t = t_during t'
  | SetPost p, SetPost p' => p_same p = p_same p'
  | SetZeroDim z, SetZeroDim z' =>
      z_precision z = z_precision z' /\ z_attempts z = z_attempts z' /\ z_start z = z_start z' /\
      z_boundary z = z_boundary z' /\ z_target z = z_target z'
  | TrackerSetup, _ | SystemSetup, _ => False
  | _, _ => a = b
  end.

(** * Proofs *)
Lemma asked_snoc {A} (read : oop -> option A) a0 l op :
  asked read a0 (l ++ [op]) = match read op with Some x => x | None => asked read a0 l end.
Proof. unfold asked. now rewrite fold_left_app. Qed.

Lemma settings_follow l :
  tols (orun l) = asked_tols l /\ pst (orun l) = asked_post l /\ zd (orun l) = asked_zd l /\
  factor (orun l) = asked_factor l /\ midtol (orun l) = asked_mid l /\ eg (orun l) = asked_eg l.
Proof.
  induction l as [|op l IH] using rev_ind; [repeat split|].
  unfold orun, asked_tols, asked_post, asked_zd, asked_factor, asked_mid, asked_eg in *.
  rewrite fold_left_app, !asked_snoc. cbn [fold_left]. destruct IH as (A & B & C1 & D & E & F).
  destruct op; cbn [ostep run_solve tracker_setup system_setup tols pst zd factor midtol eg]; auto 10.
Qed.

Lemma solve_uses l : core (orun (l ++ [Solve])) =
  solve nv num_start_points start_point
    (track (tr (orun l)) (z_precision (asked_zd l)) (z_start (asked_zd l)) (z_boundary (asked_zd l)))
    (endgame (tr (orun l)) (asked_eg l) (z_boundary (asked_zd l)) (z_target (asked_zd l)))
    (t_before (asked_tols l)) (t_during (asked_tols l)) (asked_factor l) (p_same (asked_post l)) (asked_mid l)
    (z_attempts (asked_zd l)) (core (orun l)).
Proof.
  destruct (settings_follow l) as (A & B & C1 & D & E & F). rewrite <- A, <- B, <- C1, <- D, <- E, <- F.
  unfold orun. now rewrite fold_left_app.
Qed.

(** the same object, up to the ineffective settings *)
Definition alike (o o' : obj) : Prop :=
  t_before (tols o) = t_before (tols o') /\ t_during (tols o) = t_during (tols o') /\
  t_truncation (tols o) = t_truncation (tols o') /\ p_same (pst o) = p_same (pst o') /\
  zd o = zd o' /\ factor o = factor o' /\ midtol o = midtol o' /\ tr o = tr o' /\ eg o = eg o' /\ core o = core o'.
Definition alike' (o o' : obj) : Prop :=
  t_before (tols o) = t_before (tols o') /\ t_during (tols o) = t_during (tols o') /\
  p_same (pst o) = p_same (pst o') /\
  z_precision (zd o) = z_precision (zd o') /\ z_attempts (zd o) = z_attempts (zd o') /\ z_start (zd o) = z_start (zd o') /\
  z_boundary (zd o) = z_boundary (zd o') /\ z_target (zd o) = z_target (zd o') /\
  factor o = factor o' /\ midtol o = midtol o' /\ tr o = tr o' /\ eg o = eg o' /\ core o = core o'.

Lemma alike_step o o' a b : alike o o' -> same_op a b -> alike (ostep o a) (ostep o' b).
Proof.
  unfold alike. intros (A & B & C1 & D & E & F & G & H & I & J) S1.
  destruct a, b; cbn [same_op] in S1; try discriminate; try (injection S1 as; subst);
    cbn [ostep run_solve tracker_setup system_setup tols pst zd factor midtol tr eg core]; intuition (try congruence).
Qed.

Lemma alike_step' o o' a b : alike' o o' -> same_op' a b -> alike' (ostep o a) (ostep o' b).
Proof.
  unfold alike'. intros (A & B & D & E1 & E2 & E3 & E4 & E5 & F & G & H & I & J) S1.
  destruct a, b; cbn [same_op'] in S1; try discriminate; try contradiction; try (injection S1 as; subst);
    cbn [ostep run_solve tracker_setup system_setup tols pst zd factor midtol tr eg core]; intuition (try congruence).
Qed.

Lemma alike_run l l' : Forall2 same_op l l' -> alike (orun l) (orun l').
Proof.
  unfold orun. assert (alike construct construct) as H by (unfold alike; tauto). revert H.
  generalize construct at 1 3. generalize construct. intros o' o H F. revert o o' H.
  induction F as [|a b l l' S1 F IH]; intros o o' H; [exact H|]. cbn [fold_left]. apply IH. now apply alike_step.
Qed.
Lemma alike_run' l l' : Forall2 same_op' l l' -> alike' (orun l) (orun l').
Proof.
  unfold orun. assert (alike' construct construct) as H by (unfold alike'; tauto). revert H.
  generalize construct at 1 3. generalize construct. intros o' o H F. revert o o' H.
  induction F as [|a b l l' S1 F IH]; intros o o' H; [exact H|]. cbn [fold_left]. apply IH. now apply alike_step'.
Qed.
End Options.

(** * The choice of the parts at run time *)

(** blackbox/config.hpp:36-38, switches_zerodim.hpp:47-52 *)
Inductive start_type := TotalDegree | MHom | User.
Inductive tracker_type := FixedDouble | FixedMultiple | Adaptive.
Inductive endgame_type := PowerSeries | Cauchy.
Inductive storage_type := CloneGiven | RefToGiven.
Record choice := Choice { c_start : start_type; c_tracker : tracker_type; c_endgame : endgame_type }.
Definition default_choice : choice := Choice TotalDegree Adaptive Cauchy.
(** the template arguments of the solver made *)
Record made := Made { m_start : start_type; m_tracker : tracker_type; m_endgame : endgame_type; m_storage : storage_type }.

(** StorageSelector, blackbox/config.hpp:43-69 *)
Definition should_clone (s : start_type) : bool := match s with User => false | _ => true end.

(** ZeroDimSpecifyComplete and the two ZeroDimSpecifyShouldClone, switches_zerodim.hpp:55-80: the last template argument
    is written out *)
Definition specify_complete (s : start_type) (t : tracker_type) (e : endgame_type) (st : storage_type) : made := Made s t e st.
Definition specify_clone (clone : bool) (s : start_type) (t : tracker_type) (e : endgame_type) : made :=
  if clone then specify_complete s t Cauchy CloneGiven else specify_complete s t Cauchy RefToGiven.
(** switches_zerodim.hpp:83-97 *)
Definition specify_endgame (rt : choice) (s : start_type) (t : tracker_type) : made :=
  match c_endgame rt with
  | PowerSeries => specify_clone (should_clone s) s t PowerSeries
  | Cauchy => specify_clone (should_clone s) s t Cauchy
  end.
(** switches_zerodim.hpp:99-111 *)
Definition specify_tracker (rt : choice) (s : start_type) : made :=
  match c_tracker rt with
  | FixedDouble => specify_endgame rt s FixedDouble
  | FixedMultiple => specify_endgame rt s FixedMultiple
  | Adaptive => specify_endgame rt s Adaptive
  end.
(** MakeZeroDim, switches_zerodim.hpp:113-131; None: throws *)
Definition make_zero_dim (rt : choice) : option made :=
  match c_start rt with
  | TotalDegree => Some (specify_tracker rt TotalDegree)
  | MHom => Some (specify_tracker rt MHom)
  | User => None
  end.
(** MakeUserHom, user_homotopy.hpp:47-58 *)
Definition make_user_hom (rt : choice) : made := specify_tracker rt User.

(** ConsistencyCheck, zero_dim_solve.hpp:326-338: called by the constructor for every kind of storage; false: throws *)
Definition consistent (path_variable : bool) (num_vars num_funs : nat) (polynomial : bool) : bool :=
  negb path_variable && negb (Nat.ltb num_funs num_vars) && polynomial.
