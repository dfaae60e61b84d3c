(** C93: Paths of homotopies which are linear in the unknowns are tracked to their end, whatever the predictor answers. *)
From Coq Require Import List ZArith Lia Reals Lra Bool Arith.
From Coquelicot Require Import Complex.
From Verif Require Import Base ComplexField Expr Diff Lu Newton Track TrackEx LinearTree LinearPath LinearPathEx.
Import ListNotations.
Local Open Scope R_scope.

(** Let every function be linear in the unknowns (its coefficients arithmetic expressions in the time and in constants), as many
    functions as unknowns, and let the functions be defined at every time of the segment, their values there determine the
    point, and the linear solver accept the matrix.  Then whatever successful predictions are made, for every positive
    tolerance and at least two allowed Newton iterations, with step sizes which cover the segment in [m] steps, the tracker
    answers Success after at most [m] steps, none of which failed, and every point after the start is an exact solution. *)
Theorem C93_linear_paths_tracked : forall (fs : funs CF) (rho : env CF) functions unknowns path_variable pick lu_accepts
    cfg start endt eps truncation going predict tol min max re carried p x0 m,
  NoDup unknowns -> Forall (linear unknowns) functions -> length functions = length unknowns -> picks_nonzero pick ->
  let N := length unknowns in
  let solution := solution fs rho functions unknowns path_variable in
  (forall t, on_segment start endt t -> regular_at fs rho functions unknowns path_variable lu_accepts t) ->
  (forall n x t d, length x = N -> exists y, predict n x t d = (Success, y) /\ length y = N) ->
  (forall n t z, on_segment start endt t -> solution t z -> truncation && going n z = false) ->
  0 < tol -> (1 <= min <= max)%Z -> (2 <= max < 2 ^ 32)%Z ->
  let h := first_step cfg re carried start endt in
  0 < h -> min_step_size cfg <= h -> Cmod (endt - start)%C <= INR m * h -> (m <= max_num_steps cfg)%nat ->
  length x0 = N ->
  forall fuel, (m < fuel)%nat ->
  exists visited s,
    fixed_track cfg endt eps truncation going predict
      (system_corrector fs rho functions unknowns path_variable pick lu_accepts tol min max) fuel re carried p start x0
      = (visited, Finished Success s) /\
    In s visited /\ within (time s) endt (eps p) /\ nfail s = 0%nat /\ (nsucc s <= m)%nat /\
    Forall (fun q => on_segment start endt (time q) /\ (time q = start /\ space q = x0 \/ solution (time q) (space q))) visited.
Proof.
  intros fs rho functions unknowns path_variable pick lu_accepts cfg start endt eps truncation going predict tol min max re carried p x0 m
    Hnd Hlin Hsq Hpick N sol.
  exact (linear_path_tracked fs rho functions unknowns path_variable Hnd Hlin Hsq pick lu_accepts Hpick cfg start endt eps truncation going
    predict tol min max re carried p x0 m).
Qed.
Print Assumptions C93_linear_paths_tracked.

(** Towards the time 0 the run ends at the time 0, at the only solution there is. *)
Theorem C93_linear_paths_to_zero : forall (fs : funs CF) (rho : env CF) functions unknowns path_variable pick lu_accepts
    cfg start eps truncation going predict tol min max re carried p x0 m,
  NoDup unknowns -> Forall (linear unknowns) functions -> length functions = length unknowns -> picks_nonzero pick ->
  let N := length unknowns in
  let solution := solution fs rho functions unknowns path_variable in
  (forall t, on_segment start (RtoC 0) t -> regular_at fs rho functions unknowns path_variable lu_accepts t) ->
  (forall n x t d, length x = N -> exists y, predict n x t d = (Success, y) /\ length y = N) ->
  (forall n t z, on_segment start (RtoC 0) t -> solution t z -> truncation && going n z = false) ->
  0 < tol -> (1 <= min <= max)%Z -> (2 <= max < 2 ^ 32)%Z ->
  let h := first_step cfg re carried start (RtoC 0) in
  0 < h -> min_step_size cfg <= h -> Cmod start <= INR m * h -> (m <= max_num_steps cfg)%nat ->
  length x0 = N -> start <> RtoC 0 -> eps p < 1 ->
  forall fuel, (m < fuel)%nat ->
  exists visited s,
    fixed_track cfg (RtoC 0) eps truncation going predict
      (system_corrector fs rho functions unknowns path_variable pick lu_accepts tol min max) fuel re carried p start x0
      = (visited, Finished Success s) /\
    time s = RtoC 0 /\ solution (RtoC 0) (space s) /\ (forall z, solution (RtoC 0) z -> z = space s).
Proof.
  intros fs rho functions unknowns path_variable pick lu_accepts cfg start eps truncation going predict tol min max re carried p x0 m
    Hnd Hlin Hsq Hpick N sol.
  exact (linear_path_to_zero fs rho functions unknowns path_variable Hnd Hlin Hsq pick lu_accepts Hpick cfg start eps truncation going
    predict tol min max re carried p x0 m).
Qed.
Print Assumptions C93_linear_paths_to_zero.

(** One correction is enough from anywhere: Correct answers Success with a solution from every point with the right number of
    coordinates. *)
Theorem C93_corrector_finds_the_solution : forall (fs : funs CF) (rho : env CF) functions unknowns path_variable pick lu_accepts
    tol min max n t y,
  NoDup unknowns -> Forall (linear unknowns) functions -> length functions = length unknowns -> picks_nonzero pick ->
  regular_at fs rho functions unknowns path_variable lu_accepts t ->
  0 < tol -> (1 <= min <= max)%Z -> (2 <= max < 2 ^ 32)%Z -> length y = length unknowns ->
  exists z, system_corrector fs rho functions unknowns path_variable pick lu_accepts tol min max n y t = (Success, z) /\
    solution fs rho functions unknowns path_variable t z /\
    forall z', solution fs rho functions unknowns path_variable t z' -> z' = z.
Proof.
  intros fs rho functions unknowns path_variable pick lu_accepts tol min max n t y Hnd Hlin Hsq Hpick Hr Ht Hm Hx Hy.
  destruct (corrector_succeeds fs rho functions unknowns path_variable Hnd Hlin Hsq pick lu_accepts Hpick t tol min max n y Hr Ht Hm Hx Hy) as [z [Ez Sz]].
  exists z. split; [exact Ez|]. split; [exact Sz|]. intros z' Hz'.
  exact (solution_unique fs rho functions unknowns path_variable lu_accepts t z' z Hr Hz' Sz).
Qed.
Print Assumptions C93_corrector_finds_the_solution.

(** (1-t)(x + y - 3) + t(x - 1) and (1-t)(y - x - 1) + t(y - 1) from the point (1, 1) at the time 1, or from any other, with a
    predictor which does not move: the hypotheses are met, and the tracker ends at (1, 2). *)
Example C93_hypotheses_met : forall fs tol x0, 0 < tol -> length x0 = 2%nat ->
  Forall (linear [0; 1]%nat) lines /\
  (forall t, on_segment (RtoC 1) (RtoC 0) t -> regular_at fs nothing lines [0; 1]%nat 2 accepts_all t) /\
  exists visited s,
    fixed_track demo (RtoC 0) tiny_eps true never_far stays
      (system_corrector fs nothing lines [0; 1]%nat 2 first_nonzero accepts_all tol 1 2) 2 true 0 16 (RtoC 1) x0
      = (visited, Finished Success s) /\ time s = RtoC 0 /\ space s = [RtoC 1; RtoC 2].
Proof.
  intros fs tol x0 Ht Hx0. split; [exact lines_linear|]. split; [exact (lines_regular fs)|].
  assert (Nd : NoDup [0; 1]%nat) by (constructor; [intros [H|[]]; discriminate|constructor; [intros []|constructor]]).
  assert (H1 : first_step demo true 0 (RtoC 1) (RtoC 0) = 1) by exact demo_first.
  destruct (C93_linear_paths_to_zero fs nothing lines [0; 1]%nat 2 first_nonzero accepts_all demo (RtoC 1) tiny_eps true never_far stays
    tol 1 2 true 0 16 x0 1 Nd lines_linear eq_refl (first_nonzero_picks CF) (lines_regular fs)) with (fuel := 2%nat)
    as [l [s [R [T [_ U]]]]].
  - intros n x t d Hx. exists x. split; [reflexivity|exact Hx].
  - reflexivity.
  - exact Ht.
  - lia.
  - lia.
  - rewrite H1. lra.
  - rewrite H1. cbn. lra.
  - rewrite H1, Cmod_1. cbn. lra.
  - cbn. lia.
  - exact Hx0.
  - intro E. apply RtoC_inj in E. lra.
  - unfold tiny_eps. lra.
  - lia.
  - exists l, s. split; [exact R|]. split; [exact T|]. symmetry. apply U. exact (lines_at_zero fs).
Qed.
