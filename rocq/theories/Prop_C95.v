(** C95: For a linear target the random number of the homotopy may be anything but a positive multiple of finitely many numbers: the
    path then never becomes singular and ends at the solution.  [determined] and [on_rays] are defined in LinearGamma.v. *)
From Coq Require Import String Ascii List ZArith Lia Reals Lra Bool Arith.
From Coquelicot Require Import Complex.
From Verif Require Import Base ComplexField Expr Degree Homog HomogSys Lu Newton Track TrackEx LinearTree LinearPath LinearPathEx
  Patch StartIndex DegreeAll TotalDegree SolveSetup SolveSetupEx LinearSolve LinearSolveEx LinearGamma LinearGammaEx
  PowNode Chars NumLit Parser ParserSpec ParserEx Names SysParser SysParserSpec SysValue TextSolve TextSolveEx LinearText LinearTextEx LinesOnly Prop_C94.
Import ListNotations.
Local Open Scope fld_scope.
Local Opaque CF.

(** The target has linear functions, as many as variables, and one solution [a].  [c] are the coefficients of the patch and [r]
    the random numbers of the start system; neither (1, a) nor (1, r) is to be at infinity of the patch.  Then there are at
    most as many numbers as variables such that for every other direction of the random number [g] the values of the homotopy and of the
    patch determine the point, at every time between 1 and 0. *)
Theorem C95_directions : forall fs rho fresh draw rand s vars a, SolveSetup.ready fs rho fresh s vars -> Forall (linear vars) (fns s) ->
  length a = length vars -> (forall a', length a' = length vars -> (solves fs rho (fns s) vars a' <-> a' = a)) ->
  let c := map (draw 0%nat) (seq 0 (S (length vars))) in
  let r := map rand (seq 0 (length vars)) in
  Patch.inner c (1 :: a) <> 0 -> Patch.inner c (1 :: r) <> 0 ->
  exists rays, (length rays <= length vars)%nat /\
    forall g z, system_setup fs rho fresh draw rand g s = Value z -> g <> 0 -> ~ on_rays rays g ->
    forall t : CF, on_segment (RtoC 1) (RtoC 0) t -> determined fs rho z c t.
Proof.
  intros fs rho fresh draw rand s vars a Hr Hl La Ha c r Hc Hs.
  assert (Tv : exists tv, ~ In tv (fresh 0%nat :: vars)).
  { exists (S (list_max (fresh 0%nat :: vars))). intro H. pose proof (proj1 (list_max_le (fresh 0%nat :: vars) (list_max (fresh 0%nat :: vars))) (Nat.le_refl _)) as M.
    rewrite Forall_forall in M. specialize (M _ H). lia. }
  destruct Tv as [tv Tv].
  destruct (system_setup fs rho fresh draw rand 1 s) as [z1| |] eqn:Hz1.
  - apply (gamma_determined fs rho fresh draw rand s vars tv Hr Hl Tv z1 Hz1).
    + apply (target_determined fs rho fresh draw rand s vars tv Hr Hl Tv z1 Hz1 a La); [apply Ha; [exact La|reflexivity]|intros a' La' Sa'; apply (Ha a' La'); exact Sa'|exact Hc].
    + apply (start_determined fs rho fresh draw rand s vars Hr Hl z1 Hz1). exact Hs.
  - exists []. split; [cbn; lia|]. intros g z Hz. destruct (setup_gamma fs rho fresh draw rand s g 1 z Hz) as [E _]. rewrite Hz1 in E. discriminate E.
  - exists []. split; [cbn; lia|]. intros g z Hz. destruct (setup_gamma fs rho fresh draw rand s g 1 z Hz) as [E _]. rewrite Hz1 in E. discriminate E.
Qed.
Print Assumptions C95_directions.

(** For every such [g] the solver finds the solution: one path, which the tracker follows with whatever successful predictions to the time 0,
    and the point there, divided by its first coordinate, is [a].  (The linear solver's check is taken to accept every matrix.) *)
Theorem C95_solution_found : forall fs rho fresh draw rand s vars a, SolveSetup.ready fs rho fresh s vars -> Forall (linear vars) (fns s) ->
  length a = length vars -> (forall a', length a' = length vars -> (solves fs rho (fns s) vars a' <-> a' = a)) ->
  let c := map (draw 0%nat) (seq 0 (S (length vars))) in
  let r := map rand (seq 0 (length vars)) in
  Patch.inner c (1 :: a) <> 0 -> Patch.inner c (1 :: r) <> 0 ->
  exists rays, (length rays <= length vars)%nat /\
  forall g z, system_setup fs rho fresh draw rand g s = Value z -> g <> 0 -> ~ on_rays rays g ->
  forall tv pick cfg eps truncation going predict tol min max re carried p m,
  ~ In tv (fresh 0%nat :: vars) -> picks_nonzero pick ->
  (forall n x t d, length x = S (length vars) -> exists y, predict n x t d = (Success, y) /\ length y = S (length vars)) ->
  (forall n t x, on_segment (RtoC 1) (RtoC 0) t -> on_patch [c] x -> zero_of fs rho z x t -> truncation && going n x = false) ->
  (0 < tol)%R -> (1 <= min <= max)%Z -> (2 <= max < 2 ^ 32)%Z ->
  let step := first_step cfg re carried (RtoC 1) (RtoC 0) in
  (0 < step)%R -> (min_step_size cfg <= step)%R -> (1 <= INR m * step)%R -> (m <= max_num_steps cfg)%nat -> (eps p < 1)%R ->
  forall fuel, (m < fuel)%nat ->
  num_start_points (degrees (SolveSetup.start z)) = 1%Z /\
  exists x0, start_point (SolveSetup.start z) 0 = Value x0 /\
  exists visited last,
    fixed_track cfg (RtoC 0) eps truncation going predict
      (system_corrector fs rho (homotopy_rows z tv) (SolveSetup.order (prepared z)) tv pick (fun _ => true) tol min max) fuel re carried p (RtoC 1) x0
      = (visited, Finished Success last) /\
    time last = RtoC 0 /\ exists h xs, space last = h :: xs /\ h <> 0 /\ map (fun u => u / h) xs = a.
Proof.
  intros fs rho fresh draw rand s vars a Hr Hl La Ha c r Hc Hs. destruct (C95_directions fs rho fresh draw rand s vars a Hr Hl La Ha Hc Hs) as (rays & Lr & D).
  exists rays. split; [exact Lr|]. intros g z Hz Hg Ng tv pick cfg eps truncation going predict tol min max re carried p m Htv Hpick Hpred Hgo Htol Hmm Hmax step H1 H2 H3 H4 H5 fuel Hf.
  destruct (C94_linear_targets_solved fs rho fresh draw rand g s vars z tv (fun _ => true) pick cfg eps truncation going predict tol min max re carried p m Hr Hl Hz Htv Hg) with (fuel := fuel)
    as (A & x0 & B & l & q & R & T & _ & h & xs & E & Lx & U); try assumption.
  - intros t Ht. apply (rows_regular fs rho fresh draw rand g s vars z tv Hr Hz Htv); [|reflexivity]. intros x y Lx Ly. apply (D g z Hz Hg Ng t Ht); unfold c; rewrite map_length, seq_length; assumption.
  - split; [exact A|]. exists x0. split; [exact B|]. exists l, q. split; [exact R|]. split; [exact T|]. exists h, xs. split; [exact E|].
    assert (Sa : solves fs rho (fns s) vars a) by (apply (Ha a La); reflexivity).
    destruct U as [[Nh U]|[_ U]]; [split; [exact Nh|]; symmetry; apply (U a La); exact Sa|elim (U a La Sa)].
Qed.
Print Assumptions C95_solution_found.

(** The same for texts of degree one: the text has the one solution [a] and, as above, (1, a) and (1, r) are not at infinity of the patch. *)
Theorem C95_text_solution_found : forall fs rho flt special place fresh num prog s d a, funs_ok fs -> (forall n, (0 < n)%Z -> as_int fs (fZ n) = Some n) ->
  square_text num prog s d -> linear_text prog d -> places place fresh (variable_names prog) ->
  let size := length (variable_names prog) in
  length a = size -> (forall a', length a' = size -> (solves_text fs flt special prog a' <-> a' = a)) ->
  exists y n t, parse_system num s = Accepted y /\ (forall k, (n <= k)%nat -> target_of flt special place k y = Some t) /\
  forall draw rand,
  let c := map (draw 0%nat) (seq 0 (S size)) in
  let r := map rand (seq 0 size) in
  Patch.inner c (1 :: a) <> 0 -> Patch.inner c (1 :: r) <> 0 ->
  exists rays, (length rays <= size)%nat /\
  forall g, g <> 0 -> ~ on_rays rays g -> exists z, system_setup fs rho fresh draw rand g t = Value z /\
  forall tv pick cfg eps truncation going predict tol min max re carried p m,
  ~ In tv (fresh 0%nat :: map place (variable_names prog)) -> picks_nonzero pick ->
  (forall n x t d, length x = S size -> exists y, predict n x t d = (Success, y) /\ length y = S size) ->
  (forall n t x, on_segment (RtoC 1) (RtoC 0) t -> on_patch [c] x -> zero_of fs rho z x t -> truncation && going n x = false) ->
  (0 < tol)%R -> (1 <= min <= max)%Z -> (2 <= max < 2 ^ 32)%Z ->
  let step := first_step cfg re carried (RtoC 1) (RtoC 0) in
  (0 < step)%R -> (min_step_size cfg <= step)%R -> (1 <= INR m * step)%R -> (m <= max_num_steps cfg)%nat -> (eps p < 1)%R ->
  forall fuel, (m < fuel)%nat ->
  num_start_points (degrees (SolveSetup.start z)) = 1%Z /\
  exists x0, start_point (SolveSetup.start z) 0 = Value x0 /\
  exists visited last,
    fixed_track cfg (RtoC 0) eps truncation going predict
      (system_corrector fs rho (homotopy_rows z tv) (SolveSetup.order (prepared z)) tv pick (fun _ => true) tol min max) fuel re carried p (RtoC 1) x0
      = (visited, Finished Success last) /\
    time last = RtoC 0 /\ exists h xs, space last = h :: xs /\ h <> 0 /\ map (fun u => u / h) xs = a.
Proof.
  intros fs rho flt special place fresh num prog s d a Hfs Hint H Hl Pl size La Ha.
  destruct (text_target fs flt special place num prog s d H) as (y & n & t & Hy & Ht). exists y, n, t. split; [exact Hy|]. split; [exact Ht|].
  specialize (Ht n (Nat.le_refl n)). intros draw rand c r Hc Hs.
  assert (LV : length (map place (variable_names prog)) = size) by apply map_length.
  pose proof (text_solutions fs rho flt special place fresh num prog s d H Pl y n t Hy Ht) as S.
  pose proof (C95_solution_found fs rho fresh draw rand t (map place (variable_names prog)) a
    (linear_text_ready fs Hfs Hint rho flt special place fresh num prog s d H Hl Pl y n t Hy Ht) (text_linear flt special place num prog s d H Hl y n t Hy Ht)) as K.
  cbv zeta in K. rewrite LV in K.
  destruct K as (rays & Lr & K); [exact La|intros a' La'; etransitivity; [apply (S a' La')|apply (Ha a' La')]|exact Hc|exact Hs|].
  exists rays. split; [exact Lr|]. intros g Ng Fg.
  destruct (text_setup fs Hfs Hint rho flt special place fresh num prog s d H Pl y n t Hy Ht draw rand g) as [z Hz]. exists z. split; [exact Hz|].
  exact (K g z Hz Ng Fg).
Qed.
Print Assumptions C95_text_solution_found.

(** Some direction may indeed have to be left out: for x - 1 and the random number -1 there is a time at which the point is not determined,
    though this target has one solution and neither it nor the start point is at infinity. *)
Theorem C95_a_direction_must_be_left_out : forall fs rho, exists s vars draw rand a g z t,
  SolveSetup.ready fs rho fresh10 s vars /\ Forall (linear vars) (fns s) /\ length a = length vars /\
  (forall a', length a' = length vars -> (solves fs rho (fns s) vars a' <-> a' = a)) /\
  Patch.inner (map (draw 0%nat) (seq 0 (S (length vars)))) (1 :: a) <> 0 /\
  Patch.inner (map (draw 0%nat) (seq 0 (S (length vars)))) (1 :: map rand (seq 0 (length vars))) <> 0 /\
  g <> 0 /\ system_setup fs rho fresh10 draw rand g s = Value z /\ on_segment (RtoC 1) (RtoC 0) t /\
  ~ determined fs rho z (map (draw 0%nat) (seq 0 (S (length vars)))) t.
Proof.
  intros fs rho. destruct (single_setup fs rho (- (1))) as (z & Hz & _). exists single, [0%nat], draw_first, ones, [1], (- (1)), z, half.
  split; [apply single_ready|]. split; [apply single_linear|]. split; [reflexivity|]. split; [intros a' La'; apply (single_solution fs rho a' La')|].
  split; [exact (proj1 single_patch)|]. split; [exact (proj2 single_patch)|]. split; [exact minus_one|]. split; [exact Hz|]. split; [exact half_on|]. exact (single_unlucky fs rho z Hz).
Qed.
Print Assumptions C95_a_direction_must_be_left_out.

(** Whatever the finitely many numbers are, some nonzero [g] is in no direction of theirs, so that the two theorems are never empty. *)
Theorem C95_directions_remain : forall rays, exists g, g <> 0 /\ ~ on_rays rays g.
Proof. intro rays. destruct (direction_free rays) as [k Hk]. exists (direction k). split; [apply direction_not_zero|exact Hk]. Qed.
Print Assumptions C95_directions_remain.

(** The hypotheses are met by the lines x + y = 3 and y - x = 1 with the patch y = 1 and all start numbers 1: some [g] is not on the rays and the
    set-up with it answers a homotopy that determines the point at every time. *)
Example C95_met : forall fs rho,
  SolveSetup.ready fs rho fresh10 meeting [0; 1]%nat /\ Forall (linear [0; 1]%nat) (fns meeting) /\
  (forall a', length a' = 2%nat -> (solves fs rho (fns meeting) [0; 1]%nat a' <-> a' = [1; 1 + 1])) /\
  Patch.inner (map (draw_last 0%nat) (seq 0 3)) (1 :: [1; 1 + 1]) <> 0 /\ Patch.inner (map (draw_last 0%nat) (seq 0 3)) (1 :: map ones (seq 0 2)) <> 0 /\
  (exists g z, g <> 0 /\ system_setup fs rho fresh10 draw_last ones g meeting = Value z /\
    forall t : CF, on_segment (RtoC 1) (RtoC 0) t -> determined fs rho z (map (draw_last 0%nat) (seq 0 3)) t).
Proof.
  intros fs rho.
  assert (A : SolveSetup.ready fs rho fresh10 meeting [0; 1]%nat) by (eapply pair_ready; [reflexivity|left; reflexivity]).
  assert (B : Forall (linear [0; 1]%nat) (fns meeting)) by apply pair_linear.
  assert (D : forall a', length a' = 2%nat -> (solves fs rho (fns meeting) [0; 1]%nat a' <-> a' = [1; 1 + 1])).
  { intros a' La'; split; [apply meeting_only; exact La'|intros ->; apply meeting_solution]. }
  split; [exact A|]. split; [exact B|]. split; [exact D|]. split; [exact (proj1 meeting_patch)|]. split; [exact (proj2 meeting_patch)|].
  destruct (C95_directions fs rho fresh10 draw_last ones meeting [0; 1]%nat [1; 1 + 1] A B eq_refl D (proj1 meeting_patch) (proj2 meeting_patch)) as (rays & _ & G).
  destruct (C95_directions_remain rays) as (g & Ng & Fg). destruct (meeting_setup fs rho) as (z1 & Hz1 & _).
  destruct (setup_gamma fs rho fresh10 draw_last ones meeting 1 g z1 Hz1) as [Hz _].
  eexists g, _. split; [exact Ng|]. split; [exact Hz|]. intros t Ht. exact (G g _ Hz Ng Fg t Ht).
Qed.

(** and by the text s = y-1; f = x+y-3; g = s-x *)
Example C95_text_met : forall flt special,
  square_text dec lines_prog lines_text lines_degrees /\ linear_text lines_prog lines_degrees /\ places conic_place fresh10 (variable_names lines_prog) /\
  (forall a', length a' = 2%nat -> (solves_text cf_funs flt special lines_prog a' <-> a' = [1; 1 + 1])).
Proof.
  intros flt special. split; [exact lines_square|]. split; [exact lines_linear|]. split; [exact lines_places|]. intros a' La'.
  split; [apply lines_only; exact La'|intros ->; apply lines_solution].
Qed.
