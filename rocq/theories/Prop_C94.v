(** C94: A linear target is solved: the solver tracks one path, it ends at the time 0, and the end point is the solution of the
    target, or at infinity if there is none. *)
From Coq Require Import String Ascii List ZArith Lia Reals Lra Bool Arith.
From Coquelicot Require Import Complex.
From Verif Require Import Base ComplexField Expr Degree Homog HomogSys Lu Newton Track TrackEx LinearTree LinearPath LinearPathEx
  Patch StartIndex DegreeAll TotalDegree SolveSetup SolveSetupEx LinearSolve LinearSolveEx
  PowNode Chars NumLit Parser ParserSpec ParserEx Names SysParser SysParserSpec SysValue TextSolve TextSolveEx LinearText LinearTextEx.
Import ListNotations.
Local Open Scope fld_scope.
Local Opaque CF.

(** The rows which are evaluated at a point [x] and a time [t] have the values of the homotopy (C89) and, as the last one, the
    value of the patch equation: for every target which the set-up accepts. *)
Theorem C94_rows : forall fs rho fresh draw rand g s vars z tv, SolveSetup.ready fs rho fresh s vars ->
  system_setup fs rho fresh draw rand g s = Value z -> ~ In tv (fresh 0%nat :: vars) ->
  forall t x, length x = S (length vars) ->
  exists v, homotopy_values fs rho z x t = Some v /\
    LinearPath.function_values fs rho (homotopy_rows z tv) (SolveSetup.order (prepared z)) tv t x
      = Some (v ++ [Patch.inner (map (draw 0%nat) (seq 0 (S (length vars)))) x - 1]).
Proof. exact rows_meaning. Qed.
Print Assumptions C94_rows.

(** Let the target have linear functions, as many as variables.  [g] is the random number in the homotopy, and at each time
    between 1 and 0 the values of the homotopy and of the patch equation determine the point ([regular_at], C93).  Then there is
    one start point, and from it the tracker, with whatever successful predictions, answers Success at the time 0, at a point
    (h, xs) of the patch.  Either h is not 0 and xs/h is the only solution of the target, or h is 0 and the target has none. *)
Theorem C94_linear_targets_solved : forall fs rho fresh draw rand g s vars z tv lu_accepts pick
    cfg eps truncation going predict tol min max re carried p m,
  SolveSetup.ready fs rho fresh s vars -> Forall (linear vars) (fns s) ->
  system_setup fs rho fresh draw rand g s = Value z -> ~ In tv (fresh 0%nat :: vars) -> g <> 0 ->
  let c := map (draw 0%nat) (seq 0 (S (length vars))) in
  let rows := homotopy_rows z tv in
  let us := SolveSetup.order (prepared z) in
  (forall t, on_segment (RtoC 1) (RtoC 0) t -> regular_at fs rho rows us tv lu_accepts t) ->
  picks_nonzero pick ->
  (forall n x t d, length x = S (length vars) -> exists y, predict n x t d = (Success, y) /\ length y = S (length vars)) ->
  (forall n t x, on_segment (RtoC 1) (RtoC 0) t -> on_patch [c] x -> zero_of fs rho z x t -> truncation && going n x = false) ->
  (0 < tol)%R -> (1 <= min <= max)%Z -> (2 <= max < 2 ^ 32)%Z ->
  let step := first_step cfg re carried (RtoC 1) (RtoC 0) in
  (0 < step)%R -> (min_step_size cfg <= step)%R -> (1 <= INR m * step)%R -> (m <= max_num_steps cfg)%nat -> (eps p < 1)%R ->
  forall fuel, (m < fuel)%nat ->
  num_start_points (degrees (SolveSetup.start z)) = 1%Z /\
  exists x0, start_point (SolveSetup.start z) 0 = Value x0 /\
  exists visited last,
    fixed_track cfg (RtoC 0) eps truncation going predict (system_corrector fs rho rows us tv pick lu_accepts tol min max)
      fuel re carried p (RtoC 1) x0 = (visited, Finished Success last) /\
    time last = RtoC 0 /\ on_patch [c] (space last) /\
    exists h xs, space last = h :: xs /\ length xs = length vars /\
      ((h <> 0 /\ forall a, length a = length vars -> (solves fs rho (fns s) vars a <-> a = map (fun u => u / h) xs)) \/
       (h = 0 /\ forall a, length a = length vars -> ~ solves fs rho (fns s) vars a)).
Proof.
  intros fs rho fresh draw rand g s vars z tv lu_accepts pick cfg eps truncation going predict tol min max re carried p m
    Hready Hlin Hz Htv Hg c rows us Hreg Hpick.
  exact (linear_target_solved fs rho fresh draw rand g s vars z tv Hready Hz Htv Hlin lu_accepts Hreg Hg pick
    cfg eps truncation going predict tol min max re carried p m Hpick).
Qed.
Print Assumptions C94_linear_targets_solved.

(** The hypotheses are met by the lines x + y = 3 and y - x = 1, where the point found is the solution (1, 2), and by the
    parallel lines x + y = 1 and x + y = 2, where the path ends at infinity. *)
Example C94_met : forall fs rho tol, (0 < tol)%R ->
  (exists z, system_setup fs rho fresh10 draw_last ones 1 meeting = Value z /\
   exists x0 visited last, start_point (SolveSetup.start z) 0 = Value x0 /\
     fixed_track demo (RtoC 0) tiny_eps true never_far stays
       (system_corrector fs rho (homotopy_rows z 2) (SolveSetup.order (prepared z)) 2 first_nonzero accepts_all tol 1 2) 2 true 0 16 (RtoC 1) x0
       = (visited, Finished Success last) /\ time last = RtoC 0 /\
     exists h xs, space last = h :: xs /\ h <> 0 /\ map (fun u => u / h) xs = [1; 1 + 1]) /\
  (exists z, system_setup fs rho fresh10 draw_last ones 1 parallel = Value z /\
   exists x0 visited last, start_point (SolveSetup.start z) 0 = Value x0 /\
     fixed_track demo (RtoC 0) tiny_eps true never_far stays
       (system_corrector fs rho (homotopy_rows z 2) (SolveSetup.order (prepared z)) 2 first_nonzero accepts_all tol 1 2) 2 true 0 16 (RtoC 1) x0
       = (visited, Finished Success last) /\ time last = RtoC 0 /\
     exists h xs, space last = h :: xs /\ h = 0).
Proof.
  intros fs rho tol Ht. assert (H1 : first_step demo true 0 (RtoC 1) (RtoC 0) = 1%R) by exact demo_first.
  assert (Tv : ~ In 2%nat (fresh10 0 :: [0; 1]%nat)) by (cbn; unfold fresh10; lia).
  assert (K : forall s z, SolveSetup.ready fs rho fresh10 s [0; 1]%nat -> Forall (linear [0; 1]%nat) (fns s) -> system_setup fs rho fresh10 draw_last ones 1 s = Value z ->
    (forall t, on_segment (RtoC 1) (RtoC 0) t -> regular_at fs rho (homotopy_rows z 2) (SolveSetup.order (prepared z)) 2 accepts_all t) ->
    exists x0 visited last, start_point (SolveSetup.start z) 0 = Value x0 /\
     fixed_track demo (RtoC 0) tiny_eps true never_far stays
       (system_corrector fs rho (homotopy_rows z 2) (SolveSetup.order (prepared z)) 2 first_nonzero accepts_all tol 1 2) 2 true 0 16 (RtoC 1) x0
       = (visited, Finished Success last) /\ time last = RtoC 0 /\
     exists h xs, space last = h :: xs /\ length xs = 2%nat /\
      ((h <> 0 /\ forall a, length a = 2%nat -> (solves fs rho (fns s) [0; 1]%nat a <-> a = map (fun u => u / h) xs)) \/
       (h = 0 /\ forall a, length a = 2%nat -> ~ solves fs rho (fns s) [0; 1]%nat a))).
  { intros s z Hr Hl Hz Hg.
    destruct (C94_linear_targets_solved fs rho fresh10 draw_last ones 1 s [0; 1]%nat z 2 accepts_all first_nonzero demo tiny_eps true never_far stays
      tol 1 2 true 0 16 1 Hr Hl Hz Tv (@f1_neq_f0 CF) Hg (first_nonzero_picks CF)) with (fuel := 2%nat)
      as [_ [x0 [E [l [q [R [T [_ U]]]]]]]].
    - intros n x t d Hx. exists x. split; [reflexivity|exact Hx].
    - reflexivity.
    - exact Ht.
    - lia.
    - lia.
    - rewrite H1. lra.
    - rewrite H1. cbn. lra.
    - rewrite H1. cbn. lra.
    - cbn. lia.
    - unfold tiny_eps. lra.
    - lia.
    - exists x0, l, q. split; [exact E|]. split; [exact R|]. split; [exact T|exact U]. }
  split.
  - destruct (meeting_setup fs rho) as [z [Hz _]]. exists z. split; [exact Hz|].
    destruct (K meeting z) as (x0 & l & q & E & R & T & h & xs & Eq & Lx & [[Nh U]|[Eh U]]); [eapply pair_ready; [reflexivity|left; reflexivity]|apply pair_linear|exact Hz|exact (meeting_regular fs rho z Hz)| |].
    + exists x0, l, q. split; [exact E|]. split; [exact R|]. split; [exact T|]. exists h, xs. split; [exact Eq|]. split; [exact Nh|].
      symmetry. apply (U [1; 1 + 1] eq_refl). apply meeting_solution.
    + elim (U [1; 1 + 1] eq_refl). apply meeting_solution.
  - destruct (parallel_setup fs rho) as [z [Hz _]]. exists z. split; [exact Hz|].
    destruct (K parallel z) as (x0 & l & q & E & R & T & h & xs & Eq & Lx & [[Nh U]|[Eh U]]); [eapply pair_ready; [reflexivity|right; reflexivity]|apply pair_linear|exact Hz|exact (parallel_regular fs rho z Hz)| |].
    + assert (Lm : length (map (fun u => u / h) xs) = 2%nat) by (rewrite map_length; exact Lx).
      elim (parallel_nothing fs rho (map (fun u => u / h) xs) Lm). apply (U _ Lm). reflexivity.
    + exists x0, l, q. split; [exact E|]. split; [exact R|]. split; [exact T|]. exists h, xs. split; [exact Eq|exact Eh].
Qed.

(** The same for texts: every function has degree one and no powers are written ([linear_text]), and the text is as in C92
    ([square_text]).  [y] is what the parser has made of the text, [t] the target. *)
Theorem C94_linear_texts_solved : forall fs rho flt special place fresh num prog s d, funs_ok fs -> (forall n, (0 < n)%Z -> as_int fs (fZ n) = Some n) ->
  square_text num prog s d -> linear_text prog d -> places place fresh (variable_names prog) ->
  exists y n t, parse_system num s = Accepted y /\ (forall k, (n <= k)%nat -> target_of flt special place k y = Some t) /\
  forall draw rand g, exists z, system_setup fs rho fresh draw rand g t = Value z /\
  forall tv lu_accepts pick cfg eps truncation going predict tol min max re carried p m,
  ~ In tv (fresh 0%nat :: map place (variable_names prog)) -> g <> 0 ->
  let size := length (variable_names prog) in
  let c := map (draw 0%nat) (seq 0 (S size)) in
  let rows := homotopy_rows z tv in
  let us := SolveSetup.order (prepared z) in
  (forall t, on_segment (RtoC 1) (RtoC 0) t -> regular_at fs rho rows us tv lu_accepts t) ->
  picks_nonzero pick ->
  (forall n x t d, length x = S size -> exists y, predict n x t d = (Success, y) /\ length y = S size) ->
  (forall n t x, on_segment (RtoC 1) (RtoC 0) t -> on_patch [c] x -> zero_of fs rho z x t -> truncation && going n x = false) ->
  (0 < tol)%R -> (1 <= min <= max)%Z -> (2 <= max < 2 ^ 32)%Z ->
  let step := first_step cfg re carried (RtoC 1) (RtoC 0) in
  (0 < step)%R -> (min_step_size cfg <= step)%R -> (1 <= INR m * step)%R -> (m <= max_num_steps cfg)%nat -> (eps p < 1)%R ->
  forall fuel, (m < fuel)%nat ->
  num_start_points (degrees (SolveSetup.start z)) = 1%Z /\
  exists x0, start_point (SolveSetup.start z) 0 = Value x0 /\
  exists visited last,
    fixed_track cfg (RtoC 0) eps truncation going predict (system_corrector fs rho rows us tv pick lu_accepts tol min max)
      fuel re carried p (RtoC 1) x0 = (visited, Finished Success last) /\
    time last = RtoC 0 /\ on_patch [c] (space last) /\
    exists h xs, space last = h :: xs /\ length xs = size /\
      ((h <> 0 /\ forall a, length a = size -> (solves_text fs flt special prog a <-> a = map (fun u => u / h) xs)) \/
       (h = 0 /\ forall a, length a = size -> ~ solves_text fs flt special prog a)).
Proof.
  intros fs rho flt special place fresh num prog s d Hfs Hint H Hl Pl.
  destruct (text_target fs flt special place num prog s d H) as (y & n & t & Hy & Ht). exists y, n, t. split; [exact Hy|]. split; [exact Ht|].
  specialize (Ht n (Nat.le_refl n)). intros draw rand g.
  destruct (text_setup fs Hfs Hint rho flt special place fresh num prog s d H Pl y n t Hy Ht draw rand g) as [z Hz]. exists z. split; [exact Hz|].
  intros tv lu_accepts pick cfg eps truncation going predict tol min max re carried p m Htv Hg size c rows us Hreg Hpick Hpred Hgo Htol Hmin Hmax step H1 H2 H3 H4 H5 fuel Hf.
  assert (LV : length (map place (variable_names prog)) = size) by apply map_length.
  pose proof (C94_linear_targets_solved fs rho fresh draw rand g t (map place (variable_names prog)) z tv lu_accepts pick cfg eps truncation going predict tol min max re carried p m
    (linear_text_ready fs Hfs Hint rho flt special place fresh num prog s d H Hl Pl y n t Hy Ht) (text_linear flt special place num prog s d H Hl y n t Hy Ht) Hz Htv Hg) as K.
  cbv zeta in K. rewrite LV in K.
  destruct (K Hreg Hpick Hpred Hgo Htol Hmin Hmax H1 H2 H3 H4 H5 fuel Hf) as (A & x0 & B & l & q & R & T & O & h & xs & E & L & U).
  split; [exact A|]. exists x0. split; [exact B|]. exists l, q. split; [exact R|]. split; [exact T|]. split; [exact O|]. exists h, xs. split; [exact E|]. split; [exact L|].
  pose proof (text_solutions fs rho flt special place fresh num prog s d H Pl y n t Hy Ht) as S.
  destruct U as [[Nh U]|[Eh U]]; [left|right]; (split; [assumption|]); intros a La.
  - rewrite <- (S a La). exact (U a La).
  - rewrite <- (S a La). exact (U a La).
Qed.
Print Assumptions C94_linear_texts_solved.

(** The hypotheses are met by s = y-1; f = x+y-3; g = s-x: the tracked point is the solution (1, 2). *)
Example C94_text_met : forall rho flt special tol, (0 < tol)%R ->
  square_text dec lines_prog lines_text lines_degrees /\ linear_text lines_prog lines_degrees /\ places conic_place fresh10 (variable_names lines_prog) /\
  exists y t z, parse_system dec lines_text = Accepted y /\ target_of flt special conic_place 2 y = Some t /\
    system_setup cf_funs rho fresh10 draw_last ones 1 t = Value z /\
  exists x0 visited last, start_point (SolveSetup.start z) 0 = Value x0 /\
    fixed_track demo (RtoC 0) tiny_eps true never_far stays
      (system_corrector cf_funs rho (homotopy_rows z 2) (SolveSetup.order (prepared z)) 2 first_nonzero accepts_all tol 1 2) 2 true 0 16 (RtoC 1) x0
      = (visited, Finished Success last) /\ time last = RtoC 0 /\
    exists h xs, space last = h :: xs /\ h <> 0 /\ map (fun u => u / h) xs = [1; 1 + 1].
Proof.
  intros rho flt special tol Htol. split; [exact lines_square|]. split; [exact lines_linear|]. split; [exact lines_places|].
  assert (H1 : first_step demo true 0 (RtoC 1) (RtoC 0) = 1%R) by exact demo_first.
  destruct (C94_linear_texts_solved cf_funs rho flt special conic_place fresh10 dec lines_prog lines_text lines_degrees cf_funs_ok (fun n _ => cf_as_int_fZ n)
    lines_square lines_linear lines_places) as (y & n & t & Hy & Ht & K).
  destruct lines_parsed as (y' & Hy' & Ht'). rewrite Hy in Hy'. injection Hy' as <-.
  assert (t = lines_target) as -> by (specialize (Ht (n + 2)%nat ltac:(lia)); rewrite Nat.add_comm in Ht; cbn [Nat.add] in Ht; rewrite Ht' in Ht; injection Ht as <-; reflexivity).
  destruct (K draw_last ones 1) as (z & Hz & R). clear K. exists y, lines_target, z. split; [exact Hy|]. split; [apply Ht'|]. split; [exact Hz|].
  assert (Hr : SolveSetup.ready cf_funs rho fresh10 lines_target [0; 1]%nat).
  { exact (linear_text_ready cf_funs cf_funs_ok (fun n _ => cf_as_int_fZ n) rho flt special conic_place fresh10 dec lines_prog lines_text lines_degrees
      lines_square lines_linear lines_places y 2 lines_target Hy (Ht' flt special O)). }
  destruct (R 2%nat accepts_all first_nonzero demo tiny_eps true never_far stays tol 1%Z 2%Z true 0%R 16%Z 1%nat) with (fuel := 2%nat)
    as [_ [x0 [E [l [q [Ru [T [_ [h [xs [Es [Lx [[Nh U]|[Eh U]]]]]]]]]]]]]].
  - cbn. unfold fresh10. lia.
  - apply (@f1_neq_f0 CF).
  - exact (lines_regular cf_funs rho z Hr Hz).
  - exact (first_nonzero_picks CF).
  - intros k x u e Hx. exists x. split; [reflexivity|exact Hx].
  - reflexivity.
  - exact Htol.
  - lia.
  - lia.
  - rewrite H1. lra.
  - rewrite H1. cbn. lra.
  - rewrite H1. cbn. lra.
  - cbn. lia.
  - unfold tiny_eps. lra.
  - lia.
  - exists x0, l, q. split; [exact E|]. split; [exact Ru|]. split; [exact T|]. exists h, xs. split; [exact Es|]. split; [exact Nh|].
    symmetry. apply (U [1; 1 + 1] eq_refl). apply lines_solution.
  - elim (U [1; 1 + 1] eq_refl). apply lines_solution.
Qed.
