(** C89: what the zero-dimensional solver sets up from the target it is given: the paths start at all solutions of the
    start system on the patch, and they end at the solutions of the target. *)
From Coq Require Import List Arith Lia ZArith.
From Verif Require Import Base Poly Expr Degree Homog HomogSys Patch ComplexField StartIndex DegreeAll TotalDegree SolveSetup SolveSetupEx PowNode.
Import ListNotations.
Local Open Scope fld_scope.
Local Opaque CF.

(** For a square target in one affine group, each function a polynomial of degree at least one written without sums
    below a minus sign or a power, the set-up succeeds, whatever the random numbers. *)
Theorem C89_set_up_partial : forall fs rho fresh draw rand g s vars, ready fs rho fresh s vars ->
  (forall f, In f (fns s) -> expanded vars f) ->
  exists z, system_setup fs rho fresh draw rand g s = Value z.
Proof. exact setup_works. Qed.
Print Assumptions C89_set_up_partial.

(** The points have the homogenizing variable as first coordinate, and there is one path for each combination of roots,
    that is the product of the degrees.  From here on the functions may have sums below a minus sign or a power, if these
    mention one variable only; it is not known that the set-up succeeds. *)
Theorem C89_number_partial : forall fs rho fresh draw rand g s vars z, ready fs rho fresh s vars ->
  system_setup fs rho fresh draw rand g s = Value z ->
    order (prepared z) = fresh 0%nat :: vars /\
    num_start_points (degrees (start z)) = fold_right Z.mul 1%Z (map (gdegree fs rho vars) (fns s)).
Proof.
  intros fs rho fresh draw rand g s vars z H E. pose proof (setup_good fs rho fresh draw rand g s vars z H E) as G. split; [apply (gs_order _ _ _ _ _ _ _ _ _ G)|]. exact (good_number _ _ _ _ _ _ _ _ _ G).
Qed.
Print Assumptions C89_number_partial.

(** Every start point is a zero of the homotopy at t = 1 and lies on the patch. *)
Theorem C89_starts_partial : forall fs rho fresh draw rand g s vars z, ready fs rho fresh s vars ->
  system_setup fs rho fresh draw rand g s = Value z ->
  forall i x, (0 <= i < num_start_points (degrees (start z)))%Z -> start_point (start z) i = Value x ->
  length x = S (length vars) /\ on_patch [map (draw 0%nat) (seq 0 (S (length vars)))] x /\ zero_of fs rho z x 1.
Proof.
  intros fs rho fresh draw rand g s vars z H E i x Hi Hx. pose proof (setup_good fs rho fresh draw rand g s vars z H E) as G. apply (good_starts _ _ _ _ _ _ _ _ _ G i x); [|exact Hx].
  rewrite (good_number _ _ _ _ _ _ _ _ _ G) in Hi. exact Hi.
Qed.
Print Assumptions C89_starts_partial.

(** And there are no others: every zero of the homotopy at t = 1 on the patch is a start point, of one index only. *)
Theorem C89_all_starts_partial : forall fs rho fresh draw rand g s vars z, ready fs rho fresh s vars ->
  system_setup fs rho fresh draw rand g s = Value z -> g <> 0 -> (forall k, rand k <> 0) ->
  forall x, length x = S (length vars) -> on_patch [map (draw 0%nat) (seq 0 (S (length vars)))] x -> zero_of fs rho z x 1 ->
  exists! i, (0 <= i < num_start_points (degrees (start z)))%Z /\ start_point (start z) i = Value x.
Proof.
  intros fs rho fresh draw rand g s vars z H E Hg Hr x Lx Ox Zx. pose proof (setup_good fs rho fresh draw rand g s vars z H E) as G. rewrite (good_number _ _ _ _ _ _ _ _ _ G).
  destruct (good_complete _ _ _ _ _ _ _ _ _ G Hg x Lx Ox Zx) as [i [Hi Ei]]. exists i. split; [split; [exact Hi|exact Ei]|].
  intros j [Hj Ej]. apply (good_distinct _ _ _ _ _ _ _ _ _ G) with (x := x); try assumption.
  apply Forall_forall. intros r Hi'. apply in_map_iff in Hi'. destruct Hi' as [k [<- _]]. apply Hr.
Qed.
Print Assumptions C89_all_starts_partial.

(** The other end: a finite point is a zero of the homotopy at t = 0 exactly if, divided by its homogenizing coordinate,
    it solves the target. *)
Theorem C89_ends_partial : forall fs rho fresh draw rand g s vars z, ready fs rho fresh s vars ->
  system_setup fs rho fresh draw rand g s = Value z ->
  forall h xs, h <> 0 -> length xs = length vars ->
  (zero_of fs rho z (h :: xs) 0 <-> solves fs rho (fns s) vars (map (fun a => a / h) xs)).
Proof.
  intros fs rho fresh draw rand g s vars z H E h xs Hh Hx. pose proof (setup_good fs rho fresh draw rand g s vars z H E) as G. exact (good_ends _ _ _ _ _ _ _ _ _ G h xs Hh Hx).
Qed.
Print Assumptions C89_ends_partial.

(** No solution is missing: each one which the patch does not send to infinity is the image of one zero on the patch. *)
Theorem C89_every_solution_partial : forall fs rho fresh draw rand g s vars z, ready fs rho fresh s vars ->
  system_setup fs rho fresh draw rand g s = Value z ->
  forall a, length a = length vars -> solves fs rho (fns s) vars a -> inner (map (draw 0%nat) (seq 0 (S (length vars)))) (1 :: a) <> 0 ->
  exists! x, length x = S (length vars) /\ on_patch [map (draw 0%nat) (seq 0 (S (length vars)))] x /\ zero_of fs rho z x 0 /\
    exists h xs, x = h :: xs /\ h <> 0 /\ map (fun u => u / h) xs = a.
Proof.
  intros fs rho fresh draw rand g s vars z H E a La Ha Hc. pose proof (setup_good fs rho fresh draw rand g s vars z H E) as G. destruct (good_reaches _ _ _ _ _ _ _ _ _ G a La Ha Hc) as (x & Lx & Ox & Zx & h & xs & Ex & Hh & Em).
  exists x. split; [split; [exact Lx|]; split; [exact Ox|]; split; [exact Zx|]; exists h, xs; split; [exact Ex|]; split; [exact Hh|exact Em]|].
  intros y (Ly & Oy & _ & k & ys & Ey & Hk & Ek). subst x y. cbn [length] in Lx, Ly.
  apply (on_patch_unique _ _ _ _ _ _ _ _ _ G); try assumption; try lia. congruence.
Qed.
Print Assumptions C89_every_solution_partial.

(** At every time the homotopy is homogeneous, each function of its own degree: which patch is chosen does not matter. *)
Theorem C89_homogeneous_partial : forall fs rho fresh draw rand g s vars z, ready fs rho fresh s vars ->
  system_setup fs rho fresh draw rand g s = Value z ->
  forall x t l, length x = S (length vars) -> exists v, homotopy_values fs rho z x t = Some v /\
  homotopy_values fs rho z (map (fmul l) x) t
  = Some (map (fun p => fpow l (fst p) * snd p) (combine (map (fun f => Z.to_nat (gdegree fs rho vars f)) (fns s)) v)).
Proof.
  intros fs rho fresh draw rand g s vars z H E x t l Lx. pose proof (setup_good fs rho fresh draw rand g s vars z H E) as G. destruct (good_defined _ _ _ _ _ _ _ _ _ G x t) as [v Ev].
  destruct (good_defined _ _ _ _ _ _ _ _ _ G (map (fmul l) x) t) as [w Ew].
  exists v. split; [exact Ev|]. rewrite Ew. f_equal. exact (good_homogeneous _ _ _ _ _ _ _ _ _ G x t l v w Lx Ev Ew).
Qed.
Print Assumptions C89_homogeneous_partial.

(** Targets with power nodes b^n, n a positive integer, as the parser makes them, are set up like those with integer power
    nodes in their place: all that is said above of the latter holds of them. *)
Theorem C89_powers_partial : forall fs rho fresh draw rand g s vars, funs_ok fs -> ready fs rho fresh (flat_sys fs s) vars ->
  ((exists z, system_setup fs rho fresh draw rand g s = Value z) <-> (exists z, system_setup fs rho fresh draw rand g (flat_sys fs s) = Value z)) /\
  forall z z', system_setup fs rho fresh draw rand g s = Value z -> system_setup fs rho fresh draw rand g (flat_sys fs s) = Value z' ->
    start z = start z' /\ order (prepared z) = order (prepared z') /\
    (forall x t, homotopy_values fs rho z x t = homotopy_values fs rho z' x t) /\
    forall a, solves fs rho (fns s) vars a <-> solves fs rho (fns (flat_sys fs s)) vars a.
Proof.
  intros fs rho fresh draw rand g s vars Hfs H. pose proof (setup_flat_ready fs rho fresh draw rand g s vars H) as E. split.
  - rewrite E. destruct (system_setup fs rho fresh draw rand g s) as [z| |]; split; intros [z' Ez]; try discriminate; eauto.
  - intros z z' Ez Ez'. rewrite Ez, Ez' in E. injection E as ->. split; [reflexivity|]. split; [reflexivity|].
    split; [intros x t; symmetry; apply (homotopy_flat fs Hfs)|]. intro a. symmetry. apply (solves_flat fs Hfs).
Qed.
Print Assumptions C89_powers_partial.

(** All hypotheses are met by x y - 1, x^2 + y, which has the solution (-1, -1): four paths; and the patch h + x + y = 1
    keeps it. *)
Example C89_met : forall fs rho, ready fs rho fresh10 conic_target [0; 1]%nat /\
  (forall f, In f (fns conic_target) -> expanded [0; 1]%nat f) /\
  map (gdegree fs rho [0; 1]%nat) (fns conic_target) = [2; 2]%Z /\
  solves fs rho (fns conic_target) [0; 1]%nat [- (1); - (1)] /\
  inner [1; 1; 1] (1 :: [- (1); - (1)] : list CF) <> 0.
Proof.
  intros fs rho. split; [apply conic_ready|]. split; [exact conic_expanded|]. split; [reflexivity|]. split; [apply conic_solution|]. exact conic_patch.
Qed.

(** Not for every polynomial target: of (x+y)^2 - 1, x - y the solver makes (x+y)^2 - h^4, x - y, and the zero h = x = y = 2
    of the homotopy at t = 0 is (1, 1), no solution. *)
Theorem C89_power_refuted : forall fs rho, exists s vars draw, groups s = [vars] /\ hom_groups s = [] /\ ungrouped s = [] /\
  vars = [0; 1]%nat /\
  (exists f1 f2, fns s = [f1; f2] /\ forall point,
     eval fs point f1 = Some ((point 0%nat + point 1%nat) * (point 0%nat + point 1%nat) - 1) /\
     eval fs point f2 = Some (point 0%nat - point 1%nat)) /\
  forall rand g, exists z h xs, system_setup fs rho fresh10 draw rand g s = Value z /\
    h <> 0 /\ length xs = length vars /\ on_patch [map (draw 0%nat) (seq 0 (S (length vars)))] (h :: xs) /\
    zero_of fs rho z (h :: xs) 0 /\ ~ solves fs rho (fns s) vars (map (fun a => a / h) xs).
Proof.
  intros fs rho. exists square_target, [0; 1]%nat, stray_draw. split; [reflexivity|]. split; [reflexivity|]. split; [reflexivity|].
  split; [reflexivity|]. split; [exists square_f, square_g; split; [reflexivity|exact (square_values fs)]|]. intros rand g. eexists. exists (1 + 1), [1 + 1; 1 + 1].
  split; [apply square_set_up|]. split; [exact two_ne|]. split; [reflexivity|]. split; [exact stray_on_patch|].
  split; [|apply stray_no_solution]. exact (stray_zero fs rho rand g _ (square_set_up fs rho stray_draw rand g)).
Qed.
Print Assumptions C89_power_refuted.

(** And for some the set-up throws: -(x^2 + x) + x^2, which is -x, is homogenized, but AutoPatch does not accept the result. *)
Theorem C89_throws_refuted : forall fs rho, exists s f, homogenizable fs rho fresh10 s /\ groups s = [[0%nat]] /\ fns s = [f] /\
  (forall point, eval fs point f = Some (- point 0%nat)) /\
  forall draw rand g, system_setup fs rho fresh10 draw rand g s = Throws.
Proof.
  intros fs rho. exists drop_target, drop_f. split; [apply drop_polynomial|]. split; [reflexivity|]. split; [reflexivity|].
  split; [intro; apply drop_value|]. intros. apply drop_set_up.
Qed.
Print Assumptions C89_throws_refuted.
