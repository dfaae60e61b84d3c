(** The random number of the homotopy (policies.hpp:197-204, LinearSolve.v) for linear targets: for all but finitely many of its
    directions the homotopy and the patch determine the point at every time. *)
From Coq Require Import List ZArith Lia Reals Lra Bool Arith Ring Field.
From Coquelicot Require Import Complex.
From Verif Require Import Base ComplexField Poly Expr Degree Diff Homog HomogSys Lu Newton Track LinearTree LinearHom LinearPath
  Patch StartIndex DegreeAll TotalDegree SolveSetup LinearSolve Pencil.
Import ListNotations.

Lemma segment_point : forall l : R, (RtoC 1 + RtoC l * (RtoC 0 - RtoC 1))%C = fsub (f1 : CF) (RtoC l : CF).
Proof. intro l. change ((RtoC 1 + RtoC l * (RtoC 0 - RtoC 1))%C = (RtoC 1 - RtoC l)%C). ring. Qed.
Lemma segment_ratio : forall l : R, (l <> 1)%R -> fmul (RtoC (l / (1 - l)) : CF) (fsub (f1 : CF) (RtoC l : CF)) = fsub (f1 : CF) (fsub (f1 : CF) (RtoC l : CF)).
Proof.
  intros l Nl. change ((RtoC (l / (1 - l)) * (RtoC 1 - RtoC l))%C = (RtoC 1 - (RtoC 1 - RtoC l))%C). replace (RtoC 1 - (RtoC 1 - RtoC l))%C with (RtoC l) by ring.
  rewrite <- RtoC_minus, <- RtoC_mult. f_equal. field. lra.
Qed.
Lemma two_not_zero : fadd (f1 : CF) (f1 : CF) <> f0.
Proof. intro E. change ((RtoC 1 + RtoC 1)%C = RtoC 0) in E. rewrite <- RtoC_plus in E. apply RtoC_inj in E. lra. Qed.
Local Open Scope fld_scope.

(** ** Specification *)

(** at the time [t] the values of the homotopy and of the patch equation determine the point *)
Definition determined (fs : funs CF) (rho : env CF) (z : set_up) (c : list CF) (t : CF) : Prop :=
  forall x y, length x = length c -> length y = length c -> homotopy_values fs rho z x t = homotopy_values fs rho z y t ->
    Patch.inner c x = Patch.inner c y -> x = y.

(** [g] is a positive multiple of one of these numbers *)
Definition on_rays (rays : list CF) (g : CF) : Prop := exists b r, In b rays /\ (0 < r)%R /\ g = fmul (RtoC r : CF) b.

(** ** Proofs *)
Add Field CFlg : (f_th CF).
Local Opaque CF.

Lemma inner_same : forall c x : list CF, Patch.inner c x = Lu.inner c x.
Proof. unfold Patch.inner. induction c as [|a c IH]; intros [|b x]; try reflexivity. cbn [combine map fst snd Lu.inner]. rewrite fsum_cons, IH. reflexivity. Qed.

Definition minus (x y : list CF) : list CF := plus x (map (fmul (- (1))) y).
Lemma inner_minus : forall r x y, length x = length r -> length y = length r -> Lu.inner r (minus x y) = Lu.inner r x - Lu.inner r y.
Proof. intros r x y Lx Ly. unfold minus. rewrite inner_plus by (try rewrite map_length; assumption). rewrite inner_times. ring. Qed.
Lemma minus_length : forall x y, length x = length y -> length (minus x y) = length x.
Proof. intros x y L. unfold minus. apply plus_length. rewrite map_length. exact L. Qed.
Lemma sub_eq : forall a b : CF, a + - (1) * b = 0 -> a = b.
Proof. intros a b H. transitivity (a + - (1) * b + b); [ring|]. rewrite H. ring. Qed.
Lemma one_minus : forall a : CF, 1 - (1 - a) = 0 -> a = 0.
Proof. intros a H. rewrite <- H. ring. Qed.
Lemma cons_eq : forall (a b : CF) x y, a :: x = b :: y -> a = b /\ x = y.
Proof. intros a b x y E. split; [exact (f_equal (fun l => hd 0 l) E)|exact (f_equal (@tl CF) E)]. Qed.
Lemma minus_zero : forall x y n, length x = n -> length y = n -> minus x y = zeros n -> x = y.
Proof.
  unfold minus, zeros. induction x as [|a x IH]; intros [|b y] [|n] Lx Ly E; try discriminate; [reflexivity|]. cbn [map plus repeat] in E. apply cons_eq in E. destruct E as [E1 E2].
  f_equal; [apply sub_eq; exact E1|]. apply (IH y n); [cbn in Lx; lia|cbn in Ly; lia|exact E2].
Qed.

Lemma classic_zero : forall (v : list CF) n, length v = n -> v = zeros n \/ v <> zeros n.
Proof. intros v n _. destruct (list_eq_dec feq_dec v (zeros n)) as [E|E]; [left|right]; exact E. Qed.

Definition affine_values_of (A : list (list CF)) (b : list CF) (x : list CF) : list CF := map (fun p => Lu.inner (fst p) x + snd p) (combine A b).

Lemma mix_again : forall t g a s, mix t g (mix 0 1 a s) (mix 1 1 a s) = mix t g a s.
Proof. intros t g. induction a as [|y a IH]; intros [|q s]; try reflexivity. cbn [mix]. rewrite IH. f_equal. ring. Qed.

Lemma mix_rows : forall t g N A0 b0 A1 b1 x y, length b0 = length A0 -> length A1 = length A0 -> length b1 = length A0 ->
  Forall (fun r => length r = N) A0 -> Forall (fun r => length r = N) A1 -> length x = N -> length y = N ->
  (mix t g (affine_values_of A0 b0 x) (affine_values_of A1 b1 x) = mix t g (affine_values_of A0 b0 y) (affine_values_of A1 b1 y) <->
   Forall (fun q => (1 - t) * Lu.inner (fst q) (minus x y) + g * t * Lu.inner (snd q) (minus x y) = 0) (combine A0 A1)).
Proof.
  intros t g N A0 b0 A1 b1 x y E1 E2 E3 F0 F1 Lx Ly. revert b0 A1 b1 E1 E2 E3 F1. induction F0 as [|r0 A0 L0 F0 IH]; intros [|p0 b0] [|r1 A1] [|p1 b1] E1 E2 E3 F1; try discriminate;
    unfold affine_values_of in *; cbn [combine map fst snd mix]; [split; [constructor|reflexivity]|].
  inversion F1 as [|? ? L1 F1']; subst. cbn [length] in E1, E2, E3.
  assert (K : (1 - t) * (Lu.inner r0 x + p0) + g * t * (Lu.inner r1 x + p1) - ((1 - t) * (Lu.inner r0 y + p0) + g * t * (Lu.inner r1 y + p1))
    = (1 - t) * Lu.inner r0 (minus x y) + g * t * Lu.inner r1 (minus x y)) by (rewrite !inner_minus by congruence; ring).
  split.
  - intro E. apply cons_eq in E. destruct E as [Ea Eb]. constructor; [cbn [fst snd]; rewrite <- K, Ea; ring|]. apply (IH b0 A1 b1); try lia; assumption.
  - intro H. inversion H as [|? ? H1 H2]; subst. cbn [fst snd] in H1. rewrite <- K in H1. f_equal; [|apply (IH b0 A1 b1); try lia; assumption].
    match type of H1 with ?u - ?w = 0 => transitivity (u - w + w); [ring|rewrite H1; ring] end.
Qed.

Lemma affine_kernel : forall N A b x y, length b = length A -> Forall (fun r => length r = N) A -> length x = N -> length y = N ->
  affine_values_of A b x = affine_values_of A b y -> Forall (fun r => Lu.inner r (minus x y) = 0) A.
Proof.
  intros N A b x y Lb HA Lx Ly. revert b Lb. induction HA as [|r A Lr HA IH]; intros [|e b] Lb E; try discriminate; constructor; unfold affine_values_of in E; cbn [combine map fst snd] in E; apply cons_eq in E; destruct E as [E1 E2].
  - rewrite inner_minus by congruence. transitivity ((Lu.inner r x + e) - (Lu.inner r y + e)); [ring|]. rewrite E1. ring.
  - apply (IH b); [cbn in Lb; lia|exact E2].
Qed.

Lemma start_rows : forall h k xs ys ds rs, Forall (fun d => d = 1%nat) ds -> length xs = length ds -> length ys = length ds -> length rs = length ds ->
  hom_function_values h xs ds rs = hom_function_values k ys ds rs ->
  (h = k -> xs = ys) /\ forall cs, Lu.inner cs xs - Lu.inner cs ys = (h - k) * Lu.inner cs rs.
Proof.
  intros h k xs ys ds rs Hd. revert xs ys rs. induction Hd as [|d ds -> Hd IH]; intros [|x xs] [|y ys] [|r rs] Lx Ly Lr E; try discriminate.
  - split; [reflexivity|]. intros [|c cs]; cbn [Lu.inner]; ring.
  - cbn [hom_function_values fpow] in E. apply cons_eq in E. destruct E as [E1 E2]. cbn [length] in Lx, Ly, Lr. destruct (IH xs ys rs) as [A B]; try lia; [exact E2|].
    assert (K : x - y = (h - k) * r).
    { transitivity ((x * 1 - r * (h * 1)) - (y * 1 - r * (k * 1)) + (h - k) * r); [ring|]. rewrite E1. ring. }
    split.
    + intro Ehk. rewrite (A Ehk). f_equal. rewrite Ehk in K. transitivity ((x - y) + y); [ring|]. rewrite K. ring.
    + intros [|c cs]; cbn [Lu.inner]; [ring|]. transitivity (c * (x - y) + (Lu.inner cs xs - Lu.inner cs ys)); [ring|]. rewrite K, B. ring.
Qed.

Lemma mix_start : forall a s a' s' : list CF, length a = length s -> length a' = length s' -> mix 1 1 a s = mix 1 1 a' s' -> s = s'.
Proof.
  assert (M : forall a s : list CF, length a = length s -> mix 1 1 a s = s).
  { induction a as [|y a IH]; intros [|q s] L; try discriminate; [reflexivity|]. cbn [mix]. rewrite IH by (cbn in L; lia). f_equal. ring. }
  intros a s a' s' L L' E. rewrite (M a s L), (M a' s' L') in E. exact E.
Qed.

Section Gamma.
  Variable fs : funs CF.
  Variable rho : env CF.
  Variable fresh : nat -> nat.
  Variable draw : nat -> nat -> CF.
  Variable rand : nat -> CF.
  Variable s : psys CF.
  Variable vars : list nat.
  Variable tv : nat.
  Hypothesis Hready : ready fs rho fresh s vars.
  Hypothesis Hlin : Forall (linear vars) (fns s).
  Hypothesis Htv : ~ In tv (fresh O :: vars).
  Let c := map (draw O) (seq 0 (S (length vars))).
  Let N := S (length vars).

  Lemma patch_length : length c = N.
  Proof. unfold c, N. rewrite map_length, seq_length. reflexivity. Qed.

  (** only the number differs *)
  Lemma setup_gamma : forall g g' z, system_setup fs rho fresh draw rand g s = Value z ->
    system_setup fs rho fresh draw rand g' s = Value (mkSetUp (prepared z) (start z) g') /\ gamma z = g.
  Proof.
    intros g g' z H. unfold system_setup in *. destruct (homogenize_sys fs rho fresh s) as [s'|]; [|discriminate]. destruct (negb _); [discriminate|]. cbv zeta in *.
    destruct (copy_degrees _ _ _ _ _) as [ds| |]; try discriminate. injection H as <-. split; reflexivity.
  Qed.

  Variable z1 : set_up.
  Hypothesis Hz1 : system_setup fs rho fresh draw rand 1 s = Value z1.

  Lemma values_affine : forall t, exists A b, length A = length vars /\ length b = length vars /\ Forall (fun r => length r = N) A /\
    forall x, length x = N -> homotopy_values fs rho z1 x t = Some (affine_values_of A b x).
  Proof.
    intro t. pose proof (us_is fs rho fresh draw rand 1 s vars z1 Hready Hz1) as Us. pose proof (us_nodup fs rho fresh draw rand 1 s vars z1 Hready Hz1) as Nd.
    pose proof (rows_linear fs rho fresh draw rand 1 s vars z1 tv Hready Hz1 Htv Hlin) as Rl. pose proof (rows_square fs rho fresh draw rand 1 s vars z1 tv Hready Hz1) as Rs.
    assert (Len : length (order (prepared z1)) = N) by (rewrite Us; reflexivity).
    destruct (rows_meaning fs rho fresh draw rand 1 s vars z1 tv Hready Hz1 Htv t (repeat 0 N) (repeat_length _ _)) as (v0 & _ & E0).
    destruct (affine_exists fs rho (homotopy_rows z1 tv) (order (prepared z1)) tv Nd Rl t (repeat 0 N) (v0 ++ [Patch.inner c (repeat 0 N) - 1])) as (A & b & HA & Hb & Hr & Hv).
    { rewrite Len. apply repeat_length. }
    { exact E0. }
    rewrite Rs, Len in HA, Hb. rewrite Len in Hr, Hv. fold N in HA, Hb.
    destruct (@exists_last _ A) as (A' & a & ->); [intros ->; discriminate HA|]. destruct (@exists_last _ b) as (b' & e & ->); [intros ->; discriminate Hb|].
    rewrite app_length in HA, Hb. cbn [length] in HA, Hb. unfold N in HA, Hb. apply Forall_app in Hr. exists A', b'. split; [lia|]. split; [lia|]. split; [exact (proj1 Hr)|].
    intros x Lx. destruct (rows_meaning fs rho fresh draw rand 1 s vars z1 tv Hready Hz1 Htv t x Lx) as (v & Ev & Ef). destruct (Hv x Lx) as [Ew _].
    assert (Cb : combine (A' ++ [a]) (b' ++ [e]) = combine A' b' ++ [(a, e)]).
    { assert (L : length A' = length b') by lia. revert L. clear. revert b'. induction A' as [|p A' IH]; intros [|q b'] L; try discriminate; [reflexivity|]. cbn. rewrite IH; [reflexivity|cbn in L; lia]. }
    rewrite Cb, map_app in Ew. cbn [map fst snd] in Ew. rewrite Ef in Ew.
    assert (E' : v ++ [Patch.inner c x - 1] = map (fun p => Lu.inner (fst p) x + snd p) (combine A' b') ++ [Lu.inner a x + e])
      by exact (f_equal (fun o => match o with Some l => l | None => [] end) Ew).
    apply app_inj_tail in E'. rewrite Ev, (proj1 E'). reflexivity.
  Qed.

  Lemma two_ends : forall g t x v0 v1, homotopy_values fs rho z1 x 0 = Some v0 -> homotopy_values fs rho z1 x 1 = Some v1 ->
    homotopy_values fs rho (mkSetUp (prepared z1) (start z1) g) x t = Some (mix t g v0 v1).
  Proof.
    intros g t x v0 v1. unfold homotopy_values. cbn [prepared start gamma]. rewrite (proj2 (setup_gamma 1 1 z1 Hz1)).
    destruct (values fs rho (fns (prepared z1)) (order (prepared z1)) x) as [a|]; [|discriminate]. intros E0 E1.
    assert (v0 = mix 0 1 a (start_system_values (start z1) x)) as -> by exact (eq_sym (f_equal (fun o => match o with Some l => l | None => [] end) E0)).
    assert (v1 = mix 1 1 a (start_system_values (start z1) x)) as -> by exact (eq_sym (f_equal (fun o => match o with Some l => l | None => [] end) E1)).
    rewrite mix_again. reflexivity.
  Qed.

  Lemma all_zero_at : forall (l : list (list CF * list CF)) (k : list CF * list CF -> CF) m, m <> 0 -> Forall (fun q => m * k q = 0) l -> Forall (fun q => k q = 0) l.
  Proof.
    intros l k m Hm H. eapply Forall_impl; [|exact H]. intros q E. cbv beta in E. transitivity (m * k q / m); [field; exact Hm|]. rewrite E. field. exact Hm.
  Qed.

  Theorem gamma_determined : determined fs rho z1 c 0 -> determined fs rho z1 c 1 ->
    exists rays, (length rays <= length vars)%nat /\ forall g z, system_setup fs rho fresh draw rand g s = Value z -> g <> 0 -> ~ on_rays rays g ->
      forall t : CF, on_segment (RtoC 1) (RtoC 0) t -> determined fs rho z c t.
  Proof.
    intros D0 D1. destruct (values_affine 0) as (A0 & b0 & La0 & Lb0 & Hr0 & H0). destruct (values_affine 1) as (A1 & b1 & La1 & Lb1 & Hr1 & H1).
    set (rows := combine A0 A1).
    assert (Hrows : Forall (fun q => length (fst q) = N /\ length (snd q) = N) rows).
    { apply Forall_forall. intros [p q] Hi. rewrite Forall_forall in Hr0, Hr1. split; [apply Hr0; exact (in_combine_l _ _ _ _ Hi)|apply Hr1; exact (in_combine_r _ _ _ _ Hi)]. }
    assert (Lz : length (zeros N : list CF) = N) by apply repeat_length.
    assert (Mz : forall v, length v = N -> forall r, length r = N -> Lu.inner r (minus v (zeros N)) = Lu.inner r v).
    { intros v Lv r Lr. rewrite inner_minus by congruence. rewrite inner_zeros. ring. }
    (* a vector in the kernel of the rows of one end is zero *)
    assert (End : forall A b t (pr : list CF * list CF -> list CF), determined fs rho z1 c t -> length A = length vars -> length b = length vars -> Forall (fun r => length r = N) A ->
      (forall x, length x = N -> homotopy_values fs rho z1 x t = Some (affine_values_of A b x)) ->
      forall v, length v = N -> Lu.inner c v = 0 -> Forall (fun r => Lu.inner r v = 0) A -> v = zeros N).
    { intros A b t _ D La Lb Hr H v Lv Pv Rv. apply D; [rewrite patch_length; exact Lv|rewrite patch_length; exact Lz| |rewrite !inner_same, inner_zeros; exact Pv].
      rewrite (H v Lv), (H _ Lz). f_equal. unfold affine_values_of. apply map_ext_in. intros [r e] Hi. cbn [fst snd]. rewrite Forall_forall in Rv.
      rewrite (Rv r (in_combine_l _ _ _ _ Hi)), inner_zeros. reflexivity. }
    assert (Snd : forall v, Forall (fun q => Lu.inner (snd q) v = 0) rows -> Forall (fun r => Lu.inner r v = 0) A1).
    { intros v. unfold rows. assert (L : length A0 = length A1) by lia. revert L. clear. revert A0. induction A1 as [|r A1 IH]; intros [|q A0] L H; try discriminate; constructor.
      - inversion H; assumption.
      - apply (IH A0); [cbn in L; lia|]. inversion H; assumption. }
    assert (Fst : forall v, Forall (fun q => Lu.inner (fst q) v = 0) rows -> Forall (fun r => Lu.inner r v = 0) A0).
    { intros v. unfold rows. assert (L : length A0 = length A1) by lia. revert L. clear. revert A1. induction A0 as [|r A0 IH]; intros [|q A1] L H; try discriminate; constructor.
      - inversion H; assumption.
      - apply (IH A1); [cbn in L; lia|]. inversion H; assumption. }
    assert (Inj : forall v, length v = N -> Lu.inner c v = 0 -> Forall (fun q => Lu.inner (snd q) v = 0) rows -> v = zeros N).
    { intros v Lv Pv Rv. apply (End A1 b1 1 fst D1 La1 Lb1 Hr1 H1 v Lv Pv). apply Snd. exact Rv. }
    destruct (singular_finite N rows c Hrows patch_length Inj) as (bad & Lbad & Hbad). exists bad.
    split; [unfold rows in Lbad; rewrite combine_length in Lbad; lia|].
    intros g z Hz Hg Nray t Ht x y Lx Ly E P. rewrite patch_length in Lx, Ly.
    destruct (setup_gamma 1 g z1 Hz1) as [Hz' _]. rewrite Hz in Hz'. injection Hz' as ->.
    rewrite (two_ends g t x _ _ (H0 x Lx) (H1 x Lx)), (two_ends g t y _ _ (H0 y Ly) (H1 y Ly)) in E.
    assert (E' : mix t g (affine_values_of A0 b0 x) (affine_values_of A1 b1 x) = mix t g (affine_values_of A0 b0 y) (affine_values_of A1 b1 y))
      by exact (f_equal (fun o => match o with Some l => l | None => [] end) E).
    apply (mix_rows t g N) in E'; try assumption; try lia. fold rows in E'. set (v := minus x y) in *.
    assert (Lv : length v = N) by (unfold v; rewrite minus_length; congruence).
    assert (Pv : Lu.inner c v = 0) by (unfold v; rewrite inner_minus by (rewrite patch_length; assumption); rewrite <- !inner_same, P; ring).
    apply (minus_zero x y N Lx Ly). fold v.
    destruct Ht as (l & Hl & Et). assert (Et' : t = fsub (1 : CF) (RtoC l : CF)) by (rewrite Et; apply segment_point).
    destruct (Req_dec l 0) as [Zl|Nl].
    - (* the time 1 *)
      assert (T1 : t = 1) by (rewrite Et', Zl; change (RtoC 0) with (@f0 CF); ring). apply Inj; [exact Lv|exact Pv|]. apply (all_zero_at rows (fun q => Lu.inner (snd q) v) g Hg).
      eapply Forall_impl; [|exact E']. intros q K. cbv beta in K. rewrite T1 in K. rewrite <- K. ring.
    - assert (N1 : 1 - t <> 0).
      { rewrite Et'. intro K. apply Nl. apply RtoC_inj. exact (one_minus (RtoC l) K). }
      destruct (classic_zero v N Lv) as [Z|Nz]; [exact Z|].
      assert (Sg : singular N rows c (g * t / (1 - t)) v).
      { split; [exact Lv|]. split; [exact Nz|]. split; [exact Pv|]. eapply Forall_impl; [|exact E']. intros q K. cbv beta in K.
        transitivity (((1 - t) * Lu.inner (fst q) v + g * t * Lu.inner (snd q) v) / (1 - t)); [field; exact N1|]. rewrite K. field. exact N1. }
      destruct (feq_dec t 0) as [T0|Nt].
      + apply (End A0 b0 0 fst D0 La0 Lb0 Hr0 H0 v Lv Pv). apply Fst. eapply Forall_impl; [|exact E']. intros q K. cbv beta in K. rewrite T0 in K. rewrite <- K. ring.
      + elim Nray. exists (g * t / (1 - t)), (l / (1 - l))%R. split; [exact (Hbad _ _ Sg)|].
        assert (Nl1 : (l <> 1)%R). { intros ->. apply Nt. rewrite Et'. change (RtoC 1) with (@f1 CF). ring. }
        split; [apply Rdiv_lt_0_compat; lra|].
        assert (Er : fmul (RtoC (l / (1 - l)) : CF) t = 1 - t).
        { rewrite Et'. apply segment_ratio. exact Nl1. }
        transitivity (g * (fmul (RtoC (l / (1 - l)) : CF) t) / (1 - t)); [rewrite Er; field; exact N1|]. field. exact N1.
  Qed.

  Let G := setup_good fs rho fresh draw rand 1 s vars z1 Hready Hz1.

  (** the start system is determined if the start point is not at infinity of the patch *)
  Lemma start_determined : Patch.inner c (1 :: map rand (seq 0 (length vars))) <> 0 -> determined fs rho z1 c 1.
  Proof.
    intros Hc x y Lx Ly E P. rewrite patch_length in Lx, Ly. unfold homotopy_values in E. rewrite (proj2 (setup_gamma 1 1 z1 Hz1)) in E.
    destruct (good_values_defined _ _ _ _ _ _ _ _ _ G x) as [a [Ea La]]. destruct (good_values_defined _ _ _ _ _ _ _ _ _ G y) as [a' [Ea' La']]. rewrite Ea, Ea' in E.
    pose proof (start_values_length _ _ _ _ _ _ _ _ _ G x Lx) as Ls. pose proof (start_values_length _ _ _ _ _ _ _ _ _ G y Ly) as Ls'.
    assert (Es : start_system_values (start z1) x = start_system_values (start z1) y).
    { apply (mix_start a _ a'); [congruence|congruence|]. exact (f_equal (fun o => match o with Some l => l | None => [] end) E). }
    clear E Ea Ea' La La' a a' Ls Ls'. rewrite (gs_start _ _ _ _ _ _ _ _ _ G) in Es.
    destruct x as [|h xs]; [discriminate|]. destruct y as [|k ys]; [discriminate|]. unfold N in Lx, Ly. cbn [length] in Lx, Ly.
    unfold start_system_values in Es. cbn [homogenized kinds degrees randoms] in Es.
    rewrite !affine_values_id in Es by (first [apply Forall_forall; intros q Hq; apply repeat_spec in Hq; exact Hq|rewrite repeat_length; lia]).
    assert (Ld : length (degree_list fs rho vars (fns s)) = length vars) by (unfold degree_list; rewrite map_length; exact (gs_square _ _ _ _ _ _ _ _ _ G)).
    destruct (start_rows h k xs ys (degree_list fs rho vars (fns s)) (map rand (seq 0 (length vars)))) as [A B].
    - unfold degree_list. apply Forall_map, Forall_forall. intros f Hf. rewrite (target_degree fs rho fresh draw rand 1 s vars z1 Hready Hz1 Hlin f Hf). reflexivity.
    - lia.
    - lia.
    - rewrite map_length, seq_length. lia.
    - exact Es.
    - rewrite !inner_same in *. assert (Lc : length c = S (length vars)) by exact patch_length. destruct c as [|c0 cs]; [discriminate|]. cbn [Lu.inner] in *.
      assert (K : (h - k) * (c0 * 1 + Lu.inner cs (map rand (seq 0 (length vars)))) = 0).
      { transitivity (c0 * h - c0 * k + (Lu.inner cs xs - Lu.inner cs ys)); [rewrite B; ring|]. transitivity ((c0 * h + Lu.inner cs xs) - (c0 * k + Lu.inner cs ys)); [ring|]. rewrite P. ring. }
      destruct (zero_product _ _ K) as [Z|Z]; [|contradiction]. assert (Ehk : h = k) by (transitivity ((h - k) + k); [ring|]; rewrite Z; ring).
      rewrite (A Ehk), Ehk. reflexivity.
  Qed.

  Lemma divided : forall (b : CF) xs a, b <> 0 -> map (fun u => u / b) xs = a -> xs = map (fmul b) a.
  Proof.
    intros b xs a Hb <-. rewrite map_map. rewrite <- (map_id xs) at 1. apply map_ext. intro u. field. exact Hb.
  Qed.

  (** the target is determined if it has one solution, which is not at infinity of the patch *)
  Lemma target_determined : forall a, length a = length vars -> solves fs rho (fns s) vars a ->
    (forall a', length a' = length vars -> solves fs rho (fns s) vars a' -> a' = a) -> Patch.inner c (1 :: a) <> 0 -> determined fs rho z1 c 0.
  Proof.
    intros a La Sa Ua Hc x y Lx Ly E P. rewrite patch_length in Lx, Ly. destruct (values_affine 0) as (A & e & LA & Le & HA & Hv).
    rewrite (Hv x Lx), (Hv y Ly) in E. assert (E' : affine_values_of A e x = affine_values_of A e y) by exact (f_equal (fun o => match o with Some l => l | None => [] end) E).
    apply (affine_kernel N) in E'; [|lia|exact HA|exact Lx|exact Ly]. apply (minus_zero x y N Lx Ly).
    assert (Lv : length (minus x y) = N) by (rewrite minus_length; congruence).
    assert (Pv : Lu.inner c (minus x y) = 0) by (rewrite inner_minus by (rewrite patch_length; assumption); rewrite <- !inner_same, P; ring).
    revert E' Lv Pv. generalize (minus x y). clear x y Lx Ly E P. intros v Kv Lv Pv.
    destruct (good_reaches _ _ _ _ _ _ _ _ _ G a La Sa Hc) as (x0 & Lx0 & Ox0 & Zx0 & b & xs & Ex0 & Hb & Em). fold N in Lx0.
    apply (on_single _ _ _ _ _ _ _ _ _ G x0 Lx0) in Ox0. fold c in Ox0. rewrite inner_same in Ox0.
    destruct v as [|k ks]; [discriminate|].
    (* a multiple of the vector which does not lead to infinity *)
    assert (Hs : exists m, m <> 0 /\ b + m * k <> 0).
    { destruct (feq_dec k 0) as [->|Nk]; [exists 1; split; [apply (@f1_neq_f0 CF)|intro K; apply Hb; rewrite <- K; ring]|].
      exists (b / k). split; [intro K; apply Hb; transitivity (b / k * k); [field; exact Nk|rewrite K; ring]|]. intro K.
      apply Hb. destruct (zero_product (1 + 1) b) as [Z|Z]; [transitivity (b + b / k * k); [field; exact Nk|exact K]| |exact Z].
      elim (two_not_zero Z). }
    destruct Hs as (m & Nm & Nb). set (x1 := plus x0 (map (fmul m) (k :: ks))).
    assert (Lx1 : length x1 = N) by (unfold x1; rewrite plus_length; [exact Lx0|rewrite map_length; congruence]).
    assert (I1 : forall r, length r = N -> Lu.inner r (k :: ks) = 0 -> Lu.inner r x1 = Lu.inner r x0).
    { intros r Lr Zr. unfold x1. rewrite inner_plus by (try rewrite map_length; congruence). rewrite inner_times, Zr. ring. }
    assert (Z1 : zero_of fs rho z1 x1 0).
    { destruct Zx0 as (w & Ew & Zw). exists w. split; [|exact Zw]. rewrite (Hv x0 Lx0) in Ew. rewrite <- Ew, (Hv x1 Lx1). f_equal. unfold affine_values_of. apply map_ext_in. intros [r q] Hi. cbn [fst snd].
      rewrite Forall_forall in Kv, HA. rewrite (I1 r (HA r (in_combine_l _ _ _ _ Hi)) (Kv r (in_combine_l _ _ _ _ Hi))). reflexivity. }
    assert (P1 : Lu.inner c x1 = 1) by (rewrite (I1 c patch_length Pv); exact Ox0).
    pose proof (divided b xs a Hb Em) as Exs. subst x0. unfold N in Lx0, Lx1, Lv. cbn [length] in Lx0, Lv.
    assert (E1 : x1 = (b + m * k) :: plus xs (map (fmul m) ks)) by reflexivity. rewrite E1 in Z1, P1, Lx1. cbn [length] in Lx1.
    assert (Lp : length (plus xs (map (fmul m) ks)) = length vars) by (injection Lx1; auto).
    apply (good_ends _ _ _ _ _ _ _ _ _ G _ _ Nb Lp) in Z1. apply Ua in Z1; [|rewrite map_length; exact Lp].
    pose proof (divided _ _ a Nb Z1) as Ex1. rewrite Ex1 in P1. rewrite Exs in Ox0.
    assert (Sc : forall l, Lu.inner c (l :: map (fmul l) a) = l * Patch.inner c (1 :: a)).
    { intro l. rewrite inner_same. replace (l :: map (fmul l) a) with (map (fmul l) (1 :: a)); [apply inner_times|]. cbn [map]. f_equal. ring. }
    rewrite Sc in P1, Ox0.
    assert (Zk : k = 0).
    { destruct (zero_product (m * k) (Patch.inner c (1 :: a))) as [Z|Z]; [|destruct (zero_product _ _ Z) as [Z'|Z']; [contradiction|exact Z']|contradiction].
      transitivity ((b + m * k) * Patch.inner c (1 :: a) - b * Patch.inner c (1 :: a)); [ring|]. rewrite P1, Ox0. ring. }
    unfold N, zeros. cbn [repeat]. rewrite Zk. f_equal. rewrite Zk in Ex1. rewrite Exs in Ex1.
    assert (Lk : length ks = length a) by lia. assert (Ln : length vars = length ks) by lia. rewrite Ln.
    revert Ex1 Lk. clear - Nm. revert ks. induction a as [|u a IH]; intros [|q ks] Ex Lk; try discriminate; [reflexivity|]. cbn [map plus] in Ex. apply cons_eq in Ex. destruct Ex as [Eq Er].
    cbn [length repeat]. f_equal; [|apply IH; [exact Er|cbn in Lk; lia]]. destruct (zero_product m q) as [Z|Z]; [|contradiction|exact Z].
    transitivity (b * u + m * q - b * u); [ring|]. rewrite Eq. ring.
  Qed.
End Gamma.
