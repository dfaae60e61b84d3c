(** C66: linear slices and witness sets. *)
From Coq Require Import List Arith Lia Bool.
From Verif Require Import Base PatchPrecision Slice SliceEx.
Import ListNotations.

(** For a slice made of k equations in n variables, whatever precisions it is set to afterwards: evaluating gives, for
    each equation, the coefficients times the point plus the constant (none if homogeneous). The double precision values
    are always those of the coefficients generated. *)
Theorem C66_eval : forall (F : fld) rnd dbl asserts d n k hom (A : list (list (mpnum (V := F)))) b s l x,
  make dbl asserts d n k hom A b = Made s -> length A = k -> length b = k -> length x = n ->
  let s' := precisions rnd s l in
  (exists y, eval_mp s' x = Some y /\ length y = k /\
    forall i, i < k -> nth i y f0 = fadd (dot (nth_row (map (map val) (coeff_mp s')) i) x)
                                        (if hom then f0 else nth i (map val (const_mp s')) f0)) /\
  (exists y, eval_d s' x = Some y /\ length y = k /\
    forall i, i < k -> nth i y f0 = fadd (dot (nth_row (map (map (fun c => dbl (val c))) A) i) x)
                                        (if hom then f0 else nth i (map (fun c => dbl (val c)) b) f0)).
Proof. exact (fun F => @eval_after F). Qed.
Print Assumptions C66_eval.

(** The Jacobian is the derivative of the evaluation. *)
Theorem C66_jacobian : forall (F : fld) (s : slice (F := F)) x h, length x = length h ->
  (forall y z, eval_mp s x = Some y -> eval_mp s (map2 fadd x h) = Some z ->
    length z = length y /\ forall i, i < length y -> nth i z f0 = fadd (nth i y f0) (dot (nth_row (jacobian_mp s) i) h)) /\
  (forall y z, eval_d s x = Some y -> eval_d s (map2 fadd x h) = Some z ->
    length z = length y /\ forall i, i < length y -> nth i z f0 = fadd (nth i y f0) (dot (nth_row (jacobian_d s) i) h)).
Proof.
  intros F s x h L. split; intros y z.
  - exact (eval_affine s (map (map val) (coeff_mp s)) (map val (const_mp s)) x h y z L).
  - exact (eval_affine s (coeff_d s) (const_d s) x h y z L).
Qed.
Print Assumptions C66_jacobian.

(** Through any sequence of precisions up to that of generation every working coefficient has at least the precision
    reported, which is the last one set, and it is the generated number, or that number rounded once to its own precision:
    lowering and raising again loses nothing. *)
Theorem C66_digits : forall (F : fld) rnd (dbl : F -> F), (forall p q (v : F), p <= q -> rnd p (rnd q v) = rnd p v) ->
  forall asserts M d n k hom (A : list (list (mpnum (V := F)))) b s l, 16 < M -> d <= M ->
  Forall (Forall (fun c => prec c = M)) A -> Forall (fun c => prec c = M) b ->
  make dbl asserts d n k hom A b = Made s -> Forall (fun p => p <= M) l ->
  let s' := precisions rnd s l in
  let kept := fun hi c : mpnum => reported_prec s' <= prec c <= prec hi /\ (c = hi \/ val c = rnd (prec c) (val hi)) in
  Forall2 (Forall2 kept) A (coeff_mp s') /\ (hom = false -> Forall2 kept b (const_mp s')) /\
  reported_prec s' = last l d.
Proof. exact (fun F => @slice_digits F). Qed.
Print Assumptions C66_digits.

Example C66_digits_case : exists s, make dbl0 true 20 3 2 false A30 b30 = Made s /\ 16 < 30 /\ 20 <= 30 /\
  Forall (Forall (fun c => prec c = 30)) A30 /\ Forall (fun c => prec c = 30) b30 /\ Forall (fun p => p <= 30) [25; 16; 30].
Proof.
  destruct made30 as [s E]. exists s. split; [exact E|]. split; [lia|]. split; [lia|].
  repeat split; repeat constructor.
Qed.

(** Lowering the precision gives every number exactly the precision asked for; raising it restores the numbers
    generated, with their own precision. *)
Theorem C66_precision_partial : forall (F : fld) rnd (dbl : F -> F) asserts d n k hom (A : list (list (mpnum (V := F)))) b s l p,
  make dbl asserts d n k hom A b = Made s -> 16 < p ->
  let s' := precisions rnd s l in
  let s'' := precisions rnd s (l ++ [p]) in
  (p <= reported_prec s' -> Forall (Forall (fun c => prec c = p)) (coeff_mp s'') /\
     (hom = false -> Forall (fun c => prec c = p) (const_mp s''))) /\
  (reported_prec s' < p -> coeff_mp s'' = A /\ (hom = false -> const_mp s'' = b)).
Proof. exact (fun F => @precision_step F). Qed.
Print Assumptions C66_precision_partial.

(** So the numbers need not have the precision reported: not after construction at a default precision below that of
    generation. *)
Theorem C66_precision_refuted : exists s, make dbl0 true 20 3 2 false A30 b30 = Made s /\ reported_prec s = 20 /\
  Forall (Forall (fun c => prec c = 30)) (coeff_mp s) /\ coeff_mp s <> [].
Proof. exact reported_wrong. Qed.
Print Assumptions C66_precision_refuted.

(** An orthogonal slice has for rows the columns of the orthogonal factor, when there are fewer equations than variables,
    and is the orthogonal factor otherwise. *)
Theorem C66_orthogonal : forall (A : Type) (def : A) n k Q, shaped (Nat.max k n) (Nat.min k n) Q ->
  shaped k n (orthogonal_coefficients def n k Q) /\
  (k < n -> forall i, i < k -> nth_row (orthogonal_coefficients def n k Q) i = column def Q i) /\
  (n <= k -> orthogonal_coefficients def n k Q = Q).
Proof. exact orthogonal_shape. Qed.
Print Assumptions C66_orthogonal.

Example C66_orthogonal_case : shaped (Nat.max 2 3) (Nat.min 2 3) [[1; 2]; [3; 4]; [5; 6]] /\
  orthogonal_coefficients 0 3 2 [[1; 2]; [3; 4]; [5; 6]] = [[1; 3; 5]; [2; 4; 6]].
Proof. split; [split; repeat constructor|reflexivity]. Qed.

(** A slice read from an archive has dimension 0 and, if it had an equation, cannot be evaluated at any point. *)
Theorem C66_archive_refuted : forall (F : fld) (s : slice (F := F)) x, 0 < length (coeff_mp s) ->
  dims (load (save s)) = 0 /\ eval_mp (load (save s)) x = None.
Proof. exact (fun F => @load_broken F). Qed.
Print Assumptions C66_archive_refuted.

Theorem C66_archive_refuted_case : exists s x, make dbl0 true 20 3 2 false A30 b30 = Made s /\
  (exists y, eval_mp s x = Some y) /\ eval_mp (load (save s)) x = None.
Proof. exact lost_with_load. Qed.
Print Assumptions C66_archive_refuted_case.

(** A build with assertions cannot make a homogeneous slice. *)
Theorem C66_homogeneous_refuted : make dbl0 true 20 3 2 true A30 b30 = AssertionFailed /\
  exists s, make dbl0 false 20 3 2 true A30 b30 = Made s.
Proof. exact homogeneous_assertion. Qed.
Print Assumptions C66_homogeneous_refuted.

(** The points of a witness set are the last list given, followed by the points added since. *)
Theorem C66_points : forall (P : Type) (l : list (wop (P := P))),
  (exists before init after, l = before ++ SetPoints init :: map AddPoint after /\ wrun l = init ++ after) \/
  (exists after, l = map AddPoint after /\ wrun l = after).
Proof. exact @wrun_expected. Qed.
Print Assumptions C66_points.

(** Asking for one of them gives it; asking for one beyond them throws, except for the first index beyond: undefined. *)
Theorem C66_get_point : forall (P : Type) (points : list P) i,
  (i < length points -> exists p, nth_error points i = Some p /\ get_point points i = Point p) /\
  (length points < i -> get_point points i = RuntimeError) /\
  (i = length points -> get_point points i = UndefinedBehaviour).
Proof. exact @get_point_spec. Qed.
Print Assumptions C66_get_point.

Theorem C66_get_point_refuted : exists (points : list nat) i, length points <= i /\ get_point points i <> RuntimeError.
Proof. exists [5; 6], 2. split; [cbn; lia|]. discriminate. Qed.
Print Assumptions C66_get_point_refuted.

(** A witness set is consistent exactly when there are as many variables as functions and equations of the slice. *)
Theorem C66_consistent : forall w nv nf dim, nv < 2 ^ w -> nf < 2 ^ w -> dim + nf < 2 ^ w ->
  (is_consistent w nv nf dim = true <-> nv = nf + dim).
Proof. exact is_consistent_spec. Qed.
Print Assumptions C66_consistent.

Example C66_consistent_case : 3 < 2 ^ 6 /\ 1 + 2 < 2 ^ 6 /\ is_consistent 6 3 2 1 = true.
Proof. split; [|split]; [cbn; lia|cbn; lia|reflexivity]. Qed.
