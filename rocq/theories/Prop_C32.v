(** C32: Hermite interpolation reproduces polynomials. *)
From Coq Require Import List Arith Lia ZArith QArith Bool.
From Verif Require Import Base Poly StartIndex RKQuad Hermite.
Import ListNotations.

(** Samples and derivatives of a path whose coordinates are polynomials of degree at most 2 (at most 1 when
    one sample is used) at distinct times: the value at the target is exact, for any number of samples,
    taken from the back or from the front of the containers.  Missing: degrees 3 to 2n-1, where the
    code is wrong. *)
Theorem C32_degree_two_partial :
  forall (F : fld) (J : Type) (target : F) (n : nat) (times : list F) (from_back : bool) (q : J -> list F),
  (1 <= n)%nat -> (n <= length times)%nat -> NoDup times ->
  (forall c, (length (q c) <= Nat.min 3 (2 * n))%nat) ->
  exists x,
    hermite F J target n times (map (fun t j => peval (q j) t) times)
            (map (fun t j => peval (pderiv F (q j)) t) times) from_back = Value x
    /\ forall c, x c = peval (q c) target.
Proof. exact path_exact. Qed.
Print Assumptions C32_degree_two_partial.

(** For every coordinate that is a polynomial of degree exactly 3, two or more samples, distinct times and
    every target other than the newest sample time the value is wrong. *)
Theorem C32_cubic_refuted :
  forall (F : fld) (J : Type) (target : F) (n : nat) (times : list F) (from_back : bool) (q : J -> list F),
  (1 <= n)%nat -> (n <= length times)%nat -> NoDup times -> (2 <= n)%nat ->
  target <> nth (if from_back then length times - 1 else n - 1)%nat times f0 ->
  forall c a0 a1 a2 a3, q c = [a0; a1; a2; a3] -> a3 <> f0 ->
  exists x,
    hermite F J target n times (map (fun t j => peval (q j) t) times)
            (map (fun t j => peval (pderiv F (q j)) t) times) from_back = Value x
    /\ x c <> peval (q c) target.
Proof. exact path_cubic_wrong. Qed.
Print Assumptions C32_cubic_refuted.

(** By how much: the leading coefficient times the square of the distance of the target from the newest
    time, times the distance of the two newest times. *)
Theorem C32_cubic_error_partial :
  forall (F : fld) (J : Type) (target : F) (n : nat) (times : list F) (from_back : bool) (q : J -> list F),
  (1 <= n)%nat -> (n <= length times)%nat -> NoDup times -> (2 <= n)%nat ->
  let newest := (if from_back then length times - 1 else n - 1)%nat in
  exists x,
    hermite F J target n times (map (fun t j => peval (q j) t) times)
            (map (fun t j => peval (pderiv F (q j)) t) times) from_back = Value x
    /\ forall c a0 a1 a2 a3, q c = [a0; a1; a2; a3] ->
       x c = fadd (peval (q c) target)
              (fmul (fmul a3 (fmul (fsub target (nth newest times f0)) (fsub target (nth newest times f0))))
                    (fsub (nth (newest - 1) times f0) (nth newest times f0))).
Proof. exact path_cubic. Qed.
Print Assumptions C32_cubic_error_partial.

(** Two coordinates, 1 + 2t + 3t^2 and 5 - t, times 1/10, 1/20, 1/40, target 0. *)
Example C32_quadratic :
  let q := fun b : bool => if b then [qc 1 1; qc 2 1; qc 3 1] else [qc 5 1; qc (-1) 1] in
  let times := [qc 1 10; qc 1 20; qc 1 40] in
  match hermite QcF bool (qc 0 1) 3 times (map (fun t j => peval (q j) t) times)
            (map (fun t j => peval (pderiv QcF (q j)) t) times) true with
  | Value x => feqb (x true) (qc 1 1) && feqb (x false) (qc 5 1)
  | _ => false
  end = true.
Proof. vm_compute. reflexivity. Qed.

(** t^3 at the same times: 1/64000 instead of 0. *)
Example C32_cube :
  let q := fun _ : unit => [qc 0 1; qc 0 1; qc 0 1; qc 1 1] in
  let times := [qc 1 10; qc 1 20; qc 1 40] in
  match hermite QcF unit (qc 0 1) 3 times (map (fun t j => peval (q j) t) times)
            (map (fun t j => peval (pderiv QcF (q j)) t) times) true with
  | Value x => feqb (x tt) (qc 1 64000)
  | _ => false
  end = true.
Proof. vm_compute. reflexivity. Qed.
