(** C63: the test of an LU decomposition. *)
From Coq Require Import Reals Lra Lia.
From Coquelicot Require Import Complex.
From Verif Require Import LuCheck LuCheckEx.
Local Open Scope R_scope.

(** Success is reported for exactly the square, non-empty matrices all of whose pivots are larger in modulus than 100
    epsilon and none of whose pivots exceeds the next one by the factor 1/dummy_precision. *)
Theorem C63_success_iff : forall epsilon dummy rows cols (LU : matrix),
  lu_check epsilon dummy rows cols LU = LuSuccess <->
  rows = cols /\ (0 < rows)%nat /\
  (forall i, (i < rows)%nat -> epsilon * 100 < Cmod (LU i i)) /\
  (forall i, (S i < rows)%nat -> Cmod (LU i i / LU (S i) (S i))%C < 1 / dummy).
Proof. exact lu_check_success. Qed.
Print Assumptions C63_success_iff.

(** Otherwise the pivots are inspected from the last to the first: "small value" is reported exactly when some pivot is
    small and every pivot after it is neither small nor exceeded too much by the one before it. *)
Theorem C63_small_iff : forall epsilon dummy n (LU : matrix), (0 < n)%nat ->
  (lu_check epsilon dummy n n LU = SmallValue <->
   exists i, (i < n)%nat /\ Cmod (LU i i) <= epsilon * 100 /\
     forall k, (i <= k)%nat -> (S k < n)%nat ->
       epsilon * 100 < Cmod (LU (S k) (S k)) /\ Cmod (LU k k / LU (S k) (S k))%C < 1 / dummy).
Proof. exact lu_check_small. Qed.
Print Assumptions C63_small_iff.

(** When success is reported, every linear system with the factored matrix has exactly one solution; so a factorisation
    of a singular matrix is never accepted. *)
Theorem C63_success_solvable : forall epsilon dummy rows cols (LU : matrix) (b : nat -> C), 0 <= epsilon ->
  lu_check epsilon dummy rows cols LU = LuSuccess ->
  exists x, solves rows (product rows LU) x b /\
    forall y, solves rows (product rows LU) y b -> forall i, (i < rows)%nat -> y i = x i.
Proof. exact lu_success_solvable. Qed.
Print Assumptions C63_success_solvable.

Example C63_success_case : lu_check (1 / 1000) (1 / 1000) 2 2 (fun i j => RtoC (INR (i + j + 1))) = LuSuccess.
Proof. exact two_success. Qed.

(** The test is not invariant under scaling: a multiple of the identity is refused when the factor is small. *)
Theorem C63_scaling_refuted : forall epsilon dummy n, 0 < epsilon -> (0 < n)%nat ->
  lu_check epsilon dummy n n (fun i j => if Nat.eqb i j then RtoC epsilon else RtoC 0) = SmallValue.
Proof. exact scaled_identity_refused. Qed.
Print Assumptions C63_scaling_refuted.

(** Success does not mean that the solution depends moderately on the right-hand side: for every bound K there is an
    accepted two by two matrix and a right-hand side of entries at most one whose solution is larger than K. *)
Theorem C63_conditioning_refuted : forall epsilon dummy K, 0 < epsilon -> epsilon * 100 < 1 -> 0 < dummy < 1 -> 0 < K ->
  exists (LU : matrix) (b x : nat -> C), lu_check epsilon dummy 2 2 LU = LuSuccess /\
    solves 2 (product 2 LU) x b /\ (forall i, (i < 2)%nat -> Cmod (b i) <= 1) /\ K < Cmod (x 0%nat).
Proof. exact ill_conditioned_accepted. Qed.
Print Assumptions C63_conditioning_refuted.
