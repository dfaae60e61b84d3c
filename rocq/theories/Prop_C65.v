(** C65: random numbers. *)
From Coq Require Import Reals Lra ZArith List.
From Coquelicot Require Import Complex.
From Verif Require Import Random.
Import ListNotations.
Local Open Scope R_scope.

(** A random number of n digits comes from the smallest of the sixteen generators that has at least n digits and carries
    the precision asked for; above 40000 digits out_of_range is thrown. *)
Theorem C65_digits : forall (u : Z -> nat -> R) n s,
  ((40000 < n)%Z /\ random_mp u n s = OutOfRange s) \/
  (exists l, In l ladder /\ (n <= l)%Z /\ (forall m, In m ladder -> (n <= m)%Z -> (l <= m)%Z) /\
    random_mp u n s = Got (u l (drawn s), n) (mkRst (default_prec s) (S (drawn s)))).
Proof. exact random_mp_spec. Qed.
Print Assumptions C65_digits.

Theorem C65_interval : forall u : Z -> nat -> R, (forall d k, 0 <= u d k <= 1) ->
  forall a b n s x p s', a <= b -> random_between u a b n s = Got (x, p) s' ->
  a <= x <= b /\ p = n /\ (n <= 40000)%Z /\ default_prec s' = default_prec s.
Proof. exact between_spec. Qed.
Print Assumptions C65_interval.

(** Real numbers are in [-1,1], at the precision asked for, and the default precision is back to what it was, unless
    out_of_range was thrown: then it stays at the precision asked for. *)
Theorem C65_real : forall u : Z -> nat -> R, (forall d k, 0 <= u d k <= 1) -> forall n s,
  match random_real_digits u n s with
  | Got (z, p) s' => (n <= 40000)%Z /\ snd z = 0 /\ -1 <= fst z <= 1 /\ p = n /\ default_prec s' = default_prec s
  | OutOfRange s' => (40000 < n)%Z /\ default_prec s' = n
  | NotANumber _ => False
  end.
Proof. exact real_spec. Qed.
Print Assumptions C65_real.

(** Without a precision: at the default one *)
Theorem C65_real_default : forall u : Z -> nat -> R, (forall d k, 0 <= u d k <= 1) -> forall s,
  match random_real u s with
  | Got (z, p) s' => (default_prec s <= 40000)%Z /\ snd z = 0 /\ -1 <= fst z <= 1 /\ p = default_prec s /\ default_prec s' = default_prec s
  | OutOfRange s' => (40000 < default_prec s)%Z /\ s' = s
  | NotANumber _ => False
  end.
Proof. exact real_default_spec. Qed.
Print Assumptions C65_real_default.

(** Complex numbers at the default precision have both parts in [-1,1], *)
Theorem C65_complex : forall u : Z -> nat -> R, (forall d k, 0 <= u d k <= 1) -> forall s,
  match rand u s with
  | Got (z, p) s' => (default_prec s <= 40000)%Z /\ -1 <= fst z <= 1 /\ -1 <= snd z <= 1 /\ p = default_prec s /\
      default_prec s' = default_prec s
  | OutOfRange s' => (40000 < default_prec s)%Z /\ s' = s
  | NotANumber _ => False
  end.
Proof. exact rand_spec. Qed.
Print Assumptions C65_complex.

(** but those at a given precision never leave the first quadrant. *)
Theorem C65_complex_digits : forall u : Z -> nat -> R, (forall d k, 0 <= u d k <= 1) -> forall n s,
  match random_complex_digits u n s with
  | Got (z, p) s' => (n <= 40000)%Z /\ 0 <= fst z <= 1 /\ 0 <= snd z <= 1 /\ p = n /\ default_prec s' = default_prec s
  | OutOfRange s' => (40000 < n)%Z /\ default_prec s' = n
  | NotANumber _ => False
  end.
Proof. exact complex_spec. Qed.
Print Assumptions C65_complex_digits.

(** A random unit in double precision has modulus 1, unless zero was drawn. *)
Theorem C65_unit_double : forall (u : Z -> nat -> R) s,
  match random_unit_double u s with
  | Got w s' => Cmod w = 1 /\ default_prec s' = default_prec s
  | NotANumber _ => u 0%Z (drawn s) = 1 / 2 /\ u 0%Z (S (drawn s)) = 1 / 2
  | OutOfRange _ => False
  end.
Proof. exact unit_double_spec. Qed.
Print Assumptions C65_unit_double.

(** In multiple precision its modulus is the square root of the modulus of the number drawn, so it is 1 only if the
    number drawn was a unit already; it is between 0 and the fourth root of 2. *)
Theorem C65_unit_partial : forall u : Z -> nat -> R, (forall d k, 0 <= u d k <= 1) -> forall s,
  match rand_unit u s with
  | Got (w, p) s' => exists z, rand u s = Got (z, p) s' /\ Cmod z <> 0 /\ Cmod w = sqrt (Cmod z) /\
      0 < Cmod w <= sqrt (sqrt 2) /\ (Cmod w = 1 <-> Cmod z = 1)
  | OutOfRange s' => (40000 < default_prec s)%Z /\ s' = s
  | NotANumber s' => exists p, rand u s = Got (RtoC 0, p) s'
  end.
Proof. exact unit_spec. Qed.
Print Assumptions C65_unit_partial.

Theorem C65_unit_digits_partial : forall u : Z -> nat -> R, (forall d k, 0 <= u d k <= 1) -> forall n s,
  match random_unit_digits u n s with
  | Got (w, p) s' => exists z s1, random_complex_digits u n s = Got (z, n) s1 /\ Cmod z <> 0 /\ Cmod w = sqrt (Cmod z) /\
      (Cmod w = 1 <-> Cmod z = 1) /\ 0 <= fst w /\ 0 <= snd w /\ p = n /\ default_prec s' = default_prec s
  | OutOfRange s' => (40000 < n)%Z /\ default_prec s' = n
  | NotANumber s' => default_prec s' = default_prec s
  end.
Proof. exact unit_digits_spec. Qed.
Print Assumptions C65_unit_digits_partial.

(** "The modulus of a random unit is 1" is false in multiple precision. *)
Theorem C65_unit_refuted : exists (u : Z -> nat -> R) s w p s', (forall d k, 0 <= u d k <= 1) /\
  rand_unit u s = Got (w, p) s' /\ Cmod w <> 1.
Proof.
  destruct unit_not_one as [w [p [s' H]]].
  exact (ex_intro _ three_quarters (ex_intro _ (mkRst 30 0) (ex_intro _ w (ex_intro _ p (ex_intro _ s' (conj three_quarters_unit H)))))).
Qed.
Print Assumptions C65_unit_refuted.

(** "Drawing a number leaves the default precision alone" is false when the draw throws. *)
Theorem C65_default_precision_refuted : forall u : Z -> nat -> R, exists n s s',
  random_real_digits u n s = OutOfRange s' /\ default_prec s' <> default_prec s.
Proof. intro u. exists 40001%Z, (mkRst 30 0), (mkRst 40001 0). split; [reflexivity|discriminate]. Qed.
Print Assumptions C65_default_precision_refuted.

Example C65_cases : (forall d k, 0 <= three_quarters d k <= 1) /\
  (exists z, random_real_digits three_quarters 60 (mkRst 30 7) = Got z (mkRst 30 8)) /\
  (exists x, random_mp three_quarters 8001 (mkRst 30 7) = Got x (mkRst 30 8)) /\ rung 8001 = Some 10000%Z.
Proof. repeat split; try apply three_quarters_unit; try (eexists; reflexivity). Qed.
