(** Random numbers.

    Models core/include/bertini2/random.hpp:70-269, core/src/basics/random.cpp and num_traits.hpp:198-223. The random
    number generators are arbitrary: [u d k] is the k-th number drawn from the generator for d digits (d = 0: the
    generator for doubles), a number of the unit interval. A multiprecision number is its value with its precision in
    digits; values are exact. The two draws of a complex number are made in the order real part, imaginary part (C++ does
    not specify it). What survives a call is the default precision and the number of draws made. *)
From Coq Require Import Reals Lra ZArith Lia List Bool.
From Coquelicot Require Import Complex.
Import ListNotations.
Local Open Scope R_scope.

Record rst := mkRst { default_prec : Z; drawn : nat }.

Inductive rand_outcome {A : Type} :=
| Got (a : A) (s : rst)
| OutOfRange (s : rst)        (* std::out_of_range *)
| NotANumber (s : rst).       (* division by zero *)
Arguments rand_outcome : clear implicits.

Section Random.
  Variable u : Z -> nat -> R.

  (** random.cpp:44-77: the generators there are *)
  Definition ladder : list Z :=
    [50; 100; 200; 400; 800; 1600; 3200; 6400; 8000; 10000; 12000; 14000; 16000; 18000; 20000; 40000]%Z.
  Definition rung (n : Z) : option Z := find (fun l => (n <=? l)%Z) ladder.

  (** random.hpp:75-87 RandomMp<length> and random.cpp:40-80 RandomMp(num_digits) *)
  Definition random_mp (n : Z) (s : rst) : rand_outcome (R * Z) :=
    match rung n with
    | None => OutOfRange s
    | Some l => Got (u l (drawn s), n) (mkRst (default_prec s) (S (drawn s)))
    end.

  (** random.hpp:109-113 and random.cpp:100-140 *)
  Definition random_between (a b : R) (n : Z) (s : rst) : rand_outcome (R * Z) :=
    match rung n with
    | None => OutOfRange s
    | Some l => Got ((b - a) * u l (drawn s) + a, n) (mkRst (default_prec s) (S (drawn s)))
    end.

  Definition bind {A B : Type} (r : rand_outcome A) (f : A -> rst -> rand_outcome B) : rand_outcome B :=
    match r with Got a s => f a s | OutOfRange s => OutOfRange s | NotANumber s => NotANumber s end.

  Definition set_default (p : Z) (s : rst) : rst := mkRst p (drawn s).

  (** random.hpp:180-183 RandomReal(), :167-175 RandomRealAssign and :188-195 RandomReal(num_digits) *)
  Definition random_real (s : rst) : rand_outcome (C * Z) :=
    bind (random_between (-1) 1 (default_prec s) s) (fun x s => Got (RtoC (fst x), snd x) s).
  Definition random_real_digits (n : Z) (s : rst) : rand_outcome (C * Z) :=
    let cached := default_prec s in
    bind (random_between (-1) 1 n (set_default n s)) (fun x s => Got (RtoC (fst x), snd x) (set_default cached s)).

  (** random.hpp:206-209 rand() *)
  Definition rand (s : rst) : rand_outcome (C * Z) :=
    let p := default_prec s in
    bind (random_between (-1) 1 p s) (fun x s =>
    bind (random_between (-1) 1 p s) (fun y s => Got ((fst x, fst y) : C, p) s)).

  (** random.hpp:215-224 rand_unit(), RandomUnit() *)
  Definition rand_unit (s : rst) : rand_outcome (C * Z) :=
    bind (rand s) (fun z s =>
      if Req_EM_T (Cmod (fst z)) 0 then NotANumber s else Got ((fst z / RtoC (sqrt (Cmod (fst z))))%C, snd z) s).

  (** random.hpp:226-249 rand_assign, RandomComplexAssign, RandomComplex(num_digits) *)
  Definition random_complex_digits (n : Z) (s : rst) : rand_outcome (C * Z) :=
    let cached := default_prec s in
    bind (random_mp n (set_default n s)) (fun x s =>
    bind (random_mp n s) (fun y s => Got ((fst x, fst y) : C, n) (set_default cached s))).

  (** random.hpp:251-269 RandomUnitAssign, RandomUnit(num_digits) *)
  Definition random_unit_digits (n : Z) (s : rst) : rand_outcome (C * Z) :=
    let cached := default_prec s in
    bind (random_mp n (set_default n s)) (fun x s =>
    bind (random_mp n s) (fun y s =>
      let z := (fst x, fst y) : C in
      if Req_EM_T (Cmod z) 0 then NotANumber (set_default cached s)
      else Got ((z / RtoC (sqrt (Cmod z)))%C, n) (set_default cached s))).

  (** num_traits.hpp:209-216 RandomUnit<dbl_complex>; the distribution is on [-1,1] *)
  Definition random_unit_double (s : rst) : rand_outcome C :=
    let z := (2 * u 0%Z (drawn s) - 1, 2 * u 0%Z (S (drawn s)) - 1) : C in
    let s' := mkRst (default_prec s) (S (S (drawn s))) in
    if Req_EM_T (Cmod z) 0 then NotANumber s' else Got (z / RtoC (Cmod z))%C s'.

  (** ** Proofs *)
  Hypothesis u_unit : forall d k, 0 <= u d k <= 1.

  Lemma find_first : forall (f : Z -> bool) l r, find f l = Some r ->
    In r l /\ f r = true /\ exists a b, l = a ++ r :: b /\ forall x, In x a -> f x = false.
  Proof.
    clear. intros f l r. induction l as [|x l IH]; cbn [find]; [discriminate|]. destruct (f x) eqn:E; intro H.
    - injection H as <-. split; [left; reflexivity|]. split; [exact E|]. exists [], l. split; [reflexivity|]. intros y [].
    - destruct (IH H) as [I [Fr [a [b [El Ha]]]]]. split; [right; exact I|]. split; [exact Fr|]. exists (x :: a), b.
      split; [rewrite El; reflexivity|]. intros y [<-|Hy]; [exact E|exact (Ha y Hy)].
  Qed.

  Lemma rung_some : forall n l, rung n = Some l -> In l ladder /\ (n <= l)%Z /\ forall m, In m ladder -> (n <= m)%Z -> (l <= m)%Z.
  Proof.
    clear. intros n l H. destruct (find_first _ _ _ H) as [I [L [a [b [El Ha]]]]]. apply Z.leb_le in L.
    split; [exact I|]. split; [exact L|]. intros m Im Hm.
    assert (Srt : forall a b x y, ladder = a ++ x :: b -> In y b -> (x <= y)%Z).
    { unfold ladder. clear. intros a b x y E Hy.
      do 16 (destruct a as [|? a]; cbn in E; [injection E as <- <-; cbn in Hy; lia|injection E as _ E]).
      destruct a; discriminate. }
    assert (Im' : In m ladder) by exact Im. rewrite El in Im'. apply in_app_or in Im'. destruct Im' as [Im'|[->|Im']].
    - specialize (Ha m Im'). apply Z.leb_gt in Ha. lia.
    - lia.
    - exact (Srt a b l m El Im').
  Qed.

  Lemma rung_none : forall n, rung n = None <-> (40000 < n)%Z.
  Proof.
    clear. intro n. unfold rung. split.
    - intro H. apply find_none with (x := 40000%Z) in H; [apply Z.leb_gt in H; lia|]. unfold ladder. cbn. tauto.
    - intro H. destruct (find _ ladder) as [r|] eqn:E; [|reflexivity]. apply find_some in E as [I L]. apply Z.leb_le in L.
      assert (r <= 40000)%Z by (unfold ladder in I; cbn in I; lia). lia.
  Qed.

  Lemma random_mp_spec : forall n s,
    ((40000 < n)%Z /\ random_mp n s = OutOfRange s) \/
    (exists l, In l ladder /\ (n <= l)%Z /\ (forall m, In m ladder -> (n <= m)%Z -> (l <= m)%Z) /\
      random_mp n s = Got (u l (drawn s), n) (mkRst (default_prec s) (S (drawn s)))).
  Proof.
    clear u_unit. intros n s. unfold random_mp. destruct (rung n) as [l|] eqn:E.
    - right. exists l. destruct (rung_some n l E) as [A [B D]]. auto.
    - left. split; [apply rung_none; exact E|reflexivity].
  Qed.

  Lemma between_spec : forall a b n s x p s', a <= b -> random_between a b n s = Got (x, p) s' ->
    a <= x <= b /\ p = n /\ (n <= 40000)%Z /\ default_prec s' = default_prec s.
  Proof.
    intros a b n s x p s' Hab H. unfold random_between in H. destruct (rung n) as [l|] eqn:E; [|discriminate].
    assert (x = (b - a) * u l (drawn s) + a /\ p = n /\ s' = mkRst (default_prec s) (S (drawn s))) as [-> [-> ->]].
    { injection H as H1 H2 H3. auto. }
    pose proof (u_unit l (drawn s)) as U. split; [|split; [reflexivity|split; [|reflexivity]]].
    - pose proof (Rmult_le_pos (b - a) (u l (drawn s)) ltac:(lra) (proj1 U)).
      pose proof (Rmult_le_compat_l (b - a) (u l (drawn s)) 1 ltac:(lra) (proj2 U)). lra.
    - destruct (Z.lt_ge_cases 40000 n) as [L|L]; [|lia]. apply rung_none in L. congruence.
  Qed.

  Lemma mp_value : forall n s x p s', random_mp n s = Got (x, p) s' ->
    0 <= x <= 1 /\ p = n /\ (n <= 40000)%Z /\ default_prec s' = default_prec s.
  Proof.
    intros n s x p s' H. unfold random_mp in H. destruct (rung n) as [l|] eqn:E; [|discriminate].
    assert (x = u l (drawn s) /\ p = n /\ s' = mkRst (default_prec s) (S (drawn s))) as [-> [-> ->]].
    { injection H as H1 H2 H3. auto. }
    split; [apply u_unit|]. split; [reflexivity|]. split; [|reflexivity].
    destruct (Z.lt_ge_cases 40000 n) as [L|L]; [|lia]. apply rung_none in L. congruence.
  Qed.

  Lemma real_spec : forall n s,
    match random_real_digits n s with
    | Got (z, p) s' => (n <= 40000)%Z /\ snd z = 0 /\ -1 <= fst z <= 1 /\ p = n /\ default_prec s' = default_prec s
    | OutOfRange s' => (40000 < n)%Z /\ default_prec s' = n
    | NotANumber _ => False
    end.
  Proof.
    intros n s. unfold random_real_digits. destruct (random_between (-1) 1 n (set_default n s)) as [[x p] s'|s'|s'] eqn:E.
    - destruct (between_spec (-1) 1 n _ x p s' ltac:(lra) E) as [A [B [D G]]]. cbn. auto.
    - unfold random_between in E. destruct (rung n) eqn:R; [discriminate|]. injection E as <-. cbn.
      split; [apply rung_none; exact R|reflexivity].
    - unfold random_between in E. destruct (rung n); discriminate.
  Qed.

  Lemma real_default_spec : forall s,
    match random_real s with
    | Got (z, p) s' => (default_prec s <= 40000)%Z /\ snd z = 0 /\ -1 <= fst z <= 1 /\ p = default_prec s /\ default_prec s' = default_prec s
    | OutOfRange s' => (40000 < default_prec s)%Z /\ s' = s
    | NotANumber _ => False
    end.
  Proof.
    intros s. unfold random_real. destruct (random_between (-1) 1 (default_prec s) s) as [[x p] s'|s'|s'] eqn:E.
    - destruct (between_spec (-1) 1 _ _ x p s' ltac:(lra) E) as [A [B [D G]]]. cbn. auto.
    - unfold random_between in E. destruct (rung (default_prec s)) eqn:R; [discriminate|]. injection E as <-. cbn.
      split; [apply rung_none; exact R|reflexivity].
    - unfold random_between in E. destruct (rung (default_prec s)); discriminate.
  Qed.

  Lemma rand_spec : forall s,
    match rand s with
    | Got (z, p) s' => (default_prec s <= 40000)%Z /\ -1 <= fst z <= 1 /\ -1 <= snd z <= 1 /\ p = default_prec s /\
        default_prec s' = default_prec s
    | OutOfRange s' => (40000 < default_prec s)%Z /\ s' = s
    | NotANumber _ => False
    end.
  Proof.
    intro s. unfold rand. destruct (random_between (-1) 1 (default_prec s) s) as [[x p] s1|s1|s1] eqn:E.
    - destruct (between_spec (-1) 1 _ _ x p s1 ltac:(lra) E) as [A [B [D G]]]. cbn [bind].
      destruct (random_between (-1) 1 (default_prec s) s1) as [[y q] s2|s2|s2] eqn:E2; cbn [bind fst snd].
      + destruct (between_spec (-1) 1 _ _ y q s2 ltac:(lra) E2) as [A2 [B2 [D2 G2]]].
        split; [exact D|]. split; [exact A|]. split; [exact A2|]. split; [reflexivity|]. congruence.
      + unfold random_between in E2. destruct (rung (default_prec s)) eqn:R; [discriminate|]. apply rung_none in R. lia.
      + unfold random_between in E2. destruct (rung (default_prec s)); discriminate.
    - unfold random_between in E. destruct (rung _) eqn:R; [discriminate|]. injection E as <-. cbn.
      split; [apply rung_none; exact R|reflexivity].
    - unfold random_between in E. destruct (rung _); discriminate.
  Qed.

  Lemma complex_spec : forall n s,
    match random_complex_digits n s with
    | Got (z, p) s' => (n <= 40000)%Z /\ 0 <= fst z <= 1 /\ 0 <= snd z <= 1 /\ p = n /\ default_prec s' = default_prec s
    | OutOfRange s' => (40000 < n)%Z /\ default_prec s' = n
    | NotANumber _ => False
    end.
  Proof.
    intros n s. unfold random_complex_digits. destruct (random_mp n (set_default n s)) as [[x p] s1|s1|s1] eqn:E.
    - destruct (mp_value _ _ _ _ _ E) as [A [B [D G]]]. cbn [bind].
      destruct (random_mp n s1) as [[y q] s2|s2|s2] eqn:E2; cbn [bind fst snd].
      + destruct (mp_value _ _ _ _ _ E2) as [A2 [B2 [D2 G2]]]. cbn. auto.
      + unfold random_mp in E2. destruct (rung n) eqn:R; [discriminate|]. apply rung_none in R. lia.
      + unfold random_mp in E2. destruct (rung n); discriminate.
    - unfold random_mp in E. destruct (rung _) eqn:R; [discriminate|]. injection E as <-. cbn.
      split; [apply rung_none; exact R|reflexivity].
    - unfold random_mp in E. destruct (rung _); discriminate.
  Qed.

  Lemma scaled_modulus : forall z : C, Cmod z <> 0 -> Cmod (z / RtoC (sqrt (Cmod z)))%C = sqrt (Cmod z).
  Proof.
    clear. intros z Hz. assert (P : 0 < Cmod z) by (pose proof (Cmod_ge_0 z); lra).
    pose proof (sqrt_lt_R0 _ P) as S.
    rewrite Cmod_div by (intro H; apply (f_equal fst) in H; cbn in H; lra).
    rewrite Cmod_R, Rabs_right by lra. rewrite <- (sqrt_sqrt (Cmod z)) at 1 by lra. field. lra.
  Qed.

  Lemma modulus_box : forall z : C, -1 <= fst z <= 1 -> -1 <= snd z <= 1 -> Cmod z <= sqrt 2.
  Proof.
    clear. intros [x y] Hx Hy. cbn [fst snd] in Hx, Hy. unfold Cmod. cbn [fst snd]. apply sqrt_le_1_alt. nra.
  Qed.

  Lemma unit_spec : forall s,
    match rand_unit s with
    | Got (w, p) s' => exists z, rand s = Got (z, p) s' /\ Cmod z <> 0 /\ Cmod w = sqrt (Cmod z) /\
        0 < Cmod w <= sqrt (sqrt 2) /\ (Cmod w = 1 <-> Cmod z = 1)
    | OutOfRange s' => (40000 < default_prec s)%Z /\ s' = s
    | NotANumber s' => exists p, rand s = Got (RtoC 0, p) s'
    end.
  Proof.
    intro s. unfold rand_unit. pose proof (rand_spec s) as Sp. destruct (rand s) as [[z p] s1|s1|s1] eqn:E; cbn [bind fst snd].
    - destruct (Req_EM_T (Cmod z) 0) as [Z0|Z0].
      + exists p. rewrite (Cmod_eq_0 z Z0). reflexivity.
      + exists z. split; [reflexivity|]. split; [exact Z0|]. rewrite (scaled_modulus z Z0). split; [reflexivity|].
        destruct Sp as [_ [Hx [Hy _]]].
        assert (P : 0 < Cmod z) by (pose proof (Cmod_ge_0 z); lra).
        split; [split; [exact (sqrt_lt_R0 _ P)|apply sqrt_le_1_alt; apply modulus_box; assumption]|].
        split; intro H; [|rewrite H; apply sqrt_1]. rewrite <- (sqrt_sqrt (Cmod z)) by lra. rewrite H. lra.
    - exact Sp.
    - destruct Sp.
  Qed.

  Lemma unit_digits_spec : forall n s,
    match random_unit_digits n s with
    | Got (w, p) s' => exists z s1, random_complex_digits n s = Got (z, n) s1 /\ Cmod z <> 0 /\ Cmod w = sqrt (Cmod z) /\
        (Cmod w = 1 <-> Cmod z = 1) /\ 0 <= fst w /\ 0 <= snd w /\ p = n /\ default_prec s' = default_prec s
    | OutOfRange s' => (40000 < n)%Z /\ default_prec s' = n
    | NotANumber s' => default_prec s' = default_prec s
    end.
  Proof.
    intros n s. unfold random_unit_digits, random_complex_digits.
    destruct (random_mp n (set_default n s)) as [[x p] s1|s1|s1] eqn:E; cbn [bind fst snd].
    - destruct (mp_value _ _ _ _ _ E) as [A [B [D G]]].
      destruct (random_mp n s1) as [[y q] s2|s2|s2] eqn:E2; cbn [bind fst snd].
      + destruct (mp_value _ _ _ _ _ E2) as [A2 [B2 [D2 G2]]].
        destruct (Req_EM_T (Cmod ((x, y) : C)) 0) as [Z0|Z0]; [reflexivity|].
        exists ((x, y) : C). eexists. split; [reflexivity|]. split; [exact Z0|]. rewrite (scaled_modulus _ Z0).
        split; [reflexivity|]. assert (P : 0 < Cmod ((x, y) : C)) by (pose proof (Cmod_ge_0 (x, y)); lra).
        split.
        { split; intro H; [|rewrite H; apply sqrt_1]. rewrite <- (sqrt_sqrt (Cmod (x, y))) by lra. rewrite H. lra. }
        pose proof (sqrt_lt_R0 _ P) as Sq. set (r := sqrt (Cmod (x, y))) in *.
        assert (Eq : (((x, y) : C) / RtoC r)%C = (x / r, y / r)).
        { unfold Cdiv, Cinv, Cmult, RtoC. cbn [fst snd]. f_equal; field; lra. }
        rewrite Eq. cbn [fst snd]. pose proof (Rinv_0_lt_compat r Sq) as I.
        split; [apply Rmult_le_pos; lra|]. split; [apply Rmult_le_pos; lra|]. split; reflexivity.
      + unfold random_mp in E2. destruct (rung n) eqn:R; [discriminate|]. apply rung_none in R. lia.
      + unfold random_mp in E2. destruct (rung n); discriminate.
    - unfold random_mp in E. destruct (rung _) eqn:R; [discriminate|]. injection E as <-. cbn.
      split; [apply rung_none; exact R|reflexivity].
    - unfold random_mp in E. destruct (rung _); discriminate.
  Qed.

  Lemma unit_double_spec : forall s,
    match random_unit_double s with
    | Got w s' => Cmod w = 1 /\ default_prec s' = default_prec s
    | NotANumber _ => u 0%Z (drawn s) = 1 / 2 /\ u 0%Z (S (drawn s)) = 1 / 2
    | OutOfRange _ => False
    end.
  Proof.
    clear u_unit. intro s. unfold random_unit_double.
    destruct (Req_EM_T _ 0) as [Z0|Z0].
    - apply Cmod_eq_0 in Z0. assert (A := f_equal fst Z0). assert (B := f_equal snd Z0). cbn in A, B. lra.
    - split; [|reflexivity]. set (z := _ : C) in *. rewrite Cmod_div by (intro H; apply (f_equal fst) in H; cbn in H; lra).
      rewrite Cmod_R, Rabs_right by (pose proof (Cmod_ge_0 z); lra). field. exact Z0.
  Qed.
End Random.

(** ** Examples *)
Definition three_quarters : Z -> nat -> R := fun _ _ => 3 / 4.
Lemma three_quarters_unit : forall d k, 0 <= three_quarters d k <= 1.
Proof. intros. unfold three_quarters. lra. Qed.

Lemma unit_not_one : exists w p s', rand_unit three_quarters (mkRst 30 0) = Got (w, p) s' /\ Cmod w <> 1.
Proof.
  pose proof (unit_spec three_quarters three_quarters_unit (mkRst 30 0)) as H.
  assert (E : rand three_quarters (mkRst 30 0) = Got ((1 / 2, 1 / 2) : C, 30%Z) (mkRst 30 2)).
  { unfold rand, random_between. cbn [default_prec]. change (rung 30) with (Some 50%Z). cbn [bind fst snd drawn default_prec].
    unfold three_quarters. do 2 f_equal. f_equal; field. }
  assert (M : Cmod ((1 / 2, 1 / 2) : C) = sqrt (1 / 2)) by (unfold Cmod; cbn [fst snd]; f_equal; field).
  assert (N1 : sqrt (1 / 2) <> 1).
  { intro X. apply (f_equal (fun r => r * r)) in X. rewrite sqrt_sqrt in X by lra. lra. }
  assert (N0 : sqrt (1 / 2) <> 0) by (pose proof (sqrt_lt_R0 (1/2) ltac:(lra)); lra).
  destruct (rand_unit three_quarters (mkRst 30 0)) as [[w p] s'|s'|s'] eqn:E2.
  - exists w, p, s'. split; [reflexivity|]. destruct H as [z [Ez [_ [_ [_ Hi]]]]]. rewrite E in Ez. intro X. apply Hi in X.
    assert (z = (1 / 2, 1 / 2)) as -> by congruence. rewrite M in X. exact (N1 X).
  - destruct H as [H _]. cbn in H. lia.
  - destruct H as [p Ez]. rewrite E in Ez. exfalso. assert (X : ((1 / 2, 1 / 2) : C) = RtoC 0) by congruence.
    apply (f_equal fst) in X. cbn in X. lra.
Qed.
