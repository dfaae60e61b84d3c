(** A homotopy with two functions which are linear in two unknowns, and a predictor which stays where it is. *)
From Coq Require Import List ZArith Lia Reals Lra Bool Arith Field.
From Coquelicot Require Import Complex.
From Verif Require Import Base ComplexField Expr Diff Homog Lu Newton Track TrackEx LinearTree LinearPath.
Import ListNotations.

(** (1-t) (x + y - 3) + t (x - 1) and (1-t) (y - x - 1) + t (y - 1); x, y, t are the variables 0, 1, 2 *)
Definition number (n : Z) : expr CF := Num KInteger (fZ n).
Definition mixed (target start : expr CF) : expr CF :=
  Sum [(true, Mul [(true, Sum [(true, number 1); (false, Var 2)]); (true, target)]); (true, Mul [(true, Var 2); (true, start)])].
Definition lines : list (expr CF) :=
  [ mixed (Sum [(true, Var 0); (true, Var 1); (false, number 3)]) (Sum [(true, Var 0); (false, number 1)]);
    mixed (Sum [(true, Var 1); (false, Var 0); (false, number 1)]) (Sum [(true, Var 1); (false, number 1)]) ].
Definition nothing : env CF := fun _ => f0.
Definition stays (_ : nat) (x : list CF) (_ _ : C) : code * list CF := (Success, x).
Definition never_far (_ : nat) (_ : list CF) : bool := false.
Definition accepts_all (_ : list (list CF)) : bool := true.

Lemma lines_linear : Forall (linear [0; 1]%nat) lines.
Proof.
  assert (K : forall n, coefficient [0; 1]%nat (number n)).
  { intro n. split; [constructor|]. intros v _ H. inversion H. }
  assert (T : coefficient [0; 1]%nat (Var 2 : expr CF)).
  { split; [constructor|]. intros v Hv H. inversion H; subst. cbn in Hv. lia. }
  assert (S1 : coefficient [0; 1]%nat (Sum [(true, number 1); (false, Var 2)])).
  { split.
    - constructor. intros s e [H|[H|[]]]; injection H as <- <-; constructor.
    - intros v Hv H. inversion H as [|? s e Hi Ho| | | | | | |]; subst.
      destruct Hi as [Hi|[Hi|[]]]; injection Hi as <- <-; [exact (proj2 (K 1%Z) v Hv Ho)|exact (proj2 T v Hv Ho)]. }
  assert (M : forall a b, linear [0; 1]%nat a -> linear [0; 1]%nat b -> linear [0; 1]%nat (mixed a b)).
  { intros a b Ha Hb. apply li_sum. constructor; [|constructor; [|constructor]]; cbn [snd].
    - apply (li_mul _ [(true, Sum [(true, number 1); (false, Var 2)])] a []); [apply Forall_cons; [exact S1|constructor]|exact Ha|constructor].
    - apply (li_mul _ [(true, Var 2)] b []); [apply Forall_cons; [exact T|constructor]|exact Hb|constructor]. }
  assert (N : forall n, linear [0; 1]%nat (number n)) by (intro n; apply li_coefficient; apply K).
  constructor; [|constructor; [|constructor]]; apply M; apply li_sum; repeat (apply Forall_cons; [cbn [snd]; try apply N; apply li_var|]); try apply Forall_nil.
Qed.


Section Values.
  Local Open Scope fld_scope.
  Add Field lpx_field : (f_th CF).
  Local Opaque CF.
  Variable fs : funs CF.

  Lemma lines_values : forall t a b : CF, function_values fs nothing lines [0; 1]%nat 2 t [a; b] =
    Some [(1 - t) * (a + (b - (1 + (1 + 1)))) + t * (a - 1); (1 - t) * (b - a - 1) + t * (b - 1)].
  Proof.
    intros t a b. unfold function_values, lines, mixed, number. cbn -[fZ]. unfold fZ.
    change (Pos.to_nat 1) with 1%nat. change (Pos.to_nat 3) with 3%nat. cbn [fnat]. f_equal. f_equal; [ring|f_equal; ring].
  Qed.
End Values.
Local Open Scope R_scope.

Lemma sub_zero : forall u v : C, (u - v = 0)%C -> u = v.
Proof. intros u v H. replace u with ((u - v) + v)%C by ring. rewrite H. ring. Qed.

Lemma one_plus_square : forall l : R, (1 + RtoC l * RtoC l <> 0)%C.
Proof.
  intros l E. rewrite <- RtoC_mult, <- RtoC_plus in E. apply RtoC_inj in E. nra.
Qed.

(** on the segment from 1 to 0 the values determine the point *)
Lemma lines_regular : forall fs t, on_segment (RtoC 1) (RtoC 0) t -> regular_at fs nothing lines [0; 1]%nat 2 accepts_all t.
Proof.
  intros fs t [l [Hl Et]].
  assert (Es : (1 - t)%C = RtoC l) by (rewrite Et; ring).
  split; [|split].
  - exists [f0; f0]. eexists. split; [reflexivity|]. apply lines_values.
  - intros x y Hx Hy E. destruct x as [|a [|b [|]]]; try discriminate. destruct y as [|c [|d [|]]]; try discriminate.
    rewrite !lines_values in E.
    assert (E1 := f_equal (fun o => match o with Some (z :: _) => z | _ => f0 end) E).
    assert (E2 := f_equal (fun o => match o with Some (_ :: z :: _) => z | _ => f0 end) E). clear E.
    change ((1 - t) * (a + (b - (1 + (1 + 1)))) + t * (a - 1) = (1 - t) * (c + (d - (1 + (1 + 1)))) + t * (c - 1))%C in E1.
    change ((1 - t) * (b - a - 1) + t * (b - 1) = (1 - t) * (d - c - 1) + t * (d - 1))%C in E2.
    assert (U : ((a - c) + (1 - t) * (b - d) = 0)%C).
    { replace ((a - c) + (1 - t) * (b - d))%C with (((1 - t) * (a + (b - (1 + (1 + 1)))) + t * (a - 1)) - ((1 - t) * (c + (d - (1 + (1 + 1)))) + t * (c - 1)))%C by ring.
      rewrite E1. ring. }
    assert (V : ((b - d) - (1 - t) * (a - c) = 0)%C).
    { replace ((b - d) - (1 - t) * (a - c))%C with (((1 - t) * (b - a - 1) + t * (b - 1)) - ((1 - t) * (d - c - 1) + t * (d - 1)))%C by ring.
      rewrite E2. ring. }
    rewrite Es in U, V. pose proof (one_plus_square l) as N.
    assert (B : (b - d = RtoC l * (a - c))%C).
    { replace (b - d)%C with ((b - d - RtoC l * (a - c)) + RtoC l * (a - c))%C by ring. rewrite V. ring. }
    rewrite B in U. assert (A : ((a - c) * (1 + RtoC l * RtoC l) = 0)%C) by (rewrite <- U; ring).
    assert (A0 : (a - c = 0)%C).
    { replace (a - c)%C with (((a - c) * (1 + RtoC l * RtoC l)) * / (1 + RtoC l * RtoC l))%C by (field; exact N). rewrite A. ring. }
    assert (B0 : (b - d = 0)%C) by (rewrite B, A0; ring).
    assert (Ea : a = c) by (apply sub_zero; exact A0).
    assert (Eb : b = d) by (apply sub_zero; exact B0).
    rewrite Ea, Eb. reflexivity.
  - reflexivity.
Qed.

Lemma lines_at_zero : forall fs, solution fs nothing lines [0; 1]%nat 2 (RtoC 0) [RtoC 1; RtoC 2].
Proof.
  intro fs. split; [reflexivity|]. pose proof (lines_values fs (RtoC 0) (RtoC 1) (RtoC 2)) as E. unfold function_values, lines in E. cbn [map sequence] in E.
  unfold lines. destruct (eval fs _ (mixed _ _)) as [u|] eqn:E1 in E; [|discriminate]. destruct (eval fs _ (mixed _ _)) as [v|] eqn:E2 in E; [|discriminate].
  assert (U := f_equal (fun o => match o with Some (z :: _) => z | _ => f0 end) E).
  assert (V := f_equal (fun o => match o with Some (_ :: z :: _) => z | _ => f0 end) E). clear E. cbv beta iota in U, V.
  constructor; [|constructor; [|constructor]].
  - etransitivity; [exact E1|]. rewrite U. f_equal. change (((1 - 0) * (1 + (RtoC 2 - (1 + (1 + 1)))) + 0 * (1 - 1) = 0)%C). replace (RtoC 2) with (1 + 1)%C by (rewrite <- RtoC_plus; f_equal; lra). ring.
  - etransitivity; [exact E2|]. rewrite V. f_equal. change (((1 - 0) * (RtoC 2 - 1 - 1) + 0 * (RtoC 2 - 1) = 0)%C). replace (RtoC 2) with (1 + 1)%C by (rewrite <- RtoC_plus; f_equal; lra). ring.
Qed.
