(** The text s = y-1; f = x+y-3; g = s-x has one solution. *)
From Coq Require Import String Ascii List ZArith Lia Reals Bool Arith Ring Field.
From Coquelicot Require Import Complex.
From Verif Require Import Base ComplexField Poly Expr Parser ParserSpec Names SysParser SysParserSpec SysValue TextSolve TextSolveEx LinearTextEx LinearGamma.
Import ListNotations.
Add Field CFlo : (f_th CF).
Local Opaque CF.
Local Open Scope fld_scope.

Lemma lines_only : forall (fs : funs CF) flt special a, length a = 2%nat -> solves_text fs flt special lines_prog a -> a = [1; 1 + 1].
Proof.
  intros fs flt special a La H. destruct a as [|x [|y [|]]]; try discriminate.
  pose proof (H _ (or_introl eq_refl)) as H1. pose proof (H _ (or_intror (or_introl eq_refl))) as H3. clear H.
  cbn -[fZ] in H1, H3. unfold fZ in H1, H3. change (Pos.to_nat 1) with 1%nat in *. change (Pos.to_nat 3) with 3%nat in *. cbn [fnat] in H1, H3.
  assert (E1 := f_equal (fun o => match o with Some q => q | None => f0 end) H1). assert (E2 := f_equal (fun o => match o with Some q => q | None => f0 end) H3). cbn beta iota in E1, E2.
  match type of E1 with ?l = _ => match type of E2 with ?m = _ =>
    assert (Ey : (1 + 1) * (y - (1 + 1)) = 0) by (transitivity (l + m); [ring|rewrite E1, E2; ring]);
    assert (Ex : (1 + 1) * (x - 1) = 0) by (transitivity (l - m); [ring|rewrite E1, E2; ring]) end end.
  destruct (Pencil.zero_product _ _ Ey) as [Z|Z]; [elim (two_not_zero Z)|]. destruct (Pencil.zero_product _ _ Ex) as [Z'|Z']; [elim (two_not_zero Z')|].
  f_equal; [transitivity (x - 1 + 1); [ring|rewrite Z'; ring]|f_equal; transitivity (y - (1 + 1) + (1 + 1)); [ring|rewrite Z; ring]].
Qed.
