(** A text for the example of C94: two lines which meet, one of them written with a subfunction. *)
From Coq Require Import String Ascii List Arith Lia Bool ZArith Ring Field Reals Lra.
From Coquelicot Require Import Complex.
From Verif Require Import Base Poly Chars NumLit Expr Degree Homog HomogSys Track TrackEx Patch ComplexField StartIndex DegreeAll TotalDegree SolveSetup SolveSetupEx PowNode
  Parser ParserSpec ParserEx Names SysParser SysParserSpec SysParserProof SysParserEx SysValue SysValueEx TextSolve TextSolveEx
  LinearTree LinearPath LinearPathEx LinearSolve LinearSolveEx LinearText.
Import ListNotations.
Local Close Scope R_scope.
Local Open Scope nat_scope.

Definition lines_text : text := txt "variable_group x, y; function f, g; s = y-1; f = x+y-3; g = s-x; ".
Definition lines_prog : list stmt :=
  [SGroup [txt "x"; txt "y"]; SFunctions [txt "f"; txt "g"];
   SSubfunction (txt "s") (TSum [(true, TSym (txt "y")); (false, TInt 1)]);
   SDefinition (txt "f") (TSum [(true, TSum [(true, TSym (txt "x")); (true, TSym (txt "y"))]); (false, TInt 3)]);
   SDefinition (txt "g") (TSum [(true, TSym (txt "s")); (false, TSym (txt "x"))])].
Definition lines_degrees (s : text) : nat := if in_dec text_dec s [txt "x"; txt "y"; txt "s"; txt "f"; txt "g"] then 1 else 0.

Lemma lines_program : program dec initial_names [] lines_prog lines_text.
Proof.
  change lines_text with (txt "variable_group x, y;" ++ (txt " function f, g;" ++ (txt " s = y-1;" ++ (txt " f = x+y-3;" ++ (txt " g = s-x;" ++ txt " "))))).
  apply program_next.
  - apply (t_declaration _ _ _ _ (txt "variable_group") [txt "x"; txt "y"] [] " " (txt "x, y") []); try reflexivity; try constructor.
    apply (written_more [] (txt "x") [] _ (txt " y")); [constructor|constructor|]. apply (written_one (txt " ") (txt "y")). white_tac.
  - dec_tac.
  - fn_tac.
  - apply program_next.
    + apply (t_declaration _ _ _ _ (txt "function") [txt "f"; txt "g"] (txt " ") " " (txt "f, g") []); try reflexivity; try white_tac.
      apply (written_more [] (txt "f") [] _ (txt " g")); [constructor|constructor|]. apply (written_one (txt " ") (txt "g")). white_tac.
    + dec_tac.
    + fn_tac.
    + apply program_next.
      * apply (t_subfunction _ _ _ (txt "s") _ (txt " ") (txt " ") (txt " y-1") []); try white_tac.
        apply u_whole. apply (u_minus _ _ _ (txt " y") _ [] (txt "1")); [constructor| |].
        -- apply u_sum, u_term. apply (sym_usual _ (txt " ") (txt "y")); [white_tac|cbn; tauto].
        -- apply u_term, u_factor. apply (u_integer _ _ _ [] (txt "1")); [constructor|split; [discriminate|repeat constructor]|reflexivity].
      * dec_tac.
      * fn_tac.
      * apply program_next.
        -- apply (t_definition _ _ _ (txt "f") _ (txt " ") (txt " ") (txt " x+y-3") []); try white_tac; [cbn; tauto|].
           apply u_whole. apply (u_minus _ _ _ (txt " x+y") _ [] (txt "3")); [constructor| |].
           ++ apply (u_plus _ _ _ (txt " x") _ [] (txt "y")); [constructor| |].
              ** apply u_sum, u_term. apply (sym_usual _ (txt " ") (txt "x")); [white_tac|cbn; tauto].
              ** apply u_term. apply (sym_usual _ [] (txt "y")); [white_tac|cbn; tauto].
           ++ apply u_term, u_factor. apply (u_integer _ _ _ [] (txt "3")); [constructor|split; [discriminate|repeat constructor]|reflexivity].
        -- dec_tac.
        -- constructor.
        -- apply program_next.
           ++ apply (t_definition _ _ _ (txt "g") _ (txt " ") (txt " ") (txt " s-x") []); try white_tac; [cbn; tauto|].
              apply u_whole. apply (u_minus _ _ _ (txt " s") _ [] (txt "x")); [constructor| |].
              ** apply u_sum, u_term. apply (sym_usual _ (txt " ") (txt "s")); [white_tac|cbn; tauto].
              ** apply u_term. apply (sym_usual _ [] (txt "x")); [white_tac|cbn; tauto].
           ++ dec_tac.
           ++ constructor.
           ++ apply program_end. white_tac.
Qed.

Ltac lines_tac := let H := fresh in intros f t H; apply last_in in H; cbn [definitions lines_prog flat_map app] in H;
  destruct H as [H|[H|[H|[]]]]; injection H as <- <-.

Lemma lines_square : square_text dec lines_prog lines_text lines_degrees.
Proof.
  constructor.
  - exact lines_program.
  - split; [intros x [<-|[]]; vm_compute; tauto|]. split; [intros []|]. split; [intros x [<-|[<-|[]]]; vm_compute; tauto|].
    split; [intros [H|[]]; discriminate H|]. split; [intros x [<-|[<-|[]]]; vm_compute; tauto|]. split; [intros [H|[H|[]]]; discriminate H|exact I].
  - intros f [<-|[<-|[]]]; eexists.
    + eexists [_], [(txt "g", TSum [(true, TSym (txt "s")); (false, TSym (txt "x"))])]. split; [reflexivity|].
      intros [H|[]]; discriminate H.
    + eexists [_; _], []. split; [reflexivity|intros []].
  - reflexivity.
  - discriminate.
  - reflexivity.
  - lines_tac; apply pl_sum; repeat constructor.
  - split; [|split].
    + intros s H. vm_compute in H. repeat (destruct H as [<-|H]; [reflexivity|]). destruct H.
    + intros s [<-|[<-|[]]]; reflexivity.
    + lines_tac; reflexivity.
  - intros f [<-|[<-|[]]]; vm_compute; lia.
  - reflexivity.
Qed.

Lemma lines_linear : linear_text lines_prog lines_degrees.
Proof. split; [intros f [<-|[<-|[]]]; reflexivity|]. lines_tac; reflexivity. Qed.

Lemma lines_places : places conic_place fresh10 (variable_names lines_prog).
Proof. exact conic_places. Qed.

Definition lines_target : psys CF :=
  mkPS [Handle (Sum [(true, Sum [(true, Var 0); (true, Var 1)]); (false, Num KInteger (fZ 3))]);
        Handle (Sum [(true, Handle (Sum [(true, Var 1); (false, Num KInteger (fZ 1))])); (false, Var 0)])] [[0; 1]%nat] [] [] [].

Lemma lines_parsed : exists y, parse_system dec lines_text = Accepted y /\
  forall flt special n, target_of flt special conic_place (S (S n)) y = Some lines_target.
Proof. eexists. split; [vm_compute; reflexivity|]. intros flt special n. destruct n; reflexivity. Qed.

Add Field CFltx : (f_th CF).
Local Opaque CF.
Local Open Scope fld_scope.

Lemma lines_setup : forall fs rho, exists z, system_setup fs rho fresh10 draw_last ones 1 lines_target = Value z /\
  forall t h x y, homotopy_values fs rho z [h; x; y] t =
    Some [(1 - t) * (x + (y - h * (1 + (1 + 1)))) + t * (x - h); (1 - t) * (y - x - h) + t * (y - h)].
Proof.
  intros fs rho. eexists. split; [reflexivity|]. intros t h x y. unfold homotopy_values. cbn -[fZ]. unfold number, fZ.
  change (Pos.to_nat 1) with 1%nat. change (Pos.to_nat 3) with 3%nat. cbn [fnat]. unfold ones. cbn [fpow]. f_equal. f_equal; [ring|f_equal; ring].
Qed.

Local Open Scope R_scope.
Lemma lines_regular : forall fs rho z, SolveSetup.ready fs rho fresh10 lines_target [0; 1]%nat -> system_setup fs rho fresh10 draw_last ones f1 lines_target = Value z ->
  forall t, on_segment (RtoC 1) (RtoC 0) t -> regular_at fs rho (homotopy_rows z 2) (SolveSetup.order (prepared z)) 2 accepts_all t.
Proof.
  intros fs rho z Hr Hz t [l [_ Et]].
  assert (Es : (t = 1 - RtoC l)%C) by (rewrite Et; ring). clear Et.
  apply (rows_regular fs rho fresh10 draw_last ones f1 lines_target [0; 1]%nat z 2 Hr Hz); [cbn; unfold fresh10; lia| |reflexivity].
  intros X Y HX HY E P. destruct X as [|h [|x [|y [|]]]]; try discriminate. destruct Y as [|k [|u [|v [|]]]]; try discriminate.
  cbn [length] in P. rewrite !patch_last in P. subst v.
  destruct (lines_setup fs rho) as [z' [Hz' V]]. rewrite Hz in Hz'. injection Hz' as <-. rewrite !V in E. apply first_two in E. destruct E as [E1 E2].
  destruct (meeting_determined (RtoC l) h x k u y (meeting_form l)) as [A B].
  - replace (RtoC l) with (1 - t)%C by (rewrite Es; ring). replace (1 - (1 - t))%C with t by ring. exact E1.
  - replace (RtoC l) with (1 - t)%C by (rewrite Es; ring). replace (1 - (1 - t))%C with t by ring. exact E2.
  - rewrite A, B. reflexivity.
Qed.

Local Open Scope fld_scope.
Lemma lines_solution : forall (fs : funs CF) flt special, solves_text fs flt special lines_prog [1; 1 + 1].
Proof.
  intros fs flt special f [<-|[<-|[]]]; cbn -[fZ]; unfold fZ; change (Pos.to_nat 1) with 1%nat; change (Pos.to_nat 3) with 3%nat; cbn [fnat]; f_equal; ring.
Qed.
