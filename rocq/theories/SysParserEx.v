From Coq Require Import String Ascii List Bool ZArith.
From Verif Require Import Base Chars NumLit Expr Parser ParserSpec ParserEx Names SysParser SysParserSpec.
Import ListNotations.
Local Open Scope char_scope.

Definition small_text : text := txt "variable_group x, y; function f; s = x*y; f = s+x; ".
Definition small_prog : list stmt :=
  [SGroup [txt "x"; txt "y"]; SFunctions [txt "f"];
   SSubfunction (txt "s") (TMul [(true, TSym (txt "x")); (true, TSym (txt "y"))]);
   SDefinition (txt "f") (TSum [(true, TSym (txt "s")); (true, TSym (txt "x"))])].

Ltac dec_tac := cbn [declares declarable]; repeat split; try (apply identifier_intro; reflexivity);
  try (apply no_prefix; vm_compute; reflexivity).
Ltac fn_tac := cbn [declares]; repeat constructor; let k := fresh in let H := fresh in intros k H; inversion H.
Ltac white_tac := match goal with |- white _ => repeat constructor | |- Forall _ _ => repeat constructor end.

Lemma sym_usual : forall nms w nm, white w -> In nm nms -> usual nms dec false Factor (w ++ nm) (TSym nm).
Proof. intros nms w nm Hw Hin. apply u_factor. apply u_symbol; assumption. Qed.

Lemma small_program : program dec initial_names [] small_prog small_text.
Proof.
  change small_text with (txt "variable_group x, y;" ++ (txt " function f;" ++ (txt " s = x*y;" ++ (txt " f = s+x;" ++ txt " ")))).
  apply program_next.
  - apply (t_declaration _ _ _ _ (txt "variable_group") [txt "x"; txt "y"] [] " " (txt "x, y") []); try reflexivity; try constructor.
    apply (written_more [] (txt "x") [] _ (txt " y")); [constructor|constructor|]. apply (written_one (txt " ") (txt "y")). white_tac.
  - dec_tac.
  - fn_tac.
  - apply program_next.
    + apply (t_declaration _ _ _ _ (txt "function") [txt "f"] (txt " ") " " (txt "f") []); try reflexivity; try white_tac.
      apply (written_one [] (txt "f")). constructor.
    + dec_tac.
    + fn_tac.
    + apply program_next.
      * apply (t_subfunction _ _ _ (txt "s") _ (txt " ") (txt " ") (txt " x*y") []); try white_tac.
        apply u_whole, u_sum. apply (u_times _ _ _ (txt " x") _ [] (txt "y")); [constructor| |].
        -- apply u_term. apply (sym_usual _ (txt " ") (txt "x")); [white_tac|cbn; tauto].
        -- apply (sym_usual _ [] (txt "y")); [white_tac|cbn; tauto].
      * dec_tac.
      * fn_tac.
      * apply program_next.
        -- apply (t_definition _ _ _ (txt "f") _ (txt " ") (txt " ") (txt " s+x") []); try white_tac; [cbn; tauto|].
           apply u_whole. apply (u_plus _ _ _ (txt " s") _ [] (txt "x")); [constructor| |].
           ++ apply u_sum, u_term. apply (sym_usual _ (txt " ") (txt "s")); [white_tac|cbn; tauto].
           ++ apply u_term. apply (sym_usual _ [] (txt "x")); [white_tac|cbn; tauto].
        -- dec_tac.
        -- constructor.
        -- apply program_end. white_tac.
Qed.
