(** Texts for the examples of C90. *)
From Coq Require Import String Ascii List Arith Lia Bool ZArith.
From Verif Require Import Base Chars NumLit Expr Parser ParserSpec ParserEx Names SysParser SysParserSpec SysParserProof SysParserEx SysValue.
Import ListNotations.

Definition circle_prog : list stmt :=
  [SGroup [txt "x"]; SFunctions [txt "f"]; SDefinition (txt "f") (TMul [(true, TSym (txt "f")); (true, TSym (txt "x"))])].
Definition mutual_prog : list stmt :=
  [SGroup [txt "x"]; SFunctions [txt "f"; txt "g"]; SDefinition (txt "f") (TSym (txt "g")); SDefinition (txt "g") (TSym (txt "f"))].
Definition bare_prog : list stmt := [SGroup [txt "x"]; SFunctions [txt "f"]].
Definition redefined_prog : list stmt :=
  [SFunctions [txt "f"; txt "g"]; SDefinition (txt "f") (TInt 1); SDefinition (txt "g") (TSym (txt "f")); SDefinition (txt "f") (TInt 2)].

Ltac nd_tac := repeat constructor; cbn [In]; let H := fresh in intro H; repeat (destruct H as [H|H]; [discriminate H|]); destruct H.
Ltac fresh_tac := let nm := fresh in let H := fresh in intros nm H; cbn [declares In] in H;
  repeat (destruct H as [<-|H]; [split; [apply identifier_intro; reflexivity|]; let J := fresh in intro J; vm_compute in J;
    repeat (destruct J as [J|J]; [discriminate J|]); destruct J|]); destruct H.
Ltac incl_tac := let x := fresh in let H := fresh in intros x H; cbn [symbols flat_map app snd In] in H;
  repeat (destruct H as [<-|H]; [vm_compute; tauto|]); destruct H.
Ltac scoped_tac := repeat (cbn [scoped]; split; [cbn [declares]; nd_tac|]; split; [fresh_tac|];
  split; [first [exact I | incl_tac | split; [vm_compute; tauto|incl_tac]]|]); exact I.

Lemma circle_scoped : scoped initial_names [] circle_prog.
Proof. unfold circle_prog. scoped_tac. Qed.
Lemma mutual_scoped : scoped initial_names [] mutual_prog.
Proof. unfold mutual_prog. scoped_tac. Qed.
Lemma bare_scoped : scoped initial_names [] bare_prog.
Proof. unfold bare_prog. scoped_tac. Qed.

Lemma circle_circle : circle circle_prog [txt "f"].
Proof.
  intros f [<-|[]]. split; [vm_compute; tauto|]. intros t H. apply last_in in H. destruct H as [H|[]]. injection H as <-.
  exists (txt "f"). split; left; reflexivity.
Qed.
Lemma mutual_circle : circle mutual_prog [txt "f"; txt "g"].
Proof.
  intros f H. split; [destruct H as [<-|[<-|[]]]; vm_compute; tauto|]. intros t K. apply last_in in K.
  destruct K as [K|[K|[]]]; injection K as <- <-; [exists (txt "g")|exists (txt "f")]; (split; [left; reflexivity|cbn; tauto]).
Qed.
Lemma bare_circle : circle bare_prog [txt "f"].
Proof. intros f [<-|[]]. split; [vm_compute; tauto|]. intros t H. apply last_in in H. destruct H. Qed.
