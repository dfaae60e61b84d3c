(** C46: removing comments from an input file. *)
From Coq Require Import String Ascii List Bool.
From Verif Require Import Chars Comments.
Import ListNotations.
Local Open Scope char_scope.

(** Every text is stripped line by line: blank lines before the last line disappear, every other line keeps what lies
    between its indentation and its first percent sign, followed by a newline. *)
Theorem C46_strip_lines : forall s : text, strip s = Some (stripped (fst (cut s)) (snd (cut s))).
Proof. exact strip_exact. Qed.
Print Assumptions C46_strip_lines.

Example C46_lines_case :
  cut ("a" :: " " :: "%" :: "b" :: cr :: lf :: lf :: " " :: "c" :: "d" :: []) = (txt "a %b", [[]; txt " cd"]) /\
  strip ("a" :: " " :: "%" :: "b" :: cr :: lf :: lf :: " " :: "c" :: "d" :: []) =
    Some ("a" :: " " :: lf :: "c" :: "d" :: lf :: []).
Proof. split; vm_compute; reflexivity. Qed.

(** Apart from white space, the result is the text without what lies between a percent sign and the end of its line. *)
Theorem C46_strip_visible : forall s : text, exists t, strip s = Some t /\ visible t = visible (uncomment false s).
Proof. exact strip_visible. Qed.
Print Assumptions C46_strip_visible.

(** No percent sign is left. *)
Theorem C46_no_percent : forall (s t : text), strip s = Some t -> ~ In "%" t.
Proof. intros s t H. rewrite strip_exact in H. injection H as <-. apply stripped_no_percent. Qed.
Print Assumptions C46_no_percent.

Example C46_visible_case : exists s t, strip s = Some t /\ In "%" s /\ visible t = txt "x+y;z;".
Proof.
  exists (txt "x+y; %one % two" ++ lf :: txt "%three" ++ lf :: txt "  z;"), (txt "x+y; " ++ lf :: lf :: txt "z;" ++ [lf]).
  split; [vm_compute; reflexivity|]. split; [|vm_compute; reflexivity]. cbn. do 5 right. left. reflexivity.
Qed.

(** White space is not kept as it was: indentation is lost and a newline is added. *)
Theorem C46_white_space_refuted : exists s t, strip s = Some t /\ t <> uncomment false s.
Proof. exists (txt "  x"), (txt "x" ++ [lf]). split; [vm_compute; reflexivity|]. vm_compute. discriminate. Qed.
Print Assumptions C46_white_space_refuted.
