(** C91: settings in ini format.  The specification is in the second part of IniConfig.v: [config] relates settings to the
    texts that write them, one on a line, [ini] to their ini format. *)
From Coq Require Import String Ascii List Arith Lia Bool.
From Verif Require Import Chars Comments IniConfig.
Import ListNotations.
Local Open Scope char_scope.

(** A text of lines "Name: value ; remark", with any blank lines and any blanks before the names and the values, every
    value not being empty, is converted to the lines "name=value", in order: names in small letters, values unchanged, no
    remarks.  The last line may lack its end, and then lacks it in the result. *)
Theorem C91_convert_partial : forall (l : list (text * text)) (last : option (text * text)) (s : text),
  config l last s -> exists t, to_ini s = Converted t /\ ini l last t.
Proof. exact to_ini_exact. Qed.
Print Assumptions C91_convert_partial.

Example C91_convert_case :
  config [(txt "TrackType", txt "1 "); (txt "MPType", txt "2")] (Some (txt "Seed", txt "7"))
    (txt "TrackType: 1 ; a remark" ++ lf :: lf :: txt "  MPType: 2" ++ cr :: lf :: txt "Seed:7;") /\
  to_ini (txt "TrackType: 1 ; a remark" ++ lf :: lf :: txt "  MPType: 2" ++ cr :: lf :: txt "Seed:7;") =
    Converted (txt "tracktype=1 " ++ lf :: txt "mptype=2" ++ lf :: txt "seed=7").
Proof.
  split; [|vm_compute; reflexivity].
  apply (config_line [] (txt "TrackType") (txt " ") (txt "1 ") (txt "; a remark") [lf] _ _
    (lf :: txt "  MPType: 2" ++ cr :: lf :: txt "Seed:7;")).
  - constructor.
  - split; [repeat constructor; discriminate|]. eexists _, _. split; reflexivity.
  - repeat constructor; discriminate.
  - split; [repeat constructor; discriminate|]. eexists _, _. split; reflexivity.
  - right. eexists. split; [reflexivity|]. repeat constructor; discriminate.
  - left. reflexivity.
  - apply (config_line (lf :: txt "  ") (txt "MPType") (txt " ") (txt "2") [] [cr; lf] _ _ (txt "Seed:7;")).
    + repeat constructor.
    + split; [repeat constructor; discriminate|]. eexists _, _. split; reflexivity.
    + repeat constructor; discriminate.
    + split; [repeat constructor; discriminate|]. eexists _, _. split; reflexivity.
    + left. reflexivity.
    + right. right. reflexivity.
    + apply (config_last [] (txt "Seed") [] (txt "7") (txt ";")).
      * constructor.
      * split; [repeat constructor; discriminate|]. eexists _, _. split; reflexivity.
      * constructor.
      * split; [repeat constructor; discriminate|]. eexists _, _. split; reflexivity.
      * right. exists []. split; [reflexivity|constructor].
Qed.

(** Every text gets a verdict. *)
Theorem C91_total : forall s : text, to_ini s <> No_fuel.
Proof. exact to_ini_total. Qed.
Print Assumptions C91_total.

(** A setting without a value takes the next line for its value, which is lost as a setting; a line without a colon becomes
    a part of the next name; blanks before the colon belong to the name. *)
Theorem C91_lines_refuted :
  to_ini (txt "MPType:" ++ lf :: txt "Seed: 7" ++ [lf]) = Converted (txt "mptype=Seed: 7" ++ [lf]) /\
  to_ini (txt "CONFIG" ++ lf :: txt "Seed: 7" ++ [lf]) = Converted (txt "config" ++ lf :: txt "seed=7" ++ [lf]) /\
  to_ini (txt "Seed : 7" ++ [lf]) = Converted (txt "seed =7" ++ [lf]).
Proof. repeat split; vm_compute; reflexivity. Qed.
Print Assumptions C91_lines_refuted.
