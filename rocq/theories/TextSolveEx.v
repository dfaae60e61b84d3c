(** Texts for the examples of C92. *)
From Coq Require Import String Ascii List Arith Lia Bool ZArith Ring Field Reals Lra.
From Verif Require Import Base Poly Chars NumLit Expr Degree Homog HomogSys Patch ComplexField StartIndex DegreeAll TotalDegree SolveSetup SolveSetupEx PowNode
  Parser ParserSpec ParserEx Names SysParser SysParserSpec SysParserProof SysParserEx SysValue SysValueEx TextSolve.
Import ListNotations.
Local Close Scope R_scope.
Local Open Scope nat_scope.

(** *** complex numbers with powers for integral exponents *)
Definition cf_as_int (c : CF) : option Z := if feq_dec c (fZ (Int_part (fst (c : Complex.C)))) then Some (Int_part (fst (c : Complex.C))) else None.
Definition cf_pw (b e : CF) : option CF := match cf_as_int e with Some n => fpowZ b n | None => None end.
Definition cf_funs : funs CF := mkFuns (fun _ _ => None) cf_pw cf_as_int.

Lemma Int_part_IZR : forall z, Int_part (IZR z) = z.
Proof.
  intro z. destruct (base_Int_part (IZR z)) as [A B]. apply le_IZR in A.
  assert (C : (IZR (z - 1) < IZR (Int_part (IZR z)))%R) by (rewrite minus_IZR; lra). apply lt_IZR in C. lia.
Qed.
Lemma cf_as_int_fZ : forall z, cf_as_int (fZ z) = Some z.
Proof.
  intro z. unfold cf_as_int.
  assert (E : Int_part (fst (fZ z : CF)) = z) by (rewrite fZ_CF; cbn [fst]; apply Int_part_IZR).
  rewrite E. destruct (feq_dec _ _) as [_|N]; [reflexivity|elim N; reflexivity].
Qed.
Lemma cf_funs_ok : funs_ok cf_funs.
Proof.
  constructor.
  - intros x n H. cbn [as_int cf_funs] in H. unfold cf_as_int in H. destruct (feq_dec _ _) as [E|]; [|discriminate]. injection H as <-. exact E.
  - intros b n _. cbn [pw cf_funs]. unfold cf_pw. rewrite cf_as_int_fZ. rewrite fpowZ_pos by lia. rewrite Nat2Z.id. reflexivity.
  - intros y H. cbn [pw cf_funs] in H. unfold cf_pw in H. change (match cf_as_int (fZ 0) with Some n => fpowZ (f0 : CF) n | None => None end = Some y) in H. rewrite (cf_as_int_fZ 0) in H. cbn [fpowZ] in H. apply some_inj in H. symmetry. exact H.
Qed.

(** *** a text with a subfunction and a power *)
Definition conic_text : text := txt "variable_group x, y; function f, g; s = x^2; f = x*y-1; g = s+y; ".
Definition conic_prog : list stmt :=
  [SGroup [txt "x"; txt "y"]; SFunctions [txt "f"; txt "g"];
   SSubfunction (txt "s") (TPow (TSym (txt "x")) (TInt 2));
   SDefinition (txt "f") (TSum [(true, TMul [(true, TSym (txt "x")); (true, TSym (txt "y"))]); (false, TInt 1)]);
   SDefinition (txt "g") (TSum [(true, TSym (txt "s")); (true, TSym (txt "y"))])].

Lemma conic_program : program dec initial_names [] conic_prog conic_text.
Proof.
  change conic_text with (txt "variable_group x, y;" ++ (txt " function f, g;" ++ (txt " s = x^2;" ++ (txt " f = x*y-1;" ++ (txt " g = s+y;" ++ txt " "))))).
  apply program_next.
  - apply (t_declaration _ _ _ _ (txt "variable_group") [txt "x"; txt "y"] [] " " (txt "x, y") []); try reflexivity; try constructor.
    apply (written_more [] (txt "x") [] _ (txt " y")); [constructor|constructor|]. apply (written_one (txt " ") (txt "y")). white_tac.
  - dec_tac.
  - fn_tac.
  - apply program_next.
    + apply (t_declaration _ _ _ _ (txt "function") [txt "f"; txt "g"] (txt " ") " " (txt "f, g") []); try reflexivity; try white_tac.
      apply (written_more [] (txt "f") [] _ (txt " g")); [constructor|constructor|]. apply (written_one (txt " ") (txt "g")). white_tac.
    + dec_tac.
    + fn_tac.
    + apply program_next.
      * apply (t_subfunction _ _ _ (txt "s") _ (txt " ") (txt " ") (txt " x^2") []); try white_tac.
        apply u_whole, u_sum, u_term. apply (u_power _ _ _ (txt " x") _ [] (txt "2")); [constructor| |].
        -- apply (u_symbol _ _ _ (txt " ") (txt "x")); [white_tac|cbn; tauto].
        -- apply (u_integer _ _ _ [] (txt "2")); [constructor|split; [discriminate|repeat constructor]|reflexivity].
      * dec_tac.
      * fn_tac.
      * apply program_next.
        -- apply (t_definition _ _ _ (txt "f") _ (txt " ") (txt " ") (txt " x*y-1") []); try white_tac; [cbn; tauto|].
           apply u_whole. apply (u_minus _ _ _ (txt " x*y") _ [] (txt "1")); [constructor| |].
           ++ apply u_sum. apply (u_times _ _ _ (txt " x") _ [] (txt "y")); [constructor| |].
              ** apply u_term. apply (sym_usual _ (txt " ") (txt "x")); [white_tac|cbn; tauto].
              ** apply (sym_usual _ [] (txt "y")); [white_tac|cbn; tauto].
           ++ apply u_term, u_factor. apply (u_integer _ _ _ [] (txt "1")); [constructor|split; [discriminate|repeat constructor]|reflexivity].
        -- dec_tac.
        -- constructor.
        -- apply program_next.
           ++ apply (t_definition _ _ _ (txt "g") _ (txt " ") (txt " ") (txt " s+y") []); try white_tac; [cbn; tauto|].
              apply u_whole. apply (u_plus _ _ _ (txt " s") _ [] (txt "y")); [constructor| |].
              ** apply u_sum, u_term. apply (sym_usual _ (txt " ") (txt "s")); [white_tac|cbn; tauto].
              ** apply u_term. apply (sym_usual _ [] (txt "y")); [white_tac|cbn; tauto].
           ++ dec_tac.
           ++ constructor.
           ++ apply program_end. white_tac.
Qed.

Definition conic_degrees (s : text) : nat :=
  if in_dec text_dec s [txt "x"; txt "y"] then 1 else if in_dec text_dec s [txt "s"; txt "f"; txt "g"] then 2 else 0.

Ltac last_tac := let H := fresh in intros f t H; apply last_in in H; cbn [definitions conic_prog flat_map app] in H;
  destruct H as [H|[H|[H|[]]]]; injection H as <- <-.

Lemma conic_square : square_text dec conic_prog conic_text conic_degrees.
Proof.
  constructor.
  - exact conic_program.
  - split; [intros x [<-|[]]; vm_compute; tauto|]. split; [intros []|]. split; [intros x [<-|[<-|[]]]; vm_compute; tauto|].
    split; [intros [H|[]]; discriminate H|]. split; [intros x [<-|[<-|[]]]; vm_compute; tauto|]. split; [intros [H|[H|[]]]; discriminate H|exact I].
  - intros f [<-|[<-|[]]]; eexists.
    + exists [(txt "s", TPow (TSym (txt "x")) (TInt 2))], [(txt "g", TSum [(true, TSym (txt "s")); (true, TSym (txt "y"))])]. split; [reflexivity|].
      intros [H|[]]; discriminate H.
    + eexists [_; _], []. split; [reflexivity|intros []].
  - reflexivity.
  - discriminate.
  - reflexivity.
  - last_tac.
    + apply pl_power; [apply mn_sym; vm_compute; tauto|lia].
    + apply pl_sum. repeat constructor.
    + apply pl_sum. repeat constructor.
  - split; [|split].
    + intros s H. vm_compute in H. repeat (destruct H as [<-|H]; [reflexivity|]). destruct H.
    + intros s [<-|[<-|[]]]; reflexivity.
    + last_tac; reflexivity.
  - intros f [<-|[<-|[]]]; vm_compute; lia.
  - reflexivity.
Qed.

Definition conic_place (s : text) : nat := if text_dec s (txt "x") then 0 else 1.
Lemma conic_places : places conic_place fresh10 (variable_names conic_prog).
Proof.
  split; [|split].
  - intros v w [<-|[<-|[]]] [<-|[<-|[]]] E; try reflexivity; vm_compute in E; discriminate.
  - intros i j E. unfold fresh10 in E. lia.
  - intros k v [<-|[<-|[]]] E; vm_compute in E; lia.
Qed.

Add Field CFtx : (f_th CF).
Local Opaque CF.
Local Open Scope fld_scope.

Lemma conic_text_solution : forall flt special, solves_text cf_funs flt special conic_prog [- (1); - (1)].
Proof.
  intros flt special f [<-|[<-|[]]].
  - cbn. change (Pos.to_nat 1) with 1%nat. cbn [fnat]. f_equal. ring.
  - cbn -[cf_funs fZ]. cbn [pw cf_funs].
    unfold cf_pw. rewrite cf_as_int_fZ. cbn [fpowZ]. change (Pos.to_nat 2) with 2%nat. cbn [fpow]. f_equal. ring.
Qed.

(** *** a square of a sum *)
Definition squared_text : text := txt "variable_group x, y; function f, g; f = (x+y)^2-1; g = x-y;".
Definition squared_prog : list stmt :=
  [SGroup [txt "x"; txt "y"]; SFunctions [txt "f"; txt "g"];
   SDefinition (txt "f") (TSum [(true, TPow (TSum [(true, TSym (txt "x")); (true, TSym (txt "y"))]) (TInt 2)); (false, TInt 1)]);
   SDefinition (txt "g") (TSum [(true, TSym (txt "x")); (false, TSym (txt "y"))])].
Definition squared_target : psys CF :=
  mkPS [Handle (Sum [(true, Pow (Sum [(true, Var 0); (true, Var 1)]) (Num KInteger (fZ 2))); (false, Num KInteger (fZ 1))]);
        Handle (Sum [(true, Var 0); (false, Var 1)])] [[0; 1]%nat] [] [] [].

Lemma squared_parsed : exists y, parse_system dec squared_text = Accepted y /\ describes squared_prog y /\
  forall flt special n, target_of flt special conic_place (S n) y = Some squared_target.
Proof. eexists. split; [vm_compute; reflexivity|]. split; [repeat split|]. intros flt special [|n]; reflexivity. Qed.

Section Squared.
  Variable fs : funs CF.
  Hypothesis Hfs : funs_ok fs.
  Hypothesis Hint : forall n, (0 < n)%Z -> as_int fs (fZ n) = Some n.
  Variable rho : env CF.

  Definition squared_flat : psys CF :=
    mkPS [Handle (Sum [(true, IPow (Sum [(true, Var 0); (true, Var 1)]) 2); (false, Num KInteger (fZ 1))]);
          Handle (Sum [(true, Var 0); (false, Var 1)])] [[0; 1]%nat] [] [] [].

  Lemma squared_is_flat : flat_sys fs squared_target = squared_flat.
  Proof.
    unfold flat_sys, squared_target, squared_flat. cbn [fns HomogSys.groups HomogSys.hom_groups HomogSys.ungrouped hom_vars map flat fst snd whole].
    rewrite (Hint 2) by lia. reflexivity.
  Qed.

  Lemma squared_set_up : forall rand g, exists z, system_setup fs rho fresh10 stray_draw rand g squared_target = Value z /\ zero_of fs rho z stray 0.
  Proof.
    intros rand g.
    assert (Sh : shaped fs fresh10 squared_target).
    { split; [reflexivity|]. split; [intros i j E; unfold fresh10 in E; lia|]. split.
      - intros k f [<-|[<-|[]]] Ho; apply occursb_spec in Ho; vm_compute in Ho; discriminate.
      - intros f Hi. assert (Hj : In (flat fs f) (fns (flat_sys fs squared_target))) by (apply in_map, Hi). rewrite squared_is_flat in Hj. revert Hj.
        generalize (flat fs f). intros e [<-|[<-|[]]]; apply pu_handle; trees. }
    assert (Cl : forall f v, In f (fns squared_target) -> occurs v f -> In v [0; 1]%nat).
    { intros f v [<-|[<-|[]]] Ho; apply occursb_spec in Ho; destruct v as [|[|v]]; cbn in *; try tauto; discriminate. }
    pose proof (setup_flat fs rho fresh10 stray_draw rand g squared_target [0; 1]%nat Sh eq_refl Cl) as E. rewrite squared_is_flat in E.
    assert (Z : exists z, system_setup fs rho fresh10 stray_draw rand g squared_flat = Value z /\ zero_of fs rho z stray 0).
    { eexists. split; [reflexivity|]. unfold zero_of, homotopy_values, values, stray. eexists. split; [reflexivity|]. cbn. unfold all_zero.
      change (Pos.to_nat 2) with 2%nat. change (Pos.to_nat 4) with 4%nat. change (Pos.to_nat 1) with 1%nat. cbn [fpow fnat].
      apply Forall_cons; [ring|]. apply Forall_cons; [ring|]. apply Forall_nil. }
    destruct Z as (z' & Ez & Zz). rewrite Ez in E. destruct (system_setup fs rho fresh10 stray_draw rand g squared_target) as [z| |]; try discriminate.
    injection E as ->. exists z. split; [reflexivity|]. apply (zero_flat fs Hfs). exact Zz.
  Qed.

  Lemma squared_no_solution : forall flt special, ~ solves_text fs flt special squared_prog (map (fun a => a / (1 + 1)) [1 + 1; 1 + 1]).
  Proof.
    intros flt special H. specialize (H (txt "f") (or_introl eq_refl)).
    cbn -[fZ] in H.
    pose proof (pw_int fs Hfs ((1 + 1) / (1 + 1) + ((1 + 1) / (1 + 1) + 0)) 2 (or_introl (Nat.neq_succ_0 1))) as P. change (Z.of_nat 2) with 2%Z in P. rewrite P in H.
    cbn [fpow fZ fnat] in H. change (Pos.to_nat 1) with 1%nat in H. cbn [fnat] in H. apply some_inj in H. apply three_ne. rewrite <- H. field. exact two_ne.
  Qed.
End Squared.

(** * (x-1)^2-4: the solver throws *)
Definition shifted_text : text := txt "variable_group x; function f; f = (x-1)^2-4;".
Definition shifted_prog : list stmt :=
  [SGroup [txt "x"]; SFunctions [txt "f"];
   SDefinition (txt "f") (TSum [(true, TPow (TSum [(true, TSym (txt "x")); (false, TInt 1)]) (TInt 2)); (false, TInt 4)])].
Definition shifted_target : psys CF :=
  mkPS [Handle (Sum [(true, Pow (Sum [(true, Var 0); (false, Num KInteger (fZ 1))]) (Num KInteger (fZ 2))); (false, Num KInteger (fZ 4))])] [[0]%nat] [] [] [].

Lemma shifted_parsed : exists y, parse_system dec shifted_text = Accepted y /\ describes shifted_prog y /\
  forall flt special n, target_of flt special conic_place (S n) y = Some shifted_target.
Proof. eexists. split; [vm_compute; reflexivity|]. split; [repeat split|]. intros flt special [|n]; reflexivity. Qed.

Lemma shifted_places : places conic_place fresh10 (variable_names shifted_prog).
Proof.
  split; [|split].
  - intros v w [<-|[]] [<-|[]] E; reflexivity.
  - intros i j E. unfold fresh10 in E. lia.
  - intros k v [<-|[]] E; vm_compute in E; lia.
Qed.

Section Shifted.
  Variable fs : funs CF.
  Hypothesis Hfs : funs_ok fs.
  Hypothesis Hint : forall n, (0 < n)%Z -> as_int fs (fZ n) = Some n.
  Variable rho : env CF.

  Definition shifted_flat : psys CF :=
    mkPS [Handle (Sum [(true, IPow (Sum [(true, Var 0); (false, Num KInteger (fZ 1))]) 2); (false, Num KInteger (fZ 4))])] [[0]%nat] [] [] [].

  Lemma shifted_is_flat : flat_sys fs shifted_target = shifted_flat.
  Proof.
    unfold flat_sys, shifted_target, shifted_flat. cbn [fns HomogSys.groups HomogSys.hom_groups HomogSys.ungrouped hom_vars map flat fst snd whole].
    rewrite (Hint 2) by lia. reflexivity.
  Qed.

  Lemma shifted_set_up : forall draw rand g, system_setup fs rho fresh10 draw rand g shifted_target = Throws.
  Proof.
    intros draw rand g.
    assert (Sh : shaped fs fresh10 shifted_target).
    { split; [reflexivity|]. split; [intros i j E; unfold fresh10 in E; lia|]. split.
      - intros k f [<-|[]] Ho; apply occursb_spec in Ho; vm_compute in Ho; discriminate.
      - intros f Hi. assert (Hj : In (flat fs f) (fns (flat_sys fs shifted_target))) by (apply in_map, Hi). rewrite shifted_is_flat in Hj. revert Hj.
        generalize (flat fs f). intros e [<-|[]]; apply pu_handle; trees. }
    assert (Cl : forall f v, In f (fns shifted_target) -> occurs v f -> In v [0]%nat).
    { intros f v [<-|[]] Ho; apply occursb_spec in Ho; destruct v as [|v]; cbn in *; try tauto; discriminate. }
    pose proof (setup_flat fs rho fresh10 draw rand g shifted_target [0]%nat Sh eq_refl Cl) as E. rewrite shifted_is_flat in E.
    assert (Z : system_setup fs rho fresh10 draw rand g shifted_flat = Throws) by reflexivity.
    rewrite Z in E. destruct (system_setup fs rho fresh10 draw rand g shifted_target) as [z| |]; try discriminate. reflexivity.
  Qed.

  Lemma shifted_solutions : forall flt special a, solves_text fs flt special shifted_prog [a] <-> a = 1 + 1 + 1 \/ a = - (1).
  Proof.
    intros flt special a.
    assert (E : execute fs flt (initially special (coordinate (variable_names shifted_prog) [a]) shifted_prog) shifted_prog (txt "f") = Some ((a - (1 + 1 + 1)) * (a + 1))).
    { cbn -[fZ]. pose proof (pw_int fs Hfs (a + (- fZ 1 + 0)) 2 (or_introl (Nat.neq_succ_0 1))) as P. change (Z.of_nat 2) with 2%Z in P. rewrite P.
      f_equal. cbn [fpow fZ]. change (Pos.to_nat 1) with 1%nat. change (Pos.to_nat 4) with 4%nat. cbn [fnat]. ring. }
    split.
    - intro H. specialize (H (txt "f") (or_introl eq_refl)). rewrite E in H. apply some_inj in H.
      destruct (fmul_integral _ _ H) as [K|K]; [left|right].
      + transitivity (a - (1 + 1 + 1) + (1 + 1 + 1)); [ring|]. rewrite K. ring.
      + transitivity (a + 1 - 1); [ring|]. rewrite K. ring.
    - intros H f [<-|[]]. rewrite E. f_equal. destruct H as [->| ->]; ring.
  Qed.
End Shifted.
