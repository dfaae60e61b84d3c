(** C71: changing the working precision of functions. *)
From Coq Require Import List Arith Lia Bool.
From Verif Require Import PatchPrecision PrecTree.
Import ListNotations.

(** Specification of the examples: a value is its number of correct digits; storing it with [p] digits keeps at most [p]. *)
Definition digits (p v : nat) : nat := Nat.min p v.
Definition worst (l : list nat) : nat := fold_right Nat.min 1000 l.
(** two functions sharing a third: f = x + 1/3, g = f * pi *)
Definition ex_f : tree := THandle 0 (TOp 1 worst [TVar 2; TNum 3 1000]).
Definition ex_g : tree := THandle 4 (TOp 5 worst [ex_f; TNum 6 1000]).
Definition start16 : @world nat := mkW 16 (fun _ => mkC (mkNum 0 16) false).

Example C71_ex_well_formed : well_formed [ex_f; ex_g].
Proof.
  split.
  - intros a b Ha Hb. cbv -[worst] in Ha, Hb. unfold ex_f.
    repeat (destruct Ha as [<- | Ha]; [|]); [..|destruct Ha];
      repeat (destruct Hb as [<- | Hb]; [|]); try (destruct Hb); cbn [ident]; intros E; try discriminate; reflexivity.
  - intros i f ts H. cbv -[worst] in H. repeat (destruct H as [H | H]; [inversion H; discriminate|]). destruct H.
Qed.

(** For every set of functions, shared subfunctions included, built at one precision, and every sequence of precision
    changes (default precision first, then the functions), assignments, resets and evaluations: all numbers in the functions
    have the current precision, *)
Theorem C71_uniform : forall (V : Type) (rnd : nat -> V -> V) d roots w l, well_formed roots -> fresh_world d w ->
  forall u, In u (nodes roots) -> prec (num (cells (trun rnd roots w l) (ident u))) = dflt (trun rnd roots w l).
Proof. exact @run_uniform. Qed.
Print Assumptions C71_uniform.

(** and an evaluation after a reset gives the reference value at that precision: the numbers in the functions are rounded
    from their exact values, so no digit lost at a lower precision stays lost. *)
Theorem C71_value : forall (V : Type) (rnd : nat -> V -> V) d roots w l k t,
  well_formed roots -> fresh_world d w -> nth_error roots k = Some t ->
  let w' := trun rnd roots w l in
  fst (eval rnd (dflt w') t (cells (tstep rnd roots w' ResetAll))) =
  mkNum (reference rnd (dflt w') (fun i => val (num (cells w' i))) t) (dflt w').
Proof. exact @run_reference. Qed.
Print Assumptions C71_value.

(** a history that goes down to 16 digits and up again *)
Example C71_ex_value :
  let w := trun digits [ex_f; ex_g] start16
             [SetVariable 2 16; Evaluate 1; ChangePrecision 40; SetVariable 2 40; ResetAll; Evaluate 0] in
  fst (eval digits (dflt w) ex_g (cells (tstep digits [ex_f; ex_g] w ResetAll))) = mkNum 40 40.
Proof. reflexivity. Qed.

(** The constants of a straight line program get all digits when the default precision is the new precision and the number
    nodes hold no value of another precision. *)
Theorem C71_program_constants : forall (V : Type) (rnd : nat -> V -> V) p (x : slp) (s : state),
  sprec x <> p -> (forall i a b, In (TNum i a) (map fst (snums x)) -> In (TNum i b) (map fst (snums x)) -> a = b) ->
  NoDup (map snd (snums x)) -> (forall loc, In loc (map snd (snums x)) -> loc < length (smem x)) ->
  numbers_at rnd p (snums x) s ->
  sprec (fst (slp_precision rnd p p x s)) = p /\
  Forall (fun m => prec m = p) (smem (fst (slp_precision rnd p p x s))) /\
  forall i a loc, In (TNum i a, loc) (snums x) ->
    nth_error (smem (fst (slp_precision rnd p p x s))) loc = Some (mkNum (rnd p (rnd p a)) p).
Proof. exact @slp_constants. Qed.
Print Assumptions C71_program_constants.

Example C71_ex_program :
  smem (fst (slp_precision digits 40 40 (mkS 16 [mkNum 5 16; mkNum 16 16; mkNum 16 16] [(TNum 3 1000, 1); (TNum 6 1000, 2)])
               (cells start16))) = [mkNum 5 40; mkNum 40 40; mkNum 40 40].
Proof. reflexivity. Qed.

(** Without the reset the value from before is returned, dressed up with the new precision. *)
Theorem C71_no_reset_refuted : exists (roots : list (@tree nat)) t l, well_formed roots /\ nth_error roots 0 = Some t /\
  let w := trun digits roots start16 l in
  fst (eval digits (dflt w) t (cells w)) = mkNum 16 40 /\
  reference digits (dflt w) (fun i => val (num (cells w i))) t = 40.
Proof.
  exists [ex_f; ex_g], ex_f, [SetVariable 2 16; Evaluate 0; ChangePrecision 40; SetVariable 2 40].
  split; [exact C71_ex_well_formed|]. split; [reflexivity|]. split; reflexivity.
Qed.
Print Assumptions C71_no_reset_refuted.

(** If the default precision is not changed first, the numbers are made with the default precision: a function set to 40
    digits has a value with 16. *)
Theorem C71_default_refuted : exists (t : @tree nat), well_formed [t] /\
  let s := reset t (set_precision digits 40 t (cells start16)) in
  prec (num (s (ident t))) = 40 /\ fst (eval digits 16 t s) = mkNum 16 16.
Proof.
  exists (THandle 4 (TOp 5 worst [TNum 6 1000])). split; [|split; reflexivity].
  split.
  - intros a b Ha Hb. cbv -[worst] in Ha, Hb.
    repeat (destruct Ha as [<- | Ha]; [|]); [..|destruct Ha];
      repeat (destruct Hb as [<- | Hb]; [|]); try (destruct Hb); cbn [ident]; intros E; try discriminate; reflexivity.
  - intros i f ts H. cbv -[worst] in H. repeat (destruct H as [H | H]; [inversion H; discriminate|]). destruct H.
Qed.
Print Assumptions C71_default_refuted.

(** If a function was evaluated after the default precision had changed, setting its precision does nothing at all: its
    variables keep the old precision. *)
Theorem C71_skipped_refuted : exists (t : @tree nat) i, In (TVar i) (subtrees t) /\ well_formed [t] /\
  let s := snd (eval digits 40 t (cells start16)) in
  set_precision digits 40 t s = s /\ prec (num (s i)) = 16.
Proof.
  exists ex_f, 2. split; [right; right; left; reflexivity|]. split; [|split; reflexivity].
  destruct C71_ex_well_formed as [A B]. split.
  - intros a b Ha Hb. apply A; unfold nodes in *; cbn [flat_map] in *; apply in_or_app; left;
      [rewrite app_nil_r in Ha|rewrite app_nil_r in Hb]; assumption.
  - intros i f ts H. apply (B i f). unfold nodes in *; cbn [flat_map] in *. apply in_or_app; left.
    now rewrite app_nil_r in H.
Qed.
Print Assumptions C71_skipped_refuted.

(** A straight line program asked for 40 digits before the number nodes are, or before the default precision is, holds
    constants with 16 correct digits. *)
Theorem C71_program_refuted : exists (x : slp) (s s' : @state nat),
  (forall i, stored (s i) = true -> num (s i) = mkNum 16 16) /\ (forall i, stored (s' i) = false) /\
  smem (fst (slp_precision digits 40 40 x s)) = [mkNum 16 40] /\
  smem (fst (slp_precision digits 16 40 x s')) = [mkNum 16 40].
Proof.
  exists (mkS 16 [mkNum 16 16] [(TNum 3 1000, 0)]), (fun _ => mkC (mkNum 16 16) true), (cells start16).
  repeat split; reflexivity.
Qed.
Print Assumptions C71_program_refuted.

(** The coefficients of a product of linear functions keep the precision they were made with whatever precision is asked
    for, *)
Theorem C71_linear_product_refuted : forall (V : Type) (rnd : nat -> V -> V) d exact v0 l y,
  linprod_precisions rnd l (linprod_make rnd d exact v0) = Some y ->
  coeffs y = map (fun x => mkNum (rnd d x) d) exact.
Proof. intros V rnd d exact v0 l y H. exact (linprod_fixed rnd l _ _ H). Qed.
Print Assumptions C71_linear_product_refuted.
Example C71_ex_linear_product :
  linprod_precisions digits [40; 20] (linprod_make digits 16 [1000; 1000] 0) =
  Some (mkLP [mkNum 16 16; mkNum 16 16] (Some [1000; 1000]) (mkNum 0 20)).
Proof. reflexivity. Qed.

(** and asking for any precision is undefined if its coefficients were given as multiprecision numbers. *)
Theorem C71_linear_product_undefined_refuted : forall (V : Type) (rnd : nat -> V -> V) p (x : linprod),
  rationals x = None -> coeffs x <> [] -> linprod_precision rnd p x = None.
Proof. intros V rnd p x R C. unfold linprod_precision. rewrite R. now destruct (coeffs x). Qed.
Print Assumptions C71_linear_product_undefined_refuted.
