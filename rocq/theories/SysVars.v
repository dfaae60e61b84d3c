(** The variables of a system: groups, homogenizing variables, the first-in-first-out ordering, and dehomogenization.
    Models core/src/system/system.cpp and core/include/bertini2/system/system.hpp.
    A variable is the identity of its node (a natural number); functions, derivatives and patches are elsewhere. *)
From Coq Require Import ZArith List Arith Lia Bool Permutation.
From Verif Require Import Base StartIndex Patch.
Import ListNotations.

(** node.hpp:80 *)
Inductive group_type := Affine | Homogeneous | Ungrouped.

(** system.hpp:1743-1747, 1773, 1777-1778.  [ordering] is [Some] of [variable_ordering_] if [have_ordering_]. *)
Record sysvars := {
  ungrouped_variables : list nat;
  variable_groups : list (list nat);
  hom_variable_groups : list (list nat);
  homogenizing_variables : list nat;
  time_order : list group_type;
  ordering : option (list nat) }.

(** system.hpp:111 *)
Definition no_variables : sysvars := Build_sysvars [] [] [] [] [] None.

(** system.cpp:585-592 *)
Definition add_variable_group (s : sysvars) (g : list nat) : sysvars :=
  {| ungrouped_variables := ungrouped_variables s;
     variable_groups := variable_groups s ++ [g];
     hom_variable_groups := hom_variable_groups s;
     homogenizing_variables := homogenizing_variables s;
     time_order := time_order s ++ [Affine];
     ordering := None |}.

(** system.cpp:597-604 *)
Definition add_hom_variable_group (s : sysvars) (g : list nat) : sysvars :=
  {| ungrouped_variables := ungrouped_variables s;
     variable_groups := variable_groups s;
     hom_variable_groups := hom_variable_groups s ++ [g];
     homogenizing_variables := homogenizing_variables s;
     time_order := time_order s ++ [Homogeneous];
     ordering := None |}.

(** system.cpp:610-617 *)
Definition add_ungrouped_variable (s : sysvars) (v : nat) : sysvars :=
  {| ungrouped_variables := ungrouped_variables s ++ [v];
     variable_groups := variable_groups s;
     hom_variable_groups := hom_variable_groups s;
     homogenizing_variables := homogenizing_variables s;
     time_order := time_order s ++ [Ungrouped];
     ordering := None |}.

(** system.cpp:622-630 *)
Definition add_ungrouped_variables (s : sysvars) (v : list nat) : sysvars :=
  {| ungrouped_variables := ungrouped_variables s ++ v;
     variable_groups := variable_groups s;
     hom_variable_groups := hom_variable_groups s;
     homogenizing_variables := homogenizing_variables s;
     time_order := time_order s ++ map (fun _ => Ungrouped) v;
     ordering := None |}.

(** system.cpp:175-187 *)
Definition num_natural_variables (s : sysvars) : nat :=
  fold_right Nat.add 0 (map (@length nat) (variable_groups s))
  + fold_right Nat.add 0 (map (@length nat) (hom_variable_groups s))
  + length (ungrouped_variables s).

(** system.cpp:170-173, 189-192 *)
Definition num_variables (s : sysvars) : nat := length (homogenizing_variables s) + num_natural_variables s.

(** system.cpp:409-486, as far as the variables go.  [checks] is the outcome of the tests that the functions are
    polynomials and homogeneous in the homogeneous groups (system.cpp:420-430); [fresh k] is the variable made for group
    [k] (system.cpp:471-472).  When an exception is thrown (system.cpp:425, 430, 435) nothing was changed. *)
Definition homogenize_variables (checks : bool) (fresh : nat -> nat) (s : sysvars) : sysvars :=
  let nh := length (homogenizing_variables s) in
  let ng := length (variable_groups s) in
  if negb checks then s
  else if negb (nh =? 0) && negb (nh =? ng) then s
  else {| ungrouped_variables := ungrouped_variables s;
          variable_groups := variable_groups s;
          hom_variable_groups := hom_variable_groups s;
          homogenizing_variables := if nh =? 0 then map fresh (seq 0 ng) else homogenizing_variables s;
          time_order := time_order s;
          ordering := None |}.

(** system.cpp:781-814, the loop of VariableOrdering; [None] is an out-of-range access. *)
Fixpoint order_loop (have_homvars : bool) (s : sysvars) (order : list group_type) (affine hom ungrouped : nat)
  (acc : list nat) : option (list nat) :=
  match order with
  | [] => Some acc
  | Affine :: order' =>
      match (if have_homvars then option_map (fun h => [h]) (nth_error (homogenizing_variables s) affine)
             else Some []), nth_error (variable_groups s) affine with
      | Some h, Some g => order_loop have_homvars s order' (S affine) hom ungrouped (acc ++ h ++ g)
      | _, _ => None
      end
  | Homogeneous :: order' =>
      match nth_error (hom_variable_groups s) hom with
      | Some g => order_loop have_homvars s order' affine (S hom) ungrouped (acc ++ g)
      | None => None
      end
  | Ungrouped :: order' =>
      match nth_error (ungrouped_variables s) ungrouped with
      | Some v => order_loop have_homvars s order' affine hom (S ungrouped) (acc ++ [v])
      | None => None
      end
  end.

(** system.cpp:770-826.  The size test of lines 816-822 is the default (asserts not disabled). *)
Definition variable_ordering (s : sysvars) : outcome (list nat) :=
  let nh := length (homogenizing_variables s) in
  let have_homvars := negb (nh =? 0) in
  if have_homvars && negb (nh =? length (variable_groups s)) then Throws
  else match order_loop have_homvars s (time_order s) 0 0 0 [] with
       | None => UB
       | Some o => if length o =? num_variables s then Value o else Throws
       end.

(** system.cpp:832-847, [Variables()] with the cache it leaves behind. *)
Definition variables (s : sysvars) : outcome (list nat) :=
  match ordering s with
  | Some o => Value o
  | None => variable_ordering s
  end.

Definition with_ordering (s : sysvars) (o : list nat) : sysvars :=
  {| ungrouped_variables := ungrouped_variables s;
     variable_groups := variable_groups s;
     hom_variable_groups := hom_variable_groups s;
     homogenizing_variables := homogenizing_variables s;
     time_order := time_order s;
     ordering := Some o |}.

(** The state after [Variables()]: [None] after undefined behaviour; an exception changes nothing. *)
Definition after_variables (s : sysvars) : option sysvars :=
  match variables s with
  | Value o => Some (with_ordering s o)
  | Throws => Some s
  | UB => None
  end.

(** system.cpp:1055-1064 *)
Definition clear_variables (s : sysvars) : sysvars :=
  {| ungrouped_variables := []; variable_groups := []; hom_variable_groups := []; homogenizing_variables := [];
     time_order := time_order s; ordering := ordering s |}.

(** system.cpp:850-866 *)
Definition copy_variable_structure (s other : sysvars) : sysvars :=
  let s := clear_variables s in
  {| ungrouped_variables := ungrouped_variables other;
     variable_groups := variable_groups other;
     hom_variable_groups := hom_variable_groups other;
     homogenizing_variables := homogenizing_variables other;
     time_order := time_order other;
     ordering := ordering other |}.

(** system.cpp:872-889; [UB] is an out-of-range access. *)
Fixpoint sizes_loop (have_homvars : bool) (s : sysvars) (order : list group_type) (affine hom : nat) : option (list nat) :=
  match order with
  | [] => Some []
  | Affine :: order' =>
      match nth_error (variable_groups s) affine with
      | Some g => option_map (cons (length g + (if have_homvars then 1 else 0)))
                    (sizes_loop have_homvars s order' (S affine) hom)
      | None => None
      end
  | Homogeneous :: order' =>
      match nth_error (hom_variable_groups s) hom with
      | Some g => option_map (cons (length g)) (sizes_loop have_homvars s order' affine (S hom))
      | None => None
      end
  | Ungrouped :: order' => sizes_loop have_homvars s order' affine hom
  end.

Definition variable_group_sizes (s : sysvars) : outcome (list nat) :=
  let nh := length (homogenizing_variables s) in
  let have_homvars := negb (nh =? 0) in
  if have_homvars && negb (nh =? length (variable_groups s)) then Throws
  else match sizes_loop have_homvars s (time_order s) 0 0 with
       | None => UB
       | Some l => Value l
       end.

(** * Histories of a system's variables *)

(** What was done with a system since its construction.  A throwing [Homogenize] or [Variables] is caught by the
    caller. *)
Inductive history :=
| Constructed
| AddVariableGroup (h : history) (g : list nat)
| AddHomVariableGroup (h : history) (g : list nat)
| AddUngroupedVariable (h : history) (v : nat)
| AddUngroupedVariables (h : history) (v : list nat)
| Homogenize (h : history) (checks : bool) (fresh : nat -> nat)
| Variables (h : history)
| CopyVariableStructure (h other : history)
| ClearVariables (h : history).

(** The state of the system after a history, [None] after undefined behaviour *)
Fixpoint state_of (h : history) : option sysvars :=
  match h with
  | Constructed => Some no_variables
  | AddVariableGroup h g => option_map (fun s => add_variable_group s g) (state_of h)
  | AddHomVariableGroup h g => option_map (fun s => add_hom_variable_group s g) (state_of h)
  | AddUngroupedVariable h v => option_map (fun s => add_ungrouped_variable s v) (state_of h)
  | AddUngroupedVariables h v => option_map (fun s => add_ungrouped_variables s v) (state_of h)
  | Homogenize h checks fresh => option_map (homogenize_variables checks fresh) (state_of h)
  | Variables h => match state_of h with Some s => after_variables s | None => None end
  | CopyVariableStructure h other =>
      match state_of h, state_of other with
      | Some s, Some o => Some (copy_variable_structure s o)
      | _, _ => None
      end
  | ClearVariables h => option_map clear_variables (state_of h)
  end.

(** * Specification: the blocks of variables, in the order in which they were added *)

Inductive block :=
| AffineBlock (homogenizing : option nat) (g : list nat)
| HomogeneousBlock (g : list nat)
| UngroupedBlock (v : nat).

Definition needs_homogenizing (b : block) : bool := match b with AffineBlock None _ => true | _ => false end.
Definition is_homogenized (b : block) : bool := match b with AffineBlock (Some _) _ => true | _ => false end.

(** Give the [k]-th affine block, and those after it, their homogenizing variables. *)
Fixpoint give_homogenizing (fresh : nat -> nat) (k : nat) (bs : list block) : list block :=
  match bs with
  | [] => []
  | AffineBlock _ g :: bs' => AffineBlock (Some (fresh k)) g :: give_homogenizing fresh (S k) bs'
  | b :: bs' => b :: give_homogenizing fresh k bs'
  end.

(** The blocks of a system with this history.  Homogenizing is done when no block is homogenized. *)
Fixpoint layout (h : history) : list block :=
  match h with
  | Constructed => []
  | AddVariableGroup h g => layout h ++ [AffineBlock None g]
  | AddHomVariableGroup h g => layout h ++ [HomogeneousBlock g]
  | AddUngroupedVariable h v => layout h ++ [UngroupedBlock v]
  | AddUngroupedVariables h v => layout h ++ map UngroupedBlock v
  | Homogenize h checks fresh =>
      if checks && negb (existsb is_homogenized (layout h)) then give_homogenizing fresh 0 (layout h) else layout h
  | Variables h => layout h
  | CopyVariableStructure _ other => layout other
  | ClearVariables _ => []
  end.

Definition block_variables (b : block) : list nat :=
  match b with
  | AffineBlock None g => g
  | AffineBlock (Some h) g => h :: g
  | HomogeneousBlock g => g
  | UngroupedBlock v => [v]
  end.

(** Some, but not all, affine groups have a homogenizing variable: a group was added after homogenization. *)
Definition half_homogenized (bs : list block) : bool := existsb is_homogenized bs && existsb needs_homogenizing bs.

(** The variables handed to the system by the calls of a history, and those made by homogenizing *)
Fixpoint given_variables (h : history) : list nat :=
  match h with
  | Constructed => []
  | AddVariableGroup h g => given_variables h ++ g
  | AddHomVariableGroup h g => given_variables h ++ g
  | AddUngroupedVariable h v => given_variables h ++ [v]
  | AddUngroupedVariables h v => given_variables h ++ v
  | Homogenize h _ _ => given_variables h
  | Variables h => given_variables h
  | CopyVariableStructure _ other => given_variables other
  | ClearVariables h => []
  end.

Definition made_variables (bs : list block) : list nat :=
  flat_map (fun b => match b with AffineBlock (Some h) _ => [h] | _ => [] end) bs.

(** No variables are cleared, in this system or in one whose structure is copied. *)
Fixpoint never_cleared (h : history) : Prop :=
  match h with
  | Constructed => True
  | AddVariableGroup h _ | AddHomVariableGroup h _ | AddUngroupedVariable h _ | AddUngroupedVariables h _
  | Homogenize h _ _ | Variables h => never_cleared h
  | CopyVariableStructure h other => never_cleared h /\ never_cleared other
  | ClearVariables _ => False
  end.

(** * Proofs *)

Definition types_of (bs : list block) : list group_type :=
  map (fun b => match b with AffineBlock _ _ => Affine | HomogeneousBlock _ => Homogeneous | UngroupedBlock _ => Ungrouped end) bs.
Definition affine_of (bs : list block) : list (list nat) :=
  flat_map (fun b => match b with AffineBlock _ g => [g] | _ => [] end) bs.
Definition hom_of (bs : list block) : list (list nat) :=
  flat_map (fun b => match b with HomogeneousBlock g => [g] | _ => [] end) bs.
Definition ungrouped_of (bs : list block) : list nat :=
  flat_map (fun b => match b with UngroupedBlock v => [v] | _ => [] end) bs.

(** Homogenized groups come first: groups without homogenizing variable were added later. *)
Fixpoint homogenized_first (bs : list block) : Prop :=
  match bs with
  | [] => True
  | AffineBlock None _ :: bs' => existsb is_homogenized bs' = false /\ homogenized_first bs'
  | _ :: bs' => homogenized_first bs'
  end.

Record represents (s : sysvars) (bs : list block) : Prop := {
  rep_order : time_order s = types_of bs;
  rep_affine : variable_groups s = affine_of bs;
  rep_hom : hom_variable_groups s = hom_of bs;
  rep_ungrouped : ungrouped_variables s = ungrouped_of bs;
  rep_homvars : homogenizing_variables s = made_variables bs;
  rep_cache : forall o, ordering s = Some o -> half_homogenized bs = false /\ o = flat_map block_variables bs }.

Lemma affine_of_app : forall a b, affine_of (a ++ b) = affine_of a ++ affine_of b.
Proof. intros; apply flat_map_app. Qed.
Lemma hom_of_app : forall a b, hom_of (a ++ b) = hom_of a ++ hom_of b.
Proof. intros; apply flat_map_app. Qed.
Lemma ungrouped_of_app : forall a b, ungrouped_of (a ++ b) = ungrouped_of a ++ ungrouped_of b.
Proof. intros; apply flat_map_app. Qed.
Lemma types_of_app : forall a b, types_of (a ++ b) = types_of a ++ types_of b.
Proof. intros; apply map_app. Qed.
Lemma made_app : forall a b, made_variables (a ++ b) = made_variables a ++ made_variables b.
Proof. intros; apply flat_map_app. Qed.

Lemma made_none : forall bs, made_variables bs = [] <-> existsb is_homogenized bs = false.
Proof.
  induction bs as [|[[h|] g|g|v] bs IH]; cbn; try tauto; try (split; [discriminate|discriminate]).
Qed.

Lemma made_length : forall bs, length (made_variables bs) <= length (affine_of bs).
Proof. unfold made_variables, affine_of. induction bs as [|[[h|] g|g|v] bs IH]; cbn in *; lia. Qed.

Lemma made_length_eq : forall bs, length (made_variables bs) = length (affine_of bs) <-> existsb needs_homogenizing bs = false.
Proof.
  induction bs as [|[[h|] g|g|v] bs IH]; cbn [existsb needs_homogenizing orb]; try tauto.
  - rewrite <- IH. change (S (length (made_variables bs)) = S (length (affine_of bs)) <-> length (made_variables bs) = length (affine_of bs)). lia.
  - pose proof (made_length bs) as L. split; [|discriminate].
    change (length (made_variables bs) = S (length (affine_of bs)) -> true = false). lia.
Qed.

(** The order loop on a state whose groups are those of [bs], started in the middle. *)
Lemma order_loop_spec : forall (s : sysvars) (hv : bool) (bs done : list block) acc,
  variable_groups s = affine_of (done ++ bs) -> hom_variable_groups s = hom_of (done ++ bs) ->
  ungrouped_variables s = ungrouped_of (done ++ bs) ->
  homogenizing_variables s = made_variables (done ++ bs) ->
  (if hv then existsb needs_homogenizing (done ++ bs) = false else existsb is_homogenized (done ++ bs) = false) ->
  order_loop hv s (types_of bs) (length (affine_of done)) (length (hom_of done)) (length (ungrouped_of done)) acc
  = Some (acc ++ flat_map block_variables bs).
Proof.
  intros s hv bs. induction bs as [|b bs IH]; intros done acc Ha Hh Hu Hm Hv.
  - cbn. now rewrite app_nil_r.
  - assert (E : done ++ b :: bs = (done ++ [b]) ++ bs) by now rewrite <- app_assoc.
    assert (IH' := IH (done ++ [b])). rewrite <- E in IH'.
    rewrite (affine_of_app done [b]), (hom_of_app done [b]), (ungrouped_of_app done [b]), !app_length in IH'.
    destruct b as [oh g|g|v]; cbn [types_of map order_loop].
    + assert (Eg : nth_error (variable_groups s) (length (affine_of done)) = Some g).
      { rewrite Ha, affine_of_app, nth_error_app2, Nat.sub_diag by lia. reflexivity. }
      rewrite Eg. cbn in IH'. rewrite Nat.add_1_r, !Nat.add_0_r in IH'.
      assert (Eh : (if hv then option_map (fun h => [h]) (nth_error (homogenizing_variables s) (length (affine_of done)))
                    else Some []) = Some (match oh with Some h => [h] | None => [] end)).
      { destruct hv.
        - rewrite Hm, made_app.
          assert (Ed : length (made_variables done) = length (affine_of done)).
          { apply made_length_eq. rewrite existsb_app in Hv. apply orb_false_iff in Hv. tauto. }
          rewrite nth_error_app2, Ed, Nat.sub_diag by lia.
          destruct oh as [h|]; [reflexivity|].
          rewrite existsb_app in Hv; cbn in Hv. rewrite orb_true_r in Hv. discriminate.
        - destruct oh as [h|]; [|reflexivity].
          rewrite existsb_app in Hv; cbn in Hv. rewrite orb_true_r in Hv. discriminate. }
      rewrite Eh. rewrite IH' by assumption. f_equal.
      destruct oh; cbn; rewrite <- !app_assoc; reflexivity.
    + assert (Eg : nth_error (hom_variable_groups s) (length (hom_of done)) = Some g).
      { rewrite Hh, hom_of_app, nth_error_app2, Nat.sub_diag by lia. reflexivity. }
      rewrite Eg. cbn in IH'. rewrite Nat.add_1_r, !Nat.add_0_r in IH'.
      rewrite IH' by assumption. cbn. now rewrite <- app_assoc.
    + assert (Eg : nth_error (ungrouped_variables s) (length (ungrouped_of done)) = Some v).
      { rewrite Hu, ungrouped_of_app, nth_error_app2, Nat.sub_diag by lia. reflexivity. }
      rewrite Eg. cbn in IH'. rewrite Nat.add_1_r, !Nat.add_0_r in IH'.
      rewrite IH' by assumption. cbn. now rewrite <- app_assoc.
Qed.

Lemma sizes_count : forall s bs, represents s bs -> num_variables s = length (flat_map block_variables bs).
Proof.
  intros s bs R. unfold num_variables, num_natural_variables.
  rewrite (rep_affine _ _ R), (rep_hom _ _ R), (rep_ungrouped _ _ R), (rep_homvars _ _ R).
  clear. unfold affine_of, hom_of, ungrouped_of, made_variables.
  induction bs as [|[[h|] g|g|v] bs IH]; cbn in *; rewrite ?app_length; cbn; lia.
Qed.

Lemma nonempty_homvars : forall s bs, represents s bs ->
  (length (homogenizing_variables s) =? 0) = negb (existsb is_homogenized bs).
Proof.
  intros s bs R. rewrite (rep_homvars _ _ R). pose proof (made_none bs) as N.
  destruct (made_variables bs); cbn.
  - rewrite (proj1 N eq_refl). reflexivity.
  - destruct (existsb is_homogenized bs); [reflexivity|]. now discriminate (proj2 N eq_refl).
Qed.

Lemma mismatch : forall s bs, represents s bs ->
  (length (homogenizing_variables s) =? length (variable_groups s)) = negb (existsb needs_homogenizing bs).
Proof.
  intros s bs R. rewrite (rep_homvars _ _ R), (rep_affine _ _ R). pose proof (made_length_eq bs) as N.
  destruct (existsb needs_homogenizing bs).
  - apply Nat.eqb_neq. intro E. now discriminate (proj1 N E).
  - apply Nat.eqb_eq. now apply N.
Qed.

Lemma variable_ordering_spec : forall s bs, represents s bs ->
  variable_ordering s = if half_homogenized bs then Throws else Value (flat_map block_variables bs).
Proof.
  intros s bs R. unfold variable_ordering.
  rewrite (nonempty_homvars _ _ R), (mismatch _ _ R), !negb_involutive.
  fold (half_homogenized bs). destruct (half_homogenized bs) eqn:E; [reflexivity|].
  rewrite (rep_order _ _ R).
  assert (L := order_loop_spec s (existsb is_homogenized bs) bs [] []). cbn in L.
  rewrite L; try apply R.
  - rewrite (sizes_count _ _ R), Nat.eqb_refl. reflexivity.
  - unfold half_homogenized in E. destruct (existsb is_homogenized bs) eqn:Eh; [exact E|reflexivity].
Qed.

Lemma variables_spec : forall s bs, represents s bs ->
  variables s = if half_homogenized bs then Throws else Value (flat_map block_variables bs).
Proof.
  intros s bs R. unfold variables. destruct (ordering s) eqn:E.
  - destruct (rep_cache _ _ R _ E) as [-> ->]. reflexivity.
  - now apply variable_ordering_spec.
Qed.

Lemma give_types : forall fresh bs k, types_of (give_homogenizing fresh k bs) = types_of bs.
Proof. induction bs as [|[oh g|g|v] bs IH]; intro k; cbn; [reflexivity|..]; f_equal; apply IH. Qed.
Lemma give_affine : forall fresh bs k, affine_of (give_homogenizing fresh k bs) = affine_of bs.
Proof. induction bs as [|[oh g|g|v] bs IH]; intro k; cbn; rewrite ?IH; reflexivity. Qed.
Lemma give_hom : forall fresh bs k, hom_of (give_homogenizing fresh k bs) = hom_of bs.
Proof. induction bs as [|[oh g|g|v] bs IH]; intro k; cbn; rewrite ?IH; reflexivity. Qed.
Lemma give_ungrouped : forall fresh bs k, ungrouped_of (give_homogenizing fresh k bs) = ungrouped_of bs.
Proof. induction bs as [|[oh g|g|v] bs IH]; intro k; cbn; rewrite ?IH; reflexivity. Qed.
Lemma give_made : forall fresh bs k,
  made_variables (give_homogenizing fresh k bs) = map fresh (seq k (length (affine_of bs))).
Proof. induction bs as [|[oh g|g|v] bs IH]; intro k; cbn; rewrite ?IH; reflexivity. Qed.

Lemma half_homogenized_needs : forall bs, existsb is_homogenized bs = true -> half_homogenized bs = existsb needs_homogenizing bs.
Proof. intros bs E. unfold half_homogenized. now rewrite E. Qed.

Theorem history_represented : forall h, never_cleared h -> exists s, state_of h = Some s /\ represents s (layout h).
Proof.
  induction h as [|h IH g|h IH g|h IH v|h IH v|h IH checks fresh|h IH|h IH other IHo|h IH]; cbn; intro N.
  - exists no_variables. split; [reflexivity|]. split; try reflexivity. discriminate.
  - destruct (IH N) as (s & E & R). rewrite E. eexists; split; [reflexivity|].
    split; cbn; try discriminate; rewrite ?types_of_app, ?affine_of_app, ?hom_of_app, ?ungrouped_of_app, ?made_app;
      cbn; rewrite ?app_nil_r; rewrite <- ?(rep_order _ _ R), <- ?(rep_affine _ _ R), <- ?(rep_hom _ _ R),
      <- ?(rep_ungrouped _ _ R), <- ?(rep_homvars _ _ R); reflexivity.
  - destruct (IH N) as (s & E & R). rewrite E. eexists; split; [reflexivity|].
    split; cbn; try discriminate; rewrite ?types_of_app, ?affine_of_app, ?hom_of_app, ?ungrouped_of_app, ?made_app;
      cbn; rewrite ?app_nil_r; rewrite <- ?(rep_order _ _ R), <- ?(rep_affine _ _ R), <- ?(rep_hom _ _ R),
      <- ?(rep_ungrouped _ _ R), <- ?(rep_homvars _ _ R); reflexivity.
  - destruct (IH N) as (s & E & R). rewrite E. eexists; split; [reflexivity|].
    split; cbn; try discriminate; rewrite ?types_of_app, ?affine_of_app, ?hom_of_app, ?ungrouped_of_app, ?made_app;
      cbn; rewrite ?app_nil_r; rewrite <- ?(rep_order _ _ R), <- ?(rep_affine _ _ R), <- ?(rep_hom _ _ R),
      <- ?(rep_ungrouped _ _ R), <- ?(rep_homvars _ _ R); reflexivity.
  - destruct (IH N) as (s & E & R). rewrite E. eexists; split; [reflexivity|].
    assert (A : affine_of (map UngroupedBlock v) = []) by (clear; unfold affine_of; induction v; cbn in *; auto).
    assert (B : hom_of (map UngroupedBlock v) = []) by (clear; unfold hom_of; induction v; cbn in *; auto).
    assert (C : ungrouped_of (map UngroupedBlock v) = v) by (clear; unfold ungrouped_of; induction v; cbn in *; congruence).
    assert (D : made_variables (map UngroupedBlock v) = []) by (clear; unfold made_variables; induction v; cbn in *; auto).
    assert (T : types_of (map UngroupedBlock v) = map (fun _ => Ungrouped) v) by (unfold types_of; now rewrite map_map).
    split; cbn; try discriminate; rewrite ?types_of_app, ?affine_of_app, ?hom_of_app, ?ungrouped_of_app, ?made_app;
      rewrite ?A, ?B, ?C, ?D, ?T, ?app_nil_r; rewrite <- ?(rep_order _ _ R), <- ?(rep_affine _ _ R), <- ?(rep_hom _ _ R),
      <- ?(rep_ungrouped _ _ R), <- ?(rep_homvars _ _ R); reflexivity.
  - destruct (IH N) as (s & E & R). rewrite E. eexists; split; [reflexivity|].
    unfold homogenize_variables. rewrite (nonempty_homvars _ _ R), (mismatch _ _ R), !negb_involutive.
    destruct checks; cbn [negb andb]; [|exact R].
    destruct (existsb is_homogenized (layout h)) eqn:Eh; cbn [negb andb].
    + destruct (existsb needs_homogenizing (layout h)) eqn:En; [exact R|].
      destruct R; split; cbn; try assumption. discriminate.
    + split; cbn; try discriminate; rewrite ?give_types, ?give_affine, ?give_hom, ?give_ungrouped, ?give_made; try apply R.
      now rewrite (rep_affine _ _ R).
  - destruct (IH N) as (s & E & R). rewrite E. unfold after_variables. rewrite (variables_spec _ _ R).
    destruct (half_homogenized (layout h)) eqn:Eh; eexists; (split; [reflexivity|]); [exact R|].
    destruct R; split; cbn; try assumption. intros o Eo. injection Eo as <-. now split.
  - destruct N as [N No]. destruct (IH N) as (s & E & R), (IHo No) as (s' & E' & R'). rewrite E, E'.
    eexists; split; [reflexivity|]. destruct R'; split; cbn; assumption.
  - tauto.
Qed.

Theorem ordering_of_history : forall h, never_cleared h -> exists s, state_of h = Some s /\
  variables s = if half_homogenized (layout h) then Throws else Value (flat_map block_variables (layout h)).
Proof.
  intros h N. destruct (history_represented h N) as (s & E & R). exists s. split; [exact E|]. now apply variables_spec.
Qed.

Definition natural_variables (b : block) : list nat :=
  match b with AffineBlock _ g => g | HomogeneousBlock g => g | UngroupedBlock v => [v] end.

Lemma blocks_permutation : forall bs,
  Permutation (flat_map block_variables bs) (flat_map natural_variables bs ++ made_variables bs).
Proof.
  induction bs as [|[[h|] g|g|v] bs IH]; cbn; [constructor|..].
  - rewrite <- Permutation_middle. constructor. rewrite <- app_assoc. apply Permutation_app_head, IH.
  - rewrite <- app_assoc. apply Permutation_app_head, IH.
  - rewrite <- app_assoc. apply Permutation_app_head, IH.
  - constructor. exact IH.
Qed.

Lemma give_natural : forall fresh bs k, flat_map natural_variables (give_homogenizing fresh k bs) = flat_map natural_variables bs.
Proof. induction bs as [|[oh g|g|v] bs IH]; intro k; cbn; rewrite ?IH; reflexivity. Qed.

Lemma given_natural : forall h, given_variables h = flat_map natural_variables (layout h).
Proof.
  induction h as [|h IH g|h IH g|h IH v|h IH v|h IH checks fresh|h IH|h IH other IHo|h IH]; cbn;
    rewrite ?flat_map_app, ?IH; cbn; rewrite ?app_nil_r; try reflexivity.
  - f_equal. clear. induction v; cbn; congruence.
  - destruct (checks && _); [|reflexivity]. now rewrite give_natural.
  - exact IHo.
Qed.

Theorem ordering_permutation : forall h,
  Permutation (flat_map block_variables (layout h)) (given_variables h ++ made_variables (layout h)).
Proof. intro h. rewrite given_natural. apply blocks_permutation. Qed.

Theorem ordering_complete : forall h, never_cleared h -> forall s o, state_of h = Some s -> variables s = Value o ->
  Permutation o (given_variables h ++ made_variables (layout h)) /\
  (NoDup (given_variables h ++ made_variables (layout h)) -> NoDup o) /\
  length o = num_variables s.
Proof.
  intros h N s o E V. destruct (history_represented h N) as (s' & E' & R). rewrite E in E'. injection E' as <-.
  rewrite (variables_spec _ _ R) in V. destruct (half_homogenized (layout h)); [discriminate|]. injection V as <-.
  pose proof (ordering_permutation h) as P. split; [exact P|split].
  - intro D. apply (Permutation_NoDup (Permutation_sym P) D).
  - symmetry. now apply sizes_count.
Qed.

(** * The sizes of the groups, used to make patches *)

Definition block_size (b : block) : list nat :=
  match b with
  | UngroupedBlock _ => []
  | _ => [length (block_variables b)]
  end.

Lemma sizes_loop_spec : forall (s : sysvars) (hv : bool) (bs done : list block),
  variable_groups s = affine_of (done ++ bs) -> hom_variable_groups s = hom_of (done ++ bs) ->
  (if hv then existsb needs_homogenizing bs = false else existsb is_homogenized bs = false) ->
  sizes_loop hv s (types_of bs) (length (affine_of done)) (length (hom_of done)) = Some (flat_map block_size bs).
Proof.
  intros s hv bs. induction bs as [|b bs IH]; intros done Ha Hh Hv; [reflexivity|].
  assert (E : done ++ b :: bs = (done ++ [b]) ++ bs) by now rewrite <- app_assoc.
  assert (IH' := IH (done ++ [b])). rewrite <- E in IH'.
  rewrite (affine_of_app done [b]), (hom_of_app done [b]), !app_length in IH'.
  assert (Hv' : if hv then existsb needs_homogenizing bs = false else existsb is_homogenized bs = false).
  { destruct hv; cbn in Hv; apply orb_false_iff in Hv; tauto. }
  destruct b as [oh g|g|v]; cbn [types_of map sizes_loop]; fold (types_of bs).
  - assert (Eg : nth_error (variable_groups s) (length (affine_of done)) = Some g).
    { rewrite Ha, affine_of_app, nth_error_app2, Nat.sub_diag by lia. reflexivity. }
    rewrite Eg.
    cbn in IH'. rewrite Nat.add_1_r, Nat.add_0_r in IH'. rewrite IH' by assumption.
    cbn. f_equal. f_equal. destruct oh, hv; cbn in Hv; try discriminate; cbn; lia.
  - assert (Eg : nth_error (hom_variable_groups s) (length (hom_of done)) = Some g).
    { rewrite Hh, hom_of_app, nth_error_app2, Nat.sub_diag by lia. reflexivity. }
    rewrite Eg.
    cbn in IH'. rewrite Nat.add_1_r, Nat.add_0_r in IH'. rewrite IH' by assumption. reflexivity.
  - cbn in IH'. rewrite !Nat.add_0_r in IH'. rewrite IH' by assumption. reflexivity.
Qed.

Theorem group_sizes_of_history : forall h, never_cleared h -> exists s, state_of h = Some s /\
  variable_group_sizes s = if half_homogenized (layout h) then Throws else Value (flat_map block_size (layout h)).
Proof.
  intros h N. destruct (history_represented h N) as (s & E & R). exists s. split; [exact E|].
  unfold variable_group_sizes. rewrite (nonempty_homvars _ _ R), (mismatch _ _ R), !negb_involutive.
  fold (half_homogenized (layout h)). destruct (half_homogenized (layout h)) eqn:Eh; [reflexivity|].
  rewrite (rep_order _ _ R). rewrite (sizes_loop_spec s _ (layout h) []); try apply R; [reflexivity|].
  unfold half_homogenized in Eh. destruct (existsb is_homogenized (layout h)); [exact Eh|reflexivity].
Qed.

(** * Dehomogenizing points *)

(** A coordinate of the result: not a number after dividing by 0, indeterminate if never assigned. *)
Inductive coordinate_of (A : Type) := Number (c : A) | NotANumber | Indeterminate.
Arguments Number {A} _.
Arguments NotANumber {A}.
Arguments Indeterminate {A}.

Section Dehomogenize.
  Context {F : fld}.
  Local Open Scope fld_scope.

  Local Notation coordinate := (coordinate_of F).

  Definition quotient (a h : F) : coordinate := if feq_dec h f0 then NotANumber else Number (a / h).

  (** [x_dehomogenized(i) = c]; [None] is an out-of-range access. *)
  Fixpoint put (l : list coordinate) (i : nat) (c : coordinate) : option (list coordinate) :=
    match l, i with
    | [], _ => None
    | _ :: l', O => Some (c :: l')
    | a :: l', S i' => option_map (cons a) (put l' i' c)
    end.

  (** system.hpp:1701-1702, 1707-1708, 1714-1715: the copying of [n] coordinates, [value] being what is stored
      for a coordinate of [x]; the result and the two indices. *)
  Fixpoint copy_loop (n : nat) (value : F -> coordinate) (x : list F) (y : list coordinate) (hom_index dehom_index : nat)
    : option (list coordinate * nat * nat) :=
    match n with
    | O => Some (y, hom_index, dehom_index)
    | S n' =>
        match nth_error x hom_index with
        | None => None
        | Some c =>
            match put y dehom_index (value c) with
            | None => None
            | Some y' => copy_loop n' value x y' (S hom_index) (S dehom_index)
            end
        end
    end.

  (** system.hpp:1693-1730, the loop over the time order.  As in the code, [hom] never changes, and [affine] only
      changes when the system is homogenized. *)
  Fixpoint dehomogenize_loop (s : sysvars) (homogenized : bool) (x : list F) (order : list group_type)
    (affine hom : nat) (y : list coordinate) (hom_index dehom_index : nat) : option (list coordinate) :=
    match order with
    | [] => Some y
    | Affine :: order' =>
        match nth_error (variable_groups s) affine with
        | None => None
        | Some g =>
            if homogenized then
              match nth_error x hom_index with
              | None => None
              | Some h =>
                  match copy_loop (length g) (fun c => quotient c h) x y (S hom_index) dehom_index with
                  | None => None
                  | Some (y', i, j) => dehomogenize_loop s homogenized x order' (S affine) hom y' i j
                  end
              end
            else
              match copy_loop (length g) Number x y hom_index dehom_index with
              | None => None
              | Some (y', i, j) => dehomogenize_loop s homogenized x order' affine hom y' i j
              end
        end
    | Homogeneous :: order' =>
        match nth_error (hom_variable_groups s) hom with
        | None => None
        | Some g =>
            match copy_loop (length g) Number x y hom_index dehom_index with
            | None => None
            | Some (y', i, j) => dehomogenize_loop s homogenized x order' affine hom y' i j
            end
        end
    | Ungrouped :: order' =>
        match copy_loop 1 Number x y hom_index dehom_index with
        | None => None
        | Some (y', i, j) => dehomogenize_loop s homogenized x order' affine hom y' i j
        end
    end.

  (** system.hpp:1676-1733; a failing assert (line 1680) is [UB] *)
  Definition dehomogenize_fifo (s : sysvars) (x : list F) : outcome (list coordinate) :=
    let nh := length (homogenizing_variables s) in
    if (nh =? 0) || (nh =? length (variable_groups s)) then
      match dehomogenize_loop s (negb (nh =? 0)) x (time_order s) 0 0 (repeat Indeterminate (num_natural_variables s)) 0 0 with
      | Some y => Value y
      | None => UB
      end
    else UB.

  (** system.hpp:1285-1301 *)
  Definition dehomogenize_point (s : sysvars) (x : list F) : outcome (list coordinate) :=
    if length x =? num_variables s then
      match ordering s with
      | Some _ => dehomogenize_fifo s x
      | None => match variable_ordering s with
                | Value _ => dehomogenize_fifo s x
                | Throws => Throws
                | UB => UB
                end
      end
    else Throws.

  (** * Specification: the natural coordinates of a point, block by block *)
  Inductive natural_coordinates : list block -> list F -> list coordinate -> Prop :=
  | nc_nil : natural_coordinates [] [] []
  | nc_affine : forall h g bs h0 xs x y, length xs = length g -> natural_coordinates bs x y ->
      natural_coordinates (AffineBlock (Some h) g :: bs) (h0 :: xs ++ x) (map (fun c => quotient c h0) xs ++ y)
  | nc_unhomogenized : forall g bs xs x y, length xs = length g -> natural_coordinates bs x y ->
      natural_coordinates (AffineBlock None g :: bs) (xs ++ x) (map Number xs ++ y)
  | nc_homogeneous : forall g bs xs x y, length xs = length g -> natural_coordinates bs x y ->
      natural_coordinates (HomogeneousBlock g :: bs) (xs ++ x) (map Number xs ++ y)
  | nc_ungrouped : forall v bs c x y, natural_coordinates bs x y ->
      natural_coordinates (UngroupedBlock v :: bs) (c :: x) (Number c :: y).

  (** All groups of a kind whose counter the code does not advance have the same size: the homogeneous groups, and,
      in a system which is not homogenized, the affine groups. *)
  Definition uniform (l : list (list nat)) : Prop := forall g g', In g l -> In g' l -> length g = length g'.
  Definition uniform_groups (bs : list block) : Prop :=
    uniform (flat_map (fun b => match b with HomogeneousBlock g => [g] | _ => [] end) bs) /\
    uniform (flat_map (fun b => match b with AffineBlock None g => [g] | _ => [] end) bs).

  (** * Proofs *)

  Lemma put_app : forall y0 n c, put (y0 ++ repeat Indeterminate (S n)) (length y0) c = Some ((y0 ++ [c]) ++ repeat Indeterminate n).
  Proof.
    induction y0 as [|a y0 IH]; intros n c; cbn; [reflexivity|].
    cbn in IH. now rewrite IH.
  Qed.

  Lemma copy_loop_spec : forall (value : F -> coordinate) xs x0 x1 y0 m,
    copy_loop (length xs) value (x0 ++ xs ++ x1) (y0 ++ repeat Indeterminate (length xs + m)) (length x0) (length y0)
    = Some ((y0 ++ map value xs) ++ repeat Indeterminate m, length (x0 ++ xs), length (y0 ++ map value xs)).
  Proof.
    intros value. induction xs as [|c xs IH]; intros x0 x1 y0 m.
    - cbn. now rewrite !app_nil_r.
    - cbn [length copy_loop]. rewrite nth_error_app2, Nat.sub_diag by lia. cbn [nth_error app].
      cbn [Nat.add]. rewrite put_app.
      specialize (IH (x0 ++ [c]) x1 (y0 ++ [value c]) m).
      replace (length (x0 ++ [c])) with (S (length x0)) in IH by (rewrite app_length; cbn; lia).
      replace (length (y0 ++ [value c])) with (S (length y0)) in IH by (rewrite app_length; cbn; lia).
      rewrite <- (app_assoc x0) in IH. cbn [app] in IH. rewrite IH. cbn [map].
      rewrite <- !app_assoc. reflexivity.
  Qed.

  Lemma natural_length : forall bs x y, natural_coordinates bs x y ->
    length x = length (flat_map block_variables bs) /\ length y = length (flat_map natural_variables bs).
  Proof.
    induction 1; cbn; rewrite ?app_length, ?map_length; cbn; rewrite ?app_length; lia.
  Qed.

  Lemma natural_exists : forall bs x, length x = length (flat_map block_variables bs) -> exists y, natural_coordinates bs x y.
  Proof.
    induction bs as [|b bs IH]; intros x E.
    - destruct x; [|discriminate]. eexists; constructor.
    - destruct b as [[h|] g|g|v]; cbn in E; rewrite ?app_length in E.
      + destruct x as [|h0 x]; [discriminate|]. cbn in E.
        destruct (IH (skipn (length g) x)) as [y Y]; [rewrite skipn_length; lia|].
        rewrite <- (firstn_skipn (length g) x). eexists. constructor; [rewrite firstn_length; lia|exact Y].
      + destruct (IH (skipn (length g) x)) as [y Y]; [rewrite skipn_length; lia|].
        rewrite <- (firstn_skipn (length g) x). eexists. constructor; [rewrite firstn_length; lia|exact Y].
      + destruct (IH (skipn (length g) x)) as [y Y]; [rewrite skipn_length; lia|].
        rewrite <- (firstn_skipn (length g) x). eexists. constructor; [rewrite firstn_length; lia|exact Y].
      + destruct x as [|c x]; [discriminate|]. destruct (IH x) as [y Y]; [cbn in E; lia|].
        eexists. constructor. exact Y.
  Qed.

  Definition hom_counter (s : sysvars) (k : nat) (bs : list block) : Prop :=
    forall g, In g (hom_of bs) -> exists g', nth_error (hom_variable_groups s) k = Some g' /\ length g' = length g.

  Lemma dehomogenize_loop_spec : forall s bs x1 y1, natural_coordinates bs x1 y1 ->
    forall (hv : bool) done x0 y0 affine,
    variable_groups s = affine_of (done ++ bs) ->
    hom_counter s 0 bs ->
    (if hv then existsb needs_homogenizing bs = false /\ affine = length (affine_of done)
     else existsb is_homogenized bs = false /\
          forall g, In g (affine_of bs) -> exists g', nth_error (variable_groups s) affine = Some g' /\ length g' = length g) ->
    dehomogenize_loop s hv (x0 ++ x1) (types_of bs) affine 0 (y0 ++ repeat Indeterminate (length y1)) (length x0) (length y0)
    = Some (y0 ++ y1).
  Proof.
    intros s bs x1 y1 NC.
    induction NC as [|h g bs h0 xs x y L NC IH|g bs xs x y L NC IH|g bs xs x y L NC IH|v bs c x y NC IH];
      intros hv done x0 y0 affine Ha Hh Hv.
    - cbn. now rewrite app_nil_r.
    - assert (E : done ++ AffineBlock (Some h) g :: bs = (done ++ [AffineBlock (Some h) g]) ++ bs) by now rewrite <- app_assoc.
      cbn [types_of map dehomogenize_loop]; fold (types_of bs).
      destruct hv; [|destruct Hv as [Hv _]; cbn in Hv; discriminate].
      destruct Hv as [Hv ->].
      assert (Eg : nth_error (variable_groups s) (length (affine_of done)) = Some g).
      { rewrite Ha, affine_of_app, nth_error_app2, Nat.sub_diag by lia. reflexivity. }
      rewrite Eg. rewrite nth_error_app2, Nat.sub_diag by lia. cbn [nth_error].
      rewrite app_length, map_length.
      assert (C := copy_loop_spec (fun c => quotient c h0) xs (x0 ++ [h0]) x y0 (length y)).
      rewrite <- (app_assoc x0) in C. cbn [app] in C. rewrite app_length in C. cbn [length] in C.
      rewrite Nat.add_1_r in C. rewrite L in C. rewrite L. rewrite C.
      assert (Ex : x0 ++ h0 :: xs ++ x = ((x0 ++ [h0]) ++ xs) ++ x) by (now rewrite <- !app_assoc).
      rewrite Ex. rewrite (IH true (done ++ [AffineBlock (Some h) g])).
      + now rewrite <- app_assoc.
      + now rewrite <- E.
      + intros g' I. apply Hh. exact I.
      + split; [exact Hv|]. rewrite affine_of_app, app_length. cbn. lia.
    - cbn [types_of map dehomogenize_loop]; fold (types_of bs).
      destruct hv; [destruct Hv as [Hv _]; cbn in Hv; discriminate|].
      destruct Hv as [Hv Hu]. destruct (Hu g) as (g' & Eg & El); [now left|]. rewrite Eg.
      rewrite app_length, map_length.
      assert (C := copy_loop_spec Number xs x0 x y0 (length y)).
      rewrite El, <- L, C.
      assert (Ex : x0 ++ xs ++ x = (x0 ++ xs) ++ x) by (now rewrite <- !app_assoc).
      rewrite Ex. rewrite (IH false (done ++ [AffineBlock None g])).
      + now rewrite <- app_assoc.
      + rewrite Ha. now rewrite <- app_assoc.
      + intros g2 I. apply Hh. exact I.
      + split; [exact Hv|]. intros g2 I. apply Hu. now right.
    - cbn [types_of map dehomogenize_loop]; fold (types_of bs).
      destruct (Hh g) as (g' & Eg & El); [now left|]. rewrite Eg.
      rewrite app_length, map_length.
      assert (C := copy_loop_spec Number xs x0 x y0 (length y)).
      rewrite El, <- L, C.
      assert (Ex : x0 ++ xs ++ x = (x0 ++ xs) ++ x) by (now rewrite <- !app_assoc).
      rewrite Ex. rewrite (IH hv (done ++ [HomogeneousBlock g])).
      + now rewrite <- app_assoc.
      + rewrite Ha. now rewrite <- app_assoc.
      + intros g2 I. apply Hh. now right.
      + destruct hv; destruct Hv as [Hv Hu]; (split; [exact Hv|]); [|exact Hu].
        rewrite affine_of_app, app_length. now rewrite Nat.add_0_r.
    - cbn [types_of map dehomogenize_loop]; fold (types_of bs).
      assert (C := copy_loop_spec Number [c] x0 x y0 (length y)). cbn [length app map Nat.add] in C.
      cbn [length]. rewrite C.
      assert (Ex : x0 ++ c :: x = (x0 ++ [c]) ++ x) by (now rewrite <- !app_assoc).
      rewrite Ex. rewrite (IH hv (done ++ [UngroupedBlock v])).
      + now rewrite <- app_assoc.
      + rewrite Ha. now rewrite <- app_assoc.
      + intros g2 I. apply Hh. exact I.
      + destruct hv; destruct Hv as [Hv Hu]; (split; [exact Hv|]); [|exact Hu].
        rewrite affine_of_app, app_length. now rewrite Nat.add_0_r.
  Qed.

  Lemma natural_count : forall s bs, represents s bs -> num_natural_variables s = length (flat_map natural_variables bs).
  Proof.
    intros s bs R. unfold num_natural_variables.
    rewrite (rep_affine _ _ R), (rep_hom _ _ R), (rep_ungrouped _ _ R).
    clear. unfold affine_of, hom_of, ungrouped_of, made_variables.
  induction bs as [|[[h|] g|g|v] bs IH]; cbn in *; rewrite ?app_length; cbn; lia.
  Qed.

  Lemma unhomogenized_affine : forall bs, existsb is_homogenized bs = false ->
    affine_of bs = flat_map (fun b => match b with AffineBlock None g => [g] | _ => [] end) bs.
  Proof.
    unfold affine_of. induction bs as [|[[h|] g|g|v] bs IH]; cbn; intro E; try discriminate; rewrite ?IH by exact E; reflexivity.
  Qed.

  Theorem dehomogenize_of_history : forall h, never_cleared h -> half_homogenized (layout h) = false ->
    uniform_groups (layout h) -> forall x : list F, exists s, state_of h = Some s /\
    (length x = length (flat_map block_variables (layout h)) ->
       exists y, dehomogenize_point s x = Value y /\ natural_coordinates (layout h) x y) /\
    (length x <> length (flat_map block_variables (layout h)) -> dehomogenize_point s x = Throws).
  Proof.
    intros h N Hf [U1 U2] x. destruct (history_represented h N) as (s & E & R). exists s. split; [exact E|].
    unfold dehomogenize_point. rewrite (sizes_count _ _ R). split; intro L.
    - rewrite (proj2 (Nat.eqb_eq _ _) L).
      destruct (natural_exists _ _ L) as [y NC]. exists y. split; [|exact NC].
      assert (V : dehomogenize_fifo s x = Value y).
      { unfold dehomogenize_fifo. rewrite (nonempty_homvars _ _ R), (mismatch _ _ R).
        assert (C : negb (existsb is_homogenized (layout h)) || negb (existsb needs_homogenizing (layout h)) = true).
        { rewrite <- negb_andb. unfold half_homogenized in Hf. now rewrite Hf. }
        rewrite C, negb_involutive, (rep_order _ _ R), (natural_count _ _ R).
        destruct (natural_length _ _ _ NC) as [_ Ly]. rewrite <- Ly.
        assert (D := dehomogenize_loop_spec s _ _ _ NC (existsb is_homogenized (layout h)) [] [] [] 0).
        cbn [app length] in D. rewrite D; [reflexivity|apply R|..].
        - intros g I. rewrite (rep_hom _ _ R).
          fold (hom_of (layout h)) in U1. destruct (hom_of (layout h)) as [|g0 l] eqn:Eh; [destruct I|].
          exists g0. split; [reflexivity|]. apply U1; [now left|exact I].
        - unfold half_homogenized in Hf. destruct (existsb is_homogenized (layout h)) eqn:Ei.
          + split; [exact Hf|reflexivity].
          + split; [reflexivity|]. intros g I. rewrite (rep_affine _ _ R).
            rewrite <- (unhomogenized_affine _ Ei) in U2.
            destruct (affine_of (layout h)) as [|g0 l] eqn:Ea; [destruct I|].
            exists g0. split; [reflexivity|]. apply U2; [now left|exact I]. }
      destruct (ordering s); [exact V|]. rewrite (variable_ordering_spec _ _ R), Hf. exact V.
    - now rewrite (proj2 (Nat.eqb_neq _ _) L).
  Qed.

  Theorem dehomogenize_affine : forall h, never_cleared h ->
    Forall (fun b => match b with AffineBlock (Some _) _ | UngroupedBlock _ => True | _ => False end) (layout h) ->
    forall x : list F, length x = length (flat_map block_variables (layout h)) ->
    exists s y, state_of h = Some s /\ dehomogenize_point s x = Value y /\ natural_coordinates (layout h) x y.
  Proof.
    intros h N A x L.
    assert (Hn : existsb needs_homogenizing (layout h) = false).
    { clear L. induction A as [|[[hv|] g|g|v] bs Hb A IH]; cbn; try contradiction; auto. }
    destruct (dehomogenize_of_history h N) with (x := x) as (s & E & D & _).
    - unfold half_homogenized. rewrite Hn. apply andb_false_r.
    - clear L. split; intros g g' I; exfalso; apply in_flat_map in I; destruct I as (b & Ib & I);
        rewrite Forall_forall in A; specialize (A b Ib); destruct b as [[hv|] gb|gb|v]; cbn in *; tauto.
    - destruct (D L) as (y & V & NC). exists s, y. auto.
  Qed.
End Dehomogenize.

(** * Patches and variable groups *)

Section AutoPatch.
  Context {F : fld}.
  Local Open Scope fld_scope.

  (** system.cpp:900-908 with patch.hpp:147-185: the patch made for a system has one vector of coefficients, here
      arbitrary, for each size in [VariableGroupSizesFIFO].  That the functions are homogeneous (line 902) is about the
      functions and not needed here. *)
  Definition auto_patched (s : sysvars) (p : patch (F := F)) : Prop := variable_group_sizes s = Value (sizes_of p).

  (** Specification: the groups of variables, and the value of the patch equation of a group *)
  Definition is_group (b : block) : bool := match b with UngroupedBlock _ => false | _ => true end.
  Definition patch_equation (value : nat -> F) (c : list F) (b : block) : F :=
    inner c (map value (block_variables b)) - 1.

  (** No group was added after an ungrouped variable. *)
  Fixpoint ungrouped_last (bs : list block) : bool :=
    match bs with
    | [] => true
    | UngroupedBlock _ :: bs' => negb (existsb is_group bs') && ungrouped_last bs'
    | _ :: bs' => ungrouped_last bs'
    end.

  Lemma no_groups_sizes : forall bs, existsb is_group bs = false -> flat_map block_size bs = [] /\ filter is_group bs = [].
  Proof. induction bs as [|[oh g|g|v] bs IH]; cbn; intro E; try discriminate; auto. Qed.

  Lemma block_size_group : forall b bs, is_group b = true ->
    flat_map block_size (b :: bs) = length (block_variables b) :: flat_map block_size bs /\
    filter is_group (b :: bs) = b :: filter is_group bs /\ ungrouped_last (b :: bs) = ungrouped_last bs.
  Proof. intros [oh g|g|v] bs E; try discriminate; auto. Qed.

  Lemma auto_patch_rows : forall (value : nat -> F) bs (p : patch (F := F)) rest,
    ungrouped_last bs = true -> sizes_of p = flat_map block_size bs ->
    (num_vars p <= length (map value (flat_map block_variables bs) ++ rest))%nat /\
    map (fun q => inner (fst q) (snd q) - 1)
      (combine p (Patch.blocks (sizes_of p) (map value (flat_map block_variables bs) ++ rest)))
    = map (fun q => patch_equation value (fst q) (snd q)) (combine p (filter is_group bs)).
  Proof.
    intros value. induction bs as [|b bs IH]; intros p rest U E.
    - destruct p; [|discriminate]. cbn. split; [lia|reflexivity].
    - destruct (is_group b) eqn:G.
      + destruct (block_size_group b bs G) as (E1 & E2 & E3). rewrite E1 in E. rewrite E2. rewrite E3 in U.
        destruct p as [|c p]; [discriminate|].
        unfold sizes_of in E; cbn [map] in E. injection E as Ec Ep. fold (sizes_of p) in Ep.
        cbn [flat_map]. rewrite map_app, <- app_assoc.
        destruct (IH p rest U Ep) as [L R]. split.
        * unfold num_vars in *. cbn [map fold_right]. rewrite app_length, map_length. lia.
        * unfold sizes_of. cbn [map Patch.blocks combine fst snd]. fold (sizes_of p).
          assert (Lc : length c = length (map value (block_variables b))) by (rewrite map_length; exact Ec).
          rewrite firstn_app, Lc, firstn_all, Nat.sub_diag, firstn_O, app_nil_r.
          rewrite skipn_app, skipn_all, Nat.sub_diag. cbn [skipn app]. rewrite R. reflexivity.
      + destruct b as [oh g|g|v]; try discriminate G. cbn in U. apply andb_prop in U. destruct U as [U _].
        apply negb_true_iff in U. destruct (no_groups_sizes bs U) as [Es Ef].
        cbn [flat_map block_size app filter is_group] in *. rewrite Es in E. rewrite Ef.
        destruct p; [|discriminate]. cbn. split; [lia|reflexivity].
  Qed.

  Theorem patch_of_history : forall h, never_cleared h -> half_homogenized (layout h) = false ->
    ungrouped_last (layout h) = true ->
    exists s o, state_of h = Some s /\ variables s = Value o /\
    forall (p : patch (F := F)) (value : nat -> F), auto_patched s p ->
    patch_eval p (map value o) = Value (map (fun q => patch_equation value (fst q) (snd q)) (combine p (filter is_group (layout h)))).
  Proof.
    intros h N Hf U. destruct (group_sizes_of_history h N) as (s & E & S1).
    destruct (ordering_of_history h N) as (s' & E' & S2). rewrite E in E'. injection E' as <-. rewrite Hf in S1, S2.
    exists s, (flat_map block_variables (layout h)). split; [exact E|split; [exact S2|]].
    intros p value A. unfold auto_patched in A. rewrite S1 in A. injection A as A.
    destruct (auto_patch_rows value (layout h) p [] U (eq_sym A)) as [L R]. rewrite app_nil_r in L, R.
    unfold patch_eval, patch_eval_in_place. rewrite repeat_length, Nat.ltb_irrefl, Nat.sub_diag.
    rewrite eval_rows_ok by exact L. cbn [firstn skipn app]. now rewrite R.
  Qed.
End AutoPatch.

(** * Examples and counterexamples *)

(** Two affine groups {0,1} and {2} around a homogeneous group {3,4} and an ungrouped variable 5; homogenizing makes
    the variables 10 and 11. *)
Definition mixed_history : history :=
  Homogenize
    (Variables (AddVariableGroup (AddUngroupedVariable (AddHomVariableGroup (AddVariableGroup Constructed [0; 1]) [3; 4]) 5) [2]))
    true (fun k => 10 + k).

Lemma mixed_example : never_cleared mixed_history /\ half_homogenized (layout mixed_history) = false /\
  flat_map block_variables (layout mixed_history) = [10; 0; 1; 3; 4; 5; 11; 2].
Proof. vm_compute. auto. Qed.

Lemma mixed_uniform : uniform_groups (layout mixed_history).
Proof.
  split; intros g g'; cbn; [|contradiction].
  intros [<-|[]] [<-|[]]. reflexivity.
Qed.

(** After [ClearVariables] the old ordering is still returned, *)
Definition cleared_history : history := ClearVariables (Variables (AddVariableGroup Constructed [0; 1])).
(** and adding a variable group makes the ordering read a group which does not exist. *)
Definition refilled_history : history := AddVariableGroup cleared_history [2].

Lemma cleared_wrong :
  option_map variables (state_of cleared_history) = Some (Value [0; 1]) /\ layout cleared_history = [] /\
  option_map variables (state_of refilled_history) = Some UB /\ layout refilled_history = [AffineBlock None [2]].
Proof. vm_compute. auto. Qed.

(** Two homogeneous groups of different sizes; two affine groups of different sizes, not homogenized *)
Definition two_hom_history : history := AddHomVariableGroup (AddHomVariableGroup Constructed [0; 1]) [2; 3; 4].
Definition two_affine_history : history := AddVariableGroup (AddVariableGroup Constructed [0]) [1; 2].
Definition two_affine_big_first : history := AddVariableGroup (AddVariableGroup Constructed [0; 1]) [2].

Definition dehomogenized (h : history) (x : list QcF) : outcome (list (coordinate_of QcF)) :=
  match state_of h with Some s => dehomogenize_point s x | None => UB end.

Lemma dehomogenize_wrong :
  dehomogenized two_hom_history [qc 1 1; qc 2 1; qc 3 1; qc 4 1; qc 5 1]
  = Value [Number (qc 1 1); Number (qc 2 1); Number (qc 3 1); Number (qc 4 1); Indeterminate] /\
  dehomogenized two_affine_history [qc 1 1; qc 2 1; qc 3 1] = Value [Number (qc 1 1); Number (qc 2 1); Indeterminate] /\
  dehomogenized two_affine_big_first [qc 1 1; qc 2 1; qc 3 1] = UB.
Proof. vm_compute. auto. Qed.

Lemma dehomogenize_refuted : exists h1 h2 h3,
  layout h1 = [HomogeneousBlock [0; 1]; HomogeneousBlock [2; 3; 4]] /\
  dehomogenized h1 [qc 1 1; qc 2 1; qc 3 1; qc 4 1; qc 5 1]
  = Value [Number (qc 1 1); Number (qc 2 1); Number (qc 3 1); Number (qc 4 1); Indeterminate] /\
  layout h2 = [AffineBlock None [0]; AffineBlock None [1; 2]] /\
  dehomogenized h2 [qc 1 1; qc 2 1; qc 3 1] = Value [Number (qc 1 1); Number (qc 2 1); Indeterminate] /\
  layout h3 = [AffineBlock None [0; 1]; AffineBlock None [2]] /\
  dehomogenized h3 [qc 1 1; qc 2 1; qc 3 1] = UB.
Proof.
  exists two_hom_history, two_affine_history, two_affine_big_first.
  destruct dehomogenize_wrong as (A & B & C). rewrite A, B, C. auto 10.
Qed.

Lemma dehomogenize_mixed :
  dehomogenized mixed_history [qc 2 1; qc 4 1; qc 6 1; qc 1 1; qc 7 1; qc 3 1; qc 5 1; qc 10 1]
  = Value [Number (qc 2 1); Number (qc 3 1); Number (qc 1 1); Number (qc 7 1); Number (qc 3 1); Number (qc 2 1)].
Proof. vm_compute. reflexivity. Qed.

(** An ungrouped variable 5 before the group {0, 1}, homogenized with variable 10: the patch of the group with
    coefficients 1, 2, 3 is applied to the variables 5, 10, 0. *)
Definition ungrouped_first_history : history :=
  Homogenize (AddVariableGroup (AddUngroupedVariable Constructed 5) [0; 1]) true (fun k => 10 + k).

Definition patch_at (h : history) (p : patch (F := QcF)) (value : nat -> QcF) : option (outcome (list QcF)) :=
  match state_of h with
  | Some s => match variables s with Value o => Some (patch_eval p (map value o)) | _ => None end
  | None => None
  end.

Lemma patch_wrong : exists s, state_of ungrouped_first_history = Some s /\
  auto_patched s [[qc 1 1; qc 2 1; qc 3 1]] /\
  filter is_group (layout ungrouped_first_history) = [AffineBlock (Some 10) [0; 1]] /\
  let value := fun v => match v with 10 => qc 1 1 | _ => qc 0 1 end in
  patch_at ungrouped_first_history [[qc 1 1; qc 2 1; qc 3 1]] value = Some (Value [qc 1 1]) /\
  patch_equation value [qc 1 1; qc 2 1; qc 3 1] (AffineBlock (Some 10) [0; 1]) = qc 0 1.
Proof. eexists. split; [reflexivity|]. vm_compute. auto. Qed.

Lemma patch_refuted : exists h s (p : patch (F := QcF)) (value : nat -> QcF),
  state_of h = Some s /\ auto_patched s p /\ filter is_group (layout h) = [AffineBlock (Some 10) [0; 1]] /\
  patch_at h p value = Some (Value [qc 1 1]) /\
  map (fun q => patch_equation value (fst q) (snd q)) (combine p (filter is_group (layout h))) = [qc 0 1].
Proof.
  destruct patch_wrong as (s & A & B & C & D & E).
  exists ungrouped_first_history, s, [[qc 1 1; qc 2 1; qc 3 1]], (fun v => match v with 10 => qc 1 1 | _ => qc 0 1 end).
  split; [exact A|split; [exact B|split; [exact C|split; [exact D|]]]].
  rewrite C. cbn [combine map fst snd]. now rewrite E.
Qed.

Definition grouped_history : history :=
  AddUngroupedVariable (Homogenize (AddHomVariableGroup (AddVariableGroup Constructed [0; 1]) [3; 4]) true (fun k => 10 + k)) 5.

Lemma grouped_example : never_cleared grouped_history /\ half_homogenized (layout grouped_history) = false /\
  ungrouped_last (layout grouped_history) = true /\
  filter is_group (layout grouped_history) = [AffineBlock (Some 10) [0; 1]; HomogeneousBlock [3; 4]] /\
  exists s, state_of grouped_history = Some s /\ auto_patched s [[qc 1 1; qc 2 1; qc 3 1]; [qc 1 1; qc 2 1]].
Proof. repeat (split; [vm_compute; auto|]). eexists. split; vm_compute; reflexivity. Qed.
