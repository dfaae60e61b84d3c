(** What loaded function trees evaluate to, and saved systems.
    Models System::serialize and what evaluation makes of nodes which have been loaded. *)
From Coq Require Import List Arith Lia Bool ZArith Ascii.
From Verif Require Import Base Expr Archive.
Import ListNotations.

Section Meaning.
  Context {F : fld}.
  Local Open Scope fld_scope.
  Context (fs : funs F) (pi_ e_ : F) (complex : F -> F -> F).

  Notation heap_of := (nat -> option (snode F)).

  (** The values of all, if none dereferences a null pointer *)
  Fixpoint all {A} (l : list (option A)) : option (list A) :=
    match l with
    | [] => Some []
    | x :: r => match x, all r with Some a, Some s => Some (a :: s) | _, _ => None end
    end.

  Definition lift1 (f : F -> option F) (x : option (option F)) : option (option F) :=
    match x with Some (Some v) => Some (f v) | Some None => Some None | None => None end.
  Definition lift2 (f : F -> F -> option F) (x y : option (option F)) : option (option F) :=
    match x, y with
    | Some a, Some b => Some (match a, b with Some v, Some w => f v w | _, _ => None end)
    | _, _ => None
    end.

  Definition ptr_eqb (p q : ptr) : bool :=
    match p, q with Some a, Some b => a =? b | None, None => true | _, _ => false end.

  Fixpoint dot (c : list F) (v : list (option F)) : option F :=
    match c, v with
    | [], _ => Some 0
    | x :: c, Some y :: v => match dot c v with Some s => Some (x * y + s) | None => None end
    | _ :: _, _ => None
    end.
  Fixpoint prod (l : list (option F)) : option F :=
    match l with
    | [] => Some 1
    | x :: r => match x, prod r with Some a, Some b => Some (a * b) | _, _ => None end
    end.

  (** FreshEval of the node classes, following pointers from one to the next; [dv] is the variable of differentiation
      (null outside of a Jacobian).  The outer option is a null pointer dereferenced, the inner a value which is not a
      number.  A differential compares its variable: differential.cpp:110-156; linear products: linear_product.hpp:459-486;
      an empty one has no variable to evaluate.  Other nodes: Expr.v, Heap.v. *)
  Fixpoint value (get : heap_of) (fuel : nat) (rho : nat -> F) (dv : ptr) (p : ptr) : option (option F) :=
    match p, fuel with
    | Some a, S k =>
        let val := value get k rho dv in
        match get a with
        | None => None
        | Some (NInteger z) => Some (Some (fZ z))
        | Some (NFloat v) => Some (Some v)
        | Some (NRational re im) => Some (Some (complex re im))
        | Some (NPi _) => Some (Some pi_)
        | Some (NE _) => Some (Some e_)
        | Some (NVariable _) => Some (Some (rho a))
        | Some (NDifferential _ v) => Some (Some (if ptr_eqb v dv then 1 else 0))
        | Some (NSum ops signs) =>
            match all (map val ops) with Some vs => Some (sum_val (combine signs vs)) | None => None end
        | Some (NMult ops flags) =>
            match all (map val ops) with Some vs => Some (mul_val (combine flags vs)) | None => None end
        | Some (NNegate b) => lift1 (fun v => Some (- v)) (val b)
        | Some (NPower b e) => lift2 (pw fs) (val b) (val e)
        | Some (NIntegerPower b z) => lift1 (fun v => fpowZ v z) (val b)
        | Some (NUnary f b) => lift1 (fn fs f) (val b)
        | Some (NFunction _ b) => val b
        | Some (NJacobian _ b) => val b
        | Some (NLinearProduct vars hom coeffs) =>
            match all (map val (vars ++ [hom])) with
            | Some vs => Some (prod (map (fun c => dot c vs) coeffs))
            | None => None
            end
        | Some (NDiffLinear vars hom coeffs) =>
            match all (map val (vars ++ [hom])) with
            | Some vs => Some (dot coeffs vs)
            | None => None
            end
        end
    | _, _ => None
    end.

  (** Nodes which are saved whole *)
  Definition whole (n : snode F) : bool :=
    match n with NDifferential _ _ | NLinearProduct _ _ _ | NDiffLinear _ _ _ => false | _ => true end.

  Lemma remains_whole n : whole n = true -> remains n = n.
  Proof. destruct n; cbn; congruence. Qed.

  (** Two heaps which agree up to a renaming, on a closed set of addresses, give the same values. *)
  Lemma value_moved (get get' : heap_of) (s : nat -> nat) (seen : list nat) (rho rho' : nat -> F) dv dv' :
    (forall a, In a seen -> exists n, get a = Some n /\ whole n = true /\ (forall b, In b (node_pointers n) -> In b seen) /\
       get' (s a) = Some (move s n)) ->
    (forall a, In a seen -> rho' (s a) = rho a) ->
    forall fuel p, (forall a, p = Some a -> In a seen) ->
      value get' fuel rho' dv' (option_map s p) = value get fuel rho dv p.
  Proof.
    intros H R. induction fuel as [|k IH]; intros [a|] Hp; try reflexivity.
    specialize (Hp a eq_refl). destruct (H a Hp) as (n & E & W & P & E'). cbn [value option_map]. rewrite E', E.
    assert (L : forall l, (forall b, In (Some b) l -> In b seen) ->
      map (value get' k rho' dv') (map (option_map s) l) = map (value get k rho dv) l).
    { intros l Hl. rewrite map_map. apply map_ext_in. intros q I. apply IH. intros b ->. now apply Hl. }
    destruct n; cbn [move]; try discriminate W; try reflexivity;
      unfold node_pointers in P; cbn [fields flat_map pointers] in P.
    - now rewrite R.
    - rewrite L; [reflexivity|]. intros b I. apply P. rewrite !app_nil_r. now apply in_addresses.
    - rewrite L; [reflexivity|]. intros b I. apply P. rewrite !app_nil_r. now apply in_addresses.
    - rewrite IH; [reflexivity|]. intros b ->. apply P. now left.
    - rewrite !IH; [reflexivity| |]; intros x ->; apply P; apply in_or_app; [right; now left|left; now left].
    - rewrite IH; [reflexivity|]. intros b ->. apply P. now left.
    - rewrite IH; [reflexivity|]. intros b ->. apply P. now left.
    - apply IH. intros b ->. apply P. now left.
    - apply IH. intros b ->. apply P. now left.
  Qed.
End Meaning.

Section Systems.
  Context {F : fld}.

  (** Patch, patch.hpp:513-519; the coefficients of all groups in one list *)
  Record spatch := mkPatch {
    p_precision : Z; p_highest : list F; p_working : list F; p_double : list F; p_sizes : list Z }.

  (** StraightLineProgram, straight_line_program.hpp:598-612; the sizes and locations are one list *)
  Record sslp := mkSlp {
    l_precision : Z; l_has_path : bool; l_locations : list Z; l_double : list F; l_multiple : list F;
    l_integers : list Z; l_instructions : list Z; l_numbers : list ptr; l_number_locations : list Z; l_evaluated : bool }.

  (** System, system.hpp:1743-1787 *)
  Record ssystem := mkSystem {
    y_ungrouped : list ptr; y_groups : list (list ptr); y_hom_groups : list (list ptr); y_hom_variables : list ptr;
    y_have_path : bool; y_path : ptr;
    y_implicit : list ptr; y_explicit : list ptr; y_constants : list ptr; y_subfunctions : list ptr; y_functions : list ptr;
    y_patch : spatch; y_patched : bool; y_uniform : bool; y_eval : Z; y_deriv : Z; y_simplify : bool; y_precision : Z;
    y_differentiated : bool; y_jacobian : list ptr; y_space : list ptr; y_time : list ptr;
    y_slp : sslp; y_order : list Z; y_have_ordering : bool; y_ordering : list ptr;
    y_current : list F                    (* current_variable_values_, not saved *)
  }.

  (** System::serialize, system.hpp:1796-1862; Patch::serialize, patch.hpp:526-535; StraightLineProgram::serialize,
      straight_line_program.hpp:619-637 *)
  Definition patch_fields (p : spatch) : list (field F) :=
    [FInt (p_precision p); FNums (p_highest p); FNums (p_working p); FNums (p_double p); FInts (p_sizes p)].
  Definition slp_fields (l : sslp) : list (field F) :=
    [FInt (l_precision l); FBool (l_has_path l); FInts (l_locations l); FNums (l_double l); FNums (l_multiple l);
     FInts (l_integers l); FInts (l_instructions l); FPtrs (l_numbers l); FInts (l_number_locations l); FBool (l_evaluated l)].
  Definition system_fields (y : ssystem) : list (field F) :=
    [FPtrs (y_ungrouped y); FGroups (y_groups y); FGroups (y_hom_groups y); FPtrs (y_hom_variables y);
     FBool (y_have_path y); FPtr (y_path y);
     FPtrs (y_implicit y); FPtrs (y_explicit y); FPtrs (y_constants y); FPtrs (y_subfunctions y); FPtrs (y_functions y)]
    ++ patch_fields (y_patch y) ++
    [FBool (y_patched y); FBool (y_uniform y); FInt (y_eval y); FInt (y_deriv y); FBool (y_simplify y); FInt (y_precision y);
     FBool (y_differentiated y); FPtrs (y_jacobian y); FPtrs (y_space y); FPtrs (y_time y)]
    ++ slp_fields (y_slp y) ++
    [FInts (y_order y); FBool (y_have_ordering y); FPtrs (y_ordering y)].

  (** The same function, reading into a new system *)
  Definition system_types : list ftype :=
    [TPtrs; TGroups; TGroups; TPtrs; TBool; TPtr; TPtrs; TPtrs; TPtrs; TPtrs; TPtrs;
     TInt; TNums; TNums; TNums; TInts;
     TBool; TBool; TInt; TInt; TBool; TInt; TBool; TPtrs; TPtrs; TPtrs;
     TInt; TBool; TInts; TNums; TNums; TInts; TInts; TPtrs; TInts; TBool;
     TInts; TBool; TPtrs].
  Definition make_system (l : list (field F)) : option ssystem :=
    match l with
    | [FPtrs u; FGroups g; FGroups hg; FPtrs hv; FBool hp; FPtr pv; FPtrs im; FPtrs ex; FPtrs cs; FPtrs sb; FPtrs fn;
       FInt pp; FNums ph; FNums pw; FNums pd; FInts ps;
       FBool pt; FBool un; FInt ev; FInt de; FBool si; FInt pr; FBool di; FPtrs ja; FPtrs sd; FPtrs td;
       FInt lp; FBool lh; FInts ll; FNums ld; FNums lm; FInts li; FInts ls; FPtrs ln; FInts lo; FBool le;
       FInts to; FBool ho; FPtrs vo] =>
        Some (mkSystem u g hg hv hp pv im ex cs sb fn (mkPatch pp ph pw pd ps) pt un ev de si pr di ja sd td
                (mkSlp lp lh ll ld lm li ls ln lo le) to ho vo [])
    | _ => None
    end.

  (** The state of an archive and of a program: a system and the nodes it points to *)
  Definition save_system (G : list (snode F)) (y : ssystem) : result (list (token (F := F)) * list nat) := save G (system_fields y).
  Definition load_system (ts : list (token (F := F))) : option (ssystem * heap (F := F)) :=
    match load system_types ts with
    | Some (l, h) => match make_system l with Some y => Some (y, h) | None => None end
    | None => None
    end.

  (** Pointers replaced, and no current values of the variables *)
  Definition move_slp (s : nat -> nat) (l : sslp) : sslp :=
    mkSlp (l_precision l) (l_has_path l) (l_locations l) (l_double l) (l_multiple l) (l_integers l) (l_instructions l)
      (map (option_map s) (l_numbers l)) (l_number_locations l) (l_evaluated l).
  Definition move_system (s : nat -> nat) (y : ssystem) : ssystem :=
    let m := map (option_map s) in
    mkSystem (m (y_ungrouped y)) (map m (y_groups y)) (map m (y_hom_groups y)) (m (y_hom_variables y))
      (y_have_path y) (option_map s (y_path y))
      (m (y_implicit y)) (m (y_explicit y)) (m (y_constants y)) (m (y_subfunctions y)) (m (y_functions y))
      (y_patch y) (y_patched y) (y_uniform y) (y_eval y) (y_deriv y) (y_simplify y) (y_precision y)
      (y_differentiated y) (m (y_jacobian y)) (m (y_space y)) (m (y_time y))
      (move_slp s (y_slp y)) (y_order y) (y_have_ordering y) (m (y_ordering y)) [].

  (** All pointers of a system *)
  Definition system_roots (y : ssystem) : list nat := flat_map pointers (system_fields y).

  Lemma types_of_system y : map type_of (system_fields y) = system_types.
  Proof. reflexivity. Qed.

  Lemma make_moved s y : make_system (map (move_field s) (system_fields y)) = Some (move_system s y).
  Proof. destruct y as [? ? ? ? ? ? ? ? ? ? ? [] ? ? ? ? ? ? ? ? ? ? [] ? ? ? ?]. reflexivity. Qed.

  Lemma system_round_trip G y ts seen : save_system G y = Ok (ts, seen) ->
    exists h, load_system ts = Some (move_system (number_of seen) y, h) /\ NoDup seen /\
      (forall a, In a (system_roots y) -> In a seen) /\
      forall a, In a seen -> exists n, nth_error G a = Some n /\ (forall b, In b (node_pointers n) -> In b seen) /\
        lookup h (number_of seen a) = Some (move (number_of seen) (remains n)).
  Proof.
    intros S. destruct (round_trip G (system_fields y) ts seen S) as (h & L & N & R & A).
    exists h. split; [|split; [exact N|split; [|exact A]]].
    - unfold load_system. rewrite <- (types_of_system y), L, make_moved. reflexivity.
    - intros a I. unfold system_roots in I. apply in_flat_map in I. destruct I as (x & I & J). now apply (R x).
  Qed.

  (** TotalDegree::serialize, total_degree.hpp:129-141: the random values and the degrees besides the system *)
  Record stotal := mkTotal { td_system : ssystem; td_values : list ptr; td_degrees : list Z }.
  Definition total_fields (t : stotal) : list (field F) := system_fields (td_system t) ++ [FPtrs (td_values t); FInts (td_degrees t)].
  Definition make_total (l : list (field F)) : option stotal :=
    match make_system (firstn 39 l), skipn 39 l with
    | Some y, [FPtrs v; FInts d] => Some (mkTotal y v d)
    | _, _ => None
    end.
  Definition load_total (ts : list (token (F := F))) : option (stotal * heap (F := F)) :=
    match load (system_types ++ [TPtrs; TInts]) ts with
    | Some (l, h) => match make_total l with Some t => Some (t, h) | None => None end
    | None => None
    end.

  Lemma make_total_moved s t : make_total (map (move_field s) (total_fields t)) =
    Some (mkTotal (move_system s (td_system t)) (map (option_map s) (td_values t)) (td_degrees t)).
  Proof. destruct t as [y v d]. destruct y as [? ? ? ? ? ? ? ? ? ? ? [] ? ? ? ? ? ? ? ? ? ? [] ? ? ? ?]. reflexivity. Qed.

  Lemma total_round_trip G t ts seen : save G (total_fields t) = Ok (ts, seen) ->
    exists h, load_total ts = Some (mkTotal (move_system (number_of seen) (td_system t))
        (map (option_map (number_of seen)) (td_values t)) (td_degrees t), h) /\ NoDup seen /\
      (forall a, In a (flat_map pointers (total_fields t)) -> In a seen) /\
      forall a, In a seen -> exists n, nth_error G a = Some n /\ (forall b, In b (node_pointers n) -> In b seen) /\
        lookup h (number_of seen a) = Some (move (number_of seen) (remains n)).
  Proof.
    intros S. destruct (round_trip G (total_fields t) ts seen S) as (h & L & N & R & A).
    exists h. split; [|split; [exact N|split; [|exact A]]].
    - unfold load_total.
      replace (system_types ++ [TPtrs; TInts]) with (map (type_of (F := F)) (total_fields t))
        by (unfold total_fields; rewrite map_app, types_of_system; reflexivity).
      rewrite L, make_total_moved. reflexivity.
    - intros a I. apply in_flat_map in I. destruct I as (x & I & J). now apply (R x).
  Qed.

  (** MHomogeneous, mhom.hpp:92-130: the degree matrix (row by row) and the partitions; linprod_matrix_, var_groups_ and
      variable_cols_ are left out: they are lost as well *)
  Record smhom := mkMhom { mh_system : ssystem; mh_degrees : list Z; mh_matrix : list (list nat); mh_partitions : list (list nat) }.

  (** MHomogeneous::NumStartPoints and NumStartPointsForPartition, mhom.cpp:122-130, 445-454 *)
  Definition partition_points (m : list (list nat)) (p : list nat) : nat :=
    fold_right Nat.mul 1 (map (fun x => nth (snd x) (nth (fst x) m []) 0) (combine (seq 0 (length p)) p)).
  Definition start_points (t : smhom) : nat := fold_right Nat.add 0 (map (partition_points (mh_matrix t)) (mh_partitions t)).

  (** Specification: the product of the degrees chosen, one of each row *)
  Fixpoint chosen_product (m : list (list nat)) (p : list nat) : nat :=
    match m, p with r :: m', c :: p' => nth c r 0 * chosen_product m' p' | _, _ => 1 end.

  (** GenerateStartPointT, mhom.cpp:344-368: the partition a start point belongs to, and its number there; [None]: throws *)
  Fixpoint find_partition (m : list (list nat)) (l : list (list nat)) (index : nat) : option (list nat * nat) :=
    match l with
    | [] => None
    | p :: r => if index <? partition_points m p then Some (p, index) else find_partition m r (index - partition_points m p)
    end.
  Definition which_partition (t : smhom) (index : nat) : option (list nat * nat) := find_partition (mh_matrix t) (mh_partitions t) index.

  (** MHomogeneous::serialize, mhom.hpp:135-139; reading is into a default constructed object *)
  Definition mhom_fields (t : smhom) : list (field F) := system_fields (mh_system t) ++ [FInts (mh_degrees t)].
  Definition make_mhom (l : list (field F)) : option smhom :=
    match make_system (firstn 39 l), skipn 39 l with
    | Some y, [FInts d] => Some (mkMhom y d [] [])
    | _, _ => None
    end.
  Definition load_mhom (ts : list (token (F := F))) : option (smhom * heap (F := F)) :=
    match load (system_types ++ [TInts]) ts with
    | Some (l, h) => match make_mhom l with Some t => Some (t, h) | None => None end
    | None => None
    end.

  Lemma make_mhom_moved s t : make_mhom (map (move_field s) (mhom_fields t)) =
    Some (mkMhom (move_system s (mh_system t)) (mh_degrees t) [] []).
  Proof. destruct t as [y d m p]. destruct y as [? ? ? ? ? ? ? ? ? ? ? [] ? ? ? ? ? ? ? ? ? ? [] ? ? ? ?]. reflexivity. Qed.

  Lemma mhom_round_trip G t ts seen : save G (mhom_fields t) = Ok (ts, seen) ->
    exists h, load_mhom ts = Some (mkMhom (move_system (number_of seen) (mh_system t)) (mh_degrees t) [] [], h).
  Proof.
    intros S. destruct (round_trip G (mhom_fields t) ts seen S) as (h & L & _).
    exists h. unfold load_mhom.
    replace (system_types ++ [TInts]) with (map (type_of (F := F)) (mhom_fields t))
      by (unfold mhom_fields; rewrite map_app, types_of_system; reflexivity).
    rewrite L, make_mhom_moved. reflexivity.
  Qed.

  Lemma partition_points_product m p : length p <= length m -> partition_points m p = chosen_product m p.
  Proof.
    unfold partition_points.
    assert (G : forall p k, length p + k <= length m ->
      fold_right Nat.mul 1 (map (fun x => nth (snd x) (nth (fst x) m []) 0) (combine (seq k (length p)) p)) = chosen_product (skipn k m) p).
    { clear p. induction p as [|c p IH]; intros k H; cbn [length seq combine map fold_right fst snd] in *; [destruct (skipn k m); reflexivity|].
      rewrite IH by lia. destruct (skipn k m) as [|r m'] eqn:E.
      - apply (f_equal (@length _)) in E. rewrite skipn_length in E. cbn in E. lia.
      - cbn [chosen_product]. assert (N : nth k m [] = r).
        { rewrite <- (firstn_skipn k m), E. rewrite app_nth2; rewrite firstn_length_le by lia; [|lia]. rewrite Nat.sub_diag. reflexivity. }
        assert (M : skipn (S k) m = m').
        { clear - E. revert m m' E. induction k as [|k IH]; intros m m' E; destruct m as [|x m]; try discriminate; cbn in *; [congruence|].
          apply IH. exact E. }
        rewrite N, M. reflexivity. }
    intro H. rewrite (G p 0) by lia. reflexivity.
  Qed.

  Lemma find_partition_some m : forall l i, i < fold_right Nat.add 0 (map (partition_points m) l) ->
    exists p j, find_partition m l i = Some (p, j) /\ In p l /\ j < partition_points m p.
  Proof.
    induction l as [|p l IH]; intros i H; cbn [fold_right map find_partition] in *; [lia|]. destruct (Nat.ltb_spec i (partition_points m p)) as [L|L].
    - exists p, i. cbn [In]. auto.
    - destruct (IH (i - partition_points m p)) as (q & j & E & I & J); [lia|]. exists q, j. cbn [In]. auto.
  Qed.
End Systems.
