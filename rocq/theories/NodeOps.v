(** Building function trees with the operators of C++.

    Models the operators on std::shared_ptr<Node> in core/include/bertini2/function_tree/operators/arithmetic.hpp
    (lines 350, 896, 1041-1082, 1104-1425) and operators/trig.hpp:482-520, on the graphs of Heap.v: an operator makes a
    new node, whose address is the next free one, and leaves all others alone, except the operators *= and /= on a
    MultOperator, which add an operand to an existing node.

    Simplifications: the operands of an operator are built from left to right (the order is not specified in C++); the
    overloads taking numbers (int, mpz_int, mpq_rational, mpfr_float, mpfr_complex) are the ones on nodes applied to a
    number node, as they are in the code. *)
From Coq Require Import List Arith Lia ZArith Bool Ring Field.
From Verif Require Import Base Expr Homog Heap.
Import ListNotations.

Section NodeOps.
  Context {F : fld}.
  Variable fs : funs F.
  Add Field nodeops_field : (f_th F).
  Notation gnode := (gnode (F := F)).
  Notation graph := (list gnode).

  (** std::make_shared and the Make functions *)
  Definition alloc (G : graph) (nd : gnode) : graph * nat := (G ++ [nd], length G).

  (** the values of int *)
  Definition is_int (z : Z) : bool := (- 2 ^ 31 <=? z)%Z && (z <? 2 ^ 31)%Z.

  (** the two powers which operator*= combines, arithmetic.hpp:1305-1322 *)
  Definition combinable (G : graph) (a b : nat) : option (nat * Z) :=
    match nth_error G a, nth_error G b with
    | Some (GIPow x m), Some (GIPow y n) =>
        if (x =? y)%nat && (0 <=? m)%Z && (0 <=? n)%Z then Some (x, m + n)%Z else None
    | _, _ => None
    end.

  (** operator* and operator*= of two nodes, arithmetic.hpp:1302-1333; None: the sum of the exponents is not an int,
      the behaviour is undefined *)
  Definition times (G : graph) (a b : nat) : option (graph * nat) :=
    match combinable G a b with
    | Some (x, e) => if is_int e then Some (alloc G (GIPow x e)) else None
    | None => Some (alloc G (GMul [(true, a); (true, b)]))
    end.

  (** arithmetic.hpp:1100-1114 *)
  Definition plus (G : graph) (a b : nat) : option (graph * nat) := Some (alloc G (GSum [(true, a); (true, b)])).
  (** arithmetic.hpp:1175-1186 *)
  Definition minus (G : graph) (a b : nat) : option (graph * nat) := Some (alloc G (GSum [(true, a); (false, b)])).
  (** arithmetic.hpp:1345-1378 *)
  Definition over (G : graph) (a b : nat) : option (graph * nat) := Some (alloc G (GMul [(true, a); (false, b)])).
  (** arithmetic.hpp:350-353 *)
  Definition negated (G : graph) (a : nat) : option (graph * nat) := Some (alloc G (GNeg a)).
  (** arithmetic.hpp:1056-1059; the exponent is an int *)
  Definition int_power (G : graph) (a : nat) (z : Z) : option (graph * nat) := Some (alloc G (GIPow a z)).
  (** arithmetic.hpp:1051-1054 *)
  Definition power (G : graph) (a b : nat) : option (graph * nat) := Some (alloc G (GPow a b)).
  (** arithmetic.hpp:896, 1041, 1046; trig.hpp:482-520 *)
  Definition applied (G : graph) (k : fun_kind) (a : nat) : option (graph * nat) := Some (alloc G (GFun k a)).

  (** operator*= and operator/= with a MultOperator on the left, arithmetic.hpp:1243-1247 and 1367-1371
      (NaryOperator::AddOperand and MultOperator::AddOperand): the node itself changes. *)
  Fixpoint set_nth (G : graph) (n : nat) (nd : gnode) : graph :=
    match G, n with
    | [], _ => []
    | _ :: r, O => nd :: r
    | x :: r, S n' => x :: set_nth r n' nd
    end.
  Definition add_factor (G : graph) (p : nat) (s : bool) (b : nat) : option graph :=
    match nth_error G p with
    | Some (GMul ops) => Some (set_nth G p (GMul (ops ++ [(s, b)])))
    | _ => None
    end.

  (** ** What a user writes *)
  Inductive formula :=
  | FNode (n : nat)                       (* a node made before *)
  | FNum (k : num_kind) (c : F)           (* a number *)
  | FAdd (f g : formula)
  | FSub (f g : formula)
  | FMul (f g : formula)
  | FDiv (f g : formula)
  | FNeg (f : formula)
  | FIPow (f : formula) (z : Z)           (* pow(f, int) *)
  | FPow (f g : formula)                  (* pow(f, node) *)
  | FFun (k : fun_kind) (f : formula).

  (** The program: the C++ expression evaluated. *)
  Fixpoint build (G : graph) (f : formula) : option (graph * nat) :=
    let two (op : graph -> nat -> nat -> option (graph * nat)) (f g : formula) :=
      match build G f with
      | None => None
      | Some (G1, a) => match build G1 g with None => None | Some (G2, b) => op G2 a b end
      end in
    let one (op : graph -> nat -> option (graph * nat)) (f : formula) :=
      match build G f with None => None | Some (G1, a) => op G1 a end in
    match f with
    | FNode n => Some (G, n)
    | FNum k c => Some (alloc G (GNum k c))
    | FAdd f g => two plus f g
    | FSub f g => two minus f g
    | FMul f g => two times f g
    | FDiv f g => two over f g
    | FNeg f => one negated f
    | FIPow f z => one (fun G a => int_power G a z) f
    | FPow f g => two power f g
    | FFun k f => one (fun G a => applied G k a) f
    end.

  (** ** Specification: ordinary arithmetic, undefined where something is divided by zero or a function is undefined *)
  Fixpoint meaning (v : nat -> option F) (f : formula) : option F :=
    match f with
    | FNode n => v n
    | FNum _ c => Some c
    | FAdd f g => match meaning v f, meaning v g with Some x, Some y => Some (fadd x y) | _, _ => None end
    | FSub f g => match meaning v f, meaning v g with Some x, Some y => Some (fsub x y) | _, _ => None end
    | FMul f g => match meaning v f, meaning v g with Some x, Some y => Some (fmul x y) | _, _ => None end
    | FDiv f g => match meaning v f, meaning v g with
                  | Some x, Some y => if feq_dec y f0 then None else Some (fdiv x y) | _, _ => None end
    | FNeg f => match meaning v f with Some x => Some (fopp x) | None => None end
    | FIPow f z => match meaning v f with Some x => fpowZ x z | None => None end
    | FPow f g => match meaning v f, meaning v g with Some x, Some y => pw fs x y | _, _ => None end
    | FFun k f => match meaning v f with Some x => fn fs k x | None => None end
    end.

  (** the value of a node: that of the tree below it *)
  Definition value (G : graph) (dv : option nat) (rho : env F) (n : nat) : option F :=
    match unfold (S (length G)) G dv n with Some e => eval fs rho e | None => None end.

  (** the nodes the formula mentions *)
  Fixpoint mentions (f : formula) : list nat :=
    match f with
    | FNode n => [n]
    | FNum _ _ => []
    | FAdd f g | FSub f g | FMul f g | FDiv f g | FPow f g => mentions f ++ mentions g
    | FNeg f | FIPow f _ | FFun _ f => mentions f
    end.

  (** ** Proofs *)
  Definition extends (G G' : graph) : Prop := exists l, G' = G ++ l.

  Lemma extends_refl : forall G : graph, extends G G.
  Proof. intro G. exists []. rewrite app_nil_r. reflexivity. Qed.

  Lemma extends_trans : forall A B D : graph, extends A B -> extends B D -> extends A D.
  Proof. intros A B D [l ->] [m ->]. exists (l ++ m). rewrite app_assoc. reflexivity. Qed.

  Lemma extends_alloc : forall (G : graph) nd, extends G (fst (alloc G nd)).
  Proof. intros. exists [nd]. reflexivity. Qed.

  Lemma wf_alloc : forall (G : graph) nd, well_founded_graph G -> (forall c : nat, In c (children nd) -> c < length G) ->
    well_founded_graph (fst (alloc G nd)).
  Proof.
    intros G nd W Hc n nd' c Hn Hi. cbn [alloc fst] in Hn.
    destruct (Nat.lt_ge_cases n (length G)) as [L|L].
    - rewrite nth_error_app1 in Hn by exact L. exact (W n nd' c Hn Hi).
    - rewrite nth_error_app2 in Hn by exact L. destruct (n - length G) as [|k] eqn:E.
      + injection Hn as <-. specialize (Hc c Hi). lia.
      + destruct k; discriminate.
  Qed.

  Lemma unfold_extends : forall k (G l : graph) dv n, well_founded_graph G -> n < length G ->
    unfold k (G ++ l) dv n = unfold k G dv n.
  Proof.
    induction k as [|k IH]; intros G l dv n W L; [reflexivity|]. cbn [unfold].
    rewrite nth_error_app1 by exact L. destruct (nth_error G n) as [nd|] eqn:E; [|reflexivity].
    pose proof (fun c Hc => Nat.lt_trans _ _ _ (W n nd c E Hc) L) as Hc.
    assert (M : forall ops : list (bool * nat), (forall p, In p ops -> snd p < length G) ->
      map (fun p : bool * nat => match unfold k (G ++ l) dv (snd p) with Some e => Some (fst p, e) | None => None end) ops =
      map (fun p : bool * nat => match unfold k G dv (snd p) with Some e => Some (fst p, e) | None => None end) ops).
    { intros ops Ho. apply map_ext_in. intros p Hp. rewrite IH by (try exact W; apply Ho; exact Hp). reflexivity. }
    destruct nd as [kd c| |x|ops|ops|a|a z|b a|g a|a]; cbn [children] in Hc; try reflexivity;
      try (rewrite M; [reflexivity|]; intros p Hp; apply Hc; apply in_map; exact Hp);
      rewrite ?IH by (try exact W; apply Hc; cbn; auto); reflexivity.
  Qed.

  (** any sufficient fuel gives the same tree *)
  Lemma unfold_value : forall (G : graph) dv rho n e, unfolds G dv n e -> well_founded_graph G -> n < length G ->
    value G dv rho n = eval fs rho e.
  Proof.
    intros G dv rho n e U W L. destruct (unfold_exists G W dv n L) as [e' E'].
    unfold value. rewrite (unfold_mono _ _ _ _ _ E' (S (length G)) ltac:(lia)).
    rewrite (unfolds_fun G dv n e e' U (ex_intro _ _ E')). reflexivity.
  Qed.

  Lemma value_extends : forall (G G' : graph) dv rho n, extends G G' -> well_founded_graph G -> n < length G ->
    value G' dv rho n = value G dv rho n.
  Proof.
    intros G G' dv rho n [l ->] W L. unfold value. rewrite unfold_extends by assumption.
    destruct (unfold_exists G W dv n L) as [e E].
    rewrite (unfold_mono _ _ _ _ _ E (S (length (G ++ l)))) by (rewrite app_length; lia).
    rewrite (unfold_mono _ _ _ _ _ E (S (length G))) by lia. reflexivity.
  Qed.

  Lemma extends_length : forall G G' : graph, extends G G' -> length G <= length G'.
  Proof. intros G G' [l ->]. rewrite app_length. lia. Qed.

  Lemma extends_nth : forall (G G' : graph) n nd, extends G G' -> nth_error G n = Some nd -> nth_error G' n = Some nd.
  Proof.
    intros G G' n nd [l ->] H. rewrite nth_error_app1; [exact H|]. apply nth_error_Some. congruence.
  Qed.

  (** the new node's tree *)
  Lemma alloc_unfold : forall (G : graph) nd, nth_error (fst (alloc G nd)) (length G) = Some nd.
  Proof. intros. cbn. rewrite nth_error_app2 by lia. rewrite Nat.sub_diag. reflexivity. Qed.

  Lemma op_two : forall (G : graph) dv rho a b nd, well_founded_graph G -> a < length G -> b < length G ->
    (forall c : nat, In c (children nd) -> c = a \/ c = b) ->
    let G' := fst (alloc G nd) in
    forall (v : option F),
    (forall k ea eb, unfold k G' dv a = Some ea -> unfold k G' dv b = Some eb ->
       exists e, unfold (S k) G' dv (length G) = Some e /\ (eval fs rho ea = value G dv rho a -> eval fs rho eb = value G dv rho b ->
         eval fs rho e = v)) ->
    well_founded_graph G' /\ extends G G' /\ length G < length G' /\ value G' dv rho (length G) = v.
  Proof.
    intros G dv rho a b nd W La Lb Hc G' v H.
    assert (W' : well_founded_graph G').
    { apply wf_alloc; [exact W|]. intros c Hi. destruct (Hc c Hi) as [-> | ->]; assumption. }
    assert (L' : length G < length G') by (unfold G', alloc; cbn [fst]; rewrite app_length; cbn; lia).
    split; [exact W'|]. split; [apply extends_alloc|]. split; [exact L'|].
    destruct (unfold_exists G' W' dv a ltac:(lia)) as [ea Ea]. destruct (unfold_exists G' W' dv b ltac:(lia)) as [eb Eb].
    destruct (H (S (a + b)) ea eb) as [e [E Ev]].
    - apply (unfold_mono _ _ _ _ _ Ea). lia.
    - apply (unfold_mono _ _ _ _ _ Eb). lia.
    - rewrite (unfold_value G' dv rho (length G) e (ex_intro _ _ E) W' L'). apply Ev.
      + rewrite <- (unfold_value G' dv rho a ea (ex_intro _ _ Ea) W' ltac:(lia)).
        apply value_extends; [apply extends_alloc|exact W|exact La].
      + rewrite <- (unfold_value G' dv rho b eb (ex_intro _ _ Eb) W' ltac:(lia)).
        apply value_extends; [apply extends_alloc|exact W|exact Lb].
  Qed.

  (** Each operator makes a node with the value its name says, and leaves the others alone. *)
  Definition makes (G : graph) (r : option (graph * nat)) (dv : option nat) (rho : env F) (v : option F) : Prop :=
    exists G' n, r = Some (G', n) /\ well_founded_graph G' /\ extends G G' /\ n < length G' /\ value G' dv rho n = v.

  Definition opt2 (op : F -> F -> option F) (x y : option F) : option F :=
    match x, y with Some a, Some b => op a b | _, _ => None end.

  Ltac op_two_tac G dv rho a b nd W La Lb :=
    destruct (op_two G dv rho a b nd W La Lb ltac:(cbn; tauto)) as [? [? [? ?]]];
    [|eexists; eexists; split; [reflexivity|]; split; [eassumption|]; split; [eassumption|]; split; eassumption].

  Lemma plus_makes : forall (G : graph) dv rho a b, well_founded_graph G -> a < length G -> b < length G ->
    makes G (plus G a b) dv rho (opt2 (fun x y => Some (fadd x y)) (value G dv rho a) (value G dv rho b)).
  Proof.
    intros G dv rho a b W La Lb. unfold makes, plus.
    destruct (op_two G dv rho a b (GSum [(true, a); (true, b)]) W La Lb ltac:(cbn; intuition)
      (opt2 (fun x y => Some (fadd x y)) (value G dv rho a) (value G dv rho b))) as [H1 [H2 [H3 H4]]].
    - intros k ea eb Ea Eb. cbn [unfold]. rewrite alloc_unfold. cbn [map sequence fst snd]. rewrite Ea, Eb.
      eexists. split; [reflexivity|]. intros Va Vb. cbn [eval map fst snd sum_val]. rewrite Va, Vb.
      destruct (value G dv rho a) as [x|], (value G dv rho b) as [y|]; cbn; try reflexivity. f_equal. ring.
    - eexists. eexists. split; [reflexivity|]. auto.
  Qed.

  Lemma minus_makes : forall (G : graph) dv rho a b, well_founded_graph G -> a < length G -> b < length G ->
    makes G (minus G a b) dv rho (opt2 (fun x y => Some (fsub x y)) (value G dv rho a) (value G dv rho b)).
  Proof.
    intros G dv rho a b W La Lb. unfold makes, minus.
    destruct (op_two G dv rho a b (GSum [(true, a); (false, b)]) W La Lb ltac:(cbn; intuition)
      (opt2 (fun x y => Some (fsub x y)) (value G dv rho a) (value G dv rho b))) as [H1 [H2 [H3 H4]]].
    - intros k ea eb Ea Eb. cbn [unfold]. rewrite alloc_unfold. cbn [map sequence fst snd]. rewrite Ea, Eb.
      eexists. split; [reflexivity|]. intros Va Vb. cbn [eval map fst snd sum_val]. rewrite Va, Vb.
      destruct (value G dv rho a) as [x|], (value G dv rho b) as [y|]; cbn; try reflexivity. f_equal. ring.
    - eexists. eexists. split; [reflexivity|]. auto.
  Qed.

  Lemma mult_makes : forall (G : graph) dv rho a b, well_founded_graph G -> a < length G -> b < length G ->
    makes G (Some (alloc G (GMul [(true, a); (true, b)]))) dv rho
      (opt2 (fun x y => Some (fmul x y)) (value G dv rho a) (value G dv rho b)).
  Proof.
    intros G dv rho a b W La Lb. unfold makes.
    destruct (op_two G dv rho a b (GMul [(true, a); (true, b)]) W La Lb ltac:(cbn; intuition)
      (opt2 (fun x y => Some (fmul x y)) (value G dv rho a) (value G dv rho b))) as [H1 [H2 [H3 H4]]].
    - intros k ea eb Ea Eb. cbn [unfold]. rewrite alloc_unfold. cbn [map sequence fst snd]. rewrite Ea, Eb.
      eexists. split; [reflexivity|]. intros Va Vb. cbn [eval map fst snd mul_val]. rewrite Va, Vb.
      destruct (value G dv rho a) as [x|], (value G dv rho b) as [y|]; cbn; try reflexivity. f_equal. ring.
    - eexists. eexists. split; [reflexivity|]. auto.
  Qed.

  Lemma over_makes : forall (G : graph) dv rho a b, well_founded_graph G -> a < length G -> b < length G ->
    makes G (over G a b) dv rho
      (opt2 (fun x y => if feq_dec y f0 then None else Some (fdiv x y)) (value G dv rho a) (value G dv rho b)).
  Proof.
    intros G dv rho a b W La Lb. unfold makes, over.
    destruct (op_two G dv rho a b (GMul [(true, a); (false, b)]) W La Lb ltac:(cbn; intuition)
      (opt2 (fun x y => if feq_dec y f0 then None else Some (fdiv x y)) (value G dv rho a) (value G dv rho b))) as [H1 [H2 [H3 H4]]].
    - intros k ea eb Ea Eb. cbn [unfold]. rewrite alloc_unfold. cbn [map sequence fst snd]. rewrite Ea, Eb.
      eexists. split; [reflexivity|]. intros Va Vb. cbn [eval map fst snd mul_val]. rewrite Va, Vb.
      destruct (value G dv rho a) as [x|], (value G dv rho b) as [y|]; cbn; try reflexivity.
      destruct (feq_dec y f0) as [E|E]; [reflexivity|]. f_equal. field. exact E.
    - eexists. eexists. split; [reflexivity|]. auto.
  Qed.

  Lemma power_makes : forall (G : graph) dv rho a b, well_founded_graph G -> a < length G -> b < length G ->
    makes G (power G a b) dv rho (opt2 (pw fs) (value G dv rho a) (value G dv rho b)).
  Proof.
    intros G dv rho a b W La Lb. unfold makes, power.
    destruct (op_two G dv rho a b (GPow a b) W La Lb ltac:(cbn; intuition)
      (opt2 (pw fs) (value G dv rho a) (value G dv rho b))) as [H1 [H2 [H3 H4]]].
    - intros k ea eb Ea Eb. cbn [unfold]. rewrite alloc_unfold. rewrite Ea, Eb.
      eexists. split; [reflexivity|]. intros Va Vb. cbn [eval]. rewrite Va, Vb. reflexivity.
    - eexists. eexists. split; [reflexivity|]. auto.
  Qed.

  Lemma unary_makes : forall (G : graph) dv rho a nd (op : F -> option F), well_founded_graph G -> a < length G ->
    children nd = [a] ->
    (forall k (G' : graph) dv e, nth_error G' (length G) = Some nd -> unfold k G' dv a = Some e ->
       exists e', unfold (S k) G' dv (length G) = Some e' /\ eval fs rho e' = match eval fs rho e with Some x => op x | None => None end) ->
    makes G (Some (alloc G nd)) dv rho (match value G dv rho a with Some x => op x | None => None end).
  Proof.
    intros G dv rho a nd op W La Hc H. unfold makes.
    destruct (op_two G dv rho a a nd W La La ltac:(rewrite Hc; cbn; intuition)
      (match value G dv rho a with Some x => op x | None => None end)) as [H1 [H2 [H3 H4]]].
    - intros k ea eb Ea _. destruct (H k _ dv ea (alloc_unfold G nd) Ea) as [e' [E' V']]. exists e'. split; [exact E'|].
      intros Va _. rewrite V', Va. reflexivity.
    - eexists. eexists. split; [reflexivity|]. auto.
  Qed.

  Lemma neg_makes : forall (G : graph) dv rho a, well_founded_graph G -> a < length G ->
    makes G (negated G a) dv rho (match value G dv rho a with Some x => Some (fopp x) | None => None end).
  Proof.
    intros G dv rho a W La. apply (unary_makes G dv rho a (GNeg a) (fun x => Some (fopp x)) W La eq_refl).
    intros k G' dv' e Hn E. cbn [unfold]. rewrite Hn, E. eexists. split; reflexivity.
  Qed.

  Lemma ipow_makes : forall (G : graph) dv rho a z, well_founded_graph G -> a < length G ->
    makes G (int_power G a z) dv rho (match value G dv rho a with Some x => fpowZ x z | None => None end).
  Proof.
    intros G dv rho a z W La. apply (unary_makes G dv rho a (GIPow a z) (fun x => fpowZ x z) W La eq_refl).
    intros k G' dv' e Hn E. cbn [unfold]. rewrite Hn, E. eexists. split; reflexivity.
  Qed.

  Lemma fun_makes : forall (G : graph) dv rho k a, well_founded_graph G -> a < length G ->
    makes G (applied G k a) dv rho (match value G dv rho a with Some x => fn fs k x | None => None end).
  Proof.
    intros G dv rho kf a W La. apply (unary_makes G dv rho a (GFun kf a) (fn fs kf) W La eq_refl).
    intros k G' dv' e Hn E. cbn [unfold]. rewrite Hn, E. eexists. split; reflexivity.
  Qed.

  Lemma fpowZ_add : forall (x : F) m n, (0 <= m)%Z -> (0 <= n)%Z ->
    opt2 (fun a b => Some (fmul a b)) (fpowZ x m) (fpowZ x n) = fpowZ x (m + n).
  Proof.
    intros x m n Hm Hn.
    assert (P : forall a b, fpow x (a + b) = fmul (fpow x a) (fpow x b)).
    { induction a as [|a IH]; intro b; cbn [Nat.add fpow]; [ring|]. rewrite IH. ring. }
    destruct m as [|m|m]; [|destruct n as [|n|n]|lia]; cbn [fpowZ opt2 Z.add].
    - destruct n as [|n|n]; [|..]; cbn; try lia; f_equal; ring.
    - f_equal. ring.
    - f_equal. rewrite Pos2Nat.inj_add, P. reflexivity.
    - lia.
  Qed.

  (** the value of a power node *)
  Lemma value_ipow : forall (G : graph) dv rho n a z, well_founded_graph G -> nth_error G n = Some (GIPow a z) ->
    value G dv rho n = match value G dv rho a with Some x => fpowZ x z | None => None end.
  Proof.
    intros G dv rho n a z W Hn.
    assert (L : n < length G) by (apply nth_error_Some; congruence).
    assert (La : a < length G) by (specialize (W n _ a Hn (or_introl eq_refl)); lia).
    destruct (unfold_exists G W dv a La) as [e E].
    assert (U : unfold (S (S a)) G dv n = Some (IPow e z)).
    { remember (S a) as k eqn:Hk. cbn [unfold]. rewrite Hn, E. reflexivity. }
    rewrite (unfold_value G dv rho n _ (ex_intro _ _ U) W L).
    rewrite (unfold_value G dv rho a _ (ex_intro _ _ E) W La). reflexivity.
  Qed.

  Lemma times_makes : forall (G : graph) dv rho a b, well_founded_graph G -> a < length G -> b < length G ->
    times G a b = None \/
    makes G (times G a b) dv rho (opt2 (fun x y => Some (fmul x y)) (value G dv rho a) (value G dv rho b)).
  Proof.
    intros G dv rho a b W La Lb. unfold times. destruct (combinable G a b) as [[x e]|] eqn:Ec.
    - destruct (is_int e); [|left; reflexivity]. right. unfold combinable in Ec.
      destruct (nth_error G a) as [[| | | | | |xa m| | |]|] eqn:Ea; try discriminate.
      destruct (nth_error G b) as [[| | | | | |xb n| | |]|] eqn:Eb; try discriminate.
      destruct ((xa =? xb)%nat && (0 <=? m)%Z && (0 <=? n)%Z) eqn:Ei; [|discriminate]. injection Ec as <- <-.
      apply andb_prop in Ei as [Ei E3]. apply andb_prop in Ei as [E1 E2]. apply Nat.eqb_eq in E1. subst xb.
      apply Z.leb_le in E2. apply Z.leb_le in E3.
      rewrite (value_ipow G dv rho a xa m W Ea), (value_ipow G dv rho b xa n W Eb).
      assert (Lx : xa < length G) by (specialize (W a _ xa Ea (or_introl eq_refl)); lia).
      destruct (ipow_makes G dv rho xa (m + n)%Z W Lx) as [G' [i [R [R1 [R2 [R3 R4]]]]]].
      exists G', i. split; [exact R|]. split; [exact R1|]. split; [exact R2|]. split; [exact R3|]. rewrite R4.
      destruct (value G dv rho xa) as [y|]; [|reflexivity]. symmetry. apply fpowZ_add; assumption.
    - right. apply mult_makes; assumption.
  Qed.

  Lemma num_makes : forall (G : graph) dv rho k c, well_founded_graph G -> makes G (Some (alloc G (GNum k c))) dv rho (Some c).
  Proof.
    intros G dv rho k c W. exists (G ++ [GNum k c]), (length G). split; [reflexivity|].
    assert (W' : well_founded_graph (G ++ [GNum k c])) by (apply (wf_alloc G (GNum k c) W); intros x []).
    assert (L' : length G < length (G ++ [GNum k c])) by (rewrite app_length; cbn; lia).
    split; [exact W'|]. split; [exists [GNum k c]; reflexivity|]. split; [exact L'|].
    assert (U : unfold 1 (G ++ [GNum k c]) dv (length G) = Some (Num k c)).
    { cbn [unfold]. pose proof (alloc_unfold G (GNum k c)) as H. cbn [alloc fst] in H. rewrite H. reflexivity. }
    rewrite (unfold_value _ dv rho _ _ (ex_intro _ _ U) W' L'). reflexivity.
  Qed.

  Lemma meaning_ext : forall f v w, (forall n, In n (mentions f) -> v n = w n) -> meaning v f = meaning w f.
  Proof.
    induction f; intros v w H; cbn [meaning mentions] in *;
      try (apply H; left; reflexivity); try reflexivity;
      try (rewrite (IHf1 v w), (IHf2 v w) by (intros; apply H; apply in_or_app; auto); reflexivity);
      (rewrite (IHf v w) by (intros; apply H; auto); reflexivity).
  Qed.

  (** The main statement, for all formulas. *)
  Lemma build_makes : forall dv rho f (G : graph), well_founded_graph G -> (forall n, In n (mentions f) -> n < length G) ->
    build G f = None \/ makes G (build G f) dv rho (meaning (value G dv rho) f).
  Proof.
    intros dv rho. induction f as [n|k c|f1 IH1 f2 IH2|f1 IH1 f2 IH2|f1 IH1 f2 IH2|f1 IH1 f2 IH2|f IH|f IH z|f1 IH1 f2 IH2|k f IH];
      intros G W Hm; cbn [build meaning mentions] in *.
    - right. exists G, n. split; [reflexivity|]. split; [exact W|]. split; [apply extends_refl|].
      split; [apply Hm; left; reflexivity|reflexivity].
    - right. apply num_makes. exact W.
    - (* two operands *)
      destruct (IH1 G W (fun n Hn => Hm n (in_or_app _ _ _ (or_introl Hn)))) as [->|[G1 [a [-> [W1 [X1 [L1 V1]]]]]]]; [left; reflexivity|].
      pose proof (extends_length _ _ X1) as Len1.
      destruct (IH2 G1 W1) as [->|[G2 [b [-> [W2 [X2 [L2 V2]]]]]]];
        [intros n Hn; specialize (Hm n (in_or_app _ _ _ (or_intror Hn))); lia|left; reflexivity|].
      pose proof (extends_length _ _ X2) as Len2. right.
      destruct (plus_makes G2 dv rho a b W2 ltac:(lia) L2) as [G3 [i [R [R1 [R2 [R3 R4]]]]]].
      exists G3, i. split; [exact R|]. split; [exact R1|]. split; [exact (extends_trans _ _ _ X1 (extends_trans _ _ _ X2 R2))|].
      split; [exact R3|]. rewrite R4, V2, (value_extends G1 G2 dv rho a X2 W1 L1), V1.
      rewrite (meaning_ext f2 (value G1 dv rho) (value G dv rho))
        by (intros n Hn; apply value_extends; [exact X1|exact W|apply Hm; apply in_or_app; auto]).
      reflexivity.
    - destruct (IH1 G W (fun n Hn => Hm n (in_or_app _ _ _ (or_introl Hn)))) as [->|[G1 [a [-> [W1 [X1 [L1 V1]]]]]]]; [left; reflexivity|].
      pose proof (extends_length _ _ X1) as Len1.
      destruct (IH2 G1 W1) as [->|[G2 [b [-> [W2 [X2 [L2 V2]]]]]]];
        [intros n Hn; specialize (Hm n (in_or_app _ _ _ (or_intror Hn))); lia|left; reflexivity|].
      pose proof (extends_length _ _ X2) as Len2. right.
      destruct (minus_makes G2 dv rho a b W2 ltac:(lia) L2) as [G3 [i [R [R1 [R2 [R3 R4]]]]]].
      exists G3, i. split; [exact R|]. split; [exact R1|]. split; [exact (extends_trans _ _ _ X1 (extends_trans _ _ _ X2 R2))|].
      split; [exact R3|]. rewrite R4, V2, (value_extends G1 G2 dv rho a X2 W1 L1), V1.
      rewrite (meaning_ext f2 (value G1 dv rho) (value G dv rho))
        by (intros n Hn; apply value_extends; [exact X1|exact W|apply Hm; apply in_or_app; auto]).
      reflexivity.
    - destruct (IH1 G W (fun n Hn => Hm n (in_or_app _ _ _ (or_introl Hn)))) as [->|[G1 [a [-> [W1 [X1 [L1 V1]]]]]]]; [left; reflexivity|].
      pose proof (extends_length _ _ X1) as Len1.
      destruct (IH2 G1 W1) as [->|[G2 [b [-> [W2 [X2 [L2 V2]]]]]]];
        [intros n Hn; specialize (Hm n (in_or_app _ _ _ (or_intror Hn))); lia|left; reflexivity|].
      pose proof (extends_length _ _ X2) as Len2.
      destruct (times_makes G2 dv rho a b W2 ltac:(lia) L2) as [R|[G3 [i [R [R1 [R2 [R3 R4]]]]]]]; [left; exact R|]. right.
      exists G3, i. split; [exact R|]. split; [exact R1|]. split; [exact (extends_trans _ _ _ X1 (extends_trans _ _ _ X2 R2))|].
      split; [exact R3|]. rewrite R4, V2, (value_extends G1 G2 dv rho a X2 W1 L1), V1.
      rewrite (meaning_ext f2 (value G1 dv rho) (value G dv rho))
        by (intros n Hn; apply value_extends; [exact X1|exact W|apply Hm; apply in_or_app; auto]).
      reflexivity.
    - destruct (IH1 G W (fun n Hn => Hm n (in_or_app _ _ _ (or_introl Hn)))) as [->|[G1 [a [-> [W1 [X1 [L1 V1]]]]]]]; [left; reflexivity|].
      pose proof (extends_length _ _ X1) as Len1.
      destruct (IH2 G1 W1) as [->|[G2 [b [-> [W2 [X2 [L2 V2]]]]]]];
        [intros n Hn; specialize (Hm n (in_or_app _ _ _ (or_intror Hn))); lia|left; reflexivity|].
      pose proof (extends_length _ _ X2) as Len2. right.
      destruct (over_makes G2 dv rho a b W2 ltac:(lia) L2) as [G3 [i [R [R1 [R2 [R3 R4]]]]]].
      exists G3, i. split; [exact R|]. split; [exact R1|]. split; [exact (extends_trans _ _ _ X1 (extends_trans _ _ _ X2 R2))|].
      split; [exact R3|]. rewrite R4, V2, (value_extends G1 G2 dv rho a X2 W1 L1), V1.
      rewrite (meaning_ext f2 (value G1 dv rho) (value G dv rho))
        by (intros n Hn; apply value_extends; [exact X1|exact W|apply Hm; apply in_or_app; auto]).
      reflexivity.
    - destruct (IH G W Hm) as [->|[G1 [a [-> [W1 [X1 [L1 V1]]]]]]]; [left; reflexivity|]. right.
      destruct (neg_makes G1 dv rho a W1 L1) as [G3 [i [R [R1 [R2 [R3 R4]]]]]]. exists G3, i. split; [exact R|].
      split; [exact R1|]. split; [exact (extends_trans _ _ _ X1 R2)|]. split; [exact R3|]. rewrite R4, V1. reflexivity.
    - destruct (IH G W Hm) as [->|[G1 [a [-> [W1 [X1 [L1 V1]]]]]]]; [left; reflexivity|]. right.
      destruct (ipow_makes G1 dv rho a z W1 L1) as [G3 [i [R [R1 [R2 [R3 R4]]]]]]. exists G3, i. split; [exact R|].
      split; [exact R1|]. split; [exact (extends_trans _ _ _ X1 R2)|]. split; [exact R3|]. rewrite R4, V1. reflexivity.
    - destruct (IH1 G W (fun n Hn => Hm n (in_or_app _ _ _ (or_introl Hn)))) as [->|[G1 [a [-> [W1 [X1 [L1 V1]]]]]]]; [left; reflexivity|].
      pose proof (extends_length _ _ X1) as Len1.
      destruct (IH2 G1 W1) as [->|[G2 [b [-> [W2 [X2 [L2 V2]]]]]]];
        [intros n Hn; specialize (Hm n (in_or_app _ _ _ (or_intror Hn))); lia|left; reflexivity|].
      pose proof (extends_length _ _ X2) as Len2. right.
      destruct (power_makes G2 dv rho a b W2 ltac:(lia) L2) as [G3 [i [R [R1 [R2 [R3 R4]]]]]].
      exists G3, i. split; [exact R|]. split; [exact R1|]. split; [exact (extends_trans _ _ _ X1 (extends_trans _ _ _ X2 R2))|].
      split; [exact R3|]. rewrite R4, V2, (value_extends G1 G2 dv rho a X2 W1 L1), V1.
      rewrite (meaning_ext f2 (value G1 dv rho) (value G dv rho))
        by (intros n Hn; apply value_extends; [exact X1|exact W|apply Hm; apply in_or_app; auto]).
      reflexivity.
    - destruct (IH G W Hm) as [->|[G1 [a [-> [W1 [X1 [L1 V1]]]]]]]; [left; reflexivity|]. right.
      destruct (fun_makes G1 dv rho k a W1 L1) as [G3 [i [R [R1 [R2 [R3 R4]]]]]]. exists G3, i. split; [exact R|].
      split; [exact R1|]. split; [exact (extends_trans _ _ _ X1 R2)|]. split; [exact R3|]. rewrite R4, V1. reflexivity.
  Qed.

  (** ** When the behaviour is defined *)
  (** a bound for the exponent of the node a formula makes *)
  Fixpoint weight (G : graph) (f : formula) : Z :=
    match f with
    | FNode n => match nth_error G n with Some (GIPow _ z) => Z.abs z | _ => 0%Z end
    | FIPow _ z => Z.abs z
    | FMul f g => (weight G f + weight G g)%Z
    | _ => 0%Z
    end.
  Fixpoint moderate (G : graph) (f : formula) : Prop :=
    match f with
    | FNode _ | FNum _ _ => True
    | FMul f g => (weight G f + weight G g < 2 ^ 31)%Z /\ moderate G f /\ moderate G g
    | FAdd f g | FSub f g | FDiv f g | FPow f g => moderate G f /\ moderate G g
    | FNeg f | FIPow f _ | FFun _ f => moderate G f
    end.

  Lemma weight_nonneg : forall G f, (0 <= weight G f)%Z.
  Proof. intros G f. induction f; cbn [weight]; try lia. destruct (nth_error G n) as [[]|]; lia. Qed.

  Definition bounded (G : graph) (n : nat) (w : Z) : Prop := forall a z, nth_error G n = Some (GIPow a z) -> (z <= w)%Z.

  Lemma alloc_defined : forall (G0 G : graph) nd, extends G0 G -> (forall a z, nd <> GIPow a z) ->
    exists G' n, Some (alloc G nd) = Some (G', n) /\ extends G0 G' /\ n < length G' /\ forall w, bounded G' n w.
  Proof.
    intros G0 G nd X Hnd. exists (G ++ [nd]), (length G). split; [reflexivity|].
    split; [exact (extends_trans _ _ _ X (extends_alloc G nd))|]. split; [rewrite app_length; cbn; lia|].
    intros w a z H. pose proof (alloc_unfold G nd) as A. cbn [alloc fst] in A. rewrite A in H. injection H as H. exfalso. exact (Hnd a z H).
  Qed.

  Lemma build_defined_gen : forall f (G0 G : graph), extends G0 G -> moderate G0 f -> (forall n, In n (mentions f) -> n < length G0) ->
    exists G' n, build G f = Some (G', n) /\ extends G G' /\ n < length G' /\ bounded G' n (weight G0 f).
  Proof.
    induction f as [n|k c|f1 IH1 f2 IH2|f1 IH1 f2 IH2|f1 IH1 f2 IH2|f1 IH1 f2 IH2|f IH|f IH z|f1 IH1 f2 IH2|k f IH];
      intros G0 G X Hm Hn; cbn [build moderate weight mentions] in *.
    - exists G, n. split; [reflexivity|]. split; [apply extends_refl|]. specialize (Hn n (or_introl eq_refl)).
      split; [pose proof (extends_length _ _ X); lia|]. intros a z Hz. destruct X as [l ->]. rewrite nth_error_app1 in Hz by exact Hn.
      rewrite Hz. lia.
    - destruct (alloc_defined G G (GNum k c) (extends_refl G) ltac:(discriminate)) as [G' [n [E [X' [L B]]]]].
      exists G', n. auto.
    - destruct Hm as [M1 M2]. destruct (IH1 G0 G X M1 ltac:(intros; apply Hn; apply in_or_app; auto)) as [G1 [a [-> [X1 [L1 B1]]]]].
      destruct (IH2 G0 G1 (extends_trans _ _ _ X X1) M2 ltac:(intros; apply Hn; apply in_or_app; auto)) as [G2 [b [-> [X2 [L2 B2]]]]].
      destruct (alloc_defined G G2 (GSum [(true, a); (true, b)]) (extends_trans _ _ _ X1 X2) ltac:(discriminate)) as [G' [n [E [X' [L B]]]]].
      exists G', n. auto.
    - destruct Hm as [M1 M2]. destruct (IH1 G0 G X M1 ltac:(intros; apply Hn; apply in_or_app; auto)) as [G1 [a [-> [X1 [L1 B1]]]]].
      destruct (IH2 G0 G1 (extends_trans _ _ _ X X1) M2 ltac:(intros; apply Hn; apply in_or_app; auto)) as [G2 [b [-> [X2 [L2 B2]]]]].
      destruct (alloc_defined G G2 (GSum [(true, a); (false, b)]) (extends_trans _ _ _ X1 X2) ltac:(discriminate)) as [G' [n [E [X' [L B]]]]].
      exists G', n. auto.
    - destruct Hm as [M0 [M1 M2]]. destruct (IH1 G0 G X M1 ltac:(intros; apply Hn; apply in_or_app; auto)) as [G1 [a [-> [X1 [L1 B1]]]]].
      destruct (IH2 G0 G1 (extends_trans _ _ _ X X1) M2 ltac:(intros; apply Hn; apply in_or_app; auto)) as [G2 [b [-> [X2 [L2 B2]]]]].
      unfold times. destruct (combinable G2 a b) as [[x e]|] eqn:Ec.
      + unfold combinable in Ec. destruct (nth_error G2 a) as [[| | | | | |xa m| | |]|] eqn:Ea; try discriminate.
        destruct (nth_error G2 b) as [[| | | | | |xb n| | |]|] eqn:Eb; try discriminate.
        destruct ((xa =? xb)%nat && (0 <=? m)%Z && (0 <=? n)%Z) eqn:Ei; [|discriminate]. injection Ec as <- <-.
        apply andb_prop in Ei as [Ei E3]. apply andb_prop in Ei as [E1 E2]. apply Z.leb_le in E2. apply Z.leb_le in E3.
        destruct X2 as [l2 ->]. assert (Ea1 : nth_error G1 a = Some (GIPow xa m)) by (rewrite nth_error_app1 in Ea by exact L1; exact Ea).
        specialize (B1 _ _ Ea1). specialize (B2 _ _ Eb).
        assert (Ii : is_int (m + n) = true).
        { unfold is_int. apply andb_true_intro. split; [apply Z.leb_le; lia|apply Z.ltb_lt; lia]. }
        rewrite Ii. eexists. eexists. split; [reflexivity|]. split.
        { exact (extends_trans _ _ _ X1 (extends_trans _ _ _ (ex_intro _ _ eq_refl) (extends_alloc _ _))). }
        split; [rewrite (app_length (G1 ++ l2)); cbn; lia|]. intros y w Hy.
        pose proof (alloc_unfold (G1 ++ l2) (GIPow xa (m + n))) as A. cbn [alloc fst] in A. rewrite A in Hy. injection Hy as _ <-. lia.
      + destruct (alloc_defined G G2 (GMul [(true, a); (true, b)]) (extends_trans _ _ _ X1 X2) ltac:(discriminate)) as [G' [n [E [X' [L B]]]]].
        exists G', n. auto.
    - destruct Hm as [M1 M2]. destruct (IH1 G0 G X M1 ltac:(intros; apply Hn; apply in_or_app; auto)) as [G1 [a [-> [X1 [L1 B1]]]]].
      destruct (IH2 G0 G1 (extends_trans _ _ _ X X1) M2 ltac:(intros; apply Hn; apply in_or_app; auto)) as [G2 [b [-> [X2 [L2 B2]]]]].
      destruct (alloc_defined G G2 (GMul [(true, a); (false, b)]) (extends_trans _ _ _ X1 X2) ltac:(discriminate)) as [G' [n [E [X' [L B]]]]].
      exists G', n. auto.
    - destruct (IH G0 G X Hm Hn) as [G1 [a [-> [X1 [L1 B1]]]]].
      destruct (alloc_defined G G1 (GNeg a) X1 ltac:(discriminate)) as [G' [n [E [X' [L B]]]]]. exists G', n. auto.
    - destruct (IH G0 G X Hm Hn) as [G1 [a [-> [X1 [L1 B1]]]]]. eexists. eexists. split; [reflexivity|].
      split; [exact (extends_trans _ _ _ X1 (extends_alloc _ _))|]. split; [rewrite app_length; cbn; lia|].
      intros y w Hy. pose proof (alloc_unfold G1 (GIPow a z)) as A. cbn [alloc fst] in A. rewrite A in Hy. injection Hy as _ <-. lia.
    - destruct Hm as [M1 M2]. destruct (IH1 G0 G X M1 ltac:(intros; apply Hn; apply in_or_app; auto)) as [G1 [a [-> [X1 [L1 B1]]]]].
      destruct (IH2 G0 G1 (extends_trans _ _ _ X X1) M2 ltac:(intros; apply Hn; apply in_or_app; auto)) as [G2 [b [-> [X2 [L2 B2]]]]].
      destruct (alloc_defined G G2 (GPow a b) (extends_trans _ _ _ X1 X2) ltac:(discriminate)) as [G' [n [E [X' [L B]]]]].
      exists G', n. auto.
    - destruct (IH G0 G X Hm Hn) as [G1 [a [-> [X1 [L1 B1]]]]].
      destruct (alloc_defined G G1 (GFun k a) X1 ltac:(discriminate)) as [G' [n [E [X' [L B]]]]]. exists G', n. auto.
  Qed.

  Lemma build_defined : forall G f, moderate G f -> (forall n, In n (mentions f) -> n < length G) -> build G f <> None.
  Proof.
    intros G f Hm Hn. destruct (build_defined_gen f G G (extends_refl G) Hm Hn) as [G' [n [E _]]]. congruence.
  Qed.

  Lemma build_meaning : forall (G : graph) f G' n dv rho, well_founded_graph G -> (forall m, In m (mentions f) -> m < length G) ->
    build G f = Some (G', n) ->
    well_founded_graph G' /\ (forall m, m < length G -> nth_error G' m = nth_error G m) /\ n < length G' /\
    value G' dv rho n = meaning (value G dv rho) f.
  Proof.
    intros G f G' n dv rho W Hm E. destruct (build_makes dv rho f G W Hm) as [E'|[G1 [n1 [E' [W1 [[l X] [L V]]]]]]]; [congruence|].
    rewrite E in E'. injection E' as <- <-. split; [exact W1|]. split; [|split; assumption].
    intros m Lm. rewrite X, nth_error_app1 by exact Lm. reflexivity.
  Qed.
  Lemma build_keeps : forall (G : graph) f G' n dv rho m, well_founded_graph G -> (forall m, In m (mentions f) -> m < length G) ->
    build G f = Some (G', n) -> m < length G -> value G' dv rho m = value G dv rho m.
  Proof.
    intros G f G' n dv rho m W Hm E L. destruct (build_makes dv rho f G W Hm) as [E'|[G1 [n1 [E' [W1 [X _]]]]]]; [congruence|].
    rewrite E in E'. injection E' as <- <-. apply value_extends; assumption.
  Qed.

  (** ** Adding a factor to an existing product *)
  (** the node n stands for the value v (None: for no number, e.g. where it divides by zero) *)
  Definition denotes (G : graph) (dv : option nat) (rho : env F) (n : nat) (v : option F) : Prop :=
    exists e, unfolds G dv n e /\ eval fs rho e = v.

  Lemma value_denotes : forall (G : graph) dv rho n, well_founded_graph G -> n < length G ->
    denotes G dv rho n (value G dv rho n).
  Proof.
    intros G dv rho n W L. destruct (unfold_exists G W dv n L) as [e E]. exists e.
    split; [exists (S n); exact E|]. symmetry. apply unfold_value; [exists (S n); exact E|exact W|exact L].
  Qed.

  Lemma denotes_fun : forall (G : graph) dv rho n v w, denotes G dv rho n v -> denotes G dv rho n w -> v = w.
  Proof. intros G dv rho n v w [e [U <-]] [e' [U' <-]]. rewrite (unfolds_fun G dv n e e' U U'). reflexivity. Qed.

  Lemma set_nth_same : forall (G : graph) p nd, p < length G -> nth_error (set_nth G p nd) p = Some nd.
  Proof. induction G as [|x G IH]; intros [|p] nd L; cbn in *; try lia; [reflexivity|]. apply IH. lia. Qed.

  Lemma set_nth_other : forall (G : graph) p nd n, n <> p -> nth_error (set_nth G p nd) n = nth_error G n.
  Proof.
    induction G as [|x G IH]; intros [|p] nd [|n] H; cbn; try reflexivity; try congruence. apply IH. congruence.
  Qed.

  Lemma set_nth_length : forall (G : graph) p nd, length (set_nth G p nd) = length G.
  Proof. induction G as [|x G IH]; intros [|p] nd; cbn; try reflexivity. rewrite IH. reflexivity. Qed.

  Lemma reach_child : forall (G : graph) n nd c p, nth_error G n = Some nd -> In c (children nd) -> reach G c p -> reach G n p.
  Proof.
    intros G n nd c p En Hc R. induction R as [|m nd' c' R IH Em Hc'].
    - eapply reach_step; [apply reach_refl|exact En|exact Hc].
    - eapply reach_step; [exact IH|exact Em|exact Hc'].
  Qed.

  Lemma unfold_set_other : forall k (G : graph) p nd dv n, ~ reach G n p -> unfold k (set_nth G p nd) dv n = unfold k G dv n.
  Proof.
    induction k as [|k IH]; intros G p nd dv n NR; [reflexivity|]. cbn [unfold].
    assert (Np : n <> p) by (intros ->; apply NR; apply reach_refl).
    rewrite (set_nth_other G p nd n Np). destruct (nth_error G n) as [nd'|] eqn:E; [|reflexivity].
    assert (Hc : forall c : nat, In c (children nd') -> ~ reach G c p).
    { intros c Hi R. apply NR. exact (reach_child G n nd' c p E Hi R). }
    assert (M : forall ops : list (bool * nat), (forall q, In q ops -> ~ reach G (snd q) p) ->
      map (fun q : bool * nat => match unfold k (set_nth G p nd) dv (snd q) with Some e => Some (fst q, e) | None => None end) ops =
      map (fun q : bool * nat => match unfold k G dv (snd q) with Some e => Some (fst q, e) | None => None end) ops).
    { intros ops Ho. apply map_ext_in. intros q Hq. rewrite IH by (apply Ho; exact Hq). reflexivity. }
    destruct nd' as [kd c| |x|ops|ops|a|a z|b a|g a|a]; cbn [children] in Hc; try reflexivity;
      try (rewrite M; [reflexivity|]; intros q Hq; apply Hc; apply in_map; exact Hq);
      rewrite ?IH by (apply Hc; cbn; auto); reflexivity.
  Qed.

  Lemma sequence_snoc : forall (A : Type) (l : list (option A)) x, sequence (l ++ [x]) =
    match sequence l, x with Some r, Some y => Some (r ++ [y]) | _, _ => None end.
  Proof.
    intros A l x. induction l as [|y l IH]; cbn [sequence app].
    - destruct x; reflexivity.
    - rewrite IH. destruct y as [y|]; [|reflexivity]. destruct (sequence l) as [r|]; [|reflexivity]. destruct x; reflexivity.
  Qed.

  Lemma mul_val_snoc : forall l s v, mul_val (l ++ [(s, v)]) =
    opt2 (fun x y : F => if s then Some (fmul x y) else if feq_dec y f0 then None else Some (fdiv x y)) (mul_val l) v.
  Proof.
    intros l s v. induction l as [|[m w] l IH]; cbn [mul_val app].
    - destruct v as [y|]; cbn [opt2]; [|reflexivity]. destruct s; [f_equal; ring|].
      destruct (feq_dec y f0) as [E|E]; [reflexivity|]. reflexivity.
    - rewrite IH. destruct w as [x|]; cbn [opt2].
      + destruct (mul_val l) as [z|]; cbn [opt2]; [|reflexivity]. destruct v as [y|].
        * destruct s, m; try destruct (feq_dec x f0) as [E|E]; try destruct (feq_dec y f0) as [E2|E2]; cbn [opt2];
            repeat (match goal with |- context [feq_dec ?w f0] => destruct (feq_dec w f0); try contradiction end); try reflexivity; try (match goal with |- Some ?u = Some ?w => cut (u = w); [intros ->; reflexivity|field; auto] end).
        * destruct m; [reflexivity|]. destruct (feq_dec x f0); reflexivity.
      + reflexivity.
  Qed.

  Lemma add_factor_spec : forall (G : graph) p s b G' dv rho vp vb,
    well_founded_graph G -> add_factor G p s b = Some G' -> ~ reach G b p ->
    denotes G dv rho p vp -> denotes G dv rho b vb ->
    denotes G' dv rho p (opt2 (fun x y : F => if s then Some (fmul x y) else if feq_dec y f0 then None else Some (fdiv x y)) vp vb) /\
    (forall n v, ~ reach G n p -> denotes G dv rho n v -> denotes G' dv rho n v).
  Proof.
    intros G p s b G' dv rho vp vb W A NR Dp Db. unfold add_factor in A.
    destruct (nth_error G p) as [[| | | |ops| | | | |]|] eqn:Ep; try discriminate. injection A as <-.
    assert (Lp : p < length G) by (apply nth_error_Some; congruence).
    assert (Fr : forall n e, ~ reach G n p -> unfolds G dv n e ->
      unfolds (set_nth G p (GMul (ops ++ [(s, b)]))) dv n e).
    { intros n e Hn [k Hk]. exists k. rewrite unfold_set_other by exact Hn. exact Hk. }
    split.
    - destruct Dp as [ep [[kp Up] <-]]. destruct Db as [eb [[kb Ub] <-]].
      destruct kp as [|kp]; [discriminate|]. cbn [unfold] in Up. rewrite Ep in Up.
      destruct (sequence (map _ ops)) as [l|] eqn:El; [|discriminate]. injection Up as <-.
      exists (Mul (l ++ [(s, eb)])). split.
      + exists (S (kp + kb)). cbn [unfold]. rewrite set_nth_same by exact Lp. rewrite map_app. cbn [map fst snd].
        rewrite sequence_snoc.
        rewrite (unfold_set_other _ G p _ dv b NR). rewrite (unfold_mono _ _ _ _ _ Ub (kp + kb) ltac:(lia)).
        erewrite sequence_map_mono; [| |exact El].
        * reflexivity.
        * intros q e Hq Hu. cbn beta in Hu |- *. destruct (unfold kp G dv (snd q)) as [eq|] eqn:Eu; [|discriminate].
          rewrite unfold_set_other.
          -- rewrite (unfold_mono _ _ _ _ _ Eu (kp + kb) ltac:(lia)). exact Hu.
          -- intro R. assert (Lq : snd q < p) by (apply (W p _ (snd q) Ep); cbn [children]; apply in_map; exact Hq).
             assert (Le : forall m, reach G (snd q) m -> m <= snd q).
             { intros m Rm. induction Rm as [|m nd' c' Rm IH Em Hc']; [lia|]. specialize (W m nd' c' Em Hc'). lia. }
             specialize (Le p R). lia.
      + cbn [eval]. rewrite map_app. cbn [map fst snd]. rewrite mul_val_snoc. reflexivity.
    - intros n v Hn [e [U E]]. exists e. split; [exact (Fr n e Hn U)|exact E].
  Qed.

  (** a product made an operand of itself: no value any more *)
  Lemma self_factor_cycle : forall (G : graph) p s G' dv, add_factor G p s p = Some G' -> forall e, ~ unfolds G' dv p e.
  Proof.
    intros G p s G' dv A. unfold add_factor in A.
    destruct (nth_error G p) as [[| | | |ops| | | | |]|] eqn:Ep; try discriminate. injection A as <-.
    assert (Lp : p < length G) by (apply nth_error_Some; congruence).
    intros e [k U]. revert e U. induction k as [|k IH]; intros e U; [discriminate|].
    cbn [unfold] in U. rewrite set_nth_same in U by exact Lp. rewrite map_app in U. cbn [map fst snd] in U. rewrite sequence_snoc in U.
    destruct (unfold k _ dv p) as [e'|] eqn:E.
    - exact (IH e' eq_refl).
    - destruct (sequence (map _ ops)); discriminate.
  Qed.
End NodeOps.
