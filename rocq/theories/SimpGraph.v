(** Simplification of function graphs in place, with shared nodes and cached values, and its use by systems.

    Models core/src/function_tree/simplify.cpp:31-53, the passes of operators/arithmetic.cpp on the nodes of
    Heap.v (a node is an address, nodes are shared), and core/src/system/system.cpp:1068-1144.  The passes are the
    ones of Simplify.v, where trees share nothing and values are not cached.

    Simplifications: evaluation is exact; counters are naturals; the assertions that a node has operands are not
    modelled (a node without operands is left as it is); the recursion is bounded by fuel, [None] is running out of
    fuel or a dangling address. *)
From Coq Require Import List Arith Lia ZArith Bool.
From Verif Require Import Base Expr Homog Heap Simplify.
Import ListNotations.

Section SimpGraph.
  Context {F : fld}.
  Local Open Scope fld_scope.
  Add Field simpgraph_field : (f_th F).
  Variable fs : funs F.

  (** the nodes, and the values they keep *)
  Definition sst : Type := (list (gnode (F := F)) * gstate (F := F)).

  (** assignment to operands_ and signs_ (mult_or_div_) of a node *)
  Definition set_node (s : sst) (n : nat) (nd : gnode (F := F)) : sst :=
    (firstn n (fst s) ++ nd :: skipn (S n) (fst s), snd s).

  (** a new node at a new address; its values are not valid, node.cpp:106-110 *)
  Definition alloc (s : sst) (nd : gnode (F := F)) : sst * nat :=
    let a := length (fst s) in
    ((fst s ++ [nd], store (store (snd s) Dbl a None false) Mp a None false), a).

  (** operands_[ii]->Eval<dbl>() == c *)
  Definition test (c : F) (fuel : nat) (s : sst) (n : nat) : option (sst * bool) :=
    match geval fs (fst s) fuel Dbl None (snd s) n with
    | Some (st, v) => Some ((fst s, st), match v with Some x => feqb x c | None => false end)
    | None => None
    end.

  (** all operands are tested, arithmetic.cpp:51-54, 575-577 *)
  Fixpoint test_all (c : F) (fuel : nat) (s : sst) (ops : list (bool * nat)) : option (sst * list bool) :=
    match ops with
    | [] => Some (s, [])
    | (_, a) :: r =>
        match test c fuel s a with
        | Some (s1, b) => match test_all c fuel s1 r with Some (s2, l) => Some (s2, b :: l) | None => None end
        | None => None
        end
    end.

  (** up to the first one for which the test holds, arithmetic.cpp:538-545 *)
  Fixpoint test_any (c : F) (fuel : nat) (s : sst) (ops : list (bool * nat)) : option (sst * bool) :=
    match ops with
    | [] => Some (s, false)
    | (_, a) :: r =>
        match test c fuel s a with
        | Some (s1, true) => Some (s1, true)
        | Some (s1, false) => test_any c fuel s1 r
        | None => None
        end
    end.

  (** the operands for which the test did not hold, arithmetic.cpp:56-65, 581-592 *)
  Fixpoint keep (ops : list (bool * nat)) (flags : list bool) : list (bool * nat) :=
    match ops, flags with
    | p :: r, b :: l => if b then keep r l else p :: keep r l
    | _, _ => []
    end.

  (** the loops over the operands at the end of a pass, arithmetic.cpp:80-81, 91-92, 161-162, 557-558, 608-609, 684-685 *)
  Fixpoint over (f : sst -> nat -> option (sst * nat)) (s : sst) (ops : list (bool * nat)) : option (sst * nat) :=
    match ops with
    | [] => Some (s, O)
    | (_, a) :: r =>
        match f s a with
        | Some (s1, c1) => match over f s1 r with Some (s2, c2) => Some (s2, (c1 + c2)%nat) | None => None end
        | None => None
        end
    end.

  Definition plus_count (c : nat) (r : option (sst * nat)) : option (sst * nat) :=
    match r with Some (s, c') => Some (s, (c + c')%nat) | None => None end.

  (** arithmetic.cpp:42-84 SumOperator::EliminateZeros, 530-561 MultOperator::EliminateZeros; symbol.cpp:35-38 and the
      other operators (arithmetic.cpp:458-461, 931-934, 1128-1131, 1193-1196, 1275-1278, 1351-1354) return 0 *)
  Fixpoint zeros_pass (fuel : nat) (s : sst) (n : nat) : option (sst * nat) :=
    match fuel with
    | O => None
    | S k =>
        match nth_error (fst s) n with
        | None => None
        | Some (GSum ops) =>
            if (1 <? length ops)%nat then
              match test_all 0 k s ops with
              | None => None
              | Some (s1, flags) =>
                  match keep ops flags with
                  | [] => let (s2, a) := alloc s1 (GNum KInteger 0) in
                          plus_count (length ops - 1) (over (zeros_pass k) (set_node s2 n (GSum [(true, a)])) [(true, a)])
                  | kept => plus_count (length ops - length kept) (over (zeros_pass k) (set_node s1 n (GSum kept)) kept)
                  end
              end
            else over (zeros_pass k) s ops
        | Some (GMul ops) =>
            match test_any 0 k s ops with
            | None => None
            | Some (s1, true) => let (s2, a) := alloc s1 (GNum KInteger 0) in
                                 Some (set_node s2 n (GMul [(true, a)]), (length ops - 1)%nat)
            | Some (s1, false) => over (zeros_pass k) s1 ops
            end
        | Some _ => Some (s, O)
        end
    end.

  (** arithmetic.cpp:88-95 SumOperator::EliminateOnes, 567-612 MultOperator::EliminateOnes *)
  Fixpoint ones_pass (fuel : nat) (s : sst) (n : nat) : option (sst * nat) :=
    match fuel with
    | O => None
    | S k =>
        match nth_error (fst s) n with
        | None => None
        | Some (GSum ops) => over (ones_pass k) s ops
        | Some (GMul ops) =>
            if (1 <? length ops)%nat then
              match test_all 1 k s ops with
              | None => None
              | Some (s1, flags) =>
                  match keep ops flags with
                  | [] => let kept := firstn 1 ops in
                          plus_count (length ops - 1) (over (ones_pass k) (set_node s1 n (GMul kept)) kept)
                  | kept => plus_count (length ops - length kept) (over (ones_pass k) (set_node s1 n (GMul kept)) kept)
                  end
              end
            else over (ones_pass k) s ops
        | Some _ => Some (s, O)
        end
    end.

  (** arithmetic.cpp:97-125 SumOperator::ReduceSubSums *)
  Fixpoint sums_into_sum (G : list (gnode (F := F))) (ops : list (bool * nat)) : list (bool * nat) * nat :=
    match ops with
    | [] => ([], O)
    | (m, a) :: r =>
        let (l, c) := sums_into_sum G r in
        match nth_error G a with
        | Some (GSum sub) => (map (fun q => (xnor (fst q) m, snd q)) sub ++ l, (length sub + c)%nat)
        | _ => ((m, a) :: l, c)
        end
    end.

  (** arithmetic.cpp:128-154 SumOperator::ReduceSubMults *)
  Fixpoint mults_into_sum (G : list (gnode (F := F))) (ops : list (bool * nat)) : list (bool * nat) * nat :=
    match ops with
    | [] => ([], O)
    | (m, a) :: r =>
        let (l, c) := mults_into_sum G r in
        match nth_error G a with
        | Some (GMul [(true, x)]) => ((m, x) :: l, S c)
        | _ => ((m, a) :: l, c)
        end
    end.

  (** arithmetic.cpp:615-645 MultOperator::ReduceSubSums, with a new node for a sum which subtracts its only operand
      (arithmetic.hpp:350-353) *)
  Fixpoint sums_into_mul (s : sst) (ops : list (bool * nat)) : sst * list (bool * nat) * nat :=
    match ops with
    | [] => (s, [], O)
    | (m, a) :: r =>
        match nth_error (fst s) a with
        | Some (GSum [(true, x)]) => let '(s', l, c) := sums_into_mul s r in (s', (m, x) :: l, S c)
        | Some (GSum [(false, x)]) =>
            let (s1, b) := alloc s (GNeg x) in let '(s', l, c) := sums_into_mul s1 r in (s', (m, b) :: l, S c)
        | _ => let '(s', l, c) := sums_into_mul s r in (s', (m, a) :: l, c)
        end
    end.

  (** arithmetic.cpp:647-677 MultOperator::ReduceSubMults *)
  Fixpoint mults_into_mul (G : list (gnode (F := F))) (ops : list (bool * nat)) : list (bool * nat) * nat :=
    match ops with
    | [] => ([], O)
    | (m, a) :: r =>
        let (l, c) := mults_into_mul G r in
        match nth_error G a with
        | Some (GMul sub) => (map (fun q => (xnor (fst q) m, snd q)) sub ++ l, (length sub + c)%nat)
        | _ => ((m, a) :: l, c)
        end
    end.

  (** arithmetic.cpp:157-165 SumOperator::ReduceDepth, 680-688 MultOperator::ReduceDepth, node.cpp:64-67 *)
  Fixpoint depth_pass (fuel : nat) (s : sst) (n : nat) : option (sst * nat) :=
    match fuel with
    | O => None
    | S k =>
        match nth_error (fst s) n with
        | None => None
        | Some (GSum ops) =>
            let (l1, c1) := sums_into_sum (fst s) ops in
            let (l2, c2) := mults_into_sum (fst s) l1 in
            plus_count (c1 + c2) (over (depth_pass k) (set_node s n (GSum l2)) l2)
        | Some (GMul ops) =>
            let '(s1, l1, c1) := sums_into_mul s ops in
            let (l2, c2) := mults_into_mul (fst s1) l1 in
            plus_count (c1 + c2) (over (depth_pass k) (set_node s1 n (GMul l2)) l2)
        | Some _ => Some (s, O)
        end
    end.

  (** one round, simplify.cpp:39-41, 47-49 *)
  Definition graph_round (fuel : nat) (s : sst) (n : nat) : option (sst * nat) :=
    match depth_pass fuel s n with
    | None => None
    | Some (s1, c1) =>
        match ones_pass fuel s1 n with
        | None => None
        | Some (s2, c2) => plus_count (c1 + c2) (zeros_pass fuel s2 n)
        end
    end.

  (** Simplify, simplify.cpp:33-53: rounds until one changes nothing *)
  Fixpoint graph_simplify (rounds fuel : nat) (s : sst) (n : nat) : option sst :=
    match rounds with
    | O => None
    | S r =>
        match graph_round fuel s n with
        | Some (s', O) => Some s'
        | Some (s', S _) => graph_simplify r fuel s' n
        | None => None
        end
    end.

  Fixpoint simplify_all (rounds fuel : nat) (s : sst) (l : list nat) : option sst :=
    match l with
    | [] => Some s
    | n :: r => match graph_simplify rounds fuel s n with Some s' => simplify_all rounds fuel s' r | None => None end
    end.

  (** ** Systems *)

  (** system.hpp:1743-1787: functions, derivatives, Jacobian nodes, variables and path variable.  [y_node] tells whether the
      derivative method is DerivMethod::JacobianNode. *)
  Record ysys := mkY {
    y_funs : list nat;
    y_space : list nat;
    y_time : list nat;
    y_jac : list nat;
    y_vars : list nat;
    y_path : option nat;
    y_node : bool }.

  (** system.cpp:1068-1073 *)
  Definition simplify_functions (rounds fuel : nat) (y : ysys) (s : sst) : option sst :=
    simplify_all rounds fuel s (y_funs y).

  (** system.cpp:1085-1089, 1091-1095: the value is saved, then a random one is set.  [unit]: the random numbers drawn, one
      for each variable; evaluating a variable makes its value valid (node.cpp:68-79) *)
  Fixpoint randomize (unit : nat -> F) (vs : list nat) (st : gstate (F := F)) : gstate * list (option F) :=
    match vs with
    | [] => (st, [])
    | v :: r =>
        let old := fst (cache st Dbl v) in
        let (st', l) := randomize unit r (set_value (store st Dbl v old true) Dbl v (unit v)) in (st', old :: l)
    end.

  (** system.cpp:1124-1127 *)
  Fixpoint restore (vs : list nat) (old : list (option F)) (st : gstate (F := F)) : gstate :=
    match vs, old with
    | v :: r, o :: l => restore r l (store st Dbl v o false)
    | _, _ => st
    end.

  (** system.cpp:1098-1103, 1129-1134 *)
  Fixpoint reset_all (fuel : nat) (G : list (gnode (F := F))) (l : list nat) (st : gstate (F := F)) : option gstate :=
    match l with
    | [] => Some st
    | n :: r => match reset G fuel st n with Some st' => reset_all fuel G r st' | None => None end
    end.

  Definition y_all_vars (y : ysys) : list nat :=
    y_vars y ++ match y_path y with Some t => [t] | None => [] end.
  Definition y_derivs (y : ysys) : list nat := y_jac y ++ y_space y ++ y_time y.

  (** system.cpp:1077-1136 *)
  Definition simplify_derivatives (rounds fuel : nat) (unit : nat -> F) (y : ysys) (s : sst) : option sst :=
    let (st1, old) := randomize unit (y_all_vars y) (snd s) in
    match reset_all fuel (fst s) (y_derivs y) st1 with
    | None => None
    | Some st2 =>
        match simplify_all rounds fuel (fst s, st2) (if y_node y then y_jac y else y_space y ++ y_time y) with
        | None => None
        | Some (G3, st3) =>
            match reset_all fuel G3 (y_derivs y) (restore (y_all_vars y) old st3) with
            | None => None
            | Some st4 => Some (G3, st4)
            end
        end
    end.

  (** system.cpp:1140-1144 *)
  Definition simplify_system (rounds fuel : nat) (unit : nat -> F) (y : ysys) (s : sst) : option sst :=
    match simplify_functions rounds fuel y s with
    | Some s' => simplify_derivatives rounds fuel unit y s'
    | None => None
    end.

  (** ** Specification *)

  (** children exist, and there are no cycles *)
  Definition ranked (G : list (gnode (F := F))) (h : nat -> nat) : Prop :=
    forall n nd c, nth_error G n = Some nd -> In c (children nd) -> h c < h n /\ c < length G.
  Definition acyclic (G : list (gnode (F := F))) : Prop := exists h, ranked G h.

  (** the value of a node at a point, computed without caches *)
  Definition has_value (G : list (gnode (F := F))) (rho : env F) (n : nat) (y : F) : Prop :=
    exists e, unfolds G None n e /\ eval fs rho e = Some y.

  (** [m] is the node [n], or an operand of a sum or product below [n] *)
  Inductive operand (G : list (gnode (F := F))) (n : nat) : nat -> Prop :=
  | op_refl : operand G n n
  | op_sum : forall m ops p, operand G n m -> nth_error G m = Some (GSum ops) -> In p ops -> operand G n (snd p)
  | op_mul : forall m ops p, operand G n m -> nth_error G m = Some (GMul ops) -> In p ops -> operand G n (snd p).

  (** the point at which the operands are compared with 0 and 1: random numbers for the variables of the system and the
      path variable, the values they hold for all other variables (implicit parameters, variables in no group) *)
  Definition random_point (unit : nat -> F) (vs : list nat) (rho : env F) : env F :=
    fun n => if in_dec Nat.eq_dec n vs then unit n else rho n.

  (** the derivatives which are simplified, system.cpp:1107-1120 *)
  Definition simplified (y : ysys) : list nat := if y_node y then y_jac y else y_space y ++ y_time y.

  (** what the nodes of a system look like: no cycles; functions are Function nodes (system.hpp:1758); variables are nodes of
      their own *)
  Record proper (G : list (gnode (F := F))) (y : ysys) : Prop := mkProper {
    p_acyclic : acyclic G;
    p_funs : forall n, In n (y_funs y) -> exists a, nth_error G n = Some (GHandle a);
    p_derivs : forall n, In n (y_derivs y) -> n < length G;
    p_nodup : NoDup (y_all_vars y);
    p_vars : forall v, In v (y_all_vars y) -> nth_error G v = Some GVar }.

  (** the same values for everything but the variables of the system and the path variable *)
  Definition same_parameters (y : ysys) (rho rho' : env F) : Prop := forall n, ~ In n (y_all_vars y) -> rho' n = rho n.

  (** The random numbers are not unlucky: what is 0 (or 1) at the random point is 0 (or 1) wherever it is defined, for these
      values of the parameters *)
  Definition telling (G : list (gnode (F := F))) (y : ysys) (rho0 : env F) : Prop :=
    forall n m, In n (simplified y) -> operand G n m -> forall rho, same_parameters y rho0 rho ->
      (has_value G rho0 m 0 -> forall a, has_value G rho m a -> a = 0) /\
      (has_value G rho0 m 1 -> forall a, has_value G rho m a -> a = 1).

  (** ** Values *)

  (** the value of a node from the values of its children *)
  Definition node_val (rho : env F) (V : nat -> option F) (n : nat) (nd : gnode (F := F)) : option F :=
    match nd with
    | GNum _ c => Some c
    | GVar => Some (rho n)
    | GDiff _ => Some 0
    | GSum ops => sum_val (map (fun p => (fst p, V (snd p))) ops)
    | GMul ops => mul_val (map (fun p => (fst p, V (snd p))) ops)
    | GNeg a => match V a with Some x => Some (- x) | None => None end
    | GIPow a z => match V a with Some x => fpowZ x z | None => None end
    | GPow b e => match V b, V e with Some x, Some y => pw fs x y | _, _ => None end
    | GFun f a => match V a with Some x => fn fs f x | None => None end
    | GHandle a => V a
    end.

  (** [V] are the values at [rho] of the nodes in [D], which is closed under children *)
  Definition valuation (G : list (gnode (F := F))) (rho : env F) (V : nat -> option F) (D : nat -> Prop) : Prop :=
    forall n, D n -> exists nd, nth_error G n = Some nd /\ (forall c, In c (children nd) -> D c) /\
      node_val rho V n nd = V n /\ V n <> None.

  Lemma node_val_ext : forall rho V V' n nd, (forall c, In c (children nd) -> V' c = V c) -> node_val rho V' n nd = node_val rho V n nd.
  Proof.
    intros rho V V' n nd H.
    destruct nd as [kd c| |x|ops|ops|a|a z|b a|f a|a]; cbn [node_val children] in *; try reflexivity.
    - f_equal. apply map_ext_in. intros p Hp. rewrite (H (snd p)); [reflexivity|]. apply in_map. exact Hp.
    - f_equal. apply map_ext_in. intros p Hp. rewrite (H (snd p)); [reflexivity|]. apply in_map. exact Hp.
    - rewrite (H a); [reflexivity|]. left; reflexivity.
    - rewrite (H a); [reflexivity|]. left; reflexivity.
    - rewrite (H a), (H b); [reflexivity| |]; cbn; auto.
    - rewrite (H a); [reflexivity|]. left; reflexivity.
    - apply H. left; reflexivity.
  Qed.

  Lemma node_val_strict : forall rho V n nd, node_val rho V n nd <> None -> forall c, In c (children nd) -> V c <> None.
  Proof.
    intros rho V n nd H c Hc E.
    destruct nd as [kd k| |x|ops|ops|a|a z|b a|f a|a]; cbn [node_val children] in *; try contradiction.
    - apply in_map_iff in Hc as [p [<- Hp]]. apply H.
      destruct (sum_val _) as [v|] eqn:Es; [|reflexivity]. apply sum_val_some in Es. rewrite Forall_forall in Es.
      destruct (Es (fst p, V (snd p))) as [x Hx]; [apply in_map_iff; exists p; split; [reflexivity|assumption]|].
      cbn in Hx. congruence.
    - apply in_map_iff in Hc as [p [<- Hp]]. apply H.
      destruct (mul_val _) as [v|] eqn:Es; [|reflexivity]. apply mul_val_some in Es. rewrite Forall_forall in Es.
      destruct (Es (fst p, V (snd p))) as [x Hx]; [apply in_map_iff; exists p; split; [reflexivity|assumption]|].
      cbn in Hx. congruence.
    - destruct Hc as [<-|[]]. rewrite E in H. apply H; reflexivity.
    - destruct Hc as [<-|[]]. rewrite E in H. apply H; reflexivity.
    - destruct Hc as [<-|[<-|[]]]; rewrite E in H; apply H; [reflexivity|]. destruct (V b); reflexivity.
    - destruct Hc as [<-|[]]. rewrite E in H. apply H; reflexivity.
    - destruct Hc as [<-|[]]. rewrite E in H. apply H; reflexivity.
  Qed.

  (** the values of a tree are those of a valuation *)
  Lemma unfold_value : forall k G rho (V : nat -> option F) (D : nat -> Prop) n e,
    (forall m, D m -> exists nd, nth_error G m = Some nd /\ (forall c, In c (children nd) -> D c) /\ node_val rho V m nd = V m) ->
    D n -> unfold k G None n = Some e -> eval fs rho e = V n.
  Proof.
    induction k as [|k IH]; intros G rho V D n e HV Hn E; [discriminate|].
    destruct (HV n Hn) as [nd [En [Hc Hv]]]. cbn [unfold] in E. rewrite En in E. rewrite <- Hv.
    assert (L : forall (ops : list (bool * nat)) l, (forall p, In p ops -> D (snd p)) ->
      sequence (map (fun p : bool * nat => match unfold k G None (snd p) with
                                   | Some e => Some (fst p, e) | None => None end) ops) = Some l ->
      map (fun p => (fst p, eval fs rho (snd p))) l = map (fun p => (fst p, V (snd p))) ops).
    { induction ops as [|[s a] ops IHo]; intros l Ho El; cbn [map sequence fst snd] in El.
      - injection El as <-. reflexivity.
      - destruct (unfold k G None a) as [e0|] eqn:Ea; [|discriminate].
        destruct (sequence _) as [r|] eqn:Er in El; [|discriminate]. injection El as <-. cbn [map fst snd].
        rewrite (IH G rho V D a e0 HV (Ho (s, a) (or_introl eq_refl)) Ea). f_equal.
        apply IHo; [|exact Er]. intros p Hp. apply Ho. right; exact Hp. }
    destruct nd as [kd c| |x|ops|ops|a|a z|b a|f a|a]; cbn [node_val children] in *.
    - injection E as <-. reflexivity.
    - injection E as <-. reflexivity.
    - injection E as <-. reflexivity.
    - destruct (sequence _) as [l|] eqn:El in E; [|discriminate]. injection E as <-. cbn [eval].
      rewrite (L ops l); [reflexivity| |exact El]. intros p Hp. apply Hc. apply in_map. exact Hp.
    - destruct (sequence _) as [l|] eqn:El in E; [|discriminate]. injection E as <-. cbn [eval].
      rewrite (L ops l); [reflexivity| |exact El]. intros p Hp. apply Hc. apply in_map. exact Hp.
    - destruct (unfold k G None a) as [e0|] eqn:Ea; [|discriminate]. injection E as <-. cbn [eval].
      rewrite (IH G rho V D a e0 HV (Hc a (or_introl eq_refl)) Ea). reflexivity.
    - destruct (unfold k G None a) as [e0|] eqn:Ea; [|discriminate]. injection E as <-. cbn [eval].
      rewrite (IH G rho V D a e0 HV (Hc a (or_introl eq_refl)) Ea). reflexivity.
    - destruct (unfold k G None b) as [eb|] eqn:Eb; [|discriminate].
      destruct (unfold k G None a) as [ea|] eqn:Ea; [|discriminate]. injection E as <-. cbn [eval].
      rewrite (IH G rho V D b eb HV (Hc b (or_introl eq_refl)) Eb), (IH G rho V D a ea HV (Hc a (or_intror (or_introl eq_refl))) Ea).
      reflexivity.
    - destruct (unfold k G None a) as [e0|] eqn:Ea; [|discriminate]. injection E as <-. cbn [eval].
      rewrite (IH G rho V D a e0 HV (Hc a (or_introl eq_refl)) Ea). reflexivity.
    - destruct (unfold k G None a) as [e0|] eqn:Ea; [|discriminate]. injection E as <-. cbn [eval].
      exact (IH G rho V D a e0 HV (Hc a (or_introl eq_refl)) Ea).
  Qed.

  (** every node of a graph without cycles stands for an expression *)
  Lemma ranked_unfold : forall G h, ranked G h -> forall k n, n < length G -> h n < k -> exists e, unfold k G None n = Some e.
  Proof.
    intros G h Hr. induction k as [|k IH]; intros n Hn Hk; [lia|].
    destruct (nth_error G n) as [nd|] eqn:En; [|apply nth_error_None in En; lia].
    assert (Hc : forall c, In c (children nd) -> exists e, unfold k G None c = Some e).
    { intros c Hc. destruct (Hr n nd c En Hc). apply IH; lia. }
    cbn [unfold]. rewrite En.
    assert (L : forall (ops : list (bool * nat)), (forall p, In p ops -> exists e, unfold k G None (snd p) = Some e) ->
      exists l, sequence (map (fun p : bool * nat => match unfold k G None (snd p) with
                                   | Some e => Some (fst p, e) | None => None end) ops) = Some l).
    { induction ops as [|p ops IHo]; intro Ho; [exists []; reflexivity|]. cbn [map sequence].
      destruct (Ho p (or_introl eq_refl)) as [e ->]. destruct IHo as [l ->]; [intros q Hq; apply Ho; right; exact Hq|].
      eexists; reflexivity. }
    destruct nd as [kd c| |x|ops|ops|a|a z|b a|f a|a]; cbn [children] in Hc; try (eexists; reflexivity).
    - destruct (L ops) as [l ->]; [|eexists; reflexivity]. intros p Hp. apply Hc. apply in_map. exact Hp.
    - destruct (L ops) as [l ->]; [|eexists; reflexivity]. intros p Hp. apply Hc. apply in_map. exact Hp.
    - destruct (Hc a (or_introl eq_refl)) as [e ->]. eexists; reflexivity.
    - destruct (Hc a (or_introl eq_refl)) as [e ->]. eexists; reflexivity.
    - destruct (Hc b (or_introl eq_refl)) as [e ->]. destruct (Hc a (or_intror (or_introl eq_refl))) as [e' ->]. eexists; reflexivity.
    - destruct (Hc a (or_introl eq_refl)) as [e ->]. eexists; reflexivity.
    - destruct (Hc a (or_introl eq_refl)) as [e ->]. eexists; reflexivity.
  Qed.
End SimpGraph.
