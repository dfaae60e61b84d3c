(** Homogenize on a function graph, in place and with sharing.

    Models the Homogenize functions as they really work: SumOperator::Homogenize replaces operands of the node
    it is called on by newly made products.  The pure computations (Degree) are done on the expression a node
    stands for. *)
From Coq Require Import List Arith Lia ZArith Bool.
From Verif Require Import Base Expr Degree Homog Heap.
Import ListNotations.

Section Model.
  Context {F : fld}.
  Variable fs : funs F.
  Variable rho : env F.      (* current values, used by PowerOperator::Degree *)
  Variable vs : list nat.    (* the variable group *)
  Variable h : nat.          (* the homogenizing variable *)

  Notation graph := (list (gnode (F := F))).
  Implicit Types (G : list (gnode (F := F))).

  (** a call returns normally, throws (leaving the graph as it is then), or runs out of fuel / dereferences
      a node which does not exist *)
  Inductive hres := HDone (G : graph) | HThrow (G : graph) | HStuck.

  Fixpoint set_node (G : graph) (a : nat) (nd : gnode) : graph :=
    match G, a with
    | [], _ => []
    | _ :: r, O => nd :: r
    | x :: r, S k => x :: set_node r k nd
    end.

  (** arithmetic.cpp:269-273, 834-837: the operands one after the other *)
  Fixpoint hom_list (f : graph -> nat -> hres) (ops : list (bool * nat)) (G : graph) : hres :=
    match ops with
    | [] => HDone G
    | (_, a) :: r => match f G a with HDone G' => hom_list f r G' | x => x end
    end.

  Definition opt_map_list {A B : Type} (f : A -> option B) (l : list A) : option (list B) := sequence (map f l).

  (** arithmetic.cpp:294-311: one operand *)
  Definition raise_node (G : graph) (deficiency : Z) (a : nat) : graph * nat :=
    if (deficiency <=? 0)%Z then (G, a)
    else if (deficiency =? 1)%Z then (G ++ [GMul [(true, h); (true, a)]], length G)
    else (G ++ [GIPow h deficiency; GMul [(true, length G); (true, a)]], S (length G)).

  Fixpoint raise_ops (G : graph) (maxdegree : Z) (l : list (bool * nat * Z)) : graph * list (bool * nat) :=
    match l with
    | [] => (G, [])
    | (s, a, d) :: r =>
        let (G1, a1) := raise_node G (maxdegree - d)%Z a in
        let (G2, ops) := raise_ops G1 maxdegree r in
        (G2, (s, a1) :: ops)
    end.

  (** arithmetic.cpp:264-314 (sum), 832-838 (product), 1037-1047 (power), operator.cpp:85-88, function.cpp:163-166,
      number.hpp:117-120, variable.cpp:146-149, differential.cpp:79-82 *)
  Fixpoint hom_graph (k : nat) (G : graph) (a : nat) : hres :=
    match k with
    | O => HStuck
    | S k =>
        match nth_error G a with
        | None => HStuck
        | Some (GNum _ _) | Some GVar | Some (GDiff _) => HDone G
        | Some (GSum ops) =>
            match hom_list (hom_graph k) ops G with
            | HDone G1 =>
                match opt_map_list (fun p : bool * nat => unfold k G1 None (snd p)) ops with
                | None => HStuck
                | Some es =>
                    let degs := map (gdegree fs rho vs) es in
                    if existsb (fun d => (d <? 0)%Z) degs then HThrow G1
                    else
                      let (G2, ops') := raise_ops G1 (fold_left Z.max degs 0%Z) (combine ops degs) in
                      HDone (set_node G2 a (GSum ops'))
                end
            | r => r
            end
        | Some (GMul ops) => hom_list (hom_graph k) ops G
        | Some (GNeg c) | Some (GIPow c _) | Some (GFun _ c) | Some (GHandle c) => hom_graph k G c
        | Some (GPow b e) =>
            match unfold k G None e with
            | None => HStuck
            | Some ee => if (gdegree fs rho vs ee =? 0)%Z then hom_graph k G b else HThrow G
            end
        end
    end.

  (** System::Homogenize for one group: the functions one after the other, system.cpp:453-478 *)
  Fixpoint hom_functions (k : nat) (G : graph) (roots : list nat) : hres :=
    match roots with
    | [] => HDone G
    | a :: r => match hom_graph k G a with HDone G' => hom_functions k G' r | x => x end
    end.

  (** ** Specification *)

  (** homogenization has nothing to do at [a] nor at any node below *)
  Definition still (G : graph) (a : nat) : Prop :=
    forall m, reach G a m -> exists e, unfolds G None m e /\ homogenize fs rho vs h e = Some e.

  (** [a] stands for [e]; [fp] lists the nodes, with repetition if they are met on several routes, at which
      homogenization has something to do at or below *)
  Inductive owns (G : graph) : nat -> expr F -> list nat -> Prop :=
  | owns_still : forall a e, still G a -> unfolds G None a e -> owns G a e []
  | owns_sum : forall a ops es fp, nth_error G a = Some (GSum ops) -> ~ still G a -> owns_ops G ops es fp -> owns G a (Sum es) (a :: fp)
  | owns_mul : forall a ops es fp, nth_error G a = Some (GMul ops) -> ~ still G a -> owns_ops G ops es fp -> owns G a (Mul es) (a :: fp)
  | owns_neg : forall a c e fp, nth_error G a = Some (GNeg c) -> ~ still G a -> owns G c e fp -> owns G a (Neg e) (a :: fp)
  | owns_ipow : forall a c z e fp, nth_error G a = Some (GIPow c z) -> ~ still G a -> owns G c e fp -> owns G a (IPow e z) (a :: fp)
  | owns_fun : forall a f c e fp, nth_error G a = Some (GFun f c) -> ~ still G a -> owns G c e fp -> owns G a (Fun f e) (a :: fp)
  | owns_handle : forall a c e fp, nth_error G a = Some (GHandle c) -> ~ still G a -> owns G c e fp -> owns G a (Handle e) (a :: fp)
  | owns_pow : forall a b x eb ex fpb fpx, nth_error G a = Some (GPow b x) -> ~ still G a ->
      owns G b eb fpb -> owns G x ex fpx -> owns G a (Pow eb ex) (a :: fpb ++ fpx)
  with owns_ops (G : graph) : list (bool * nat) -> list (bool * expr F) -> list nat -> Prop :=
  | owns_nil : owns_ops G [] [] []
  | owns_cons : forall s a e r es f1 f2, owns G a e f1 -> owns_ops G r es f2 -> owns_ops G ((s, a) :: r) ((s, e) :: es) (f1 ++ f2).

  (** the functions [roots] stand for the expressions [es], and no node with work to do is met twice *)
  Definition unshared_work (G : graph) (roots : list nat) (es : list (expr F)) : Prop :=
    exists fp, owns_ops G (map (fun a => (true, a)) roots) (map (fun e => (true, e)) es) fp /\ NoDup fp.

  (** ** Proofs *)
  Scheme owns_mut := Induction for owns Sort Prop with owns_ops_mut := Induction for owns_ops Sort Prop.
  Combined Scheme owns_both from owns_mut, owns_ops_mut.

  Definition agree (G G' : graph) (P : nat -> Prop) : Prop := forall m, P m -> nth_error G' m = nth_error G m.

  Lemma agree_closed : forall G G' P, closed G P -> agree G G' P -> closed G' P.
  Proof. intros G G' P HC HA n nd c Hn En Hc. rewrite (HA n Hn) in En. exact (HC n nd c Hn En Hc). Qed.

  Lemma unfold_agree : forall G G' P, closed G P -> agree G G' P -> forall k dv a, P a -> unfold k G' dv a = unfold k G dv a.
  Proof.
    intros G G' P HC HA. induction k as [|k IH]; intros dv a Ha; [reflexivity|]. cbn [unfold]. rewrite (HA a Ha).
    destruct (nth_error G a) as [nd|] eqn:En; [|reflexivity].
    assert (C : forall c, In c (children nd) -> P c) by (intros c Hc; exact (HC a nd c Ha En Hc)).
    assert (L : forall ops : list (bool * nat), (forall p, In p ops -> P (snd p)) ->
      map (fun p : bool * nat => match unfold k G' dv (snd p) with Some e => Some (fst p, e) | None => None end) ops =
      map (fun p : bool * nat => match unfold k G dv (snd p) with Some e => Some (fst p, e) | None => None end) ops).
    { intros ops Ho. apply map_ext_in. intros p Hp. rewrite (IH dv (snd p) (Ho p Hp)). reflexivity. }
    destruct nd as [kd c| |x|ops|ops|c|c z|b c|f c|c]; try reflexivity; cbn [children] in C.
    - rewrite L; [reflexivity|]. intros p Hp. apply C. apply in_map. exact Hp.
    - rewrite L; [reflexivity|]. intros p Hp. apply C. apply in_map. exact Hp.
    - rewrite IH; [reflexivity|]. apply C. left; reflexivity.
    - rewrite IH; [reflexivity|]. apply C. left; reflexivity.
    - rewrite !IH; [reflexivity| |]; apply C; cbn; auto.
    - rewrite IH; [reflexivity|]. apply C. left; reflexivity.
    - rewrite IH; [reflexivity|]. apply C. left; reflexivity.
  Qed.

  Lemma unfolds_agree : forall G G' P, closed G P -> agree G G' P -> forall dv a e, P a -> unfolds G dv a e -> unfolds G' dv a e.
  Proof. intros G G' P HC HA dv a e Ha [k Hk]. exists k. rewrite (unfold_agree G G' P HC HA k dv a Ha). exact Hk. Qed.

  Lemma unfolds_node : forall G dv a e, unfolds G dv a e -> exists nd, nth_error G a = Some nd.
  Proof. intros G dv a e [[|k] H]; cbn [unfold] in H; [discriminate|]. destruct (nth_error G a); [eauto|discriminate]. Qed.

  Lemma still_reach : forall G a m, still G a -> reach G a m -> still G m.
  Proof. intros G a m H1 H2 x Hx. apply H1. eapply reach_trans; eassumption. Qed.

  Lemma closed_still : forall G, closed G (still G).
  Proof.
    intros G n nd c Hn En Hc. apply (still_reach G n c Hn).
    exact (reach_step G n n nd c (reach_refl G n) En Hc).
  Qed.

  Lemma still_unfolds : forall G a, still G a -> exists e, unfolds G None a e /\ homogenize fs rho vs h e = Some e.
  Proof. intros G a H. apply H. constructor. Qed.

  (** inversion of unfoldings *)
  Lemma unfolds_sum_inv : forall G dv a ops e, nth_error G a = Some (GSum ops) -> unfolds G dv a e ->
    exists es, e = Sum es /\ Forall2 (fun p q => fst p = fst q /\ unfolds G dv (snd p) (snd q)) ops es.
  Proof.
    intros G dv a ops e Ea [[|k] H]; cbn [unfold] in H; [discriminate|]. rewrite Ea in H.
    destruct (sequence _) as [l|] eqn:E in H; [|discriminate]. injection H as <-. exists l. split; [reflexivity|].
    apply sequence_map_some in E. clear Ea. induction E as [|p q ops l Hp E IH]; constructor; [|assumption].
    destruct (unfold k G dv (snd p)) as [e|] eqn:Eu; [|discriminate]. injection Hp as <-. cbn. split; [reflexivity|]. exists k; assumption.
  Qed.

  Lemma unfolds_mul_inv : forall G dv a ops e, nth_error G a = Some (GMul ops) -> unfolds G dv a e ->
    exists es, e = Mul es /\ Forall2 (fun p q => fst p = fst q /\ unfolds G dv (snd p) (snd q)) ops es.
  Proof.
    intros G dv a ops e Ea [[|k] H]; cbn [unfold] in H; [discriminate|]. rewrite Ea in H.
    destruct (sequence _) as [l|] eqn:E in H; [|discriminate]. injection H as <-. exists l. split; [reflexivity|].
    apply sequence_map_some in E. clear Ea. induction E as [|p q ops l Hp E IH]; constructor; [|assumption].
    destruct (unfold k G dv (snd p)) as [e|] eqn:Eu; [|discriminate]. injection Hp as <-. cbn. split; [reflexivity|]. exists k; assumption.
  Qed.

  (** a common fuel for a list of unfoldings *)
  Lemma unfolds_common : forall G dv (ops : list (bool * nat)) es,
    Forall2 (fun p q => fst p = fst q /\ unfolds G dv (snd p) (snd q)) ops es ->
    exists N, forall k, N <= k -> Forall2 (fun p q => fst p = fst q /\ unfold k G dv (snd p) = Some (snd q)) ops es.
  Proof.
    intros G dv ops es H. induction H as [|p q ops es [Hs [k0 Hu]] H [N IH]]; [exists 0; constructor|].
    exists (max k0 N). intros k Hk. constructor; [|apply IH; lia]. split; [assumption|].
    apply (unfold_mono _ _ _ _ _ Hu). lia.
  Qed.

  Lemma unfolds_sum : forall G dv a ops es, nth_error G a = Some (GSum ops) ->
    Forall2 (fun p q => fst p = fst q /\ unfolds G dv (snd p) (snd q)) ops es -> unfolds G dv a (Sum es).
  Proof.
    intros G dv a ops es Ea H. destruct (unfolds_common _ _ _ _ H) as [N HN]. exists (S N). cbn [unfold]. rewrite Ea.
    replace (sequence _) with (Some es); [reflexivity|]. symmetry. clear Ea H. specialize (HN N (le_n N)).
    induction HN as [|[s a0] [s' e'] ops es [Hs Hu] H IH]; [reflexivity|]. cbn [map sequence fst snd] in *. rewrite Hu, IH, Hs. reflexivity.
  Qed.

  Lemma unfolds_mul : forall G dv a ops es, nth_error G a = Some (GMul ops) ->
    Forall2 (fun p q => fst p = fst q /\ unfolds G dv (snd p) (snd q)) ops es -> unfolds G dv a (Mul es).
  Proof.
    intros G dv a ops es Ea H. destruct (unfolds_common _ _ _ _ H) as [N HN]. exists (S N). cbn [unfold]. rewrite Ea.
    replace (sequence _) with (Some es); [reflexivity|]. symmetry. clear Ea H. specialize (HN N (le_n N)).
    induction HN as [|[s a0] [s' e'] ops es [Hs Hu] H IH]; [reflexivity|]. cbn [map sequence fst snd] in *. rewrite Hu, IH, Hs. reflexivity.
  Qed.

  Lemma F2_length : forall (A B : Type) (R : A -> B -> Prop) l l', Forall2 R l l' -> length l = length l'.
  Proof. intros A B R l l' H. induction H; cbn; congruence. Qed.

  (** *** raising degrees *)
  Fixpoint weight (e : expr F) : nat :=
    match e with
    | Num _ _ | Var _ => 1
    | Sum ops => S (list_sum (map (fun p => weight (snd p)) ops))
    | Mul ops => S (list_sum (map (fun p => weight (snd p)) ops))
    | Neg e | IPow e _ | Fun _ e | Handle e => S (weight e)
    | Pow b e => S (weight b + weight e)
    end.

  Lemma raise_degree_id : forall d (e : expr F), raise_degree h d e = e -> (d <= 0)%Z.
  Proof.
    intros d e H. unfold raise_degree in H. destruct (Z.leb_spec d 0); [assumption|]. exfalso.
    destruct (d =? 1)%Z; apply (f_equal weight) in H; cbn in H; lia.
  Qed.

  Lemma raise_ops_none : forall G m l, Forall (fun q => (m - snd q <= 0)%Z) l ->
    raise_ops G m l = (G, map (fun q => (fst (fst q), snd (fst q))) l).
  Proof.
    intros G m l H. induction H as [|[[s a] d] l Hd H IH]; [reflexivity|]. cbn [raise_ops map fst snd] in *.
    unfold raise_node. destruct (Z.leb_spec (m - d) 0); [|lia]. rewrite IH. reflexivity.
  Qed.

  Lemma set_node_same : forall G a nd, nth_error G a = Some nd -> set_node G a nd = G.
  Proof. induction G as [|x G IH]; intros [|a] nd H; cbn in *; try discriminate; [congruence|]. rewrite IH; auto. Qed.

  Lemma set_node_length : forall G a nd, length (set_node G a nd) = length G.
  Proof. induction G as [|x G IH]; intros [|a] nd; cbn; auto. Qed.

  Lemma set_node_at : forall G a nd, a < length G -> nth_error (set_node G a nd) a = Some nd.
  Proof. induction G as [|x G IH]; intros [|a] nd H; cbn in *; try lia; [reflexivity|]. apply IH. lia. Qed.

  Lemma set_node_other : forall G a nd m, m <> a -> nth_error (set_node G a nd) m = nth_error G m.
  Proof. induction G as [|x G IH]; intros [|a] nd [|m] H; cbn; try reflexivity; try contradiction. apply IH. lia. Qed.

  (** nothing happens at a node which is still *)
  Lemma hom_list_still : forall G (f : graph -> nat -> hres) ops, (forall p, In p ops -> f G (snd p) = HDone G) -> hom_list f ops G = HDone G.
  Proof.
    intros G f ops. induction ops as [|[s a] ops IH]; intro H; [reflexivity|]. cbn [hom_list].
    pose proof (H (s, a) (or_introl eq_refl)) as E. cbn in E. rewrite E. apply IH. intros; apply H; right; assumption.
  Qed.

  Lemma sequence_homogenize_fix : forall (es es' : list (bool * expr F)),
    sequence (map (fun p => match homogenize fs rho vs h (snd p) with Some e' => Some (fst p, e') | None => None end) es) = Some es' ->
    Forall (fun p => homogenize fs rho vs h (snd p) = Some (snd p)) es -> es' = es.
  Proof.
    intros es es' E H. revert es' E. induction H as [|[s e] es He H IH]; intros es' E; cbn [map sequence fst snd] in *.
    - injection E as <-. reflexivity.
    - rewrite He in E. destruct (sequence _) as [r|] eqn:Er in E; [|discriminate]. injection E as <-. f_equal. apply IH. exact Er.
  Qed.

  Lemma still_noop : forall k0 G a e, still G a -> unfold k0 G None a = Some e -> forall k, k0 <= k -> hom_graph k G a = HDone G.
  Proof.
    induction k0 as [|k0 IH]; intros G a e Hs Hu k Hk; [discriminate|]. destruct k as [|k]; [lia|].
    assert (Hu' := Hu). cbn [unfold] in Hu. cbn [hom_graph].
    destruct (nth_error G a) as [nd|] eqn:En; [|discriminate].
    assert (C : forall c, In c (children nd) -> still G c) by (intros c Hc; exact (closed_still G a nd c Hs En Hc)).
    assert (CE : forall c (e : expr F), In c (children nd) -> unfold k0 G None c = Some e ->
                 homogenize fs rho vs h e = Some e /\ hom_graph k G c = HDone G).
    { intros c ec Hc Hec. destruct (still_unfolds G c (C c Hc)) as [e1 [U1 H1]].
      assert (e1 = ec) as -> by (apply (unfolds_fun G None c); [assumption|exists k0; assumption]).
      split; [assumption|]. apply (IH G c ec (C c Hc) Hec). lia. }
    destruct nd as [kd c| |x|ops|ops|c|c z|b c|f c|c]; cbn [children] in C, CE; try reflexivity.
    - destruct (sequence _) as [es|] eqn:Es in Hu; [|discriminate]. injection Hu as <-.
      pose proof (sequence_map_some _ _ _ _ _ Es) as F2.
      assert (F2' : Forall2 (fun p q => fst p = fst q /\ unfold k0 G None (snd p) = Some (snd q)) ops es).
      { clear - F2. induction F2 as [|p q ops es Hp F2 IHf]; constructor; [|assumption]. clear F2 IHf. destruct (unfold k0 G None (snd p)) as [e0|] eqn:E0; [|discriminate].
        injection Hp as <-. cbn. auto. }
      assert (HF : Forall (fun p => homogenize fs rho vs h (snd p) = Some (snd p)) es /\ forall p, In p ops -> hom_graph k G (snd p) = HDone G).
      { clear Es F2 Hu' En C. induction F2' as [|p q ops es [H1 H2] H IHl]; [split; [constructor|intros p []]|].
        destruct (CE (snd p) (snd q) (or_introl eq_refl) H2) as [A B].
        destruct IHl as [IH1 IH2]; [intros c e Hc; apply CE; right; assumption|].
        split; [constructor; assumption|]. intros p0 [<-|Hp0]; auto. }
      destruct HF as [HF1 HF2].
      rewrite (hom_list_still G (hom_graph k) ops HF2).
      assert (EU : opt_map_list (fun p : bool * nat => unfold k G None (snd p)) ops = Some (map snd es)).
      { unfold opt_map_list. clear Es F2 Hu' En C CE HF1 HF2. induction F2' as [|p q ops es [H1 H2] H IHl]; [reflexivity|].
        cbn [map sequence]. rewrite (unfold_mono _ _ _ _ _ H2 k ltac:(lia)), IHl. reflexivity. }
      rewrite EU. destruct (still_unfolds G a Hs) as [e1 [U1 H1]].
      assert (e1 = Sum es) as -> by (apply (unfolds_fun G None a); [assumption|exists (S k0); assumption]).
      cbn [homogenize] in H1. destruct (sequence _) as [es'|] eqn:Es' in H1; [|discriminate].
      rewrite (sequence_homogenize_fix es es' Es' HF1) in H1.
      rewrite map_map. destruct (existsb _ _) eqn:Ex in H1; [discriminate|]. rewrite Ex. injection H1 as H1.
      set (degs := map (fun p : bool * expr F => gdegree fs rho vs (snd p)) es) in *.
      set (M := fold_left Z.max degs 0%Z) in *.
      assert (HM : Forall (fun p => (M - gdegree fs rho vs (snd p) <= 0)%Z) es).
      { clearbody M. clear - H1. induction es as [|[s e] es IHe]; constructor; cbn [map fst snd] in *.
        - injection H1 as H1 _. exact (raise_degree_id _ _ H1).
        - injection H1 as _ H1. apply IHe. exact H1. }
      rewrite raise_ops_none.
      + replace (map _ (combine ops degs)) with ops; [rewrite (set_node_same G a (GSum ops) En); reflexivity|].
        unfold degs. assert (L : length ops = length es) by (apply (F2_length _ _ _ _ _ F2')). clear - L.
        revert es L. induction ops as [|[s b] ops IHo]; intros [|p es] L; cbn in *; try discriminate; [reflexivity|].
        f_equal. apply IHo. congruence.
      + unfold degs. clearbody M. clear - HM. revert ops. induction HM as [|p es Hp HM IHm]; intros [|q ops]; cbn; constructor; auto.
    - destruct (sequence _) as [es|] eqn:Es in Hu; [|discriminate].
      apply hom_list_still. intros p Hp. pose proof (sequence_map_some _ _ _ _ _ Es) as F2.
      assert (exists e0, unfold k0 G None (snd p) = Some e0) as [e0 He0].
      { clear - F2 Hp. induction F2 as [|q q' ops es Hq F2 IHf]; [destruct Hp|]. destruct Hp as [->|Hp]; [|auto].
        destruct (unfold k0 G None (snd p)); [eauto|discriminate]. }
      exact (proj2 (CE (snd p) e0 (in_map snd _ _ Hp) He0)).
    - destruct (unfold k0 G None c) as [e0|] eqn:E0; [|discriminate]. exact (proj2 (CE c e0 (or_introl eq_refl) E0)).
    - destruct (unfold k0 G None c) as [e0|] eqn:E0; [|discriminate]. exact (proj2 (CE c e0 (or_introl eq_refl) E0)).
    - destruct (unfold k0 G None b) as [eb|] eqn:Eb; [|discriminate]. destruct (unfold k0 G None c) as [ec|] eqn:Ec; [|discriminate].
      injection Hu as <-. rewrite (unfold_mono _ _ _ _ _ Ec k ltac:(lia)). destruct (still_unfolds G a Hs) as [e1 [U1 H1]].
      assert (e1 = Pow eb ec) as -> by (apply (unfolds_fun G None a); [assumption|exists (S k0); assumption]).
      cbn [homogenize] in H1. destruct (gdegree fs rho vs ec =? 0)%Z; [|discriminate].
      exact (proj2 (CE b eb (or_introl eq_refl) Eb)).
    - destruct (unfold k0 G None c) as [e0|] eqn:E0; [|discriminate]. exact (proj2 (CE c e0 (or_introl eq_refl) E0)).
    - destruct (unfold k0 G None c) as [e0|] eqn:E0; [|discriminate]. exact (proj2 (CE c e0 (or_introl eq_refl) E0)).
  Qed.

  (** *** properties of the ownership relation *)
  Lemma owns_facts : forall G,
    (forall a e fp, owns G a e fp -> unfolds G None a e /\ (forall m, reach G a m -> In m fp \/ still G m) /\
       (forall m, In m fp -> ~ still G m /\ m < length G)) /\
    (forall ops es fp, owns_ops G ops es fp ->
       Forall2 (fun p q => fst p = fst q /\ unfolds G None (snd p) (snd q)) ops es /\
       (forall p m, In p ops -> reach G (snd p) m -> In m fp \/ still G m) /\
       (forall m, In m fp -> ~ still G m /\ m < length G)).
  Proof.
    intro G.
    assert (LT : forall a nd, nth_error G a = Some nd -> a < length G) by (intros a nd H; apply nth_error_Some; congruence).
    assert (One : forall a nd c e fp, nth_error G a = Some nd -> children nd = [c] -> ~ still G a ->
      unfolds G None c e /\ (forall m, reach G c m -> In m fp \/ still G m) /\ (forall m, In m fp -> ~ still G m /\ m < length G) ->
      (forall m, reach G a m -> In m (a :: fp) \/ still G m) /\ (forall m, In m (a :: fp) -> ~ still G m /\ m < length G)).
    { intros a nd c e fp En Hch Hns [_ [H2 H3]]. split.
      - intros m Hm. destruct (reach_inv G a nd m En Hm) as [->|[c' [Hc' Hm']]]; [left; left; reflexivity|].
        rewrite Hch in Hc'. destruct Hc' as [<-|[]]. destruct (H2 m Hm'); [left; right; assumption|right; assumption].
      - intros m [<-|Hm]; [split; [assumption|exact (LT _ _ En)]|auto]. }
    assert (Nary : forall a nd (ops : list (bool * nat)) (es : list (bool * expr F)) fp, nth_error G a = Some nd -> children nd = map snd ops -> ~ still G a ->
      Forall2 (fun p q => fst p = fst q /\ unfolds G None (snd p) (snd q)) ops es /\
      (forall p m, In p ops -> reach G (snd p) m -> In m fp \/ still G m) /\ (forall m, In m fp -> ~ still G m /\ m < length G) ->
      (forall m, reach G a m -> In m (a :: fp) \/ still G m) /\ (forall m, In m (a :: fp) -> ~ still G m /\ m < length G)).
    { intros a nd ops es fp En Hch Hns [_ [H2 H3]]. split.
      - intros m Hm. destruct (reach_inv G a nd m En Hm) as [->|[c' [Hc' Hm']]]; [left; left; reflexivity|].
        rewrite Hch in Hc'. apply in_map_iff in Hc' as [p [<- Hp]]. destruct (H2 p m Hp Hm'); [left; right; assumption|right; assumption].
      - intros m [<-|Hm]; [split; [assumption|exact (LT _ _ En)]|auto]. }
    apply owns_both.
    - intros a e Hs Hu. split; [assumption|]. split; [|intros m []]. intros m Hm. right. eapply still_reach; eassumption.
    - intros a ops es fp En Hns Ho IH. split; [apply (unfolds_sum G None a ops es En); apply IH|].
      exact (Nary a _ ops es fp En eq_refl Hns IH).
    - intros a ops es fp En Hns Ho IH. split; [apply (unfolds_mul G None a ops es En); apply IH|].
      exact (Nary a _ ops es fp En eq_refl Hns IH).
    - intros a c e fp En Hns Ho IH. split; [|exact (One a _ c e fp En eq_refl Hns IH)].
      destruct IH as [[k Hk] _]. exists (S k). cbn [unfold]. rewrite En, Hk. reflexivity.
    - intros a c z e fp En Hns Ho IH. split; [|exact (One a _ c e fp En eq_refl Hns IH)].
      destruct IH as [[k Hk] _]. exists (S k). cbn [unfold]. rewrite En, Hk. reflexivity.
    - intros a f c e fp En Hns Ho IH. split; [|exact (One a _ c e fp En eq_refl Hns IH)].
      destruct IH as [[k Hk] _]. exists (S k). cbn [unfold]. rewrite En, Hk. reflexivity.
    - intros a c e fp En Hns Ho IH. split; [|exact (One a _ c e fp En eq_refl Hns IH)].
      destruct IH as [[k Hk] _]. exists (S k). cbn [unfold]. rewrite En, Hk. reflexivity.
    - intros a b x eb ex fpb fpx En Hns Hob IHb Hox IHx. destruct IHb as [[kb Ub] [Rb Nb]], IHx as [[kx Ux] [Rx Nx]].
      split; [|split].
      + exists (S (kb + kx)). cbn [unfold]. rewrite En.
        rewrite (unfold_mono _ _ _ _ _ Ub (kb + kx) ltac:(lia)), (unfold_mono _ _ _ _ _ Ux (kb + kx) ltac:(lia)). reflexivity.
      + intros m Hm. destruct (reach_inv G a _ m En Hm) as [->|[c' [Hc' Hm']]]; [left; left; reflexivity|].
        cbn in Hc'. destruct Hc' as [<-|[<-|[]]].
        * destruct (Rb m Hm'); [left; right; apply in_or_app; auto|auto].
        * destruct (Rx m Hm'); [left; right; apply in_or_app; auto|auto].
      + intros m [<-|Hm]; [split; [assumption|exact (LT _ _ En)]|]. apply in_app_or in Hm as [Hm|Hm]; auto.
    - split; [constructor|]. split; [intros p m []|intros m []].
    - intros s a e r es f1 f2 Ho IH1 Hr IH2. destruct IH1 as [U1 [R1 N1]], IH2 as [U2 [R2 N2]]. split; [constructor; auto|]. split.
      + intros p m [<-|Hp] Hm; [destruct (R1 m Hm)|destruct (R2 p m Hp Hm)]; auto; left; apply in_or_app; auto.
      + intros m Hm. apply in_app_or in Hm as [Hm|Hm]; auto.
  Qed.

  (** [G1] is a later state of [G], in which the nodes of [fp] and the still ones are as they were *)
  Definition later (G G1 : graph) (fp : list nat) : Prop :=
    length G <= length G1 /\ agree G G1 (fun m => In m fp \/ still G m).

  (** after the call: the new graph [G2] extends [G1], differs only at nodes of [fp]; the nodes below [a] are
      those of a set [P], which has only nodes of [fp], still and new ones *)
  Definition outcome_ok (G G1 G2 : graph) (fp : list nat) (P : nat -> Prop) : Prop :=
    length G1 <= length G2 /\ (forall m, m < length G1 -> ~ In m fp -> nth_error G2 m = nth_error G1 m) /\
    closed G2 P /\ (forall m, P m -> m < length G2 /\ (In m fp \/ still G m \/ length G1 <= m)).

  Lemma raise_ops_ok : forall G P m (ops : list (bool * nat)) (es : list (bool * expr F)),
    nth_error G h = Some GVar -> closed G P -> (forall x, P x -> x < length G) ->
    Forall2 (fun p q => fst p = fst q /\ unfolds G None (snd p) (snd q)) ops es -> (forall p, In p ops -> P (snd p)) ->
    exists G' ops', raise_ops G m (combine ops (map (fun q => gdegree fs rho vs (snd q)) es)) = (G', ops') /\
      (exists extra, G' = G ++ extra) /\
      Forall2 (fun p q => fst p = fst q /\ unfolds G' None (snd p) (snd q)) ops'
              (map (fun q => (fst q, raise_degree h (m - gdegree fs rho vs (snd q)) (snd q))) es) /\
      closed G' (fun x => P x \/ x = h \/ (length G <= x < length G')) /\
      (forall p, In p ops' -> P (snd p) \/ snd p = h \/ (length G <= snd p < length G')).
  Proof.
    intros G P m ops es. revert es G P.
    assert (Ext : forall (G extra : graph) (P : nat -> Prop), (forall x, P x -> x < length G) -> agree G (G ++ extra) P).
    { intros G extra P HP x Hx. apply nth_error_app1. apply HP; assumption. }
    assert (Hclosed_h : forall G, nth_error G h = Some GVar -> forall nd c, nth_error G h = Some nd -> ~ In c (children nd)).
    { intros G Hh nd c E. rewrite Hh in E. injection E as <-. intros []. }
    induction ops as [|[s a] ops IH]; intros es G P Hh HC HP F2 Ho.
    - inversion F2; subst. exists G, []. cbn [combine raise_ops map]. split; [reflexivity|].
      split; [exists []; rewrite app_nil_r; reflexivity|]. split; [constructor|]. split; [|intros p []].
      intros x nd c [Hx|[->|Hx]] En Hc; [left; exact (HC x nd c Hx En Hc)|exfalso; exact (Hclosed_h G Hh nd c En Hc)|lia].
    - destruct es as [|[s' e] es]; [inversion F2|]. inversion F2 as [|? ? ? ? [Hs Hu] F2']; subst. cbn [fst snd] in Hs, Hu. subst s'.
      assert (Pa : P a) by (exact (Ho (s, a) (or_introl eq_refl))).
      cbn [combine raise_ops map fst snd].
      (* the graph after raising the first operand *)
      assert (Step : exists extra a1, raise_node G (m - gdegree fs rho vs e) a = (G ++ extra, a1) /\
                unfolds (G ++ extra) None a1 (raise_degree h (m - gdegree fs rho vs e) e) /\
                closed (G ++ extra) (fun x => P x \/ x = h \/ (length G <= x < length (G ++ extra))) /\
                (P a1 \/ length G <= a1 < length (G ++ extra))).
      { unfold raise_node, raise_degree. set (d := (m - gdegree fs rho vs e)%Z).
        destruct (d <=? 0)%Z.
        { exists [], a. rewrite app_nil_r. split; [reflexivity|]. split; [assumption|]. split; [|left; assumption].
          intros x nd c [Hx|[->|Hx]] En Hc; [left; exact (HC x nd c Hx En Hc)|exfalso; exact (Hclosed_h G Hh nd c En Hc)|lia]. }
        destruct (d =? 1)%Z.
        { exists [GMul [(true, h); (true, a)]], (length G). split; [reflexivity|].
          pose proof (Ext G [GMul [(true, h); (true, a)]] P HP) as HA.
          assert (Eh : nth_error (G ++ [GMul [(true, h); (true, a)]]) h = Some GVar).
          { rewrite nth_error_app1; [assumption|]. apply nth_error_Some. congruence. }
          assert (En0 : nth_error (G ++ [GMul [(true, h); (true, a)]]) (length G) = Some (GMul [(true, h); (true, a)])).
          { rewrite nth_error_app2, Nat.sub_diag by lia. reflexivity. }
          split; [|split; [|right; rewrite app_length; cbn; lia]].
          - apply (unfolds_mul _ None _ _ _ En0). constructor; [|constructor; [|constructor]].
            + split; [reflexivity|]. exists 1. cbn [snd unfold]. rewrite Eh. reflexivity.
            + split; [reflexivity|]. exact (unfolds_agree G _ P HC HA None a e Pa Hu).
          - intros x nd c [Hx|[->|Hx]] En Hc; [left; rewrite (HA x Hx) in En; exact (HC x nd c Hx En Hc)| |].
            + exfalso. exact (Hclosed_h _ Eh nd c En Hc).
            + rewrite app_length in Hx. cbn in Hx. assert (x = length G) as -> by lia. rewrite En0 in En. injection En as <-.
              cbn in Hc. destruct Hc as [<-|[<-|[]]]; auto. }
        { exists [GIPow h d; GMul [(true, length G); (true, a)]], (S (length G)). split; [reflexivity|].
          pose proof (Ext G [GIPow h d; GMul [(true, length G); (true, a)]] P HP) as HA.
          assert (Eh : nth_error (G ++ [GIPow h d; GMul [(true, length G); (true, a)]]) h = Some GVar).
          { rewrite nth_error_app1; [assumption|]. apply nth_error_Some. congruence. }
          assert (En0 : nth_error (G ++ [GIPow h d; GMul [(true, length G); (true, a)]]) (length G) = Some (GIPow h d)).
          { rewrite nth_error_app2, Nat.sub_diag by lia. reflexivity. }
          assert (En1 : nth_error (G ++ [GIPow h d; GMul [(true, length G); (true, a)]]) (S (length G)) = Some (GMul [(true, length G); (true, a)])).
          { rewrite nth_error_app2 by lia. replace (S (length G) - length G) with 1 by lia. reflexivity. }
          split; [|split; [|right; rewrite app_length; cbn; lia]].
          - apply (unfolds_mul _ None _ _ _ En1). constructor; [|constructor; [|constructor]].
            + split; [reflexivity|]. exists 2. cbn [snd unfold]. rewrite En0, Eh. reflexivity.
            + split; [reflexivity|]. exact (unfolds_agree G _ P HC HA None a e Pa Hu).
          - intros x nd c [Hx|[->|Hx]] En Hc; [left; rewrite (HA x Hx) in En; exact (HC x nd c Hx En Hc)| |].
            + exfalso. exact (Hclosed_h _ Eh nd c En Hc).
            + rewrite app_length in Hx. cbn in Hx. assert (x = length G \/ x = S (length G)) as [->| ->] by lia.
              * rewrite En0 in En. injection En as <-. cbn in Hc. destruct Hc as [<-|[]]; auto.
              * rewrite En1 in En. injection En as <-. cbn in Hc. destruct Hc as [<-|[<-|[]]]; auto.
                right; right. rewrite app_length. cbn. lia. } }
      destruct Step as [extra [a1 [Er [Ua1 [HC1 Ha1]]]]]. rewrite Er.
      assert (Hh1 : nth_error (G ++ extra) h = Some GVar).
      { rewrite nth_error_app1; [assumption|]. apply nth_error_Some. congruence. }
      assert (HP1 : forall x, (P x \/ x = h \/ (length G <= x < length (G ++ extra))) -> x < length (G ++ extra)).
      { intros x [Hx|[->|Hx]]; [specialize (HP x Hx); rewrite app_length; lia| |lia].
        apply nth_error_Some. congruence. }
      assert (F2'' : Forall2 (fun p q => fst p = fst q /\ unfolds (G ++ extra) None (snd p) (snd q)) ops es).
      { assert (Ho' : forall p, In p ops -> P (snd p)) by (intros; apply Ho; right; assumption).
        pose proof (Ext G extra P HP) as HA. clear - F2' Ho' HA HC.
        induction F2' as [|p q ops es [H1 H2] Fr IHf]; constructor.
        - split; [assumption|]. apply (unfolds_agree G _ P HC HA); [apply Ho'; left; reflexivity|assumption].
        - apply IHf. intros; apply Ho'; right; assumption. }
      destruct (IH es (G ++ extra) _ Hh1 HC1 HP1 F2'') as [G' [ops' [E' [[extra' ->] [F2o [HC' Hops']]]]]].
      { intros p Hp. left. apply Ho. right; assumption. }
      exists ((G ++ extra) ++ extra'), ((s, a1) :: ops'). rewrite E'. split; [reflexivity|].
      split; [exists (extra ++ extra'); rewrite app_assoc; reflexivity|]. split; [|split].
      + constructor; [|assumption]. split; [reflexivity|]. cbn [fst snd].
        refine (unfolds_agree (G ++ extra) _ _ HC1 _ None a1 _ _ Ua1).
        * apply Ext. exact HP1.
        * destruct Ha1; auto.
      + intros x nd c Hx En Hc.
        assert (Hx' : (P x \/ x = h \/ length G <= x < length (G ++ extra)) \/ x = h \/ length (G ++ extra) <= x < length ((G ++ extra) ++ extra')).
        { destruct Hx as [Hx|[->|Hx]]; [left; left; assumption|right; left; reflexivity|].
          destruct (le_lt_dec (length (G ++ extra)) x); [right; right; lia|left; right; right; lia]. }
        destruct (HC' x nd c Hx' En Hc) as [[Q|[Q|Q]]|[Q|Q]]; auto; right; right; rewrite !app_length in *; lia.
      + intros p [<-|Hp]; cbn [snd].
        * destruct Ha1 as [Q|Q]; [left; assumption|right; right; rewrite !app_length in *; lia].
        * destruct (Hops' p Hp) as [[Q|[Q|Q]]|[Q|Q]]; auto; right; right; rewrite !app_length in *; lia.
  Qed.

  Notation hgz := (homogenize fs rho vs h).
  Definition hgz_op (p : bool * expr F) : option (bool * expr F) :=
    match hgz (snd p) with Some e' => Some (fst p, e') | None => None end.

  Definition hom_spec (G : graph) (a : nat) (e : expr F) (fp : list nat) : Prop :=
    NoDup fp -> forall G1, later G G1 fp ->
    (forall e', hgz e = Some e' ->
       exists G2 N P, (forall k, N <= k -> hom_graph k G1 a = HDone G2) /\ outcome_ok G G1 G2 fp P /\ P a /\ unfolds G2 None a e') /\
    (hgz e = None -> exists G2 N, forall k, N <= k -> hom_graph k G1 a = HThrow G2).

  Definition hom_ops_spec (G : graph) (ops : list (bool * nat)) (es : list (bool * expr F)) (fp : list nat) : Prop :=
    NoDup fp -> forall G1, later G G1 fp ->
    (forall es', sequence (map hgz_op es) = Some es' ->
       exists G2 N P, (forall k, N <= k -> hom_list (hom_graph k) ops G1 = HDone G2) /\ outcome_ok G G1 G2 fp P /\
         (forall p, In p ops -> P (snd p)) /\
         Forall2 (fun p q => fst p = fst q /\ unfolds G2 None (snd p) (snd q)) ops es') /\
    (sequence (map hgz_op es) = None -> exists G2 N, forall k, N <= k -> hom_list (hom_graph k) ops G1 = HThrow G2).

  Lemma NoDup_app_inv : forall (A : Type) (l1 l2 : list A), NoDup (l1 ++ l2) -> NoDup l1 /\ NoDup l2 /\ forall x, In x l1 -> ~ In x l2.
  Proof.
    intros A l1 l2. induction l1 as [|x l1 IH]; cbn; intro H; [repeat split; auto; constructor|].
    inversion H as [|? ? Hx Hn]; subst. destruct (IH Hn) as [A1 [A2 A3]]. split; [|split; [assumption|]].
    - constructor; [|assumption]. intro Hi. apply Hx. apply in_or_app. auto.
    - intros y [<-|Hy]; [intro Hi; apply Hx; apply in_or_app; auto|auto].
  Qed.

  (** a node with one operand that is homogenized *)
  Lemma unary_spec : forall G a nd c e fp (build : expr F -> expr F),
    nth_error G a = Some nd -> children nd = [c] -> ~ still G a -> hom_spec G c e fp ->
    (forall m, reach G c m -> In m fp \/ still G m) -> (forall m, In m fp -> ~ still G m /\ m < length G) ->
    (forall k G1, nth_error G1 a = Some nd -> hom_graph (S k) G1 a = hom_graph k G1 c) ->
    (hgz (build e) = option_map build (hgz e)) ->
    (forall G2 e', nth_error G2 a = Some nd -> unfolds G2 None c e' -> unfolds G2 None a (build e')) ->
    hom_spec G a (build e) (a :: fp).
  Proof.
    intros G a nd c e fp build En Hch Hns IH HR HF Hstep Hbuild Hunf Hnd G1 [Hlen Hag].
    inversion Hnd as [|? ? Ha Hnd']; subst.
    assert (Ena : nth_error G1 a = Some nd) by (rewrite Hag; [assumption|left; left; reflexivity]).
    assert (Hal : a < length G1) by (apply nth_error_Some; congruence).
    assert (HL : later G G1 fp) by (split; [assumption|]; intros m [Hm|Hm]; apply Hag; [left; right; assumption|right; assumption]).
    destruct (IH Hnd' G1 HL) as [IHs IHn]. rewrite Hbuild. split.
    - intros e' He'. destruct (hgz e) as [ec|] eqn:Eh; [|discriminate]. injection He' as <-.
      destruct (IHs ec eq_refl) as [G2 [N [P [H1 [[O1 [O2 [O3 O4]]] [H3 H4]]]]]].
      assert (Ena2 : nth_error G2 a = Some nd) by (rewrite O2; assumption).
      exists G2, (S N), (fun m => m = a \/ P m). split; [|split; [split; [|split; [|split]]|split]].
      + intros [|k] Hk; [lia|]. rewrite (Hstep k G1 Ena). apply H1. lia.
      + assumption.
      + intros m Hm Hn. apply O2; [assumption|]. intro Hi. apply Hn. right; assumption.
      + intros m nd' c' [->|Hm] Em Hc'; [|right; exact (O3 m nd' c' Hm Em Hc')].
        rewrite Ena2 in Em. injection Em as <-. rewrite Hch in Hc'. destruct Hc' as [<-|[]]. right; assumption.
      + intros m [->|Hm]; [split; [lia|left; left; reflexivity]|]. destruct (O4 m Hm) as [Q1 [Q2|Q2]]; auto. split; [assumption|left; right; assumption].
      + left; reflexivity.
      + apply Hunf; assumption.
    - intro He. destruct (hgz e) as [ec|] eqn:Eh; [discriminate|]. destruct (IHn eq_refl) as [G2 [N H1]].
      exists G2, (S N). intros [|k] Hk; [lia|]. rewrite (Hstep k G1 Ena). apply H1. lia.
  Qed.

  Lemma hom_main : forall G, nth_error G h = Some GVar ->
    (forall a e fp, owns G a e fp -> hom_spec G a e fp) /\
    (forall ops es fp, owns_ops G ops es fp -> hom_ops_spec G ops es fp).
  Proof.
    intros G Hh. pose proof (owns_facts G) as [Facts FactsL].
    assert (Sh : still G h).
    { intros m Hm. destruct (reach_inv G h _ m Hh Hm) as [->|[c [[] _]]]. exists (Var h). split; [|reflexivity].
      exists 1. cbn [unfold]. rewrite Hh. reflexivity. }
    apply owns_both.
    - (* still *)
      intros a e Hs Hu _ G1 [Hlen Hag].
      assert (HA : agree G G1 (still G)) by (intros m Hm; apply Hag; right; assumption).
      destruct (still_unfolds G a Hs) as [e1 [U1 H1]]. assert (e1 = e) as -> by (apply (unfolds_fun G None a); assumption).
      rewrite H1. split; [|discriminate]. intros e' He'. injection He' as <-.
      assert (Hs1 : still G1 a).
      { intros m Hm. assert (Q : still G m /\ True).
        { split; [|exact I]. induction Hm as [|m nd c Hm IHm Em Hc]; [assumption|]. rewrite (HA m IHm) in Em.
          exact (closed_still G m nd c IHm Em Hc). }
        destruct Q as [Q _]. destruct (still_unfolds G m Q) as [em [Um Hem]]. exists em. split; [|assumption].
        exact (unfolds_agree G G1 (still G) (closed_still G) HA None m em Q Um). }
      assert (U1' : unfolds G1 None a e) by (exact (unfolds_agree G G1 (still G) (closed_still G) HA None a e Hs Hu)).
      destruct U1' as [k0 U1']. exists G1, k0, (still G).
      split; [intros k Hk; exact (still_noop k0 G1 a e Hs1 U1' k Hk)|].
      split; [|split; [assumption|exists k0; assumption]]. split; [lia|]. split; [reflexivity|].
      split; [exact (agree_closed G G1 _ (closed_still G) HA)|]. intros m Hm. split; [|auto].
      destruct (still_unfolds G m Hm) as [em [Um _]]. destruct (unfolds_node _ _ _ _ Um) as [nd En].
      assert (m < length G) by (apply nth_error_Some; congruence). lia.
    - (* sum *)
      intros a ops es fp En Hns Ho IH. destruct (FactsL ops es fp Ho) as [U0 [R0 N0]].
      intros Hnd G1 [Hlen Hag]. inversion Hnd as [|? ? Ha Hnd']; subst.
      assert (Ena : nth_error G1 a = Some (GSum ops)) by (rewrite Hag; [assumption|left; left; reflexivity]).
      assert (Hal : a < length G) by (apply nth_error_Some; congruence).
      assert (HL : later G G1 fp) by (split; [assumption|]; intros m [Hm|Hm]; apply Hag; [left; right; assumption|right; assumption]).
      destruct (IH Hnd' G1 HL) as [IHs IHn]. cbn [homogenize]. fold hgz_op. change (fun p => match hgz (snd p) with Some e' => Some (fst p, e') | None => None end) with hgz_op.
      destruct (sequence (map hgz_op es)) as [es'|] eqn:Es.
      2:{ split; [discriminate|]. intros _. destruct (IHn eq_refl) as [G2 [N H1]]. exists G2, (S N). intros [|k] Hk; [lia|].
          cbn [hom_graph]. rewrite Ena, H1 by lia. reflexivity. }
      destruct (IHs es' eq_refl) as [G2 [N [P [H1 [[O1 [O2 [O3 O4]]] [H3 H4]]]]]].
      destruct (unfolds_common _ _ _ _ H4) as [N2 HN2].
      assert (EU : forall k, N2 <= k -> opt_map_list (fun p : bool * nat => unfold k G2 None (snd p)) ops = Some (map snd es')).
      { intros k Hk. specialize (HN2 k Hk). unfold opt_map_list. clear - HN2. induction HN2 as [|p q ops es [_ Q] H IHl]; [reflexivity|].
        cbn [map sequence]. rewrite Q, IHl. reflexivity. }
      assert (Hh2 : nth_error G2 h = Some GVar).
      { rewrite O2; [rewrite Hag; [assumption|right; assumption]| |].
        - assert (h < length G) by (apply nth_error_Some; congruence). lia.
        - intro Hi. exact (proj1 (N0 h Hi) Sh). }
      destruct (existsb (fun d => (d <? 0)%Z) (map (fun p => gdegree fs rho vs (snd p)) es')) eqn:Ex.
      { split; [discriminate|]. intros _. exists G2, (S (max N N2)). intros [|k] Hk; [lia|].
        cbn [hom_graph]. rewrite Ena, H1 by lia. rewrite (EU k ltac:(lia)), map_map, Ex. reflexivity. }
      split; [|discriminate]. intros e' He'. injection He' as <-.
      set (M := fold_left Z.max (map (fun p => gdegree fs rho vs (snd p)) es') 0%Z) in *.
      destruct (raise_ops_ok G2 P M ops es' Hh2 O3 (fun x Hx => proj1 (O4 x Hx)) H4 H3) as [G3 [ops3 [E3 [[extra ->] [F3 [C3 Hops3]]]]]].
      set (P3 := fun x => P x \/ x = h \/ length G2 <= x < length (G2 ++ extra)) in *.
      set (G4 := set_node (G2 ++ extra) a (GSum ops3)).
      assert (HaP : ~ P3 a).
      { intros [Q|[Q|Q]]; [|subst a; exact (Hns Sh)|lia]. destruct (O4 a Q) as [_ [Q1|[Q1|Q1]]]; [exact (Ha Q1)|exact (Hns Q1)|lia]. }
      assert (HA4 : agree (G2 ++ extra) G4 P3).
      { intros m Hm. unfold G4. apply set_node_other. intros ->. exact (HaP Hm). }
      assert (C4 : closed G4 P3) by (exact (agree_closed _ _ _ C3 HA4)).
      assert (Ea4 : nth_error G4 a = Some (GSum ops3)) by (unfold G4; apply set_node_at; rewrite app_length; lia).
      assert (L4 : length G4 = length (G2 ++ extra)) by (apply set_node_length).
      exists G4, (S (max N N2)), (fun m => m = a \/ P3 m). split; [|split; [split; [|split; [|split]]|split]].
      + intros [|k] Hk; [lia|]. cbn [hom_graph]. rewrite Ena, H1 by lia. rewrite (EU k ltac:(lia)), map_map, Ex.
        change (fold_left Z.max (map (fun x : bool * expr F => gdegree fs rho vs (snd x)) es') 0%Z) with M. rewrite E3. reflexivity.
      + rewrite L4, app_length. lia.
      + intros m Hm Hni. unfold G4. rewrite set_node_other by (intros ->; apply Hni; left; reflexivity).
        rewrite nth_error_app1 by lia. apply O2; [assumption|]. intro Hi. apply Hni. right; assumption.
      + intros m nd c [->|Hm] Em Hc; [|right; exact (C4 m nd c Hm Em Hc)].
        rewrite Ea4 in Em. injection Em as <-. cbn in Hc. apply in_map_iff in Hc as [p [<- Hp]]. right. exact (Hops3 p Hp).
      + intros m [->|[Hm|[->|Hm]]].
        * split; [rewrite L4, app_length; lia|left; left; reflexivity].
        * destruct (O4 m Hm) as [Q1 [Q2|Q2]]; (split; [rewrite L4, app_length; lia|]); auto. left; right; assumption.
        * split; [|auto]. rewrite L4, app_length. assert (h < length G2) by (apply nth_error_Some; congruence). lia.
        * split; [rewrite L4; lia|]. right; right. lia.
      + left; reflexivity.
      + apply (unfolds_sum G4 None a ops3 _ Ea4).
        assert (Q : forall p, In p ops3 -> P3 (snd p)) by (exact Hops3). clearbody G4 P3 M. clear - F3 Q HA4 C3.
        induction F3 as [|p q ops es [Q1 Q2] Fr IHf]; [constructor|]. constructor; [|apply IHf; intros; apply Q; right; assumption].
        split; [assumption|]. exact (unfolds_agree _ _ _ C3 HA4 None _ _ (Q p (or_introl eq_refl)) Q2).
    - (* product *)
      intros a ops es fp En Hns Ho IH. intros Hnd G1 [Hlen Hag]. inversion Hnd as [|? ? Ha Hnd']; subst.
      assert (Ena : nth_error G1 a = Some (GMul ops)) by (rewrite Hag; [assumption|left; left; reflexivity]).
      assert (Hal : a < length G) by (apply nth_error_Some; congruence).
      assert (HL : later G G1 fp) by (split; [assumption|]; intros m [Hm|Hm]; apply Hag; [left; right; assumption|right; assumption]).
      destruct (IH Hnd' G1 HL) as [IHs IHn]. cbn [homogenize]. change (fun p => match hgz (snd p) with Some e' => Some (fst p, e') | None => None end) with hgz_op.
      destruct (sequence (map hgz_op es)) as [es'|] eqn:Es.
      2:{ split; [discriminate|]. intros _. destruct (IHn eq_refl) as [G2 [N H1]]. exists G2, (S N). intros [|k] Hk; [lia|].
          cbn [hom_graph]. rewrite Ena, H1 by lia. reflexivity. }
      split; [|discriminate]. intros e' He'. injection He' as <-.
      destruct (IHs es' eq_refl) as [G2 [N [P [H1 [[O1 [O2 [O3 O4]]] [H3 H4]]]]]].
      assert (Ena2 : nth_error G2 a = Some (GMul ops)) by (rewrite O2; [assumption|lia|assumption]).
      exists G2, (S N), (fun m => m = a \/ P m). split; [|split; [split; [|split; [|split]]|split]].
      + intros [|k] Hk; [lia|]. cbn [hom_graph]. rewrite Ena. apply H1. lia.
      + assumption.
      + intros m Hm Hn. apply O2; [assumption|]. intro Hi. apply Hn. right; assumption.
      + intros m nd' c' [->|Hm] Em Hc'; [|right; exact (O3 m nd' c' Hm Em Hc')].
        rewrite Ena2 in Em. injection Em as <-. cbn in Hc'. apply in_map_iff in Hc' as [p [<- Hp]]. right. exact (H3 p Hp).
      + intros m [->|Hm]; [split; [lia|left; left; reflexivity]|]. destruct (O4 m Hm) as [Q1 [Q2|Q2]]; auto. split; [assumption|left; right; assumption].
      + left; reflexivity.
      + exact (unfolds_mul G2 None a ops es' Ena2 H4).
    - intros a c e fp En Hns Ho IH. destruct (Facts _ _ _ Ho) as [_ [HR HF]].
      apply (unary_spec G a (GNeg c) c e fp Neg En eq_refl Hns IH HR HF); [|reflexivity|].
      + intros k G1 E. cbn [hom_graph]. rewrite E. reflexivity.
      + intros G2 e' E [k Hk]. exists (S k). cbn [unfold]. rewrite E, Hk. reflexivity.
    - intros a c z e fp En Hns Ho IH. destruct (Facts _ _ _ Ho) as [_ [HR HF]].
      apply (unary_spec G a (GIPow c z) c e fp (fun e => IPow e z) En eq_refl Hns IH HR HF); [|reflexivity|].
      + intros k G1 E. cbn [hom_graph]. rewrite E. reflexivity.
      + intros G2 e' E [k Hk]. exists (S k). cbn [unfold]. rewrite E, Hk. reflexivity.
    - intros a f c e fp En Hns Ho IH. destruct (Facts _ _ _ Ho) as [_ [HR HF]].
      apply (unary_spec G a (GFun f c) c e fp (Fun f) En eq_refl Hns IH HR HF); [|reflexivity|].
      + intros k G1 E. cbn [hom_graph]. rewrite E. reflexivity.
      + intros G2 e' E [k Hk]. exists (S k). cbn [unfold]. rewrite E, Hk. reflexivity.
    - intros a c e fp En Hns Ho IH. destruct (Facts _ _ _ Ho) as [_ [HR HF]].
      apply (unary_spec G a (GHandle c) c e fp Handle En eq_refl Hns IH HR HF); [|reflexivity|].
      + intros k G1 E. cbn [hom_graph]. rewrite E. reflexivity.
      + intros G2 e' E [k Hk]. exists (S k). cbn [unfold]. rewrite E, Hk. reflexivity.
    - (* power: the base is homogenized, the exponent must keep its meaning *)
      intros a b x eb ex fpb fpx En Hns Hob IHb Hox _. destruct (Facts _ _ _ Hob) as [_ [Rb Nb]]. destruct (Facts _ _ _ Hox) as [Ux [Rx Nx]].
      intros Hnd G1 [Hlen Hag]. inversion Hnd as [|? ? Ha Hnd']; subst. apply NoDup_app_inv in Hnd' as [Hndb [_ Hdis]].
      assert (Ena : nth_error G1 a = Some (GPow b x)) by (rewrite Hag; [assumption|left; left; reflexivity]).
      assert (Hal : a < length G) by (apply nth_error_Some; congruence).
      assert (HL : later G G1 fpb).
      { split; [assumption|]. intros m [Hm|Hm]; apply Hag; [left; right; apply in_or_app; auto|right; assumption]. }
      assert (HAx : agree G G1 (reach G x)).
      { intros m Hm. apply Hag. destruct (Rx m Hm); [left; right; apply in_or_app; auto|right; assumption]. }
      assert (Ux1 : unfolds G1 None x ex) by (exact (unfolds_agree G G1 _ (reach_closed G x) HAx None x ex (reach_refl G x) Ux)).
      destruct Ux1 as [kx Ux1]. cbn [homogenize]. destruct (IHb Hndb G1 HL) as [IHs IHn].
      destruct (gdegree fs rho vs ex =? 0)%Z eqn:Eg.
      2:{ split; [discriminate|]. intros _. exists G1, (S kx). intros [|k] Hk; [lia|]. cbn [hom_graph]. rewrite Ena.
          rewrite (unfold_mono _ _ _ _ _ Ux1 k ltac:(lia)), Eg. reflexivity. }
      split.
      + intros e' He'. destruct (hgz eb) as [eb'|] eqn:Eh; [|discriminate]. injection He' as <-.
        destruct (IHs eb' eq_refl) as [G2 [N [P [H1 [[O1 [O2 [O3 O4]]] [H3 H4]]]]]].
        assert (Ena2 : nth_error G2 a = Some (GPow b x)).
        { rewrite O2; [assumption|lia|]. intro Hi. apply Ha. apply in_or_app. auto. }
        assert (Hx1 : forall m, reach G x m -> m < length G1).
        { intros m Hm. destruct (Rx m Hm) as [Q|Q]; [destruct (Nx m Q); lia|].
          destruct (still_unfolds G m Q) as [em [Um _]]. destruct (unfolds_node _ _ _ _ Um) as [nd E].
          assert (m < length G) by (apply nth_error_Some; congruence). lia. }
        assert (HAx2 : agree G1 G2 (reach G x)).
        { intros m Hm. apply O2; [apply Hx1; assumption|]. intro Hi. destruct (Rx m Hm) as [Q|Q]; [exact (Hdis m Hi Q)|exact (proj1 (Nb m Hi) Q)]. }
        assert (Cx1 : closed G1 (reach G x)) by (exact (agree_closed _ _ _ (reach_closed G x) HAx)).
        exists G2, (S (max N kx)), (fun m => m = a \/ P m \/ reach G x m). split; [|split; [split; [|split; [|split]]|split]].
        * intros [|k] Hk; [lia|]. cbn [hom_graph]. rewrite Ena, (unfold_mono _ _ _ _ _ Ux1 k ltac:(lia)), Eg. apply H1. lia.
        * assumption.
        * intros m Hm Hn. apply O2; [assumption|]. intro Hi. apply Hn. right. apply in_or_app. auto.
        * intros m nd' c' [->|[Hm|Hm]] Em Hc'.
          -- rewrite Ena2 in Em. injection Em as <-. cbn in Hc'. destruct Hc' as [<-|[<-|[]]]; [right; left; assumption|right; right; constructor].
          -- right; left; exact (O3 m nd' c' Hm Em Hc').
          -- right; right. exact (agree_closed _ _ _ Cx1 HAx2 m nd' c' Hm Em Hc').
        * intros m [->|[Hm|Hm]].
          -- split; [lia|left; left; reflexivity].
          -- destruct (O4 m Hm) as [Q1 [Q2|Q2]]; auto. split; [assumption|left; right; apply in_or_app; auto].
          -- split; [specialize (Hx1 m Hm); lia|]. destruct (Rx m Hm) as [Q|Q]; [left; right; apply in_or_app; auto|auto].
        * left; reflexivity.
        * assert (Ux2 : unfolds G2 None x ex).
          { apply (unfolds_agree G1 G2 _ Cx1 HAx2 None x ex (reach_refl G x)). exists kx; assumption. }
          destruct H4 as [k1 H4], Ux2 as [k2 Ux2]. exists (S (k1 + k2)). cbn [unfold]. rewrite Ena2.
          rewrite (unfold_mono _ _ _ _ _ H4 (k1 + k2) ltac:(lia)), (unfold_mono _ _ _ _ _ Ux2 (k1 + k2) ltac:(lia)). reflexivity.
      + intro He. destruct (hgz eb) as [eb'|] eqn:Eh; [discriminate|]. destruct (IHn eq_refl) as [G2 [N H1]].
        exists G2, (S (max N kx)). intros [|k] Hk; [lia|]. cbn [hom_graph]. rewrite Ena, (unfold_mono _ _ _ _ _ Ux1 k ltac:(lia)), Eg. apply H1. lia.
    - (* no operands *)
      intros _ G1 [Hlen Hag]. split; [|discriminate]. intros es' E. injection E as <-.
      exists G1, 0, (fun _ => False). split; [reflexivity|]. split; [|split; [intros p []|constructor]].
      split; [lia|]. split; [reflexivity|]. split; [intros n nd c []|intros m []].
    - (* one operand and the rest *)
      intros s a e r es f1 f2 Ho IH1 Hr IH2. destruct (Facts _ _ _ Ho) as [_ [R1 N1]]. destruct (FactsL _ _ _ Hr) as [_ [R2 N2]].
      intros Hnd G1 [Hlen Hag]. apply NoDup_app_inv in Hnd as [Hnd1 [Hnd2 Hdis]].
      assert (HL1 : later G G1 f1).
      { split; [assumption|]. intros m [Hm|Hm]; apply Hag; [left; apply in_or_app; auto|right; assumption]. }
      assert (SL : forall m, still G m -> m < length G).
      { intros m Hm. destruct (still_unfolds G m Hm) as [em [Um _]]. destruct (unfolds_node _ _ _ _ Um) as [nd E]. apply nth_error_Some; congruence. }
      destruct (IH1 Hnd1 G1 HL1) as [IHs1 IHn1]. cbn [map sequence]. unfold hgz_op at 1 3. cbn [fst snd].
      destruct (hgz e) as [e'|] eqn:Eh.
      2:{ split; [discriminate|]. intros _. destruct (IHn1 eq_refl) as [G2 [N H1]]. exists G2, N. intros k Hk. cbn [hom_list]. rewrite (H1 k Hk). reflexivity. }
      destruct (IHs1 e' eq_refl) as [G2 [NA [P1 [H1 [[O1 [O2 [O3 O4]]] [H3 H4]]]]]].
      assert (HL2 : later G G2 f2).
      { split; [lia|]. intros m Hm. assert (Q : ~ In m f1 /\ m < length G).
        { destruct Hm as [Hm|Hm]; [split; [intro Hi; exact (Hdis m Hi Hm)|exact (proj2 (N2 m Hm))]|].
          split; [intro Hi; exact (proj1 (N1 m Hi) Hm)|exact (SL m Hm)]. }
        rewrite O2 by (try apply Q; lia). apply Hag. destruct Hm; [left; apply in_or_app; auto|auto]. }
      destruct (IH2 Hnd2 G2 HL2) as [IHs2 IHn2].
      destruct (sequence (map hgz_op es)) as [es'|] eqn:Es.
      2:{ split; [discriminate|]. intros _. destruct (IHn2 eq_refl) as [G3 [N H5]]. exists G3, (max NA N). intros k Hk.
          cbn [hom_list]. rewrite (H1 k ltac:(lia)). apply H5. lia. }
      split; [|discriminate]. intros es'' E. injection E as <-.
      destruct (IHs2 es' eq_refl) as [G3 [NB [P2 [H5 [[O5 [O6 [O7 O8]]] [H7 H8]]]]]].
      assert (HA : agree G2 G3 P1).
      { intros m Hm. destruct (O4 m Hm) as [Q1 Q2]. apply O6; [assumption|]. intro Hi. destruct (N2 m Hi) as [Q3 Q4].
        destruct Q2 as [Q2|[Q2|Q2]]; [exact (Hdis m Q2 Hi)|exact (Q3 Q2)|lia]. }
      exists G3, (max NA NB), (fun m => P1 m \/ P2 m). split; [|split; [split; [|split; [|split]]|split]].
      + intros k Hk. cbn [hom_list]. rewrite (H1 k ltac:(lia)). apply H5. lia.
      + lia.
      + intros m Hm Hn. rewrite O6; [apply O2; [assumption|]| |]; [intro Hi; apply Hn; apply in_or_app; auto|lia|intro Hi; apply Hn; apply in_or_app; auto].
      + intros m nd c [Hm|Hm] Em Hc; [left; exact (agree_closed _ _ _ O3 HA m nd c Hm Em Hc)|right; exact (O7 m nd c Hm Em Hc)].
      + intros m [Hm|Hm].
        * destruct (O4 m Hm) as [Q1 [Q2|[Q2|Q2]]]; (split; [lia|]); auto. left. apply in_or_app. auto.
        * destruct (O8 m Hm) as [Q1 [Q2|[Q2|Q2]]]; (split; [lia|]); auto; [left; apply in_or_app; auto|right; right; lia].
      + intros p [<-|Hp]; [left; assumption|right; exact (H7 p Hp)].
      + constructor; [|assumption]. split; [reflexivity|]. exact (unfolds_agree _ _ _ O3 HA None a e' H3 H4).
  Qed.

  (** functions with unshared work are homogenized as if they were separate trees *)
  Lemma hom_functions_list : forall k roots G, hom_functions k G roots = hom_list (hom_graph k) (map (fun a => (true, a)) roots) G.
  Proof. induction roots as [|a r IH]; intro G; [reflexivity|]. cbn. destruct (hom_graph k G a); auto. Qed.

  Lemma hom_functions_ok : forall G roots es, nth_error G h = Some GVar -> unshared_work G roots es ->
    (forall es', sequence (map hgz es) = Some es' ->
       exists G' N, (forall k, N <= k -> hom_functions k G roots = HDone G') /\ Forall2 (unfolds G' None) roots es') /\
    (sequence (map hgz es) = None -> exists G' N, forall k, N <= k -> hom_functions k G roots = HThrow G').
  Proof.
    intros G roots es Hh [fp [Ho Hnd]].
    assert (HL : later G G fp) by (split; [lia|intros m _; reflexivity]).
    destruct (proj2 (hom_main G Hh) _ _ _ Ho Hnd G HL) as [Hs Hn].
    assert (Q : sequence (map hgz_op (map (fun e => (true, e)) es)) = option_map (map (fun e => (true, e))) (sequence (map hgz es))).
    { clear. induction es as [|e es IH]; [reflexivity|]. cbn [map sequence]. unfold hgz_op at 1. cbn [fst snd].
      destruct (hgz e); [|reflexivity]. rewrite IH. destruct (sequence (map hgz es)); reflexivity. }
    rewrite Q in Hs, Hn. split.
    - intros es' E. rewrite E in Hs. destruct (Hs _ eq_refl) as [G2 [N [P [H1 [_ [_ H4]]]]]]. exists G2, N.
      split; [intros k Hk; rewrite hom_functions_list; apply H1; assumption|].
      clear - H4. revert es' H4. induction roots as [|a r IH]; intros [|e es'] H4; inversion H4 as [|? ? ? ? [_ Q1] Q2]; subst; constructor; auto.
    - intros E. rewrite E in Hn. destruct (Hn eq_refl) as [G2 [N H1]]. exists G2, N. intros k Hk. rewrite hom_functions_list. apply H1; assumption.
  Qed.
End Model.

(** ** Examples *)
(** f = (x + 1) * x^2 and g = x^2 + 1, sharing x^2 and 1 *)
Section Unshared.
  Context {F : fld}.
  Variable fs : funs F.
  Variable rho : env F.

  Definition two_functions : list (gnode (F := F)) :=
    [GVar; GVar; GNum KInteger f1; GSum [(true, 0); (true, 2)]; GIPow 0 2; GMul [(true, 3); (true, 4)]; GSum [(true, 4); (true, 2)]].

  Definition f_tree : expr F := Mul [(true, Sum [(true, Var 0); (true, Num KInteger f1)]); (true, IPow (Var 0) 2)].
  Definition g_tree : expr F := Sum [(true, IPow (Var 0) 2); (true, Num KInteger f1)].

  Ltac still_leaf a := let m := fresh in let Hm := fresh in let c := fresh in let Hc := fresh in
    intros m Hm; destruct (reach_inv two_functions a _ m eq_refl Hm) as [->|[c [[] Hc]]]; eexists; split; [exists 2; reflexivity|reflexivity].

  Lemma still_0 : still fs rho [0] 1 two_functions 0. Proof. still_leaf 0. Qed.
  Lemma still_2 : still fs rho [0] 1 two_functions 2. Proof. still_leaf 2. Qed.
  Lemma still_4 : still fs rho [0] 1 two_functions 4.
  Proof.
    intros m Hm. destruct (reach_inv two_functions 4 _ m eq_refl Hm) as [->|[c [[<-|[]] Hc]]]; [|exact (still_0 m Hc)].
    eexists; split; [exists 2; reflexivity|reflexivity].
  Qed.

  Lemma not_still : forall a e e', unfold 9 two_functions None a = Some e -> homogenize fs rho [0] 1 e = Some e' -> e <> e' ->
    ~ still fs rho [0] 1 two_functions a.
  Proof.
    intros a e e' Hu He N Hs. destruct (Hs a (reach_refl _ a)) as [e1 [U1 H1]].
    assert (e1 = e) as -> by (apply (unfolds_fun two_functions None a); [assumption|exists 9; assumption]). congruence.
  Qed.

  Lemma two_functions_unshared : unshared_work fs rho [0] 1 two_functions [5; 6] [f_tree; g_tree].
  Proof.
    exists [5; 3; 6]. split; [|repeat constructor; cbn; lia].
    change [5; 3; 6] with ((5 :: ([3] ++ [] ++ [])) ++ (6 :: ([] ++ [] ++ [])) ++ []).
    cbn [map]. constructor; [|constructor; [|constructor]].
    - eapply owns_mul; [reflexivity| |].
      + eapply not_still; [reflexivity|reflexivity|discriminate].
      + apply owns_cons; [|apply owns_cons; [|constructor]].
        * change [3] with (3 :: [] ++ [] ++ []). eapply owns_sum; [reflexivity| |].
          -- eapply not_still; [reflexivity|reflexivity|discriminate].
          -- constructor; [|constructor; [|constructor]]; apply owns_still; try apply still_0; try apply still_2; exists 2; reflexivity.
        * apply owns_still; [apply still_4|exists 2; reflexivity].
    - eapply owns_sum; [reflexivity| |].
      + eapply not_still; [reflexivity|reflexivity|discriminate].
      + constructor; [|constructor; [|constructor]]; apply owns_still; try apply still_4; try apply still_2; exists 2; reflexivity.
  Qed.

  (** f = s * s with s = x + 1 shared *)
  Definition shared_sum : list (gnode (F := F)) :=
    [GVar; GVar; GNum KInteger f1; GSum [(true, 0); (true, 2)]; GMul [(true, 3); (true, 3)]].
End Unshared.

Definition square_tree : expr QcF :=
  Mul [(true, Sum [(true, Var 0); (true, Num KInteger f1)]); (true, Sum [(true, Var 0); (true, Num KInteger f1)])].

Definition square_hom : expr QcF :=
  Mul [(true, Sum [(true, Var 0); (true, Mul [(true, Var 1); (true, Num KInteger f1)])]);
       (true, Sum [(true, Var 0); (true, Mul [(true, Var 1); (true, Num KInteger f1)])])].

Definition shared_hom : list (gnode (F := QcF)) :=
  [GVar; GVar; GNum KInteger f1; GSum [(true, 0); (true, 6)]; GMul [(true, 3); (true, 3)];
   GMul [(true, 1); (true, 2)]; GMul [(true, 1); (true, 5)]].

Definition at_1_2 : env QcF := fun n => match n with 0 => qc 1 1 | _ => qc 2 1 end.

Lemma shared_sum_wrong :
  unfold 9 shared_sum None 4 = Some square_tree /\
  homogenize qc_funs at_1_2 [0] 1 square_tree = Some square_hom /\
  hom_functions qc_funs at_1_2 [0] 1 9 shared_sum [4] = HDone shared_hom /\
  (exists e, unfold 9 shared_hom None 4 = Some e /\ eval qc_funs at_1_2 e = Some (qc 25 1)) /\
  eval qc_funs at_1_2 square_hom = Some (qc 9 1) /\ qc 25 1 <> qc 9 1.
Proof.
  split; [reflexivity|]. split; [reflexivity|]. split; [reflexivity|]. split; [eexists; split; [reflexivity|vm_compute; reflexivity]|].
  split; [vm_compute; reflexivity|]. intro E. apply (f_equal (fun q => feqb q (qc 9 1))) in E. vm_compute in E. discriminate.
Qed.
