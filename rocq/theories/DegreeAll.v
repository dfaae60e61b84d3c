(** Degree and homogeneity with respect to one variable or, when no variable is given, to all of them:
    Node::Degree(v = nullptr) and Node::IsHomogeneous(v = nullptr) of core/include/bertini2/function_tree/node.hpp,
    and the degrees a total degree start system takes from its target
    (core/src/system/start/total_degree.cpp). *)
From Coq Require Import List Arith Lia ZArith Bool Ring Field.
From Verif Require Import Base Poly Expr Degree Homog HomogSys StartIndex.
Import ListNotations.

(** ** Model *)
Section Model.
  Context {F : fld}.
  Local Open Scope Z_scope.

  (** Node::Degree(v); [None] is the null pointer, the default argument.  int overflow is not modelled. *)
  Fixpoint vdegree (fs : funs F) (rho : env F) (o : option nat) (e : expr F) : Z :=
    match e with
    | Num _ _ => 0                                        (* number.hpp:84-87 *)
    | Var x =>                                            (* variable.cpp:109-121 *)
        match o with Some v => if Nat.eqb x v then 1 else 0 | None => 1 end
    | Sum ops => sum_degree (map (fun p => vdegree fs rho o (snd p)) ops) 0   (* arithmetic.cpp:217-230 *)
    | Mul ops => mul_degree (map (fun p => (fst p, vdegree fs rho o (snd p))) ops) 0 (* arithmetic.cpp:763-792 *)
    | Neg e => vdegree fs rho o e                         (* operator.cpp:53-56 *)
    | IPow e n => let d := vdegree fs rho o e in if d <? 0 then d else n * d (* arithmetic.cpp:1166-1174 *)
    | Pow b e =>                                          (* arithmetic.cpp:965-1009 *)
        let db := vdegree fs rho o b in
        if vdegree fs rho o e =? 0 then
          match (match eval fs rho e with Some x => as_int fs x | None => None end) with
          | Some n => if n =? 0 then 0 else if n <? 0 then -1 else if db <? 0 then -1 else db * n
          | None => if db =? 0 then 0 else -1
          end
        else -1
    | Fun _ e => if vdegree fs rho o e =? 0 then 0 else -1 (* trig.cpp:33-43, arithmetic.cpp:1219-1228, 1300-1308, 1375-1383 *)
    | Handle e => vdegree fs rho o e                      (* function.cpp:140-143 *)
    end.

  (** Node::IsHomogeneous(v); an empty sum, which cannot be built, is given the answer true *)
  Fixpoint vhomogeneous (fs : funs F) (rho : env F) (o : option nat) (e : expr F) : bool :=
    match e with
    | Num _ _ => true                                     (* number.hpp:127-130 *)
    | Var _ => true                                       (* variable.cpp:151-154 *)
    | Sum ops =>                                          (* arithmetic.cpp:317-342 *)
        forallb (fun p => vhomogeneous fs rho o (snd p)) ops &&
        match map (fun p => vdegree fs rho o (snd p)) ops with
        | [] => true
        | d :: r => negb (d <? 0) && forallb (fun x => x =? d) r
        end
    | Mul ops => forallb (fun p => vhomogeneous fs rho o (snd p)) ops (* arithmetic.cpp:841-852 *)
    | Neg e => vhomogeneous fs rho o e                    (* arithmetic.hpp:312-315 *)
    | IPow e _ => vhomogeneous fs rho o e                 (* arithmetic.hpp:732-735 *)
    | Pow b e =>                                          (* arithmetic.cpp:1049-1061 *)
        if vdegree fs rho o e =? 0 then
          match (match eval fs rho e with Some x => as_int fs x | None => None end) with
          | Some n => if 0 <=? n then vhomogeneous fs rho o b else false
          | None => false
          end
        else false
    | Fun _ _ => vdegree fs rho o e =? 0                  (* operator.cpp:91-99 *)
    | Handle e => vhomogeneous fs rho o e                 (* function.cpp:168-171 *)
    end.

  (** system.cpp:969-975 Degrees() *)
  Definition degrees_of (fs : funs F) (rho : env F) (s : psys F) : list Z := map (vdegree fs rho None) (fns s).

  (** system.cpp:171-193: the variables of a system *)
  Definition variable_count (s : psys F) : nat :=
    (fold_right Nat.add 0 (map (@length nat) (groups s)) + fold_right Nat.add 0 (map (@length nat) (hom_groups s)) +
     length (ungrouped s) + length (hom_vars s))%nat.

  (** total_degree.cpp:137-160 and system.cpp:165-168, 232-235: the checks of the constructor and the degrees it stores as size_t; [patches] is
      NumPatches(), [path] tells whether a path variable was declared *)
  Definition copy_degrees (fs : funs F) (rho : env F) (s : psys F) (patches : nat) (path : bool) : outcome (list Z) :=
    if negb (length (hom_groups s) =? 0)%nat then Throws
    else if negb (length (fns s) + patches =? variable_count s)%nat then Throws
    else if path then Throws
    else if negb (length (groups s) =? 1)%nat then Throws
    else match is_polynomial_sys fs rho s with
         | Some true => Value (map wrap64 (degrees_of fs rho s))
         | _ => Throws
         end.

  (** ** Specification *)
  Local Open Scope fld_scope.

  (** the variable [x] is the one asked for; all are if none was given *)
  Definition asked (o : option nat) (x : nat) : Prop := match o with Some v => x = v | None => True end.

  (** two points which differ in the variables asked for only *)
  Definition differ_in (o : option nat) (a b : env F) : Prop := forall x, ~ asked o x -> a x = b x.

  (** multiply the variables asked for by [t] *)
  Definition stretch (o : option nat) (t : F) (a : env F) : env F :=
    fun x => match o with Some v => if Nat.eqb x v then t * a x else a x | None => t * a x end.
End Model.

Section Proofs.
  Context {F : fld}.
  Local Open Scope fld_scope.
  Add Field degreeall_field : (f_th F).
  Variable fs : funs F.
  Hypothesis Hfs : funs_ok fs.
  Variable rho : env F.
  Variable o : option nat.
  Let deg := vdegree fs rho o.

  Lemma asked_dec : forall x, {asked o x} + {~ asked o x}.
  Proof. intro x. unfold asked. destruct o as [v|]; [apply Nat.eq_dec|left; exact I]. Qed.

  Lemma asked_degree : forall x, asked o x -> deg (Var x) = 1%Z.
  Proof. intros x H. unfold deg, asked in *. cbn. destruct o as [v|]; [subst; rewrite Nat.eqb_refl; reflexivity|reflexivity]. Qed.
  Lemma other_degree : forall x, ~ asked o x -> deg (Var x) = 0%Z.
  Proof.
    intros x H. unfold deg, asked in *. cbn. destruct o as [v|]; [|exfalso; apply H; exact I].
    destruct (Nat.eqb_spec x v); [contradiction|reflexivity].
  Qed.

  Lemma sum_zero : forall ops, deg (Sum ops) = 0%Z -> forall s e, In (s, e) ops -> deg e = 0%Z.
  Proof.
    intros ops H s e Hi. unfold deg in *. cbn [vdegree] in H.
    assert (G : (0 <= sum_degree (map (fun p => vdegree fs rho o (snd p)) ops) 0)%Z) by lia.
    apply sum_degree_nonneg in G; [|lia]. destruct G as [G _]. rewrite Forall_forall in G.
    specialize (G (vdegree fs rho o e)). rewrite H in G.
    assert (In (vdegree fs rho o e) (map (fun p => vdegree fs rho o (snd p)) ops)).
    { apply in_map_iff. exists (s, e). split; [reflexivity|assumption]. }
    specialize (G H0). lia.
  Qed.

  Lemma mul_parts : forall ops, (0 <= deg (Mul ops))%Z ->
    (forall s e, In (s, e) ops -> (0 <= deg e)%Z /\ (s = false -> deg e = 0%Z)) /\
    deg (Mul ops) = fold_right (fun p n => (deg (snd p) + n)%Z) 0%Z ops.
  Proof.
    intros ops H. unfold deg in *. cbn [vdegree] in H |- *. destruct (mul_degree_nonneg _ 0%Z (Z.le_refl 0) H) as [A B]. split.
    - intros s e Hi. rewrite Forall_forall in A.
      specialize (A (s, vdegree fs rho o e)). apply A. apply in_map_iff. exists (s, e). split; [reflexivity|assumption].
    - rewrite B. unfold sum2. cbn [Z.add]. clear. induction ops as [|[s e] ops IH]; cbn [map fold_right fst snd]; [reflexivity|]. lia.
  Qed.

  Lemma mul_zero : forall ops, deg (Mul ops) = 0%Z -> forall s e, In (s, e) ops -> deg e = 0%Z.
  Proof.
    intros ops H. destruct (mul_parts ops) as [A B]; [lia|]. rewrite B in H. clear B.
    induction ops as [|[s' e'] ops IH]; intros s e Hi; [contradiction|]. cbn [fold_right snd] in H.
    assert (P : (0 <= fold_right (fun p n => (deg (snd p) + n)%Z) 0%Z ops)%Z).
    { assert (A' : forall s e, In (s, e) ops -> (0 <= deg e)%Z) by (intros s0 e0 H0; apply (A s0 e0); right; assumption).
      clear -A'. induction ops as [|[s0 e0] ops IH0]; cbn [fold_right snd]; [lia|].
      pose proof (A' s0 e0 (or_introl eq_refl)). specialize (IH0 (fun s e H => A' s e (or_intror H))). lia. }
    pose proof (proj1 (A s' e' (or_introl eq_refl))). destruct Hi as [E|Hi]; [injection E as -> ->; lia|].
    apply (IH ltac:(lia) (fun s e H => A s e (or_intror H)) s). assumption.
  Qed.

  (** a node of degree 0 has one value *)
  Lemma zero_constant : forall e, deg e = 0%Z -> forall p q a b,
    differ_in o p rho -> differ_in o q rho -> eval fs p e = Some a -> eval fs q e = Some b -> a = b.
  Proof.
    intro e. induction e as [k c|x|ops IH|ops IH|e IH|e n IH|b0 e IHb IHe|k e IH|e IH] using expr_rect'; intros H p q a b Hp Hq Ea Eb; cbn [eval] in Ea, Eb.
    - congruence.
    - destruct (asked_dec x) as [A|A]; [rewrite (asked_degree x A) in H; discriminate|].
      rewrite (Hp x A) in Ea. rewrite (Hq x A) in Eb. congruence.
    - pose proof (sum_zero ops H) as Hz. clear H. rewrite Forall_forall in IH. revert a b Ea Eb.
      induction ops as [|[s e] ops IHo]; intros a b Ea Eb; cbn [map sum_val fst snd] in *; [congruence|].
      destruct (eval fs p e) as [a1|] eqn:E1; [|discriminate]. destruct (eval fs q e) as [b1|] eqn:E2; [|discriminate].
      destruct (sum_val (map (fun z => (fst z, eval fs p (snd z))) ops)) as [a2|] eqn:E3; [|discriminate].
      destruct (sum_val (map (fun z => (fst z, eval fs q (snd z))) ops)) as [b2|] eqn:E4; [|discriminate].
      assert (a1 = b1) by (apply (IH (s, e) (or_introl eq_refl) (Hz s e (or_introl eq_refl)) p q); assumption).
      assert (a2 = b2) by (apply IHo; [intros z Hz'; apply IH; right; assumption|intros s0 e0 H0; apply (Hz s0); right; assumption|reflexivity|reflexivity]).
      subst. rewrite Ea in Eb. congruence.
    - pose proof (mul_zero ops H) as Hz. clear H. rewrite Forall_forall in IH. revert a b Ea Eb.
      induction ops as [|[s e] ops IHo]; intros a b Ea Eb; cbn [map mul_val fst snd] in *; [congruence|].
      destruct (eval fs p e) as [a1|] eqn:E1; [|discriminate]. destruct (eval fs q e) as [b1|] eqn:E2; [|discriminate].
      destruct (mul_val (map (fun z => (fst z, eval fs p (snd z))) ops)) as [a2|] eqn:E3; [|discriminate].
      destruct (mul_val (map (fun z => (fst z, eval fs q (snd z))) ops)) as [b2|] eqn:E4; [|discriminate].
      assert (a1 = b1) by (apply (IH (s, e) (or_introl eq_refl) (Hz s e (or_introl eq_refl)) p q); assumption).
      assert (a2 = b2) by (apply IHo; [intros z Hz'; apply IH; right; assumption|intros s0 e0 H0; apply (Hz s0); right; assumption|reflexivity|reflexivity]).
      subst. rewrite Ea in Eb. congruence.
    - destruct (eval fs p e) as [a1|] eqn:E1; [|discriminate]. destruct (eval fs q e) as [b1|] eqn:E2; [|discriminate].
      rewrite (IH H p q a1 b1 Hp Hq E1 E2) in Ea. congruence.
    - destruct (eval fs p e) as [a1|] eqn:E1; [|discriminate]. destruct (eval fs q e) as [b1|] eqn:E2; [|discriminate].
      unfold deg in H. cbn [vdegree] in H. fold (deg e) in H. destruct (Z.ltb_spec (deg e) 0); [lia|].
      destruct (Z.eq_dec n 0) as [->|Nn]; [cbn in Ea, Eb; congruence|].
      rewrite (IH ltac:(nia) p q a1 b1 Hp Hq E1 E2) in Ea. congruence.
    - destruct (eval fs p b0) as [a1|] eqn:E1; [|discriminate]. destruct (eval fs q b0) as [b1|] eqn:E2; [|discriminate].
      destruct (eval fs p e) as [a2|] eqn:E3; [|discriminate]. destruct (eval fs q e) as [b2|] eqn:E4; [|discriminate].
      unfold deg in H. cbn [vdegree] in H. fold (deg e) (deg b0) in H. destruct (Z.eqb_spec (deg e) 0) as [He|]; [|discriminate].
      assert (a2 = b2) by (apply (IHe He p q); assumption). subst b2.
      destruct (eval fs rho e) as [x|] eqn:Ex.
      + assert (a2 = x) by (apply (IHe He p rho); try assumption; intros z Hz; reflexivity). subst x.
        destruct (as_int fs a2) as [n|] eqn:En.
        * apply (as_int_sound fs Hfs) in En. destruct (Z.eqb_spec n 0) as [->|Nn].
          -- cbn [fZ] in En. subst a2.
             assert (P : forall z w, pw fs z 0 = Some w -> w = 1).
             { intros z w Ew. destruct (feq_dec z 0) as [->|N]; [apply (pw_00 fs Hfs); exact Ew|].
               pose proof (pw_int fs Hfs z 0 (or_intror N)) as Hw. cbn [Z.of_nat fZ fpow] in Hw. congruence. }
             rewrite (P _ _ Ea), (P _ _ Eb). reflexivity.
          -- destruct (Z.ltb_spec n 0); [discriminate|]. destruct (Z.ltb_spec (deg b0) 0); [discriminate|].
             rewrite (IHb ltac:(nia) p q a1 b1 Hp Hq E1 E2) in Ea. congruence.
        * destruct (Z.eqb_spec (deg b0) 0) as [Hb|]; [|discriminate].
          rewrite (IHb Hb p q a1 b1 Hp Hq E1 E2) in Ea. congruence.
      + destruct (Z.eqb_spec (deg b0) 0) as [Hb|]; [|discriminate].
        rewrite (IHb Hb p q a1 b1 Hp Hq E1 E2) in Ea. congruence.
    - destruct (eval fs p e) as [a1|] eqn:E1; [|discriminate]. destruct (eval fs q e) as [b1|] eqn:E2; [|discriminate].
      unfold deg in H. cbn [vdegree] in H. fold (deg e) in H. destruct (Z.eqb_spec (deg e) 0) as [He|]; [|discriminate].
      rewrite (IH He p q a1 b1 Hp Hq E1 E2) in Ea. congruence.
    - apply (IH H p q); assumption.
  Qed.

  (** the cases of a power of nonnegative degree *)
  Lemma pow_cases : forall b e, (0 <= deg (Pow b e))%Z ->
    deg e = 0%Z /\
    ((exists n, (match eval fs rho e with Some x => as_int fs x | None => None end) = Some n /\ eval fs rho e = Some (fZ n) /\ (0 <= n)%Z /\ (n = 0%Z /\ deg (Pow b e) = 0%Z \/ (0 < n)%Z /\ (0 <= deg b)%Z /\ deg (Pow b e) = (deg b * n)%Z))
     \/ (match eval fs rho e with Some x => as_int fs x | None => None end) = None /\ deg b = 0%Z /\ deg (Pow b e) = 0%Z).
  Proof.
    intros b e H. unfold deg in *. cbn [vdegree] in H |- *. fold (deg e) (deg b) in *.
    destruct (Z.eqb_spec (deg e) 0) as [He|]; [|lia]. split; [assumption|].
    destruct (match eval fs rho e with Some x => as_int fs x | None => None end) as [n|] eqn:E.
    - left. exists n. split; [reflexivity|]. destruct (eval fs rho e) as [x|]; [|discriminate]. apply (as_int_sound fs Hfs) in E. subst x. split; [reflexivity|].
      destruct (Z.eqb_spec n 0) as [N0|Nn]; [split; [lia|left; split; [exact N0|reflexivity]]|].
      destruct (Z.ltb_spec n 0); [lia|]. destruct (Z.ltb_spec (deg b) 0); [lia|]. split; [lia|]. right. split; [lia|]. split; [assumption|reflexivity].
    - right. split; [reflexivity|]. destruct (Z.eqb_spec (deg b) 0); [split; [assumption|reflexivity]|lia].
  Qed.

  Lemma pow_value : forall z n w, (0 <= n)%Z -> pw fs z (fZ n) = Some w -> w = fpow z (Z.to_nat n).
  Proof.
    intros z n w Hn E. rewrite <- (Z2Nat.id n Hn) in E. destruct (Z.to_nat n) as [|k] eqn:Ek.
    - cbn [Z.of_nat fZ] in E. cbn. destruct (feq_dec z 0) as [->|N]; [apply (pw_00 fs Hfs); exact E|].
      pose proof (pw_int fs Hfs z 0 (or_intror N)) as Hw. cbn [Z.of_nat fZ fpow] in Hw. congruence.
    - rewrite (pw_int fs Hfs z (S k)) in E by (left; lia). congruence.
  Qed.

  (** *** Degree along paths *)
  Section Path.
    Variable path : F -> env F.
    Hypothesis path_out : forall t, differ_in o (path t) rho.
    Hypothesis path_in : forall x, asked o x -> is_poly 1 (fun t => path t x).

    Lemma path_bound : forall e, (0 <= deg e)%Z -> poly_where_defined (Z.to_nat (deg e)) (fun t => eval fs (path t) e).
    Proof.
      intro e. induction e as [k c|x|ops IH|ops IH|e IH|e n IH|b e IHb IHe|k e IH|e IH] using expr_rect'; intro H.
      - apply pwd_of_const with (c := c). cbn. intros; congruence.
      - destruct (asked_dec x) as [A|A].
        + rewrite (asked_degree x A). exists (fun t => path t x). split; [apply path_in; assumption|]. cbn. intros; congruence.
        + apply pwd_of_const with (c := rho x). cbn. intros t y E. rewrite (path_out t x A) in E. congruence.
      - cbn [eval]. rewrite Forall_forall in IH. apply (pwd_sum _ ops (fun e t => eval fs (path t) e)).
        intros s e Hi. unfold deg in H. cbn [vdegree] in H. apply sum_degree_nonneg in H as G; [|lia]. destruct G as [G _].
        rewrite Forall_forall in G. specialize (G (deg e)).
        assert (B : (0 <= deg e <= deg (Sum ops))%Z).
        { apply G. apply in_map_iff. exists (s, e). split; [reflexivity|assumption]. }
        apply pwd_le with (d := Z.to_nat (deg e)); [lia|]. apply (IH _ Hi). cbn [snd]. lia.
      - cbn [eval]. rewrite Forall_forall in IH. destruct (mul_parts ops H) as [A B]. rewrite B.
        apply pwd_le with (d := fold_right (fun p n => (Z.to_nat (deg (snd p)) + n)%nat) O ops).
        + clear -A. assert (G : forall l : list (bool * expr F), (forall s e, In (s, e) l -> (0 <= deg e)%Z) ->
            (fold_right (fun p n => (Z.to_nat (deg (snd p)) + n)%nat) O l <= Z.to_nat (fold_right (fun p n => (deg (snd p) + n)%Z) 0%Z l))%nat
            /\ (0 <= fold_right (fun p n => (deg (snd p) + n)%Z) 0%Z l)%Z).
          { induction l as [|[s e] l IHl]; intro Hc0; cbn [fold_right snd]; [split; lia|].
            destruct IHl as [I1 I2]; [intros s0 e0 H0; apply (Hc0 s0); right; assumption|].
            pose proof (Hc0 s e (or_introl eq_refl)). split; lia. }
          apply G. intros s e Hi. apply (A s e Hi).
        + apply (pwd_mul _ ops (fun e t => eval fs (path t) e) (fun e => Z.to_nat (deg e))).
          * intros s e Hi. apply (IH _ Hi). apply (A s e Hi).
          * intros e Hi. rewrite (proj2 (A _ _ Hi) eq_refl). reflexivity.
      - destruct (IH H) as [p [Hp Hf]]. exists (fun t => - p t). split; [apply is_poly_opp; exact Hp|].
        cbn [eval]. intros t y E. destruct (eval fs (path t) e) as [z|] eqn:Ez; [|discriminate]. injection E as <-. rewrite (Hf t z Ez). reflexivity.
      - assert (He : (0 <= deg e)%Z) by (unfold deg in H; cbn [vdegree] in H; fold (deg e) in H; destruct (Z.ltb_spec (deg e) 0); lia).
        assert (Hd : deg (IPow e n) = (n * deg e)%Z) by (unfold deg; cbn [vdegree]; fold (deg e); destruct (Z.ltb_spec (deg e) 0); lia).
        rewrite Hd in *. destruct (IH He) as [p [Hp Hf]]. destruct (Z.le_gt_cases 0 n) as [Hn|Hn].
        + exists (fun t => fpow (p t) (Z.to_nat n)). split.
          * rewrite Z2Nat.inj_mul by lia. apply is_poly_pow. exact Hp.
          * cbn [eval]. intros t y E. destruct (eval fs (path t) e) as [z|] eqn:Ez; [|discriminate].
            rewrite fpowZ_pos in E by assumption. injection E as <-. rewrite (Hf t z Ez). reflexivity.
        + assert (Z0 : deg e = 0%Z) by nia. rewrite Z0 in *. destruct (pwd_const _ (IH He)) as [c Hc].
          destruct (fpowZ c n) as [w|] eqn:Ew; [apply pwd_of_const with (c := w)|apply pwd_of_const with (c := 0)];
            cbn [eval]; intros t y E; destruct (eval fs (path t) e) as [z|] eqn:Ez; try discriminate; rewrite (Hc t z Ez) in E; congruence.
      - destruct (pow_cases b e H) as [He C]. destruct C as [(n & _ & Ex & Hn & C)|(_ & Hb & Hd)].
        + assert (V : forall t w, eval fs (path t) e = Some w -> w = fZ n).
          { intros t w Ew. apply (zero_constant e He (path t) rho); [apply path_out|intros z _; reflexivity|assumption|assumption]. }
          destruct C as [[-> Hd]|(Hp & Hb & Hd)].
          * apply pwd_of_const with (c := 1). cbn [eval]. intros t y E.
            destruct (eval fs (path t) b) as [z|] eqn:Ez; [|discriminate]. destruct (eval fs (path t) e) as [w|] eqn:Ew; [|discriminate].
            rewrite (V t w Ew) in E. apply pow_value in E; [exact E|lia].
          * destruct (IHb Hb) as [p [Pp Hf]]. exists (fun t => fpow (p t) (Z.to_nat n)). split.
            -- rewrite Hd, Z.mul_comm, Z2Nat.inj_mul by lia. apply is_poly_pow. exact Pp.
            -- cbn [eval]. intros t y E.
               destruct (eval fs (path t) b) as [z|] eqn:Ez; [|discriminate]. destruct (eval fs (path t) e) as [w|] eqn:Ew; [|discriminate].
               rewrite (V t w Ew) in E. apply pow_value in E; [|lia]. rewrite (Hf t z Ez) in E. exact E.
        + assert (Pb := IHb ltac:(lia)). rewrite Hb in Pb. destruct (pwd_const _ Pb) as [cb Hcb].
          assert (Pe := IHe ltac:(lia)). rewrite He in Pe. destruct (pwd_const _ Pe) as [ce Hce].
          destruct (pw fs cb ce) as [w|] eqn:Ew; [apply pwd_of_const with (c := w)|apply pwd_of_const with (c := 0)];
            cbn [eval]; intros t y E;
            destruct (eval fs (path t) b) as [z|] eqn:Ez; try discriminate; destruct (eval fs (path t) e) as [u|] eqn:Eu; try discriminate;
            rewrite (Hcb t z Ez), (Hce t u Eu) in E; congruence.
      - assert (He : deg e = 0%Z) by (unfold deg in H; cbn [vdegree] in H; fold (deg e) in H; destruct (Z.eqb_spec (deg e) 0); lia).
        assert (Pe := IH ltac:(lia)). rewrite He in Pe. destruct (pwd_const _ Pe) as [ce Hce].
        destruct (fn fs k ce) as [w|] eqn:Ew; [apply pwd_of_const with (c := w)|apply pwd_of_const with (c := 0)];
          cbn [eval]; intros t y E; destruct (eval fs (path t) e) as [u|] eqn:Eu; try discriminate; rewrite (Hce t u Eu) in E; congruence.
      - apply IH. exact H.
    Qed.
  End Path.

  (** *** Homogeneity *)
  Lemma stretch_differ : forall t p, differ_in o p rho -> differ_in o (stretch o t p) rho.
  Proof.
    intros t p H x Hx. unfold stretch, asked in *. destruct o as [v|]; [|exfalso; apply Hx; exact I].
    destruct (Nat.eqb_spec x v); [contradiction|]. apply H. exact Hx.
  Qed.

  Lemma sum_same : forall ops, vhomogeneous fs rho o (Sum ops) = true ->
    forall s e, In (s, e) ops -> vhomogeneous fs rho o e = true /\ deg e = deg (Sum ops) /\ (0 <= deg e)%Z.
  Proof.
    intros ops H s e Hi. cbn [vhomogeneous] in H. apply andb_true_iff in H. destruct H as [A B].
    rewrite forallb_forall in A. split; [apply (A _ Hi)|].
    destruct ops as [|[s0 e0] ops]; [contradiction|]. cbn [map snd] in B. apply andb_true_iff in B. destruct B as [B C].
    fold (deg e0) in B. rewrite forallb_forall in C. destruct (Z.ltb_spec (deg e0) 0); [discriminate|].
    assert (All : Forall (fun x => x = deg e0) (map (fun p => vdegree fs rho o (snd p)) ((s0, e0) :: ops))).
    { cbn [map snd]. constructor; [reflexivity|]. apply Forall_forall. intros x Hx. apply Z.eqb_eq. apply C. exact Hx. }
    assert (D : deg (Sum ((s0, e0) :: ops)) = deg e0).
    { unfold deg at 1. cbn [vdegree]. apply sum_degree_const; [assumption|discriminate|exact All]. }
    rewrite D. rewrite Forall_forall in All.
    assert (deg e = deg e0). { apply All. apply in_map_iff. exists (s, e). split; [reflexivity|assumption]. }
    split; [assumption|lia].
  Qed.

  Lemma homogeneous_poly : forall e, vhomogeneous fs rho o e = true -> (0 <= deg e)%Z -> forall p t y y',
    differ_in o p rho -> eval fs p e = Some y -> eval fs (stretch o t p) e = Some y' -> y' = fpow t (Z.to_nat (deg e)) * y.
  Proof.
    intro e. induction e as [k c|x|ops IH|ops IH|e IH|e n IH|b e IHb IHe|k e IH|e IH] using expr_rect'; intros Hh H p t y y' Hp Ey Ey'.
    - cbn [eval] in *. unfold deg. cbn [vdegree Z.to_nat fpow]. injection Ey as <-. injection Ey' as <-. ring.
    - cbn [eval] in *. injection Ey as <-. injection Ey' as <-. unfold stretch, deg. cbn [vdegree]. destruct o as [v|].
      + destruct (Nat.eqb x v); [change (Z.to_nat 1) with 1%nat|change (Z.to_nat 0) with O]; cbn [fpow]; ring.
      + change (Z.to_nat 1) with 1%nat. cbn [fpow]. ring.
    - pose proof (sum_same ops Hh) as A. cbn [eval] in Ey, Ey'. rewrite Forall_forall in IH.
      assert (G : forall l y y', (forall s e, In (s, e) l -> In (s, e) ops) ->
        sum_val (map (fun z => (fst z, eval fs p (snd z))) l) = Some y ->
        sum_val (map (fun z => (fst z, eval fs (stretch o t p) (snd z))) l) = Some y' ->
        y' = fpow t (Z.to_nat (deg (Sum ops))) * y).
      { induction l as [|[s e] l IHl]; intros a a' Hl E E'; cbn [map sum_val fst snd] in *; [injection E as <-; injection E' as <-; ring|].
        destruct (eval fs p e) as [z|] eqn:Ez; [|discriminate]. destruct (eval fs (stretch o t p) e) as [z'|] eqn:Ez'; [|discriminate].
        destruct (sum_val (map (fun z => (fst z, eval fs p (snd z))) l)) as [w|] eqn:Ew; [|discriminate].
        destruct (sum_val (map (fun z => (fst z, eval fs (stretch o t p) (snd z))) l)) as [w'|] eqn:Ew'; [|discriminate].
        injection E as <-. injection E' as <-. destruct (A s e (Hl s e (or_introl eq_refl))) as (A1 & A2 & A3).
        pose proof (IH (s, e) (Hl s e (or_introl eq_refl)) A1 A3 p t z z' Hp Ez Ez') as Q. cbn [snd] in Q. rewrite A2 in Q.
        rewrite (IHl w w' (fun s e Hi => Hl s e (or_intror Hi)) eq_refl eq_refl), Q. destruct s; ring. }
      exact (G ops y y' (fun s e Hi => Hi) Ey Ey').
    - destruct (mul_parts ops H) as [A B]. rewrite B. cbn [eval] in Ey, Ey'. cbn [vhomogeneous] in Hh. rewrite forallb_forall in Hh.
      rewrite Forall_forall in IH. clear H B. revert y y' Ey Ey'.
      induction ops as [|[s e] ops IHo]; intros y y' E E'; cbn [map mul_val fst snd fold_right] in *; [injection E as <-; injection E' as <-; cbn; ring|].
      destruct (eval fs p e) as [z|] eqn:Ez; [|discriminate]. destruct (eval fs (stretch o t p) e) as [z'|] eqn:Ez'; [|discriminate].
      destruct (mul_val (map (fun z => (fst z, eval fs p (snd z))) ops)) as [w|] eqn:Ew; [|discriminate].
      destruct (mul_val (map (fun z => (fst z, eval fs (stretch o t p) (snd z))) ops)) as [w'|] eqn:Ew'; [|discriminate].
      destruct (A s e (or_introl eq_refl)) as [A1 A2].
      pose proof (IH (s, e) (or_introl eq_refl) (Hh _ (or_introl eq_refl)) A1 p t z z' Hp Ez Ez') as Q. cbn [snd] in Q.
      assert (Q' : w' = fpow t (Z.to_nat (fold_right (fun p n => (deg (snd p) + n)%Z) 0%Z ops)) * w).
      { apply IHo; try reflexivity; [intros z0 Hz; apply IH; right; assumption|intros z0 Hz; apply Hh; right; assumption|
          intros s0 e0 H0; apply (A s0); right; assumption]. }
      assert (N : (0 <= fold_right (fun p n => (deg (snd p) + n)%Z) 0%Z ops)%Z).
      { assert (A' : forall s e, In (s, e) ops -> (0 <= deg e)%Z) by (intros s0 e0 H0; apply (A s0 e0); right; assumption).
        clear -A'. induction ops as [|[s0 e0] ops IH0]; cbn [fold_right snd]; [lia|].
        pose proof (A' s0 e0 (or_introl eq_refl)). specialize (IH0 (fun s e H => A' s e (or_intror H))). lia. }
      rewrite Z2Nat.inj_add by assumption. rewrite fpow_add. destruct s.
      + injection E as <-. injection E' as <-. rewrite Q, Q'. ring.
      + rewrite (A2 eq_refl) in *. cbn [Z.to_nat fpow] in *. assert (z' = z) as -> by (rewrite Q; ring).
        destruct (feq_dec z 0) as [|Nz]; [discriminate|]. injection E as <-. injection E' as <-. rewrite Q'. field. assumption.
    - cbn [eval vhomogeneous] in *. destruct (eval fs p e) as [z|] eqn:Ez; [|discriminate]. destruct (eval fs (stretch o t p) e) as [z'|] eqn:Ez'; [|discriminate].
      injection Ey as <-. injection Ey' as <-. change (deg (Neg e)) with (deg e). rewrite (IH Hh H p t z z' Hp Ez Ez'). ring.
    - assert (He : (0 <= deg e)%Z) by (unfold deg in H; cbn [vdegree] in H; fold (deg e) in H; destruct (Z.ltb_spec (deg e) 0); lia).
      assert (Hd : deg (IPow e n) = (n * deg e)%Z) by (unfold deg; cbn [vdegree]; fold (deg e); destruct (Z.ltb_spec (deg e) 0); lia).
      rewrite Hd in *. cbn [eval vhomogeneous] in *. destruct (eval fs p e) as [z|] eqn:Ez; [|discriminate]. destruct (eval fs (stretch o t p) e) as [z'|] eqn:Ez'; [|discriminate].
      pose proof (IH Hh He p t z z' Hp Ez Ez') as Q. destruct (Z.le_gt_cases 0 n) as [Hn|Hn].
      + rewrite fpowZ_pos in Ey, Ey' by assumption. injection Ey as <-. injection Ey' as <-. rewrite Q, fpow_mul_base, <- fpow_mul.
        rewrite Z2Nat.inj_mul by lia. f_equal. f_equal. lia.
      + assert (Z0 : deg e = 0%Z) by nia. rewrite Z0 in *. rewrite Z.mul_0_r. cbn [Z.to_nat fpow] in *.
        assert (z' = z) as -> by (rewrite Q; ring). rewrite Ey in Ey'. injection Ey' as <-. ring.
    - destruct (pow_cases b e H) as [He C]. cbn [vhomogeneous] in Hh. fold (deg e) in Hh. rewrite He in Hh. cbn [Z.eqb] in Hh.
      destruct C as [(m & Em & Ex & Hm & C)|(Em & _ & _)]; rewrite Em in Hh; [|discriminate].
      destruct (Z.leb_spec 0 m); [|lia]. cbn [eval] in Ey, Ey'.
      destruct (eval fs p b) as [z|] eqn:Ez; [|discriminate]. destruct (eval fs p e) as [w|] eqn:Ew; [|discriminate].
      destruct (eval fs (stretch o t p) b) as [z'|] eqn:Ez'; [|discriminate]. destruct (eval fs (stretch o t p) e) as [w'|] eqn:Ew'; [|discriminate].
      assert (w = fZ m) as -> by (apply (zero_constant e He p rho); [assumption|intros q _; reflexivity|assumption|assumption]).
      assert (w' = fZ m) as -> by (apply (zero_constant e He (stretch o t p) rho); [apply stretch_differ; assumption|intros q _; reflexivity|assumption|assumption]).
      apply pow_value in Ey; [|assumption]. apply pow_value in Ey'; [|assumption]. subst y y'.
      destruct C as [[-> ->]|(Hp0 & Hb & ->)]; [cbn; ring|].
      rewrite (IHb Hh Hb p t z z' Hp Ez Ez'), fpow_mul_base, <- fpow_mul, Z2Nat.inj_mul by lia. reflexivity.
    - assert (H0 : deg (Fun k e) = 0%Z) by (cbn [vhomogeneous] in Hh; apply Z.eqb_eq; exact Hh).
      rewrite H0. cbn [Z.to_nat fpow].
      rewrite (zero_constant (Fun k e) H0 (stretch o t p) p y' y); [ring|apply stretch_differ; assumption|assumption|assumption|assumption].
    - apply (IH Hh H p t); assumption.
  Qed.

  (** homogeneous of the integer degree a - b *)
  Lemma homogeneous_any : forall e, vhomogeneous fs rho o e = true -> exists a b : nat, forall p t y y', t <> 0 ->
    differ_in o p rho -> eval fs p e = Some y -> eval fs (stretch o t p) e = Some y' -> fpow t b * y' = fpow t a * y.
  Proof.
    intro e. induction e as [k c|x|ops IH|ops IH|e IH|e n IH|b e IHb IHe|k e IH|e IH] using expr_rect'; intros Hh.
    - exists O, O. intros p t y y' Ht Hp Ey Ey'. cbn [eval] in *. congruence.
    - exists (Z.to_nat (deg (Var x))), O. intros p t y y' Ht Hp Ey Ey'.
      rewrite (homogeneous_poly (Var x) Hh) with (p := p) (t := t) (y := y) (y' := y'); [cbn; ring| |assumption|assumption|assumption].
      destruct (asked_dec x) as [A|A]; [rewrite (asked_degree x A)|rewrite (other_degree x A)]; lia.
    - exists (Z.to_nat (deg (Sum ops))), O. intros p t y y' Ht Hp Ey Ey'.
      rewrite (homogeneous_poly (Sum ops) Hh) with (p := p) (t := t) (y := y) (y' := y'); [cbn; ring| |assumption|assumption|assumption].
      destruct ops as [|[s e] ops]; [unfold deg; cbn; lia|]. destruct (sum_same _ Hh s e (or_introl eq_refl)) as (_ & <- & G). exact G.
    - cbn [vhomogeneous] in Hh. rewrite forallb_forall in Hh. rewrite Forall_forall in IH.
      induction ops as [|[s e] ops IHo].
      + exists O, O. intros p t y y' Ht Hp Ey Ey'. cbn in *. congruence.
      + destruct IHo as (a & b & Ho); [intros z Hz; apply IH; right; assumption|intros z Hz; apply Hh; right; assumption|].
        destruct (IH (s, e) (or_introl eq_refl) (Hh _ (or_introl eq_refl))) as (c & d & He). cbn [snd] in He.
        exists (if s then (a + c)%nat else (a + d)%nat), (if s then (b + d)%nat else (b + c)%nat).
        intros p t y y' Ht Hp E E'. cbn [eval map mul_val fst snd] in E, E'.
        destruct (eval fs p e) as [z|] eqn:Ez; [|discriminate]. destruct (eval fs (stretch o t p) e) as [z'|] eqn:Ez'; [|discriminate].
        specialize (Ho p t). cbn [eval] in Ho.
        destruct (mul_val (map (fun z => (fst z, eval fs p (snd z))) ops)) as [w|] eqn:Ew; [|discriminate].
        destruct (mul_val (map (fun z => (fst z, eval fs (stretch o t p) (snd z))) ops)) as [w'|] eqn:Ew'; [|discriminate].
        pose proof (He p t z z' Ht Hp Ez Ez') as Q. pose proof (Ho w w' Ht Hp eq_refl eq_refl) as Q'.
        destruct s; rewrite !fpow_add.
        * injection E as <-. injection E' as <-.
          transitivity ((fpow t d * z') * (fpow t b * w')); [ring|]. rewrite Q, Q'. ring.
        * destruct (feq_dec z 0) as [|Nz]; [discriminate|]. destruct (feq_dec z' 0) as [|Nz']; [discriminate|].
          injection E as <-. injection E' as <-. pose proof (fpow_neq0 t c Ht). pose proof (fpow_neq0 t d Ht).
          assert (Zc : fpow t c = fpow t d * z' / z) by (rewrite Q; field; assumption).
          transitivity ((fpow t b * w') * (fpow t c / z')); [field; assumption|]. rewrite Q', Zc. field. split; assumption.
    - destruct (IH Hh) as (a & b & He). exists a, b. intros p t y y' Ht Hp Ey Ey'. cbn [eval] in *.
      destruct (eval fs p e) as [z|] eqn:Ez; [|discriminate]. destruct (eval fs (stretch o t p) e) as [z'|] eqn:Ez'; [|discriminate].
      injection Ey as <-. injection Ey' as <-. pose proof (He p t z z' Ht Hp Ez Ez') as Q.
      transitivity (- (fpow t b * z')); [ring|]. rewrite Q. ring.
    - destruct (IH Hh) as (a & b & He).
      exists (if (0 <=? n)%Z then (Z.to_nat n * a)%nat else (Z.to_nat (- n) * b)%nat), (if (0 <=? n)%Z then (Z.to_nat n * b)%nat else (Z.to_nat (- n) * a)%nat).
      intros p t y y' Ht Hp Ey Ey'. cbn [eval] in *.
      destruct (eval fs p e) as [z|] eqn:Ez; [|discriminate]. destruct (eval fs (stretch o t p) e) as [z'|] eqn:Ez'; [|discriminate].
      pose proof (He p t z z' Ht Hp Ez Ez') as Q. destruct (Z.leb_spec 0 n) as [Hn|Hn].
      + rewrite fpowZ_pos in Ey, Ey' by assumption. injection Ey as <-. injection Ey' as <-.
        rewrite !(Nat.mul_comm (Z.to_nat n)), !fpow_mul, <- !fpow_mul_base, Q. reflexivity.
      + destruct n as [|n|n]; try lia. cbn [fpowZ Z.opp Z.to_nat] in *.
        destruct (feq_dec z 0) as [|Nz]; [discriminate|]. destruct (feq_dec z' 0) as [|Nz']; [discriminate|].
        injection Ey as <-. injection Ey' as <-. set (k := Pos.to_nat n) in *.
        rewrite !(Nat.mul_comm k), !fpow_mul.
        pose proof (fpow_neq0 z k Nz). pose proof (fpow_neq0 z' k Nz').
        assert (Q' : fpow (fpow t b) k * fpow z' k = fpow (fpow t a) k * fpow z k) by (rewrite <- !fpow_mul_base, Q; reflexivity).
        transitivity (fpow (fpow t a) k * fpow z k / (fpow z k * fpow z' k)); [field; split; assumption|]. rewrite <- Q'. field. split; assumption.
    - cbn [vhomogeneous] in Hh. fold (deg e) in Hh. destruct (Z.eqb_spec (deg e) 0) as [He|]; [|discriminate].
      destruct (match eval fs rho e with Some x => as_int fs x | None => None end) as [m|] eqn:Em; [|discriminate].
      destruct (eval fs rho e) as [x|] eqn:Ex; [|discriminate]. apply (as_int_sound fs Hfs) in Em. subst x.
      destruct (Z.leb_spec 0 m) as [Hm|]; [|discriminate]. destruct (IHb Hh) as (a & b' & Hb).
      exists (a * Z.to_nat m)%nat, (b' * Z.to_nat m)%nat. intros p t y y' Ht Hp Ey Ey'. cbn [eval] in Ey, Ey'.
      destruct (eval fs p b) as [z|] eqn:Ez; [|discriminate]. destruct (eval fs p e) as [w|] eqn:Ew; [|discriminate].
      destruct (eval fs (stretch o t p) b) as [z'|] eqn:Ez'; [|discriminate]. destruct (eval fs (stretch o t p) e) as [w'|] eqn:Ew'; [|discriminate].
      assert (w = fZ m) as -> by (apply (zero_constant e He p rho); [assumption|intros q _; reflexivity|assumption|assumption]).
      assert (w' = fZ m) as -> by (apply (zero_constant e He (stretch o t p) rho); [apply stretch_differ; assumption|intros q _; reflexivity|assumption|assumption]).
      apply pow_value in Ey; [|assumption]. apply pow_value in Ey'; [|assumption]. subst y y'.
      rewrite !fpow_mul, <- !fpow_mul_base, (Hb p t z z' Ht Hp Ez Ez'). reflexivity.
    - exists O, O. intros p t y y' Ht Hp Ey Ey'. assert (H0 : deg (Fun k e) = 0%Z) by (cbn [vhomogeneous] in Hh; apply Z.eqb_eq; exact Hh).
      rewrite (zero_constant (Fun k e) H0 (stretch o t p) p y' y); [reflexivity|apply stretch_differ; assumption|assumption|assumption|assumption].
    - exact (IH Hh).
  Qed.
End Proofs.

Section Compare.
  Context {F : fld}.
  Variable fs : funs F.
  Variable rho : env F.

  Lemma vdegree_some : forall v e, vdegree fs rho (Some v) e = degree fs rho v e.
  Proof.
    intros v e. induction e as [k c|x|ops IH|ops IH|e IH|e n IH|b e IHb IHe|k e IH|e IH] using expr_rect'; cbn [vdegree degree]; try reflexivity.
    - f_equal. apply map_ext_in. intros p Hp. rewrite Forall_forall in IH. apply IH. assumption.
    - f_equal. apply map_ext_in. intros p Hp. rewrite Forall_forall in IH. rewrite (IH p Hp). reflexivity.
    - exact IH.
    - rewrite IH. reflexivity.
    - rewrite IHb, IHe. reflexivity.
    - rewrite IH. reflexivity.
    - exact IH.
  Qed.

  Definition each_nonneg (e : expr F) : Prop := forall v, (0 <= degree fs rho v e)%Z.
  Definition each_zero (e : expr F) : Prop := forall v, degree fs rho v e = 0%Z.

  Variable vs : list nat.
  Let covered (e : expr F) : Prop := forall x, occurs x e -> In x vs.
  Let total := vdegree fs rho None.

  Lemma each_all : forall e, each_nonneg e -> all_nonneg fs rho vs e.
  Proof. intros e H v _. apply H. Qed.

  Lemma each_sum : forall ops, each_nonneg (Sum ops) -> forall s e, In (s, e) ops -> each_nonneg e /\ (each_zero (Sum ops) -> each_zero e).
  Proof.
    intros ops H s e Hi. split.
    - intro v. destruct (sum_children fs rho [v] ops (fun w _ => H w) s e Hi) as [A _]. apply A. left. reflexivity.
    - intros Hz v. destruct (sum_children fs rho [v] ops (fun w _ => H w) s e Hi) as [A B]. unfold sumdeg in B. cbn [map fold_right] in B.
      rewrite (Hz v) in B. specialize (A v (or_introl eq_refl)). lia.
  Qed.

  Lemma each_mul : forall ops, each_nonneg (Mul ops) -> forall s e, In (s, e) ops ->
    each_nonneg e /\ (s = false -> each_zero e) /\ (each_zero (Mul ops) -> each_zero e).
  Proof.
    intros ops H s e Hi. split; [|split].
    - intro v. destruct (mul_children fs rho [v] ops (fun w _ => H w)) as (A & _ & _). apply (A s e Hi). left. reflexivity.
    - intros -> v. destruct (mul_children fs rho [v] ops (fun w _ => H w)) as (_ & B & _). apply (B e Hi v). left. reflexivity.
    - intros Hz v. pose proof (vdegree_some v (Mul ops)) as D. rewrite (Hz v) in D. rewrite <- (vdegree_some v).
      apply (mul_zero fs rho (Some v) ops D s e Hi).
  Qed.

  Lemma each_ipow : forall e n, each_nonneg (IPow e n) -> each_nonneg e /\ (forall v, degree fs rho v (IPow e n) = (n * degree fs rho v e)%Z) /\
    ((n < 0)%Z -> each_zero e) /\ ((n <> 0)%Z -> each_zero (IPow e n) -> each_zero e).
  Proof.
    intros e n H. assert (A : each_nonneg e).
    { intro v. specialize (H v). cbn [degree] in H. destruct (Z.ltb_spec (degree fs rho v e) 0); lia. }
    assert (B : forall v, degree fs rho v (IPow e n) = (n * degree fs rho v e)%Z).
    { intro v. specialize (A v). cbn [degree]. destruct (Z.ltb_spec (degree fs rho v e) 0); lia. }
    split; [exact A|]. split; [exact B|]. split.
    - intros Hn v. specialize (H v). specialize (A v). rewrite B in H. nia.
    - intros Hn Hz v. specialize (Hz v). rewrite B in Hz. nia.
  Qed.

  Lemma each_pow : forall b e, each_nonneg (Pow b e) -> each_zero e /\
    match (match eval fs rho e with Some x => as_int fs x | None => None end) with
    | Some n => n = 0%Z \/ (0 < n)%Z /\ each_nonneg b /\ (forall v, degree fs rho v (Pow b e) = (degree fs rho v b * n)%Z)
    | None => each_zero b
    end.
  Proof.
    intros b e H. assert (He : each_zero e).
    { intro v. specialize (H v). cbn [degree] in H. destruct (Z.eqb_spec (degree fs rho v e) 0); lia. }
    split; [exact He|].
    destruct (match eval fs rho e with Some x => as_int fs x | None => None end) as [n|] eqn:E.
    - destruct (Z.eq_dec n 0) as [|Nn]; [left; assumption|right].
      assert (G : forall v, (0 < n)%Z /\ (0 <= degree fs rho v b)%Z /\ degree fs rho v (Pow b e) = (degree fs rho v b * n)%Z).
      { intro v. specialize (H v). cbn [degree] in H |- *. rewrite (He v), E in *. cbn [Z.eqb] in *.
        destruct (Z.eqb_spec n 0); [contradiction|]. destruct (Z.ltb_spec n 0); [lia|]. destruct (Z.ltb_spec (degree fs rho v b) 0); [lia|].
        split; [lia|]. split; lia. }
      split; [apply (G O)|]. split; intro v; apply G.
    - intro v. specialize (H v). cbn [degree] in H. rewrite (He v), E in H. cbn [Z.eqb] in H. destruct (Z.eqb_spec (degree fs rho v b) 0); lia.
  Qed.

  Lemma each_fun : forall k e, each_nonneg (Fun k e) -> each_zero e.
  Proof. intros k e H v. specialize (H v). cbn [degree] in H. destruct (Z.eqb_spec (degree fs rho v e) 0); lia. Qed.

  Lemma total_sum : forall ops b, (0 <= b)%Z -> (forall s e, In (s, e) ops -> (0 <= total e <= b)%Z) -> (0 <= total (Sum ops) <= b)%Z.
  Proof.
    intros ops b Hb H. unfold total. cbn [vdegree]. split.
    - apply sum_degree_all; [lia|]. apply Forall_forall. intros d Hd. apply in_map_iff in Hd. destruct Hd as ([s e] & <- & Hi). apply (H s e Hi).
    - apply sum_degree_le; [lia|]. apply Forall_forall. intros d Hd. apply in_map_iff in Hd. destruct Hd as ([s e] & <- & Hi). apply (H s e Hi).
  Qed.

  Lemma total_mul : forall ops, (forall s e, In (s, e) ops -> (0 <= total e)%Z /\ (s = false -> total e = 0%Z)) ->
    total (Mul ops) = fold_right (fun p n => (total (snd p) + n)%Z) 0%Z ops.
  Proof.
    intros ops H. unfold total. cbn [vdegree]. rewrite mul_degree_all.
    - unfold sum2. cbn [Z.add]. clear. induction ops as [|[s e] ops IH]; cbn [map fold_right fst snd]; [reflexivity|]. rewrite IH. reflexivity.
    - apply Forall_forall. intros q Hq. apply in_map_iff in Hq. destruct Hq as ([s e] & <- & Hi). apply (H s e Hi).
  Qed.

  Lemma each_total : forall e, each_nonneg e -> (0 <= total e)%Z /\ (each_zero e -> total e = 0%Z) /\ (covered e -> (total e <= sumdeg fs rho vs e)%Z).
  Proof.
    intro e. induction e as [k c|x|ops IH|ops IH|e IH|e n IH|b e IHb IHe|k e IH|e IH] using expr_rect'; intro H.
    - unfold total. cbn. split; [lia|]. split; [reflexivity|]. intros _. apply (sumdeg_nonneg fs rho vs (Num k c)). apply each_all. exact H.
    - unfold total. cbn [vdegree]. split; [lia|]. split.
      + intro Hz. specialize (Hz x). cbn [degree] in Hz. rewrite Nat.eqb_refl in Hz. discriminate.
      + intro C. unfold sumdeg. cbn [degree]. apply fold_var. apply C. constructor.
    - rewrite Forall_forall in IH. split; [|split].
      + assert (G : exists b, (0 <= b)%Z /\ forall s e, In (s, e) ops -> (0 <= total e <= b)%Z).
        { assert (P : forall s e, In (s, e) ops -> (0 <= total e)%Z) by (intros s e Hi; apply (IH _ Hi); apply (each_sum ops H s e Hi)).
          clear -P. induction ops as [|[s e] ops IHo]; [exists 0%Z; split; [lia|intros s e []]|].
          destruct IHo as (b & B & HB); [intros s0 e0 H0; apply (P s0); right; assumption|].
          exists (Z.max b (total e)). split; [lia|]. intros s0 e0 [E|H0]; [injection E as -> ->; pose proof (P _ _ (or_introl eq_refl)); lia|].
          specialize (HB _ _ H0). lia. }
        destruct G as (b & B & HB). apply (total_sum ops b B HB).
      + intro Hz. assert (0 <= total (Sum ops) <= 0)%Z; [|lia]. apply total_sum; [lia|]. intros s e Hi.
        destruct (each_sum ops H s e Hi) as [A1 A2]. destruct (IH _ Hi A1) as (B1 & B2 & _). cbn [snd] in *. rewrite (B2 (A2 Hz)). lia.
      + intro C. apply total_sum; [apply sumdeg_nonneg, each_all, H|]. intros s e Hi.
        destruct (each_sum ops H s e Hi) as [A1 _]. destruct (IH _ Hi A1) as (B1 & _ & B3). cbn [snd] in *. split; [exact B1|].
        destruct (sum_children fs rho vs ops (each_all _ H) s e Hi) as [_ L]. etransitivity; [|exact L]. apply B3.
        intros x Hx. apply C. econstructor; eassumption.
    - rewrite Forall_forall in IH.
      assert (P : forall s e, In (s, e) ops -> (0 <= total e)%Z /\ (s = false -> total e = 0%Z)).
      { intros s e Hi. destruct (each_mul ops H s e Hi) as (A1 & A2 & _). destruct (IH _ Hi A1) as (B1 & B2 & _). cbn [snd] in *. split; [exact B1|].
        intro E. apply B2, A2, E. }
      rewrite (total_mul ops P). split; [|split].
      + clear -P. induction ops as [|[s e] ops IHo]; cbn [fold_right snd]; [lia|].
        pose proof (proj1 (P s e (or_introl eq_refl))). specialize (IHo (fun s e H => P s e (or_intror H))). lia.
      + intro Hz. assert (Q : forall s e, In (s, e) ops -> total e = 0%Z).
        { intros s e Hi. destruct (each_mul ops H s e Hi) as (A1 & _ & A3). destruct (IH _ Hi A1) as (_ & B2 & _). cbn [snd] in *. apply B2, A3, Hz. }
        clear -Q. induction ops as [|[s e] ops IHo]; cbn [fold_right snd]; [reflexivity|].
        rewrite (Q s e (or_introl eq_refl)), (IHo (fun s e H => Q s e (or_intror H))). reflexivity.
      + intro C. destruct (mul_children fs rho vs ops (each_all _ H)) as (_ & _ & ->).
        assert (Q : forall s e, In (s, e) ops -> (total e <= sumdeg fs rho vs e)%Z).
        { intros s e Hi. destruct (each_mul ops H s e Hi) as (A1 & _ & _). destruct (IH _ Hi A1) as (_ & _ & B3). cbn [snd] in *. apply B3.
          intros x Hx. apply C. econstructor; eassumption. }
        clear -Q. induction ops as [|[s e] ops IHo]; cbn [fold_right snd]; [lia|].
        pose proof (Q s e (or_introl eq_refl)). specialize (IHo (fun s e H => Q s e (or_intror H))). lia.
    - destruct (IH H) as (A & B & C). split; [exact A|]. split; [exact B|]. intro D. apply C. intros x Hx. apply D. constructor. assumption.
    - destruct (each_ipow e n H) as (A & B & C & D). destruct (IH A) as (E1 & E2 & E3).
      assert (T : total (IPow e n) = (n * total e)%Z) by (unfold total; cbn [vdegree]; fold (total e); destruct (Z.ltb_spec (total e) 0); lia).
      rewrite T. destruct (Z_lt_le_dec n 0) as [Hn|Hn].
      + rewrite (E2 (C Hn)). rewrite Z.mul_0_r. split; [lia|]. split; [reflexivity|]. intros _. apply sumdeg_nonneg, each_all, H.
      + split; [nia|]. split.
        * intro Hz. destruct (Z.eq_dec n 0) as [->|Nn]; [reflexivity|]. rewrite (E2 (D Nn Hz)). lia.
        * intro Cv. assert (S1 : sumdeg fs rho vs (IPow e n) = (n * sumdeg fs rho vs e)%Z).
          { unfold sumdeg. rewrite <- fold_scale. f_equal. apply map_ext. exact B. }
          rewrite S1. apply Z.mul_le_mono_nonneg_l; [assumption|]. apply E3. intros x Hx. apply Cv. constructor. assumption.
    - destruct (each_pow b e H) as [He C]. assert (Te : total e = 0%Z) by (apply (IHe (fun v => ltac:(rewrite He; lia))); exact He).
      assert (T : total (Pow b e) = match (match eval fs rho e with Some x => as_int fs x | None => None end) with
          | Some n => if (n =? 0)%Z then 0%Z else if (n <? 0)%Z then (-1)%Z else if (total b <? 0)%Z then (-1)%Z else (total b * n)%Z
          | None => if (total b =? 0)%Z then 0%Z else (-1)%Z end).
      { unfold total at 1. cbn [vdegree]. fold (total e) (total b). rewrite Te. reflexivity. }
      rewrite T. destruct (match eval fs rho e with Some x => as_int fs x | None => None end) as [n|].
      + destruct C as [->|(Hn & Hb & Hd)]; [cbn [Z.eqb]; split; [lia|split; [reflexivity|intros _; apply sumdeg_nonneg, each_all, H]]|].
        destruct (IHb Hb) as (E1 & E2 & E3). destruct (Z.eqb_spec n 0); [lia|]. destruct (Z.ltb_spec n 0); [lia|].
        destruct (Z.ltb_spec (total b) 0); [lia|]. split; [nia|]. split.
        * intro Hz. rewrite E2; [reflexivity|]. intro v. specialize (Hz v). rewrite Hd in Hz. nia.
        * intro Cv. assert (S1 : sumdeg fs rho vs (Pow b e) = (n * sumdeg fs rho vs b)%Z).
          { unfold sumdeg. rewrite <- fold_scale. f_equal. apply map_ext. intro v. rewrite Hd. lia. }
          rewrite S1, Z.mul_comm. apply Z.mul_le_mono_nonneg_l; [lia|]. apply E3. intros x Hx. apply Cv. constructor. assumption.
      + destruct (IHb (fun v => ltac:(rewrite C; lia))) as (_ & E2 & _). rewrite (E2 C). cbn [Z.eqb]. split; [lia|]. split; [reflexivity|].
        intros _. apply sumdeg_nonneg, each_all, H.
    - pose proof (each_fun k e H) as He. assert (Te : total e = 0%Z) by (apply (IH (fun v => ltac:(rewrite He; lia))); exact He).
      assert (T : total (Fun k e) = 0%Z) by (unfold total; cbn [vdegree]; fold (total e); rewrite Te; reflexivity).
      rewrite T. split; [lia|]. split; [reflexivity|]. intros _. apply sumdeg_nonneg, each_all, H.
    - destruct (IH H) as (A & B & C). split; [exact A|]. split; [exact B|]. intro D. apply C. intros x Hx. apply D. constructor. assumption.
  Qed.

  Lemma total_below_group : forall e, each_nonneg e -> covered e -> (total e <= gdegree fs rho vs e)%Z.
  Proof.
    assert (U : forall e, each_nonneg e -> unary_group_degree (map (fun v => degree fs rho v e) vs) = sumdeg fs rho vs e).
    { intros e H. rewrite unary_group_degree_nonneg; [reflexivity|]. rewrite Forall_map. apply Forall_forall. intros v _. apply H. }
    assert (W : forall e, each_nonneg e -> power_group_degree (map (fun v => degree fs rho v e) vs) = sumdeg fs rho vs e).
    { intros e H. rewrite power_group_degree_nonneg; [reflexivity|]. rewrite Forall_map. apply Forall_forall. intros v _. apply H. }
    intro e. induction e as [k c|x|ops IH|ops IH|e IH|e n IH|b e IHb IHe|k e IH|e IH] using expr_rect'; intros H C.
    - cbn. reflexivity.
    - unfold total. cbn [vdegree gdegree]. replace (existsb (Nat.eqb x) vs) with true; [reflexivity|]. symmetry. apply existsb_exists.
      exists x. split; [apply C; constructor|apply Nat.eqb_refl].
    - rewrite Forall_forall in IH. pose proof (proj1 (gdegree_le_sumdeg fs rho vs (Sum ops) (each_all _ H))) as G.
      apply total_sum; [exact G|]. intros s e Hi. destruct (each_sum ops H s e Hi) as [A1 _]. split; [apply (each_total e A1)|].
      etransitivity; [apply (IH _ Hi A1); intros x Hx; apply C; econstructor; eassumption|]. cbn [snd gdegree] in *.
      apply sum_degree_nonneg in G; [|lia]. destruct G as [G _]. rewrite Forall_forall in G.
      apply (G (gdegree fs rho vs e)). apply in_map_iff. exists (s, e). split; [reflexivity|assumption].
    - rewrite Forall_forall in IH.
      assert (P : forall s e, In (s, e) ops -> (0 <= total e)%Z /\ (s = false -> total e = 0%Z)).
      { intros s e Hi. destruct (each_mul ops H s e Hi) as (A1 & A2 & _). destruct (each_total e A1) as (B1 & B2 & _). split; [exact B1|].
        intro E. apply B2, A2, E. }
      rewrite (total_mul ops P).
      assert (E : gdegree fs rho vs (Mul ops) = fold_right (fun p n => (gdegree fs rho vs (snd p) + n)%Z) 0%Z ops).
      { cbn [gdegree]. rewrite mul_degree_all.
        - unfold sum2. clear. induction ops as [|[s e] ops IHo]; cbn [map fold_right fst snd]; [reflexivity|]. lia.
        - rewrite Forall_map. apply Forall_forall. intros [s e] Hin. cbn [fst snd]. destruct (each_mul ops H s e Hin) as (A1 & A2 & _).
          pose proof (gdegree_le_sumdeg fs rho vs e (each_all _ A1)). split; [lia|].
          intro Es. rewrite (sumdeg_zero fs rho vs e (fun v _ => A2 Es v)) in *. lia. }
      rewrite E. clear E P.
      assert (Q : forall s e, In (s, e) ops -> (total e <= gdegree fs rho vs e)%Z).
      { intros s e Hi. apply (IH _ Hi); [apply (each_mul ops H s e Hi)|]. intros x Hx. apply C. econstructor; eassumption. }
      clear -Q. induction ops as [|[s e] ops IHo]; cbn [fold_right snd]; [lia|].
      pose proof (Q s e (or_introl eq_refl)). specialize (IHo (fun s e H => Q s e (or_intror H))). lia.
    - cbn [gdegree]. rewrite (U _ H). apply (each_total _ H). exact C.
    - cbn [gdegree]. rewrite (U _ H). apply (each_total _ H). exact C.
    - cbn [gdegree]. rewrite (W _ H). apply (each_total _ H). exact C.
    - cbn [gdegree]. rewrite (U _ H). apply (each_total _ H). exact C.
    - cbn [gdegree]. apply (IH H). intros x Hx. apply C. constructor. assumption.
  Qed.
End Compare.

(** ** The start system *)
Section Start.
  Context {F : fld}.
  Local Open Scope fld_scope.
  Add Field degreeall_start : (f_th F).

  (** a line through [p] in the direction [b], moving the variables asked for *)
  Definition ray (o : option nat) (p : env F) (b : nat -> F) (t : F) : env F :=
    fun x => match o with Some v => if Nat.eqb x v then p x + t * b x else p x | None => p x + t * b x end.

  Lemma line_bound : forall (fs : funs F), funs_ok fs -> forall rho o e, (0 <= vdegree fs rho o e)%Z ->
    forall p b, differ_in o p rho -> poly_where_defined (Z.to_nat (vdegree fs rho o e)) (fun t => eval fs (ray o p b t) e).
  Proof.
    intros fs Hfs rho o e H p b Hp. apply path_bound; [assumption| | |assumption].
    - intros t x Hx. unfold ray. destruct o as [v|]; [|exfalso; apply Hx; exact I]. cbn in Hx. destruct (Nat.eqb_spec x v); [contradiction|]. apply Hp. exact Hx.
    - intros x Hx. apply is_poly_ext with (f := fun t => p x + b x * t).
      + intro t. unfold ray. destruct o as [v|]; [cbn in Hx; subst; rewrite Nat.eqb_refl|]; ring.
      + apply is_poly_add; [apply is_poly_const|]. apply is_poly_scale. apply is_poly_id.
  Qed.

  Lemma degree_attained : infinite F -> forall (fs : funs F), funs_ok fs -> forall rho o e, (0 <= vdegree fs rho o e)%Z ->
    vhomogeneous fs rho o e = true -> forall p y k q, differ_in o p rho -> eval fs p e = Some y -> y <> 0 ->
    is_poly k q -> (forall t, t <> 0 -> eval fs (stretch o t p) e = Some (q t)) -> (vdegree fs rho o e <= Z.of_nat k)%Z.
  Proof.
    intros Hinf fs Hfs rho o e Hd Hh p y k q Hp Ey Hy Hq Ht.
    assert ((Z.to_nat (vdegree fs rho o e) <= k)%nat); [|lia].
    apply (monomial_degree Hinf _ k y q Hy Hq). intros t Ht0.
    apply (homogeneous_poly fs Hfs rho o e Hh Hd p t y (q t) Hp Ey). apply Ht. assumption.
  Qed.

  Lemma concat_length : forall (A : Type) (l : list (list A)), length (concat l) = fold_right Nat.add 0%nat (map (@length A) l).
  Proof. induction l as [|a l IH]; cbn; [reflexivity|]. rewrite app_length, IH. reflexivity. Qed.

  Lemma copy_accepts : forall (fs : funs F) rho s patches path,
    (exists ds, copy_degrees fs rho s patches path = Value ds) <->
    (hom_groups s = [] /\ length (groups s) = 1%nat /\ path = false /\
     (length (fns s) + patches)%nat = length (concat (groups s) ++ ungrouped s ++ hom_vars s) /\
     is_polynomial_sys fs rho s = Some true).
  Proof.
    intros fs rho s patches path. unfold copy_degrees, variable_count. rewrite !app_length, concat_length. split.
    - intros [ds H]. destruct (hom_groups s) as [|? ?]; [|discriminate]. cbn [length Nat.eqb negb map fold_right] in H.
      destruct (Nat.eqb_spec (length (fns s) + patches)%nat (fold_right Nat.add 0 (map (@length nat) (groups s)) + 0 + length (ungrouped s) + length (hom_vars s))%nat) as [E|];
        [|discriminate]. cbn [negb] in H. destruct path; [discriminate|].
      destruct (Nat.eqb_spec (length (groups s)) 1) as [E1|]; [|discriminate]. cbn [negb] in H.
      destruct (is_polynomial_sys fs rho s) as [[|]|] eqn:Ep; try discriminate. repeat split; try assumption. rewrite E. lia.
    - intros (E1 & E2 & -> & E3 & E4). rewrite E1, E2, E4. cbn [length Nat.eqb negb map fold_right].
      replace (length (fns s) + patches =? fold_right Nat.add 0 (map (@length nat) (groups s)) + 0 + length (ungrouped s) + length (hom_vars s))%nat with true
        by (symmetry; apply Nat.eqb_eq; lia).
      eexists. reflexivity.
  Qed.

  Lemma copy_outcome : forall (fs : funs F) rho s patches path, copy_degrees fs rho s patches path = Throws \/
    exists ds, copy_degrees fs rho s patches path = Value ds.
  Proof.
    intros. unfold copy_degrees. destruct (negb _); [tauto|]. destruct (negb _); [tauto|]. destruct path; [tauto|]. destruct (negb _); [tauto|].
    destruct (is_polynomial_sys fs rho s) as [[|]|]; eauto.
  Qed.

  Lemma copied : forall (fs : funs F) rho s patches path ds, copy_degrees fs rho s patches path = Value ds ->
    Forall (fun f => forall v, (0 <= degree fs rho v f)%Z) (fns s) ->
    Forall (fun f => (vdegree fs rho None f < 2 ^ 64)%Z) (fns s) ->
    ds = map (vdegree fs rho None) (fns s).
  Proof.
    intros fs rho s patches path ds E H B. unfold copy_degrees in E.
    destruct (negb _); [discriminate|]. destruct (negb _); [discriminate|]. destruct path; [discriminate|]. destruct (negb _); [discriminate|].
    destruct (is_polynomial_sys fs rho s) as [[|]|]; try discriminate. injection E as <-. unfold degrees_of. rewrite map_map.
    rewrite Forall_forall in H, B. apply map_ext_in. intros f Hf. unfold wrap64. apply Z.mod_small. split; [|apply B; assumption].
    apply (each_total fs rho [] f). intro v. apply (H f Hf).
  Qed.
End Start.

(** x / p - 1 in one variable x, where p is a parameter: one root, and IsPolynomial accepts *)
Definition quotient_target : psys QcF :=
  mkPS [Sum [(true, Mul [(true, Var 0); (false, Var 1)]); (false, Num KInteger (qc 1 1))]] [[0%nat]] [] [] [].
(** x - p^2: one root *)
Definition square_target : psys QcF := mkPS [Sum [(true, Var 0); (false, IPow (Var 1) 2)]] [[0%nat]] [] [] [].
(** (x+y)^2 - 1, x - y: polynomial, two roots *)
Definition binomial_target : psys QcF :=
  mkPS [Sum [(true, IPow (Sum [(true, Var 0); (true, Var 1)]) 2); (false, Num KInteger (qc 1 1))];
        Sum [(true, Var 0); (false, Var 1)]] [[0; 1]%nat] [] [] [].

Lemma quotient_copied : copy_degrees qc_funs q_env quotient_target 0 false = Value [18446744073709551615%Z].
Proof. vm_compute. reflexivity. Qed.
Lemma square_copied : copy_degrees qc_funs q_env square_target 0 false = Value [2%Z].
Proof. vm_compute. reflexivity. Qed.
Lemma binomial_copied : copy_degrees qc_funs q_env binomial_target 0 false = Value [2%Z; 1%Z].
Proof. vm_compute. reflexivity. Qed.
Lemma binomial_group : map (gdegree qc_funs q_env [0; 1]%nat) (fns binomial_target) = [4%Z; 1%Z].
Proof. vm_compute. reflexivity. Qed.

Lemma quotient_linear : forall point : env QcF, Forall (fun f => poly_where_defined 1 (fun t => eval qc_funs (upd point 0 t) f)) (fns quotient_target).
Proof.
  intro point. constructor; [|constructor].
  pose proof (degree_bounds qc_funs qc_funs_ok point 0 (Sum [(true, Mul [(true, Var 0); (false, Var 1)]); (false, Num KInteger (qc 1 1))])) as H.
  assert (E : degree qc_funs point 0 (Sum [(true, Mul [(true, Var 0); (false, Var 1)]); (false, Num KInteger (qc 1 1))]) = 1%Z) by reflexivity.
  rewrite E in H. apply H. lia.
Qed.
Lemma square_linear : forall point : env QcF, Forall (fun f => poly_where_defined 1 (fun t => eval qc_funs (upd point 0 t) f)) (fns square_target).
Proof.
  intro point. constructor; [|constructor].
  pose proof (degree_bounds qc_funs qc_funs_ok point 0 (Sum [(true, Var 0); (false, IPow (Var 1) 2)])) as H.
  assert (E : degree qc_funs point 0 (Sum [(true, Var 0); (false, IPow (@Var QcF 1) 2)]) = 1%Z) by reflexivity.
  rewrite E in H. apply H. lia.
Qed.
