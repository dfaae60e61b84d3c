(** The systems a program can ask for by name.  Models core/src/system/precon.cpp:33-84 with the operators
    of NodeOps.v. *)
From Coq Require Import List Arith Lia ZArith Bool Ring Field.
From Verif Require Import Base Expr Homog Heap NodeOps.
Import ListNotations.

Section Precon.
  Context {F : fld}.
  Local Open Scope fld_scope.
  Add Field precon_field : (f_th F).

  (** what is used of a System: the nodes, its functions and its variable group *)
  Record named_system := mkNamed {
    nodes : list (gnode (F := F));
    functions : list nat;
    group : list nat
  }.

  (** precon.cpp:42-43: AddFunction, system.cpp:702-706; the expression is made and a Function node put on top *)
  Fixpoint add_functions (G : list (gnode (F := F))) (l : list (formula (F := F)))
    : option (list (gnode (F := F)) * list nat) :=
    match l with
    | [] => Some (G, [])
    | f :: r =>
        match build G f with
        | None => None
        | Some (G1, n) =>
            let (G2, h) := alloc G1 (GHandle n) in
            match add_functions G2 r with
            | None => None
            | Some (G3, hs) => Some (G3, h :: hs)
            end
        end
    end.
  Definition make_system (G : list (gnode (F := F))) (g : list nat) (l : list (formula (F := F)))
    : option named_system :=
    match add_functions G l with
    | None => None
    | Some (G', hs) => Some (mkNamed G' hs g)
    end.

  (** a number node, whose value is the fraction p / q *)
  Definition integer (p : Z) : formula (F := F) := FNum KInteger (fZ p).
  Definition rational (p q : Z) : formula (F := F) := FNum KRational (fZ p / fZ q).

  (** precon.cpp:33-46; x, t, y are the nodes 0, 1, 2 *)
  Definition griewank_osborn : option named_system :=
    make_system [GVar; GVar; GVar] [0; 2]%nat
      [FSub (FMul (rational 29 16) (FIPow (FNode 0) 3)) (FMul (FMul (integer 2) (FNode 0)) (FNode 2));
       FSub (FNode 2) (FIPow (FNode 0) 2)].

  (** precon.cpp:50-65; x, t, y, two, half are the nodes 0 to 4 *)
  Definition crossed_paths : option named_system :=
    make_system [GVar; GVar; GVar; GNum KInteger (fZ 2); GNum KRational (fZ 1 / fZ 2)] [0; 2]%nat
      [FAdd (FIPow (FNode 0) 3) (FNode 3); FAdd (FIPow (FNode 2) 2) (FNode 4)].

  (** precon.cpp:68-82; x, y, z, one are the nodes 0 to 3 *)
  Definition sphere : option named_system :=
    make_system [GVar; GVar; GVar; GNum KInteger (fZ 1)] [0; 1; 2]%nat
      [FSub (FAdd (FAdd (FIPow (FNode 0) 2) (FIPow (FNode 1) 2)) (FIPow (FNode 2) 2)) (FNode 3)].

  (** the values of the functions at a point, which gives each variable node its value *)
  Definition values (fs : funs F) (S : named_system) (point : env F) : list (option F) :=
    map (value fs (nodes S) None point) (functions S).

  (** the functions homogenized with respect to the variable group, [h] being the new variable
      (system.cpp:409-485), at a point *)
  Definition homogenized_values (fs : funs F) (S : named_system) (h : nat) (point : env F) : list (option F) :=
    map (fun n => match Heap.unfold (Datatypes.S (length (nodes S))) (nodes S) None n with
                  | None => None
                  | Some e => match homogenize fs point (group S) h e with None => None | Some e' => eval fs point e' end
                  end) (functions S).

  (** ** Proofs *)

  Lemma cons_eq : forall (a b : F) l l', a = b -> l = l' -> Some a :: l = Some b :: l'.
  Proof. intros. subst. reflexivity. Qed.

  Lemma griewank_osborn_values : exists S, griewank_osborn = Some S /\ group S = [0; 2]%nat
    /\ forall fs rho, values fs S rho
       = [Some (fZ 29 / fZ 16 * (rho 0%nat * rho 0%nat * rho 0%nat) - fZ 2 * rho 0%nat * rho 2%nat);
          Some (rho 2%nat - rho 0%nat * rho 0%nat)].
  Proof.
    eexists. split; [reflexivity|]. split; [reflexivity|]. intros fs rho.
    unfold values. cbn -[fZ].
    change (Pos.to_nat 3) with 3%nat; change (Pos.to_nat 2) with 2%nat; cbn [fpow].
    repeat (apply cons_eq; [ring|]). reflexivity.
  Qed.

  Lemma griewank_osborn_homogenized : exists S, griewank_osborn = Some S
    /\ forall fs rho h, h <> 0%nat -> h <> 2%nat -> homogenized_values fs S h rho
       = [Some (fZ 29 / fZ 16 * (rho 0%nat * rho 0%nat * rho 0%nat) - fZ 2 * rho 0%nat * rho 2%nat * rho h);
          Some (rho 2%nat * rho h - rho 0%nat * rho 0%nat)].
  Proof.
    eexists. split; [reflexivity|]. intros fs rho h H0 H2.
    unfold homogenized_values. cbn -[fZ].
    change (Pos.to_nat 3) with 3%nat; change (Pos.to_nat 2) with 2%nat; cbn [fpow].
    repeat (apply cons_eq; [ring|]). reflexivity.
  Qed.

  Lemma crossed_paths_values : exists S, crossed_paths = Some S /\ group S = [0; 2]%nat
    /\ forall fs rho, values fs S rho
       = [Some (rho 0%nat * rho 0%nat * rho 0%nat + fZ 2); Some (rho 2%nat * rho 2%nat + fZ 1 / fZ 2)].
  Proof.
    eexists. split; [reflexivity|]. split; [reflexivity|]. intros fs rho.
    unfold values. cbn -[fZ].
    change (Pos.to_nat 3) with 3%nat; change (Pos.to_nat 2) with 2%nat; cbn [fpow].
    repeat (apply cons_eq; [ring|]). reflexivity.
  Qed.

  Lemma sphere_values : exists S, sphere = Some S /\ group S = [0; 1; 2]%nat
    /\ forall fs rho, values fs S rho
       = [Some (rho 0%nat * rho 0%nat + rho 1%nat * rho 1%nat + rho 2%nat * rho 2%nat - fZ 1)].
  Proof.
    eexists. split; [reflexivity|]. split; [reflexivity|]. intros fs rho.
    unfold values. cbn -[fZ].
    change (Pos.to_nat 3) with 3%nat; change (Pos.to_nat 2) with 2%nat; cbn [fpow].
    repeat (apply cons_eq; [ring|]). reflexivity.
  Qed.
  Ltac nums := unfold fZ;
    repeat match goal with |- context [Pos.to_nat ?p] =>
             let v := eval compute in (Pos.to_nat p) in change (Pos.to_nat p) with v end;
    cbn [fnat]; ring.

  Lemma griewank_origin : forall (fs : funs F) (S : named_system) rho f1 f2,
    fZ 2 <> @f0 F -> fZ 3 <> @f0 F -> griewank_osborn = Some S -> values fs S rho = [Some f1; Some f2] ->
    let x := rho 0%nat in let y := rho 2%nat in
    (f1 = 0 /\ f2 = 0 <-> x = 0 /\ y = 0)
    /\ f1 = - (fZ 3 / fZ 16) * (x * x * x) - fZ 2 * x * f2
    /\ x * x * x = - (fZ 16 / fZ 3) * (f1 + fZ 2 * x * f2)
    /\ y - x * x = f2.
  Proof.
    intros fs S rho f1 f2 H2 H3 E V x y. destruct (griewank_osborn_values) as [S' [E' [_ V']]].
    assert (S' = S) by congruence. subst S'. rewrite (V' fs rho) in V. fold x y in V.
    assert (A : fZ 29 / fZ 16 * (x * x * x) - fZ 2 * x * y = f1) by congruence.
    assert (B : y - x * x = f2) by congruence. clear V V'.
    assert (H16 : fZ 16 <> @f0 F).
    { intro Z. apply H2. assert (Q : @fZ F 16 = fZ 2 * (fZ 2 * (fZ 2 * fZ 2))) by nums.
      rewrite Q in Z. destruct (feq_dec (@fZ F 2) 0) as [D|D]; [exact D|]. exfalso. apply D.
      transitivity ((1 : F) / (fZ 2 * (fZ 2 * fZ 2)) * (fZ 2 * (fZ 2 * (fZ 2 * fZ 2)))); [field; exact D|]. rewrite Z. field. exact D. }
    assert (I : f1 = - (fZ 3 / fZ 16) * (x * x * x) - fZ 2 * x * f2).
    { rewrite <- A, <- B. assert (Q : @fZ F 29 = fZ 2 * fZ 16 - fZ 3) by nums. rewrite Q. field. exact H16. }
    assert (J : x * x * x = - (fZ 16 / fZ 3) * (f1 + fZ 2 * x * f2)) by (rewrite I; field; split; assumption).
    split; [|split; [exact I|split; [exact J|exact B]]]. split.
    - intros [Z1 Z2]. rewrite Z1, Z2 in J.
      assert (X : x = 0).
      { destruct (feq_dec x 0) as [D|D]; [exact D|]. transitivity (x * x * x / (x * x)); [field; exact D|]. rewrite J. field; repeat split; assumption. }
      split; [exact X|]. rewrite X, Z2 in B. transitivity (y - 0 * 0); [ring|exact B].
    - intros [X Y]. rewrite <- A, <- B, X, Y. split; ring.
  Qed.

  Lemma griewank_infinity : forall (fs : funs F) (S : named_system) rho h,
    griewank_osborn = Some S -> h <> 0%nat -> h <> 2%nat ->
    let x := rho 0%nat in let y := rho 2%nat in let w := rho h in
    exists f1 f2, homogenized_values fs S h rho = [Some f1; Some f2]
      /\ (w = 0 -> (f1 = 0 /\ f2 = 0 <-> x = 0))
      /\ (y = 1 -> f1 = fZ 29 / fZ 16 * (x * x * x) - fZ 2 * x * w /\ f2 = w - x * x)
      /\ (w = 1 -> values fs S rho = [Some f1; Some f2]).
  Proof.
    intros fs S rho h E H0 H2 x y w. destruct (griewank_osborn_homogenized) as [S' [E' V]].
    assert (S' = S) by congruence. subst S'. destruct (griewank_osborn_values) as [S' [E2 [_ V2]]].
    assert (S' = S) by congruence. subst S'.
    rewrite (V fs rho h H0 H2), (V2 fs rho). fold x y w. eexists. eexists. split; [reflexivity|].
    split; [|split].
    - intros ->. split.
      + intros [_ Q]. destruct (feq_dec x 0) as [D|D]; [exact D|]. exfalso. apply D.
        transitivity (- (y * 0 - x * x) / x); [field; exact D|]. rewrite Q. field. exact D.
      + intros ->. split; ring.
    - intros ->. split; ring.
    - intros ->. repeat (apply cons_eq; [ring|]). reflexivity.
  Qed.

  Lemma crossings : forall (fs : funs F) (S : named_system) rho f1 f2 t,
    fZ 2 <> @f0 F -> fZ 3 <> @f0 F -> crossed_paths = Some S -> values fs S rho = [Some f1; Some f2] ->
    let x := rho 0%nat in let y := rho 2%nat in
    (1 - t) * f1 + t * (x * x * x - 1) = 0 -> (1 - t) * f2 + t * (y * y - 1) = 0 ->
    (x = 0 <-> t = fZ 2 / fZ 3) /\ (y = 0 <-> t = fZ 1 / fZ 3).
  Proof.
    intros fs S rho f1 f2 t H2 H3 E V x y Z1 Z2. destruct (crossed_paths_values) as [S' [E' [_ V']]].
    assert (S' = S) by congruence. subst S'. rewrite (V' fs rho) in V. fold x y in V.
    assert (A : x * x * x + fZ 2 = f1) by congruence. assert (B : y * y + fZ 1 / fZ 2 = f2) by congruence. clear V V'.
    rewrite <- A in Z1. rewrite <- B in Z2.
    assert (Q3 : @fZ F 3 = fZ 2 + 1) by nums.
    assert (Q1 : @fZ F 1 = 1) by nums.
    assert (P1 : x * x * x + fZ 2 - fZ 3 * t = 0).
    { rewrite <- Z1, Q3. ring. }
    assert (P2 : fZ 2 * (y * y) + 1 - fZ 3 * t = 0).
    { transitivity (fZ 2 * ((1 - t) * (y * y + fZ 1 / fZ 2) + t * (y * y - 1))); [rewrite Q3, Q1; field; exact H2|].
      rewrite Z2. ring. }
    assert (NZ : forall u : F, u * u = 0 -> u = 0).
    { intros u Hu. destruct (feq_dec u 0) as [D|D]; [exact D|]. transitivity (u * u / u); [field; exact D|]. rewrite Hu. field. exact D. }
    split; split.
    - intros X. rewrite X in P1. transitivity ((fZ 2 - (0 * 0 * 0 + fZ 2 - fZ 3 * t)) / fZ 3); [field; exact H3|]. rewrite P1. field. exact H3.
    - intros T. rewrite T in P1.
      assert (X3 : x * x * x = 0).
      { transitivity (x * x * x + fZ 2 - fZ 3 * (fZ 2 / fZ 3)); [field; exact H3|exact P1]. }
      destruct (feq_dec x 0) as [D|D]; [exact D|]. apply NZ. transitivity (x * x * x / x); [field; exact D|]. rewrite X3. field. exact D.
    - intros Y. rewrite Y in P2. rewrite Q1. transitivity ((1 - (fZ 2 * (0 * 0) + 1 - fZ 3 * t)) / fZ 3); [field; exact H3|]. rewrite P2. field. exact H3.
    - intros T. rewrite T, Q1 in P2. apply NZ.
      transitivity ((fZ 2 * (y * y) + 1 - fZ 3 * (1 / fZ 3)) / fZ 2); [field; split; assumption|]. rewrite P2. field. exact H2.
  Qed.

  Lemma crossings_elsewhere : forall (fs : funs F) (S : named_system) rho f1 f2 t gamma r1 r2,
    fZ 2 <> @f0 F -> fZ 3 <> @f0 F -> crossed_paths = Some S -> values fs S rho = [Some f1; Some f2] ->
    let x := rho 0%nat in let y := rho 2%nat in
    (1 - t) * f1 + gamma * t * (x * x * x - r1) = 0 -> (1 - t) * f2 + gamma * t * (y * y - r2) = 0 ->
    (x = 0 -> t = fZ 2 / fZ 3 -> gamma * r1 = 1) /\ (y = 0 -> t = fZ 1 / fZ 3 -> gamma * r2 = 1).
  Proof.
    intros fs S rho f1 f2 t gamma r1 r2 H2 H3 E V x y Z1 Z2. destruct (crossed_paths_values) as [S' [E' [_ V']]].
    assert (S' = S) by congruence. subst S'. rewrite (V' fs rho) in V. fold x y in V.
    assert (A : x * x * x + fZ 2 = f1) by congruence. assert (B : y * y + fZ 1 / fZ 2 = f2) by congruence. clear V V'.
    rewrite <- A in Z1. rewrite <- B in Z2.
    assert (Q3 : @fZ F 3 = fZ 2 + 1) by nums.
    assert (Q1 : @fZ F 1 = 1) by nums. rewrite Q1 in *.
    split.
    - intros X T. rewrite X, T in Z1.
      transitivity (1 - fZ 3 / fZ 2 * ((1 - fZ 2 / fZ 3) * (0 * 0 * 0 + fZ 2) + gamma * (fZ 2 / fZ 3) * (0 * 0 * 0 - r1))).
      + rewrite Q3. rewrite Q3 in H3. field. split; assumption.
      + rewrite Z1. field. exact H2.
    - intros Y T. rewrite Y, T in Z2.
      transitivity (1 - fZ 3 * ((1 - 1 / fZ 3) * (0 * 0 + 1 / fZ 2) + gamma * (1 / fZ 3) * (0 * 0 - r2))).
      + rewrite Q3. rewrite Q3 in H3. field. split; assumption.
      + rewrite Z2. ring.
  Qed.

  Lemma sphere_zeros : exists S : named_system, sphere = Some S /\ group S = [0; 1; 2]%nat
    /\ forall fs rho, values fs S rho = [Some 0] <->
         rho 0%nat * rho 0%nat + rho 1%nat * rho 1%nat + rho 2%nat * rho 2%nat = 1.
  Proof.
    destruct (sphere_values) as [S [E [G V]]]. exists S. split; [exact E|]. split; [exact G|].
    intros fs rho. rewrite V. assert (Q1 : @fZ F 1 = 1) by nums. rewrite Q1.
    set (v := rho 0%nat * rho 0%nat + rho 1%nat * rho 1%nat + rho 2%nat * rho 2%nat). split.
    - intro H. assert (H' : v - 1 = 0) by congruence. transitivity (v - 1 + 1); [ring|]. rewrite H'. ring.
    - intros ->. f_equal. f_equal. ring.
  Qed.
End Precon.
