(** Systems on which the theorems about simplification in place are tried. *)
From Coq Require Import List Arith Lia ZArith Bool Ring Field.
From Verif Require Import Base Expr Homog Heap Simplify SimpGraph SimpGraphP SimpSys SimpTerm.
Import ListNotations.

Section Graphs.
  Context {F : fld}.
  Local Open Scope fld_scope.
  Add Field simpgraphex_field : (f_th F).
  Variable fs : funs F.

  (** variables x, y (addresses 0, 1), the function (y+1)*3, and its derivatives as Differentiate builds them
      (arithmetic.cpp:249-280, 777-829): 0*3 + 0*(y+1) and 1*3 + 0*(y+1), which share the node y+1 with the function *)
  Definition shared_nodes : list (gnode (F := F)) :=
    [GVar; GVar; GNum KInteger (1 + 1 + 1); GNum KInteger 1; GSum [(true, 1%nat); (true, 3%nat)]; GMul [(true, 4%nat); (true, 2%nat)]; GHandle 5;
     GNum KInteger 0; GMul [(true, 7%nat); (true, 2%nat)]; GMul [(true, 7%nat); (true, 4%nat)]; GSum [(true, 8%nat); (true, 9%nat)];
     GSum [(true, 3%nat)]; GMul [(true, 11%nat); (true, 2%nat)]; GMul [(true, 7%nat); (true, 4%nat)]; GSum [(true, 12%nat); (true, 13%nat)]].
  Definition shared_system : ysys := mkY [6%nat] [10%nat; 14%nat] [] [] [0%nat; 1%nat] None false.

  (** a variable x (address 0), an implicit parameter p (address 1), the function p*x and its derivative 0*x + 1*p *)
  Definition param_nodes : list (gnode (F := F)) :=
    [GVar; GVar; GNum KInteger 1; GNum KInteger 0; GMul [(true, 1%nat); (true, 0%nat)]; GHandle 4;
     GMul [(true, 2%nat); (true, 1%nat)]; GMul [(true, 3%nat); (true, 0%nat)]; GSum [(true, 7%nat); (true, 6%nat)]].
  Definition param_system : ysys := mkY [5%nat] [8%nat] [] [] [0%nat] None false.

  Lemma operand_in : forall (G : list (gnode (F := F))) L,
    (forall m ops p, In m L -> nth_error G m = Some (GSum ops) \/ nth_error G m = Some (GMul ops) -> In p ops -> In (snd p) L) ->
    forall n m, In n L -> operand G n m -> In m L.
  Proof. intros G L H n m Hn Ho. induction Ho as [|m ops p Ho IH En Hp|m ops p Ho IH En Hp]; eauto. Qed.

  Lemma value_is : forall (G : list (gnode (F := F))) k m e rho a, unfold k G None m = Some e -> has_value fs G rho m a -> eval fs rho e = Some a.
  Proof.
    intros G k m e rho a E [e' [U V]]. rewrite (unfolds_fun G None m e e'); [assumption|exists k; exact E|assumption].
  Qed.

  Lemma ranked_by : forall G : list (gnode (F := F)), (forall n nd c, nth_error G n = Some nd -> In c (children nd) -> c < n) -> acyclic G.
  Proof.
    intros G H. exists (fun n => n). intros n nd c En Hc. pose proof (H n nd c En Hc). split; [assumption|].
    assert (n < length G) by (apply nth_error_Some; congruence). lia.
  Qed.

  Lemma shared_acyclic : acyclic shared_nodes.
  Proof. apply ranked_by. intros n nd c En Hc. do 15 (destruct n as [|n]; [cbn in En; injection En as <-; cbn in Hc; intuition lia|]). destruct n; discriminate. Qed.
  Lemma param_acyclic : acyclic param_nodes.
  Proof. apply ranked_by. intros n nd c En Hc. do 9 (destruct n as [|n]; [cbn in En; injection En as <-; cbn in Hc; intuition lia|]). destruct n; discriminate. Qed.

  Lemma shared_plain : no_differentials shared_nodes.
  Proof. intros n x E. do 15 (destruct n as [|n]; [discriminate|]). destruct n; discriminate. Qed.
  Lemma param_plain : no_differentials param_nodes.
  Proof. intros n x E. do 9 (destruct n as [|n]; [discriminate|]). destruct n; discriminate. Qed.

  (** what the nodes are worth *)
  Ltac worth k H := match type of H with
    | has_value _ ?G ?rho ?m ?a =>
        let e := eval cbn in (unfold k G None m) in
        match e with Some ?x =>
          let H' := fresh in assert (H' : eval fs rho x = Some a) by exact (value_is G k m x rho a eq_refl H);
          apply (f_equal (fun o => match o with Some y => y | None => a end)) in H'; clear H; cbn in H' end end.
  Ltac same := split; intros V a V'; worth 9%nat V; worth 9%nat V';
    match goal with A : ?l = ?c, B : ?r = a |- a = ?c => rewrite <- B; transitivity l; [ring|exact A] end.

  Lemma shared_telling : forall rho0, rho0 1%nat + 1 <> 0 -> rho0 1%nat <> 0 -> rho0 1%nat <> 1 -> telling fs shared_nodes shared_system rho0.
  Proof.
    intros rho0 H1 H2 H3 n m Hn Ho rho Hp.
    assert (Hm : In m [10; 14; 8; 9; 12; 13; 11; 7; 2; 3; 4; 1]%nat).
    { apply (operand_in shared_nodes [10; 14; 8; 9; 12; 13; 11; 7; 2; 3; 4; 1]%nat) with (n := n); [| |assumption].
      - intros q ops p Hq Hops Hin. cbn in Hq. repeat (destruct Hq as [<-|Hq]; [cbn in Hops; destruct Hops as [Hops|Hops]; try discriminate; injection Hops as <-; cbn in Hin; intuition (subst; cbn; tauto)|]). destruct Hq.
      - cbn in Hn. intuition (subst; cbn; tauto). }
    cbn [In] in Hm.
    do 10 (destruct Hm as [<-|Hm]; [same|]).
    destruct Hm as [<-|[<-|[]]]; split; intros V a V'; worth 9%nat V; exfalso.
    - apply H1. match goal with A : ?l = 0 |- _ => transitivity l; [ring|exact A] end.
    - apply H2. match goal with A : ?l = 1 |- _ => transitivity (l - 1); [ring|rewrite A; ring] end.
    - auto.
    - auto.
  Qed.

  Lemma param_telling : forall rho0, rho0 0%nat <> 0 -> rho0 0%nat <> 1 -> rho0 1%nat = 0 -> telling fs param_nodes param_system rho0.
  Proof.
    intros rho0 H1 H2 H3 n m Hn Ho rho Hp.
    assert (P : rho 1%nat = 0) by (rewrite Hp; [exact H3|cbn; intuition discriminate]).
    assert (Hm : In m [8; 6; 7; 2; 3; 1; 0]%nat).
    { apply (operand_in param_nodes [8; 6; 7; 2; 3; 1; 0]%nat) with (n := n); [| |assumption].
      - intros q ops p Hq Hops Hin. cbn in Hq. repeat (destruct Hq as [<-|Hq]; [cbn in Hops; destruct Hops as [Hops|Hops]; try discriminate; injection Hops as <-; cbn in Hin; intuition (subst; cbn; tauto)|]). destruct Hq.
      - cbn in Hn. intuition (subst; cbn; tauto). }
    cbn [In] in Hm.
    do 6 (destruct Hm as [<-|Hm]; [split; intros V a V'; worth 9%nat V; worth 9%nat V';
      match goal with A : ?l = ?c, B : ?r = a |- a = ?c => rewrite <- B; transitivity l; [rewrite ?P, ?H3; ring|exact A] end|]).
    destruct Hm as [<-|[]]; split; intros V a V'; worth 9%nat V; exfalso; auto.
  Qed.
End Graphs.

(** ** Over the rationals *)
Definition start : numtype -> env QcF := fun _ n => match n with O => qc 1 1 | _ => qc 2 1 end.
Definition luck : nat -> QcF := fun _ => qc 5 1.
Definition zero_param : numtype -> env QcF := fun _ n => match n with O => qc 1 1 | _ => qc 0 1 end.

Lemma rat_neq : forall a b : QcF, rq a <> rq b -> a <> b.
Proof. intros a b H E. apply H. rewrite E. reflexivity. Qed.

Lemma shared_proper : forall F : fld, proper (F := F) shared_nodes shared_system.
Proof.
  intro F. constructor.
  - exact shared_acyclic.
  - intros n [<-|[]]. exists 5. reflexivity.
  - intros n Hn. cbn in Hn. cbn. intuition lia.
  - cbn. repeat constructor; cbn; intuition discriminate.
  - intros v Hv. cbn in Hv. destruct Hv as [<-|[<-|[]]]; reflexivity.
Qed.

Lemma param_proper : forall F : fld, proper (F := F) param_nodes param_system.
Proof.
  intro F. constructor.
  - exact param_acyclic.
  - intros n [<-|[]]. exists 4. reflexivity.
  - intros n Hn. cbn in Hn. cbn. intuition lia.
  - cbn. repeat constructor; cbn; intuition discriminate.
  - intros v Hv. cbn in Hv. destruct Hv as [<-|[]]; reflexivity.
Qed.

Lemma shared_defined : forall (F : fld) (fs : funs F) rho n, In n (simplified shared_system) -> exists a, has_value fs shared_nodes rho n a.
Proof.
  intros F fs rho n Hn. cbn in Hn. destruct Hn as [<-|[<-|[]]]; eexists; eexists; (split; [exists 9; reflexivity|reflexivity]).
Qed.

Lemma param_defined : forall (F : fld) (fs : funs F) rho n, In n (simplified param_system) -> exists a, has_value fs param_nodes rho n a.
Proof.
  intros F fs rho n Hn. cbn in Hn. destruct Hn as [<-|[]]; eexists; eexists; (split; [exists 9; reflexivity|reflexivity]).
Qed.

Lemma shared_luck : telling qc_funs shared_nodes shared_system (random_point luck (y_all_vars shared_system) (start Dbl)).
Proof. apply shared_telling; apply rat_neq; vm_compute; discriminate. Qed.

Lemma param_luck : telling qc_funs param_nodes param_system (random_point luck (y_all_vars param_system) (zero_param Dbl)).
Proof.
  apply param_telling; [apply rat_neq; vm_compute; discriminate|apply rat_neq; vm_compute; discriminate|].
  unfold random_point. destruct (in_dec Nat.eq_dec 1 (y_all_vars param_system)) as [H|H]; [cbn in H; intuition discriminate|].
  cbn [zero_param]. reflexivity.
Qed.

(** The derivatives become 0 and 3; the function, evaluated next, is worth 18 instead of 9 *)
Definition of_result {A B C : Type} (f : A -> B -> C) (o : option (A * B)) : option C :=
  match o with Some (a, b) => Some (f a b) | None => None end.
Lemma of_result_inv : forall (A B C : Type) (f : A -> B -> C) o c, of_result f o = Some c -> exists a b, o = Some (a, b) /\ f a b = c.
Proof. intros A B C f [[a b]|] c E; [|discriminate]. injection E as E. exists a, b. auto. Qed.

Lemma pair_inj : forall (A B : Type) (a a' : A) (b b' : B), (a, b) = (a', b') -> a = a' /\ b = b'.
Proof. intros A B a a' b b' E. injection E as -> ->. auto. Qed.

Definition value_there (k n : nat) (G : list (gnode (F := QcF))) (st : gstate (F := QcF)) : option QArith_base.Q :=
  match geval qc_funs G k Dbl None st n with Some (_, Some v) => Some (rq v) | _ => None end.
Lemma value_there_inv : forall k n G st q, value_there k n G st = Some q -> exists st' v, geval qc_funs G k Dbl None st n = Some (st', Some v) /\ rq v = q.
Proof.
  intros k n G st q E. unfold value_there in E. destruct (geval qc_funs G k Dbl None st n) as [[st' [v|]]|]; try discriminate. injection E as E. exists st', v. auto.
Qed.

Definition tree_value (k n : nat) (G : list (gnode (F := QcF))) (st : gstate (F := QcF)) : option QArith_base.Q :=
  match unfold k G None n with Some e => match eval qc_funs (start Dbl) e with Some v => Some (rq v) | None => None end | None => None end.
Lemma tree_value_inv : forall k n G st q, tree_value k n G st = Some q -> exists a, has_value qc_funs G (start Dbl) n a /\ rq a = q.
Proof.
  intros k n G st q E. unfold tree_value in E. destruct (unfold k G None n) as [e|] eqn:U; [|discriminate].
  destruct (eval qc_funs (start Dbl) e) as [v|] eqn:V; [|discriminate]. injection E as E. exists v. split; [|exact E]. exists e. split; [exists k; exact U|exact V].
Qed.

Lemma stale_checked : of_result (fun G st => (value_there 9 6 G st, value_there 9 14 G st)) (simplify_system qc_funs 9 9 luck shared_system (shared_nodes, ginit start)) =
  Some (Some (QArith_base.Qmake 18 1), Some (QArith_base.Qmake 3 1)).
Proof. vm_compute. reflexivity. Qed.

Lemma param_checked : of_result (tree_value 9 8) (simplify_system qc_funs 9 9 luck param_system (param_nodes, ginit zero_param)) = Some (Some (QArith_base.Qmake 0 1)).
Proof. vm_compute. reflexivity. Qed.

Lemma stale_value : exists G' st', simplify_system qc_funs 9 9 luck shared_system (shared_nodes, ginit start) = Some (G', st') /\
  (exists st'' v, geval qc_funs G' 9 Dbl None st' 6 = Some (st'', Some v) /\ rq v = QArith_base.Qmake 18 1) /\
  (exists st'' v, geval qc_funs G' 9 Dbl None st' 14 = Some (st'', Some v) /\ rq v = QArith_base.Qmake 3 1).
Proof.
  destruct (of_result_inv _ _ _ _ _ _ stale_checked) as [G' [st' [E V]]]. exists G', st'. split; [exact E|]. apply pair_inj in V as [V1 V2].
  split; [exact (value_there_inv 9 6 G' st' _ V1)|exact (value_there_inv 9 14 G' st' _ V2)].
Qed.

Lemma param_value : exists G' st' a, simplify_system qc_funs 9 9 luck param_system (param_nodes, ginit zero_param) = Some (G', st') /\
  has_value qc_funs G' (start Dbl) 8 a /\ rq a = QArith_base.Qmake 0 1.
Proof.
  destruct (of_result_inv _ _ _ _ _ _ param_checked) as [G' [st' [E V]]]. destruct (tree_value_inv _ _ _ _ _ V) as [a Ha]. exists G', st', a. split; [exact E|exact Ha].
Qed.

Lemma shared_function : exists a, has_value qc_funs shared_nodes (start Dbl) 6 a /\ rq a = QArith_base.Qmake 9 1.
Proof. eexists. split; [eexists; split; [exists 9; reflexivity|reflexivity]|vm_compute; reflexivity]. Qed.

Lemma param_derivative : exists a, has_value qc_funs param_nodes (start Dbl) 8 a /\ rq a = QArith_base.Qmake 2 1.
Proof. eexists. split; [eexists; split; [exists 9; reflexivity|reflexivity]|vm_compute; reflexivity]. Qed.

(** the derivative with respect to y at the start *)
Lemma shared_derivative : exists a, has_value qc_funs shared_nodes (start Dbl) 14 a /\ rq a = QArith_base.Qmake 3 1.
Proof. eexists. split; [eexists; split; [exists 9; reflexivity|reflexivity]|vm_compute; reflexivity]. Qed.
