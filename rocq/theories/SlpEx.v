(** Concrete systems for the straight-line program theorems: one which satisfies the hypotheses, and the ways in
    which the compiled program differs from the trees when they fail. *)
From Coq Require Import List Arith Lia ZArith NArith Bool.
From Verif Require Import Base Expr Homog Heap Slp SlpProof SlpRun.
Import ListNotations.

(** x = node 0, t = node 1;  s = x + 2, g = s^3 (a Function), f = g / t - g * s, and their derivatives *)
Definition ex_graph : list (gnode (F := QcF)) :=
  [ GVar; GVar;                                                        (* 0 x, 1 t *)
    GNum KInteger (qc 2 1);                                            (* 2 *)
    GSum [(true, 0); (true, 2)];                                       (* 3: s = x + 2 *)
    GIPow 3 3;                                                         (* 4 *)
    GHandle 4;                                                         (* 5: g = s^3 *)
    GMul [(true, 5); (false, 1)];                                      (* 6: g / t *)
    GMul [(true, 5); (true, 3)];                                       (* 7: g s *)
    GSum [(true, 6); (false, 7)];                                      (* 8 *)
    GHandle 8;                                                         (* 9: f = g/t - g s *)
    GNum KInteger (qc 3 1);                                            (* 10 *)
    GIPow 3 2;                                                         (* 11 *)
    GMul [(true, 10); (true, 11)];                                     (* 12: 3 s^2 *)
    GHandle 12;                                                        (* 13: dg/dx *)
    GMul [(false, 1); (true, 12)];                                     (* 14: (1/t) (3 s^2) *)
    GMul [(true, 12); (true, 3)];                                      (* 15 *)
    GSum [(true, 14); (false, 15); (false, 4)];                        (* 16 *)
    GHandle 16;                                                        (* 17: df/dx *)
    GNum KInteger (qc 0 1);                                            (* 18 *)
    GHandle 18;                                                        (* 19: dg/dt *)
    GIPow 1 2;                                                         (* 20 *)
    GMul [(true, 5); (false, 20)];                                     (* 21 *)
    GSum [(false, 21)];                                                (* 22 *)
    GHandle 22 ].                                                      (* 23: df/dt *)

Definition ex_sys : sysdesc := mkSys [0] (Some 1) [5; 9] [13; 17] [19; 23] [19; 23].

Lemma reach_in : forall (F : fld) (G : list (gnode (F := F))) (l : list nat) n m, In n l ->
  forallb (fun k => match nth_error G k with
                    | Some nd => forallb (fun c => existsb (Nat.eqb c) l) (children nd)
                    | None => true end) l = true -> reach G n m -> In m l.
Proof.
  intros F G l n m Hn Hc H. induction H as [|m nd c H IH E Hin]; [assumption|].
  rewrite forallb_forall in Hc. specialize (Hc m IH). rewrite E in Hc. rewrite forallb_forall in Hc.
  specialize (Hc c Hin). apply existsb_exists in Hc as (y & Hy & Ey). apply Nat.eqb_eq in Ey. subst y. assumption.
Qed.

Ltac in_cases H := repeat (destruct H as [H|H]; [subst|]); try destruct H.

Lemma ex_wf : well_founded_graph ex_graph.
Proof.
  intros n nd c Hn Hc. unfold ex_graph in Hn.
  do 24 (destruct n as [|n]; [cbn in Hn; injection Hn as <-; cbn in Hc; in_cases Hc; lia|]). destruct n; discriminate.
Qed.

Lemma nodup_nat : forall l, (if list_eq_dec Nat.eq_dec (nodup Nat.eq_dec l) l then true else false) = true -> NoDup l.
Proof. intros l H. destruct (list_eq_dec Nat.eq_dec (nodup Nat.eq_dec l) l) as [E|]; [|discriminate]. rewrite <- E. apply NoDup_nodup. Qed.

Definition node_okb {F : fld} (G : list (gnode (F := F))) (ins : list nat) (m : nat) : bool :=
  match nth_error G m with
  | None => false
  | Some nd => match nd with
               | GVar => existsb (Nat.eqb m) ins
               | GDiff _ => false
               | GSum ops | GMul ops => match ops with [] => false | _ => true end
               | _ => true
               end
  end.

Lemma node_okb_ok : forall (F : fld) (G : list (gnode (F := F))) ins m, node_okb G ins m = true -> node_ok G ins m.
Proof.
  intros F G ins m H. unfold node_okb in H. unfold node_ok. destruct (nth_error G m) as [nd|]; [|discriminate].
  exists nd. split; [reflexivity|]. destruct nd; auto; try discriminate.
  - apply existsb_exists in H as (y & Hy & E). apply Nat.eqb_eq in E. subst. assumption.
  - destruct ops; discriminate.
  - destruct ops; discriminate.
Qed.

(** a sufficient check *)
Definition compilable_by (G : list (gnode (F := QcF))) (S : sysdesc) (below : nat -> list nat) : bool :=
  forallb (fun n => existsb (Nat.eqb n) (below n) &&
                    forallb (fun k => match nth_error G k with
                             | Some nd => forallb (fun c => existsb (Nat.eqb c) (below n)) (children nd)
                             | None => true end) (below n) &&
                    forallb (node_okb G (inputs S)) (below n)) (outputs S).

Fixpoint later_ok (below : nat -> list nat) (l : list nat) : bool :=
  match l with [] => true | n :: r => forallb (fun m => negb (existsb (Nat.eqb m) (below n))) r && later_ok below r end.

Lemma later_ok_spec : forall below l, later_ok below l = true -> forall i j n m, i < j ->
  nth_error l i = Some n -> nth_error l j = Some m -> ~ In m (below n).
Proof.
  intros below l. induction l as [|x r IH]; intros H i j n m Hij Hi Hj; [destruct i; discriminate|].
  cbn in H. apply andb_prop in H as [H1 H2]. destruct j as [|j]; [lia|]. destruct i as [|i]; cbn in Hi, Hj.
  - injection Hi as ->. rewrite forallb_forall in H1. specialize (H1 m (nth_error_In _ _ Hj)).
    intro Hin. assert (existsb (Nat.eqb m) (below n) = true).
    { apply existsb_exists. exists m. split; [assumption|apply Nat.eqb_refl]. }
    rewrite H in H1. discriminate.
  - apply (IH H2 i j n m); [lia|assumption|assumption].
Qed.

Definition is_handle {F : fld} (o : option (gnode (F := F))) : bool := match o with Some (GHandle _) => true | _ => false end.
Definition is_var {F : fld} (o : option (gnode (F := F))) : bool := match o with Some GVar => true | _ => false end.

Lemma compilable_check : forall G S below,
  NoDup (inputs S ++ outputs S) ->
  forallb (fun x => is_var (nth_error G x)) (inputs S) = true ->
  forallb (fun n => is_handle (nth_error G n)) (outputs S) = true ->
  compilable_by G S below = true -> later_ok below (outputs S) = true ->
  (path S <> None -> dt_second S = dt_first S) -> compilable G S.
Proof.
  intros G S below H1 H2 H3 H4 H5 H6. rewrite forallb_forall in H2, H3. unfold compilable_by in H4. rewrite forallb_forall in H4.
  assert (B : forall n m, In n (outputs S) -> reach G n m -> In m (below n)).
  { intros n m Hn Hr. specialize (H4 n Hn). apply andb_prop in H4 as [H4 _]. apply andb_prop in H4 as [A C].
    apply existsb_exists in A as (y & Hy & E). apply Nat.eqb_eq in E. subst y. eapply reach_in; eassumption. }
  split; [assumption|]. split; [|split; [|split; [|split]]].
  - intros x Hx. specialize (H2 x Hx). destruct (nth_error G x) as [[]|]; try discriminate. reflexivity.
  - intros n Hn. specialize (H3 n Hn). destruct (nth_error G n) as [[]|]; try discriminate. eauto.
  - intros n m Hn Hr. pose proof (B n m Hn Hr) as Hb. specialize (H4 n Hn). apply andb_prop in H4 as [_ H4].
    rewrite forallb_forall in H4. apply node_okb_ok. auto.
  - intros i j n m Hij Hi Hj Hr. apply (later_ok_spec below _ H5 i j n m Hij Hi Hj). apply B; [eapply nth_error_In; eassumption|assumption].
  - assumption.
Qed.

Definition ex_below (n : nat) : list nat :=
  match n with
  | 5 => [5; 4; 3; 0; 2]
  | 9 => [9; 8; 6; 7; 5; 4; 3; 0; 1; 2]
  | 13 => [13; 12; 10; 11; 3; 0; 2]
  | 17 => [17; 16; 14; 15; 4; 12; 1; 10; 11; 3; 0; 2]
  | 19 => [19; 18]
  | _ => [23; 22; 21; 20; 5; 4; 3; 1; 0; 2]
  end.

Lemma ex_compilable : compilable ex_graph ex_sys.
Proof.
  apply (compilable_check ex_graph ex_sys ex_below); try (vm_compute; reflexivity).
  apply nodup_nat. vm_compute. reflexivity.
Qed.

Definition zero_memory : numtype -> nat -> QcF := fun _ _ => qc 0 1.

Definition ex_values (h : list rop) (T : numtype) : res (list (option QcF) * (option QcF * option QcF) * list (option QcF)) :=
  bind (compile unused ex_graph ex_sys) (fun p =>
  bind (rrun qc_funs p (rt_init p zero_memory) h) (fun r =>
  bind (get_funs qc_funs p r T) (fun a =>
  bind (get_jac qc_funs p r T 0 0) (fun b =>
  bind (get_jac qc_funs p r T 1 0) (fun c =>
  bind (get_dt qc_funs p r T) (fun d => Done (a, (b, c), d))))))).

(** at x = 1, t = 1/2: g = 27, f = 54 - 81 = -27, dg/dx = 27, df/dx = 54 - 81 - 27 = -54, dg/dt = 0, df/dt = -108 *)
Lemma ex_run : ex_values [SetVariableValues Dbl [qc 1 1]; SetPathVariable Dbl (qc 1 2)] Dbl =
  Done ([Some (qc 27 1); Some (qc (-27) 1)], (Some (qc 27 1), Some (qc (-54) 1)), [Some (qc 0 1); Some (qc (-108) 1)]).
Proof. vm_compute. reflexivity. Qed.

(** ** Function used before it is visited: f = g + g, g = x + 1, in the order f, g *)
Definition fwd_graph : list (gnode (F := QcF)) :=
  [ GVar; GNum KInteger (qc 1 1); GSum [(true, 0); (true, 1)]; GHandle 2; GSum [(true, 3); (true, 3)]; GHandle 4;
    GNum KInteger (qc 2 1); GHandle 6; GHandle 1 ].
Definition fwd_sys : sysdesc := mkSys [0] None [5; 3] [7; 8] [] [].

Definition fun_values (G : list (gnode (F := QcF))) (S : sysdesc) (h : list rop) (T : numtype) : res (list (option QcF)) :=
  bind (compile unused G S) (fun p =>
  bind (rrun qc_funs p (rt_init p zero_memory) h) (fun r => get_funs qc_funs p r T)).

Lemma fwd_wrong :
  (* the tree *)
  (forall e rho, unfolds fwd_graph None 5 e -> rho 0 = qc 4 1 -> eval qc_funs rho e = Some (qc 10 1)) /\
  (* the program, first evaluation: reads memory which has not been computed *)
  fun_values fwd_graph fwd_sys [SetVariableValues Dbl [qc 4 1]] Dbl = Done [Some (qc 0 1); Some (qc 5 1)] /\
  (* evaluated again at 4 after an evaluation at 6: the value belongs to the earlier point *)
  fun_values fwd_graph fwd_sys [SetVariableValues Dbl [qc 6 1]; EvalSlp Dbl; SetVariableValues Dbl [qc 4 1]] Dbl
    = Done [Some (qc 14 1); Some (qc 5 1)].
Proof.
  split; [|split; vm_compute; reflexivity].
  intros e rho He H0.
  assert (E : unfolds fwd_graph None 5 (Handle (Sum [(true, Handle (Sum [(true, Var 0); (true, Num KInteger (qc 1 1))]));
                                                    (true, Handle (Sum [(true, Var 0); (true, Num KInteger (qc 1 1))]))]))).
  { exists 9. reflexivity. }
  rewrite (unfolds_fun _ _ _ _ _ He E). cbn [eval map fst snd]. rewrite H0. vm_compute. reflexivity.
Qed.

(** ** Variable which is not in the system: y = node 1 is read as x *)
Definition foreign_graph : list (gnode (F := QcF)) :=
  [ GVar; GVar; GSum [(true, 0); (true, 1)]; GHandle 2; GNum KInteger (qc 1 1); GHandle 4 ].
Definition foreign_sys : sysdesc := mkSys [0] None [3] [5] [] [].

Lemma foreign_wrong :
  fun_values foreign_graph foreign_sys [SetVariableValues Dbl [qc 4 1]] Dbl = Done [Some (qc 8 1)] /\
  forall e rho, unfolds foreign_graph None 3 e -> rho 0 = qc 4 1 -> rho 1 = qc 1 1 -> eval qc_funs rho e = Some (qc 5 1).
Proof.
  split; [vm_compute; reflexivity|]. intros e rho He H0 H1.
  assert (E : unfolds foreign_graph None 3 (Handle (Sum [(true, Var 0); (true, Var 1)]))) by (exists 9; reflexivity).
  rewrite (unfolds_fun _ _ _ _ _ He E). cbn [eval map fst snd]. rewrite H0, H1. vm_compute. reflexivity.
Qed.

(** ** Time derivatives taken anew while compiling: the second set of nodes is not the registered one *)
Definition again_graph : list (gnode (F := QcF)) :=
  [ GVar; GVar; GMul [(true, 0); (true, 1)]; GHandle 2; GHandle 1; GHandle 0; GHandle 0 ].
Definition again_sys : sysdesc := mkSys [0] (Some 1) [3] [4] [5] [6].

Lemma again_wrong :
  bind (compile unused again_graph again_sys) (fun p =>
  bind (rrun qc_funs p (rt_init p zero_memory) [SetVariableValues Dbl [qc 4 1]; SetPathVariable Dbl (qc 3 1)]) (fun r =>
  get_dt qc_funs p r Dbl)) = Done [Some (qc 0 1)] /\
  forall e rho, unfolds again_graph None 5 e -> rho 0 = qc 4 1 -> eval qc_funs rho e = Some (qc 4 1).
Proof.
  split; [vm_compute; reflexivity|]. intros e rho He H0.
  assert (E : unfolds again_graph None 5 (Handle (Var 0))) by (exists 9; reflexivity).
  rewrite (unfolds_fun _ _ _ _ _ He E). cbn [eval]. rewrite H0. reflexivity.
Qed.

(** ** A compiler used twice: locations_integers_ still knows the exponent 3 *)
Definition square_graph : list (gnode (F := QcF)) :=
  [ GVar; GIPow 0 3; GHandle 1; GNum KInteger (qc 1 1); GHandle 3 ].
Definition square_sys : sysdesc := mkSys [0] None [2] [4] [] [].

Lemma reused_undefined : forall old i, old 3%Z = Some i ->
  exists p, compile old square_graph square_sys = Done p /\
    forall z, rrun qc_funs p (rt_init p z) [SetVariableValues Dbl [qc 2 1]; EvalSlp Dbl] = Undefined.
Proof.
  intros old i Hold.
  eexists. split.
  - unfold compile, compile_visits, square_sys. cbn. unfold integer_location. cbn. rewrite Hold. cbn. reflexivity.
  - intro z. cbn [rrun rstep bind n_vars p_ints p_code write_values evaluated set_mem].
    change 65536%N with (word_of OIntPower). rewrite exec_2 by reflexivity.
    cbn [binary_value]. rewrite Nat2N.id. destruct i; reflexivity.
Qed.

Lemma integers_left_square : integers_left unused square_graph square_sys 3%Z = Some 0.
Proof. reflexivity. Qed.

(** ** Two number types: is_evaluated_ is shared *)
Lemma two_types_wrong :
  fun_values square_graph square_sys [SetVariableValues Mp [qc 2 1]; SetVariableValues Dbl [qc 3 1]; EvalSlp Dbl] Mp
    = Done [Some (qc 0 1)] /\
  fun_values square_graph square_sys [SetVariableValues Mp [qc 2 1]] Mp = Done [Some (qc 8 1)].
Proof. split; vm_compute; reflexivity. Qed.

Lemma fwd_wf : well_founded_graph fwd_graph.
Proof.
  intros n nd c Hn Hc. unfold fwd_graph in Hn.
  do 9 (destruct n as [|n]; [cbn in Hn; injection Hn as <-; cbn in Hc; in_cases Hc; lia|]). destruct n; discriminate.
Qed.

Definition ex_history : list (rop (F := QcF)) :=
  [SetVariableValues Mp [qc 7 1]; SetPathVariable Mp (qc 5 1); EvalSlp Mp; SetPathVariable Dbl (qc 1 2); EvalSlp Dbl;
   SetVariableValues Mp [qc 3 1]; SetVariableValues Dbl [qc 1 1]; EvalSlp Dbl; EvalSlp Mp].
Lemma ex_history_valid : Forall (valid_rop ex_sys) ex_history.
Proof. repeat constructor; discriminate. Qed.
Lemma ex_history_run : ex_values ex_history Dbl =
  Done ([Some (qc 27 1); Some (qc (-27) 1)], (Some (qc 27 1), Some (qc (-54) 1)), [Some (qc 0 1); Some (qc (-108) 1)]).
Proof. vm_compute. reflexivity. Qed.
