(** Systems on which the theorems about evaluation at the values set last are tried. *)
From Coq Require Import ZArith QArith List Arith Lia Bool.
From Verif Require Import Base Expr Heap SysCache SysCacheProof.
Import ListNotations.
Local Close Scope Q_scope.
Local Open Scope nat_scope.

(** variables x, y (addresses 0, 1), path variable t (2), implicit parameter p (3); functions (x+t)*y and x-p, whose
    derivatives share the node x+t.  The space derivatives are in column-major order. *)
Definition homotopy_nodes : list (gnode (F := QcF)) :=
  [GVar; GVar; GVar; GVar; GSum [(true, 0); (true, 2)]; GMul [(true, 4); (true, 1)]; GSum [(true, 0); (false, 3)];
   GHandle 5; GHandle 6; GNum KInteger (qc 1 1); GNum KInteger (qc 0 1);
   GDiff 0; GDiff 1; GDiff 2; GMul [(true, 4); (true, 12)]; GSum [(true, 11); (true, 13)]; GMul [(true, 1); (true, 15)];
   GSum [(true, 14); (true, 16)]; GHandle 17; GHandle 11].

(** the patch x + 2 y = 1 *)
Definition homotopy_patch : nat * (list QcF -> list QcF) * (list QcF -> list (list QcF)) :=
  (1, fun x => [fsub (fadd (nth 0 x f0) (fmul (qc 2 1) (nth 1 x f0))) (qc 1 1)], fun _ => [[qc 1 1; qc 2 1]]).

Definition homotopy (by_node : bool) : csys (F := QcF) :=
  mkSys homotopy_nodes [7; 8] [1; 9; 4; 10] [1; 10] [18; 19] [0; 1] (Some 2) [3] by_node (Some homotopy_patch).

Definition no_path : csys (F := QcF) :=
  mkSys homotopy_nodes [7; 8] [1; 9; 4; 10] [] [] [0; 1] None [2; 3] false None.

Lemma homotopy_wf : well_founded_graph homotopy_nodes.
Proof. apply wf_by_check. vm_compute. reflexivity. Qed.
Lemma homotopy_exp : plain_exponents homotopy_nodes.
Proof. apply no_pow_plain. vm_compute. reflexivity. Qed.

Fixpoint plain_b (F : fld) (k : nat) (G : list (gnode (F := F))) (n : nat) : bool :=
  match k with
  | 0 => false
  | S k' => match nth_error G n with
            | Some (GDiff _) | None => false
            | Some nd => forallb (plain_b F k' G) (children nd)
            end
  end.

Lemma plain_by_check : forall F k (G : list (gnode (F := F))) n, plain_b F k G n = true -> plain G n.
Proof.
  intros F. induction k as [|k IH]; intros G n H; [discriminate|]. cbn [plain_b] in H.
  destruct (nth_error G n) as [nd|] eqn:E; [|discriminate].
  assert (H' : forallb (plain_b F k G) (children nd) = true) by (destruct nd; try exact H; discriminate).
  apply plain_intro with nd; [exact E|intros y ->; discriminate|].
  intros c Hc. apply IH. rewrite forallb_forall in H'. exact (H' c Hc).
Qed.

Lemma plain_b_lt : forall F k (G : list (gnode (F := F))) n, plain_b F k G n = true -> n < length G.
Proof.
  intros F [|k] G n H; [discriminate|]. apply nth_error_Some. intro E. cbn [plain_b] in H. rewrite E in H. discriminate.
Qed.

Lemma parents_by_check : forall (F : fld) (G : list (gnode (F := F))) j,
  forallb (fun nd => negb (existsb (Nat.eqb j) (children nd))) G = true -> no_parents G (eq j).
Proof.
  intros F G j H n nd c En Hc <-. rewrite forallb_forall in H. specialize (H nd (nth_error_In _ _ En)).
  apply negb_true_iff in H. assert (X : existsb (Nat.eqb j) (children nd) = true); [|congruence].
  apply existsb_exists. exists j. split; [exact Hc|apply Nat.eqb_refl].
Qed.

Lemma homotopy_sound : forall b, sound (homotopy b).
Proof.
  assert (R : forall n, plain_b QcF 9 homotopy_nodes n = true -> n < length homotopy_nodes /\ plain homotopy_nodes n).
  { intros n H. split; [exact (plain_b_lt _ _ _ _ H)|exact (plain_by_check _ _ _ _ H)]. }
  intro b. constructor.
  - exact homotopy_wf.
  - exact homotopy_exp.
  - intros v H. cbn in H. destruct H as [<-|[<-|[]]]; reflexivity.
  - intros p H. injection H as <-. split; [reflexivity|]. cbn. intros [H|[H|[]]]; discriminate.
  - repeat constructor; cbn; intros H; repeat destruct H as [H|H]; try discriminate; contradiction.
  - intros v H. cbn in H. destruct H as [<-|[]]; reflexivity.
  - intros n H. cbn in H. apply R. destruct H as [<-|[<-|[]]]; reflexivity.
  - intros _. split; [reflexivity|]. intros n H. cbn in H. apply R. destruct H as [<-|[<-|[<-|[<-|[]]]]]; reflexivity.
  - intros _. split; [reflexivity|]. intros n H. cbn in H. apply R. destruct H as [<-|[<-|[]]]; reflexivity.
  - intros _. split; [reflexivity|]. intros j H. cbn in H.
    destruct H as [<-|[<-|[]]]; (split; [eexists; reflexivity|]; split; [apply parents_by_check; vm_compute; reflexivity|]);
      cbn; intros [H|[H|[]]]; discriminate.
Qed.

Lemma no_path_sound : sound no_path.
Proof.
  assert (R : forall n, plain_b QcF 9 homotopy_nodes n = true -> n < length homotopy_nodes /\ plain homotopy_nodes n).
  { intros n H. split; [exact (plain_b_lt _ _ _ _ H)|exact (plain_by_check _ _ _ _ H)]. }
  constructor.
  - exact homotopy_wf.
  - exact homotopy_exp.
  - intros v H. cbn in H. destruct H as [<-|[<-|[]]]; reflexivity.
  - intros p H. discriminate.
  - repeat constructor; cbn; intros H; repeat destruct H as [H|H]; try discriminate; contradiction.
  - intros v H. cbn in H. destruct H as [<-|[<-|[]]]; reflexivity.
  - intros n H. cbn in H. apply R. destruct H as [<-|[<-|[]]]; reflexivity.
  - intros _. split; [reflexivity|]. intros n H. cbn in H. apply R. destruct H as [<-|[<-|[<-|[<-|[]]]]]; reflexivity.
  - intros _. split; [intro H; exfalso; apply H; reflexivity|]. intros n [].
  - discriminate.
Qed.

(** the answer to the last call of a history on a new system whose variables are 0, as rational numbers *)
Inductive shown := NoAnswer | ShownDone | ShownThrown | ShownValues (l : list (option Q)) | ShownMatrix (l : list (list (option Q))).
Definition show (r : reply (F := QcF)) : shown :=
  let q (a : option QcF) := match a with Some c => Some (rq c) | None => None end in
  match r with
  | Done => ShownDone
  | Thrown => ShownThrown
  | Values l => ShownValues (map q l)
  | Matrix l => ShownMatrix (map (map q) l)
  end.
Definition answer (s : csys (F := QcF)) (h : list (sop (F := QcF))) (o : sop) : shown :=
  match run qc_funs s (init (fun _ _ => qc 0 1)) h with
  | Some st => match step qc_funs s st o with Some (_, r) => show r | None => NoAnswer end
  | None => NoAnswer
  end.

Definition pt (a b : Z) : list QcF := [qc a 1; qc b 1].
Definition tm (a : Z) : option QcF := Some (qc a 1).
Definition vals (l : list Z) : shown := ShownValues (map (fun a => Some (a # 1)%Q) l).
Definition mat (l : list (list Z)) : shown := ShownMatrix (map (map (fun a => Some (a # 1)%Q)) l).

(** (x+t) y, x - p, x + 2y - 1 at (1,2), t = 3, p = 0 and at (4,5), t = 6 *)
Lemma homotopy_answers : forall b,
  answer (homotopy b) [] (EvalAt Dbl (pt 1 2) (tm 3)) = vals [8; 1; 4]%Z /\
  answer (homotopy b) [EvalAt Dbl (pt 1 2) (tm 3)] (JacobianAt Dbl (pt 4 5) (tm 6)) = mat [[5; 10]; [1; 0]; [1; 2]]%Z /\
  answer (homotopy b) [EvalAt Dbl (pt 1 2) (tm 3)] (TimeAt Dbl (pt 4 5) None) = vals [5; 0; 0]%Z /\
  answer (homotopy b) [EvalAt Dbl (pt 1 2) (tm 3)] (EvalAt Mp (pt 4 5) (tm 6)) = vals [50; 4; 13]%Z /\
  answer (homotopy b) [SetAndReset Dbl (pt 1 2) (tm 3); JacobianHere Dbl; SetVariables Mp (pt 7 7); TimeHere Dbl] (EvalHere Dbl) = vals [8; 1; 4]%Z.
Proof. intros [|]; (split; [|split; [|split; [|split]]]); vm_compute; reflexivity. Qed.

(** the Jacobian at a new point and time: Eval() answers with the functions at the old point and the patch at the new one *)
Lemma homotopy_stale : forall b,
  answer (homotopy b) [EvalAt Dbl (pt 1 2) (tm 3); JacobianAt Dbl (pt 4 5) (tm 6)] (EvalHere Dbl) = vals [8; 1; 13]%Z.
Proof. intros [|]; vm_compute; reflexivity. Qed.

Lemma answered : forall s h o a, answer s h o = a -> a <> NoAnswer -> exists st st' r,
  run qc_funs s (init (fun _ _ => qc 0 1)) h = Some st /\ step qc_funs s st o = Some (st', r) /\ show r = a.
Proof.
  intros s h o a H N. unfold answer in H. destruct (run qc_funs s (init (fun _ _ => qc 0 1)) h) as [st|]; [|congruence].
  destruct (step qc_funs s st o) as [[st' r]|] eqn:E; [|congruence]. exists st, st', r. auto.
Qed.

Lemma stale_run : forall b, exists st st' r,
  run qc_funs (homotopy b) (init (fun _ _ => qc 0 1)) [EvalAt Dbl (pt 1 2) (tm 3); JacobianAt Dbl (pt 4 5) (tm 6)] = Some st /\
  step qc_funs (homotopy b) st (EvalHere Dbl) = Some (st', r) /\ show r = vals [8; 1; 13]%Z.
Proof. intro b. apply (answered _ _ _ _ (homotopy_stale b)). discriminate. Qed.

(** the first function at the values last given is 50 *)
Lemma stale_wrong : forall b r, show r = vals [8; 1; 13]%Z ->
  let rho := last_given (homotopy b) (fun _ _ => qc 0 1) [EvalAt Dbl (pt 1 2) (tm 3); JacobianAt Dbl (pt 4 5) (tm 6)] Dbl in
  ~ right_values qc_funs (homotopy b) rho (map rho (c_vars (homotopy b))) r.
Proof.
  intros b r Hr rho [l [p [E [Hl _]]]].
  destruct (unfold 9 homotopy_nodes None 7) as [e|] eqn:U; [|vm_compute in U; discriminate].
  assert (V : option_map (rq : QcF -> Q) (eval qc_funs rho e) = Some (50 # 1)%Q).
  { assert (W : match unfold 9 homotopy_nodes None 7 with
                | Some e => option_map (rq : QcF -> Q) (eval qc_funs rho e) | None => None end = Some (50 # 1)%Q)
      by (unfold rho; destruct b; vm_compute; reflexivity).
    rewrite U in W. exact W. }
  inversion Hl as [|n v ns vs Hv Hl' Q1 Q2]; subst. specialize (Hv e (ex_intro _ 9 U)). subst v.
  cbn [show app map] in Hr. injection Hr as Q _. destruct (eval qc_funs rho e) as [c|]; [|discriminate].
  cbn [option_map] in V. injection V as V. injection Q as Q. rewrite V in Q. discriminate.
Qed.

Lemma throw_example : exists st', step qc_funs no_path (init (fun _ _ => qc 0 1)) (TimeAt Dbl (pt 4 5) (tm 6)) = Some (st', Thrown) /\
  length (cur st' Dbl) = 2.
Proof. eexists. split; [reflexivity|reflexivity]. Qed.

Lemma mp_undefined : step qc_funs (homotopy false) (init (fun _ _ => qc 0 1)) (EvalAt Mp (pt 1 2) (tm 3)) = None.
Proof. vm_compute. reflexivity. Qed.
