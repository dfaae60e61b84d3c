(** Rooted trees, their elementary weights, and what they say about Runge-Kutta methods: the expansion
    of a Runge-Kutta step and of the exact solution of an ordinary differential equation in powers of
    the step size.  Mathematics only; the code's predictor is in RK.v. *)
From Coq Require Import List Arith Lia ZArith QArith Bool Ring Field.
From Verif Require Import Base.
Import ListNotations.
Local Open Scope fld_scope.
Add Field qf : (f_th QcF).

(* ------------------------------------------------------------------ rooted (ordered) trees *)
Inductive tree := Node (l : list tree).

Lemma tree_rect' : forall (Q : tree -> Prop),
  (forall l, (forall u, In u l -> Q u) -> Q (Node l)) -> forall t, Q t.
Proof.
  intros Q H. fix IH 1. intros [l]. apply H. induction l as [|u l IHl]; intros v Hv; [destruct Hv|].
  destruct Hv as [<-|Hv]; [apply IH|exact (IHl v Hv)].
Qed.

Fixpoint nsum (l : list nat) : nat := match l with [] => 0%nat | k :: r => (k + nsum r)%nat end.

(** number of vertices *)
Fixpoint torder (t : tree) : nat := match t with Node l => S (nsum (map torder l)) end.
(** density: product over the vertices of the size of the subtree *)
Fixpoint tdensity (t : tree) : QcF :=
  match t with Node l => fnat (torder t) * fprod (map tdensity l) end.

(** weight of an ordered tree: the inverse of the product of the factorials of the degrees *)
Fixpoint qfact (n : nat) : QcF := match n with O => 1 | S k => fnat (S k) * qfact k end.
Fixpoint tweight (t : tree) : QcF :=
  match t with Node l => 1 / qfact (length l) * fprod (map tweight l) end.

Lemma torder_pos : forall t, (0 < torder t)%nat.
Proof. intros [l]. cbn. lia. Qed.

(** compositions of n: lists of positive numbers with sum n *)
Fixpoint comps_aux (fuel n : nat) : list (list nat) :=
  match fuel with
  | O => match n with O => [[]] | _ => [] end
  | S f => match n with
           | O => [[]]
           | S _ => flat_map (fun k => map (cons k) (comps_aux f (n - k))) (seq 1 n)
           end
  end.
Definition comps (n : nat) : list (list nat) := comps_aux n n.

Lemma comps_aux_spec : forall fuel n c, (n <= fuel)%nat ->
  (In c (comps_aux fuel n) <-> (nsum c = n /\ forall k, In k c -> (1 <= k)%nat)).
Proof.
  induction fuel as [|f IH]; intros n c L.
  - assert (n = 0%nat) by lia. subst n. cbn. split.
    + intros [<-|[]]. cbn. split; [reflexivity|tauto].
    + intros [S P]. destruct c as [|k c]; [left; reflexivity|]. cbn in S. specialize (P k (or_introl eq_refl)). lia.
  - destruct n as [|n].
    + cbn. split.
      * intros [<-|[]]. cbn. split; [reflexivity|tauto].
      * intros [S P]. destruct c as [|k c]; [left; reflexivity|]. cbn in S. specialize (P k (or_introl eq_refl)). lia.
    + cbn [comps_aux]. rewrite in_flat_map. split.
      * intros [k [Hk Hc]]. apply in_seq in Hk. apply in_map_iff in Hc. destruct Hc as [c' [<- Hc]].
        apply IH in Hc; [|lia]. destruct Hc as [S P]. cbn. split; [lia|]. intros j [<-|Hj]; [lia|exact (P j Hj)].
      * intros [S P]. destruct c as [|k c]; [discriminate|]. cbn in S. pose proof (P k (or_introl eq_refl)) as Pk.
        exists k. split; [apply in_seq; lia|]. apply in_map. apply IH; [lia|]. split; [lia|].
        intros j Hj. apply P. right. exact Hj.
Qed.

Lemma comps_spec : forall n c, In c (comps n) <-> (nsum c = n /\ forall k, In k c -> (1 <= k)%nat).
Proof. intros. apply comps_aux_spec. lia. Qed.

(** all ways of choosing one element from each list *)
Fixpoint choices {A : Type} (ls : list (list A)) : list (list A) :=
  match ls with
  | [] => [[]]
  | l :: rest => flat_map (fun a => map (cons a) (choices rest)) l
  end.

Lemma choices_spec : forall {A : Type} (ls : list (list A)) c,
  In c (choices ls) <-> Forall2 (fun a l => In a l) c ls.
Proof.
  intros A ls. induction ls as [|l ls IH]; intro c; cbn.
  - split; [intros [<-|[]]; constructor|intro H; inversion H; left; reflexivity].
  - rewrite in_flat_map. split.
    + intros [a [Ha Hc]]. apply in_map_iff in Hc. destruct Hc as [c' [<- Hc]]. constructor; [exact Ha|]. apply IH. exact Hc.
    + intro H. inversion H as [|a l' c' ls' H1 H2]; subst. exists a. split; [exact H1|]. apply in_map. apply IH. exact H2.
Qed.

(** the trees with 1, 2, ..., n vertices *)
Fixpoint levels (n : nat) : list (list tree) :=
  match n with
  | O => []
  | S k => let prev := levels k in
           prev ++ [map Node (flat_map (fun c => choices (map (fun m => nth (m - 1) prev []) c)) (comps k))]
  end.
Definition trees (n : nat) : list tree := match n with O => [] | S k => nth k (levels (S k)) [] end.

Lemma levels_length : forall n, length (levels n) = n.
Proof. induction n; cbn; [reflexivity|]. rewrite app_length, IHn. cbn. lia. Qed.

Lemma levels_nth : forall n k, (k < n)%nat -> nth k (levels n) [] = trees (S k).
Proof.
  unfold trees. induction n as [|n IH]; intros k L; [lia|].
  destruct (Nat.eq_dec k n) as [->|Ne]; [reflexivity|].
  cbn [levels]. rewrite app_nth1 by (rewrite levels_length; lia). rewrite IH by lia. reflexivity.
Qed.

(** the trees with n+1 vertices: a root over a forest with n vertices *)
Lemma trees_S : forall n,
  trees (S n) = map Node (flat_map (fun c => choices (map trees c)) (comps n)).
Proof.
  intro n. unfold trees at 1. cbn [levels]. rewrite app_nth2 by (rewrite levels_length; lia).
  rewrite levels_length, Nat.sub_diag. cbn [nth]. f_equal.
  rewrite !flat_map_concat_map. f_equal. apply map_ext_in. intros c Hc. f_equal. apply map_ext_in. intros m Hm.
  apply comps_spec in Hc. destruct Hc as [Sc Pc]. pose proof (Pc m Hm) as Pm.
  assert (L : (m <= nsum c)%nat).
  { clear - Hm. induction c as [|x c IH]; [destruct Hm|]. cbn. destruct Hm as [->|Hm]; [lia|]. specialize (IH Hm). lia. }
  destruct m as [|m]; [lia|]. replace (S m - 1)%nat with m by lia. apply levels_nth. lia.
Qed.

(** [trees n] lists exactly the trees with n vertices. *)
Lemma trees_complete : forall t, In t (trees (torder t)).
Proof.
  intro t. induction t as [l IH] using tree_rect'. cbn [torder]. rewrite trees_S. apply in_map.
  apply in_flat_map. exists (map torder l). split.
  - apply comps_spec. split; [reflexivity|]. intros k Hk. apply in_map_iff in Hk. destruct Hk as [u [<- _]].
    apply torder_pos.
  - apply choices_spec. induction l as [|u l IHl]; cbn; constructor.
    + apply IH. left. reflexivity.
    + apply IHl. intros v Hv. apply IH. right. exact Hv.
Qed.

Lemma trees_sound : forall n t, In t (trees n) -> torder t = n.
Proof.
  induction n as [n IH] using lt_wf_ind. intros t H. destruct n as [|n]; [destruct H|].
  rewrite trees_S in H. apply in_map_iff in H. destruct H as [l [<- H]]. apply in_flat_map in H.
  destruct H as [c [Hc Hl]]. apply comps_spec in Hc. destruct Hc as [Sc Pc]. apply choices_spec in Hl.
  cbn. f_equal. rewrite <- Sc.
  assert (G : forall c l, Forall2 (fun (a : tree) l => In a l) l (map trees c) -> (forall k, In k c -> (k <= n)%nat) ->
              nsum (map torder l) = nsum c).
  { clear - IH. induction c as [|k c IHc]; intros l H B; inversion H; subst; cbn; [reflexivity|].
    rewrite (IH k) by (try assumption; specialize (B k (or_introl eq_refl)); lia). f_equal.
    apply IHc; [assumption|]. intros j Hj. apply B. right. exact Hj. }
  apply G; [exact Hl|]. intros k Hk. rewrite <- Sc. clear - Hk. induction c as [|x c IHc]; [destruct Hk|].
  cbn. destruct Hk as [->|Hk]; [lia|]. specialize (IHc Hk). lia.
Qed.

(* ------------------------------------------------------------------ rational vector spaces *)
Record qmod := mkQmod {
  vcar :> Type;
  v0 : vcar;
  vadd : vcar -> vcar -> vcar;
  vscale : QcF -> vcar -> vcar;
  vadd_comm : forall x y, vadd x y = vadd y x;
  vadd_assoc : forall x y z, vadd x (vadd y z) = vadd (vadd x y) z;
  vadd_0 : forall x, vadd v0 x = x;
  vscale_1 : forall x, vscale 1 x = x;
  vscale_0 : forall x, vscale 0 x = v0;
  vscale_mul : forall a b x, vscale (a * b) x = vscale a (vscale b x);
  vscale_add : forall a b x, vscale (a + b) x = vadd (vscale a x) (vscale b x);
  vscale_vadd : forall a x y, vscale a (vadd x y) = vadd (vscale a x) (vscale a y) }.
Arguments v0 {_}. Arguments vadd {_}. Arguments vscale {_}.
Arguments vadd_comm {_}. Arguments vadd_assoc {_}. Arguments vadd_0 {_}. Arguments vscale_1 {_}.
Arguments vscale_0 {_}. Arguments vscale_mul {_}. Arguments vscale_add {_}. Arguments vscale_vadd {_}.

Section Series.
Variable W : qmod.

Fixpoint vsum (l : list W) : W := match l with [] => v0 | x :: r => vadd x (vsum r) end.

Lemma vscale_v0 : forall a, vscale a (v0 : W) = v0.
Proof. intro a. rewrite <- (vscale_0 (v0 : W)), <- vscale_mul. f_equal. ring. Qed.

Lemma vsum_app : forall l1 l2, vsum (l1 ++ l2) = vadd (vsum l1) (vsum l2).
Proof. induction l1; intro l2; cbn; [rewrite vadd_0; reflexivity|]. rewrite IHl1, vadd_assoc. reflexivity. Qed.

Lemma vsum_scale : forall {A} a (f : A -> W) l, vsum (map (fun x => vscale a (f x)) l) = vscale a (vsum (map f l)).
Proof. intros A a f l. induction l; cbn; [rewrite vscale_v0; reflexivity|]. rewrite IHl, vscale_vadd. reflexivity. Qed.

Lemma vsum_vadd : forall {A} (f g : A -> W) l,
  vsum (map (fun x => vadd (f x) (g x)) l) = vadd (vsum (map f l)) (vsum (map g l)).
Proof.
  intros A f g l. induction l; cbn; [rewrite vadd_0; reflexivity|]. rewrite IHl.
  rewrite <- !vadd_assoc. f_equal. rewrite !vadd_assoc. f_equal. apply vadd_comm.
Qed.

Lemma vsum_flat_map : forall {A B} (g : A -> list B) (f : B -> W) l,
  vsum (map f (flat_map g l)) = vsum (map (fun x => vsum (map f (g x))) l).
Proof. intros A B g f l. induction l; cbn; [reflexivity|]. rewrite map_app, vsum_app, IHl. reflexivity. Qed.

Lemma vsum_ext : forall {A} (f g : A -> W) l, (forall x, In x l -> f x = g x) -> vsum (map f l) = vsum (map g l).
Proof. intros A f g l H. f_equal. apply map_ext_in. exact H. Qed.

(** The derivatives of a vector field at a point, all of them: D [u1; ...; uk] is the k-th one applied
    to u1, ..., uk.  Multilinear. *)
Variable D : list W -> W.
Definition multilinear : Prop :=
  (forall l1 u v l2, D (l1 ++ vadd u v :: l2) = vadd (D (l1 ++ u :: l2)) (D (l1 ++ v :: l2)))
  /\ (forall l1 a u l2, D (l1 ++ vscale a u :: l2) = vscale a (D (l1 ++ u :: l2))).
Hypothesis ML : multilinear.

(** Power series in the step size: the coefficient of each power. *)
Definition series := nat -> W.

(** The coefficients of f(x0 + s(h)), f given by its Taylor series at x0 and s(0) = 0:
    the sum over k of 1/k! D_k(s,...,s). *)
Definition compose (s : series) : series := fun n =>
  vsum (map (fun c => vscale (1 / qfact (length c)) (D (map s c))) (comps n)).

(** The displacement y solves y' = f(x0 + y), y(0) = 0, coefficient by coefficient. *)
Definition solves (y : series) : Prop :=
  y 0%nat = v0 /\ forall n, vscale (fnat (S n)) (y (S n)) = compose y n.

Fixpoint elementary (t : tree) : W := match t with Node l => D (map elementary l) end.

(** the series with coefficients alpha(t) F(t) summed over the trees *)
Definition bseries (alpha : tree -> QcF) : series := fun n =>
  vsum (map (fun t => vscale (alpha t) (elementary t)) (trees n)).

Lemma D_vsum : forall l1 l2 l, D (l1 ++ vsum l :: l2) = vsum (map (fun u => D (l1 ++ u :: l2)) l).
Proof.
  intros l1 l2 l. destruct ML as [A S]. induction l as [|u l IH]; cbn.
  - transitivity (D (l1 ++ vscale 0 v0 :: l2)); [rewrite vscale_0; reflexivity|]. rewrite S. apply vscale_0.
  - rewrite A, IH. reflexivity.
Qed.

(** expanding each argument of D as a sum over trees *)
Lemma D_expand : forall alpha c pre,
  D (pre ++ map (bseries alpha) c)
  = vsum (map (fun l => vscale (fprod (map alpha l)) (D (pre ++ map elementary l))) (choices (map trees c))).
Proof.
  intros alpha c. destruct ML as [_ SC]. induction c as [|n c IH]; intro pre; cbn [map choices].
  - cbn. rewrite vadd_comm, vadd_0, vscale_1. reflexivity.
  - unfold bseries at 1. rewrite D_vsum. rewrite map_map, vsum_flat_map. apply vsum_ext. intros t _.
    rewrite SC. replace (pre ++ elementary t :: map (bseries alpha) c)
      with ((pre ++ [elementary t]) ++ map (bseries alpha) c) by (rewrite <- app_assoc; reflexivity).
    rewrite IH, <- vsum_scale, map_map. apply vsum_ext. intros l _. cbn [map fprod].
    rewrite <- vscale_mul, <- app_assoc. reflexivity.
Qed.

Lemma compose_bseries : forall alpha s n, (forall m, (1 <= m <= n)%nat -> s m = bseries alpha m) ->
  compose s n = vsum (map (fun t => match t with Node l =>
                   vscale (1 / qfact (length l) * fprod (map alpha l)) (elementary t) end) (trees (S n))).
Proof.
  intros alpha s n H. rewrite trees_S, map_map, vsum_flat_map. unfold compose. apply vsum_ext.
  intros c Hc. apply comps_spec in Hc. destruct Hc as [Sc Pc].
  assert (E : map s c = map (bseries alpha) c).
  { apply map_ext_in. intros m Hm. apply H. split; [exact (Pc m Hm)|]. rewrite <- Sc.
    clear - Hm. induction c as [|x c IHc]; [destruct Hm|]. cbn. destruct Hm as [->|Hm]; [lia|]. specialize (IHc Hm). lia. }
  rewrite E. pose proof (D_expand alpha c []) as X. cbn [app] in X. rewrite X, <- vsum_scale. apply vsum_ext.
  intros l Hl. cbn [elementary]. rewrite <- vscale_mul. f_equal. f_equal.
  apply choices_spec in Hl. replace (length l) with (length c); [reflexivity|].
  clear - Hl. revert l Hl. induction c as [|m c IH]; intros l Hl; inversion Hl; subst; cbn; [reflexivity|].
  f_equal. apply IH. assumption.
Qed.

(* ------------------------------------------------------------------ the exact solution *)
Lemma qnat_neq0 : forall n, (fnat (S n) : QcF) <> 0.
Proof.
  intros n E. assert (H : forall k, (0 <= rq (fnat k : QcF))%Q).
  { induction k as [|k IH]; [discriminate|]. cbn [fnat]. unfold fadd, QcF, rat_add, to_rat. cbn [rq].
    rewrite Qred_correct. apply Qle_trans with (1 + 0)%Q; [discriminate|]. apply Qplus_le_compat; [discriminate|exact IH]. }
  cbn [fnat] in E. apply (f_equal rq) in E. specialize (H n).
  assert (X : Qeq (rq (fadd (f1 : QcF) (fnat n))) (Qplus 1%Q (rq (fnat n : QcF)))).
  { unfold fadd, QcF, rat_add, to_rat. cbn [rq]. rewrite Qred_correct. apply Qplus_comp; [reflexivity|reflexivity]. }
  rewrite E in X. assert (Y : (1 <= 1 + rq (fnat n : QcF))%Q).
  { apply Qle_trans with (1 + 0)%Q; [discriminate|]. apply Qplus_le_compat; [discriminate|exact H]. }
  rewrite <- X in Y. unfold Qle in Y. cbn in Y. lia.
Qed.

Lemma tdensity_neq0 : forall t, tdensity t <> 0.
Proof.
  intro t. induction t as [l IH] using tree_rect'. cbn [tdensity torder].
  apply fmul_neq0; [apply qnat_neq0|]. rewrite fprod_eq0. intro H. apply in_map_iff in H.
  destruct H as [u [E Hu]]. exact (IH u Hu E).
Qed.

Definition exact_alpha (t : tree) : QcF := tweight t / tdensity t.

Lemma fprod_div : forall {A} (f g : A -> QcF) l, (forall x, In x l -> g x <> 0) ->
  fprod (map (fun x => f x / g x) l) = fprod (map f l) / fprod (map g l).
Proof.
  intros A f g l H. induction l as [|x l IH]; cbn [map fprod]; [field; exact (@f1_neq_f0 QcF)|].
  rewrite IH by (intros y Hy; apply H; right; exact Hy). field. split.
  - rewrite fprod_eq0. intro K. apply in_map_iff in K. destruct K as [y [E Hy]]. exact (H y (or_intror Hy) E).
  - apply H. left. reflexivity.
Qed.

Lemma qfact_neq0 : forall n, qfact n <> 0.
Proof. induction n; cbn [qfact]; [exact (@f1_neq_f0 QcF)|]. apply fmul_neq0; [apply qnat_neq0|exact IHn]. Qed.

(** The solution is the series over trees with coefficients weight / density. *)
Lemma solution_bseries : forall y, solves y -> forall n, (1 <= n)%nat -> y n = bseries exact_alpha n.
Proof.
  intros y [_ Hy] n. induction n as [n IH] using lt_wf_ind. intro L. destruct n as [|n]; [lia|].
  specialize (Hy n). rewrite (compose_bseries exact_alpha) in Hy by (intros m Hm; apply IH; lia).
  assert (E : y (S n) = vscale (1 / fnat (S n)) (vscale (fnat (S n)) (y (S n)))).
  { rewrite <- vscale_mul. replace (1 / fnat (S n) * fnat (S n)) with (1 : QcF) by (field; apply qnat_neq0).
    rewrite vscale_1. reflexivity. }
  rewrite E, Hy, <- vsum_scale. unfold bseries. apply vsum_ext. intros [l] Hl.
  apply trees_sound in Hl. rewrite <- vscale_mul. f_equal. unfold exact_alpha. cbn [tweight tdensity]. rewrite Hl.
  rewrite (fprod_div tweight tdensity) by (intros u _; apply tdensity_neq0).
  field. repeat split; try apply qfact_neq0; try apply qnat_neq0.
  rewrite fprod_eq0. intro K. apply in_map_iff in K. destruct K as [u [E' _]]. exact (tdensity_neq0 u E').
Qed.

(** Solutions exist and are unique. *)
Lemma solution_unique : forall y z, solves y -> solves z -> forall n, y n = z n.
Proof.
  intros y z Hy Hz [|n]; [rewrite (proj1 Hy), (proj1 Hz); reflexivity|].
  rewrite (solution_bseries y Hy) by lia. rewrite (solution_bseries z Hz) by lia. reflexivity.
Qed.

Lemma solution_exists : exists y, solves y.
Proof.
  exists (fun n => match n with O => v0 | _ => bseries exact_alpha n end). split; [reflexivity|].
  intro n. rewrite (compose_bseries exact_alpha).
  - unfold bseries. rewrite <- vsum_scale. apply vsum_ext. intros [l] Hl. apply trees_sound in Hl.
    rewrite <- vscale_mul. f_equal. unfold exact_alpha. cbn [tweight tdensity]. rewrite Hl.
    rewrite (fprod_div tweight tdensity) by (intros u _; apply tdensity_neq0).
    field. repeat split; try apply qfact_neq0; try apply qnat_neq0.
    rewrite fprod_eq0. intro K. apply in_map_iff in K. destruct K as [u [E' _]]. exact (tdensity_neq0 u E').
  - intros [|m] Hm; [lia|reflexivity].
Qed.
End Series.
Arguments vsum {W}. Arguments multilinear {W}. Arguments compose {W}. Arguments solves {W}.
Arguments elementary {W}. Arguments bseries {W}.
