(** Index to subscript conversion used to number start points.
    Models core/include/bertini2/system/start/utility.hpp:57-81. *)
From Coq Require Import List ZArith Lia Bool.
Import ListNotations.
Local Open Scope Z_scope.

(** Arithmetic is on [size_t] / [unsigned long long]: results are reduced modulo 2^64.
    (template parameter T of utility.hpp:57, instantiated at total_degree.cpp:74,100 and mhom.cpp:379) *)
Definition wrap64 (x : Z) : Z := x mod 2 ^ 64.

(** Outcome of a C++ call: a value, a thrown exception, or undefined behaviour. *)
Inductive outcome (A : Type) :=
| Value (a : A)
| Throws
| UB.
Arguments Value {A} _.
Arguments Throws {A}.
Arguments UB {A}.

(** utility.hpp:63-65, the vector [k] of strides: k[0]=1, k[i+1]=k[i]*dimensions[i]. *)
Fixpoint strides (k : Z) (dims : list Z) : list Z :=
  match dims with
  | [] => []
  | d :: r => k :: strides (wrap64 (k * d)) r
  end.

(** utility.hpp:72-78, the loop from the last dimension down to the first; the
    argument is the stride vector reversed and the result is produced last subscript first. *)
Fixpoint peel (index : Z) (rev_k : list Z) : list Z :=
  match rev_k with
  | [] => []
  | k :: r =>
      let I := index mod k in
      let J := (index - I) / k in
      J :: peel I r
  end.

(** utility.hpp:58-81.  With no dimensions, [k.back()] at line 68 is undefined behaviour. *)
Definition index_to_subscript (index : Z) (dims : list Z) : outcome (list Z) :=
  match dims with
  | [] => UB
  | _ =>
    let k := strides 1 dims in
    if wrap64 (last k 0 * last dims 0) <=? index then Throws
    else Value (rev (peel index (rev k)))
  end.

(** ** Specification *)

(** number of cells of an array with the given dimensions *)
Definition num_cells (dims : list Z) : Z := fold_right Z.mul 1 dims.

(** a legal subscript: one entry per dimension, each at least 0 and below the dimension *)
Definition legal_subscript (dims sub : list Z) : Prop :=
  Forall2 (fun d s => 0 <= s < d) dims sub.

(** position of a cell in column-major (first subscript fastest) order *)
Fixpoint cell_position (dims sub : list Z) : Z :=
  match dims, sub with
  | d :: dr, s :: sr => s + d * cell_position dr sr
  | _, _ => 0
  end.

(** ** Proofs *)

Lemma num_cells_app : forall a b, num_cells (a ++ b) = num_cells a * num_cells b.
Proof.
  unfold num_cells. induction a; intros b.
  - cbn [app fold_right]. lia.
  - cbn [app fold_right]. rewrite IHa. lia.
Qed.

Lemma num_cells_pos : forall dims, Forall (fun d => 1 <= d) dims -> 1 <= num_cells dims.
Proof.
  unfold num_cells. induction 1; cbn [fold_right]; nia.
Qed.

Lemma wrap64_small : forall x, 0 <= x < 2 ^ 64 -> wrap64 x = x.
Proof. intros. apply Z.mod_small; assumption. Qed.

(** strides without wrap-around *)
Fixpoint strides_id (k : Z) (dims : list Z) : list Z :=
  match dims with
  | [] => []
  | d :: r => k :: strides_id (k * d) r
  end.

Lemma strides_no_wrap : forall dims k,
  1 <= k -> Forall (fun d => 1 <= d) dims -> k * num_cells dims < 2 ^ 64 ->
  strides k dims = strides_id k dims.
Proof.
  induction dims as [|d r IH]; intros k Hk Hd Hlt; [reflexivity|].
  inversion Hd; subst.
  unfold num_cells in Hlt; cbn [fold_right] in Hlt; fold (num_cells r) in Hlt.
  pose proof (num_cells_pos r H2).
  cbn [strides strides_id].
  assert (k * d < 2 ^ 64) by nia.
  rewrite wrap64_small by nia.
  f_equal. apply IH; [nia|assumption|nia].
Qed.

Lemma strides_id_app : forall a b k,
  strides_id k (a ++ b) = strides_id k a ++ strides_id (k * num_cells a) b.
Proof.
  induction a as [|d a IH]; intros b k.
  - cbn. f_equal. lia.
  - cbn [app strides_id]. rewrite IH. cbn [app]. do 2 f_equal.
    f_equal. unfold num_cells; cbn [fold_right]. lia.
Qed.

Lemma cell_position_app1 : forall ds ss d s,
  length ds = length ss ->
  cell_position (ds ++ [d]) (ss ++ [s]) = cell_position ds ss + num_cells ds * s.
Proof.
  induction ds as [|d0 ds IH]; intros ss d s Hl; destruct ss as [|s0 ss]; try discriminate.
  - unfold num_cells. cbn [app cell_position fold_right]. lia.
  - cbn [app cell_position]. rewrite IH by (cbn in Hl; lia).
    unfold num_cells; cbn [fold_right]. fold (num_cells ds). lia.
Qed.

Lemma legal_length : forall dims sub, legal_subscript dims sub -> length dims = length sub.
Proof. unfold legal_subscript; induction 1; cbn; lia. Qed.

Lemma cell_position_bound : forall dims sub,
  legal_subscript dims sub -> 0 <= cell_position dims sub < num_cells dims.
Proof.
  unfold legal_subscript, num_cells. induction 1; cbn [cell_position fold_right]; [lia|]. nia.
Qed.

Lemma legal_app1 : forall ds ss d s,
  legal_subscript ds ss -> 0 <= s < d -> legal_subscript (ds ++ [d]) (ss ++ [s]).
Proof.
  unfold legal_subscript; intros. apply Forall2_app; auto.
Qed.

(** the peeling loop computes a legal subscript whose position is the index *)
Lemma peel_correct : forall dims index,
  Forall (fun d => 1 <= d) dims -> 0 <= index < num_cells dims ->
  let sub := rev (peel index (rev (strides_id 1 dims))) in
  legal_subscript dims sub /\ cell_position dims sub = index.
Proof.
  induction dims as [|d ds IH] using rev_ind; intros index Hd Hi; cbn zeta.
  - unfold num_cells in Hi; cbn in Hi. cbn. split; [constructor|lia].
  - apply Forall_app in Hd as [Hds Hd1]. inversion Hd1; subst.
    rewrite num_cells_app in Hi. unfold num_cells at 2 in Hi. cbn [fold_right] in Hi.
    pose proof (num_cells_pos ds Hds) as Hp.
    rewrite strides_id_app. cbn [strides_id]. rewrite rev_app_distr. cbn [rev app peel].
    rewrite Z.mul_1_l. set (P := num_cells ds) in *.
    assert (Hm : 0 <= index mod P < P) by (apply Z.mod_pos_bound; lia).
    destruct (IH (index mod P) Hds Hm) as [Hl Hc].
    assert (Hq : (index - index mod P) / P = index / P).
    { rewrite (Z.div_mod index P) at 1 by lia.
      replace (P * (index / P) + index mod P - index mod P) with ((index / P) * P) by lia.
      apply Z.div_mul; lia. }
    rewrite Hq.
    assert (Hb : 0 <= index / P < d).
    { split; [apply Z.div_pos; lia|]. apply Z.div_lt_upper_bound; nia. }
    split.
    + apply legal_app1; assumption.
    + rewrite cell_position_app1 by (apply legal_length; assumption).
      rewrite Hc. fold P. pose proof (Z.div_mod index P). lia.
Qed.

Lemma cell_position_inj : forall dims s1 s2,
  legal_subscript dims s1 -> legal_subscript dims s2 ->
  cell_position dims s1 = cell_position dims s2 -> s1 = s2.
Proof.
  unfold legal_subscript.
  induction dims as [|d r IH]; intros s1 s2 H1 H2 E.
  - inversion H1; inversion H2; subst; reflexivity.
  - inversion H1 as [|? x ? xs Hx Hxs]; subst. inversion H2 as [|? y ? ys Hy Hys]; subst.
    cbn [cell_position] in E.
    assert (x = y /\ cell_position r xs = cell_position r ys) as [-> Ep].
    { assert (Ex : x = (x + d * cell_position r xs) mod d).
      { rewrite Z.add_comm, Z.mul_comm, Z.add_comm, Z.mod_add by lia. rewrite Z.mod_small; lia. }
      assert (Ey : y = (y + d * cell_position r ys) mod d).
      { rewrite Z.add_comm, Z.mul_comm, Z.add_comm, Z.mod_add by lia. rewrite Z.mod_small; lia. }
      rewrite E in Ex. split; [congruence|nia]. }
    f_equal. apply IH; assumption.
Qed.

Lemma last_strides_id : forall ds d k,
  last (strides_id k (ds ++ [d])) 0 * last (ds ++ [d]) 0 = k * num_cells (ds ++ [d]).
Proof.
  intros. rewrite strides_id_app. cbn [strides_id]. rewrite !last_last.
  rewrite num_cells_app. unfold num_cells at 3. cbn [fold_right]. lia.
Qed.

Lemma index_to_subscript_unfold : forall index dims,
  dims <> [] -> Forall (fun d => 1 <= d) dims -> num_cells dims < 2 ^ 64 ->
  index_to_subscript index dims =
  if num_cells dims <=? index then Throws
  else Value (rev (peel index (rev (strides_id 1 dims)))).
Proof.
  intros index dims Hne Hd Hlt.
  unfold index_to_subscript. destruct dims as [|d0 r0] eqn:Ed; [congruence|]. rewrite <- Ed in *.
  rewrite strides_no_wrap by (try assumption; lia).
  destruct (exists_last Hne) as [ds [d Eq]]. rewrite Eq in *.
  rewrite last_strides_id, Z.mul_1_l.
  rewrite wrap64_small; [reflexivity|].
  pose proof (num_cells_pos _ Hd). lia.
Qed.

Lemma index_to_subscript_in_range : forall dims index,
  dims <> [] -> Forall (fun d => 1 <= d) dims -> num_cells dims < 2 ^ 64 ->
  0 <= index < num_cells dims ->
  exists sub, index_to_subscript index dims = Value sub
              /\ legal_subscript dims sub /\ cell_position dims sub = index.
Proof.
  intros dims index Hne Hd Hlt Hi.
  rewrite index_to_subscript_unfold by assumption.
  destruct (Z.leb_spec (num_cells dims) index); [lia|].
  eexists; split; [reflexivity|]. apply peel_correct; assumption.
Qed.

Lemma index_to_subscript_out_of_range : forall dims index,
  dims <> [] -> Forall (fun d => 1 <= d) dims -> num_cells dims < 2 ^ 64 ->
  num_cells dims <= index -> index_to_subscript index dims = Throws.
Proof.
  intros dims index Hne Hd Hlt Hi.
  rewrite index_to_subscript_unfold by assumption.
  destruct (Z.leb_spec (num_cells dims) index); [reflexivity|lia].
Qed.

Lemma legal_dims_pos : forall dims sub,
  legal_subscript dims sub -> Forall (fun d => 1 <= d) dims.
Proof. unfold legal_subscript; induction 1; constructor; [lia|assumption]. Qed.

Lemma index_to_subscript_onto : forall dims sub,
  dims <> [] -> num_cells dims < 2 ^ 64 -> legal_subscript dims sub ->
  index_to_subscript (cell_position dims sub) dims = Value sub.
Proof.
  intros dims sub Hne Hlt Hl.
  pose proof (cell_position_bound _ _ Hl) as Hb.
  destruct (index_to_subscript_in_range dims (cell_position dims sub)) as [sub' [E [Hl' Hc]]];
    try assumption; [eapply legal_dims_pos; eassumption|].
  rewrite E. f_equal. eapply cell_position_inj; eassumption.
Qed.

Lemma index_to_subscript_injective : forall dims i j sub,
  dims <> [] -> Forall (fun d => 1 <= d) dims -> num_cells dims < 2 ^ 64 ->
  0 <= i -> 0 <= j ->
  index_to_subscript i dims = Value sub -> index_to_subscript j dims = Value sub -> i = j.
Proof.
  intros dims i j sub Hne Hd Hlt Hi Hj Ei Ej.
  assert (Bi : i < num_cells dims).
  { destruct (Z.lt_ge_cases i (num_cells dims)); [assumption|].
    rewrite index_to_subscript_out_of_range in Ei by assumption. discriminate. }
  assert (Bj : j < num_cells dims).
  { destruct (Z.lt_ge_cases j (num_cells dims)); [assumption|].
    rewrite index_to_subscript_out_of_range in Ej by assumption. discriminate. }
  destruct (index_to_subscript_in_range dims i) as [s1 [E1 [_ C1]]]; try assumption; [lia|].
  destruct (index_to_subscript_in_range dims j) as [s2 [E2 [_ C2]]]; try assumption; [lia|].
  congruence.
Qed.

Lemma index_to_subscript_overflow : exists dims index,
  dims <> [] /\ Forall (fun d => 1 <= d < 2 ^ 64) dims /\ 0 <= index < num_cells dims
  /\ index_to_subscript index dims = Throws.
Proof.
  exists [2 ^ 32; 2 ^ 32], 5.
  split; [discriminate|]. split.
  - apply Forall_cons; [lia|]. apply Forall_cons; [lia|]. apply Forall_nil.
  - split; [|vm_compute; reflexivity].
    change (num_cells [2 ^ 32; 2 ^ 32]) with (2 ^ 32 * (2 ^ 32 * 1)). lia.
Qed.
