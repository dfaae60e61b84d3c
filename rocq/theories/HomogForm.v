(** Trees which are homogeneous by the way they are written, and what Degree and IsHomogeneous (DegreeAll.v) answer for them. *)
From Coq Require Import List ZArith Lia Bool.
From Verif Require Import Base Expr Degree DegreeAll.
Import ListNotations.
Local Open Scope Z_scope.

Section Form.
  Context {F : fld}.
  Variable fs : funs F.
  Variable rho : env F.
  (** the variable asked for, or all *)
  Variable o : option nat.

  (** ** Specification *)

  (** [form d e]: [e] is written as a form of degree [d]: numbers and variables, sums of forms of the same degree, products of
      forms, quotients by forms of degree 0, negation, powers, and functions of forms of degree 0 *)
  Inductive form : nat -> expr F -> Prop :=
  | fo_number : forall k c, form 0 (Num k c)
  | fo_asked : forall x, o = None \/ o = Some x -> form 1 (Var x)
  | fo_other : forall x v, o = Some v -> v <> x -> form 0 (Var x)
  | fo_sum : forall d p ops, Forall (fun q => form d (snd q)) (p :: ops) -> form d (Sum (p :: ops))
  | fo_product : forall ops ds, Forall2 (fun q d => form d (snd q) /\ (fst q = false -> d = O)) ops ds ->
      form (fold_right Nat.add O ds) (Mul ops)
  | fo_negation : forall d e, form d e -> form d (Neg e)
  | fo_power : forall d e n, form d e -> form (n * d) (IPow e (Z.of_nat n))
  | fo_inverse : forall e n, form 0 e -> form 0 (IPow e n)
  | fo_exponent : forall d b e x n, form d b -> form 0 e -> eval fs rho e = Some x -> as_int fs x = Some (Z.of_nat n) ->
      form (d * n) (Pow b e)
  | fo_function : forall k e, form 0 e -> form 0 (Fun k e)
  | fo_handle : forall d e, form d e -> form d (Handle e).

  (** ** Proofs *)
  Definition answered (d : nat) (e : expr F) : Prop := vdegree fs rho o e = Z.of_nat d /\ vhomogeneous fs rho o e = true.

  Fixpoint form_answered d e (H : form d e) {struct H} : answered d e.
  Proof.
    destruct H as [k c|x Hx|x v Hv Hx|d p ops Ho|ops ds Ho|d e He|d e n He|e n He|d b e x n Hb He Hx Hn|k e He|d e He].
    - split; reflexivity.
    - split; [|reflexivity]. cbn. destruct Hx as [->| ->]; [reflexivity|]. rewrite Nat.eqb_refl. reflexivity.
    - split; [|reflexivity]. cbn. rewrite Hv. destruct (Nat.eqb_spec x v); [congruence|reflexivity].
    - assert (A : Forall (fun q => answered d (snd q)) (p :: ops)).
      { induction Ho as [|q l Hq Hl IH]; constructor; [apply form_answered; exact Hq|exact IH]. }
      clear Ho form_answered. split.
      + cbn [vdegree]. assert (G : forall (l : list (bool * expr F)) acc, 0 <= acc <= Z.of_nat d -> Forall (fun q => answered d (snd q)) l -> l <> [] ->
          sum_degree (map (fun q => vdegree fs rho o (snd q)) l) acc = Z.of_nat d).
        { assert (G0 : forall (l : list (bool * expr F)), Forall (fun q => answered d (snd q)) l -> sum_degree (map (fun q => vdegree fs rho o (snd q)) l) (Z.of_nat d) = Z.of_nat d).
          { induction l as [|q l IH]; intro Hl; cbn [map sum_degree]; [reflexivity|]. inversion Hl as [|? ? [Q _] Hl']; subst.
            rewrite Q. destruct (Z.ltb_spec (Z.of_nat d) 0); [lia|]. rewrite Z.max_id. apply IH. exact Hl'. }
          intros [|q l] acc Hacc Hl Hne; [congruence|]. cbn [map sum_degree]. inversion Hl as [|? ? [Q _] Hl']; subst.
          rewrite Q. destruct (Z.ltb_spec (Z.of_nat d) 0); [lia|]. rewrite Z.max_r by lia. apply G0. exact Hl'. }
        apply G; [lia|exact A|discriminate].
      + cbn [vhomogeneous]. apply andb_true_iff. split.
        * apply forallb_forall. intros q Hq. rewrite Forall_forall in A. exact (proj2 (A q Hq)).
        * cbn [map]. inversion A as [|? ? [P _] A']; subst. rewrite P. apply andb_true_iff. split.
          -- destruct (Z.ltb_spec (Z.of_nat d) 0); [lia|reflexivity].
          -- apply forallb_forall. intros z Hz. apply in_map_iff in Hz. destruct Hz as [q [<- Hq]]. rewrite Forall_forall in A'.
             apply Z.eqb_eq. exact (proj1 (A' q Hq)).
    - assert (A : Forall2 (fun q d => answered d (snd q) /\ (fst q = false -> d = O)) ops ds).
      { induction Ho as [|q d l ds [Hq Hf] Hl IH]; constructor; [split; [apply form_answered; exact Hq|exact Hf]|exact IH]. }
      clear Ho form_answered. split.
      + cbn [vdegree]. rewrite mul_degree_all.
        * rewrite Z.add_0_l. induction A as [|q d l ds [[Q _] _] Hl IH]; [reflexivity|]. unfold sum2 in *. cbn [map fold_right snd].
          rewrite Q, IH. lia.
        * apply Forall_map. induction A as [|q d l ds [[Q _] Hf] Hl IH]; constructor; [|exact IH]. cbn [fst snd]. rewrite Q. split; [lia|].
          intro E. rewrite (Hf E). reflexivity.
      + cbn [vhomogeneous]. apply forallb_forall. intros q Hq. induction A as [|q' d l ds [[_ Q] _] Hl IH]; [destruct Hq|].
        destruct Hq as [<-|Hq]; [exact Q|apply IH; exact Hq].
    - destruct (form_answered d e He) as [A B]. split; [exact A|exact B].
    - destruct (form_answered d e He) as [A B]. split; [|exact B]. cbn [vdegree]. cbv zeta. rewrite A.
      destruct (Z.ltb_spec (Z.of_nat d) 0); lia.
    - destruct (form_answered O e He) as [A B]. split; [|exact B]. cbn [vdegree]. cbv zeta. rewrite A. cbn. lia.
    - destruct (form_answered d b Hb) as [A B]. destruct (form_answered O e He) as [A' B']. split.
      + cbn [vdegree]. cbv zeta. rewrite A', A, Hx, Hn. cbn [Z.of_nat Z.eqb].
        destruct (Z.eqb_spec (Z.of_nat n) 0); [nia|]. destruct (Z.ltb_spec (Z.of_nat n) 0); [lia|]. destruct (Z.ltb_spec (Z.of_nat d) 0); lia.
      + cbn [vhomogeneous]. rewrite A', Hx, Hn. cbn [Z.of_nat Z.eqb]. destruct (Z.leb_spec 0 (Z.of_nat n)); [exact B|lia].
    - destruct (form_answered O e He) as [A B]. split.
      + cbn [vdegree]. rewrite A. reflexivity.
      + cbn [vhomogeneous]. apply Z.eqb_eq. cbn [vdegree]. rewrite A. reflexivity.
    - destruct (form_answered d e He) as [A B]. split; [exact A|exact B].
  Qed.
End Form.
