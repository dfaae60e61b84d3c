(** Printing a tree and parsing the text. *)
From Coq Require Import String Ascii List Arith Lia Bool ZArith DecimalString Decimal Ring Field Ring_theory Field_theory.
From Verif Require Import Base Chars NumLit Expr Parser ParserSpec ParserProof ParserReads.
Import ListNotations.
Local Open Scope char_scope.

(** *** The decimal text of an integer *)

Lemma uint_digits : forall u, all_digits (txt (NilEmpty.string_of_uint u)).
Proof.
  induction u as [|u IH|u IH|u IH|u IH|u IH|u IH|u IH|u IH|u IH|u IH]; cbn; constructor; (reflexivity || exact IH).
Qed.

Lemma nilzero_digits : forall u, digit_string (txt (NilZero.string_of_uint u)).
Proof.
  intro u. split.
  - destruct u; discriminate.
  - destruct u as [|u|u|u|u|u|u|u|u|u|u]; [repeat constructor|..]; apply (uint_digits).
Qed.

Lemma print_Z_shape : forall z, exists m d, print_Z z = m ++ d /\ sign m /\ digit_string d /\ (m = [] <-> (0 <= z)%Z).
Proof.
  intro z. unfold print_Z. destruct z as [|p|p]; cbn [Z.to_int].
  - exists [], ["0"]. split; [reflexivity|]. split; [constructor|]. split; [|split; [lia|reflexivity]].
    split; [discriminate|repeat constructor].
  - exists [], (txt (NilZero.string_of_uint (Pos.to_uint p))). split; [reflexivity|]. split; [constructor|].
    split; [apply nilzero_digits|]. split; [lia|reflexivity].
  - exists ["-"], (txt (NilZero.string_of_uint (Pos.to_uint p))). split; [reflexivity|]. split; [constructor|].
    split; [apply nilzero_digits|]. split; [discriminate|lia].
Qed.

Lemma print_Z_opp : forall z, (0 < z)%Z -> print_Z (- z) = "-" :: print_Z z.
Proof. intros [|p|p] H; try lia. reflexivity. Qed.

(** *** Trees which can be read back *)

Definition is_neg (t : tree) : bool := match t with TNeg _ => true | _ => false end.
Definition is_int (t : tree) : bool := match t with TInt _ => true | _ => false end.

(** a negation is printed without parentheses around it, so it may only stand at the end *)
Fixpoint negation_last (ops : list (bool * tree)) : Prop :=
  match ops with
  | [] => True
  | [_] => True
  | (_, t) :: r => is_neg t = false /\ negation_last r
  end.

(** a sum whose first operand is subtracted is printed with a minus sign in front; this is read as
    intended when the operand is the only one, or is a positive integer *)
Definition first_ok (ops : list (bool * tree)) : Prop :=
  match ops with
  | (false, TInt z) :: _ => (0 < z)%Z
  | (false, _) :: r => r = []
  | _ => True
  end.

Fixpoint readable (names : list text) (t : tree) : Prop :=
  match t with
  | TInt _ => True
  | TFloat _ => False
  | TRat _ _ => False
  | TSym nm => In nm names
  | TSum ops => ops <> [] /\ negation_last ops /\ first_ok ops /\
      (fix all (l : list (bool * tree)) : Prop :=
         match l with [] => True | (_, u) :: r => readable names u /\ all r end) ops
  | TMul ops => ops <> [] /\ negation_last ops /\
      (fix all (l : list (bool * tree)) : Prop :=
         match l with [] => True | (_, u) :: r => readable names u /\ all r end) ops
  | TNeg t => readable names t
  | TIPow t _ => is_neg t = false /\ readable names t
  | TPow b e => readable names b /\ readable names e
  | TFun k t => (exists f, function_name k f) /\ readable names t
  end.

Lemma readable_all : forall names ops,
  (fix all (l : list (bool * tree)) : Prop :=
     match l with [] => True | (_, u) :: r => readable names u /\ all r end) ops <->
  Forall (fun p => readable names (snd p)) ops.
Proof.
  intros names ops. induction ops as [|[b t] r IH]; split; intro H.
  - constructor. - exact I.
  - destruct H as [H1 H2]. constructor; [exact H1|apply IH; exact H2].
  - inversion H; subst. split; [assumption|apply IH; assumption].
Qed.

(** *** Values *)

Section Values.
  Context {F : fld}.
  Local Open Scope fld_scope.
  Add Field printer_field : (f_th F).
  Variable sym : text -> expr F.
  Variable flt : text -> F.
  Variable fs : funs F.
  Variable rho : env F.
  Hypothesis Hpow : whole_powers fs.

  Definition val (t : tree) : option F := eval fs rho (meaning sym flt t).

  Definition vals (ops : list (bool * tree)) : list (bool * option F) := map (fun p => (fst p, val (snd p))) ops.

  Lemma val_sum : forall ops, val (TSum ops) = sum_val (vals ops).
  Proof. intro ops. unfold val. cbn [meaning eval]. rewrite map_map. reflexivity. Qed.

  Lemma val_mul : forall ops, val (TMul ops) = mul_val (vals ops).
  Proof. intro ops. unfold val. cbn [meaning eval]. rewrite map_map. reflexivity. Qed.

  Definition chain_sum (acc : tree) (ops : list (bool * tree)) : tree :=
    fold_left (fun a p => TSum [(true, a); p]) ops acc.
  Definition chain_mul (acc : tree) (ops : list (bool * tree)) : tree :=
    fold_left (fun a p => TMul [(true, a); p]) ops acc.

  Definition oadd (a b : option F) : option F :=
    match a, b with Some x, Some y => Some (x + y) | _, _ => None end.
  Definition omul (a b : option F) : option F :=
    match a, b with Some x, Some y => Some (x * y) | _, _ => None end.

  Lemma chain_sum_val : forall ops acc, val (chain_sum acc ops) = oadd (val acc) (sum_val (vals ops)).
  Proof.
    induction ops as [|[b t] r IH]; intro acc; cbn [chain_sum fold_left vals map sum_val fst snd].
    - destruct (val acc); cbn; [f_equal; ring|reflexivity].
    - fold (vals r). change (fold_left (fun a p => TSum [(true, a); p]) r (TSum [(true, acc); (b, t)]))
        with (chain_sum (TSum [(true, acc); (b, t)]) r). rewrite IH, val_sum. cbn [vals map sum_val fst snd].
      destruct (val acc) as [x|], (val t) as [y|], (sum_val (vals r)) as [z|]; cbn; try reflexivity.
      f_equal. destruct b; ring.
  Qed.

  Lemma chain_mul_val : forall ops acc, val (chain_mul acc ops) = omul (val acc) (mul_val (vals ops)).
  Proof.
    induction ops as [|[b t] r IH]; intro acc; cbn [chain_mul fold_left vals map mul_val fst snd].
    - destruct (val acc); cbn; [f_equal; ring|reflexivity].
    - fold (vals r). change (fold_left (fun a p => TMul [(true, a); p]) r (TMul [(true, acc); (b, t)]))
        with (chain_mul (TMul [(true, acc); (b, t)]) r). rewrite IH, val_mul. cbn [vals map mul_val fst snd].
      destruct (val acc) as [x|], (val t) as [y|], (mul_val (vals r)) as [z|]; cbn; try reflexivity;
        destruct b; try destruct (feq_dec y 0); try reflexivity; cbn [omul];
          f_equal; first [ring | (field; assumption)].
  Qed.

  Lemma val_chain_of_sum : forall b t r, b = true -> val (TSum ((b, t) :: r)) = val (chain_sum t r).
  Proof.
    intros b t r ->. rewrite val_sum, chain_sum_val. cbn [vals map sum_val fst snd]. fold (vals r).
    destruct (val t), (sum_val (vals r)); reflexivity.
  Qed.

  Lemma val_chain_of_mul : forall t r, val (TMul ((true, t) :: r)) = val (chain_mul t r).
  Proof.
    intros t r. rewrite val_mul, chain_mul_val. cbn [vals map mul_val fst snd]. fold (vals r).
    destruct (val t), (mul_val (vals r)); reflexivity.
  Qed.

  Lemma val_chain_of_div : forall t r, val (TMul ((false, t) :: r)) = val (chain_mul (TInt 1) ((false, t) :: r)).
  Proof.
    intros t r. rewrite val_mul, chain_mul_val. change (val (TInt 1)) with (Some (fZ (F := F) 1)).
    destruct (mul_val (vals ((false, t) :: r))); [|reflexivity]. cbn [omul]. f_equal. cbn [fZ fnat Pos.to_nat Pos.iter_op].
    change (Pos.to_nat 1) with 1%nat. cbn [fnat]. ring.
  Qed.

  Lemma val_neg_int : forall z, val (TInt (- z)) = match val (TInt z) with Some v => Some (- v) | None => None end.
  Proof. intro z. unfold val. cbn [meaning eval]. f_equal. destruct z; cbn [fZ Z.opp]; ring. Qed.
End Values.

Lemma same_refl : forall t, same_function t t.
Proof. intros t F sym flt fs rho _. reflexivity. Qed.

Lemma same_sum : forall ops ops', Forall2 (fun p q => fst p = fst q /\ same_function (snd p) (snd q)) ops ops' ->
  same_function (TSum ops) (TSum ops').
Proof.
  intros ops ops' H F sym flt fs rho Hp. fold (val sym flt fs rho (TSum ops)). fold (val sym flt fs rho (TSum ops')).
  rewrite !val_sum. f_equal. induction H as [|[b t] [b' t'] r r' [Hb Ht] _ IH]; [reflexivity|]. cbn in Hb, Ht. subst b'.
  cbn [vals map fst snd]. f_equal; [|exact IH]. f_equal. apply Ht. exact Hp.
Qed.

Lemma same_mul : forall ops ops', Forall2 (fun p q => fst p = fst q /\ same_function (snd p) (snd q)) ops ops' ->
  same_function (TMul ops) (TMul ops').
Proof.
  intros ops ops' H F sym flt fs rho Hp. fold (val sym flt fs rho (TMul ops)). fold (val sym flt fs rho (TMul ops')).
  rewrite !val_mul. f_equal. induction H as [|[b t] [b' t'] r r' [Hb Ht] _ IH]; [reflexivity|]. cbn in Hb, Ht. subst b'.
  cbn [vals map fst snd]. f_equal; [|exact IH]. f_equal. apply Ht. exact Hp.
Qed.

Lemma same_trans : forall a b c, same_function a b -> same_function b c -> same_function a c.
Proof. intros a b c H1 H2 F sym flt fs rho Hp. rewrite (H1 F sym flt fs rho Hp). apply H2. exact Hp. Qed.

Lemma sum_neg_one : forall (F : fld) (x : F), fopp x = fadd (fopp x) f0.
Proof. intros F x. pose proof (f_th F) as T. rewrite (Radd_comm (F_R T)). symmetry. apply (Radd_0_l (F_R T)). Qed.

Section ReadBack.
  Variable names : list text.
  Variable ilit : text -> option Z.
  Hypothesis Hnames : legal_names names.
  (** the conversion of a printed integer gives the integer *)
  Hypothesis Hilit : forall z, ilit (print_Z z) = Some z.

  Local Notation reads := (reads names ilit).

  (** the operands after the first, as printed *)
  Definition print_rest (plus minus : ascii) : list (bool * tree) -> text :=
    fix go (l : list (bool * tree)) : text :=
      match l with
      | [] => []
      | (sg, u) :: r => (if sg : bool then plus else minus) :: print u ++ go r
      end.

  Lemma print_sum : forall sg t r, print (TSum ((sg, t) :: r)) =
    "(" :: ((if sg : bool then [] else ["-"]) ++ print t ++ print_rest "+" "-" r) ++ [")"].
  Proof. reflexivity. Qed.

  Lemma print_mul : forall m t r, print (TMul ((m, t) :: r)) =
    "(" :: ((if m : bool then [] else txt "1/") ++ print t ++ print_rest "*" "/" r) ++ [")"].
  Proof. reflexivity. Qed.

  (** what is proved of each tree *)
  Definition reads_back (t : tree) : Prop :=
    exists u, same_function u t /\ reads (if is_neg t then RMinus else RPower) (print t) u.

  Lemma read_int : forall z, reads RAtom (print_Z z) (TInt z).
  Proof.
    intro z. destruct (print_Z_shape z) as (m & d & E & Hm & Hd & _).
    pose proof (r_integer names ilit [] m d z (Forall_nil _) Hm Hd) as H. rewrite <- E in H. apply H. apply Hilit.
  Qed.

  Lemma read_sums : forall ops s acc, Forall (fun p => reads_back (snd p)) ops -> negation_last ops ->
    reads RSum s acc ->
    exists ops', Forall2 (fun p q => fst p = fst q /\ same_function (snd p) (snd q)) ops' ops /\
      reads RWhole (s ++ print_rest "+" "-" ops) (chain_sum acc ops').
  Proof.
    induction ops as [|[b t] r IH]; intros s acc Hall Hlast Hs.
    - exists []. split; [constructor|]. cbn. rewrite app_nil_r. apply r_whole. exact Hs.
    - inversion Hall as [|? ? Ht Hr]; subst. cbn [snd] in Ht. destruct Ht as (u & Hu & Hrd).
      destruct r as [|p r].
      + exists [(b, u)]. split; [constructor; [split; [reflexivity|exact Hu]|constructor]|].
        cbn [print_rest chain_sum fold_left]. rewrite app_nil_r. destruct (is_neg t).
        * destruct b; [apply (r_plus_last names ilit s acc [] (print t) u)|apply (r_subtract_last names ilit s acc [] (print t) u)];
            (assumption || (apply Forall_nil)).
        * apply r_whole. destruct b; [apply (r_plus names ilit s acc [] (print t) u)|apply (r_subtract names ilit s acc [] (print t) u)];
            (assumption || (apply Forall_nil) || apply r_term; assumption).
      + cbn [negation_last] in Hlast. destruct Hlast as [Hn Hlast]. rewrite Hn in Hrd.
        assert (Hs' : reads RSum (s ++ (if b then "+" else "-") :: print t) (TSum [(true, acc); (b, u)])).
        { destruct b; [apply (r_plus names ilit s acc [] (print t) u)|apply (r_subtract names ilit s acc [] (print t) u)];
            (assumption || (apply Forall_nil) || apply r_term; assumption). }
        destruct (IH _ _ Hr Hlast Hs') as (ops' & Hops & Hrd').
        exists ((b, u) :: ops'). split; [constructor; [split; [reflexivity|exact Hu]|exact Hops]|].
        rewrite <- app_assoc in Hrd'. exact Hrd'.
  Qed.

  Lemma read_muls : forall ops s acc, Forall (fun p => reads_back (snd p)) ops -> negation_last ops ->
    reads RTerm s acc ->
    exists ops', Forall2 (fun p q => fst p = fst q /\ same_function (snd p) (snd q)) ops' ops /\
      reads RWhole (s ++ print_rest "*" "/" ops) (chain_mul acc ops').
  Proof.
    induction ops as [|[b t] r IH]; intros s acc Hall Hlast Hs.
    - exists []. split; [constructor|]. cbn. rewrite app_nil_r. apply r_whole, r_sum. exact Hs.
    - inversion Hall as [|? ? Ht Hr]; subst. cbn [snd] in Ht. destruct Ht as (u & Hu & Hrd).
      destruct r as [|p r].
      + exists [(b, u)]. split; [constructor; [split; [reflexivity|exact Hu]|constructor]|].
        cbn [print_rest chain_mul fold_left]. rewrite app_nil_r. destruct (is_neg t).
        * destruct b; [apply (r_times_last names ilit s acc [] (print t) u)|apply (r_divide_last names ilit s acc [] (print t) u)];
            (assumption || (apply Forall_nil)).
        * apply r_whole, r_sum. destruct b; [apply (r_times names ilit s acc [] (print t) u)|apply (r_divide names ilit s acc [] (print t) u)];
            (assumption || (apply Forall_nil)).
      + cbn [negation_last] in Hlast. destruct Hlast as [Hn Hlast]. rewrite Hn in Hrd.
        assert (Hs' : reads RTerm (s ++ (if b then "*" else "/") :: print t) (TMul [(true, acc); (b, u)])).
        { destruct b; [apply (r_times names ilit s acc [] (print t) u)|apply (r_divide names ilit s acc [] (print t) u)];
            (assumption || (apply Forall_nil)). }
        destruct (IH _ _ Hr Hlast Hs') as (ops' & Hops & Hrd').
        exists ((b, u) :: ops'). split; [constructor; [split; [reflexivity|exact Hu]|exact Hops]|].
        rewrite <- app_assoc in Hrd'. exact Hrd'.
  Qed.

  (** anything read back is read as a whole *)
  Lemma back_whole : forall t, reads_back t -> exists u, same_function u t /\ reads RWhole (print t) u.
  Proof.
    intros t (u & Hu & H). exists u. split; [exact Hu|]. destruct (is_neg t).
    - apply r_whole_minus. exact H.
    - apply r_whole, r_sum, r_term. exact H.
  Qed.

  Lemma in_parens : forall s t, reads RWhole s t -> reads RPower ("(" :: s ++ [")"]) t.
  Proof. intros s t H. apply r_atom. apply (r_paren names ilit [] s t []); (assumption || (apply Forall_nil)). Qed.

  Lemma print_no_literal : forall t, readable names t -> is_int t = false -> forall r, no_literal (print t ++ r).
  Proof.
    intros t Ht Hi r. destruct t as [z|s|n d|nm|ops|ops|t|t n|b e|k t]; try discriminate Hi.
    - destruct Ht. - destruct Ht.
    - cbn in Ht. unfold legal_names in Hnames. rewrite Forall_forall in Hnames. destruct (Hnames _ Ht) as (Hs & _).
      destruct nm as [|c nm]; [discriminate Hs|]. cbn in Hs. change (no_literal (c :: (nm ++ r))). unfold no_literal. cbn [starts].
      split; [|split].
      + destruct (is_digit c) eqn:E; [rewrite (digit_not_alpha _ E) in Hs; discriminate|reflexivity].
      + destruct (Ascii.eqb_spec "." c) as [<-|]; [discriminate Hs|reflexivity].
      + destruct (Ascii.eqb_spec c "-") as [->|]; [discriminate Hs|discriminate].
    - cbn [print app]. split; [reflexivity|]. split; [reflexivity|]. discriminate.
    - cbn [print app]. split; [reflexivity|]. split; [reflexivity|]. discriminate.
    - cbn [print app]. split; [reflexivity|]. split; [reflexivity|]. intros _. reflexivity.
    - cbn [print app]. split; [reflexivity|]. split; [reflexivity|]. discriminate.
    - cbn [print app]. split; [reflexivity|]. split; [reflexivity|]. discriminate.
    - destruct k; cbn [print print_fun txt list_ascii_of_string app]; (split; [reflexivity|split; [reflexivity|discriminate]]).
  Qed.

  Lemma readable_back : forall t, readable names t -> reads_back t.
  Proof.
    induction t as [z|s|n d|nm|ops IH|ops IH|t IH|t n IH|b e IHb IHe|k t IH] using tree_rect'; intro H.
    - exists (TInt z). split; [apply same_refl|]. apply r_atom, read_int.
    - destruct H.
    - destruct H.
    - exists (TSym nm). split; [apply same_refl|]. apply r_atom. apply (r_symbol names ilit [] nm); [constructor|exact H].
    - (* sums *)
      cbn [readable] in H. destruct H as (Hne & Hlast & Hfirst & Hall). apply readable_all in Hall.
      assert (Hback : Forall (fun p => reads_back (snd p)) ops).
      { rewrite Forall_forall in *. intros p Hp. apply IH; [exact Hp|]. apply Hall. exact Hp. }
      destruct ops as [|[b t] r]; [congruence|]. unfold reads_back. cbn [is_neg]. rewrite print_sum.
      inversion Hback as [|? ? Ht Hr]; subst. cbn [snd] in Ht.
      assert (Hlast' : negation_last r) by (destruct r as [|p r']; [exact I|apply Hlast]).
      destruct b; cbn [app].
      + destruct (is_neg t) eqn:En.
        * assert (r = []) as -> by (destruct r; [reflexivity|destruct Hlast; congruence]).
          cbn [print_rest]. rewrite app_nil_r. destruct (back_whole _ Ht) as (u & Hu & Hrd). exists u. split.
          { intros F sym flt fs rho Hp. rewrite (Hu F sym flt fs rho Hp).
            fold (val sym flt fs rho t). fold (val sym flt fs rho (TSum [(true, t)])).
            rewrite val_chain_of_sum by reflexivity. reflexivity. }
          apply in_parens. exact Hrd.
        * destruct Ht as (u & Hu & Hrd). rewrite En in Hrd.
          destruct (read_sums r (print t) u Hr Hlast' (r_sum _ _ _ _ (r_term _ _ _ _ Hrd))) as (ops' & Hops & Hw).
          exists (chain_sum u ops'). split; [|apply in_parens; exact Hw].
          apply same_trans with (TSum ((true, u) :: ops')).
          { intros F sym flt fs rho Hp. fold (val sym flt fs rho (TSum ((true, u) :: ops'))).
            rewrite val_chain_of_sum by reflexivity. reflexivity. }
          apply same_sum. constructor; [split; [reflexivity|exact Hu]|exact Hops].
      + destruct (is_int t) eqn:Ei.
        * destruct t as [z|s|n d|nm|ops0|ops0|t|t n|b e|k t]; try discriminate Ei. cbn [first_ok] in Hfirst.
          cbn [print]. change (["-"] ++ print_Z z ++ print_rest "+" "-" r) with (("-" :: print_Z z) ++ print_rest "+" "-" r).
          rewrite <- print_Z_opp by exact Hfirst.
          destruct (read_sums r (print_Z (- z)) (TInt (- z)) Hr Hlast'
                     (r_sum _ _ _ _ (r_term _ _ _ _ (r_atom _ _ _ _ (read_int (- z)))))) as (ops' & Hops & Hw).
          exists (chain_sum (TInt (- z)) ops'). split; [|apply in_parens; exact Hw].
          apply same_trans with (TSum ((false, TInt z) :: ops')).
          { intros F sym flt fs rho Hp. fold (val sym flt fs rho (TSum ((false, TInt z) :: ops'))).
            fold (val sym flt fs rho (chain_sum (TInt (- z)) ops')). rewrite chain_sum_val, val_sum.
            cbn [vals map sum_val fst snd]. fold (vals sym flt fs rho ops'). rewrite val_neg_int.
            destruct (val sym flt fs rho (TInt z)), (sum_val (vals sym flt fs rho ops')); reflexivity. }
          apply same_sum. constructor; [split; [reflexivity|apply same_refl]|exact Hops].
        * assert (r = []) as -> by (destruct t; (exact Hfirst || discriminate Ei)).
          cbn [print_rest]. rewrite app_nil_r. destruct (back_whole _ Ht) as (u & Hu & Hrd). exists (TNeg u). split.
          { intros F sym flt fs rho Hp. cbn [meaning eval]. rewrite (Hu F sym flt fs rho Hp).
            fold (val sym flt fs rho t). cbn [map sum_val fst snd]. fold (val sym flt fs rho t).
            destruct (val sym flt fs rho t); [|reflexivity]. f_equal.
            apply (sum_neg_one F). }
          apply in_parens. apply r_whole_minus. apply (r_minus names ilit [] (print t) u); [constructor| |exact Hrd].
          inversion Hall; subst. apply print_no_literal; assumption.
    - (* products *)
      cbn [readable] in H. destruct H as (Hne & Hlast & Hall). apply readable_all in Hall.
      assert (Hback : Forall (fun p => reads_back (snd p)) ops).
      { rewrite Forall_forall in *. intros p Hp. apply IH; [exact Hp|]. apply Hall. exact Hp. }
      destruct ops as [|[b t] r]; [congruence|]. unfold reads_back. cbn [is_neg]. rewrite print_mul.
      destruct b; cbn [app].
      + inversion Hback as [|? ? Ht Hr]; subst. cbn [snd] in Ht.
        assert (Hlast' : negation_last r) by (destruct r as [|p r']; [exact I|apply Hlast]).
        destruct (is_neg t) eqn:En.
        * assert (r = []) as -> by (destruct r; [reflexivity|destruct Hlast; congruence]).
          cbn [print_rest]. rewrite app_nil_r. destruct (back_whole _ Ht) as (u & Hu & Hrd). exists u. split.
          { intros F sym flt fs rho Hp. rewrite (Hu F sym flt fs rho Hp).
            fold (val sym flt fs rho t). fold (val sym flt fs rho (TMul [(true, t)])).
            rewrite val_chain_of_mul. reflexivity. }
          apply in_parens. exact Hrd.
        * destruct Ht as (u & Hu & Hrd). rewrite En in Hrd.
          destruct (read_muls r (print t) u Hr Hlast' (r_term _ _ _ _ Hrd)) as (ops' & Hops & Hw).
          exists (chain_mul u ops'). split; [|apply in_parens; exact Hw].
          apply same_trans with (TMul ((true, u) :: ops')).
          { intros F sym flt fs rho Hp. fold (val sym flt fs rho (TMul ((true, u) :: ops'))).
            rewrite val_chain_of_mul. reflexivity. }
          apply same_mul. constructor; [split; [reflexivity|exact Hu]|exact Hops].
      + destruct (read_muls ((false, t) :: r) (print_Z 1) (TInt 1) Hback Hlast (r_term _ _ _ _ (r_atom _ _ _ _ (read_int 1))))
          as (ops' & Hops & Hw).
        exists (chain_mul (TInt 1) ops'). split.
        * apply same_trans with (TMul ops'); [|apply same_mul; exact Hops].
          inversion Hops as [|[b' t'] ? ops'' ? [Hb _] _]; subst. cbn in Hb. subst b'.
          intros F sym flt fs rho Hp. fold (val sym flt fs rho (TMul ((false, t') :: ops''))).
          rewrite val_chain_of_div. reflexivity.
        * apply in_parens. exact Hw.
    - (* negation *)
      cbn [readable] in H. destruct (back_whole _ (IH H)) as (u & Hu & Hrd). exists (TNeg u). split.
      + intros F sym flt fs rho Hp. cbn [meaning eval]. rewrite (Hu F sym flt fs rho Hp). reflexivity.
      + cbn [is_neg print]. apply (r_minus names ilit [] ("(" :: print t ++ [")"]) u); [constructor| |].
        * intro r. split; [reflexivity|]. split; [reflexivity|]. discriminate.
        * apply r_whole, r_sum, r_term, in_parens. exact Hrd.
    - (* integer power *)
      cbn [readable] in H. destruct H as [Hn H]. destruct (IH H) as (u & Hu & Hrd). rewrite Hn in Hrd.
      exists (TPow u (TInt n)). split.
      + intros F sym flt fs rho Hp. cbn [meaning eval]. rewrite (Hu F sym flt fs rho Hp).
        destruct (eval fs rho (meaning sym flt t)); [apply Hp|reflexivity].
      + cbn [is_neg print]. replace (print t ++ "^" :: print_Z n ++ [")"]) with ((print t ++ "^" :: print_Z n) ++ [")"])
          by (rewrite <- app_assoc; reflexivity).
        apply in_parens. apply r_whole, r_sum, r_term.
        apply (r_power names ilit (print t) u [] (print_Z n) (TInt n)); [constructor|exact Hrd|apply read_int].
    - (* power *)
      cbn [readable] in H. destruct H as [Hb He]. destruct (back_whole _ (IHb Hb)) as (ub & Hub & Hrb).
      destruct (back_whole _ (IHe He)) as (ue & Hue & Hre). exists (TPow ub ue). split.
      + intros F sym flt fs rho Hp. cbn [meaning eval]. rewrite (Hub F sym flt fs rho Hp), (Hue F sym flt fs rho Hp). reflexivity.
      + cbn [is_neg print].
        replace ("(" :: print b ++ txt ")^(" ++ print e ++ [")"]) with (("(" :: print b ++ [")"]) ++ "^" :: ("(" :: print e ++ [")"]))
          by (cbn; rewrite <- app_assoc; reflexivity).
        apply (r_power names ilit ("(" :: print b ++ [")"]) ub [] ("(" :: print e ++ [")"]) ue); [constructor|apply in_parens; exact Hrb|].
        apply (r_paren names ilit [] (print e) ue []); (assumption || (apply Forall_nil)).
    - (* functions *)
      cbn [readable] in H. destruct H as [[f Hf] H]. destruct (back_whole _ (IH H)) as (u & Hu & Hrd).
      exists (TFun k u). split.
      + intros F sym flt fs rho Hp. cbn [meaning eval]. rewrite (Hu F sym flt fs rho Hp). reflexivity.
      + cbn [is_neg print]. apply r_atom.
        assert (Ek : print_fun k = f) by (destruct Hf; reflexivity). rewrite Ek.
        apply (r_function names ilit [] k f [] (print t) u []); (assumption || (apply Forall_nil) || apply function_keyword; assumption).
  Qed.

  Lemma print_parse : forall t, readable names t ->
    exists u, parse names ilit (print t) = Parsed u /\ same_function u t.
  Proof.
    intros t H. destruct (back_whole _ (readable_back t H)) as (u & Hu & Hrd). exists u. split; [|exact Hu].
    rewrite <- (app_nil_r (print t)). apply reads_parse; [apply legal_table, Hnames|exact Hrd|constructor].
  Qed.
End ReadBack.
