(** Saving function trees and systems to an archive and loading them.
    Models the serialize members of the node classes and of System.

    The archive is that of Boost.Serialization, an outside library, modelled as a list of tokens: a value is written as
    itself; a pointer to an object which the archive has not seen is written as the class of the object followed by its
    members, a pointer to one which it has seen as its number in the order of first occurrence (object tracking,
    function_tree.hpp:110-144).  Writing an object by a pointer to its base class needs the class to be exported, or
    registered with the archive; all but one of the node classes are registered when the first node is written, as
    every node writes its base class Node first (node.hpp:379-381).
    Simplifications: numbers are read back as written (multiple precision: C69); nested vectors of numbers are flat, with
    their sizes; a vector of pairs is two vectors. *)
From Coq Require Import List Arith Lia Bool ZArith Ascii.
From Verif Require Import Base Expr.
Import ListNotations.

(** the concrete node classes, forward_declares.hpp:91-121 *)
Inductive class :=
  | CInteger | CFloat | CRational | CPi | CE | CVariable | CDifferential | CSum | CMult | CNegate | CPower | CIntegerPower
  | CUnary (k : fun_kind) | CFunction | CJacobian | CLinearProduct | CDiffLinear.

(** forward_declares.hpp:91-121 *)
Definition registered (c : class) : bool := match c with CDiffLinear => false | _ => true end.

(** function_tree.hpp:76-103 and node.cpp:29-56 *)
Definition exported (c : class) : bool :=
  match c with CUnary KLog | CLinearProduct | CDiffLinear => false | _ => true end.

Definition ptr := option nat.

Section Archive.
  Context {F : fld}.

  (** A node with its members; pointers are addresses, or null. *)
  Inductive snode :=
    | NInteger (v : Z)
    | NFloat (v : F)
    | NRational (re im : F)
    | NPi (name : list ascii)
    | NE (name : list ascii)
    | NVariable (name : list ascii)
    | NDifferential (name : list ascii) (v : ptr)
    | NSum (ops : list ptr) (signs : list bool)
    | NMult (ops : list ptr) (flags : list bool)
    | NNegate (a : ptr)
    | NPower (b e : ptr)
    | NIntegerPower (a : ptr) (n : Z)
    | NUnary (k : fun_kind) (a : ptr)
    | NFunction (name : list ascii) (a : ptr)
    | NJacobian (name : list ascii) (a : ptr)
    | NLinearProduct (vars : list ptr) (hom : ptr) (coeffs : list (list F))
    | NDiffLinear (vars : list ptr) (hom : ptr) (coeffs : list F).

  Definition class_of (n : snode) : class :=
    match n with
    | NInteger _ => CInteger | NFloat _ => CFloat | NRational _ _ => CRational | NPi _ => CPi | NE _ => CE
    | NVariable _ => CVariable | NDifferential _ _ => CDifferential | NSum _ _ => CSum | NMult _ _ => CMult
    | NNegate _ => CNegate | NPower _ _ => CPower | NIntegerPower _ _ => CIntegerPower | NUnary k _ => CUnary k
    | NFunction _ _ => CFunction | NJacobian _ _ => CJacobian | NLinearProduct _ _ _ => CLinearProduct
    | NDiffLinear _ _ _ => CDiffLinear
    end.

  (** What the operator & of an archive is given *)
  Inductive field :=
    | FText (s : list ascii)
    | FInt (z : Z)
    | FInts (l : list Z)
    | FNum (v : F)
    | FNums (l : list F)
    | FBool (b : bool)
    | FBools (l : list bool)
    | FPtr (p : ptr)
    | FPtrs (l : list ptr)
    | FGroups (l : list (list ptr)).
  Inductive ftype := TText | TInt | TInts | TNum | TNums | TBool | TBools | TPtr | TPtrs | TGroups.
  Definition type_of (f : field) : ftype :=
    match f with
    | FText _ => TText | FInt _ => TInt | FInts _ => TInts | FNum _ => TNum | FNums _ => TNums | FBool _ => TBool
    | FBools _ => TBools | FPtr _ => TPtr | FPtrs _ => TPtrs | FGroups _ => TGroups
    end.

  (** The serialize members, writing: number.hpp:230-233, 306-309, 415-419; special_number.hpp:99-102, 149-152;
      symbol.hpp:123-126; variable.hpp:161-163; differential.hpp:147-164 (save and load are not used: the macro which
      would use them is commented out, so that serialize of the base class NamedSymbol is called);
      arithmetic.hpp:244-247, 344-346, 510-513, 660-664, 802-805, 889-891, 965-967, 1031-1033; trig.hpp:77-79 and so on;
      operator.hpp:152-155, 216-219; function.hpp:184-187, 264-266; jacobian.hpp:121-123;
      linear_product.hpp:730-732, 1097-1099. *)
  Definition fields (n : snode) : list field :=
    match n with
    | NInteger v => [FInt v]
    | NFloat v => [FNum v]
    | NRational re im => [FNum re; FNum im]
    | NPi name | NE name | NVariable name | NDifferential name _ => [FText name]
    | NSum ops l | NMult ops l => [FPtrs ops; FBools l]
    | NNegate a | NUnary _ a => [FPtr a]
    | NPower b e => [FPtr b; FPtr e]
    | NIntegerPower a z => [FPtr a; FInt z]
    | NFunction name a | NJacobian name a => [FText name; FPtr a]
    | NLinearProduct _ _ _ => []
    | NDiffLinear _ _ _ => []
    end.

  (** The same members, as what reading expects. *)
  Definition shape (c : class) : list ftype :=
    match c with
    | CInteger => [TInt]
    | CFloat => [TNum]
    | CRational => [TNum; TNum]
    | CPi | CE | CVariable | CDifferential => [TText]
    | CSum | CMult => [TPtrs; TBools]
    | CNegate | CUnary _ => [TPtr]
    | CPower => [TPtr; TPtr]
    | CIntegerPower => [TPtr; TInt]
    | CFunction | CJacobian => [TText; TPtr]
    | CLinearProduct | CDiffLinear => []
    end.

  (** Reading: a default constructed node (differential.hpp:142, linear_product.hpp:598: null pointers) whose members
      are assigned *)
  Definition construct (c : class) (l : list field) : option snode :=
    match c, l with
    | CInteger, [FInt v] => Some (NInteger v)
    | CFloat, [FNum v] => Some (NFloat v)
    | CRational, [FNum re; FNum im] => Some (NRational re im)
    | CPi, [FText s] => Some (NPi s)
    | CE, [FText s] => Some (NE s)
    | CVariable, [FText s] => Some (NVariable s)
    | CDifferential, [FText s] => Some (NDifferential s None)
    | CSum, [FPtrs ops; FBools b] => Some (NSum ops b)
    | CMult, [FPtrs ops; FBools b] => Some (NMult ops b)
    | CNegate, [FPtr a] => Some (NNegate a)
    | CUnary k, [FPtr a] => Some (NUnary k a)
    | CPower, [FPtr b; FPtr e] => Some (NPower b e)
    | CIntegerPower, [FPtr a; FInt z] => Some (NIntegerPower a z)
    | CFunction, [FText s; FPtr a] => Some (NFunction s a)
    | CJacobian, [FText s; FPtr a] => Some (NJacobian s a)
    | CLinearProduct, [] => Some (NLinearProduct [] None [])
    | CDiffLinear, [] => Some (NDiffLinear [] None [])
    | _, _ => None
    end.

  Definition graph := list snode.

  Inductive token :=
    | KText (s : list ascii)
    | KInt (z : Z)
    | KInts (l : list Z)
    | KNum (v : F)
    | KNums (l : list F)
    | KBool (b : bool)
    | KBools (l : list bool)
    | KCount (n : nat)
    | KNull
    | KNew (c : class)
    | KOld (i : nat).

  Inductive result (A : Type) :=
    | Ok (a : A)
    | Unregistered                    (* the archive throws: unregistered class *)
    | Dangling.                       (* a pointer to nothing, or a cycle *)
  Arguments Ok {A} _.
  Arguments Unregistered {A}.
  Arguments Dangling {A}.

  Fixpoint index (a : nat) (l : list nat) : option nat :=
    match l with
    | [] => None
    | b :: r => if a =? b then Some 0 else option_map S (index a r)
    end.

  (** The first node must be of an exported class; after that all are registered which ever are. *)
  Definition allowed (c : class) (count : nat) : bool := exported c || (negb (count =? 0) && registered c).

  Section Save.
    Context (G : graph).

    Section Lists.
      Variable f : list nat -> ptr -> result (list token * list nat).
      Fixpoint save_ptrs (seen : list nat) (l : list ptr) : result (list token * list nat) :=
        match l with
        | [] => Ok ([], seen)
        | p :: r =>
            match f seen p with
            | Ok (ts, seen1) =>
                match save_ptrs seen1 r with
                | Ok (ts', seen2) => Ok (ts ++ ts', seen2)
                | e => e
                end
            | e => e
            end
        end.
      Definition save_vector (seen : list nat) (l : list ptr) : result (list token * list nat) :=
        match save_ptrs seen l with
        | Ok (ts, seen') => Ok (KCount (length l) :: ts, seen')
        | e => e
        end.
      Fixpoint save_vectors (seen : list nat) (l : list (list ptr)) : result (list token * list nat) :=
        match l with
        | [] => Ok ([], seen)
        | v :: r =>
            match save_vector seen v with
            | Ok (ts, seen1) =>
                match save_vectors seen1 r with
                | Ok (ts', seen2) => Ok (ts ++ ts', seen2)
                | e => e
                end
            | e => e
            end
        end.
      Definition save_field (seen : list nat) (x : field) : result (list token * list nat) :=
        match x with
        | FText s => Ok ([KText s], seen)
        | FInt z => Ok ([KInt z], seen)
        | FInts l => Ok ([KInts l], seen)
        | FNum v => Ok ([KNum v], seen)
        | FNums l => Ok ([KNums l], seen)
        | FBool b => Ok ([KBool b], seen)
        | FBools l => Ok ([KBools l], seen)
        | FPtr p => f seen p
        | FPtrs l => save_vector seen l
        | FGroups l =>
            match save_vectors seen l with
            | Ok (ts, seen') => Ok (KCount (length l) :: ts, seen')
            | e => e
            end
        end.
      Fixpoint save_fields (seen : list nat) (l : list field) : result (list token * list nat) :=
        match l with
        | [] => Ok ([], seen)
        | x :: r =>
            match save_field seen x with
            | Ok (ts, seen1) =>
                match save_fields seen1 r with
                | Ok (ts', seen2) => Ok (ts ++ ts', seen2)
                | e => e
                end
            | e => e
            end
        end.
    End Lists.

    (** A pointer; [seen] are the objects written so far, in order. *)
    Fixpoint save_ptr (fuel : nat) (seen : list nat) (p : ptr) : result (list token * list nat) :=
      match p with
      | None => Ok ([KNull], seen)
      | Some a =>
          match index a seen with
          | Some i => Ok ([KOld i], seen)
          | None =>
              match fuel, nth_error G a with
              | S k, Some n =>
                  if allowed (class_of n) (length seen) then
                    match save_fields (save_ptr k) (seen ++ [a]) (fields n) with
                    | Ok (ts, seen') => Ok (KNew (class_of n) :: ts, seen')
                    | e => e
                    end
                  else Unregistered
              | _, _ => Dangling
              end
          end
      end.

    (** A new archive *)
    Definition save (l : list field) : result (list token * list nat) := save_fields (save_ptr (S (length G))) [] l.
  End Save.

  (** The objects made by loading, with their numbers *)
  Definition heap := list (nat * snode).
  Definition lookup (h : heap) (i : nat) : option snode :=
    option_map snd (find (fun e => fst e =? i) h).

  Definition lstate := (list token * nat * heap)%type.

  Section LoadLists.
    Variable g : lstate -> option (ptr * lstate).
    Fixpoint load_ptrs (n : nat) (s : lstate) : option (list ptr * lstate) :=
      match n with
      | 0 => Some ([], s)
      | S n =>
          match g s with
          | Some (p, s1) =>
              match load_ptrs n s1 with
              | Some (l, s2) => Some (p :: l, s2)
              | None => None
              end
          | None => None
          end
      end.
    Definition load_vector (s : lstate) : option (list ptr * lstate) :=
      match s with
      | (KCount n :: ts, next, h) => load_ptrs n (ts, next, h)
      | _ => None
      end.
    Fixpoint load_vectors (n : nat) (s : lstate) : option (list (list ptr) * lstate) :=
      match n with
      | 0 => Some ([], s)
      | S n =>
          match load_vector s with
          | Some (v, s1) =>
              match load_vectors n s1 with
              | Some (l, s2) => Some (v :: l, s2)
              | None => None
              end
          | None => None
          end
      end.
    Definition load_field (t : ftype) (s : lstate) : option (field * lstate) :=
      match t, s with
      | TText, (KText v :: ts, next, h) => Some (FText v, (ts, next, h))
      | TInt, (KInt v :: ts, next, h) => Some (FInt v, (ts, next, h))
      | TInts, (KInts v :: ts, next, h) => Some (FInts v, (ts, next, h))
      | TNum, (KNum v :: ts, next, h) => Some (FNum v, (ts, next, h))
      | TNums, (KNums v :: ts, next, h) => Some (FNums v, (ts, next, h))
      | TBool, (KBool v :: ts, next, h) => Some (FBool v, (ts, next, h))
      | TBools, (KBools v :: ts, next, h) => Some (FBools v, (ts, next, h))
      | TPtr, s => match g s with Some (p, s') => Some (FPtr p, s') | None => None end
      | TPtrs, s => match load_vector s with Some (l, s') => Some (FPtrs l, s') | None => None end
      | TGroups, (KCount n :: ts, next, h) =>
          match load_vectors n (ts, next, h) with Some (l, s') => Some (FGroups l, s') | None => None end
      | _, _ => None
      end.
    Fixpoint load_fields (l : list ftype) (s : lstate) : option (list field * lstate) :=
      match l with
      | [] => Some ([], s)
      | t :: r =>
          match load_field t s with
          | Some (x, s1) =>
              match load_fields r s1 with
              | Some (xs, s2) => Some (x :: xs, s2)
              | None => None
              end
          | None => None
          end
      end.
  End LoadLists.

  Fixpoint load_ptr (fuel : nat) (s : lstate) : option (ptr * lstate) :=
    match s with
    | (KNull :: ts, next, h) => Some (None, (ts, next, h))
    | (KOld i :: ts, next, h) => if i <? next then Some (Some i, (ts, next, h)) else None
    | (KNew c :: ts, next, h) =>
        match fuel with
        | 0 => None
        | S k =>
            if allowed c next then
              match load_fields (load_ptr k) (shape c) (ts, S next, h) with
              | Some (l, (ts', next', h')) =>
                  match construct c l with
                  | Some n => Some (Some next, (ts', next', (next, n) :: h'))
                  | None => None
                  end
              | None => None
              end
            else None
        end
    | _ => None
    end.

  (** Loading variables of the given types from an archive: their contents and the objects made *)
  Definition load (types : list ftype) (ts : list token) : option (list field * heap) :=
    match load_fields (load_ptr (length ts)) types (ts, 0, []) with
    | Some (l, (_, _, h)) => Some (l, h)
    | None => None
    end.

  (** Specification. *)

  Definition number_of (seen : list nat) (a : nat) : nat := match index a seen with Some i => i | None => 0 end.

  (** Pointers replaced *)
  Definition move_field (s : nat -> nat) (x : field) : field :=
    match x with
    | FPtr p => FPtr (option_map s p)
    | FPtrs l => FPtrs (map (option_map s) l)
    | FGroups l => FGroups (map (map (option_map s)) l)
    | x => x
    end.
  Definition move (s : nat -> nat) (n : snode) : snode :=
    match n with
    | NDifferential name v => NDifferential name (option_map s v)
    | NSum ops l => NSum (map (option_map s) ops) l
    | NMult ops l => NMult (map (option_map s) ops) l
    | NNegate a => NNegate (option_map s a)
    | NPower b e => NPower (option_map s b) (option_map s e)
    | NIntegerPower a z => NIntegerPower (option_map s a) z
    | NUnary k a => NUnary k (option_map s a)
    | NFunction name a => NFunction name (option_map s a)
    | NJacobian name a => NJacobian name (option_map s a)
    | NLinearProduct vs h c => NLinearProduct (map (option_map s) vs) (option_map s h) c
    | NDiffLinear vs h c => NDiffLinear (map (option_map s) vs) (option_map s h) c
    | n => n
    end.

  (** What becomes of a node *)
  Definition remains (n : snode) : snode :=
    match n with
    | NDifferential name _ => NDifferential name None
    | NLinearProduct _ _ _ => NLinearProduct [] None []
    | NDiffLinear _ _ _ => NDiffLinear [] None []
    | n => n
    end.

  Definition pointers (x : field) : list nat :=
    let addresses l := flat_map (fun p : ptr => match p with Some a => [a] | None => [] end) l in
    match x with
    | FPtr p => addresses [p]
    | FPtrs l => addresses l
    | FGroups l => addresses (concat l)
    | _ => []
    end.
  Definition node_pointers (n : snode) : list nat := flat_map pointers (fields n).

  (** Every pointer is to a node further down. *)
  Definition well_formed (G : graph) : Prop :=
    forall a n b, nth_error G a = Some n -> In b (node_pointers n) -> b < a.

  Lemma type_fields n : map type_of (fields n) = shape (class_of n).
  Proof. now destruct n. Qed.

  Lemma construct_moved s n : construct (class_of n) (map (move_field s) (fields n)) = Some (move s (remains n)).
  Proof. now destruct n. Qed.

  Lemma index_some a l i : index a l = Some i -> nth_error l i = Some a.
  Proof.
    revert i. induction l as [|b l IH]; intros i; cbn; [discriminate|]. destruct (a =? b) eqn:E.
    - intros H. injection H as <-. apply Nat.eqb_eq in E. now subst.
    - destruct (index a l); [|discriminate]. cbn. intros H. injection H as <-. cbn. now apply IH.
  Qed.

  Lemma index_none a l : index a l = None <-> ~ In a l.
  Proof.
    induction l as [|b l IH]; cbn; [tauto|]. destruct (a =? b) eqn:E.
    - apply Nat.eqb_eq in E. subst. split; [discriminate|]. intros H. exfalso. apply H. now left.
    - apply Nat.eqb_neq in E. destruct (index a l); cbn.
      + split; [discriminate|]. intros H. exfalso. destruct IH as [_ IH]. discriminate IH. tauto.
      + split; [|reflexivity]. intros _ [H|H]; [congruence|]. apply (proj1 IH eq_refl H).
  Qed.

  Lemma index_in a l : In a l -> exists i, index a l = Some i.
  Proof. intros H. destruct (index a l) as [i|] eqn:E; [now exists i|]. apply index_none in E. contradiction. Qed.

  Lemma index_app a l l' : In a l -> index a (l ++ l') = index a l.
  Proof.
    induction l as [|b l IH]; cbn; [tauto|]. intros [->|H]; [now rewrite Nat.eqb_refl|].
    destruct (a =? b); [reflexivity|]. now rewrite IH.
  Qed.

  Lemma index_last a l l' : ~ In a l -> index a (l ++ a :: l') = Some (length l).
  Proof.
    induction l as [|b l IH]; cbn; intros H; [now rewrite Nat.eqb_refl|].
    destruct (a =? b) eqn:E; [apply Nat.eqb_eq in E; subst; tauto|]. rewrite IH by tauto. reflexivity.
  Qed.

  Lemma number_nth l a : In a l -> nth_error l (number_of l a) = Some a.
  Proof. intros H. unfold number_of. destruct (index_in a l H) as [i E]. rewrite E. now apply index_some. Qed.

  Lemma number_app l l' a : In a l -> number_of (l ++ l') a = number_of l a.
  Proof. intros H. unfold number_of. now rewrite index_app. Qed.

  Lemma option_map_ext (s s' : nat -> nat) (p : ptr) :
    (forall a, p = Some a -> s a = s' a) -> option_map s p = option_map s' p.
  Proof. destruct p; cbn; [|reflexivity]. intros H. now rewrite (H n). Qed.

  Lemma in_addresses a (l : list ptr) : In a (flat_map (fun p : ptr => match p with Some a => [a] | None => [] end) l) <-> In (Some a) l.
  Proof.
    rewrite in_flat_map. split.
    - intros (p & H & K). destruct p; [|contradiction]. destruct K as [->|[]]. exact H.
    - intros H. exists (Some a). split; [exact H|now left].
  Qed.

  Lemma map_ptr_ext (s s' : nat -> nat) (l : list ptr) :
    (forall a, In (Some a) l -> s a = s' a) -> map (option_map s) l = map (option_map s') l.
  Proof. intros H. apply map_ext_in. intros p I. apply option_map_ext. intros a ->. now apply H. Qed.

  Lemma move_field_ext (s s' : nat -> nat) x : (forall a, In a (pointers x) -> s a = s' a) -> move_field s x = move_field s' x.
  Proof.
    destruct x; cbn; intros H; try reflexivity.
    - f_equal. apply option_map_ext. intros a ->. apply H. now left.
    - f_equal. apply map_ptr_ext. intros a I. apply H. now apply in_addresses.
    - f_equal. apply map_ext_in. intros v I. apply map_ptr_ext. intros a J. apply H. apply in_addresses.
      apply in_concat. now exists v.
  Qed.

  Lemma move_remains_ext (s s' : nat -> nat) n : (forall a, In a (node_pointers n) -> s a = s' a) ->
    move s (remains n) = move s' (remains n).
  Proof.
    intros H.
    assert (E : map (move_field s) (fields n) = map (move_field s') (fields n)).
    { apply map_ext_in. intros x I. apply move_field_ext. intros a J. apply H. apply in_flat_map. now exists x. }
    pose proof (construct_moved s n) as A. pose proof (construct_moved s' n) as B. rewrite E, B in A. congruence.
  Qed.

  Section Proof.
    Context (G : graph).

    (** Writing took [seen] to [seen'], and reading made the nodes [h]. *)
    Definition grows (seen seen' : list nat) (h : heap) : Prop :=
      (exists more, seen' = seen ++ more) /\ NoDup seen' /\
      (forall a, In a seen' -> In a seen \/ exists n, nth_error G a = Some n /\
         (forall b, In b (node_pointers n) -> In b seen') /\
         In (number_of seen' a, move (number_of seen') (remains n)) h) /\
      (forall i n', In (i, n') h -> exists a n, nth_error seen' i = Some a /\ ~ In a seen /\ nth_error G a = Some n /\
         (forall b, In b (node_pointers n) -> In b seen') /\ n' = move (number_of seen') (remains n)).

    Lemma grows_refl seen : NoDup seen -> grows seen seen [].
    Proof.
      intros H. split; [exists []; now rewrite app_nil_r|]. split; [exact H|]. split; [now left|]. intros i n' [].
    Qed.

    Lemma grows_trans s1 s2 s3 h1 h2 : grows s1 s2 h1 -> grows s2 s3 h2 -> grows s1 s3 (h2 ++ h1).
    Proof.
      intros ((m1 & E1) & N1 & A1 & B1) ((m2 & E2) & N2 & A2 & B2).
      split; [exists (m1 ++ m2); rewrite app_assoc; congruence|]. split; [exact N2|].
      assert (St : forall n, (forall b, In b (node_pointers n) -> In b s2) ->
        move (number_of s3) (remains n) = move (number_of s2) (remains n)).
      { intros n H. apply move_remains_ext. intros a I. rewrite E2. apply number_app. now apply H. }
      assert (Sub : forall b, In b s2 -> In b s3) by (intros b I; rewrite E2; apply in_or_app; now left).
      split.
      - intros a I. destruct (A2 a I) as [I2|(n & Gn & P & H)].
        + destruct (A1 a I2) as [I1|(n & Gn & P & H)]; [now left|]. right. exists n. split; [exact Gn|].
          split; [auto|]. apply in_or_app. right. rewrite (St n P). rewrite E2, number_app by exact I2. exact H.
        + right. exists n. split; [exact Gn|]. split; [exact P|]. apply in_or_app. now left.
      - intros i n' I. apply in_app_or in I. destruct I as [I|I].
        + destruct (B2 i n' I) as (a & n & X & Y & Z). exists a, n. split; [exact X|]. split; [|exact Z].
          intros K. apply Y. rewrite E1. apply in_or_app. now left.
        + destruct (B1 i n' I) as (a & n & X & Y & Gn & P & ->). exists a, n.
          split; [rewrite E2; rewrite nth_error_app1; [exact X|]; apply nth_error_Some; congruence|].
          split; [exact Y|]. split; [exact Gn|]. split; [auto|]. symmetry. now apply St.
    Qed.

    Lemma grows_sub seen seen' h a : grows seen seen' h -> In a seen -> In a seen'.
    Proof. intros ((m & E) & _) I. rewrite E. apply in_or_app. now left. Qed.

    Lemma grows_number seen seen' h a : grows seen seen' h -> In a seen -> number_of seen' a = number_of seen a.
    Proof. intros ((m & E) & _) I. rewrite E. now apply number_app. Qed.

    Lemma grows_nodup seen seen' h : grows seen seen' h -> NoDup seen'.
    Proof. now intros (_ & H & _). Qed.

    (** Reading [g] undoes writing [f] for pieces up to some length. *)
    Definition undoes (bound : nat) (f : list nat -> ptr -> result (list token * list nat)) (g : lstate -> option (ptr * lstate)) : Prop :=
      forall seen p ts seen', f seen p = Ok (ts, seen') -> NoDup seen -> length ts <= bound ->
      exists h', grows seen seen' h' /\ (forall a, p = Some a -> In a seen') /\
        forall rest h, g (ts ++ rest, length seen, h) = Some (option_map (number_of seen') p, (rest, length seen', h' ++ h)).

    Lemma undo_ptrs bound f g : undoes bound f g -> forall l seen ts seen',
      save_ptrs f seen l = Ok (ts, seen') -> NoDup seen -> length ts <= bound ->
      exists h', grows seen seen' h' /\ (forall a, In (Some a) l -> In a seen') /\
        forall rest h, load_ptrs g (length l) (ts ++ rest, length seen, h) =
          Some (map (option_map (number_of seen')) l, (rest, length seen', h' ++ h)).
    Proof.
      intros U. induction l as [|p l IH]; intros seen ts seen' S N L; cbn in S.
      - injection S as <- <-. exists []. split; [now apply grows_refl|]. split; [intros a []|]. reflexivity.
      - destruct (f seen p) as [[t1 s1]| |] eqn:E1; try discriminate S.
        destruct (save_ptrs f s1 l) as [[t2 s2]| |] eqn:E2; try discriminate S. injection S as <- <-.
        rewrite app_length in L.
        destruct (U seen p t1 s1 E1 N) as (h1 & G1 & P1 & L1); [lia|].
        destruct (IH s1 t2 s2 E2 (grows_nodup _ _ _ G1)) as (h2 & G2 & P2 & L2); [lia|].
        exists (h2 ++ h1). split; [eapply grows_trans; eauto|]. split.
        + intros a [->|I]; [|now apply P2]. eapply grows_sub; [exact G2|]. now apply P1.
        + intros rest h. cbn. rewrite <- app_assoc, L1, L2, <- app_assoc. f_equal. f_equal. f_equal.
          apply option_map_ext. intros a ->. symmetry. eapply grows_number; [exact G2|]. now apply P1.
    Qed.

    Lemma undo_vector bound f g : undoes bound f g -> forall l seen ts seen',
      save_vector f seen l = Ok (ts, seen') -> NoDup seen -> length ts <= bound ->
      exists h', grows seen seen' h' /\ (forall a, In (Some a) l -> In a seen') /\
        forall rest h, load_vector g (ts ++ rest, length seen, h) =
          Some (map (option_map (number_of seen')) l, (rest, length seen', h' ++ h)).
    Proof.
      intros U l seen ts seen' S N L. unfold save_vector in S.
      destruct (save_ptrs f seen l) as [[t s]| |] eqn:E; try discriminate S. injection S as <- <-. cbn in L.
      destruct (undo_ptrs bound f g U l seen t s E N) as (h' & A & B & C); [lia|].
      exists h'. split; [exact A|]. split; [exact B|]. intros rest h. cbn. apply C.
    Qed.

    Lemma undo_vectors bound f g : undoes bound f g -> forall l seen ts seen',
      save_vectors f seen l = Ok (ts, seen') -> NoDup seen -> length ts <= bound ->
      exists h', grows seen seen' h' /\ (forall a, In (Some a) (concat l) -> In a seen') /\
        forall rest h, load_vectors g (length l) (ts ++ rest, length seen, h) =
          Some (map (map (option_map (number_of seen'))) l, (rest, length seen', h' ++ h)).
    Proof.
      intros U. induction l as [|p l IH]; intros seen ts seen' S N L; cbn in S.
      - injection S as <- <-. exists []. split; [now apply grows_refl|]. split; [intros a []|]. reflexivity.
      - destruct (save_vector f seen p) as [[t1 s1]| |] eqn:E1; try discriminate S.
        destruct (save_vectors f s1 l) as [[t2 s2]| |] eqn:E2; try discriminate S. injection S as <- <-.
        rewrite app_length in L.
        destruct (undo_vector bound f g U p seen t1 s1 E1 N) as (h1 & G1 & P1 & L1); [lia|].
        destruct (IH s1 t2 s2 E2 (grows_nodup _ _ _ G1)) as (h2 & G2 & P2 & L2); [lia|].
        exists (h2 ++ h1). split; [eapply grows_trans; eauto|]. split.
        + intros a I. cbn in I. apply in_app_or in I. destruct I as [I|I]; [|now apply P2].
          eapply grows_sub; [exact G2|]. now apply P1.
        + intros rest h. cbn [load_vectors length]. rewrite <- app_assoc, L1, L2, <- app_assoc. cbn. f_equal. f_equal. f_equal.
          apply map_ptr_ext. intros a I. symmetry. eapply grows_number; [exact G2|]. now apply P1.
    Qed.

    Lemma undo_field bound f g : undoes bound f g -> forall x seen ts seen',
      save_field f seen x = Ok (ts, seen') -> NoDup seen -> length ts <= bound ->
      exists h', grows seen seen' h' /\ (forall a, In a (pointers x) -> In a seen') /\
        forall rest h, load_field g (type_of x) (ts ++ rest, length seen, h) =
          Some (move_field (number_of seen') x, (rest, length seen', h' ++ h)).
    Proof.
      intros U x seen ts seen' S N L.
      destruct x; cbn in S;
        try (injection S as <- <-; exists []; split; [now apply grows_refl|]; split; [intros a []|]; reflexivity).
      - destruct (U seen p ts seen' S N L) as (h' & A & B & C). exists h'. split; [exact A|]. split.
        + intros a I. cbn in I. destruct p; [|contradiction]. destruct I as [->|[]]. now apply B.
        + intros rest h. cbn. now rewrite C.
      - destruct (undo_vector bound f g U l seen ts seen' S N L) as (h' & A & B & C). exists h'. split; [exact A|]. split.
        + intros a I. apply B. now apply in_addresses.
        + intros rest h. specialize (C rest h). cbn [load_field type_of]. now rewrite C.
      - destruct (save_vectors f seen l) as [[t s]| |] eqn:E; try discriminate S. injection S as <- <-. cbn in L.
        destruct (undo_vectors bound f g U l seen t s E N) as (h' & A & B & C); [lia|]. exists h'. split; [exact A|]. split.
        + intros a I. apply B. now apply in_addresses.
        + intros rest h. specialize (C rest h). cbn. now rewrite C.
    Qed.

    Lemma undo_fields bound f g : undoes bound f g -> forall l seen ts seen',
      save_fields f seen l = Ok (ts, seen') -> NoDup seen -> length ts <= bound ->
      exists h', grows seen seen' h' /\ (forall x a, In x l -> In a (pointers x) -> In a seen') /\
        forall rest h, load_fields g (map type_of l) (ts ++ rest, length seen, h) =
          Some (map (move_field (number_of seen')) l, (rest, length seen', h' ++ h)).
    Proof.
      intros U. induction l as [|x l IH]; intros seen ts seen' S N L; cbn in S.
      - injection S as <- <-. exists []. split; [now apply grows_refl|]. split; [intros x a []|]. reflexivity.
      - destruct (save_field f seen x) as [[t1 s1]| |] eqn:E1; try discriminate S.
        destruct (save_fields f s1 l) as [[t2 s2]| |] eqn:E2; try discriminate S. injection S as <- <-.
        rewrite app_length in L.
        destruct (undo_field bound f g U x seen t1 s1 E1 N) as (h1 & G1 & P1 & L1); [lia|].
        destruct (IH s1 t2 s2 E2 (grows_nodup _ _ _ G1)) as (h2 & G2 & P2 & L2); [lia|].
        exists (h2 ++ h1). split; [eapply grows_trans; eauto|]. split.
        + intros y a [<-|I] J; [|now apply (P2 y)]. eapply grows_sub; [exact G2|]. now apply P1.
        + intros rest h. cbn [load_fields map]. rewrite <- app_assoc, L1, L2, <- app_assoc. f_equal. f_equal. f_equal.
          apply move_field_ext. intros a I. symmetry. eapply grows_number; [exact G2|]. now apply P1.
    Qed.

    Lemma undo_ptr : forall k fuel, undoes fuel (save_ptr G k) (load_ptr fuel).
    Proof.
      induction k as [|k IH]; intros fuel seen p ts seen' S N L; destruct p as [a|]; cbn in S.
      1, 3: destruct (index a seen) as [i|] eqn:Ix.
      - injection S as <- <-. exists []. split; [now apply grows_refl|]. apply index_some in Ix as Nx. split.
        + intros b H. injection H as <-. eapply nth_error_In; eauto.
        + intros rest h. assert (Lt : i < length seen) by (apply nth_error_Some; congruence).
          apply Nat.ltb_lt in Lt. destruct fuel; cbn [load_ptr app option_map]; unfold number_of; rewrite Lt, Ix; reflexivity.
      - discriminate S.
      - injection S as <- <-. exists []. split; [now apply grows_refl|]. apply index_some in Ix as Nx. split.
        + intros b H. injection H as <-. eapply nth_error_In; eauto.
        + intros rest h. assert (Lt : i < length seen) by (apply nth_error_Some; congruence).
          apply Nat.ltb_lt in Lt. destruct fuel; cbn [load_ptr app option_map]; unfold number_of; rewrite Lt, Ix; reflexivity.
      - destruct (nth_error G a) as [n|] eqn:Gn; [|discriminate S].
        destruct (allowed (class_of n) (length seen)) eqn:Al; [|discriminate S].
        destruct (save_fields (save_ptr G k) (seen ++ [a]) (fields n)) as [[t s]| |] eqn:E; try discriminate S.
        injection S as <- <-. destruct fuel as [|fuel]; [cbn in L; lia|]. cbn in L.
        apply index_none in Ix.
        assert (N' : NoDup (seen ++ [a])).
        { apply NoDup_rev in N. rewrite <- (rev_involutive (seen ++ [a])). apply NoDup_rev. rewrite rev_app_distr. cbn.
          constructor; [|exact N]. now rewrite <- in_rev. }
        destruct (undo_fields fuel _ _ (IH fuel) (fields n) (seen ++ [a]) t s E N') as (h1 & G1 & P1 & L1); [lia|].
        destruct G1 as ((m & Em) & Nd & A & B).
        assert (Ia : In a s) by (rewrite Em; apply in_or_app; left; apply in_or_app; right; now left).
        assert (Pn : forall b, In b (node_pointers n) -> In b s).
        { intros b I. unfold node_pointers in I. apply in_flat_map in I. destruct I as (x & I & J). now apply (P1 x). }
        assert (Na : number_of s a = length seen).
        { unfold number_of. rewrite Em, <- app_assoc. cbn. now rewrite index_last. }
        exists ((length seen, move (number_of s) (remains n)) :: h1). split; [|split].
        + split; [exists (a :: m); rewrite Em, <- app_assoc; reflexivity|]. split; [exact Nd|]. split.
          * intros b I. destruct (A b I) as [I'|(n' & X & Y & Z)].
            -- apply in_app_or in I'. destruct I' as [I'|[<-|[]]]; [now left|]. right. exists n. split; [exact Gn|].
               split; [exact Pn|]. left. now rewrite Na.
            -- right. exists n'. split; [exact X|]. split; [exact Y|]. now right.
          * intros i n' [Q|Q].
            -- injection Q as <- <-. exists a, n. split; [rewrite <- Na; now apply number_nth|]. split; [exact Ix|].
               split; [exact Gn|]. split; [exact Pn|reflexivity].
            -- destruct (B i n' Q) as (b & n0 & X & Y & Z). exists b, n0. split; [exact X|]. split; [|exact Z].
               intros K. apply Y. apply in_or_app. now left.
        + intros b H. injection H as <-. exact Ia.
        + intros rest h. cbn [load_ptr app]. rewrite Al, <- type_fields.
          replace (S (length seen)) with (length (seen ++ [a])) by (rewrite app_length; cbn; lia).
          rewrite L1, construct_moved. cbn. now rewrite Na.
      - injection S as <- <-. exists []. split; [now apply grows_refl|]. split; [discriminate|]. intros rest h.
        destruct fuel; reflexivity.
      - injection S as <- <-. exists []. split; [now apply grows_refl|]. split; [discriminate|]. intros rest h.
        destruct fuel; reflexivity.
    Qed.

    (** What was written is read back, up to what nodes do not write. *)
    Lemma round_trip l ts seen : save G l = Ok (ts, seen) ->
      exists h, load (map type_of l) ts = Some (map (move_field (number_of seen)) l, h) /\ NoDup seen /\
        (forall x a, In x l -> In a (pointers x) -> In a seen) /\
        forall a, In a seen -> exists n, nth_error G a = Some n /\ (forall b, In b (node_pointers n) -> In b seen) /\
          lookup h (number_of seen a) = Some (move (number_of seen) (remains n)).
    Proof.
      intros S. unfold save in S.
      destruct (undo_fields (length ts) _ _ (undo_ptr (Datatypes.S (length G)) (length ts)) l [] ts seen S) as (h & (_ & Nd & A & B) & P & L);
        [constructor|apply le_n|].
      exists h. split; [|split; [exact Nd|split; [exact P|]]].
      - unfold load. specialize (L [] []). rewrite !app_nil_r in L. cbn [length] in L.
        match goal with |- match ?x with _ => _ end = _ =>
          assert (E : x = Some (map (move_field (number_of seen)) l, ([], length seen, h))) by exact L end.
        now rewrite E.
      - intros a I. destruct (A a I) as [[]|(n & Gn & Pn & H)]. exists n. split; [exact Gn|]. split; [exact Pn|].
        unfold lookup. destruct (find (fun e => fst e =? number_of seen a) h) as [[i n']|] eqn:E.
        + apply find_some in E. destruct E as [E1 E2]. cbn in E2. apply Nat.eqb_eq in E2. subst i. cbn.
          destruct (B _ _ E1) as (b & n0 & X & _ & Gb & _ & ->). rewrite number_nth in X by exact I. congruence.
        + exfalso. eapply find_none in E; [|exact H]. cbn in E. rewrite Nat.eqb_refl in E. discriminate.
    Qed.

    (** Numbers of different objects differ: sharing is kept. *)
    Lemma number_inj seen a b : In a seen -> In b seen -> number_of seen a = number_of seen b -> a = b.
    Proof. intros I J E. apply number_nth in I, J. congruence. Qed.

    (** Writing succeeds if pointers are good, and the class of the first node is exported. *)
    Definition addresses (l : list ptr) : list nat := flat_map (fun p : ptr => match p with Some a => [a] | None => [] end) l.

    Section Ok.
      Variable E : nat -> Prop.                   (* nodes which may come first *)
      Definition starts (seen : list nat) (roots : list nat) : Prop :=
        0 < length seen \/ forall a, hd_error roots = Some a -> E a.
      Definition advances (seen seen' : list nat) (roots : list nat) : Prop :=
        length seen <= length seen' /\ (roots <> [] -> 0 < length seen').
      Definition works (f : list nat -> ptr -> result (list token * list nat)) (good : nat -> Prop) : Prop :=
        forall p seen, (forall a, p = Some a -> good a) -> starts seen (addresses [p]) ->
          exists ts seen', f seen p = Ok (ts, seen') /\ advances seen seen' (addresses [p]).

      Lemma starts_next seen seen' r1 r2 : starts seen (r1 ++ r2) -> advances seen seen' r1 -> starts seen' r2.
      Proof.
        intros [S|S] (L & P); [left; lia|]. destruct r1 as [|a r1]; [right; exact S|]. left. apply P. discriminate.
      Qed.

      Lemma starts_first seen r1 r2 : starts seen (r1 ++ r2) -> starts seen r1.
      Proof.
        intros [S|S]; [now left|]. right. intros a H. apply S. destruct r1; [discriminate|exact H].
      Qed.

      Lemma advances_trans s1 s2 s3 r1 r2 : advances s1 s2 r1 -> advances s2 s3 r2 -> advances s1 s3 (r1 ++ r2).
      Proof.
        intros (L1 & P1) (L2 & P2). split; [lia|]. intros H. destruct r1 as [|a r1]; [now apply P2|].
        assert (0 < length s2) by (apply P1; discriminate). lia.
      Qed.

      Lemma ok_ptrs f good : works f good -> forall l seen, (forall a, In a (addresses l) -> good a) -> starts seen (addresses l) ->
        exists ts seen', save_ptrs f seen l = Ok (ts, seen') /\ advances seen seen' (addresses l).
      Proof.
        intros W. induction l as [|p l IH]; intros seen Gd S; cbn [save_ptrs].
        - exists [], seen. split; [reflexivity|]. split; [lia|]. now intros [].
        - assert (Ea : addresses (p :: l) = addresses [p] ++ addresses l) by (unfold addresses; cbn; now rewrite app_nil_r).
          rewrite Ea in *.
          destruct (W p seen) as (t1 & s1 & E1 & A1).
          { intros a ->. apply Gd. cbn. now left. }
          { eapply starts_first; exact S. }
          destruct (IH s1) as (t2 & s2 & E2 & A2).
          { intros a I. apply Gd. apply in_or_app. now right. }
          { eapply starts_next; eauto. }
          rewrite E1, E2. exists (t1 ++ t2), s2. split; [reflexivity|]. eapply advances_trans; eauto.
      Qed.

      Lemma addresses_app l l' : addresses (l ++ l') = addresses l ++ addresses l'.
      Proof. unfold addresses. apply flat_map_app. Qed.

      Lemma ok_vectors f good : works f good -> forall l seen, (forall a, In a (addresses (concat l)) -> good a) ->
        starts seen (addresses (concat l)) ->
        exists ts seen', save_vectors f seen l = Ok (ts, seen') /\ advances seen seen' (addresses (concat l)).
      Proof.
        intros W. induction l as [|v l IH]; intros seen Gd S; cbn [save_vectors].
        - exists [], seen. split; [reflexivity|]. split; [lia|]. now intros [].
        - cbn [concat] in *. rewrite addresses_app in *. unfold save_vector.
          destruct (ok_ptrs f good W v seen) as (t1 & s1 & E1 & A1).
          { intros a I. apply Gd. apply in_or_app. now left. }
          { eapply starts_first; exact S. }
          destruct (IH s1) as (t2 & s2 & E2 & A2).
          { intros a I. apply Gd. apply in_or_app. now right. }
          { eapply starts_next; eauto. }
          rewrite E1, E2. eexists _, s2. split; [reflexivity|]. eapply advances_trans; eauto.
      Qed.

      Lemma ok_fields f good : works f good -> forall l seen, (forall a, In a (flat_map pointers l) -> good a) ->
        starts seen (flat_map pointers l) ->
        exists ts seen', save_fields f seen l = Ok (ts, seen') /\ advances seen seen' (flat_map pointers l).
      Proof.
        intros W. induction l as [|x l IH]; intros seen Gd S; cbn [save_fields].
        - exists [], seen. split; [reflexivity|]. split; [lia|]. now intros [].
        - cbn [flat_map] in *.
          assert (X : exists t1 s1, save_field f seen x = Ok (t1, s1) /\ advances seen s1 (pointers x)).
          { assert (Gx : forall a, In a (pointers x) -> good a) by (intros a I; apply Gd; apply in_or_app; now left).
            assert (Sx : starts seen (pointers x)) by (eapply starts_first; exact S).
            destruct x; cbn [save_field]; try (eexists _, seen; split; [reflexivity|]; split; [lia|now intros []]).
            - apply W; [|exact Sx]. intros a ->. apply Gx. now left.
            - unfold save_vector. destruct (ok_ptrs f good W l0 seen Gx Sx) as (t & s & E0 & A0). rewrite E0.
              eexists _, s. split; [reflexivity|exact A0].
            - destruct (ok_vectors f good W l0 seen Gx Sx) as (t & s & E0 & A0). rewrite E0.
              eexists _, s. split; [reflexivity|exact A0]. }
          destruct X as (t1 & s1 & E1 & A1). rewrite E1.
          destruct (IH s1) as (t2 & s2 & E2 & A2).
          { intros a I. apply Gd. apply in_or_app. now right. }
          { eapply starts_next; eauto. }
          rewrite E2. exists (t1 ++ t2), s2. split; [reflexivity|]. eapply advances_trans; eauto.
      Qed.
    End Ok.

    Definition may_start (a : nat) : Prop := forall n, nth_error G a = Some n -> exported (class_of n) = true.

    Lemma ok_ptr : well_formed G -> (forall n, In n G -> registered (class_of n) = true) -> forall k,
      works may_start (save_ptr G k) (fun a => a < length G /\ a < k).
    Proof.
      intros W R. induction k as [|k IH]; intros [a|] seen Gd S.
      - destruct (Gd a eq_refl). lia.
      - exists [KNull], seen. split; [reflexivity|]. split; [lia|now intros []].
      - destruct (Gd a eq_refl) as [La Lk]. cbn [save_ptr]. cbn in S.
        destruct (index a seen) as [i|] eqn:Ix.
        + eexists _, seen. split; [reflexivity|]. split; [lia|]. intros _. apply index_some in Ix.
          destruct seen; [destruct i; discriminate|cbn; lia].
        + destruct (nth_error G a) as [n|] eqn:Gn; [|apply nth_error_None in Gn; lia].
          assert (Al : allowed (class_of n) (length seen) = true).
          { unfold allowed. destruct S as [C|C]; [|now rewrite (C a eq_refl n Gn)].
            rewrite (R n) by (eapply nth_error_In; eauto). destruct (length seen); [lia|]. cbn. now rewrite orb_true_r. }
          rewrite Al.
          destruct (ok_fields may_start (save_ptr G k) _ IH (fields n) (seen ++ [a])) as (t & s & E0 & L & P).
          * intros b I. pose proof (W a n b Gn I). lia.
          * left. rewrite app_length. cbn. lia.
          * rewrite E0. rewrite app_length in L. cbn in L. eexists _, s. split; [reflexivity|]. split; [lia|]. intros _. lia.
      - exists [KNull], seen. split; [reflexivity|]. split; [lia|now intros []].
    Qed.

    Lemma save_ok l : well_formed G -> (forall n, In n G -> registered (class_of n) = true) ->
      (forall a, hd_error (flat_map pointers l) = Some a -> may_start a) ->
      (forall b, In b (flat_map pointers l) -> b < length G) ->
      exists ts seen, save G l = Ok (ts, seen).
    Proof.
      intros W R X B. unfold save.
      destruct (ok_fields may_start _ _ (ok_ptr W R (S (length G))) l []) as (t & s & E0 & _).
      - intros a I. specialize (B a I). lia.
      - now right.
      - now exists t, s.
    Qed.
  End Proof.
End Archive.
Arguments snode : clear implicits.
Arguments field : clear implicits.
Arguments Ok {A} _.
Arguments Unregistered {A}.
Arguments Dangling {A}.
