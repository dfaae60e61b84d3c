(** Start points given by the user.
    Models core/include/bertini2/system/start/user.hpp:64-157, core/src/system/start/user.cpp:35-86 and
    core/include/bertini2/system/start_base.hpp:54-75. *)
From Coq Require Import List Arith Lia Bool.
From Verif Require Import PatchPrecision.
Import ListNotations.

Section UserStart.
  (** [D]: double precision complex numbers; [V]: values of multiprecision ones; [S]: systems *)
  Context {D V S : Type} (to_mp : nat -> D -> @mpnum V) (to_dbl : @mpnum V -> D).

  (** user.hpp:112-114; the reference to the user's system is only used for saving *)
  Record user := mkU {
    user_system : S;
    in_dbl : bool;
    dpoints : list (list D);
    mpoints : list (list (@mpnum V))
  }.

  (** user.cpp:35-43 *)
  Definition make_dbl (s : S) (pts : list (list D)) : user := mkU s true pts [].
  Definition make_mp (s : S) (pts : list (list (@mpnum V))) : user := mkU s false [] pts.

  (** user.cpp:46-52 *)
  Definition num_points (u : user) : nat := if in_dbl u then length (dpoints u) else length (mpoints u).

  (** user.cpp:56-69; [None]: an index out of range, which is undefined behaviour *)
  Definition point_dbl (u : user) (i : nat) : option (list D) :=
    if in_dbl u then nth_error (dpoints u) i
    else match nth_error (mpoints u) i with Some r => Some (map to_dbl r) | None => None end.

  (** user.cpp:72-86; [d] is the default precision *)
  Definition point_mp (d : nat) (u : user) (i : nat) : option (list (@mpnum V)) :=
    if in_dbl u then match nth_error (dpoints u) i with Some r => Some (map (to_mp d) r) | None => None end
    else nth_error (mpoints u) i.

  (** ** Saving and restoring, user.hpp:107-110 and 120-156
      An archive is a list of values of known kind; reading a value of another kind fails (in a text
      archive it may also be misread).  A container is its length, then its points; a point is its
      length, then its coordinates. *)
  Inductive item := ISys (s : S) | IBool (b : bool) | ICount (n : nat) | IDbl (x : D) | IMp (x : @mpnum V).

  Definition put_points {A} (mk : A -> item) (l : list (list A)) : list item :=
    ICount (length l) :: flat_map (fun p => ICount (length p) :: map mk p) l.

  (** user.hpp:120-131, then [serialize], user.hpp:107-110: the base system ([base u], a System no constructor fills) *)
  Definition save (base : S) (u : user) : list item :=
    ISys (user_system u) :: IBool (in_dbl u) ::
    put_points IDbl (dpoints u) ++ put_points IMp (mpoints u) ++ [ISys base].

  Fixpoint get_coords {A} (get : item -> option A) (n : nat) (l : list item) : option (list A * list item) :=
    match n with
    | 0 => Some ([], l)
    | Datatypes.S n => match l with
             | i :: r => match get i with
                         | Some x => match get_coords get n r with Some (xs, r') => Some (x :: xs, r') | None => None end
                         | None => None
                         end
             | [] => None
             end
    end.
  Fixpoint get_list {A} (get : item -> option A) (n : nat) (l : list item) : option (list (list A) * list item) :=
    match n with
    | 0 => Some ([], l)
    | Datatypes.S n => match l with
             | ICount k :: r =>
                 match get_coords get k r with
                 | Some (p, r1) => match get_list get n r1 with Some (ps, r2) => Some (p :: ps, r2) | None => None end
                 | None => None
                 end
             | _ => None
             end
    end.
  Definition get_points {A} (get : item -> option A) (l : list item) : option (list (list A) * list item) :=
    match l with ICount n :: r => get_list get n r | _ => None end.
  Definition as_dbl (i : item) : option D := match i with IDbl x => Some x | _ => None end.
  Definition as_mp (i : item) : option (@mpnum V) := match i with IMp x => Some x | _ => None end.

  (** user.hpp:133-156: one container is read; [rest] is what is left in the archive *)
  Definition load_construct (l : list item) : option (user * list item) :=
    match l with
    | ISys s :: IBool b :: r =>
        if b then match get_points as_dbl r with Some (pts, rest) => Some (make_dbl s pts, rest) | None => None end
        else match get_points as_mp r with Some (pts, rest) => Some (make_mp s pts, rest) | None => None end
    | _ => None
    end.
  (** then the base system is read from what is left *)
  Definition load (l : list item) : option (user * S * list item) :=
    match load_construct l with
    | Some (u, ISys base :: rest) => Some (u, base, rest)
    | _ => None
    end.

  (** ** Proofs *)
  Lemma get_coords_put {A} (mk : A -> item) get : (forall x, get (mk x) = Some x) ->
    forall p r, get_coords get (length p) (map mk p ++ r) = Some (p, r).
  Proof.
    intros H. induction p as [|x p IH]; intros r; [reflexivity|]. cbn [length map app get_coords].
    now rewrite H, IH.
  Qed.

  Lemma get_list_put {A} (mk : A -> item) get : (forall x, get (mk x) = Some x) ->
    forall l r, get_list get (length l) (flat_map (fun p => ICount (length p) :: map mk p) l ++ r) = Some (l, r).
  Proof.
    intros H. induction l as [|p l IH]; intros r; [reflexivity|]. cbn [length flat_map app get_list].
    rewrite <- app_assoc, (get_coords_put mk get H), IH. reflexivity.
  Qed.

  Lemma load_construct_dbl base s pts :
    load_construct (save base (make_dbl s pts)) = Some (make_dbl s pts, [ICount 0; ISys base]).
  Proof.
    unfold save, load_construct, make_dbl, put_points. cbn [user_system in_dbl dpoints mpoints app get_points].
    rewrite (get_list_put IDbl as_dbl (fun _ => eq_refl)). reflexivity.
  Qed.

  Lemma load_construct_mp base s pts :
    load_construct (save base (make_mp s pts)) = Some (make_mp s [], put_points IMp pts ++ [ISys base]).
  Proof. reflexivity. Qed.

  Lemma points_all {A} (l : list A) : map (nth_error l) (seq 0 (length l)) = map Some l.
  Proof.
    induction l as [|x l IH]; [reflexivity|]. cbn [length seq map nth_error]. f_equal.
    rewrite <- seq_shift, map_map. exact IH.
  Qed.
End UserStart.
