(** Linear slices and witness sets.

    Models core/include/bertini2/system/slice.hpp:58-332 and nag_datatypes/witness_set.hpp:73-233.

    A multiprecision number is its value with its precision (PatchPrecision.v); [rnd p v] is the value v becomes at p
    digits, [dbl v] at double precision, both arbitrary. Assigning one multiprecision number to another copies its
    precision (Boost's preserve_related_precision, and Bertini's DefaultPrecisionPolicy mpfr_complex.hpp:66). Matrices are
    lists of rows. The arithmetic of an evaluation is exact. Random numbers and the orthogonal factor of a matrix are
    arbitrary. *)
From Coq Require Import List Arith Lia Bool Ring Field.
From Verif Require Import Base PatchPrecision.
Import ListNotations.

Section Slice.
  Context {F : fld}.
  Add Field slice_field : (f_th F).
  Variable rnd : nat -> F -> F.
  Variable dbl : F -> F.
  Notation num := (mpnum (V := F)).

  (** slice.hpp:62-72, the members *)
  Record slice := mkSlice {
    coeff_high : list (list num);
    coeff_mp : list (list num);
    coeff_d : list (list F);
    const_high : list num;
    const_mp : list num;
    const_d : list F;
    num_vars : nat;           (* sliced_vars_.size() *)
    dims : nat;               (* num_dims_sliced_ *)
    reported_prec : nat;      (* precision_ *)
    homogeneous : bool
  }.

  Inductive made := Made (s : slice) | AssertionFailed.

  (** slice.hpp:242-313 Make, given the coefficients and constants generated (for an orthogonal slice, after the QR
      factorisation and the transposition), when the default precision is d; [asserts]: compiled with assertions. The
      constructor (slice.hpp:226-236) gives constants_highest_precision_ the size of the slice also in the homogeneous
      case, where slice.hpp:310 asserts that it is empty. *)
  Definition make (asserts : bool) (d : nat) (n k : nat) (hom : bool) (A : list (list num)) (b : list num) : made :=
    if asserts && hom && negb (k =? 0) then AssertionFailed else
    Made (mkSlice A A (map (map (fun c => dbl (val c))) A)
            b (if hom then [] else b) (if hom then [] else map (fun c => dbl (val c)) b)
            n k d hom).

  (** slice.hpp:249-275: the matrix the orthogonal factor Q (one row for each of max(k,n), one column for each of
      min(k,n)) is turned into *)
  Definition column {A : Type} (def : A) (Q : list (list A)) (j : nat) : list A := map (fun r => nth j r def) Q.
  Definition transpose {A : Type} (def : A) (m : nat) (Q : list (list A)) : list (list A) := map (column def Q) (seq 0 m).
  Definition orthogonal_coefficients {A : Type} (def : A) (n k : nat) (Q : list (list A)) : list (list A) :=
    if k <? n then transpose def k Q else Q.

  (** slice.hpp:159-183 Precision(new_precision) *)
  Definition renew (p old : nat) (hi c : num) : num := if old <? p then hi else set_prec rnd p c.
  Fixpoint map2 {A B D : Type} (f : A -> B -> D) (a : list A) (b : list B) : list D :=
    match a, b with x :: a', y :: b' => f x y :: map2 f a' b' | _, _ => [] end.
  Definition set_precision (p : nat) (s : slice) : slice :=
    if 16 <? p then
      mkSlice (coeff_high s) (map2 (map2 (renew p (reported_prec s))) (coeff_high s) (coeff_mp s)) (coeff_d s)
        (const_high s) (if homogeneous s then const_mp s else map2 (renew p (reported_prec s)) (const_high s) (const_mp s))
        (const_d s) (num_vars s) (dims s) p (homogeneous s)
    else
      mkSlice (coeff_high s) (coeff_mp s) (coeff_d s) (const_high s) (const_mp s) (const_d s) (num_vars s) (dims s) p
        (homogeneous s).

  (** Matrix times vector; None: sizes differ (an assertion of Eigen) *)
  Fixpoint dot (a x : list F) : F :=
    match a, x with c :: a', y :: x' => fadd (fmul c y) (dot a' x') | _, _ => f0 end.
  Definition times_vector (n : nat) (A : list (list F)) (x : list F) : option (list F) :=
    if length x =? n then Some (map (fun r => dot r x) A) else None.
  Definition plus_vector (a b : list F) : option (list F) :=
    if length a =? length b then Some (map2 fadd a b) else None.

  (** slice.hpp:99-118 Eval, in either number type *)
  Definition eval_with (s : slice) (A : list (list F)) (b : list F) (x : list F) : option (list F) :=
    match times_vector (num_vars s) A x with
    | None => None
    | Some y => if homogeneous s then Some y else plus_vector y b
    end.
  Definition eval_mp (s : slice) (x : list F) : option (list F) := eval_with s (map (map val) (coeff_mp s)) (map val (const_mp s)) x.
  Definition eval_d (s : slice) (x : list F) : option (list F) := eval_with s (coeff_d s) (const_d s) x.

  (** slice.hpp:124-137 Jacobian *)
  Definition jacobian_mp (s : slice) : list (list F) := map (map val) (coeff_mp s).
  Definition jacobian_d (s : slice) : list (list F) := coeff_d s.

  (** slice.hpp:320-329 serialize, writing; and reading into a default constructed slice (slice.hpp:208-221) *)
  Record archive := mkArchive {
    ar_prec : nat; ar_high : list (list num); ar_d : list (list F); ar_mp : list (list num); ar_vars : nat
  }.
  Definition save (s : slice) : archive := mkArchive (reported_prec s) (coeff_high s) (coeff_d s) (coeff_mp s) (num_vars s).
  Definition load (a : archive) : slice :=
    mkSlice (ar_high a) (ar_mp a) (ar_d a) [] [] [] (ar_vars a) 0 (ar_prec a) false.

  (** ** Proofs *)
  Definition shaped {A : Type} (k n : nat) (M : list (list A)) : Prop := length M = k /\ Forall (fun r => length r = n) M.

  Definition precisions (s : slice) (l : list nat) : slice := fold_left (fun s p => set_precision p s) l s.

  Lemma map2_length : forall (A B D : Type) (f : A -> B -> D) a b, length a = length b -> length (map2 f a b) = length a.
  Proof. intros A B D f. induction a as [|x a IH]; intros [|y b] H; cbn in *; try lia. rewrite IH; lia. Qed.

  Lemma map2_Forall2 : forall (A B D : Type) (P : A -> B -> Prop) (Q : A -> D -> Prop) f a b,
    (forall x y, P x y -> Q x (f x y)) -> Forall2 P a b -> Forall2 Q a (map2 f a b).
  Proof. intros A B D P Q f a b H R. induction R; cbn; constructor; auto. Qed.

  Lemma Forall2_self : forall (A : Type) (P : A -> A -> Prop) l, (forall x, In x l -> P x x) -> Forall2 P l l.
  Proof.
    intros A P. induction l as [|x l IH]; intro H; constructor; [apply H; left; reflexivity|]. apply IH. intros y Hy. apply H.
    right. exact Hy.
  Qed.

  (** the working number has at least the precision reported, and is the original rounded to its own precision *)
  Definition carries (p : nat) (hi c : num) : Prop := p <= prec c <= prec hi /\ (c = hi \/ val c = rnd (prec c) (val hi)).

  Hypothesis rnd_twice : forall p q v, p <= q -> rnd p (rnd q v) = rnd p v.

  Lemma carries_renew : forall p old hi c, p <= prec hi -> carries old hi c -> carries p hi (renew p old hi c).
  Proof.
    intros p old hi c Hp [[L1 L2] V]. unfold renew. destruct (Nat.ltb_spec old p) as [L|L].
    - split; [lia|left; reflexivity].
    - cbn [set_prec prec]. split; [cbn; lia|]. right. cbn [set_prec val prec]. destruct V as [->|V]; [reflexivity|].
      rewrite V. apply rnd_twice. lia.
  Qed.

  Lemma Forall2_weaken : forall (A B : Type) (P Q : A -> B -> Prop) a b, (forall x y, P x y -> Q x y) -> Forall2 P a b -> Forall2 Q a b.
  Proof. intros A B P Q a b H R. induction R; constructor; auto. Qed.

  Lemma Forall2_conj_l : forall (A B : Type) (P : A -> Prop) (Q : A -> B -> Prop) a b,
    Forall P a -> Forall2 Q a b -> Forall2 (fun x y => P x /\ Q x y) a b.
  Proof. intros A B P Q a b H R. induction R; constructor; inversion H; subst; auto. Qed.

  (** everything generated at precision M, at least 16 *)
  Definition generated (M : nat) (s : slice) : Prop :=
    Forall (Forall (fun c => prec c = M)) (coeff_high s) /\ Forall (fun c => prec c = M) (const_high s).

  Definition sound (s : slice) : Prop :=
    Forall2 (Forall2 (fun hi c => carries (reported_prec s) hi c /\ 16 < prec c)) (coeff_high s) (coeff_mp s) /\
    (if homogeneous s then const_mp s = []
     else Forall2 (fun hi c => carries (reported_prec s) hi c /\ 16 < prec c) (const_high s) (const_mp s)).

  Lemma renew_sound : forall M p old hi c, 16 < p -> p <= M -> prec hi = M -> carries old hi c /\ 16 < prec c ->
    carries p hi (renew p old hi c) /\ 16 < prec (renew p old hi c).
  Proof.
    intros M p old hi c H16 HM Hhi [Cc Pc]. split; [apply carries_renew; [lia|exact Cc]|].
    unfold renew. destruct (old <? p); cbn; lia.
  Qed.

  Lemma set_precision_sound : forall M p s, 16 < M -> p <= M -> generated M s -> sound s -> sound (set_precision p s).
  Proof.
    intros M p s H16 HM [GA Gb] [SA Sb]. unfold set_precision. destruct (Nat.ltb_spec 16 p) as [L|L]; split; cbn [coeff_high coeff_mp const_high const_mp reported_prec homogeneous].
    - eapply map2_Forall2; [|apply (Forall2_conj_l _ _ _ _ _ _ GA SA)].
      intros r r' [Gr Sr]. eapply map2_Forall2; [|apply (Forall2_conj_l _ _ _ _ _ _ Gr Sr)].
      intros hi c [Gh Sc]. exact (renew_sound M p (reported_prec s) hi c L HM Gh Sc).
    - destruct (homogeneous s); [exact Sb|]. eapply map2_Forall2; [|apply (Forall2_conj_l _ _ _ _ _ _ Gb Sb)].
      intros hi c [Gh Sc]. exact (renew_sound M p (reported_prec s) hi c L HM Gh Sc).
    - eapply Forall2_weaken; [|exact SA]. intros r r' R. eapply Forall2_weaken; [|exact R].
      intros hi c [Cc Pc]. split; [|exact Pc]. destruct Cc as [[L1 L2] V]. split; [lia|exact V].
    - destruct (homogeneous s); [exact Sb|]. eapply Forall2_weaken; [|exact Sb].
      intros hi c [Cc Pc]. split; [|exact Pc]. destruct Cc as [[L1 L2] V]. split; [lia|exact V].
  Qed.

  Lemma set_precision_fixed : forall p s, coeff_high (set_precision p s) = coeff_high s /\ const_high (set_precision p s) = const_high s /\
    coeff_d (set_precision p s) = coeff_d s /\ const_d (set_precision p s) = const_d s /\ num_vars (set_precision p s) = num_vars s /\
    dims (set_precision p s) = dims s /\ homogeneous (set_precision p s) = homogeneous s /\ reported_prec (set_precision p s) = p.
  Proof. intros p s. unfold set_precision. destruct (16 <? p); cbn; repeat split. Qed.

  Lemma precisions_fixed : forall l s, coeff_high (precisions s l) = coeff_high s /\ const_high (precisions s l) = const_high s /\
    coeff_d (precisions s l) = coeff_d s /\ const_d (precisions s l) = const_d s /\ num_vars (precisions s l) = num_vars s /\
    dims (precisions s l) = dims s /\ homogeneous (precisions s l) = homogeneous s.
  Proof.
    induction l as [|p l IH]; intro s; [cbn; repeat split|]. cbn [precisions fold_left]. fold (precisions (set_precision p s) l).
    destruct (IH (set_precision p s)) as [A [B [D [E [G [H I]]]]]]. destruct (set_precision_fixed p s) as [A' [B' [D' [E' [G' [H' [I' _]]]]]]].
    rewrite A, B, D, E, G, H, I. auto 10.
  Qed.

  Lemma precisions_sound : forall M l s, 16 < M -> Forall (fun p => p <= M) l -> generated M s -> sound s ->
    sound (precisions s l).
  Proof.
    intros M. induction l as [|p l IH]; intros s H16 HM G S; [exact S|]. inversion HM; subst.
    cbn [precisions fold_left]. fold (precisions (set_precision p s) l). apply IH; [exact H16|assumption| |].
    - destruct (set_precision_fixed p s) as [A [B _]]. unfold generated. rewrite A, B. exact G.
    - exact (set_precision_sound M p s H16 ltac:(assumption) G S).
  Qed.

  Lemma make_sound : forall asserts M d n k hom A b s, 16 < M -> d <= M ->
    Forall (Forall (fun c => prec c = M)) A -> Forall (fun c => prec c = M) b ->
    make asserts d n k hom A b = Made s -> generated M s /\ sound s.
  Proof.
    intros asserts M d n k hom A b s H16 Hd GA Gb E. unfold make in E. destruct (asserts && hom && negb (k =? 0)); [discriminate|].
    injection E as <-. split; [split; [exact GA|exact Gb]|].
    assert (One : forall c : num, prec c = M -> carries d c c /\ 16 < prec c).
    { intros c Hc. split; [split; [lia|left; reflexivity]|lia]. }
    split; cbn [coeff_high coeff_mp const_high const_mp reported_prec homogeneous].
    - apply Forall2_self. intros r Hr. apply Forall2_self. intros c Hc. apply One.
      rewrite Forall_forall in GA. specialize (GA r Hr). rewrite Forall_forall in GA. exact (GA c Hc).
    - destruct hom; [reflexivity|]. apply Forall2_self. intros c Hc. apply One. rewrite Forall_forall in Gb. exact (Gb c Hc).
  Qed.

  (** reading off the two theorems *)
  Lemma slice_digits : forall asserts M d n k hom A b s l, 16 < M -> d <= M ->
    Forall (Forall (fun c => prec c = M)) A -> Forall (fun c => prec c = M) b ->
    make asserts d n k hom A b = Made s -> Forall (fun p => p <= M) l ->
    let s' := precisions s l in
    Forall2 (Forall2 (carries (reported_prec s'))) A (coeff_mp s') /\
    (hom = false -> Forall2 (carries (reported_prec s')) b (const_mp s')) /\
    reported_prec s' = last l d.
  Proof.
    intros asserts M d n k hom A b s l H16 Hd GA Gb E Hl s'.
    destruct (make_sound _ _ _ _ _ _ _ _ _ H16 Hd GA Gb E) as [G S].
    destruct (precisions_sound M l s H16 Hl G S) as [SA Sb]. fold s' in SA, Sb.
    destruct (precisions_fixed l s) as [FA [Fb [_ [_ [_ [_ Fh]]]]]]. fold s' in FA, Fb, Fh.
    assert (EA : coeff_high s = A /\ const_high s = b /\ homogeneous s = hom /\ reported_prec s = d).
    { unfold make in E. destruct (asserts && hom && negb (k =? 0)); [discriminate|]. injection E as <-. cbn. auto. }
    destruct EA as [EA [Eb [Eh Er]]].
    split; [|split].
    - rewrite FA, EA in SA. eapply Forall2_weaken; [|exact SA]. intros r r' R. eapply Forall2_weaken; [|exact R]. intros x y [X _]. exact X.
    - intro Hh. rewrite Fh, Eh, Hh in Sb. rewrite Fb, Eb in Sb. eapply Forall2_weaken; [|exact Sb]. intros x y [X _]. exact X.
    - subst s'. clear - Er. rewrite <- Er. clear Er. revert s. induction l as [|p l IH]; intro s; [reflexivity|].
      cbn [precisions fold_left]. fold (precisions (set_precision p s) l). rewrite IH.
      destruct (set_precision_fixed p s) as [_ [_ [_ [_ [_ [_ [_ ->]]]]]]].
      assert (Dd : forall l (n : nat) a b, last (n :: l) a = last (n :: l) b).
      { clear. induction l as [|x l IH]; intros n a b; [reflexivity|]. cbn [last] in *. apply IH. }
      destruct l as [|q l]; [reflexivity|]. change (last (p :: q :: l) (reported_prec s)) with (last (q :: l) (reported_prec s)). apply Dd.
  Qed.

  (** ** Evaluation *)
  Definition nth_row {A : Type} (M : list (list A)) (i : nat) : list A := nth i M [].

  Lemma dot_add : forall a x y, length x = length y -> dot a (map2 fadd x y) = fadd (dot a x) (dot a y).
  Proof.
    induction a as [|c a IH]; intros [|u x] [|v y] H; cbn in *; try lia; try ring. rewrite IH by lia. ring.
  Qed.

  Lemma map2_nth : forall (a b : list F) i, length a = length b -> i < length a ->
    nth i (map2 fadd a b) f0 = fadd (nth i a f0) (nth i b f0).
  Proof. induction a as [|x a IH]; intros [|y b] [|i] H L; cbn in *; try lia; [reflexivity|]. apply IH; lia. Qed.

  Lemma eval_with_spec : forall s A b x, length A = length b -> length x = num_vars s ->
    exists y, eval_with s A b x = Some y /\ length y = length A /\
      forall i, i < length A -> nth i y f0 = fadd (dot (nth_row A i) x) (if homogeneous s then f0 else nth i b f0).
  Proof.
    intros s A b x Lb Lx. unfold eval_with, times_vector. rewrite Lx, Nat.eqb_refl.
    assert (Nm : forall i, i < length A -> nth i (map (fun r => dot r x) A) f0 = dot (nth_row A i) x).
    { intros i L. unfold nth_row. rewrite <- (map_nth (fun r => dot r x)).
      rewrite (nth_indep _ f0 (dot [] x)) by (rewrite map_length; exact L). reflexivity. }
    destruct (homogeneous s).
    - eexists. split; [reflexivity|]. split; [apply map_length|]. intros i L. rewrite Nm by exact L. ring.
    - unfold plus_vector. rewrite map_length, Lb, Nat.eqb_refl. eexists. split; [reflexivity|].
      split; [rewrite map2_length; rewrite map_length; lia|]. intros i L.
      rewrite map2_nth by (rewrite map_length; lia). rewrite Nm by lia. reflexivity.
  Qed.

  Lemma eval_with_homogeneous : forall s A b x, homogeneous s = true -> length x = num_vars s ->
    exists y, eval_with s A b x = Some y /\ length y = length A /\
      forall i, i < length A -> nth i y f0 = dot (nth_row A i) x.
  Proof.
    intros s A b x H Lx. unfold eval_with, times_vector. rewrite Lx, Nat.eqb_refl, H. eexists. split; [reflexivity|].
    split; [apply map_length|]. intros i L. unfold nth_row. rewrite <- (map_nth (fun r => dot r x)).
    rewrite (nth_indep _ f0 (dot [] x)) by (rewrite map_length; exact L). reflexivity.
  Qed.

  (** ** After construction and any changes of precision *)
  Lemma Forall2_len : forall (A B : Type) (R : A -> B -> Prop) a b, Forall2 R a b -> length a = length b.
  Proof. intros A B R a b H. induction H; cbn; congruence. Qed.

  Definition sized (s : slice) : Prop :=
    Forall2 (fun r r' => length r = length r') (coeff_high s) (coeff_mp s) /\
    (homogeneous s = false -> length (const_high s) = length (const_mp s)).

  Lemma sized_step : forall p s, sized s -> sized (set_precision p s).
  Proof.
    clear rnd_twice. intros p s [SA Sb]. unfold set_precision. destruct (16 <? p); split; cbn [coeff_high coeff_mp const_high const_mp homogeneous].
    - eapply map2_Forall2; [|exact SA]. intros r r' L. cbn beta in L. symmetry. apply map2_length. exact L.
    - intro Hh. rewrite Hh. specialize (Sb Hh). symmetry. apply map2_length. exact Sb.
    - exact SA.
    - exact Sb.
  Qed.

  Lemma sized_steps : forall l s, sized s -> sized (precisions s l).
  Proof.
    clear rnd_twice. induction l as [|p l IH]; intros s S; [exact S|]. cbn [precisions fold_left]. fold (precisions (set_precision p s) l).
    apply IH. apply sized_step. exact S.
  Qed.

  Lemma make_sized : forall asserts d n k hom A b s, make asserts d n k hom A b = Made s ->
    sized s /\ coeff_high s = A /\ const_high s = b /\ homogeneous s = hom /\ num_vars s = n /\ dims s = k /\
    coeff_d s = map (map (fun c => dbl (val c))) A /\ (hom = false -> const_d s = map (fun c => dbl (val c)) b).
  Proof.
    clear rnd_twice. intros asserts d n k hom A b s E. unfold make in E.
    destruct (asserts && hom && negb (k =? 0)); [discriminate|]. injection E as <-.
    split; [|cbn; repeat (split; [reflexivity|]); intros ->; reflexivity].
    split; cbn [coeff_high coeff_mp const_high const_mp homogeneous].
    - apply Forall2_self. reflexivity.
    - intros ->. reflexivity.
  Qed.

  Lemma eval_after : forall asserts d n k hom A b s l x, make asserts d n k hom A b = Made s ->
    length A = k -> length b = k -> length x = n ->
    let s' := precisions s l in
    (exists y, eval_mp s' x = Some y /\ length y = k /\
      forall i, i < k -> nth i y f0 = fadd (dot (nth_row (map (map val) (coeff_mp s')) i) x)
                                          (if hom then f0 else nth i (map val (const_mp s')) f0)) /\
    (exists y, eval_d s' x = Some y /\ length y = k /\
      forall i, i < k -> nth i y f0 = fadd (dot (nth_row (map (map (fun c => dbl (val c))) A) i) x)
                                          (if hom then f0 else nth i (map (fun c => dbl (val c)) b) f0)).
  Proof.
    clear rnd_twice. intros asserts d n k hom A b s l x E LA Lb Lx s'.
    destruct (make_sized _ _ _ _ _ _ _ _ E) as [S [EA [Eb [Eh [En [Ek [Ed Ec]]]]]]].
    pose proof (sized_steps l s S) as [SA Sb]. fold s' in SA, Sb.
    destruct (precisions_fixed l s) as [FA [Fb [Fd [Fc [Fn [_ Fh]]]]]]. fold s' in FA, Fb, Fd, Fc, Fn, Fh.
    assert (Hh : homogeneous s' = hom) by congruence. assert (Hn : length x = num_vars s') by congruence.
    assert (Lmp : length (coeff_mp s') = k) by (rewrite <- (Forall2_len _ _ _ _ _ SA); congruence).
    split.
    - unfold eval_mp. destruct hom.
      + destruct (eval_with_homogeneous s' (map (map val) (coeff_mp s')) (map val (const_mp s')) x Hh Hn) as [y [Ey [Ly Hy]]].
        rewrite map_length, Lmp in *. exists y. split; [exact Ey|]. split; [exact Ly|]. intros i L. rewrite Hy by exact L. ring.
      + destruct (eval_with_spec s' (map (map val) (coeff_mp s')) (map val (const_mp s')) x) as [y [Ey [Ly Hy]]].
        { rewrite !map_length, Lmp. rewrite <- (Sb Hh). congruence. } { exact Hn. }
        rewrite map_length, Lmp in *. exists y. split; [exact Ey|]. split; [exact Ly|]. rewrite Hh in Hy. exact Hy.
    - unfold eval_d. rewrite Fd, Ed. destruct hom.
      + destruct (eval_with_homogeneous s' (map (map (fun c => dbl (val c))) A) (const_d s') x Hh Hn) as [y [Ey [Ly Hy]]].
        rewrite map_length, LA in *. exists y. split; [exact Ey|]. split; [exact Ly|]. intros i L. rewrite Hy by exact L. ring.
      + rewrite Fc, (Ec eq_refl).
        destruct (eval_with_spec s' (map (map (fun c => dbl (val c))) A) (map (fun c => dbl (val c)) b) x) as [y [Ey [Ly Hy]]].
        { rewrite !map_length. congruence. } { exact Hn. }
        rewrite map_length, LA in *. exists y. split; [exact Ey|]. split; [exact Ly|]. rewrite Hh in Hy. exact Hy.
  Qed.

  (** Eval is affine with the Jacobian as its linear part *)
  Lemma eval_affine : forall s A b x h y z, length x = length h -> eval_with s A b x = Some y ->
    eval_with s A b (map2 fadd x h) = Some z ->
    length z = length y /\ forall i, i < length y -> nth i z f0 = fadd (nth i y f0) (dot (nth_row A i) h).
  Proof.
    clear rnd_twice. intros s A b x h y z Lh Ey Ez. unfold eval_with, times_vector in Ey, Ez.
    rewrite (map2_length _ _ _ fadd x h Lh) in Ez. destruct (length x =? num_vars s); [|discriminate].
    assert (Nm : forall i w, i < length A -> nth i (map (fun r => dot r w) A) f0 = dot (nth_row A i) w).
    { intros i w L. unfold nth_row. rewrite <- (map_nth (fun r => dot r w)).
      rewrite (nth_indep _ f0 (dot [] w)) by (rewrite map_length; exact L). reflexivity. }
    destruct (homogeneous s).
    - injection Ey as <-. injection Ez as <-. rewrite !map_length. split; [reflexivity|]. intros i L.
      rewrite !Nm by exact L. rewrite dot_add by exact Lh. ring.
    - unfold plus_vector in Ey, Ez. rewrite map_length in Ey, Ez. destruct (length A =? length b) eqn:El; [|discriminate].
      apply Nat.eqb_eq in El. injection Ey as <-. injection Ez as <-.
      rewrite !map2_length by (rewrite map_length; exact El). rewrite !map_length. split; [reflexivity|]. intros i L.
      rewrite !map2_nth by (rewrite map_length; lia). rewrite !Nm by exact L. rewrite dot_add by exact Lh. ring.
  Qed.

  (** ** Exact precision *)
  Lemma lower_exact : forall p s, sized s -> 16 < p -> p <= reported_prec s ->
    Forall (Forall (fun c => prec c = p)) (coeff_mp (set_precision p s)) /\
    (homogeneous s = false -> Forall (fun c => prec c = p) (const_mp (set_precision p s))).
  Proof.
    clear rnd_twice. intros p s [SA Sb] H16 Hp. unfold set_precision. destruct (Nat.ltb_spec 16 p) as [_|?]; [|lia].
    cbn [coeff_mp const_mp]. assert (One : forall hi c, prec (renew p (reported_prec s) hi c) = p).
    { intros hi c. unfold renew. destruct (Nat.ltb_spec (reported_prec s) p); [lia|]. reflexivity. }
    assert (Row : forall a b, Forall (fun c => prec c = p) (map2 (renew p (reported_prec s)) a b)).
    { induction a as [|x a IH]; intros [|y b]; cbn; constructor; auto. }
    split.
    - clear SA. generalize (coeff_high s). generalize (coeff_mp s). intros c hi. revert c.
      induction hi as [|r hi IH]; intros [|r' c]; cbn; constructor; auto.
    - intro Hh. rewrite Hh. apply Row.
  Qed.

  Lemma raise_exact : forall p s, sized s -> 16 < p -> reported_prec s < p ->
    coeff_mp (set_precision p s) = coeff_high s /\ (homogeneous s = false -> const_mp (set_precision p s) = const_high s).
  Proof.
    clear rnd_twice. intros p s [SA Sb] H16 Hp. unfold set_precision. destruct (Nat.ltb_spec 16 p) as [_|?]; [|lia].
    cbn [coeff_mp const_mp].
    assert (Row : forall a b : list num, length a = length b -> map2 (renew p (reported_prec s)) a b = a).
    { induction a as [|x a IH]; intros [|y b] L; cbn in *; try lia; [reflexivity|]. rewrite IH by lia. unfold renew.
      destruct (Nat.ltb_spec (reported_prec s) p); [reflexivity|lia]. }
    split.
    - clear Sb. induction SA as [|r r' hi c L _ IH]; cbn; [reflexivity|]. rewrite IH, Row by exact L. reflexivity.
    - intro Hh. rewrite Hh. apply Row. exact (Sb Hh).
  Qed.

  Lemma precision_step : forall asserts d n k hom A b s l p, make asserts d n k hom A b = Made s -> 16 < p ->
    let s' := precisions s l in
    let s'' := precisions s (l ++ [p]) in
    (p <= reported_prec s' -> Forall (Forall (fun c => prec c = p)) (coeff_mp s'') /\
       (hom = false -> Forall (fun c => prec c = p) (const_mp s''))) /\
    (reported_prec s' < p -> coeff_mp s'' = A /\ (hom = false -> const_mp s'' = b)).
  Proof.
    clear rnd_twice. intros asserts d n k hom A b s l p E H16 s' s''.
    destruct (make_sized _ _ _ _ _ _ _ _ E) as [S [EA [Eb [Eh _]]]].
    pose proof (sized_steps l s S) as S'. fold s' in S'.
    destruct (precisions_fixed l s) as [FA [Fb [_ [_ [_ [_ Fh]]]]]]. fold s' in FA, Fb, Fh.
    assert (E2 : s'' = set_precision p s') by (unfold s'', precisions; rewrite fold_left_app; reflexivity).
    rewrite E2. split; intro L.
    - destruct (lower_exact p s' S' H16 L) as [X Y]. split; [exact X|]. intro Hh. apply Y. congruence.
    - destruct (raise_exact p s' S' H16 L) as [X Y]. split; [congruence|]. intro Hh. rewrite Y by congruence. congruence.
  Qed.

  (** ** Archive *)
  Lemma load_broken : forall s x, 0 < length (coeff_mp s) -> dims (load (save s)) = 0 /\ eval_mp (load (save s)) x = None.
  Proof.
    clear rnd_twice. intros s x L. split; [reflexivity|]. unfold eval_mp, eval_with, load, save, times_vector. cbn [coeff_mp const_mp num_vars ar_mp ar_vars homogeneous].
    destruct (length x =? num_vars s); [|reflexivity]. unfold plus_vector. rewrite !map_length. cbn [length map].
    destruct (Nat.eqb_spec (length (coeff_mp s)) 0); [lia|reflexivity].
  Qed.

  (** ** Orthogonal slices *)
  Lemma transpose_entry : forall (A : Type) (def : A) m Q i j, i < m -> j < length Q ->
    nth j (nth i (transpose def m Q) []) def = nth i (nth j Q []) def.
  Proof.
    clear. intros A def m Q i j Hi Hj. unfold transpose.
    rewrite (nth_indep _ [] (column def Q 0)) by (rewrite map_length, seq_length; exact Hi).
    rewrite map_nth, seq_nth by exact Hi. cbn [Nat.add]. unfold column.
    rewrite (nth_indep _ def (nth i [] def)) by (rewrite map_length; exact Hj).
    rewrite (map_nth (fun r => nth i r def)). reflexivity.
  Qed.

  Lemma orthogonal_shape : forall (A : Type) (def : A) n k Q, shaped (Nat.max k n) (Nat.min k n) Q ->
    shaped k n (orthogonal_coefficients def n k Q) /\
    (k < n -> forall i, i < k -> nth_row (orthogonal_coefficients def n k Q) i = column def Q i) /\
    (n <= k -> orthogonal_coefficients def n k Q = Q).
  Proof.
    clear. intros A def n k Q [L W]. unfold orthogonal_coefficients. destruct (Nat.ltb_spec k n) as [H|H].
    - split; [split|split; [|lia]].
      + unfold transpose. rewrite map_length, seq_length. reflexivity.
      + apply Forall_forall. intros r Hr. unfold transpose in Hr. apply in_map_iff in Hr as [j [<- _]]. unfold column.
        rewrite map_length. lia.
      + intros _ i Hi. unfold nth_row, transpose.
        rewrite (nth_indep _ [] (column def Q 0)) by (rewrite map_length, seq_length; exact Hi).
        rewrite map_nth, seq_nth by exact Hi. reflexivity.
    - split; [split; [lia|]|split; [lia|reflexivity]]. eapply Forall_impl; [|exact W]. cbn. intros r Hr. lia.
  Qed.
End Slice.

(** ** Witness sets *)
Section Witness.
  Context {P : Type}.
  (** witness_set.hpp:80-84: the points; the slice and the system enter only by their sizes *)
  Inductive point_result := Point (p : P) | RuntimeError | UndefinedBehaviour.

  (** witness_set.hpp:160-170 GetPoint *)
  Definition get_point (points : list P) (i : nat) : point_result :=
    if length points <? i then RuntimeError
    else match nth_error points i with Some p => Point p | None => UndefinedBehaviour end.

  (** witness_set.hpp:132-145 AddPoint, SetPoints *)
  Inductive wop := AddPoint (p : P) | SetPoints (l : list P).
  Definition wstep (points : list P) (o : wop) : list P := match o with AddPoint p => points ++ [p] | SetPoints l => l end.
  Definition wrun (l : list wop) : list P := fold_left wstep l [].

  (** witness_set.hpp:227-230 IsConsistent: unsigned arithmetic with 2^w values. System has no member NumFunctions, so
      the function can be instantiated only for other types of systems. *)
  Definition is_consistent (w num_vars num_funs dim : nat) : bool :=
    ((num_vars + 2 ^ w - num_funs) mod 2 ^ w) =? dim.

  (** what the points are meant to be: the last set given, followed by the points added since *)
  Definition expected (l : list wop) : list P -> Prop := fun pts =>
    (exists before init after, l = before ++ SetPoints init :: map AddPoint after /\ pts = init ++ after) \/
    (exists after, l = map AddPoint after /\ pts = after).

  Lemma wrun_expected : forall l, expected l (wrun l).
  Proof.
    intro l. unfold wrun. rewrite <- (rev_involutive l). induction (rev l) as [|o r IH]; [right; exists []; split; reflexivity|].
    cbn [rev]. rewrite fold_left_app. cbn [fold_left]. destruct o as [p|init]; cbn [wstep].
    - destruct IH as [[before [init [after [E1 E2]]]]|[after [E1 E2]]].
      + left. exists before, init, (after ++ [p]). rewrite E2, E1, map_app. split; [|rewrite app_assoc; reflexivity].
        rewrite <- app_assoc. reflexivity.
      + right. exists (after ++ [p]). rewrite E2, map_app, <- E1. split; reflexivity.
    - left. exists (rev r), init, []. rewrite app_nil_r. split; reflexivity.
  Qed.

  Lemma get_point_spec : forall points i,
    (i < length points -> exists p, nth_error points i = Some p /\ get_point points i = Point p) /\
    (length points < i -> get_point points i = RuntimeError) /\
    (i = length points -> get_point points i = UndefinedBehaviour).
  Proof.
    intros points i. unfold get_point. split; [|split]; intro H.
    - destruct (Nat.ltb_spec (length points) i); [lia|]. destruct (nth_error points i) as [p|] eqn:E; [exists p; auto|].
      apply nth_error_None in E. lia.
    - destruct (Nat.ltb_spec (length points) i); [reflexivity|lia].
    - destruct (Nat.ltb_spec (length points) i); [lia|]. rewrite (proj2 (nth_error_None points i)) by lia. reflexivity.
  Qed.

  Lemma is_consistent_spec : forall w nv nf dim, nv < 2 ^ w -> nf < 2 ^ w -> dim + nf < 2 ^ w ->
    (is_consistent w nv nf dim = true <-> nv = nf + dim).
  Proof.
    intros w nv nf dim Hv Hf Hd. unfold is_consistent. rewrite Nat.eqb_eq. set (m := 2 ^ w) in *.
    destruct (Nat.le_gt_cases nf nv) as [L|L].
    - replace (nv + m - nf) with ((nv - nf) + 1 * m) by lia. rewrite Nat.mod_add by lia. rewrite Nat.mod_small by lia. lia.
    - rewrite Nat.mod_small by lia. lia.
  Qed.
End Witness.
