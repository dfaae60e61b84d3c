(** Proofs about SysCache.v. *)
From Coq Require Import ZArith List Arith Lia Bool.
From Verif Require Import Base Expr Heap SysCache.
Import ListNotations.

Section Proofs.
  Context {F : fld}.
  Variable fs : funs F.
  Variable s : csys (F := F).
  Notation G := (c_graph s).
  Notation fuel := (S (length G)).
  Hypothesis Hs : sound s.

  Let Hwf := snd_wf s Hs.
  Let Hexp := snd_exp s Hs.

  (** *** the calls on nodes which an operation makes *)
  Definition set_calls (T : numtype) (vs : list nat) (x : list F) : list (gop (F := F)) :=
    map (fun p => SetVar T (fst p) (snd p)) (combine vs x).
  Definition time_calls (T : numtype) (t : option F) : list (gop (F := F)) :=
    match c_path s, t with Some p, Some a => [SetVar T p a] | _, _ => [] end.
  Definition resets (l : list nat) : list (gop (F := F)) := map Reset l.
  Definition evals (T : numtype) (l : list nat) : list (gop (F := F)) := map (Eval T None) l.
  Definition evalJs (T : numtype) (l : list (nat * nat)) : list (gop (F := F)) :=
    map (fun p => EvalJ T (Some (snd p)) (fst p)) l.
  Definition value_calls (T : numtype) (x : list F) (t : option F) : list (gop (F := F)) :=
    if length x =? length (c_vars s) then set_calls T (c_vars s) x ++ time_calls T t else [].
  Definition settable (x : list F) (t : option F) : bool :=
    (length x =? length (c_vars s)) && match c_path s, t with None, Some _ => false | _, _ => true end.
  Definition jac_roots : list nat := if c_node s then c_jac s else c_space s.
  Definition time_roots : list nat := if c_node s then c_jac s else c_time s.
  Definition all_resets : list (gop (F := F)) := resets (c_funs s) ++ resets jac_roots ++ resets time_roots.
  Definition jac_calls (T : numtype) : list (gop (F := F)) :=
    if c_node s then evalJs T (list_prod (firstn (num_functions s) (c_jac s)) (c_vars s))
    else evals T (firstn (num_functions s * length (c_vars s)) (c_space s)).
  Definition dt_calls (T : numtype) : list (gop (F := F)) :=
    match c_path s with
    | None => []
    | Some p => if c_node s then evalJs T (map (fun j => (j, p)) (firstn (num_functions s) (c_jac s)))
                else evals T (firstn (num_functions s) (c_time s))
    end.

  Definition calls (o : sop (F := F)) : list (gop (F := F)) :=
    match o with
    | SetVariables T x => if length x =? length (c_vars s) then set_calls T (c_vars s) x else []
    | SetPathVariable T t => time_calls T (Some t)
    | SetImplicitParameters T p => if length p =? length (c_impl s) then set_calls T (c_impl s) p else []
    | SetAndReset T x t => value_calls T x t ++ if settable x t then all_resets else []
    | ResetFunctions => resets (c_funs s)
    | ResetJacobian => resets jac_roots
    | ResetTimeDerivatives => resets time_roots
    | ResetAll => all_resets
    | EvalHere T => evals T (c_funs s)
    | JacobianHere T => jac_calls T
    | TimeHere T => dt_calls T
    | TimeInPlace T n => if n <? num_functions s then [] else dt_calls T
    | EvalAt T x t =>
        if acceptable s x t then value_calls T x t ++ resets (c_funs s) ++ evals T (c_funs s) else []
    | JacobianAt T x t =>
        if acceptable s x t
        then value_calls T x t ++ match t with None => all_resets | Some _ => resets jac_roots end ++ jac_calls T
        else []
    | TimeAt T x t => value_calls T x t ++ if settable x t then resets time_roots ++ dt_calls T else []
    end.

  Lemma run_seq : forall a b g g1 g2, grun fs G g a = Some g1 -> grun fs G g1 b = Some g2 -> grun fs G g (a ++ b) = Some g2.
  Proof. intros a b g g1 g2 A B. rewrite grun_app, A. exact B. Qed.

  Lemma set_all_run : forall T vs x g, (forall v, In v vs -> nth_error G v = Some GVar) ->
    grun fs G g (set_calls T vs x) = Some (set_all T vs x g).
  Proof.
    intros T. unfold set_calls. induction vs as [|v vs IH]; intros x g H; [reflexivity|]. destruct x as [|a x]; [reflexivity|].
    cbn [combine map fst snd set_all]. rewrite grun_cons. cbn [gstep]. rewrite (H v (or_introl eq_refl)).
    apply IH. intros u Hu. apply H. right; exact Hu.
  Qed.

  Lemma reset_fold_run : forall l o,
    fold_left (fun acc n => match acc with Some g => reset G fuel g n | None => None end) l o =
    match o with Some g => grun fs G g (resets l) | None => None end.
  Proof.
    unfold resets. induction l as [|n l IH]; intros [g|]; cbn [fold_left map]; try reflexivity.
    - rewrite IH, grun_cons. cbn [gstep]. reflexivity.
    - rewrite IH. reflexivity.
  Qed.

  Lemma reset_nodes_run : forall l st,
    reset_nodes s l st = match grun fs G (nodes st) (resets l) with Some g => Some (mkC g (cur st) (ran st)) | None => None end.
  Proof. intros l st. unfold reset_nodes. rewrite reset_fold_run. reflexivity. Qed.

  Lemma reset_nodes_some : forall l st st', reset_nodes s l st = Some st' ->
    grun fs G (nodes st) (resets l) = Some (nodes st') /\ cur st' = cur st.
  Proof.
    intros l st st' H. rewrite reset_nodes_run in H. destruct (grun fs G (nodes st) (resets l)) as [g|]; [|discriminate].
    injection H as <-. split; reflexivity.
  Qed.

  Lemma reset_all_some : forall st st', reset_all s st = Some st' ->
    grun fs G (nodes st) all_resets = Some (nodes st') /\ cur st' = cur st.
  Proof.
    intros st st' H. unfold reset_all, and_then, reset_functions, reset_jacobian, reset_time in H.
    destruct (reset_nodes s (c_funs s) st) as [s1|] eqn:E1; [|discriminate].
    destruct (reset_nodes s _ s1) as [s2|] eqn:E2 in H; [|discriminate].
    destruct (reset_nodes_some _ _ _ E1) as [A1 B1]. destruct (reset_nodes_some _ _ _ E2) as [A2 B2].
    destruct (reset_nodes_some _ _ _ H) as [A3 B3]. split; [|congruence].
    unfold all_resets. eapply run_seq; [exact A1|]. eapply run_seq; [exact A2|exact A3].
  Qed.

  Lemma eval_nodes_run : forall T l g g' vs, eval_nodes fs s T l g = Some (g', vs) -> grun fs G g (evals T l) = Some g'.
  Proof.
    intros T. unfold evals. induction l as [|n l IH]; intros g g' vs H; cbn [eval_nodes map] in *.
    - injection H as <- _. reflexivity.
    - destruct (geval fs G fuel T None g n) as [[g1 v]|] eqn:E; [|discriminate].
      destruct (eval_nodes fs s T l g1) as [[g2 vs']|] eqn:E2; [|discriminate]. injection H as <- <-.
      rewrite grun_cons. cbn [gstep]. rewrite E. cbn [option_map fst]. exact (IH _ _ _ E2).
  Qed.

  Lemma evalJ_nodes_run : forall T l g g' vs, evalJ_nodes fs s T l g = Some (g', vs) -> grun fs G g (evalJs T l) = Some g'.
  Proof.
    intros T. unfold evalJs. induction l as [|[n v] l IH]; intros g g' vs H; cbn [evalJ_nodes map fst snd] in *.
    - injection H as <- _. reflexivity.
    - destruct (evalJ fs G fuel T (Some v) g n) as [[g1 a]|] eqn:E; [|discriminate].
      destruct (evalJ_nodes fs s T l g1) as [[g2 vs']|] eqn:E2; [|discriminate]. injection H as <- <-.
      rewrite grun_cons. cbn [gstep]. rewrite E. cbn [option_map fst]. exact (IH _ _ _ E2).
  Qed.

  Lemma set_values_run : forall T x t st st' b, set_values s T x t st = (st', b) ->
    grun fs G (nodes st) (value_calls T x t) = Some (nodes st') /\ b = settable x t.
  Proof.
    intros T x t st st' b H. unfold set_values, set_variables in H. unfold value_calls, settable.
    destruct (length x =? length (c_vars s)) eqn:E.
    - pose proof (set_all_run T (c_vars s) x (nodes st) (snd_vars s Hs)) as A.
      destruct t as [a|].
      + unfold set_path in H. unfold time_calls. destruct (c_path s) as [p|] eqn:Ep; injection H as <- <-.
        * split; [|reflexivity]. eapply run_seq; [exact A|]. rewrite grun_cons. cbn [gstep].
          rewrite (proj1 (snd_path s Hs p Ep)). reflexivity.
        * rewrite app_nil_r. split; [exact A|reflexivity].
      + injection H as <- <-. unfold time_calls. destruct (c_path s); rewrite app_nil_r; (split; [exact A|reflexivity]).
    - injection H as <- <-. split; reflexivity.
  Qed.

  Lemma eval_here_run : forall T st st' r, eval_here fs s T st = Some (st', r) ->
    grun fs G (nodes st) (evals T (c_funs s)) = Some (nodes st') /\ cur st' = cur st.
  Proof.
    intros T st st' r H. unfold eval_here in H. destruct (match T with Dbl => true | Mp => ran st end); [|discriminate].
    destruct (eval_nodes fs s T (c_funs s) (nodes st)) as [[g l]|] eqn:E; [|discriminate].
    destruct (patch_values s (cur st T)); [|discriminate]. injection H as <- <-.
    split; [exact (eval_nodes_run _ _ _ _ _ E)|reflexivity].
  Qed.

  Lemma jacobian_here_run : forall T st st' r, jacobian_here fs s T st = Some (st', r) ->
    grun fs G (nodes st) (jac_calls T) = Some (nodes st') /\ cur st' = cur st.
  Proof.
    intros T st st' r H. unfold jacobian_here in H. unfold jac_calls. destruct (c_node s).
    - destruct (length (c_jac s) <? num_functions s); [discriminate|].
      destruct (evalJ_nodes fs s T _ (nodes st)) as [[g l]|] eqn:E; [|discriminate].
      destruct (patch_jacobian s (cur st T)); [|discriminate]. injection H as <- <-.
      split; [exact (evalJ_nodes_run _ _ _ _ _ E)|reflexivity].
    - destruct (length (c_space s) <? _); [discriminate|].
      destruct (eval_nodes fs s T _ (nodes st)) as [[g l]|] eqn:E; [|discriminate].
      destruct (patch_jacobian s (cur st T)); [|discriminate]. injection H as <- <-.
      split; [exact (eval_nodes_run _ _ _ _ _ E)|reflexivity].
  Qed.

  Lemma time_in_place_run : forall T n st st' r, time_in_place fs s T n st = Some (st', r) ->
    grun fs G (nodes st) (if n <? num_functions s then [] else dt_calls T) = Some (nodes st') /\ cur st' = cur st.
  Proof.
    intros T n st st' r H. unfold time_in_place in H.
    destruct (n <? num_functions s); [injection H as <- <-; split; reflexivity|].
    unfold dt_calls. destruct (c_path s) as [p|]; [|injection H as <- <-; split; reflexivity].
    destruct (n <? _); [discriminate|]. destruct (c_node s).
    - destruct (length (c_jac s) <? num_functions s); [discriminate|].
      destruct (evalJ_nodes fs s T _ (nodes st)) as [[g l]|] eqn:E; [|discriminate]. injection H as <- <-.
      split; [exact (evalJ_nodes_run _ _ _ _ _ E)|reflexivity].
    - destruct (length (c_time s) <? num_functions s); [discriminate|].
      destruct (eval_nodes fs s T _ (nodes st)) as [[g l]|] eqn:E; [|discriminate]. injection H as <- <-.
      split; [exact (eval_nodes_run _ _ _ _ _ E)|reflexivity].
  Qed.

  Lemma time_here_run : forall T st st' r, time_here fs s T st = Some (st', r) ->
    grun fs G (nodes st) (dt_calls T) = Some (nodes st') /\ cur st' = cur st.
  Proof.
    intros T st st' r H. unfold time_here in H. destruct (c_path s) as [p|] eqn:Ep.
    - destruct (time_in_place_run _ _ _ _ _ H) as [A B]. split; [|exact B].
      destruct (Nat.ltb_spec (num_functions s + num_patches s) (num_functions s)) as [L|L]; [lia|]. exact A.
    - injection H as <- <-. unfold dt_calls. rewrite Ep. split; reflexivity.
  Qed.

  Lemma step_calls : forall st o st' r, step fs s st o = Some (st', r) -> grun fs G (nodes st) (calls o) = Some (nodes st').
  Proof.
    intros st o st' r H.
    assert (FinA : forall x, finish x = Some (st', r) -> x = Some st') by (intros [x|] E; [injection E as -> _; reflexivity|discriminate]).
    destruct o as [T x|T t|T p|T x t| | | | |T|T|T|T n|T x t|T x t|T x t]; cbn [step calls] in *.
    - unfold set_variables in H. destruct (length x =? length (c_vars s)); injection H as <- <-; [|reflexivity].
      apply set_all_run. exact (snd_vars s Hs).
    - unfold set_path in H. unfold time_calls. destruct (c_path s) as [p|] eqn:Ep; injection H as <- <-; [|reflexivity].
      rewrite grun_cons. cbn [gstep]. rewrite (proj1 (snd_path s Hs p Ep)). reflexivity.
    - destruct (length p =? length (c_impl s)); injection H as <- <-; [|reflexivity]. apply set_all_run. exact (snd_impl s Hs).
    - destruct (set_values s T x t st) as [s1 b] eqn:E. destruct (set_values_run _ _ _ _ _ _ E) as [A ->].
      unfold after_setting in H. destruct (settable x t).
      + destruct (reset_all s s1) as [s2|] eqn:E2; [|discriminate]. injection H as <- <-.
        eapply run_seq; [exact A|exact (proj1 (reset_all_some _ _ E2))].
      + injection H as <- <-. rewrite app_nil_r. exact A.
    - exact (proj1 (reset_nodes_some _ _ _ (FinA _ H))).
    - exact (proj1 (reset_nodes_some _ _ _ (FinA _ H))).
    - exact (proj1 (reset_nodes_some _ _ _ (FinA _ H))).
    - exact (proj1 (reset_all_some _ _ (FinA _ H))).
    - exact (proj1 (eval_here_run _ _ _ _ H)).
    - exact (proj1 (jacobian_here_run _ _ _ _ H)).
    - exact (proj1 (time_here_run _ _ _ _ H)).
    - exact (proj1 (time_in_place_run _ _ _ _ _ H)).
    - destruct (acceptable s x t) eqn:Ea; [|injection H as <- <-; reflexivity].
      destruct (set_values s T x t st) as [s1 b] eqn:E. destruct (set_values_run _ _ _ _ _ _ E) as [A ->].
      unfold after_setting in H.
      assert (settable x t = true) as Q by (unfold acceptable in Ea; unfold settable; destruct (length x =? length (c_vars s)), (c_path s), t; cbn in *; congruence).
      rewrite Q in H. unfold reset_functions in H. destruct (reset_nodes s (c_funs s) s1) as [s2|] eqn:E2; [|discriminate].
      eapply run_seq; [exact A|]. eapply run_seq; [exact (proj1 (reset_nodes_some _ _ _ E2))|exact (proj1 (eval_here_run _ _ _ _ H))].
    - destruct (acceptable s x t) eqn:Ea; [|injection H as <- <-; reflexivity].
      destruct (set_values s T x t st) as [s1 b] eqn:E. destruct (set_values_run _ _ _ _ _ _ E) as [A ->].
      unfold after_setting in H.
      assert (settable x t = true) as Q by (unfold acceptable in Ea; unfold settable; destruct (length x =? length (c_vars s)), (c_path s), t; cbn in *; congruence).
      rewrite Q in H. eapply run_seq; [exact A|]. destruct t as [t|].
      + unfold reset_jacobian in H. destruct (reset_nodes s _ s1) as [s2|] eqn:E2 in H; [|discriminate].
        eapply run_seq; [exact (proj1 (reset_nodes_some _ _ _ E2))|exact (proj1 (jacobian_here_run _ _ _ _ H))].
      + destruct (reset_all s s1) as [s2|] eqn:E2; [|discriminate].
        eapply run_seq; [exact (proj1 (reset_all_some _ _ E2))|exact (proj1 (jacobian_here_run _ _ _ _ H))].
    - destruct (set_values s T x t st) as [s1 b] eqn:E. destruct (set_values_run _ _ _ _ _ _ E) as [A ->].
      unfold after_setting in H. destruct (settable x t).
      + unfold reset_time in H. destruct (reset_nodes s _ s1) as [s2|] eqn:E2 in H; [|discriminate].
        eapply run_seq; [exact A|]. eapply run_seq; [exact (proj1 (reset_nodes_some _ _ _ E2))|exact (proj1 (time_here_run _ _ _ _ H))].
      + injection H as <- <-. rewrite app_nil_r. exact A.
  Qed.

  Lemma run_calls : forall h st st', run fs s st h = Some st' -> grun fs G (nodes st) (flat_map calls h) = Some (nodes st').
  Proof.
    induction h as [|o h IH]; intros st st' H; cbn [run flat_map] in *; [injection H as <-; reflexivity|].
    destruct (step fs s st o) as [[s1 r]|] eqn:E; [|discriminate].
    eapply run_seq; [exact (step_calls _ _ _ _ E)|exact (IH _ _ H)].
  Qed.

  (** *** what was assigned *)
  Definition gives (T : numtype) (o : gop (F := F)) : list (nat * F) :=
    match o with SetVar T' x v => if numtype_eqb T T' then [(x, v)] else [] | _ => [] end.
  Definition give (rho : env F) (l : list (nat * F)) : env F := fold_left (fun r p => upd r (fst p) (snd p)) l rho.

  Lemma give_ext : forall l rho rho' y, (forall z, rho z = rho' z) -> give rho l y = give rho' l y.
  Proof.
    unfold give. induction l as [|[v a] l IH]; intros rho rho' y H; cbn [fold_left]; [apply H|].
    apply IH. intro z. cbn [fst snd]. unfold upd. destruct (Nat.eq_dec z v); [reflexivity|apply H].
  Qed.

  Lemma assigned_give : forall h sigma T y, assigned sigma h T y = give (sigma T) (flat_map (gives T) h) y.
  Proof.
    induction h as [|o h IH]; intros sigma T y; [reflexivity|]. rewrite assigned_step, IH. cbn [flat_map]. unfold give.
    rewrite fold_left_app. fold (give (sigma T) (gives T o)).
    apply (give_ext _ (update_sigma sigma o T) (give (sigma T) (gives T o))). intro z. destruct o as [T' x v| | |]; try reflexivity.
    cbn [update_sigma gives]. destruct (numtype_eqb T T'); cbn [andb]; [|reflexivity].
    unfold give. cbn [fold_left fst snd]. unfold upd. destruct (Nat.eqb_spec z x), (Nat.eq_dec z x); congruence.
  Qed.

  Lemma gives_nil : forall T (l : list (gop (F := F))), (forall o, In o l -> gives T o = []) -> flat_map (gives T) l = [].
  Proof.
    intros T l. induction l as [|o l IH]; intro H; [reflexivity|]. cbn [flat_map].
    rewrite (H o (or_introl eq_refl)), IH; [reflexivity|]. intros o' Ho. apply H. right; exact Ho.
  Qed.

  Lemma gives_set : forall T T' vs x, flat_map (gives T) (set_calls T' vs x) = if numtype_eqb T T' then combine vs x else [].
  Proof.
    intros T T'. unfold set_calls. induction vs as [|v vs IH]; intros x; [destruct (numtype_eqb T T'); reflexivity|].
    destruct x as [|a x]; [destruct (numtype_eqb T T'); reflexivity|]. cbn [combine map flat_map gives fst snd]. rewrite IH.
    destruct (numtype_eqb T T'); reflexivity.
  Qed.

  Lemma gives_time : forall T T' t, flat_map (gives T) (time_calls T' t) =
    match c_path s, t with Some p, Some a => if numtype_eqb T T' then [(p, a)] else [] | _, _ => [] end.
  Proof. intros T T' t. unfold time_calls. destruct (c_path s), t; try reflexivity. cbn [flat_map gives]. apply app_nil_r. Qed.

  Lemma gives_resets : forall T l, flat_map (gives T) (resets l) = [].
  Proof. intros T l. apply gives_nil. unfold resets. intros o H. apply in_map_iff in H as [n [<- _]]. reflexivity. Qed.
  Lemma gives_evals : forall T T' l, flat_map (gives T) (evals T' l) = [].
  Proof. intros T T' l. apply gives_nil. unfold evals. intros o H. apply in_map_iff in H as [n [<- _]]. reflexivity. Qed.
  Lemma gives_evalJs : forall T T' l, flat_map (gives T) (evalJs T' l) = [].
  Proof. intros T T' l. apply gives_nil. unfold evalJs. intros o H. apply in_map_iff in H as [n [<- _]]. reflexivity. Qed.
  Lemma gives_all_resets : forall T, flat_map (gives T) all_resets = [].
  Proof. intros T. unfold all_resets. rewrite !flat_map_app, !gives_resets. reflexivity. Qed.
  Lemma gives_jac : forall T T', flat_map (gives T) (jac_calls T') = [].
  Proof. intros T T'. unfold jac_calls. destruct (c_node s); [apply gives_evalJs|apply gives_evals]. Qed.
  Lemma gives_dt : forall T T', flat_map (gives T) (dt_calls T') = [].
  Proof. intros T T'. unfold dt_calls. destruct (c_path s); [|reflexivity]. destruct (c_node s); [apply gives_evalJs|apply gives_evals]. Qed.

  Lemma gives_values : forall T T' x t, flat_map (gives T) (value_calls T' x t) =
    if length x =? length (c_vars s)
    then (if numtype_eqb T T' && (length x =? length (c_vars s)) then combine (c_vars s) x else []) ++
         match c_path s, t with Some p, Some a => if numtype_eqb T T' then [(p, a)] else [] | _, _ => [] end
    else [].
  Proof.
    intros T T' x t. unfold value_calls. destruct (length x =? length (c_vars s)); [|reflexivity].
    rewrite flat_map_app, gives_set, gives_time, andb_true_r. reflexivity.
  Qed.

  Lemma given_calls : forall T o, flat_map (gives T) (calls o) = given s T o.
  Proof.
    intros T o. destruct o as [T' x|T' t|T' p|T' x t| | | | |T'|T'|T'|T' n|T' x t|T' x t|T' x t]; cbn [calls given].
    - destruct (length x =? length (c_vars s)); [rewrite andb_true_r; apply gives_set|rewrite andb_false_r; reflexivity].
    - rewrite gives_time. destruct (c_path s); reflexivity.
    - destruct (length p =? length (c_impl s)); [rewrite andb_true_r; apply gives_set|rewrite andb_false_r; reflexivity].
    - rewrite flat_map_app, gives_values. destruct (settable x t); [rewrite gives_all_resets|cbn [flat_map]]; apply app_nil_r.
    - apply gives_resets.
    - apply gives_resets.
    - apply gives_resets.
    - apply gives_all_resets.
    - apply gives_evals.
    - apply gives_jac.
    - apply gives_dt.
    - destruct (n <? num_functions s); [reflexivity|apply gives_dt].
    - destruct (acceptable s x t) eqn:Ea; [|reflexivity]. rewrite !flat_map_app, gives_values, gives_resets, gives_evals, app_nil_r.
      unfold acceptable in Ea. apply andb_prop in Ea as [Ea _]. rewrite Ea. reflexivity.
    - destruct (acceptable s x t) eqn:Ea; [|reflexivity]. rewrite !flat_map_app, gives_values, gives_jac.
      unfold acceptable in Ea. apply andb_prop in Ea as [Ea _]. rewrite Ea.
      destruct t; [rewrite gives_resets|rewrite gives_all_resets]; rewrite !app_nil_r; reflexivity.
    - rewrite flat_map_app, gives_values. destruct (settable x t); [rewrite flat_map_app, gives_resets, gives_dt|cbn [flat_map]]; apply app_nil_r.
  Qed.

  Lemma flat_map_flat_map : forall (A B C : Type) (f : B -> list C) (g : A -> list B) l,
    flat_map f (flat_map g l) = flat_map (fun a => flat_map f (g a)) l.
  Proof. intros A B C f g l. induction l as [|a l IH]; [reflexivity|]. cbn [flat_map]. rewrite flat_map_app, IH. reflexivity. Qed.

  Lemma assigned_last : forall sigma h T y, assigned sigma (flat_map calls h) T y = last_given s sigma h T y.
  Proof.
    intros sigma h T y. rewrite assigned_give, flat_map_flat_map. unfold last_given, give. f_equal.
    replace (flat_map (fun a => flat_map (gives T) (calls a)) h) with (flat_map (given s T) h); [reflexivity|].
    apply flat_map_ext. intro o. symmetry. apply given_calls.
  Qed.

  (** *** sets of nodes whose valid values are right *)
  Definition below (l : list nat) (m : nat) : Prop := exists n, In n l /\ reach G n m.

  Lemma below_closed : forall l, closed G (below l).
  Proof. intros l n nd c [r [Hr Hn]] E Hc. exists r. split; [exact Hr|]. exact (reach_step G r n nd c Hn E Hc). Qed.

  Lemma plain_reach : forall n m, plain G n -> reach G n m -> plain G m.
  Proof.
    intros n m Hp H. induction H as [|m nd c H IH E Hc]; [exact Hp|]. destruct IH as [m nd' E' _ Hall].
    rewrite E in E'. injection E' as <-. apply Hall. exact Hc.
  Qed.

  Lemma below_plain : forall l, (forall n, In n l -> plain G n) -> forall m, below l m -> plain G m.
  Proof. intros l H m [n [Hn Hr]]. exact (plain_reach n m (H n Hn) Hr). Qed.

  Lemma valid_any : forall sigma T dv dv' (R : nat -> Prop) g, (forall m, R m -> plain G m) -> valid_ok fs G sigma T dv R g ->
    valid_ok fs G sigma T dv' R g.
  Proof.
    intros sigma T dv dv' R g Hp H m e Hm [k Hu] Hf. apply H; [exact Hm| |exact Hf]. exists k.
    rewrite (unfold_plain k G dv dv' m (Hp m Hm)). exact Hu.
  Qed.

  (** the call assigns nothing of type [T] *)
  Definition not_set (T : numtype) (o : gop (F := F)) : Prop := match o with SetVar T' _ _ => T' <> T | _ => True end.

  Lemma step_good_plain : forall sigma T R, closed G R -> (forall m, R m -> plain G m) -> forall g o g',
    good fs G sigma T None R g -> not_set T o -> gstep fs G g o = Some g' -> good fs G (update_sigma sigma o) T None R g'.
  Proof.
    intros sigma T R HR Hp g o g' [Hb Hv] Hn E.
    set (dv := match o with Eval _ dv _ | EvalJ _ dv _ => dv | _ => None end).
    assert (Hg : good fs G sigma T dv R g) by (split; [exact Hb|exact (valid_any _ _ _ _ _ _ Hp Hv)]).
    assert (Hq : quiet T dv o) by (unfold dv; destruct o; cbn in *; auto).
    destruct (step_good fs G Hexp sigma T dv R HR g o g' Hg Hq E) as [Hb' Hv'].
    split; [exact Hb'|exact (valid_any _ _ _ _ _ _ Hp Hv')].
  Qed.

  Lemma run_good_plain : forall T R, closed G R -> (forall m, R m -> plain G m) -> forall h sigma g g',
    good fs G sigma T None R g -> Forall (not_set T) h -> grun fs G g h = Some g' -> good fs G (assigned sigma h) T None R g'.
  Proof.
    intros T R HR Hp. induction h as [|o h IH]; intros sigma g g' Hg Hq E; [injection E as <-; exact Hg|].
    rewrite grun_cons in E. destruct (gstep fs G g o) as [g1|] eqn:E1; [|discriminate]. rewrite assigned_step.
    inversion Hq as [|? ? Ho Hh]; subst. exact (IH _ _ _ (step_good_plain _ _ _ HR Hp _ _ _ Hg Ho E1) Hh E).
  Qed.

  Lemma resets_total : forall l g, (forall n, In n l -> n < length G) -> exists g', grun fs G g (resets l) = Some g'.
  Proof.
    intros l g H. apply run_total; [exact Hwf|]. unfold resets. apply Forall_forall. intros o Ho.
    apply in_map_iff in Ho as [n [<- Hn]]. exact (H n Hn).
  Qed.

  Lemma good_union : forall sigma T dv (R R' : nat -> Prop) g, good fs G sigma T dv R g -> good fs G sigma T dv R' g ->
    good fs G sigma T dv (fun m => R m \/ R' m) g.
  Proof. intros sigma T dv R R' g [H1 H2] [_ H3]. split; [exact H1|]. intros m e [Hm|Hm]; [apply H2|apply H3]; exact Hm. Qed.

  Lemma good_sub : forall sigma T dv (R R' : nat -> Prop) g, (forall m, R' m -> R m) -> good fs G sigma T dv R g -> good fs G sigma T dv R' g.
  Proof. intros sigma T dv R R' g H [H1 H2]. split; [exact H1|]. intros m e Hm. apply H2. apply H; exact Hm. Qed.

  Lemma resets_weaker : forall l g g', grun fs G g (resets l) = Some g' -> weaker g g'.
  Proof.
    unfold resets. induction l as [|n l IH]; intros g g' H; cbn [map] in H; [injection H as <-; apply weaker_refl|].
    rewrite grun_cons in H. cbn [gstep] in H. destruct (reset G fuel g n) as [g1|] eqn:E; [|discriminate].
    exact (weaker_trans _ _ _ (proj1 (reset_ok _ _ _ _ _ E)) (IH _ _ H)).
  Qed.

  Lemma resets_good : forall sigma T dv l g g', base_ok G sigma g -> grun fs G g (resets l) = Some g' ->
    good fs G sigma T dv (below l) g'.
  Proof.
    intros sigma T dv. unfold resets. induction l as [|n l IH]; intros g g' Hb H; cbn [map] in H.
    - injection H as <-. split; [exact Hb|]. intros m e [n [[] _]].
    - rewrite grun_cons in H. cbn [gstep] in H. destruct (reset G fuel g n) as [g1|] eqn:E; [|discriminate].
      pose proof (reset_valid fs G sigma T dv _ _ _ _ Hb E) as [Hb1 Hv1].
      pose proof (IH _ _ Hb1 H) as Hg2. pose proof (resets_weaker _ _ _ H) as W.
      apply (good_sub _ _ _ (fun m => reach G n m \/ below l m)).
      + intros m [k [[<-|Hk] Hr]]; [left; exact Hr|right; exists k; auto].
      + apply good_union; [|exact Hg2]. split; [exact (proj1 Hg2)|]. exact (weaker_valid _ _ _ _ _ _ _ _ W Hv1).
  Qed.

  Lemma resets_flag : forall l g g', grun fs G g (resets l) = Some g' -> forall j a T, In j l -> nth_error G j = Some (GHandle a) ->
    snd (cache g' T j) = false.
  Proof.
    unfold resets. induction l as [|n l IH]; intros g g' H j a T Hj Ha; [destruct Hj|]. cbn [map] in H.
    rewrite grun_cons in H. cbn [gstep] in H. destruct (reset G fuel g n) as [g1|] eqn:E; [|discriminate].
    destruct Hj as [->|Hj]; [|exact (IH _ _ H j a T Hj Ha)].
    destruct (reset_ok _ _ _ _ _ E) as [_ W]. destruct (W T j (reach_refl G j)) as [[k [c Hc]]|Hf]; [congruence|].
    pose proof (resets_weaker _ _ _ H) as [_ W2]. destruct (W2 T j) as [_ W3]. destruct (snd (cache g' T j)); [|reflexivity].
    rewrite (W3 eq_refl) in Hf. discriminate.
  Qed.

  Lemma resets_jgood : forall sigma T l g g' j a, base_ok G sigma g -> grun fs G g (resets l) = Some g' -> In j l ->
    nth_error G j = Some (GHandle a) -> jgood fs G sigma T j g'.
  Proof.
    intros sigma T l g g' j a Hb H Hj Ha. split; [exact (weaker_base _ _ _ _ (resets_weaker _ _ _ H) Hb)|].
    rewrite (resets_flag _ _ _ H j a T Hj Ha). discriminate.
  Qed.

  (** *** evaluations *)
  Lemma eval_nodes_ok : forall sigma T R, closed G R -> forall l g, (forall n, In n l -> n < length G /\ R n) ->
    good fs G sigma T None R g -> exists g' vs, eval_nodes fs s T l g = Some (g', vs) /\ good fs G sigma T None R g' /\
      Forall2 (fun n v => forall e, unfolds G None n e -> v = eval fs (sigma T) e) l vs.
  Proof.
    intros sigma T R HR. induction l as [|n l IH]; intros g Hl Hg; cbn [eval_nodes].
    - exists g, []. split; [reflexivity|]. split; [exact Hg|constructor].
    - destruct (Hl n (or_introl eq_refl)) as [Hn HRn].
      destruct (geval_total fs G Hwf fuel n T None g) as [g1 [v E]]; [lia|exact Hn|]. rewrite E.
      destruct (geval_ok fs G sigma T None R Hexp HR fuel None g n (or_introl eq_refl) Hg g1 v E) as [Hg1 Hv].
      destruct (IH g1 (fun m Hm => Hl m (or_intror Hm)) Hg1) as [g2 [vs [E2 [Hg2 Hvs]]]]. rewrite E2.
      exists g2, (v :: vs). split; [reflexivity|]. split; [exact Hg2|]. constructor; [|exact Hvs].
      intros e Hu. exact (Hv e HRn Hu).
  Qed.

  Lemma evalJ_value : forall sigma T dv j g g' v, jgood fs G sigma T j g -> evalJ fs G fuel T dv g j = Some (g', v) ->
    forall e, unfolds G dv j e -> v = eval fs (sigma T) e.
  Proof.
    intros sigma T dv j g g' v Hj E e Hu.
    destruct (evalJ_cases fs _ _ _ _ _ _ _ _ E) as [[-> [Hd Hc]]|[a' [s4 [s5 [Hn [Er [Ev ->]]]]]]].
    - destruct Hj as [_ Hj]. rewrite Hc in Hj. cbn [fst snd] in Hj. apply Hj; [reflexivity|]. rewrite Hd. exact Hu.
    - exact (proj2 (evalJ_fresh fs G _ Hexp T dv g j a' s4 s5 v _ (proj1 Hj) Hn Er Ev) e Hu).
  Qed.

  Definition jacs_good (sigma : numtype -> env F) (T : numtype) (l : list nat) (g : gstate) : Prop :=
    forall j, In j l -> jgood fs G sigma T j g.

  Lemma evalJ_nodes_ok : forall sigma T J, (forall j, In j J -> (exists a, nth_error G j = Some (GHandle a)) /\ no_parents G (eq j)) ->
    forall l g, (forall p, In p l -> In (fst p) J) -> jacs_good sigma T J g ->
    exists g' vs, evalJ_nodes fs s T l g = Some (g', vs) /\
      Forall2 (fun p v => forall e, unfolds G (Some (snd p)) (fst p) e -> v = eval fs (sigma T) e) l vs.
  Proof.
    intros sigma T J HJ. induction l as [|[j v] l IH]; intros g Hl Hg; cbn [evalJ_nodes].
    - exists g, []. split; [reflexivity|constructor].
    - pose proof (Hl (j, v) (or_introl eq_refl)) as Hj. cbn [fst] in Hj. destruct (HJ j Hj) as [[a Ha] Hnp].
      destruct (evalJ_total fs G Hwf T (Some v) g j a Ha) as [g1 [w E]]. rewrite E.
      assert (Hg1 : jacs_good sigma T J g1).
      { intros k Hk. destruct (HJ k Hk) as [_ Hnk].
        assert (E' : gstep fs G g (EvalJ T (Some v) j) = Some g1) by (cbn [gstep]; rewrite E; reflexivity).
        refine (step_jgood fs G Hexp sigma T k Hnk g _ g1 (Hg k Hk) _ E'). exact I. }
      destruct (IH g1 (fun p Hp => Hl p (or_intror Hp)) Hg1) as [g2 [vs [E2 Hvs]]]. rewrite E2.
      exists g2, (w :: vs). split; [reflexivity|]. constructor; [|exact Hvs]. cbn [fst snd].
      exact (evalJ_value sigma T (Some v) j g g1 w (Hg j Hj) E).
  Qed.

  Lemma Forall2_nth_error : forall (A B : Type) (P : A -> B -> Prop) l l', Forall2 P l l' -> forall i a, nth_error l i = Some a ->
    exists b, nth_error l' i = Some b /\ P a b.
  Proof.
    intros A B P l l' H. induction H as [|a b l l' Hp H IH]; intros [|i] x E; cbn in E; try discriminate.
    - injection E as <-. exists b. split; [reflexivity|exact Hp].
    - exact (IH i x E).
  Qed.
  Lemma Forall2_len : forall (A B : Type) (P : A -> B -> Prop) l l', Forall2 P l l' -> length l = length l'.
  Proof. intros A B P l l' H. induction H; cbn; congruence. Qed.

  Lemma nth_list_prod : forall (A B : Type) (l : list A) (l' : list B) i j a b, nth_error l i = Some a -> nth_error l' j = Some b ->
    nth_error (list_prod l l') (i * length l' + j) = Some (a, b).
  Proof.
    intros A B l l'. induction l as [|x l IH]; intros [|i] j a b Ha Hb; cbn [nth_error] in Ha; try discriminate; cbn [list_prod].
    - injection Ha as ->. cbn [Nat.mul Nat.add]. rewrite nth_error_app1; [|rewrite map_length; apply nth_error_Some; congruence].
      rewrite nth_error_map, Hb. reflexivity.
    - rewrite nth_error_app2; rewrite map_length; [|cbn; lia].
      replace (S i * length l' + j - length l') with (i * length l' + j) by (cbn; lia). exact (IH i j a b Ha Hb).
  Qed.

  Lemma nth_error_seq : forall n i, i < n -> nth_error (seq 0 n) i = Some i.
  Proof.
    intros n i H. rewrite (nth_error_nth' (seq 0 n) 0) by (rewrite seq_length; exact H).
    rewrite seq_nth by exact H. reflexivity.
  Qed.

  Lemma rows_nth : forall cells ii jj, ii < num_functions s -> jj < length (c_vars s) ->
    exists row, nth_error (rows_of s cells) ii = Some row /\ nth_error row jj = Some (cells ii jj).
  Proof.
    intros cells ii jj Hi Hj. exists (map (cells ii) (seq 0 (length (c_vars s)))). unfold rows_of. split.
    - rewrite nth_error_map, (nth_error_seq _ _ Hi). reflexivity.
    - rewrite nth_error_map, (nth_error_seq _ _ Hj). reflexivity.
  Qed.

  Lemma rows_length : forall cells, length (rows_of s cells) = num_functions s.
  Proof. intro cells. unfold rows_of. rewrite map_length, seq_length. reflexivity. Qed.
  Lemma rows_row : forall cells row, In row (rows_of s cells) -> length row = length (c_vars s).
  Proof. intros cells row H. unfold rows_of in H. apply in_map_iff in H as [i [<- _]]. rewrite map_length, seq_length. reflexivity. Qed.

  Lemma nth_of_error : forall (A : Type) (l : list (option A)) i v, nth_error l i = Some v -> nth i l None = v.
  Proof. intros A l i v H. exact (nth_error_nth l i None H). Qed.

  (** the state is ready for evaluations of functions, of the Jacobian, of the time derivative *)
  Definition ready_fun (sigma : numtype -> env F) (T : numtype) (g : gstate) : Prop := good fs G sigma T None (below (c_funs s)) g.
  Definition ready_jac (sigma : numtype -> env F) (T : numtype) (g : gstate) : Prop :=
    if c_node s then jacs_good sigma T (c_jac s) g else good fs G sigma T None (below (c_space s)) g.
  Definition ready_time (sigma : numtype -> env F) (T : numtype) (g : gstate) : Prop :=
    if c_node s then jacs_good sigma T (c_jac s) g else good fs G sigma T None (below (c_time s)) g.

  Lemma below_self : forall l n, In n l -> below l n.
  Proof. intros l n H. exists n. split; [exact H|constructor]. Qed.

  Lemma eval_here_ok : forall sigma T st x, T = Dbl \/ ran st = true ->
    ready_fun sigma T (nodes st) -> cur st T = x -> length x = length (c_vars s) ->
    exists st' r, eval_here fs s T st = Some (st', r) /\ right_values fs s (sigma T) x r.
  Proof.
    intros sigma T st x HT Hr Hc Hx. unfold eval_here.
    replace (match T with Dbl => true | Mp => ran st end) with true by (destruct HT as [->|HT]; [reflexivity|destruct T; auto]).
    destruct (eval_nodes_ok sigma T _ (below_closed (c_funs s)) (c_funs s) (nodes st)) as [g [l [E [_ Hl]]]].
    { intros n Hn. split; [exact (proj1 (snd_funs s Hs n Hn))|exact (below_self _ _ Hn)]. }
    { exact Hr. }
    rewrite E, Hc. unfold patch_values. destruct (c_patch s) as [[[k f] j]|] eqn:Ep.
    - rewrite Hx, Nat.eqb_refl. eexists; eexists; split; [reflexivity|]. exists l, (map Some (f x)).
      split; [reflexivity|]. split; [exact Hl|]. rewrite Ep. reflexivity.
    - eexists; eexists; split; [reflexivity|]. exists l, []. split; [reflexivity|]. split; [exact Hl|]. rewrite Ep. reflexivity.
  Qed.

  Lemma cell_bound : forall i j m n, i < m -> j < n -> i + j * m < m * n.
  Proof. intros i j m n Hi Hj. assert (S j * m <= n * m) by (apply Nat.mul_le_mono_r; lia). lia. Qed.

  Lemma jacobian_here_ok : forall sigma T st x, ready_jac sigma T (nodes st) -> cur st T = x -> length x = length (c_vars s) ->
    exists st' r, jacobian_here fs s T st = Some (st', r) /\ right_jacobian fs s (sigma T) x r.
  Proof.
    intros sigma T st x Hr Hc Hx. unfold jacobian_here, ready_jac in *.
    assert (Hp : exists p, patch_jacobian s (cur st T) = Some p /\
              match c_patch s with Some (_, _, j) => p = map (map Some) (j x) | None => p = [] end).
    { rewrite Hc. unfold patch_jacobian. destruct (c_patch s) as [[[k f] j]|] eqn:Ep; [|exists []; auto].
      rewrite Hx, Nat.eqb_refl. eexists; split; reflexivity. }
    destruct Hp as [p [Ep Hp]]. rewrite Ep. destruct (c_node s) eqn:En.
    - destruct (snd_jac s Hs En) as [Lj HJ]. rewrite Lj, Nat.ltb_irrefl.
      rewrite firstn_all2 by lia.
      destruct (evalJ_nodes_ok sigma T (c_jac s) (fun j Hj => let '(conj a (conj b _)) := HJ j Hj in conj a b)
                  (list_prod (c_jac s) (c_vars s)) (nodes st)) as [g [l [E Hl]]].
      { intros [j v] Hin. cbn [fst]. apply in_prod_iff in Hin. tauto. }
      { exact Hr. }
      rewrite E. eexists; eexists; split; [reflexivity|].
      exists (rows_of s (fun ii jj => nth (ii * length (c_vars s) + jj) l None)), p. split; [reflexivity|]. split; [apply rows_length|].
      split; [|split; [apply rows_row|exact Hp]].
      intros ii jj v e Hi Hv Hd. unfold derivative_in in Hd. rewrite En in Hd. destruct Hd as [j [Hj Hu]].
      assert (Hjj : jj < length (c_vars s)) by (apply nth_error_Some; congruence).
      destruct (rows_nth (fun ii jj => nth (ii * length (c_vars s) + jj) l None) ii jj Hi Hjj) as [row [R1 R2]].
      exists row. split; [exact R1|]. rewrite R2. f_equal. cbn beta.
      destruct (Forall2_nth_error _ _ _ _ _ Hl _ _ (nth_list_prod _ _ _ _ _ _ _ _ Hj Hv)) as [w [Hw Hval]].
      rewrite (nth_of_error _ _ _ _ Hw). exact (Hval e Hu).
    - destruct (snd_space s Hs En) as [Ls HS]. rewrite Ls, Nat.ltb_irrefl.
      rewrite firstn_all2 by lia.
      destruct (eval_nodes_ok sigma T _ (below_closed (c_space s)) (c_space s) (nodes st)) as [g [l [E [_ Hl]]]].
      { intros n Hn. split; [exact (proj1 (HS n Hn))|exact (below_self _ _ Hn)]. }
      { exact Hr. }
      rewrite E. eexists; eexists; split; [reflexivity|].
      exists (rows_of s (fun ii jj => nth (ii + jj * num_functions s) l None)), p. split; [reflexivity|]. split; [apply rows_length|].
      split; [|split; [apply rows_row|exact Hp]].
      intros ii jj v e Hi Hv Hd. unfold derivative_in in Hd. rewrite En in Hd. destruct Hd as [n [Hn Hu]].
      assert (Hjj : jj < length (c_vars s)) by (apply nth_error_Some; congruence).
      destruct (rows_nth (fun ii jj => nth (ii + jj * num_functions s) l None) ii jj Hi Hjj) as [row [R1 R2]].
      exists row. split; [exact R1|]. rewrite R2. f_equal. cbn beta.
      destruct (Forall2_nth_error _ _ _ _ _ Hl _ _ Hn) as [w [Hw Hval]].
      rewrite (nth_of_error _ _ _ _ Hw). exact (Hval e Hu).
  Qed.

  Lemma time_in_place_ok : forall sigma T st n, ready_time sigma T (nodes st) -> c_path s <> None -> num_functions s + num_patches s <= n ->
    exists st' r, time_in_place fs s T n st = Some (st', r) /\ right_time fs s (sigma T) r.
  Proof.
    intros sigma T st n Hr Hp Hn. unfold time_in_place, ready_time in *.
    destruct (Nat.ltb_spec n (num_functions s)) as [L|_]; [lia|].
    destruct (c_path s) as [p|] eqn:Epath; [|congruence].
    destruct (Nat.ltb_spec n (num_functions s + num_patches s)) as [L|_]; [lia|].
    destruct (c_node s) eqn:En.
    - destruct (snd_jac s Hs En) as [Lj HJ]. rewrite Lj, Nat.ltb_irrefl. rewrite firstn_all2 by lia.
      destruct (evalJ_nodes_ok sigma T (c_jac s) (fun j Hj => let '(conj a (conj b _)) := HJ j Hj in conj a b)
                  (map (fun j => (j, p)) (c_jac s)) (nodes st)) as [g [l [E Hl]]].
      { intros q Hin. apply in_map_iff in Hin as [j [<- Hj]]. exact Hj. }
      { exact Hr. }
      rewrite E. eexists; eexists; split; [reflexivity|]. exists l. split; [reflexivity|].
      split; [rewrite <- (Forall2_len _ _ _ _ _ Hl), map_length; exact Lj|].
      intros ii e Hi Hd. unfold time_derivative_in in Hd. rewrite En, Epath in Hd. destruct Hd as [j [p' [Hj [Ep Hu]]]]. injection Ep as <-.
      destruct (Forall2_nth_error _ _ _ _ _ Hl ii (j, p)) as [w [Hw Hval]]; [rewrite nth_error_map, Hj; reflexivity|].
      rewrite Hw. f_equal. exact (Hval e Hu).
    - destruct (snd_time s Hs En) as [Lt HT]. specialize (Lt ltac:(congruence)). rewrite Lt, Nat.ltb_irrefl. rewrite firstn_all2 by lia.
      destruct (eval_nodes_ok sigma T _ (below_closed (c_time s)) (c_time s) (nodes st)) as [g [l [E [_ Hl]]]].
      { intros m Hm. split; [exact (proj1 (HT m Hm))|exact (below_self _ _ Hm)]. }
      { exact Hr. }
      rewrite E. eexists; eexists; split; [reflexivity|]. exists l. split; [reflexivity|].
      split; [rewrite <- (Forall2_len _ _ _ _ _ Hl); exact Lt|].
      intros ii e Hi Hd. unfold time_derivative_in in Hd. rewrite En in Hd. destruct Hd as [m [Hm Hu]].
      destruct (Forall2_nth_error _ _ _ _ _ Hl ii m Hm) as [w [Hw Hval]]. rewrite Hw. f_equal. exact (Hval e Hu).
  Qed.

  Lemma time_here_ok : forall sigma T st, ready_time sigma T (nodes st) -> c_path s <> None ->
    exists st' r, time_here fs s T st = Some (st', r) /\ right_time fs s (sigma T) r.
  Proof.
    intros sigma T st Hr Hp. unfold time_here. destruct (c_path s) eqn:E; [|congruence].
    apply time_in_place_ok; [exact Hr|congruence|lia].
  Qed.

  (** *** histories *)
  Lemma run_app : forall a b st, run fs s st (a ++ b) = match run fs s st a with Some st1 => run fs s st1 b | None => None end.
  Proof.
    induction a as [|o a IH]; intros b st; [reflexivity|]. cbn [app run]. destruct (step fs s st o) as [[st1 r]|]; [apply IH|reflexivity].
  Qed.

  Lemma init_run_base : forall sigma h st, run fs s (init sigma) h = Some st -> base_ok G (assigned sigma (flat_map calls h)) (nodes st).
  Proof. intros sigma h st H. exact (run_base fs G Hexp _ _ _ _ (init_base G sigma) (run_calls _ _ _ H)). Qed.

  Lemma set_values_ok : forall T x t st, settable x t = true -> exists st', set_values s T x t st = (st', true) /\ cur st' T = x /\
    (forall T', T' <> T -> cur st' T' = cur st T').
  Proof.
    intros T x t st H. unfold settable in H. apply andb_prop in H as [H1 H2]. unfold set_values, set_variables, set_path. rewrite H1.
    assert (Q : forall c, set_cur c T x T = x) by (intro c; unfold set_cur; rewrite numtype_eqb_refl; reflexivity).
    assert (Q' : forall c T', T' <> T -> set_cur c T x T' = c T').
    { intros c T' N. unfold set_cur. destruct (numtype_eqb T' T) eqn:E; [apply numtype_eqb_eq in E; congruence|reflexivity]. }
    destruct t as [a|]; [destruct (c_path s) as [p|]; [|discriminate]|]; (eexists; split; [reflexivity|]); cbn [cur]; split; auto.
  Qed.

  Lemma acceptable_settable : forall x t, acceptable s x t = true -> settable x t = true /\ length x = length (c_vars s).
  Proof.
    intros x t H. unfold acceptable in H. apply andb_prop in H as [H1 H2]. unfold settable. rewrite H1. split; [|apply Nat.eqb_eq; exact H1].
    destruct (c_path s), t; try reflexivity; discriminate.
  Qed.

  Lemma in_range_jac : forall n, In n jac_roots -> n < length G.
  Proof.
    intros n H. unfold jac_roots in H. destruct (c_node s) eqn:E.
    - destruct (snd_jac s Hs E) as [_ HJ]. destruct (HJ n H) as [[a Ha] _]. apply nth_error_Some. congruence.
    - destruct (snd_space s Hs E) as [_ HS]. exact (proj1 (HS n H)).
  Qed.
  Lemma in_range_time : forall n, In n time_roots -> n < length G.
  Proof.
    intros n H. unfold time_roots in H. destruct (c_node s) eqn:E.
    - destruct (snd_jac s Hs E) as [_ HJ]. destruct (HJ n H) as [[a Ha] _]. apply nth_error_Some. congruence.
    - destruct (snd_time s Hs E) as [_ HT]. exact (proj1 (HT n H)).
  Qed.

  Lemma reset_nodes_total : forall l st, (forall n, In n l -> n < length G) -> exists st', reset_nodes s l st = Some st' /\
    grun fs G (nodes st) (resets l) = Some (nodes st') /\ cur st' = cur st.
  Proof.
    intros l st H. destruct (resets_total l (nodes st) H) as [g E]. exists (mkC g (cur st) (ran st)).
    rewrite reset_nodes_run, E. split; [reflexivity|]. split; reflexivity.
  Qed.

  Lemma roots_ready_jac : forall sigma T g g', base_ok G sigma g -> grun fs G g (resets jac_roots) = Some g' -> ready_jac sigma T g'.
  Proof.
    intros sigma T g g' Hb H. unfold ready_jac, jac_roots in *. destruct (c_node s) eqn:E; [|exact (resets_good _ _ _ _ _ _ Hb H)].
    intros j Hj. destruct (snd_jac s Hs E) as [_ HJ]. destruct (HJ j Hj) as [[a Ha] _]. exact (resets_jgood _ _ _ _ _ _ _ Hb H Hj Ha).
  Qed.
  Lemma roots_ready_time : forall sigma T g g', base_ok G sigma g -> grun fs G g (resets time_roots) = Some g' -> ready_time sigma T g'.
  Proof.
    intros sigma T g g' Hb H. unfold ready_time, time_roots in *. destruct (c_node s) eqn:E; [|exact (resets_good _ _ _ _ _ _ Hb H)].
    intros j Hj. destruct (snd_jac s Hs E) as [_ HJ]. destruct (HJ j Hj) as [[a Ha] _]. exact (resets_jgood _ _ _ _ _ _ _ Hb H Hj Ha).
  Qed.

  (** calls which set nothing of type [T] and evaluate no Jacobian node with the plain Eval *)
  Definition harmless (T : numtype) (o : gop (F := F)) : Prop :=
    not_set T o /\ (c_node s = true -> forall j, In j (c_jac s) -> leaves_jacobian T j o).

  Lemma harmless_resets : forall T l, Forall (harmless T) (resets l).
  Proof. intros T l. apply Forall_forall. intros o H. apply in_map_iff in H as [n [<- _]]. split; [exact I|]. intros _ j _. exact I. Qed.
  Lemma harmless_evalJs : forall T T' l, Forall (harmless T) (evalJs T' l).
  Proof. intros T T' l. apply Forall_forall. intros o H. apply in_map_iff in H as [n [<- _]]. split; [exact I|]. intros _ j _. exact I. Qed.
  Lemma harmless_evals : forall T T' l, (c_node s = true -> forall n, In n l -> In n (c_funs s)) -> Forall (harmless T) (evals T' l).
  Proof.
    intros T T' l Hl. apply Forall_forall. intros o H. apply in_map_iff in H as [n [<- Hn]]. split; [exact I|].
    intros E j Hj. cbn [leaves_jacobian]. intros ->. destruct (snd_jac s Hs E) as [_ HJ]. destruct (HJ j Hj) as [_ [_ Hf]].
    exact (Hf (Hl E j Hn)).
  Qed.
  Lemma harmless_set : forall T T' vs x, T' <> T -> Forall (harmless T) (set_calls T' vs x).
  Proof. intros T T' vs x N. apply Forall_forall. intros o H. apply in_map_iff in H as [p [<- _]]. split; [exact N|]. intros _ j _. exact N. Qed.
  Lemma harmless_time : forall T T' t, T' <> T -> Forall (harmless T) (time_calls T' t).
  Proof.
    intros T T' t N. unfold time_calls. destruct (c_path s), t; constructor; try constructor. exact N. intros _ j _. exact N.
  Qed.
  Lemma harmless_values : forall T T' x t, T' <> T -> Forall (harmless T) (value_calls T' x t).
  Proof.
    intros T T' x t N. unfold value_calls. destruct (length x =? length (c_vars s)); [|constructor].
    apply Forall_app. split; [apply harmless_set|apply harmless_time]; exact N.
  Qed.
  Lemma harmless_all_resets : forall T, Forall (harmless T) all_resets.
  Proof. intro T. unfold all_resets. repeat (apply Forall_app; split); apply harmless_resets. Qed.
  Lemma harmless_jac : forall T T', Forall (harmless T) (jac_calls T').
  Proof. intros T T'. unfold jac_calls. destruct (c_node s) eqn:E; [apply harmless_evalJs|]. apply harmless_evals. congruence. Qed.
  Lemma harmless_dt : forall T T', Forall (harmless T) (dt_calls T').
  Proof.
    intros T T'. unfold dt_calls. destruct (c_path s); [|constructor]. destruct (c_node s) eqn:E; [apply harmless_evalJs|].
    apply harmless_evals. congruence.
  Qed.

  Lemma harmless_calls : forall T o, sets_nothing T o = true -> Forall (harmless T) (calls o).
  Proof.
    intros T o H.
    assert (N : forall T', negb (numtype_eqb T' T) = true -> T' <> T)
      by (intros T' E ->; rewrite numtype_eqb_refl in E; discriminate).
    destruct o as [T' x|T' t|T' p|T' x t| | | | |T'|T'|T'|T' n|T' x t|T' x t|T' x t]; cbn [calls sets_nothing] in *;
      try (specialize (N T' H)).
    - destruct (length x =? length (c_vars s)); [apply harmless_set; exact N|constructor].
    - apply harmless_time; exact N.
    - destruct (length p =? length (c_impl s)); [apply harmless_set; exact N|constructor].
    - apply Forall_app. split; [apply harmless_values; exact N|]. destruct (settable x t); [apply harmless_all_resets|constructor].
    - apply harmless_resets.
    - apply harmless_resets.
    - apply harmless_resets.
    - apply harmless_all_resets.
    - apply harmless_evals. auto.
    - apply harmless_jac.
    - apply harmless_dt.
    - destruct (n <? num_functions s); [constructor|apply harmless_dt].
    - destruct (acceptable s x t); [|constructor]. apply Forall_app. split; [apply harmless_values; exact N|].
      apply Forall_app. split; [apply harmless_resets|]. apply harmless_evals. auto.
    - destruct (acceptable s x t); [|constructor]. apply Forall_app. split; [apply harmless_values; exact N|].
      apply Forall_app. split; [destruct t; [apply harmless_resets|apply harmless_all_resets]|apply harmless_jac].
    - apply Forall_app. split; [apply harmless_values; exact N|]. destruct (settable x t); [|constructor].
      apply Forall_app. split; [apply harmless_resets|apply harmless_dt].
  Qed.

  Lemma harmless_history : forall T h, forallb (sets_nothing T) h = true -> Forall (harmless T) (flat_map calls h).
  Proof.
    intros T h H. rewrite forallb_forall in H. apply Forall_forall. intros g Hg. apply in_flat_map in Hg as [o [Ho Hg]].
    pose proof (harmless_calls T o (H o Ho)) as Q. rewrite Forall_forall in Q. exact (Q g Hg).
  Qed.

  Lemma below_funs_plain : forall m, below (c_funs s) m -> plain G m.
  Proof. apply below_plain. intros n Hn. exact (proj2 (snd_funs s Hs n Hn)). Qed.

  Lemma ready_fun_run : forall sigma T h g g', ready_fun sigma T g -> Forall (harmless T) h -> grun fs G g h = Some g' ->
    ready_fun (assigned sigma h) T g'.
  Proof.
    intros sigma T h g g' Hr Hh E. apply (run_good_plain T _ (below_closed _) below_funs_plain h sigma g g' Hr); [|exact E].
    rewrite Forall_forall in *. intros o Ho. exact (proj1 (Hh o Ho)).
  Qed.

  Lemma jacs_good_run : forall sigma T h g g', c_node s = true -> jacs_good sigma T (c_jac s) g -> Forall (harmless T) h ->
    grun fs G g h = Some g' -> jacs_good (assigned sigma h) T (c_jac s) g'.
  Proof.
    intros sigma T h g g' En Hr Hh E j Hj. destruct (snd_jac s Hs En) as [_ HJ]. destruct (HJ j Hj) as [_ [Hnp _]].
    apply (run_jgood fs G Hexp T j Hnp h sigma g g' (Hr j Hj)); [|exact E].
    rewrite Forall_forall in *. intros o Ho. exact (proj2 (Hh o Ho) En j Hj).
  Qed.

  Lemma ready_jac_run : forall sigma T h g g', ready_jac sigma T g -> Forall (harmless T) h -> grun fs G g h = Some g' ->
    ready_jac (assigned sigma h) T g'.
  Proof.
    intros sigma T h g g' Hr Hh E. unfold ready_jac in *. destruct (c_node s) eqn:En; [exact (jacs_good_run _ _ _ _ _ En Hr Hh E)|].
    destruct (snd_space s Hs En) as [_ HS].
    apply (run_good_plain T _ (below_closed _) (below_plain _ (fun n Hn => proj2 (HS n Hn))) h sigma g g' Hr); [|exact E].
    rewrite Forall_forall in *. intros o Ho. exact (proj1 (Hh o Ho)).
  Qed.

  Lemma ready_time_run : forall sigma T h g g', ready_time sigma T g -> Forall (harmless T) h -> grun fs G g h = Some g' ->
    ready_time (assigned sigma h) T g'.
  Proof.
    intros sigma T h g g' Hr Hh E. unfold ready_time in *. destruct (c_node s) eqn:En; [exact (jacs_good_run _ _ _ _ _ En Hr Hh E)|].
    destruct (snd_time s Hs En) as [_ HT].
    apply (run_good_plain T _ (below_closed _) (below_plain _ (fun n Hn => proj2 (HT n Hn))) h sigma g g' Hr); [|exact E].
    rewrite Forall_forall in *. intros o Ho. exact (proj1 (Hh o Ho)).
  Qed.

  (** *** the point kept *)
  Lemma set_values_cur : forall T T' x t st st' b, T' <> T -> set_values s T' x t st = (st', b) -> cur st' T = cur st T.
  Proof.
    intros T T' x t st st' b N H. unfold set_values, set_variables, set_path in H.
    assert (Q : forall (c : numtype -> list F) y, set_cur c T' y T = c T).
    { intros c y. unfold set_cur. destruct (numtype_eqb T T') eqn:E; [apply numtype_eqb_eq in E; congruence|reflexivity]. }
    destruct (length x =? length (c_vars s)); [|injection H as <- _; reflexivity].
    destruct t as [a|]; [destruct (c_path s)|]; injection H as <- _; cbn [cur]; apply Q.
  Qed.

  Lemma step_cur : forall T st o st' r, sets_nothing T o = true -> step fs s st o = Some (st', r) -> cur st' T = cur st T.
  Proof.
    intros T st o st' r H E.
    assert (N : forall T', negb (numtype_eqb T' T) = true -> T' <> T)
      by (intros T' Q ->; rewrite numtype_eqb_refl in Q; discriminate).
    assert (FinA : forall x, finish x = Some (st', r) -> x = Some st') by (intros [x|] Q; [injection Q as -> _; reflexivity|discriminate]).
    destruct o as [T' x|T' t|T' p|T' x t| | | | |T'|T'|T'|T' n|T' x t|T' x t|T' x t]; cbn [step sets_nothing] in *;
      try (specialize (N T' H)).
    - unfold set_variables in E. destruct (length x =? length (c_vars s)); injection E as <- _; [|reflexivity].
      cbn [cur]. unfold set_cur. destruct (numtype_eqb T T') eqn:Q; [apply numtype_eqb_eq in Q; congruence|reflexivity].
    - unfold set_path in E. destruct (c_path s); injection E as <- _; reflexivity.
    - destruct (length p =? length (c_impl s)); injection E as <- _; reflexivity.
    - destruct (set_values s T' x t st) as [s1 b] eqn:Q. pose proof (set_values_cur _ _ _ _ _ _ _ N Q) as C.
      destruct b; cbn [after_setting] in E; [|injection E as <- _; exact C].
      destruct (reset_all s s1) as [s2|] eqn:R; [|discriminate]. injection E as <- _. rewrite (proj2 (reset_all_some _ _ R)). exact C.
    - rewrite (proj2 (reset_nodes_some _ _ _ (FinA _ E))). reflexivity.
    - rewrite (proj2 (reset_nodes_some _ _ _ (FinA _ E))). reflexivity.
    - rewrite (proj2 (reset_nodes_some _ _ _ (FinA _ E))). reflexivity.
    - rewrite (proj2 (reset_all_some _ _ (FinA _ E))). reflexivity.
    - rewrite (proj2 (eval_here_run _ _ _ _ E)). reflexivity.
    - rewrite (proj2 (jacobian_here_run _ _ _ _ E)). reflexivity.
    - rewrite (proj2 (time_here_run _ _ _ _ E)). reflexivity.
    - rewrite (proj2 (time_in_place_run _ _ _ _ _ E)). reflexivity.
    - destruct (acceptable s x t); [|injection E as <- _; reflexivity].
      destruct (set_values s T' x t st) as [s1 b] eqn:Q. pose proof (set_values_cur _ _ _ _ _ _ _ N Q) as C.
      destruct b; cbn [after_setting] in E; [|injection E as <- _; exact C].
      destruct (reset_functions s s1) as [s2|] eqn:R; [|discriminate]. unfold reset_functions in R.
      rewrite (proj2 (eval_here_run _ _ _ _ E)), (proj2 (reset_nodes_some _ _ _ R)). exact C.
    - destruct (acceptable s x t); [|injection E as <- _; reflexivity].
      destruct (set_values s T' x t st) as [s1 b] eqn:Q. pose proof (set_values_cur _ _ _ _ _ _ _ N Q) as C.
      destruct b; cbn [after_setting] in E; [|injection E as <- _; exact C].
      destruct t as [t|].
      + destruct (reset_jacobian s s1) as [s2|] eqn:R; [|discriminate]. unfold reset_jacobian in R.
        rewrite (proj2 (jacobian_here_run _ _ _ _ E)), (proj2 (reset_nodes_some _ _ _ R)). exact C.
      + destruct (reset_all s s1) as [s2|] eqn:R; [|discriminate].
        rewrite (proj2 (jacobian_here_run _ _ _ _ E)), (proj2 (reset_all_some _ _ R)). exact C.
    - destruct (set_values s T' x t st) as [s1 b] eqn:Q. pose proof (set_values_cur _ _ _ _ _ _ _ N Q) as C.
      destruct b; cbn [after_setting] in E; [|injection E as <- _; exact C].
      destruct (reset_time s s1) as [s2|] eqn:R; [|discriminate]. unfold reset_time in R.
      rewrite (proj2 (time_here_run _ _ _ _ E)), (proj2 (reset_nodes_some _ _ _ R)). exact C.
  Qed.

  Lemma run_cur : forall T h st st', forallb (sets_nothing T) h = true -> run fs s st h = Some st' -> cur st' T = cur st T.
  Proof.
    intros T. induction h as [|o h IH]; intros st st' H E; cbn [run forallb] in *; [injection E as <-; reflexivity|].
    apply andb_prop in H as [H1 H2]. destruct (step fs s st o) as [[s1 r]|] eqn:Q; [|discriminate].
    rewrite (IH _ _ H2 E). exact (step_cur _ _ _ _ _ H1 Q).
  Qed.

  (** *** values which agree *)
  Lemma right_values_ext : forall rho rho' x r, (forall y, rho y = rho' y) -> right_values fs s rho x r -> right_values fs s rho' x r.
  Proof.
    intros rho rho' x r H [l [p [E [Hl Hp]]]]. exists l, p. split; [exact E|]. split; [|exact Hp].
    clear E. induction Hl as [|n v ns vs Hv Hl IH]; constructor; [|exact IH]. intros e Hu. rewrite (Hv e Hu). apply eval_ext. auto.
  Qed.
  Lemma right_jacobian_ext : forall rho rho' x r, (forall y, rho y = rho' y) -> right_jacobian fs s rho x r -> right_jacobian fs s rho' x r.
  Proof.
    intros rho rho' x r H [l [p [E [Hl [Hv Hp]]]]]. exists l, p. split; [exact E|]. split; [exact Hl|]. split; [|exact Hp].
    intros ii jj v e Hi Hj Hd. destruct (Hv ii jj v e Hi Hj Hd) as [row [R1 R2]]. exists row. split; [exact R1|]. rewrite R2. f_equal. apply eval_ext. auto.
  Qed.
  Lemma right_time_ext : forall rho rho' r, (forall y, rho y = rho' y) -> right_time fs s rho r -> right_time fs s rho' r.
  Proof.
    intros rho rho' r H [l [E [Hl Hv]]]. exists l. split; [exact E|]. split; [exact Hl|].
    intros ii e Hi Hd. rewrite (Hv ii e Hi Hd). f_equal. apply eval_ext. auto.
  Qed.

  Lemma last_app : forall sigma a b T y, last_given s sigma (a ++ b) T y = give (last_given s sigma a T) (flat_map (given s T) b) y.
  Proof. intros. unfold last_given, give. rewrite flat_map_app, fold_left_app. reflexivity. Qed.

  Lemma last_ops : forall sigma h cs o T, flat_map (gives T) cs = given s T o ->
    forall y, assigned sigma (flat_map calls h ++ cs) T y = last_given s sigma (h ++ [o]) T y.
  Proof.
    intros sigma h cs o T E y. rewrite assigned_give, flat_map_app, E, last_app. unfold give. rewrite fold_left_app.
    cbn [flat_map]. rewrite app_nil_r. apply give_ext. intro z. rewrite <- assigned_last, assigned_give. reflexivity.
  Qed.

  (** *** the run of the empty program *)
  Lemma set_values_ran : forall T x t st, ran (fst (set_values s T x t st)) = ran st.
  Proof.
    intros T x t st. unfold set_values, set_variables, set_path. destruct (length x =? length (c_vars s)); [|reflexivity].
    destruct t; [destruct (c_path s)|]; reflexivity.
  Qed.
  Lemma reset_nodes_ran : forall l st st', reset_nodes s l st = Some st' -> ran st' = ran st.
  Proof.
    intros l st st' H. rewrite reset_nodes_run in H. destruct (grun fs G (nodes st) (resets l)); [|discriminate]. injection H as <-. reflexivity.
  Qed.
  Lemma reset_all_ran : forall st st', reset_all s st = Some st' -> ran st' = ran st.
  Proof.
    intros st st' H. unfold reset_all, and_then, reset_functions, reset_jacobian, reset_time in H.
    destruct (reset_nodes s (c_funs s) st) as [s1|] eqn:E1; [|discriminate].
    destruct (reset_nodes s _ s1) as [s2|] eqn:E2 in H; [|discriminate].
    rewrite (reset_nodes_ran _ _ _ H), (reset_nodes_ran _ _ _ E2). exact (reset_nodes_ran _ _ _ E1).
  Qed.
  Lemma eval_here_ran : forall T st st' r, eval_here fs s T st = Some (st', r) -> ran st' = true.
  Proof.
    intros T st st' r H. unfold eval_here in H. destruct (match T with Dbl => true | Mp => ran st end); [|discriminate].
    destruct (eval_nodes fs s T (c_funs s) (nodes st)) as [[g l]|]; [|discriminate].
    destruct (patch_values s (cur st T)); [|discriminate]. injection H as <- _. reflexivity.
  Qed.
  Lemma jacobian_here_ran : forall T st st' r, jacobian_here fs s T st = Some (st', r) -> ran st' = ran st.
  Proof.
    intros T st st' r H. unfold jacobian_here in H. destruct (c_node s); destruct (_ <? _) in H; try discriminate.
    - destruct (evalJ_nodes _ _ _ _ _) as [[g l]|]; [|discriminate]. destruct (patch_jacobian _ _); [|discriminate]. injection H as <- _. reflexivity.
    - destruct (eval_nodes _ _ _ _ _) as [[g l]|]; [|discriminate]. destruct (patch_jacobian _ _); [|discriminate]. injection H as <- _. reflexivity.
  Qed.
  Lemma time_in_place_ran : forall T n st st' r, time_in_place fs s T n st = Some (st', r) -> ran st' = ran st.
  Proof.
    intros T n st st' r H. unfold time_in_place in H. destruct (n <? num_functions s); [injection H as <- _; reflexivity|].
    destruct (c_path s) as [p|]; [|injection H as <- _; reflexivity]. destruct (n <? num_functions s + num_patches s); [discriminate|].
    match type of H with match ?x with _ => _ end = _ => destruct x as [[g l]|] end; [|discriminate]. injection H as <- _. reflexivity.
  Qed.
  Lemma time_here_ran : forall T st st' r, time_here fs s T st = Some (st', r) -> ran st' = ran st.
  Proof.
    intros T st st' r H. unfold time_here in H. destruct (c_path s); [exact (time_in_place_ran _ _ _ _ _ H)|injection H as <- _; reflexivity].
  Qed.

  Lemma step_ran : forall st o st' r, step fs s st o = Some (st', r) ->
    (ran st = true -> ran st' = true) /\ (evaluates_double s o = true -> ran st' = true).
  Proof.
    intros st o st' r E.
    assert (FinA : forall x, finish x = Some (st', r) -> x = Some st') by (intros [x|] Q; [injection Q as -> _; reflexivity|discriminate]).
    assert (Same : ran st' = ran st -> evaluates_double s o = false ->
              (ran st = true -> ran st' = true) /\ (evaluates_double s o = true -> ran st' = true))
      by (intros Q Q2; split; [congruence|congruence]).
    destruct o as [T' x|T' t|T' p|T' x t| | | | |T'|T'|T'|T' n|T' x t|T' x t|T' x t]; cbn [step] in E.
    - apply Same; [|reflexivity]. unfold set_variables in E. destruct (length x =? length (c_vars s)); injection E as <- _; reflexivity.
    - apply Same; [|reflexivity]. unfold set_path in E. destruct (c_path s); injection E as <- _; reflexivity.
    - apply Same; [|reflexivity]. destruct (length p =? length (c_impl s)); injection E as <- _; reflexivity.
    - apply Same; [|reflexivity]. pose proof (set_values_ran T' x t st) as C. destruct (set_values s T' x t st) as [s1 b] eqn:Q. cbn [fst] in C.
      destruct b; cbn [after_setting] in E; [|injection E as <- _; exact C].
      destruct (reset_all s s1) as [s2|] eqn:R; [|discriminate]. injection E as <- _. rewrite (reset_all_ran _ _ R). exact C.
    - apply Same; [|reflexivity]. exact (reset_nodes_ran _ _ _ (FinA _ E)).
    - apply Same; [|reflexivity]. exact (reset_nodes_ran _ _ _ (FinA _ E)).
    - apply Same; [|reflexivity]. exact (reset_nodes_ran _ _ _ (FinA _ E)).
    - apply Same; [|reflexivity]. exact (reset_all_ran _ _ (FinA _ E)).
    - pose proof (eval_here_ran _ _ _ _ E) as Q. auto.
    - apply Same; [|reflexivity]. exact (jacobian_here_ran _ _ _ _ E).
    - apply Same; [|reflexivity]. exact (time_here_ran _ _ _ _ E).
    - apply Same; [|reflexivity]. exact (time_in_place_ran _ _ _ _ _ E).
    - destruct (acceptable s x t) eqn:Ha.
      + pose proof (set_values_ran T' x t st) as C. pose proof (set_values_run T' x t st) as V.
        destruct (set_values s T' x t st) as [s1 b] eqn:Q. cbn [fst] in C. specialize (V s1 b eq_refl).
        destruct b; cbn [after_setting] in E.
        * destruct (reset_functions s s1) as [s2|] eqn:R; [|discriminate]. pose proof (eval_here_ran _ _ _ _ E). auto.
        * destruct V as [_ V]. unfold settable in V. unfold acceptable in Ha. apply andb_prop in Ha as [H1 H2]. rewrite H1 in V.
          destruct t, (c_path s); discriminate.
      + apply Same; [injection E as <- _; reflexivity|]. cbn [evaluates_double]. rewrite Ha. destruct T'; reflexivity.
    - apply Same; [|reflexivity]. destruct (acceptable s x t); [|injection E as <- _; reflexivity].
      pose proof (set_values_ran T' x t st) as C. destruct (set_values s T' x t st) as [s1 b] eqn:Q. cbn [fst] in C.
      destruct b; cbn [after_setting] in E; [|injection E as <- _; exact C].
      destruct t as [t|].
      + destruct (reset_jacobian s s1) as [s2|] eqn:R; [|discriminate].
        rewrite (jacobian_here_ran _ _ _ _ E), (reset_nodes_ran _ _ _ R). exact C.
      + destruct (reset_all s s1) as [s2|] eqn:R; [|discriminate].
        rewrite (jacobian_here_ran _ _ _ _ E), (reset_all_ran _ _ R). exact C.
    - apply Same; [|reflexivity].
      pose proof (set_values_ran T' x t st) as C. destruct (set_values s T' x t st) as [s1 b] eqn:Q. cbn [fst] in C.
      destruct b; cbn [after_setting] in E; [|injection E as <- _; exact C].
      destruct (reset_time s s1) as [s2|] eqn:R; [|discriminate].
      rewrite (time_here_ran _ _ _ _ E), (reset_nodes_ran _ _ _ R). exact C.
  Qed.

  Lemma run_keeps_ran : forall h st st', run fs s st h = Some st' -> ran st = true -> ran st' = true.
  Proof.
    induction h as [|o h IH]; intros st st' H R; cbn [run] in H; [injection H as <-; exact R|].
    destruct (step fs s st o) as [[s1 r]|] eqn:E; [|discriminate]. exact (IH _ _ H (proj1 (step_ran _ _ _ _ E) R)).
  Qed.
  Lemma run_ran : forall h st st', run fs s st h = Some st' -> existsb (evaluates_double s) h = true -> ran st' = true.
  Proof.
    induction h as [|o h IH]; intros st st' H R; cbn [run existsb] in *; [discriminate|].
    destruct (step fs s st o) as [[s1 r]|] eqn:E; [|discriminate]. apply orb_prop in R as [R|R].
    - exact (run_keeps_ran _ _ _ H (proj2 (step_ran _ _ _ _ E) R)).
    - exact (IH _ _ H R).
  Qed.

  (** *** the theorems *)
  Theorem eval_at : forall sigma h st T x t, run fs s (init sigma) h = Some st -> acceptable s x t = true ->
    T = Dbl \/ existsb (evaluates_double s) h = true ->
    exists st' r, step fs s st (EvalAt T x t) = Some (st', r) /\
      right_values fs s (last_given s sigma (h ++ [EvalAt T x t]) T) x r.
  Proof.
    intros sigma h st T x t Hrun Ha HT. cbn [step]. rewrite Ha. destruct (acceptable_settable x t Ha) as [Hset Hx].
    destruct (set_values_ok T x t st Hset) as [s1 [E1 [C1 _]]]. pose proof (set_values_ran T x t st) as N1. rewrite E1 in N1 |- *. cbn [after_setting fst] in *.
    destruct (set_values_run _ _ _ _ _ _ E1) as [R1 _].
    pose proof (run_base fs G Hexp _ _ _ _ (init_run_base _ _ _ Hrun) R1) as Hb. rewrite <- assigned_app in Hb.
    destruct (reset_nodes_total (c_funs s) s1 (fun n Hn => proj1 (snd_funs s Hs n Hn))) as [s2 [E2 [R2 C2]]].
    unfold reset_functions. rewrite E2.
    pose proof (resets_good _ T None _ _ _ Hb R2) as Hg.
    assert (HT2 : T = Dbl \/ ran s2 = true).
    { destruct HT as [HT|HT]; [left; exact HT|right]. rewrite (reset_nodes_ran _ _ _ E2), N1. exact (run_ran _ _ _ Hrun HT). }
    destruct (eval_here_ok _ T s2 x HT2 Hg (eq_trans (f_equal (fun c => c T) C2) C1) Hx) as [st' [r [E3 Hr]]].
    exists st', r. split; [exact E3|]. refine (right_values_ext _ _ _ _ _ Hr).
    apply last_ops. cbn [given]. rewrite Ha, gives_values. apply Nat.eqb_eq in Hx. rewrite Hx. reflexivity.
  Qed.

  Theorem jacobian_at : forall sigma h st T x t, run fs s (init sigma) h = Some st -> acceptable s x t = true ->
    exists st' r, step fs s st (JacobianAt T x t) = Some (st', r) /\
      right_jacobian fs s (last_given s sigma (h ++ [JacobianAt T x t]) T) x r.
  Proof.
    intros sigma h st T x t Hrun Ha. cbn [step]. rewrite Ha. destruct (acceptable_settable x t Ha) as [Hset Hx].
    destruct (set_values_ok T x t st Hset) as [s1 [E1 [C1 _]]]. rewrite E1. cbn [after_setting].
    destruct (set_values_run _ _ _ _ _ _ E1) as [R1 _].
    pose proof (run_base fs G Hexp _ _ _ _ (init_run_base _ _ _ Hrun) R1) as Hb. rewrite <- assigned_app in Hb.
    assert (Q : forall y, assigned sigma (flat_map calls h ++ value_calls T x t) T y = last_given s sigma (h ++ [JacobianAt T x t]) T y).
    { apply last_ops. cbn [given]. rewrite Ha, gives_values. apply Nat.eqb_eq in Hx. rewrite Hx. reflexivity. }
    destruct t as [t|].
    - destruct (reset_nodes_total jac_roots s1 in_range_jac) as [s2 [E2 [R2 C2]]]. unfold reset_jacobian.
      fold jac_roots. rewrite E2.
      destruct (jacobian_here_ok _ T s2 x (roots_ready_jac _ T _ _ Hb R2) (eq_trans (f_equal (fun c => c T) C2) C1) Hx) as [st' [r [E3 Hr]]].
      exists st', r. split; [exact E3|]. exact (right_jacobian_ext _ _ _ _ Q Hr).
    - unfold reset_all, and_then, reset_functions, reset_jacobian, reset_time. fold jac_roots. fold time_roots.
      destruct (reset_nodes_total (c_funs s) s1 (fun n Hn => proj1 (snd_funs s Hs n Hn))) as [s2 [E2 [R2 C2]]]. rewrite E2.
      destruct (reset_nodes_total jac_roots s2 in_range_jac) as [s3 [E3 [R3 C3]]]. rewrite E3.
      destruct (reset_nodes_total time_roots s3 in_range_time) as [s4 [E4 [R4 C4]]]. rewrite E4.
      pose proof (weaker_base _ _ _ _ (resets_weaker _ _ _ R2) Hb) as Hb2.
      pose proof (roots_ready_jac _ T _ _ Hb2 R3) as Hj.
      pose proof (ready_jac_run _ T _ _ _ Hj (harmless_resets T time_roots) R4) as Hj4.
      destruct (jacobian_here_ok _ T s4 x Hj4) as [st' [r [E5 Hr]]]; [rewrite C4, C3, C2; exact C1|exact Hx|].
      exists st', r. split; [exact E5|]. refine (right_jacobian_ext _ _ _ _ _ Hr). intro y. rewrite <- Q.
      rewrite (assigned_give (resets time_roots)), gives_resets. reflexivity.
  Qed.

  Theorem time_at : forall sigma h st T x t, run fs s (init sigma) h = Some st -> c_path s <> None -> length x = length (c_vars s) ->
    exists st' r, step fs s st (TimeAt T x t) = Some (st', r) /\
      right_time fs s (last_given s sigma (h ++ [TimeAt T x t]) T) r.
  Proof.
    intros sigma h st T x t Hrun Hp Hx. cbn [step].
    assert (Hset : settable x t = true).
    { unfold settable. apply Nat.eqb_eq in Hx. rewrite Hx. destruct (c_path s); [destruct t; reflexivity|congruence]. }
    destruct (set_values_ok T x t st Hset) as [s1 [E1 [C1 _]]]. rewrite E1. cbn [after_setting].
    destruct (set_values_run _ _ _ _ _ _ E1) as [R1 _].
    pose proof (run_base fs G Hexp _ _ _ _ (init_run_base _ _ _ Hrun) R1) as Hb. rewrite <- assigned_app in Hb.
    destruct (reset_nodes_total time_roots s1 in_range_time) as [s2 [E2 [R2 C2]]]. unfold reset_time. fold time_roots. rewrite E2.
    destruct (time_here_ok _ T s2 (roots_ready_time _ T _ _ Hb R2) Hp) as [st' [r [E3 Hr]]].
    exists st', r. split; [exact E3|]. refine (right_time_ext _ _ _ _ Hr).
    apply last_ops. cbn [given]. rewrite gives_values. reflexivity.
  Qed.

  (** a call after which all caches are fresh and the point is [x], [t] *)
  Definition starts_at (T : numtype) (x : list F) (t : option F) (o : sop (F := F)) : Prop :=
    o = SetAndReset T x t \/ (t = None /\ o = JacobianAt T x None).

  Lemma started : forall sigma h st T x t o st1 r1, run fs s (init sigma) h = Some st -> acceptable s x t = true -> starts_at T x t o ->
    step fs s st o = Some (st1, r1) ->
    let sg := assigned sigma (flat_map calls h ++ calls o) in
    ready_fun sg T (nodes st1) /\ ready_jac sg T (nodes st1) /\ ready_time sg T (nodes st1) /\ cur st1 T = x.
  Proof.
    intros sigma h st T x t o st1 r1 Hrun Ha Ho E sg. destruct (acceptable_settable x t Ha) as [Hset Hx].
    destruct (set_values_ok T x t st Hset) as [s1 [E1 [C1 _]]].
    destruct (set_values_run _ _ _ _ _ _ E1) as [R1 _].
    pose proof (run_base fs G Hexp _ _ _ _ (init_run_base _ _ _ Hrun) R1) as Hb. rewrite <- assigned_app in Hb.
    destruct (reset_nodes_total (c_funs s) s1 (fun n Hn => proj1 (snd_funs s Hs n Hn))) as [s2 [E2 [R2 C2]]].
    destruct (reset_nodes_total jac_roots s2 in_range_jac) as [s3 [E3 [R3 C3]]].
    destruct (reset_nodes_total time_roots s3 in_range_time) as [s4 [E4 [R4 C4]]].
    assert (RA : reset_all s s1 = Some s4).
    { unfold reset_all, and_then, reset_functions, reset_jacobian, reset_time. fold jac_roots. fold time_roots. rewrite E2, E3. exact E4. }
    pose proof (weaker_base _ _ _ _ (resets_weaker _ _ _ R2) Hb) as Hb2.
    pose proof (weaker_base _ _ _ _ (resets_weaker _ _ _ R3) Hb2) as Hb3.
    assert (T1 : grun fs G (nodes s2) (resets jac_roots ++ resets time_roots) = Some (nodes s4)) by (eapply run_seq; eassumption).
    pose proof (ready_fun_run _ T _ _ _ (resets_good _ T None _ _ _ Hb R2)
                  (proj2 (Forall_app _ _ _) (conj (harmless_resets T jac_roots) (harmless_resets T time_roots))) T1) as P1.
    pose proof (ready_jac_run _ T _ _ _ (roots_ready_jac _ T _ _ Hb2 R3) (harmless_resets T time_roots) R4) as P2.
    pose proof (roots_ready_time _ T _ _ Hb3 R4) as P3.
    assert (TA : grun fs G (nodes s1) all_resets = Some (nodes s4)) by exact (proj1 (reset_all_some _ _ RA)).
    assert (K : forall l, Forall (harmless T) l -> (exists g, grun fs G g l = Some g) \/ True) by (intros; right; exact I). clear K.
    (* the assignments made by the resets are none *)
    assert (Eq : forall l, flat_map (gives T) l = [] -> forall T' y, T' = T -> assigned (assigned sigma (flat_map calls h ++ value_calls T x t)) l T' y =
                   assigned sigma (flat_map calls h ++ value_calls T x t) T' y).
    { intros l El T' y ->. rewrite assigned_give, El. reflexivity. }
    assert (C : cur s4 T = x) by (rewrite C4, C3, C2; exact C1).
    assert (Fun : forall sg1 sg2 g, base_ok G sg2 g -> (forall y, sg1 T y = sg2 T y) -> forall R, good fs G sg1 T None R g -> good fs G sg2 T None R g).
    { intros sg1 sg2 g B Q R [_ V]. split; [exact B|]. intros m e Hm Hu Hf. rewrite (V m e Hm Hu Hf). apply eval_ext. intros; apply Q. }
    assert (Jac : forall sg1 sg2 g, base_ok G sg2 g -> (forall y, sg1 T y = sg2 T y) -> forall j, jgood fs G sg1 T j g -> jgood fs G sg2 T j g).
    { intros sg1 sg2 g B Q j [_ V]. split; [exact B|]. intros Hf e Hu. rewrite (V Hf e Hu). apply eval_ext. intros; apply Q. }
    assert (Base : base_ok G sg (nodes st1)).
    { unfold sg. rewrite assigned_app. exact (run_base fs G Hexp _ _ _ _ (init_run_base _ _ _ Hrun) (step_calls _ _ _ _ E)). }
    (* bring both kinds of calls to the state [s4] followed by harmless calls *)
    assert (Main : exists more, Forall (harmless T) more /\ flat_map (gives T) more = [] /\ grun fs G (nodes s4) more = Some (nodes st1) /\
              cur st1 = cur s4 /\ forall y, sg T y = assigned sigma (flat_map calls h ++ value_calls T x t) T y).
    { destruct Ho as [->|[-> ->]]; cbn [step] in E.
      - rewrite E1 in E. cbn [after_setting] in E. rewrite RA in E. injection E as <- _.
        exists []. split; [constructor|]. split; [reflexivity|]. split; [reflexivity|]. split; [reflexivity|].
        intro y. unfold sg. cbn [calls]. rewrite Hset, !app_assoc, assigned_app, assigned_give, gives_all_resets. reflexivity.
      - rewrite Ha, E1 in E. cbn [after_setting] in E. rewrite RA in E.
        destruct (jacobian_here_run _ _ _ _ E) as [J1 J2].
        exists (jac_calls T). split; [apply harmless_jac|]. split; [apply gives_jac|]. split; [exact J1|]. split; [exact J2|].
        intro y. unfold sg. cbn [calls]. rewrite Ha, !app_assoc, assigned_app, assigned_give, gives_jac.
        cbn [give fold_left]. unfold give. cbn [fold_left]. rewrite assigned_app, assigned_give, gives_all_resets. reflexivity. }
    destruct Main as [more [M1 [M2 [M3 [M4 M5]]]]].
    assert (Q1 : forall y, assigned (assigned (assigned sigma (flat_map calls h ++ value_calls T x t)) (resets jac_roots ++ resets time_roots)) more T y = sg T y).
    { intro y. rewrite M5, assigned_give, M2. unfold give. cbn [fold_left]. rewrite assigned_give, flat_map_app, !gives_resets. reflexivity. }
    assert (Q2 : forall y, assigned (assigned (assigned sigma (flat_map calls h ++ value_calls T x t)) (resets time_roots)) more T y = sg T y).
    { intro y. rewrite M5, assigned_give, M2. unfold give. cbn [fold_left]. rewrite assigned_give, !gives_resets. reflexivity. }
    assert (Q3 : forall y, assigned (assigned sigma (flat_map calls h ++ value_calls T x t)) more T y = sg T y).
    { intro y. rewrite M5, assigned_give, M2. reflexivity. }
    split; [|split; [|split]].
    - exact (Fun _ sg _ Base Q1 _ (ready_fun_run _ _ _ _ _ P1 M1 M3)).
    - pose proof (ready_jac_run _ _ _ _ _ P2 M1 M3) as P. unfold ready_jac in *. destruct (c_node s).
      + intros j Hj. exact (Jac _ sg _ Base Q2 j (P j Hj)).
      + exact (Fun _ sg _ Base Q2 _ P).
    - pose proof (ready_time_run _ _ _ _ _ P3 M1 M3) as P. unfold ready_time in *. destruct (c_node s).
      + intros j Hj. exact (Jac _ sg _ Base Q3 j (P j Hj)).
      + exact (Fun _ sg _ Base Q3 _ P).
    - rewrite M4. exact C.
  Qed.

  Theorem evaluations_here : forall sigma h T x t o h' st, acceptable s x t = true -> starts_at T x t o ->
    forallb (sets_nothing T) h' = true -> run fs s (init sigma) (h ++ o :: h') = Some st ->
    let rho := last_given s sigma (h ++ [o]) T in
    (T = Dbl \/ existsb (evaluates_double s) (h ++ o :: h') = true -> exists st' r, step fs s st (EvalHere T) = Some (st', r) /\ right_values fs s rho x r) /\
    (exists st' r, step fs s st (JacobianHere T) = Some (st', r) /\ right_jacobian fs s rho x r) /\
    (c_path s <> None -> exists st' r, step fs s st (TimeHere T) = Some (st', r) /\ right_time fs s rho r).
  Proof.
    intros sigma h T x t o h' st Ha Ho Hq Hrun rho. pose proof Hrun as Hrun0. rewrite run_app in Hrun.
    destruct (run fs s (init sigma) h) as [s0|] eqn:E0; [|discriminate]. cbn [run] in Hrun.
    destruct (step fs s s0 o) as [[s1 r1]|] eqn:E1; [|discriminate].
    destruct (started sigma h s0 T x t o s1 r1 E0 Ha Ho E1) as [P1 [P2 [P3 C1]]].
    pose proof (run_calls _ _ _ Hrun) as R. pose proof (harmless_history T h' Hq) as Hh.
    pose proof (ready_fun_run _ _ _ _ _ P1 Hh R) as Q1. pose proof (ready_jac_run _ _ _ _ _ P2 Hh R) as Q2.
    pose proof (ready_time_run _ _ _ _ _ P3 Hh R) as Q3.
    assert (C : cur st T = x) by (rewrite (run_cur T h' s1 st Hq Hrun); exact C1).
    destruct (acceptable_settable x t Ha) as [_ Hx].
    assert (NG : flat_map (gives T) (flat_map calls h') = []).
    { apply gives_nil. intros g Hg. rewrite Forall_forall in Hh. destruct (Hh g Hg) as [N _]. destruct g as [T' v a| | |]; try reflexivity.
      cbn [gives not_set] in *. destruct (numtype_eqb T T') eqn:Q; [apply numtype_eqb_eq in Q; congruence|reflexivity]. }
    assert (EQ : forall y, assigned (assigned sigma (flat_map calls h ++ calls o)) (flat_map calls h') T y = rho y).
    { intro y. rewrite assigned_give, NG. unfold give. cbn [fold_left]. apply last_ops. apply given_calls. }
    split; [|split].
    - intros HT. cbn [step]. destruct (eval_here_ok _ T st x (or_ind (fun e => or_introl e) (fun e => or_intror (run_ran _ _ _ Hrun0 e)) HT) Q1 C Hx) as [st' [r [E2 Hr]]]. exists st', r. split; [exact E2|].
      exact (right_values_ext _ _ _ _ EQ Hr).
    - cbn [step]. destruct (jacobian_here_ok _ T st x Q2 C Hx) as [st' [r [E2 Hr]]]. exists st', r. split; [exact E2|].
      exact (right_jacobian_ext _ _ _ _ EQ Hr).
    - intro Hp. cbn [step]. destruct (time_here_ok _ T st Q3 Hp) as [st' [r [E2 Hr]]]. exists st', r. split; [exact E2|].
      exact (right_time_ext _ _ _ EQ Hr).
  Qed.

  (** *** the values given by an accepted call *)
  Lemma give_absent : forall l rho y, ~ In y (map fst l) -> give rho l y = rho y.
  Proof.
    unfold give. induction l as [|[v a] l IH]; intros rho y H; [reflexivity|]. cbn [fold_left fst snd map] in *.
    rewrite IH by (intro Q; apply H; right; exact Q). unfold upd. destruct (Nat.eq_dec y v); [|reflexivity].
    exfalso. apply H. left. auto.
  Qed.

  Lemma give_point : forall vs x rho, NoDup vs -> length x = length vs -> map (give rho (combine vs x)) vs = x.
  Proof.
    induction vs as [|v vs IH]; intros [|a x] rho Hn Hl; try discriminate; [reflexivity|]. inversion Hn as [|? ? Hv Hn']; subst.
    cbn [combine map]. assert (Q : give rho ((v, a) :: combine vs x) = give (upd rho v a) (combine vs x)) by reflexivity. rewrite Q. f_equal.
    - rewrite give_absent; [unfold upd; destruct (Nat.eq_dec v v); congruence|]. intro H. apply Hv.
      apply in_map_iff in H as [[u b] [<- H]]. exact (in_combine_l _ _ _ _ H).
    - apply IH; [exact Hn'|]. cbn in Hl. congruence.
  Qed.

  Theorem point_given : forall sigma h T x t o, acceptable s x t = true ->
    o = EvalAt T x t \/ o = JacobianAt T x t \/ o = TimeAt T x t \/ o = SetAndReset T x t ->
    map (last_given s sigma (h ++ [o]) T) (c_vars s) = x /\
    option_map (last_given s sigma (h ++ [o]) T) (c_path s) = t.
  Proof.
    intros sigma h T x t o Ha Ho. destruct (acceptable_settable x t Ha) as [_ Hx]. pose proof Hx as Hx'. apply Nat.eqb_eq in Hx'.
    assert (E : given s T o = combine (c_vars s) x ++ match c_path s, t with Some p, Some a => [(p, a)] | _, _ => [] end).
    { destruct Ho as [->|[->|[->| ->]]]; cbn [given]; rewrite ?Ha, ?Hx', numtype_eqb_refl; cbn [andb]; reflexivity. }
    assert (L : forall y, last_given s sigma (h ++ [o]) T y =
       give (give (last_given s sigma h T) (combine (c_vars s) x)) match c_path s, t with Some p, Some a => [(p, a)] | _, _ => [] end y).
    { intro y. rewrite last_app. cbn [flat_map]. rewrite app_nil_r, E. unfold give. rewrite fold_left_app. reflexivity. }
    unfold acceptable in Ha. apply andb_prop in Ha as [_ Ha]. split.
    - transitivity (map (give (last_given s sigma h T) (combine (c_vars s) x)) (c_vars s)); [|exact (give_point _ _ _ (snd_nodup s Hs) Hx)].
      apply map_ext_in. intros v Hv. rewrite L. destruct (c_path s) as [p|] eqn:Ep; [|destruct t; reflexivity].
      destruct t as [a|]; [|reflexivity]. apply give_absent. cbn. intros [<-|[]]. exact (proj2 (snd_path s Hs p Ep) Hv).
    - destruct (c_path s) as [p|]; destruct t as [a|]; try discriminate; [|reflexivity]. cbn [option_map]. f_equal.
      rewrite L. unfold give at 1. cbn [fold_left fst snd]. unfold upd. destruct (Nat.eq_dec p p); congruence.
  Qed.

  Theorem point_given_no_time : forall sigma h T x, length x = length (c_vars s) ->
    map (last_given s sigma (h ++ [TimeAt T x None]) T) (c_vars s) = x /\
    option_map (last_given s sigma (h ++ [TimeAt T x None]) T) (c_path s) = option_map (last_given s sigma h T) (c_path s).
  Proof.
    intros sigma h T x Hx.
    assert (L : forall y, last_given s sigma (h ++ [TimeAt T x None]) T y = give (last_given s sigma h T) (combine (c_vars s) x) y).
    { intro y. rewrite last_app. cbn [flat_map given]. rewrite (proj2 (Nat.eqb_eq _ _) Hx), numtype_eqb_refl. cbn [andb].
      destruct (c_path s); rewrite !app_nil_r; reflexivity. }
    split.
    - transitivity (map (give (last_given s sigma h T) (combine (c_vars s) x)) (c_vars s)); [|exact (give_point _ _ _ (snd_nodup s Hs) Hx)].
      apply map_ext. exact L.
    - destruct (c_path s) as [p|] eqn:Ep; [|reflexivity]. cbn [option_map]. f_equal. rewrite L. apply give_absent.
      intro H. apply in_map_iff in H as [[u b] [Q H]]. cbn [fst] in Q. subst u. exact (proj2 (snd_path s Hs p Ep) (in_combine_l _ _ _ _ H)).
  Qed.

  Theorem vector_total : forall st T n, n < num_functions s \/ num_functions s + num_patches s <= n ->
    step fs s st (TimeInPlace T n) <> None.
  Proof.
    intros st T n H. cbn [step]. unfold time_in_place. destruct (Nat.ltb_spec n (num_functions s)) as [L|L]; [discriminate|].
    destruct (c_path s) as [p|] eqn:Ep; [|discriminate].
    destruct (Nat.ltb_spec n (num_functions s + num_patches s)) as [L2|_]; [lia|].
    assert (E1 : forall l g, (forall m, In m l -> m < length G) -> exists r, eval_nodes fs s T l g = Some r).
    { induction l as [|m l IH]; intros g Hm; [eexists; reflexivity|]. cbn [eval_nodes]. fold G.
      assert (Lm : m < length G) by (apply Hm; left; reflexivity).
      destruct (geval_total fs G Hwf (S (length G)) m T None g) as [g1 [v E]]; [lia|exact Lm|]. rewrite E.
      destruct (IH g1) as [[g2 vs] E2]; [intros; apply Hm; right; assumption|]. rewrite E2. eexists; reflexivity. }
    assert (E2 : forall l g, (forall m v, In (m, v) l -> exists a, nth_error G m = Some (GHandle a)) -> exists r, evalJ_nodes fs s T l g = Some r).
    { induction l as [|[m v] l IH]; intros g Hm; [eexists; reflexivity|]. cbn [evalJ_nodes]. fold G.
      destruct (Hm m v (or_introl eq_refl)) as [a Ha].
      destruct (evalJ_total fs G Hwf T (Some v) g m a Ha) as [g1 [w E]]. rewrite E.
      destruct (IH g1) as [[g2 vs] E2]; [intros; eapply Hm; right; eassumption|]. rewrite E2. eexists; reflexivity. }
    destruct (c_node s) eqn:En.
    - destruct (snd_jac s Hs En) as [Lj HJ]. rewrite Lj, Nat.ltb_irrefl.
      destruct (E2 (map (fun j => (j, p)) (firstn (num_functions s) (c_jac s))) (nodes st)) as [[g l] ->]; [|discriminate].
      intros m v Hm. apply in_map_iff in Hm as [j [Q Hj]]. injection Q as -> _.
      rewrite firstn_all2 in Hj by lia. exact (proj1 (HJ m Hj)).
    - destruct (snd_time s Hs En) as [Lt HT]. rewrite Lt, Nat.ltb_irrefl by congruence.
      destruct (E1 (firstn (num_functions s) (c_time s)) (nodes st)) as [[g l] ->]; [|discriminate].
      intros m Hm. rewrite firstn_all2 in Hm; [exact (proj1 (HT m Hm))|]. rewrite Lt by congruence. lia.
  Qed.
End Proofs.

Theorem throws_unchanged : forall (F : fld) (fs : funs F) (s : csys (F := F)) st o st',
  step fs s st o = Some (st', Thrown) ->
  c_path s <> None \/ match o with TimeAt _ _ _ | SetAndReset _ _ (Some _) => False | _ => True end -> st' = st.
Proof.
  intros F fs s st o st' E H.
  assert (EH : forall T a b, eval_here fs s T a = Some (b, Thrown) -> False).
  { intros T a b Q. unfold eval_here in Q. destruct (match T with Dbl => true | Mp => ran a end); [|discriminate].
    destruct (eval_nodes _ _ _ _ _) as [[g l]|]; [|discriminate]. destruct (patch_values _ _); discriminate. }
  assert (JH : forall T a b, jacobian_here fs s T a = Some (b, Thrown) -> False).
  { intros T a b Q. unfold jacobian_here in Q. destruct (c_node s); destruct (_ <? _) in Q; try discriminate.
    - destruct (evalJ_nodes _ _ _ _ _) as [[g l]|]; [|discriminate]. destruct (patch_jacobian _ _); discriminate.
    - destruct (eval_nodes _ _ _ _ _) as [[g l]|]; [|discriminate]. destruct (patch_jacobian _ _); discriminate. }
  assert (TP : forall T n a b, time_in_place fs s T n a = Some (b, Thrown) -> b = a /\ (n < num_functions s \/ c_path s = None)).
  { intros T n a b Q. unfold time_in_place in Q. destruct (Nat.ltb_spec n (num_functions s)) as [L|L]; [injection Q as <-; auto|].
    destruct (c_path s) as [p|]; [|injection Q as <-; auto]. destruct (n <? num_functions s + num_patches s); [discriminate|].
    destruct (c_node s); destruct (_ <? _) in Q; try discriminate;
      match type of Q with match ?x with _ => _ end = _ => destruct x as [[g l]|] end; discriminate. }
  assert (TH : forall T a b, time_here fs s T a = Some (b, Thrown) -> b = a /\ c_path s = None).
  { intros T a b Q. unfold time_here in Q. destruct (c_path s) as [p|] eqn:Ep; [|injection Q as <-; auto].
    destruct (TP _ _ _ _ Q) as [-> [L|L]]; [lia|congruence]. }
  assert (SV : forall T x t a b, c_path s <> None -> set_values s T x t a = (b, false) -> b = a).
  { intros T x t a b Hp Q. unfold set_values in Q. destruct (set_variables s T x a) as [a1|]; [|injection Q as <-; reflexivity].
    destruct t as [t|]; [|discriminate]. unfold set_path in Q. destruct (c_path s); [discriminate|congruence]. }
  assert (SA : forall T x t a b, acceptable s x t = true -> set_values s T x t a = (b, false) -> False).
  { intros T x t a b Ha Q. unfold acceptable in Ha. apply andb_prop in Ha as [H1 H2].
    unfold set_values, set_variables, set_path in Q. rewrite H1 in Q. destruct (c_path s), t; discriminate. }
  destruct o as [T x|T t|T p|T x t| | | | |T|T|T|T n|T x t|T x t|T x t]; cbn [step] in E.
  - destruct (set_variables s T x st); [discriminate|]. injection E as <-. reflexivity.
  - destruct (set_path s T t st); [discriminate|]. injection E as <-. reflexivity.
  - destruct (length p =? length (c_impl s)); [discriminate|]. injection E as <-. reflexivity.
  - destruct (set_values s T x t st) as [b [|]] eqn:Q; cbn [after_setting] in E; [destruct (reset_all s b); discriminate|].
    injection E as <-. destruct H as [H|H]; [exact (SV _ _ _ _ _ H Q)|]. destruct t as [t|]; [contradiction|].
    unfold set_values in Q. destruct (set_variables s T x st); [discriminate|]. injection Q as <-. reflexivity.
  - destruct (reset_functions s st); discriminate.
  - destruct (reset_jacobian s st); discriminate.
  - destruct (reset_time s st); discriminate.
  - destruct (reset_all s st); discriminate.
  - destruct (EH _ _ _ E).
  - destruct (JH _ _ _ E).
  - exact (proj1 (TH _ _ _ E)).
  - exact (proj1 (TP _ _ _ _ E)).
  - destruct (acceptable s x t) eqn:Ha; [|injection E as <-; reflexivity].
    destruct (set_values s T x t st) as [b [|]] eqn:Q; cbn [after_setting] in E; [|destruct (SA _ _ _ _ _ Ha Q)].
    destruct (reset_functions s b); [|discriminate]. destruct (EH _ _ _ E).
  - destruct (acceptable s x t) eqn:Ha; [|injection E as <-; reflexivity].
    destruct (set_values s T x t st) as [b [|]] eqn:Q; cbn [after_setting] in E; [|destruct (SA _ _ _ _ _ Ha Q)].
    match type of E with match ?x with _ => _ end = _ => destruct x end; [|discriminate]. destruct (JH _ _ _ E).
  - destruct H as [H|[]]. destruct (set_values s T x t st) as [b [|]] eqn:Q; cbn [after_setting] in E.
    + destruct (reset_time s b); [|discriminate]. destruct (H (proj2 (TH _ _ _ E))).
    + injection E as <-. exact (SV _ _ _ _ _ H Q).
Qed.
