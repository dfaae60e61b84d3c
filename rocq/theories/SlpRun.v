(** Compilation of whole systems and histories of evaluations, from the invariant of SlpProof.v. *)
From Coq Require Import List Arith Lia ZArith NArith Bool.
From Verif Require Import Base Expr Homog Heap Slp SlpProof.
Import ListNotations.

Lemma nt_true : forall a b, numtype_eqb a b = true -> b = a.
Proof. intros [] []; cbn; congruence. Qed.
Lemma nt_false : forall a b, numtype_eqb a b = false -> b <> a.
Proof. intros [] []; cbn; congruence. Qed.

Section SlpRun.
  Context {F : fld}.
  Variable fs : funs F.
  Local Open Scope fld_scope.

  Lemma register_app : forall l l' (st : cst (F := F)), register (register st l) l' = register st (l ++ l').
  Proof. induction l as [|n r IH]; intros l' st; [reflexivity|]. cbn [register app]. apply IH. Qed.

  Lemma register_spec : forall l (st : cst (F := F)), NoDup l ->
    nxt (register st l) = (nxt st + length l)%nat /\
    (forall i n, nth_error l i = Some n -> locs (register st l) n = Some (nxt st + i)%nat) /\
    (forall n, ~ In n l -> locs (register st l) n = locs st n) /\
    code (register st l) = code st /\ nums (register st l) = nums st /\ ints (register st l) = ints st /\
    iloc (register st l) = iloc st.
  Proof.
    induction l as [|n r IH]; intros st Hnd; cbn [register].
    - cbn. conjs; auto. intros [|i] n; discriminate.
    - inversion Hnd as [|? ? Hn Hr]; subst.
      destruct (IH (bump (set_loc st n (nxt st))) Hr) as (A & B & C & D & E & G & H). cbn [bump set_loc nxt locs code nums ints iloc] in *.
      conjs; auto.
      + cbn [length]. lia.
      + intros [|i] x Hx; cbn in Hx.
        * injection Hx as <-. rewrite C by assumption. rewrite Nat.eqb_refl. f_equal. lia.
        * rewrite (B i x Hx). f_equal. lia.
      + intros x Hx. rewrite C by (intro; apply Hx; right; assumption).
        destruct (Nat.eqb_spec x n) as [->|]; [exfalso; apply Hx; left; reflexivity|reflexivity].
  Qed.

  Lemma visit_all_app : forall G l l' (st : cst (F := F)),
    visit_all G st (l ++ l') = bind (visit_all G st l) (fun st1 => visit_all G st1 l').
  Proof.
    intros G l l'. induction l as [|n r IH]; intro st; [reflexivity|]. cbn [app visit_all].
    destruct (visit G (S (length G)) st n); cbn [bind]; [apply IH|reflexivity|reflexivity].
  Qed.

  Section Compile.
    Variable G : list (gnode (F := F)).
    Variable ins : list nat.
    Hypothesis Hwf : well_founded_graph G.

    Lemma visit_all_ok : forall l (st : cst (F := F)), Inv fs G ins st (fun x => In x l) -> NoDup l ->
      (forall n, In n l -> exists a, nth_error G n = Some (GHandle a)) ->
      (forall n m, In n l -> reach G n m -> node_ok G ins m) ->
      (forall i j n m, i < j -> nth_error l i = Some n -> nth_error l j = Some m -> ~ reach G n m) ->
      (forall x, In x ins -> locs st x <> None) ->
      exists st', visit_all G st l = Done st' /\ Inv fs G ins st' (fun _ => False) /\ ext st st'.
    Proof.
      induction l as [|n r IH]; intros st I Hnd Hh Hr Hf Hi.
      - exists st. conjs; auto using ext_refl.
      - inversion Hnd as [|? ? Hn Hndr]; subst. cbn [visit_all].
        destruct (Hh n (or_introl eq_refl)) as [a Ha].
        assert (Hlt : n < length G) by (apply nth_error_Some; congruence).
        destruct (visit_ok fs G ins Hwf (S (length G)) n ltac:(lia) st _ I) as (st1 & E & I1 & X1 & L1).
        { split; [|split; [|split]].
          - intros m Hm. apply (Hr n m (or_introl eq_refl) Hm).
          - assumption.
          - intros m Hm Hne [Hin|Hin]; [congruence|].
            apply In_nth_error in Hin as [j Hj]. exact (Hf 0%nat (S j) n m ltac:(lia) eq_refl Hj Hm).
          - right. right. split; [left; reflexivity|eauto]. }
        rewrite E. cbn [bind].
        destruct (IH st1) as (st' & E' & I' & X').
        + eapply Inv_ext; [|exact I1]. intro x. cbn. split.
          * intros [[->|H] H']; [contradiction|assumption].
          * intro H. split; [auto|]. intros ->. contradiction.
        + assumption.
        + intros; apply Hh; right; assumption.
        + intros k m Hk Hm. apply (Hr k m (or_intror Hk) Hm).
        + intros i j x y Hij Hx Hy. apply (Hf (S i) (S j) x y); [lia|assumption|assumption].
        + intros x Hx. specialize (Hi x Hx). destruct (locs st x) as [lx|] eqn:El; [|congruence]. rewrite (X1 _ _ El). congruence.
        + exists st'. conjs; auto. eapply ext_trans; eassumption.
    Qed.
  End Compile.

  (** what the finished program does *)
  Record program_ok (G : list (gnode (F := F))) (S : sysdesc) (p : slp (F := F)) : Prop := mkPok {
    po_vars : n_vars p = length (vars S);
    po_funs : n_funs p = length (funcs S);
    po_time : in_time p = match path S with Some _ => Some (length (vars S)) | None => None end;
    po_out_fun : out_fun p = length (inputs S);
    po_out_jac : out_jac p = (length (inputs S) + length (funcs S))%nat;
    po_out_dt : path S <> None -> out_dt p = (length (inputs S) + length (funcs S) + length (dx S))%nat;
    po_nums : NoDup (map snd (p_nums p));
    po_nums_lo : forall c l, In (c, l) (p_nums p) -> length (inputs S) <= l;
    po_run : forall m, exists m', exec fs (p_ints p) (p_code p) m = Some m' /\
      forall l, (l < length (inputs S) \/ exists c, In (c, l) (p_nums p)) -> m' l = m l;
    po_sem : forall rho m0 m, (forall i x, nth_error (inputs S) i = Some x -> m0 i = Some (rho x)) ->
      (forall c l, In (c, l) (p_nums p) -> m0 l = Some c) ->
      exec fs (p_ints p) (p_code p) m0 = Some m ->
      forall i n e, nth_error (outputs S) i = Some n -> unfolds G None n e ->
        m (length (inputs S) + i)%nat = eval fs rho e
  }.

  Theorem compile_ok : forall G S, well_founded_graph G -> compilable G S ->
    exists p, compile unused G S = Done p /\ program_ok G S p.
  Proof.
    intros G S Hwf (C1 & C2 & C3 & C4 & C5 & C6).
    set (st0 := mkC 0 (fun _ => None) [] [] [] unused : cst (F := F)).
    destruct (register_spec (inputs S ++ outputs S) st0 C1) as (R1 & R2 & R3 & R4 & R5 & R6 & R7).
    set (st4 := register st0 (inputs S ++ outputs S)) in *.
    assert (Hout : forall i n, nth_error (outputs S) i = Some n -> locs st4 n = Some (length (inputs S) + i)%nat).
    { intros i n Hn. rewrite (R2 (length (inputs S) + i)%nat n); [reflexivity|].
      rewrite nth_error_app2 by lia. replace (length (inputs S) + i - length (inputs S))%nat with i by lia. assumption. }
    assert (Hin : forall i n, nth_error (inputs S) i = Some n -> locs st4 n = Some i).
    { intros i n Hn. rewrite (R2 i n); [reflexivity|]. rewrite nth_error_app1; [assumption|]. apply nth_error_Some. congruence. }
    assert (I4 : Inv fs G (inputs S) st4 (fun x => In x (outputs S))).
    { constructor.
      - rewrite R4. constructor.
      - rewrite R1, app_length. cbn. lia.
      - intros n l Hl. destruct (in_dec Nat.eq_dec n (inputs S ++ outputs S)) as [Hn|Hn].
        + apply In_nth_error in Hn as [i Hi]. rewrite (R2 i n Hi) in Hl. injection Hl as <-. rewrite R1.
          assert (i < length (inputs S ++ outputs S)) by (apply nth_error_Some; congruence). cbn. lia.
        + rewrite (R3 n Hn) in Hl. discriminate.
      - intros c l Hl. rewrite R5 in Hl. destruct Hl.
      - intro m. rewrite R4, R6. exists m. split; [reflexivity|auto].
      - intros n Hn. apply In_nth_error in Hn as [i Hi]. exists (length (inputs S) + i)%nat. split; [auto|]. split; [lia|].
        rewrite R5. split; [auto|]. intros x Hx E. apply Hx.
        destruct (in_dec Nat.eq_dec x (inputs S ++ outputs S)) as [Hm|Hm]; [|rewrite (R3 x Hm) in E; discriminate].
        apply In_nth_error in Hm as [j Hj]. rewrite (R2 j x Hj) in E. injection E as E. cbn in E. subst j.
        rewrite nth_error_app2 in Hj by lia. replace (length (inputs S) + i - length (inputs S))%nat with i in Hj by lia. congruence.
      - rewrite R5. constructor.
      - intros z i E. rewrite R7 in E. discriminate.
      - intros rho m0 m [Hp _] E n l e Hl Hn Hu. rewrite R4 in E. injection E as <-.
        destruct (in_dec Nat.eq_dec n (inputs S ++ outputs S)) as [Hm|Hm]; [|rewrite (R3 n Hm) in Hl; discriminate].
        apply in_app_or in Hm as [Hm|Hm]; [|contradiction].
        pose proof (C2 n Hm) as En. apply In_nth_error in Hm as [i Hi]. rewrite (Hin i n Hi) in Hl. injection Hl as <-.
        rewrite (Hp i n Hi). destruct Hu as [[|k] Hk]; [discriminate|]. cbn in Hk. rewrite En in Hk. injection Hk as <-. reflexivity. }
    assert (NDo : NoDup (outputs S)).
    { clear - C1. induction (inputs S) as [|x r IH]; [exact C1|]. inversion C1; subst. auto. }
    destruct (visit_all_ok G (inputs S) Hwf (outputs S) st4 I4 NDo C3 C4 C5) as (st7 & E & I7 & X7).
    { intros x Hx. apply In_nth_error in Hx as [i Hi]. rewrite (Hin i x Hi). discriminate. }
    assert (Hpath : if_path S (dt_second S) = if_path S (dt_first S)).
    { unfold if_path. destruct (path S) eqn:Ep; [|reflexivity]. apply C6. discriminate. }
    assert (N1 : nxt (register (register st0 (vars S)) (path_list S)) = length (inputs S)).
    { rewrite register_app. fold (inputs S).
      assert (ND : NoDup (inputs S)) by (clear - C1; induction (inputs S) as [|x r IH]; [constructor|];
        inversion C1; subst; constructor; [intro; apply H1; apply in_or_app; auto|auto]).
      destruct (register_spec (inputs S) st0 ND) as (Q & _). rewrite Q. reflexivity. }
    assert (NR : forall l (st : cst (F := F)), nxt (register st l) = (nxt st + length l)%nat).
    { clear. induction l as [|n r IH]; intro st; cbn [register length]; [lia|]. rewrite IH. cbn. lia. }
    eexists. split.
    - unfold compile, compile_visits. fold st0. rewrite Hpath.
      assert (Q : register (register (register (register (register st0 (vars S)) (path_list S)) (funcs S)) (dx S)) (if_path S (dt_first S)) = st4).
      { unfold st4, inputs, outputs. rewrite !register_app. rewrite !app_assoc. reflexivity. }
      rewrite Q. unfold outputs in E. rewrite !visit_all_app in E.
      destruct (visit_all G st4 (funcs S)) as [st5| |]; cbn [bind] in E |- *; try discriminate.
      rewrite visit_all_app in E.
      destruct (visit_all G st5 (dx S)) as [st6| |]; cbn [bind] in E |- *; try discriminate.
      rewrite E. cbn [bind]. reflexivity.
    - constructor; cbn [n_vars n_funs in_time out_fun out_jac out_dt p_code p_ints p_nums]; try reflexivity.
      + exact N1.
      + rewrite NR, N1. reflexivity.
      + intro Hp. destruct (path S); [|congruence]. rewrite (NR (dx S)), (NR (funcs S)), N1. reflexivity.
      + apply (iv_nd _ _ _ _ _ I7).
      + intros c l Hl. pose proof (iv_nums _ _ _ _ _ I7 c l Hl). lia.
      + intro m. destruct (iv_run _ _ _ _ _ I7 m) as (m' & Em & Hm). exists m'. split; [assumption|].
        intros l Hl. apply Hm. destruct Hl as [Hl|Hl]; auto.
      + intros rho m0 m H1 H2 Em i n e Hn Hu.
        eapply (iv_sem _ _ _ _ _ I7 rho m0 m); [split; eassumption|assumption| |auto|eassumption].
        apply X7. apply Hout. assumption.
  Qed.

  (** ** Histories *)

  Lemma write_values_spec : forall n v l (m : memory (F := F)), length v = n ->
    exists m', write_values m l n v = Some m' /\
      (forall i, i < n -> m' (l + i)%nat = Some (nth i v 0)) /\ (forall k, k < l \/ l + n <= k -> m' k = m k).
  Proof.
    induction n as [|n IH]; intros v l m Hv; destruct v as [|x r]; cbn in Hv; try discriminate.
    - exists m. conjs; auto; intros; lia.
    - cbn [write_values]. destruct (IH r (S l) (put m l (Some x)) ltac:(lia)) as (m' & E & A & B).
      exists m'. conjs; [assumption| |].
      + intros [|i] Hi.
        * rewrite Nat.add_0_r. rewrite B by lia. cbn [nth]. apply put_same.
        * replace (l + S i)%nat with (S l + i)%nat by lia. rewrite A by lia. reflexivity.
      + intros k Hk. rewrite B by lia. apply put_other. lia.
  Qed.

  Lemma copy_numbers_spec : forall (l : list (F * nat)) (m : memory (F := F)), NoDup (map snd l) ->
    (forall c k, In (c, k) l -> fold_left (fun m q => put m (snd q) (Some (fst q))) l m k = Some c) /\
    (forall k, ~ In k (map snd l) -> fold_left (fun m q => put m (snd q) (Some (fst q))) l m k = m k).
  Proof.
    induction l as [|[c k] r IH]; intros m Hnd; cbn [map snd fst fold_left] in *.
    - split; [intros ? ? []|reflexivity].
    - inversion Hnd as [|? ? Hk Hr]; subst. destruct (IH (put m k (Some c)) Hr) as [A B]. split.
      + intros c' k' [E|Hin]; [|apply A; assumption]. injection E as <- <-. rewrite B by assumption. apply put_same.
      + intros k' Hk'. rewrite B by (intro; apply Hk'; right; assumption). apply put_other. intros ->. apply Hk'. left. reflexivity.
  Qed.

  Lemma index_of_nth : forall l i x, NoDup l -> nth_error l i = Some x -> index_of x l = i.
  Proof.
    induction l as [|y r IH]; intros i x Hnd Hi; [destruct i; discriminate|].
    inversion Hnd as [|? ? Hy Hr]; subst. destruct i as [|i]; cbn in Hi.
    - injection Hi as ->. cbn. rewrite Nat.eqb_refl. reflexivity.
    - cbn. destruct (Nat.eqb_spec y x) as [->|].
      + exfalso. apply Hy. eapply nth_error_In. eassumption.
      + f_equal. apply IH; assumption.
  Qed.

  Section History.
    Variable G : list (gnode (F := F)).
    Variable S : sysdesc.
    Variable p : slp (F := F).
    Hypothesis Hcomp : compilable G S.
    Hypothesis Hok : program_ok G S p.

    Record RI (r : rt (F := F)) (f : numtype -> nat -> F) (cur : option numtype) : Prop := mkRI {
      ri_in : forall T i, i < length (inputs S) -> mem r T i = Some (f T i);
      ri_num : forall T c l, In (c, l) (p_nums p) -> mem r T l = Some c;
      ri_flag : evaluated r = match cur with Some _ => true | None => false end;
      ri_eval : forall T, cur = Some T -> exists m0,
        (forall i, i < length (inputs S) -> m0 i = Some (f T i)) /\
        (forall c l, In (c, l) (p_nums p) -> m0 l = Some c) /\
        exec fs (p_ints p) (p_code p) m0 = Some (mem r T)
    }.

    Lemma inputs_length : length (inputs S) = (length (vars S) + match path S with Some _ => 1 | None => 0 end)%nat.
    Proof. unfold inputs, path_list. rewrite app_length. destruct (path S); reflexivity. Qed.

    Lemma ri_init : forall z, RI (rt_init p z) z None.
    Proof.
      intro z. constructor; cbn [rt_init mem evaluated].
      - intros T i Hi. unfold copy_numbers. destruct (copy_numbers_spec (p_nums p) (fun l => Some (z T l)) (po_nums _ _ _ Hok)) as [_ B].
        rewrite B; [reflexivity|]. intro Hin. apply in_map_iff in Hin as ([c l] & E & Hin). cbn in E. subst l.
        pose proof (po_nums_lo _ _ _ Hok c i Hin). lia.
      - intros T c l Hl. apply (copy_numbers_spec (p_nums p) (fun l => Some (z T l)) (po_nums _ _ _ Hok)). assumption.
      - reflexivity.
      - discriminate.
    Qed.

    Lemma set_mem_same : forall r T (m : memory (F := F)) b, mem (set_mem r T m b) T = m.
    Proof. intros r [] m b; reflexivity. Qed.
    Lemma set_mem_other : forall r T T' (m : memory (F := F)) b, T' <> T -> mem (set_mem r T m b) T' = mem r T'.
    Proof. intros r [] [] m b H; try reflexivity; congruence. Qed.

    Definition step_inputs (f : numtype -> nat -> F) (o : rop (F := F)) (T : numtype) : nat -> F :=
      last_inputs (length (vars S)) T (f T) [o].

    Lemma ri_step : forall r f cur o, RI r f cur -> valid_rop S o ->
      exists r', rstep fs p r o = Done r' /\ RI r' (step_inputs f o) (evaluated_in cur [o]).
    Proof.
      intros r f cur o R V. pose proof inputs_length as IL. destruct o as [T v|T t|T]; cbn [valid_rop] in V; cbn [rstep evaluated_in].
      - rewrite (po_vars _ _ _ Hok).
        destruct (write_values_spec (length (vars S)) v 0 (mem r T) V) as (m & E & A & B). rewrite E.
        eexists. split; [reflexivity|]. constructor.
        + intros T' i Hi. unfold step_inputs. cbn [last_inputs]. destruct (numtype_eqb T T') eqn:ET.
          * apply nt_true in ET. subst T'. rewrite set_mem_same.
            destruct (Nat.ltb_spec i (length (vars S))) as [Hlt|Hge].
            -- apply (A i Hlt).
            -- rewrite B by lia. apply (ri_in _ _ _ R). assumption.
          * rewrite set_mem_other by (exact (nt_false _ _ ET)). apply (ri_in _ _ _ R). assumption.
        + intros T' c l Hl. destruct (numtype_eqb T T') eqn:ET.
          * apply nt_true in ET. subst T'. rewrite set_mem_same.
            pose proof (po_nums_lo _ _ _ Hok c l Hl). rewrite B by lia. apply (ri_num _ _ _ R). assumption.
          * rewrite set_mem_other by (exact (nt_false _ _ ET)). apply (ri_num _ _ _ R). assumption.
        + reflexivity.
        + discriminate.
      - rewrite (po_time _ _ _ Hok). destruct (path S) as [x|] eqn:Ep; [|congruence].
        eexists. split; [reflexivity|]. constructor.
        + intros T' i Hi. unfold step_inputs. cbn [last_inputs]. destruct (numtype_eqb T T') eqn:ET.
          * apply nt_true in ET. subst T'. rewrite set_mem_same. unfold put.
            destruct (Nat.eqb_spec i (length (vars S))); [reflexivity|]. apply (ri_in _ _ _ R). assumption.
          * rewrite set_mem_other by (exact (nt_false _ _ ET)). apply (ri_in _ _ _ R). assumption.
        + intros T' c l Hl. pose proof (po_nums_lo _ _ _ Hok c l Hl). destruct (numtype_eqb T T') eqn:ET.
          * apply nt_true in ET. subst T'. rewrite set_mem_same, put_other by lia. apply (ri_num _ _ _ R). assumption.
          * rewrite set_mem_other by (exact (nt_false _ _ ET)). apply (ri_num _ _ _ R). assumption.
        + reflexivity.
        + discriminate.
      - rewrite (ri_flag _ _ _ R). destruct cur as [T0|].
        + exists r. split; [reflexivity|]. exact R.
        + destruct (po_run _ _ _ Hok (mem r T)) as (m & E & Hm). rewrite E. eexists. split; [reflexivity|]. constructor.
          * intros T' i Hi. unfold step_inputs. cbn [last_inputs]. destruct (numtype_eqb T T') eqn:ET.
            -- apply nt_true in ET. subst T'. rewrite set_mem_same, Hm by auto. apply (ri_in _ _ _ R). assumption.
            -- rewrite set_mem_other by (exact (nt_false _ _ ET)). apply (ri_in _ _ _ R). assumption.
          * intros T' c l Hl. destruct (numtype_eqb T T') eqn:ET.
            -- apply nt_true in ET. subst T'. rewrite set_mem_same, Hm by eauto. apply (ri_num _ _ _ R). assumption.
            -- rewrite set_mem_other by (exact (nt_false _ _ ET)). apply (ri_num _ _ _ R). assumption.
          * reflexivity.
          * intros T' ET. injection ET as <-. exists (mem r T). conjs.
            -- intros i Hi. apply (ri_in _ _ _ R). assumption.
            -- intros c l Hl. apply (ri_num _ _ _ R). assumption.
            -- rewrite set_mem_same. assumption.
    Qed.

    Lemma ri_run : forall h r f cur, RI r f cur -> Forall (valid_rop S) h ->
      exists r', rrun fs p r h = Done r' /\
        RI r' (fun T => last_inputs (length (vars S)) T (f T) h) (evaluated_in cur h).
    Proof.
      induction h as [|o h IH]; intros r f cur R V.
      - exists r. split; [reflexivity|exact R].
      - inversion V as [|? ? Vo Vh]; subst. destruct (ri_step r f cur o R Vo) as (r1 & E1 & R1).
        cbn [rrun]. rewrite E1. cbn [bind]. destruct (IH r1 _ _ R1 Vh) as (r2 & E2 & R2). exists r2. split; [assumption|].
        destruct o; exact R2.
    Qed.

    Lemma inputs_nodup : NoDup (inputs S).
    Proof.
      destruct Hcomp as (C1 & _). clear - C1. induction (inputs S) as [|x r IH]; [constructor|].
      inversion C1 as [|? ? Hx Hr]; subst. constructor; [intro; apply Hx; apply in_or_app; auto|auto].
    Qed.

    Lemma outputs_ok : forall r f cur T rho, RI r f cur -> (cur = None \/ cur = Some T) ->
      (forall i x, nth_error (inputs S) i = Some x -> f T i = rho x) ->
      exists r', rstep fs p r (EvalSlp T) = Done r' /\
        forall i n e, nth_error (outputs S) i = Some n -> unfolds G None n e ->
          mem r' T (length (inputs S) + i)%nat = eval fs rho e.
    Proof.
      intros r f cur T rho R Hc Hrho.
      destruct (ri_step r f cur (EvalSlp T) R Logic.I) as (r' & E & R'). exists r'. split; [assumption|].
      assert (Hcur : evaluated_in cur [EvalSlp (F := F) T] = Some T) by (destruct Hc; subst; reflexivity).
      destruct (ri_eval _ _ _ R' T Hcur) as (m0 & A & B & C).
      intros i n e Hn Hu. eapply (po_sem _ _ _ Hok); [|exact B|exact C|eassumption|assumption].
      intros j x Hx. rewrite A by (apply nth_error_Some; congruence).
      unfold step_inputs. cbn [last_inputs]. f_equal. apply Hrho. assumption.
    Qed.

    (** the values returned *)
    Definition returns_values (r : rt (F := F)) (T : numtype) (rho : env F) : Prop :=
      (exists vs, get_funs fs p r T = Done vs /\
         Forall2 (fun n v => forall e, unfolds G None n e -> v = eval fs rho e) (funcs S) vs) /\
      (forall i j n, nth_error (dx S) (i + j * length (funcs S)) = Some n ->
         exists v, get_jac fs p r T i j = Done v /\ forall e, unfolds G None n e -> v = eval fs rho e) /\
      (path S <> None -> length (dt_first S) = length (funcs S) -> exists vs, get_dt fs p r T = Done vs /\
         Forall2 (fun n v => forall e, unfolds G None n e -> v = eval fs rho e) (dt_first S) vs).

    Lemma forall2_seq : forall (P : nat -> option F -> Prop) (g : nat -> option F) (l : list nat) k,
      (forall i n, nth_error l i = Some n -> P n (g (k + i)%nat)) -> Forall2 P l (map g (seq k (length l))).
    Proof.
      intros P g l. induction l as [|n r IH]; intros k H; cbn [length seq map]; [constructor|].
      constructor.
      - specialize (H 0%nat n eq_refl). rewrite Nat.add_0_r in H. exact H.
      - apply IH. intros i x Hx. specialize (H (Datatypes.S i) x Hx). replace (Datatypes.S k + i)%nat with (k + Datatypes.S i)%nat by lia. exact H.
    Qed.

    Lemma values_ok : forall r f cur T rho, RI r f cur -> (cur = None \/ cur = Some T) ->
      (forall i x, nth_error (inputs S) i = Some x -> f T i = rho x) -> returns_values r T rho.
    Proof.
      intros r f cur T rho R Hc Hrho. destruct (outputs_ok r f cur T rho R Hc Hrho) as (r' & E & H). split; [|split].
      - eexists. split.
        + unfold get_funs. rewrite E. cbn [bind]. reflexivity.
        + rewrite (po_funs _ _ _ Hok), (po_out_fun _ _ _ Hok). apply forall2_seq. intros i n Hn e Hu.
          replace (0 + i + length (inputs S))%nat with (length (inputs S) + i)%nat by lia.
          apply (H i n e); [|assumption]. unfold outputs. rewrite nth_error_app1; [assumption|]. apply nth_error_Some. congruence.
      - intros i j n Hn. eexists. split.
        + unfold get_jac. rewrite E. cbn [bind]. reflexivity.
        + intros e Hu. rewrite (po_funs _ _ _ Hok), (po_out_jac _ _ _ Hok).
          replace (i + j * length (funcs S) + (length (inputs S) + length (funcs S)))%nat
            with (length (inputs S) + (length (funcs S) + (i + j * length (funcs S))))%nat by lia.
          apply (H _ n e); [|assumption]. unfold outputs. rewrite nth_error_app2 by lia.
          rewrite nth_error_app1.
          * replace (length (funcs S) + (i + j * length (funcs S)) - length (funcs S))%nat with (i + j * length (funcs S))%nat by lia. assumption.
          * replace (length (funcs S) + (i + j * length (funcs S)) - length (funcs S))%nat with (i + j * length (funcs S))%nat by lia.
            apply nth_error_Some. congruence.
      - intros Hp Hl. eexists. split.
        + unfold get_dt. rewrite E. cbn [bind]. reflexivity.
        + rewrite (po_funs _ _ _ Hok), (po_out_dt _ _ _ Hok Hp). rewrite <- Hl. apply forall2_seq. intros i n Hn e Hu.
          replace (0 + i + (length (inputs S) + length (dt_first S) + length (dx S)))%nat
            with (length (inputs S) + (length (funcs S) + (length (dx S) + i)))%nat by lia.
          apply (H _ n e); [|assumption]. unfold outputs. rewrite nth_error_app2 by lia. rewrite nth_error_app2 by lia.
          replace (length (funcs S) + (length (dx S) + i) - length (funcs S) - length (dx S))%nat with i by lia.
          unfold if_path. destruct (path S); [assumption|congruence].
    Qed.

    Lemma history_ok : forall z h, Forall (valid_rop S) h -> exists r, rrun fs p (rt_init p z) h = Done r /\
      forall T, evaluated_in None h = None \/ evaluated_in None h = Some T ->
        returns_values r T (input_env S (last_inputs (length (vars S)) T (z T) h)).
    Proof.
      intros z h V. destruct (ri_run h _ _ _ (ri_init z) V) as (r & E & R). exists r. split; [assumption|].
      intros T Hc. apply (values_ok r _ _ T _ R Hc). intros i x Hx. unfold input_env.
      rewrite (index_of_nth _ i x inputs_nodup Hx). reflexivity.
    Qed.

    (** the calls which set all inputs *)
    Definition assign (T : numtype) (rho : env F) : list (rop (F := F)) :=
      SetVariableValues T (map rho (vars S)) :: match path S with Some t => [SetPathVariable T (rho t)] | None => [] end.

    Lemma last_inputs_app : forall nv T h1 h2 (f : nat -> F),
      last_inputs nv T f (h1 ++ h2) = last_inputs nv T (last_inputs nv T f h1) h2.
    Proof. intros nv T h1 h2. induction h1 as [|o h IH]; intro f; [reflexivity|]. destruct o; cbn [app last_inputs]; apply IH. Qed.

    Lemma evaluated_in_app : forall (h1 h2 : list (rop (F := F))) cur,
      evaluated_in cur (h1 ++ h2) = evaluated_in (evaluated_in cur h1) h2.
    Proof. induction h1 as [|o h IH]; intros h2 cur; [reflexivity|]. destruct o; cbn [app evaluated_in]; apply IH. Qed.

    Lemma assign_ok : forall z h T rho, Forall (valid_rop S) h -> exists r, rrun fs p (rt_init p z) (h ++ assign T rho) = Done r /\
      returns_values r T rho.
    Proof.
      intros z h T rho V.
      assert (V' : Forall (valid_rop S) (h ++ assign T rho)).
      { apply Forall_app. split; [assumption|]. unfold assign. constructor; [apply map_length|].
        destruct (path S) eqn:E; constructor; [|constructor]. cbn. congruence. }
      destruct (ri_run _ _ _ _ (ri_init z) V') as (r & E & R). exists r. split; [assumption|].
      apply (values_ok r _ _ T rho R).
      - rewrite evaluated_in_app. unfold assign. destruct (path S); left; reflexivity.
      - intros i x Hx. rewrite last_inputs_app. unfold assign. cbn [last_inputs].
        assert (ET : numtype_eqb T T = true) by (destruct T; reflexivity).
        unfold inputs, path_list in Hx. destruct (path S) as [t|] eqn:Ep.
        + cbn [last_inputs]. rewrite ET.
          destruct (Nat.eqb_spec i (length (vars S))) as [->|Hi].
          * rewrite nth_error_app2, Nat.sub_diag in Hx by lia. cbn in Hx. congruence.
          * assert (Hlt : i < length (vars S)).
            { assert (i < length (vars S ++ [t])) by (apply nth_error_Some; congruence). rewrite app_length in *. cbn in *. lia. }
            rewrite nth_error_app1 in Hx by assumption. destruct (Nat.ltb_spec i (length (vars S))); [|lia].
            apply nth_error_nth. rewrite nth_error_map, Hx. reflexivity.
        + cbn [last_inputs]. rewrite ET. rewrite app_nil_r in Hx. assert (Hlt : i < length (vars S)) by (apply nth_error_Some; congruence).
          destruct (Nat.ltb_spec i (length (vars S))); [|lia].
          apply nth_error_nth. rewrite nth_error_map, Hx. reflexivity.
    Qed.
  End History.

  Theorem slp_agrees : forall G S, well_founded_graph G -> compilable G S ->
    exists p, compile unused G S = Done p /\
      forall z h T rho, Forall (valid_rop S) h ->
      exists r, rrun fs p (rt_init p z) (h ++ assign S T rho) = Done r /\ returns_values G S p r T rho.
  Proof.
    intros G S Hwf Hc. destruct (compile_ok G S Hwf Hc) as (p & E & Hok). exists p. split; [assumption|].
    intros z h T rho V. exact (assign_ok G S p Hok z h T rho V).
  Qed.

  Theorem slp_history : forall G S p, well_founded_graph G -> compilable G S -> compile unused G S = Done p ->
    forall z h, Forall (valid_rop S) h -> exists r, rrun fs p (rt_init p z) h = Done r /\
      forall T, evaluated_in None h = None \/ evaluated_in None h = Some T ->
        returns_values G S p r T (input_env S (last_inputs (length (vars S)) T (z T) h)).
  Proof.
    intros G S p Hwf Hc E z h V. destruct (compile_ok G S Hwf Hc) as (p' & E' & Hok).
    assert (p' = p) by congruence. subst p'. exact (history_ok G S p Hc Hok z h V).
  Qed.

  (** within one number type nothing can go wrong *)
  Definition of_type (T : numtype) (o : rop (F := F)) : Prop :=
    match o with SetVariableValues T' _ | SetPathVariable T' _ | EvalSlp T' => T' = T end.

  Lemma one_type_fresh : forall T h cur, Forall (of_type T) h -> cur = None \/ cur = Some T ->
    evaluated_in cur h = None \/ evaluated_in cur h = Some T.
  Proof.
    intros T h. induction h as [|o h IH]; intros cur Hh Hc; [exact Hc|].
    inversion Hh as [|? ? Ho Hr]; subst. destruct o; cbn [evaluated_in]; apply IH; auto.
    cbn in Ho. subst. destruct Hc; subst; auto.
  Qed.

  Theorem slp_one_type : forall G S p, well_founded_graph G -> compilable G S -> compile unused G S = Done p ->
    forall z T h, Forall (valid_rop S) h -> Forall (of_type T) h -> exists r, rrun fs p (rt_init p z) h = Done r /\
        returns_values G S p r T (input_env S (last_inputs (length (vars S)) T (z T) h)).
  Proof.
    intros G S p Hwf Hc E z T h V Ht. destruct (slp_history G S p Hwf Hc E z h V) as (r & Er & H).
    exists r. split; [assumption|]. apply H. apply one_type_fresh; auto.
  Qed.
End SlpRun.
