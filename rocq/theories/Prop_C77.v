(** C77: homogenizing whole systems. *)
From Coq Require Import List ZArith Bool.
From Verif Require Import Base Poly Expr Degree Homog HomogSys HomogSysEx PowNode.
Import ListNotations.
Local Open Scope fld_scope.

(** Homogenize of a system that can be homogenized succeeds, gives each group its own new variable, keeps groups and
    functions in place.  Setting the new variables to one gives back each function at every point.  Each function scales
    in every group together with its variable, by its degree in the group, and in every homogeneous group. *)
Theorem C77_homogenize_partial : forall (F : fld) (fs : funs F) (rho : env F) (fresh : nat -> nat) (s : psys F),
  homogenizable fs rho fresh s -> exists s',
  homogenize_sys fs rho fresh s = Some s' /\
  groups s' = groups s /\ hom_groups s' = hom_groups s /\ ungrouped s' = ungrouped s /\
  hom_vars s' = map fresh (seq 0 (length (groups s))) /\
  Forall2 (fun f f' =>
    (forall point, (forall k, (k < length (groups s))%nat -> point (fresh k) = 1) -> eval fs point f' = eval fs point f) /\
    (forall k g, nth_error (groups s) k = Some g -> scales fs (fresh k :: g) (Z.to_nat (gdegree fs rho g f)) f') /\
    (forall g, In g (hom_groups s) -> scales fs g (Z.to_nat (gdegree fs rho g f)) f')) (fns s) (fns s').
Proof. exact @homogenize_meaning. Qed.
Print Assumptions C77_homogenize_partial.

(** If negations and powers are of products of powers only, IsHomogeneous and IsPolynomial accept the result, and
    Homogenize called again changes nothing. *)
Theorem C77_accepted_partial : forall (F : fld) (fs : funs F) (rho : env F) (fresh : nat -> nat) (s s' : psys F),
  homogenizable fs rho fresh s -> homogenize_sys fs rho fresh s = Some s' ->
  (forall f, In f (fns s) -> expanded (unknowns s) f) ->
  (ungrouped s <> [] -> forall f, In f (fns s) -> is_homogeneous fs rho (ungrouped s) f = true) ->
  is_homogeneous_sys fs rho s' = true /\ is_polynomial_sys fs rho s' = Some true /\
  forall fresh', homogenize_sys fs rho fresh' s' = Some s'.
Proof. exact @after. Qed.
Print Assumptions C77_accepted_partial.

(** x y z - x + 3 and (x + z^2)(u + 2 v) with groups {x, y}, {z} and homogeneous group {u, v} is such a system. *)
Example C77_case : homogenizable qc_funs c_env fresh10 two_sys /\ (forall f, In f (fns two_sys) -> expanded (unknowns two_sys) f) /\
  map (fun f => map (fun g => gdegree qc_funs c_env g f) [[0; 1]; [2]; [3; 4]]%nat) (fns two_sys) = [[2; 1; 0]; [1; 2; 1]]%Z.
Proof. split; [exact two_homogenizable|]. split; [exact two_expanded|]. vm_compute. reflexivity. Qed.

(** The same for functions with powers b^n, n a number node which is a positive integer, as the parser makes them:
    [flat_sys] is the system with integer power nodes in their place. *)
Theorem C77_powers_partial : forall (F : fld) (fs : funs F) (rho : env F) (fresh : nat -> nat) (s : psys F), funs_ok fs ->
  homogenizable fs rho fresh (flat_sys fs s) -> exists s',
  homogenize_sys fs rho fresh s = Some s' /\
  groups s' = groups s /\ hom_groups s' = hom_groups s /\ ungrouped s' = ungrouped s /\
  hom_vars s' = map fresh (seq 0 (length (groups s))) /\
  Forall2 (fun f f' =>
    (forall point, (forall k, (k < length (groups s))%nat -> point (fresh k) = 1) -> eval fs point f' = eval fs point f) /\
    (forall k g, nth_error (groups s) k = Some g -> scales fs (fresh k :: g) (Z.to_nat (gdegree fs rho g f)) f') /\
    (forall g, In g (hom_groups s) -> scales fs g (Z.to_nat (gdegree fs rho g f)) f')) (fns s) (fns s') /\
  ((forall f, In f (fns s) -> expanded (unknowns s) (flat fs f)) ->
   (ungrouped s <> [] -> forall f, In f (fns s) -> is_homogeneous fs rho (ungrouped s) (flat fs f) = true) ->
   is_homogeneous_sys fs rho s' = true /\ is_polynomial_sys fs rho s' = Some true).
Proof.
  intros F fs rho fresh s Hfs H. destruct (homogenize_powers fs Hfs rho fresh s H) as (s' & E & A & B & C & D & G).
  exists s'. repeat (split; [assumption|]). intros X Y. exact (accepted_powers fs rho fresh s s' H E X Y).
Qed.
Print Assumptions C77_powers_partial.

(** (x + z^2)(u + 2 v) with a power node *)
Example C77_powers_case : exists s : psys QcF, flat_sys qc_funs s = two_sys /\
  In (Mul [(true, Sum [(true, Var 0%nat); (true, Pow (Var 2%nat) (Num KInteger (fZ 2)))]); (true, Sum [(true, Var 3%nat); (true, Mul [(true, num 2); (true, Var 4%nat)])])]) (fns s).
Proof.
  exists (mkPS [two_f1; Mul [(true, Sum [(true, Var 0%nat); (true, Pow (Var 2%nat) (Num KInteger (fZ 2)))]); (true, Sum [(true, Var 3%nat); (true, Mul [(true, num 2); (true, Var 4%nat)])])]] [[0; 1]; [2]]%nat [[3; 4]]%nat [] []).
  split; [|right; left; reflexivity]. unfold flat_sys. cbn [fns map flat fst snd whole]. change (as_int qc_funs (fZ 2)) with (rat_as_int (fZ 2)). rewrite rat_as_int_fZ. reflexivity.
Qed.

(** In general not: -(x^2 + x) + x^2 is homogenized correctly, but IsHomogeneous rejects the result, and Homogenize
    called again succeeds and makes it inhomogeneous. *)
Theorem C77_again_refuted : exists (s s' s'' : psys QcF),
  homogenizable qc_funs c_env fresh10 s /\ homogenize_sys qc_funs c_env fresh10 s = Some s' /\
  is_homogeneous_sys qc_funs c_env s' = false /\
  homogenize_sys qc_funs c_env fresh10 s' = Some s'' /\
  exists g h f, groups s'' = [g] /\ hom_vars s'' = [h] /\ fns s'' = [f] /\ forall d, ~ scales qc_funs (h :: g) d f.
Proof.
  exists drop_sys, (mkPS [drop_f1] [[0]]%nat [] [] [10]%nat), (mkPS [drop_f2] [[0]]%nat [] [] [10]%nat).
  split; [exact drop_homogenizable|]. split; [exact drop_first|]. split; [exact drop_not_accepted|]. split; [exact drop_second|].
  exists [0]%nat, 10%nat, drop_f2. split; [reflexivity|]. split; [reflexivity|]. split; [reflexivity|]. exact drop_spoiled.
Qed.
Print Assumptions C77_again_refuted.

(** IsPolynomial says yes to x / u, u being an ungrouped variable. *)
Theorem C77_ungrouped_refuted : exists s : psys QcF,
  is_polynomial_sys qc_funs c_env s = Some true /\
  exists u f, ungrouped s = [u] /\ fns s = [f] /\ (degree qc_funs c_env u f < 0)%Z /\
    eval qc_funs (upd c_env u 0) f = None.
Proof.
  exists ratio_sys. split; [exact ratio_accepted|]. exists 1%nat, (Mul [(true, Var 0%nat); (false, Var 1%nat)]).
  split; [reflexivity|]. split; [reflexivity|]. split; vm_compute; reflexivity.
Qed.
Print Assumptions C77_ungrouped_refuted.

(** IsHomogeneous says no to x + y in the group {x, y}, because the system has no homogenizing variables. *)
Theorem C77_natural_refuted : exists s : psys QcF,
  (exists g f, groups s = [g] /\ fns s = [f] /\ hom_groups s = [] /\ ungrouped s = [] /\ scales qc_funs g 1 f) /\
  is_homogeneous_sys qc_funs c_env s = false.
Proof.
  exists natural_sys. split; [|exact natural_rejected]. exists [0; 1]%nat, (Sum [(true, Var 0%nat); (true, Var 1%nat)]).
  repeat (split; [reflexivity|]). apply graded_scales. exact natural_graded.
Qed.
Print Assumptions C77_natural_refuted.

(** MultiDegree lists one number for each variable, Degree(v) when that is not negative. *)
Theorem C77_multidegree_partial : forall (F : fld) (fs : funs F) (rho : env F) (vs : list nat) (e : expr F),
  length (multidegree fs rho vs e) = length vs /\
  forall i v, nth_error vs i = Some v -> (0 <= degree fs rho v e)%Z -> nth_error (multidegree fs rho vs e) i = Some (degree fs rho v e).
Proof. exact (fun F fs rho vs e => conj (multidegree_length fs rho vs e) (multidegree_exact fs rho vs e)). Qed.
Print Assumptions C77_multidegree_partial.

Example C77_multidegree_case :
  multidegree qc_funs c_env [0; 1; 2]%nat (Sum [(true, Mul [(true, Var 0); (true, IPow (Var 1) 3)]); (false, Var 2)]) = [1; 3; 1]%Z.
Proof. vm_compute. reflexivity. Qed.

(** Negative entries do not indicate every non-polynomial variable: for x / y the answer is (1, 1). *)
Theorem C77_multidegree_refuted : exists (e : expr QcF) (v : nat),
  (degree qc_funs c_env v e < 0)%Z /\ Forall (fun d => (0 <= d)%Z) (multidegree qc_funs c_env [0; v]%nat e) /\ occurs v e.
Proof.
  exists (Mul [(true, Var 0); (false, Var 1)]), 1%nat. split; [vm_compute; reflexivity|]. split; [vm_compute; repeat constructor; discriminate|].
  apply occursb_spec. reflexivity.
Qed.
Print Assumptions C77_multidegree_refuted.
