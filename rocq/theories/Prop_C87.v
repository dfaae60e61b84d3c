(** C87: the systems which come with the library. *)
From Coq Require Import List ZArith Ring Field QArith.
From Verif Require Import Base Expr Homog Heap NodeOps Precon.
Import ListNotations.
Local Open Scope fld_scope.

(** GriewankOsborn has the variables x and y, and two functions, 29/16 x^3 - 2 x y and y - x^2, at every point. *)
Theorem C87_griewank_osborn : forall (F : fld), exists S : named_system (F := F), griewank_osborn = Some S
  /\ group S = [0; 2]%nat
  /\ forall fs rho, let x := rho 0%nat in let y := rho 2%nat in
       values fs S rho = [Some (fZ 29 / fZ 16 * (x * x * x) - fZ 2 * x * y); Some (y - x * x)].
Proof. intro F. exact griewank_osborn_values. Qed.
Print Assumptions C87_griewank_osborn.

(** "has multiplicity 3 root at origin": where 2 and 3 are not zero the origin is its only zero, and the functions
    generate the ideal of x^3 and y - x^2: each is a combination of the others at every point. *)
Theorem C87_griewank_osborn_origin : forall (F : fld) (fs : funs F) (S : named_system (F := F)) rho f1 f2,
  fZ 2 <> @f0 F -> fZ 3 <> @f0 F -> griewank_osborn = Some S -> values fs S rho = [Some f1; Some f2] ->
  let x := rho 0%nat in let y := rho 2%nat in
  (f1 = 0 /\ f2 = 0 <-> x = 0 /\ y = 0)
  /\ f1 = - (fZ 3 / fZ 16) * (x * x * x) - fZ 2 * x * f2
  /\ x * x * x = - (fZ 16 / fZ 3) * (f1 + fZ 2 * x * f2)
  /\ y - x * x = f2.
Proof. intro F. exact griewank_origin. Qed.
Print Assumptions C87_griewank_osborn_origin.

(** "and 3 infinite roots": of the homogenized functions, with w the new variable, the only zero with w = 0 is x = 0,
    and around it (where y = 1) they have the form of the functions around the origin, with w in place of y. *)
Theorem C87_griewank_osborn_infinity : forall (F : fld) (fs : funs F) (S : named_system (F := F)) rho h,
  griewank_osborn = Some S -> h <> 0%nat -> h <> 2%nat ->
  let x := rho 0%nat in let y := rho 2%nat in let w := rho h in
  exists f1 f2, homogenized_values fs S h rho = [Some f1; Some f2]
    /\ (w = 0 -> (f1 = 0 /\ f2 = 0 <-> x = 0))
    /\ (y = 1 -> f1 = fZ 29 / fZ 16 * (x * x * x) - fZ 2 * x * w /\ f2 = w - x * x)
    /\ (w = 1 -> values fs S rho = [Some f1; Some f2]).
Proof. intro F. exact griewank_infinity. Qed.
Print Assumptions C87_griewank_osborn_infinity.

(** CrossedPaths has the functions x^3 + 2 and y^2 + 1/2. *)
Theorem C87_crossed_paths : forall (F : fld), exists S : named_system (F := F), crossed_paths = Some S
  /\ group S = [0; 2]%nat
  /\ forall fs rho, let x := rho 0%nat in let y := rho 2%nat in
       values fs S rho = [Some (x * x * x + fZ 2); Some (y * y + fZ 1 / fZ 2)].
Proof. intro F. exact crossed_paths_values. Qed.
Print Assumptions C87_crossed_paths.

(** "with crossed paths at t = 1/3 and t = 2/3": on the homotopy (1-t) f + t (x^3 - 1, y^2 - 1) two paths meet, that
    is a zero has x = 0 or y = 0, exactly at these times. *)
Theorem C87_crossings_partial : forall (F : fld) (fs : funs F) (S : named_system (F := F)) rho f1 f2 t,
  fZ 2 <> @f0 F -> fZ 3 <> @f0 F -> crossed_paths = Some S -> values fs S rho = [Some f1; Some f2] ->
  let x := rho 0%nat in let y := rho 2%nat in
  (1 - t) * f1 + t * (x * x * x - 1) = 0 -> (1 - t) * f2 + t * (y * y - 1) = 0 ->
  (x = 0 <-> t = fZ 2 / fZ 3) /\ (y = 0 <-> t = fZ 1 / fZ 3).
Proof. intro F. exact crossings. Qed.
Print Assumptions C87_crossings_partial.

(** On the homotopy the solver makes, (1-t) f + gamma t (x^3 - r1, y^2 - r2), they meet elsewhere: where
    (1-t) 2 = gamma t r1, and where (1-t)/2 = gamma t r2. *)
Theorem C87_crossings_refuted : forall (F : fld) (fs : funs F) (S : named_system (F := F)) rho f1 f2 t gamma r1 r2,
  fZ 2 <> @f0 F -> fZ 3 <> @f0 F -> crossed_paths = Some S -> values fs S rho = [Some f1; Some f2] ->
  let x := rho 0%nat in let y := rho 2%nat in
  (1 - t) * f1 + gamma * t * (x * x * x - r1) = 0 -> (1 - t) * f2 + gamma * t * (y * y - r2) = 0 ->
  (x = 0 -> t = fZ 2 / fZ 3 -> gamma * r1 = 1) /\ (y = 0 -> t = fZ 1 / fZ 3 -> gamma * r2 = 1).
Proof. intro F. exact crossings_elsewhere. Qed.
Print Assumptions C87_crossings_refuted.

(** Sphere: its zeros are the points with x^2 + y^2 + z^2 = 1, x, y, z being its variables. *)
Theorem C87_sphere : forall (F : fld), exists S : named_system (F := F), sphere = Some S /\ group S = [0; 1; 2]%nat
  /\ forall fs rho, values fs S rho = [Some 0] <->
       rho 0%nat * rho 0%nat + rho 1%nat * rho 1%nat + rho 2%nat * rho 2%nat = 1.
Proof. intro F. exact sphere_zeros. Qed.
Print Assumptions C87_sphere.

(** At x = 1/2, y = 3 and at (0, 0); at t = 2/3 the point (0, y) with y^2 = 1/2 is on a path, and the point
    (3/5, 4/5, 0) on the sphere. *)
Example C87_nontrivial :
  (exists S, griewank_osborn (F := QcF) = Some S
     /\ map (option_map rq) (values qc_funs S (fun n => match n with O => qc 1 2 | _ => qc 3 1 end)) = [Some (-355 # 128); Some (11 # 4)]%Q)
  /\ (exists S, sphere (F := QcF) = Some S
     /\ map (option_map rq) (values qc_funs S (fun n => match n with O => qc 3 5 | 1%nat => qc 4 5 | _ => qc 0 1 end)) = [Some 0%Q])
  /\ rq (@fZ QcF 2) = 2%Q /\ rq (@fZ QcF 3) = 3%Q.
Proof.
  split; [eexists; split; [reflexivity|vm_compute; reflexivity]|].
  split; [eexists; split; [reflexivity|vm_compute; reflexivity]|]. split; vm_compute; reflexivity.
Qed.
