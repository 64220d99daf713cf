(** Vocabulary for the statements about the magnetostatic solution (C65). *)
From Coq Require Import List Arith NArith ZArith Reals.
From Verif Require Import Base SumR AlgebraModel AlgebraSpec SolversModel SolversSpec GeometryModel GeometrySpec DrawingModel MeshModel MeshSpec MaterialModel MaterialSpec.
Import ListNotations.
Local Open Scope R_scope.

(** S is the system of the magnetostatic problem on the mesh m whose triangles have the materials ps: the assembled one,
    with the three outermost vertices held at zero, and every vertex joined to one of them *)
Definition ms_problem (m : mesh ROps (mprop ROps)) (ps : list (mprop ROps)) (S : nsystem ROps) : Prop :=
  fem_ready m ps /\ all_used m /\ exists es S0 a b c,
    ms_getFemSystem ROps (mprop ROps) p_J p_M m es = Ok S0 /\ addDirichletInfinite ROps (mprop ROps) m S0 = Ok S /\
    farthest ROps (m_points m) = Ok (a, b, c) /\ NoDup [a; b; c] /\
    (a < length (m_points m))%nat /\ (b < length (m_points m))%nat /\ (c < length (m_points m))%nat /\ pins m [a; b; c].
(** the residual of the equations S for the permeabilities mu at the potential x *)
Definition field_residual (S : nsystem ROps) (mu x : list R) : R := residual_norm (sA R (sys_eval S mu)) (sb R (sys_eval S mu)) x.
Definition positive (mu : list R) : Prop := forall i, (i < length mu)%nat -> 0 < vget mu i.
(** mu0: the permeabilities of the materials without field *)
Definition at_rest (ps : list (mprop ROps)) (mu0 : list R) : Prop := Forall2 (fun p v => getMu ROps p 0 = Ok v) ps mu0.
(** x is a potential computed on the way: the result of one inner solution, with permeabilities reached from mu0 by updates *)
Definition intermediate (vacuum : R) (ps : list (mprop ROps)) (S : nsystem ROps) (x : list R) : Prop :=
  exists mu0 mu C x0 st, at_rest ps mu0 /\ updates vacuum ps mu0 mu /\ csr_build 0 (sA R (sys_eval S mu)) = Ok C /\
    run ROps (SsorCG (3 / 2)) C (sb R (sys_eval S mu)) x0 (1 / 10 ^ 7) 50 = Ok (x, st).
(** some triangle's induction in the potential x lies between the last two points of its curve *)
Definition off_a_curve (m : mesh ROps (mprop ROps)) (ps : list (mprop ROps)) (x : list R) : Prop :=
  exists Bs i, computeCurl ROps (mprop ROps) m x = Ok Bs /\ (i < length ps)%nat /\ off_the_end (nth i ps no_material) (dist (nth i Bs org) org).
(** the induction of the potential x gives the permeabilities mu *)
Definition curves_give (m : mesh ROps (mprop ROps)) (ps : list (mprop ROps)) (x mu : list R) : Prop :=
  exists Bs, computeCurl ROps (mprop ROps) m x = Ok Bs /\ length mu = length ps /\
    forall i, (i < length ps)%nat -> getMu ROps (nth i ps no_material) (dist (nth i Bs org) org) = Ok (vget mu i).
(** what j+1 passes leave of the artificial first residual 10^10 *)
Definition left_over (vacuum : R) (j : nat) : R := vacuum * 10 ^ 20 * exp (- (INR j * (INR j + 1)) / 10).
