(** Vocabulary for the statements about problems without or with weak sources (C99). *)
From Coq Require Import List Arith Reals.
From Verif Require Import Base AlgebraModel AlgebraSpec GeometryModel GeometrySpec MeshModel MeshSpec LayersModel LayersSpec.
Import ListNotations.
Local Open Scope R_scope.

(** what the user gets: generateSystem, the calls of setVoltage, solve *)
Definition answer {A} (sigma : A -> R) (m : mesh ROps A) (l : list (pt * R)) : res (list R) :=
  S <- cd_getFemSystem ROps A sigma m ;; S' <- voltages m S l ;; cd_solve ROps A m S'.
Definition stack_answer {A} (sigma : A -> R) (ms : list (mesh ROps A)) (links : list (link ROps)) (l : list (pt * R * nat)) : res (list R) :=
  S <- ml_system ROps A sigma finite_R ms links ;; S' <- ml_voltages ms S l ;; ml_solve ROps S'.
(** the same calls with every voltage multiplied by c *)
Definition times (c : R) (l : list (pt * R)) : list (pt * R) := map (fun q => (fst q, c * snd q)) l.
Definition stack_times (c : R) (l : list (pt * R * nat)) : list (pt * R * nat) := map (fun q => (fst (fst q), c * snd (fst q), snd q)) l.
Definition all_zero (n : nat) : list R := repeat 0 n.
