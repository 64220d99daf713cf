(** Vocabulary for the statements about the cotangent weights (C85). *)
From Coq Require Import List Arith Bool.
From Coq Require Import Reals.
From Verif Require Import Base GeometryModel GeometrySpec MeshModel MeshSpec.
Import ListNotations.
Local Open Scope R_scope.

(** v is a corner of t *)
Definition corner_of (v : nat) (t : tri) : bool := existsb (Nat.eqb v) (corners t).
(** the triangles with the side from u to v *)
Definition sharing {A} (m : mesh ROps A) (u v : nat) : list tri := filter (fun t => corner_of u t && corner_of v t) (m_tris m).
(** the corner of t that is neither u nor v *)
Definition apex (u v : nat) (t : tri) : nat := nth 0 (filter (fun c => negb (Nat.eqb c u) && negb (Nat.eqb c v)) (corners t)) O.
(** the cotangent of the angle of the triangle a, c, b at c *)
Definition cotangent (a c b : pt) : R :=
  ((px a - px c) * (px b - px c) + (py a - py c) * (py b - py c)) / Rabs (turn c a b).
(** the cotangent of the angle of t opposite to its side from u to v *)
Definition opposite {A} (m : mesh ROps A) (u v : nat) (t : tri) : R := cotangent (pos m u) (pos m (apex u v t)) (pos m v).
(** every side belongs to at most two triangles *)
Definition planar {A} (m : mesh ROps A) : Prop := forall u v, u <> v -> (length (sharing m u v) <= 2)%nat.
(** the side from u to v lies between two triangles; it is on the border of the mesh *)
Definition inner_side {A} (m : mesh ROps A) (u v : nat) : Prop := length (sharing m u v) = 2%nat.
Definition border_side {A} (m : mesh ROps A) (u v : nat) : Prop := length (sharing m u v) = 1%nat.
