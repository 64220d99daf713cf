(** Vocabulary for the statements about the physics of the computed voltages (C87-C90). *)
From Coq Require Import List Arith Bool.
From Coq Require Import Reals.
From Verif Require Import Base AlgebraModel AlgebraSpec SumR GeometryModel GeometrySpec MeshModel MeshSpec LayersModel LayersSpec CotSpec.
Import ListNotations.
Local Open Scope R_scope.

(** generateSystem succeeds, so do the calls of setVoltage, and x solves the system that they leave *)
Definition settled {A} (sigma : A -> R) (m : mesh ROps A) (l : list (pt * R)) (x : nat -> R) : Prop :=
  exists S S', cd_getFemSystem ROps A sigma m = Ok S /\ voltages m S l = Ok S' /\ solves S' x.
(** the calls hold the nodes ids, each a different one *)
Definition held {A} (m : mesh ROps A) (l : list (pt * R)) (ids : list nat) : Prop :=
  Forall2 (fun c id => closest (m_points m) (fst c) id) l ids /\ NoDup ids.
(** the power that the voltages x dissipate: conductivity times squared field, over the volume *)
Definition dissipates {A} (sigma : A -> R) (m : mesh ROps A) (ps : list A) (x : nat -> R) (w : R) : Prop :=
  exists gs, Forall2 (gradient_of m x) (m_tris m) gs /\ w = m_depth m * sum_tris m (combine ps gs) (fun t pg => sigma (fst pg) * norm2 (snd pg) * tri_area m t).
(** the current that leaves the node i into the conductor: the flow sigma * gradient against the function that is 1 at i
    and 0 at the other nodes *)
Definition leaves {A} (sigma : A -> R) (m : mesh ROps A) (ps : list A) (x : nat -> R) (i : nat) (c : R) : Prop :=
  exists gs hs, Forall2 (gradient_of m x) (m_tris m) gs /\ Forall2 (gradient_of m (fun v => if Nat.eqb v i then 1 else 0)) (m_tris m) hs /\
    c = m_depth m * sum_tris m (combine ps (combine gs hs)) (fun t q =>
      sigma (fst q) * (px (fst (snd q)) * px (snd (snd q)) + py (fst (snd q)) * py (snd (snd q))) * tri_area m t).
(** a map of the plane that multiplies every distance by k *)
Definition similarity (k : R) (f : pt -> pt) : Prop := 0 < k /\ forall p q, dist (f p) (f q) = k * dist p q.
(** the mesh and the calls with every point carried by f; the mesh with another depth *)
Definition carried {A} (f : pt -> pt) (m : mesh ROps A) : mesh ROps A :=
  mkMesh (m_center m) (m_radius m) (m_epsilon m) (m_depth m) (map f (m_points m)) (m_marks m) (m_tris m) (m_attrs m) (m_drawing m).
Definition carried_calls (f : pt -> pt) (l : list (pt * R)) : list (pt * R) := map (fun c => (f (fst c), snd c)) l.
Definition with_depth {A} (d : R) (m : mesh ROps A) : mesh ROps A :=
  mkMesh (m_center m) (m_radius m) (m_epsilon m) d (m_points m) (m_marks m) (m_tris m) (m_attrs m) (m_drawing m).
(** no triangle has an obtuse angle *)
Definition never_obtuse {A} (m : mesh ROps A) : Prop :=
  forall t a b c, In t (m_tris m) -> In a (corners t) -> In b (corners t) -> In c (corners t) -> a <> c -> b <> c ->
    0 <= (px (pos m a) - px (pos m c)) * (px (pos m b) - px (pos m c)) + (py (pos m a) - py (pos m c)) * (py (pos m b) - py (pos m c)).
(** i is not on the border: each of its sides lies between two triangles *)
Definition surrounded {A} (m : mesh ROps A) (i : nat) : Prop := forall b, b <> i -> length (sharing m i b) <> 1%nat.
(** for every side, the cotangents of the angles opposite to it, times the conductivity there, do not add up to less than 0 *)
Definition cotangents_nonneg {A} (sigma : A -> R) (m : mesh ROps A) (ps : list A) : Prop :=
  forall a b, a <> b -> 0 <= suml (filter (fun tp => corner_of a (fst tp) && corner_of b (fst tp)) (combine (m_tris m) ps)) (fun tp => sigma (snd tp) * opposite m a b (fst tp)).
