(** Vocabulary for the statements about the physics of the magnetic potential (C91-C94). *)
From Coq Require Import List Arith Bool.
From Coq Require Import Reals.
From Verif Require Import Base AlgebraModel AlgebraSpec SumR GeometryModel GeometrySpec DrawingModel DrawingSpec MeshModel MeshSpec CotSpec PhysSpec.
Import ListNotations.
Local Open Scope R_scope.

(** generateSystem succeeds for the currents J and magnetisations M, so does holding the rim at zero, and x solves the equations
    for the permeabilities mu of the triangles *)
Definition potential {A} (J : A -> R) (M : A -> pt) (m : mesh ROps A) (es : list (nat * nat)) (mu : list R) (x : nat -> R) : Prop :=
  exists S S', ms_getFemSystem ROps A J M m es = Ok S /\ addDirichletInfinite ROps A m S = Ok S' /\ solves (sys_eval S' mu) x.
(** the three outermost nodes are different nodes a, b, c *)
Definition rim {A} (m : mesh ROps A) (a b c : nat) : Prop :=
  farthest ROps (m_points m) = Ok (a, b, c) /\ NoDup [a; b; c] /\ (a < length (m_points m))%nat /\ (b < length (m_points m))%nat /\ (c < length (m_points m))%nat.
(** one permeability for each triangle, none of them zero; all of them positive *)
Definition permeabilities {A} (m : mesh ROps A) (mu : list R) : Prop := length mu = length (m_tris m) /\ forall u, In u mu -> u <> 0.
Definition permeable {A} (m : mesh ROps A) (mu : list R) : Prop := length mu = length (m_tris m) /\ forall u, In u mu -> 0 < u.
Definition node_pairs {A} (m : mesh ROps A) (es : list (nat * nat)) : Prop :=
  Forall (fun e : nat * nat => (fst e < length (m_points m))%nat /\ (snd e < length (m_points m))%nat) es.
(** every magnetisation drawn is zero, or at least the 1e-9 that Vector == tolerates *)
Definition clear_cut {A} (M : A -> pt) (m : mesh ROps A) : Prop :=
  forall r p, In r (regions (m_drawing m)) -> nth_error (region_map (m_drawing m)) (snd r) = Some p -> M p = org \/ ~ near (M p) org.
Definition no_magnets {A} (M : A -> pt) (m : mesh ROps A) : Prop :=
  forall r, In r (regions (m_drawing m)) -> exists p, nth_error (region_map (m_drawing m)) (snd r) = Some p /\ M p = org.
(** no outline of the drawing repeats a vertex immediately *)
Definition outlines_solid {A} (m : mesh ROps A) : Prop := forall g, In g (polygons (m_drawing m)) -> solid g.
(** a u + b v *)
Definition mix (a b : R) (u v : pt) : pt := P (a * px u + b * px v) (a * py u + b * py v).
(** the integral of current density times potential, per unit of depth *)
Definition linkage {A} (J : A -> R) (m : mesh ROps A) (ps : list A) (x : nat -> R) : R :=
  sum_tris m ps (fun t p => J p * ((x (t0 t) + x (t1 t) + x (t2 t)) / 3) * tri_area m t).
(** the integral of B . H, per unit of depth: twice the stored energy *)
Definition stores {A} (m : mesh ROps A) (mu : list R) (x : nat -> R) (w : R) : Prop :=
  exists gs, Forall2 (gradient_of m x) (m_tris m) gs /\ w = sum_tris m (combine mu gs) (fun t ug => norm2 (snd ug) / fst ug * tri_area m t).
(** for every side, the cotangents of the angles opposite to it, over the permeability there, do not add up to less than 0 *)
Definition reluctances_nonneg {A} (m : mesh ROps A) (mu : list R) : Prop :=
  forall a b, a <> b -> 0 <= suml (filter (fun tu => corner_of a (fst tu) && corner_of b (fst tu)) (combine (m_tris m) mu)) (fun tu => / snd tu * opposite m a b (fst tu)).
(** a triangulation that generateSystem accepts, every node used, with outlines that do not repeat a vertex; es are the sides
    in the order in which the set of edges is gone through, and a, b, c the outermost nodes *)
Definition laid_out {A} (m : mesh ROps A) (ps : list A) (es : list (nat * nat)) (a b c : nat) : Prop :=
  fem_ready m ps /\ all_used m /\ drawing_ok m /\ outlines_solid m /\ node_pairs m es /\ rim m a b c.
