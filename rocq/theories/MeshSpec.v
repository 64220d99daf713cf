(** Vocabulary for the statements about meshes and assembly. *)
From Coq Require Import String.
From Coq Require Import List Arith ZArith NArith Bool.
From Coq Require Import Reals Permutation.
From Verif Require Import Base SumR AlgebraModel AlgebraSpec GeometryModel GeometrySpec DrawingModel DrawingSpec MeshModel.
Import ListNotations.

(** the corners of t are among n vertices *)
Definition tri_in (n : nat) (t : tri) : Prop := t0 t < n /\ t1 t < n /\ t2 t < n.
(** vertex numbers in range, one region number per triangle *)
Definition well_shaped {o A} (m : mesh o A) : Prop :=
  Forall (tri_in (length (m_points m))) (m_tris m) /\ length (m_attrs m) = length (m_tris m) /\ is_u32 (length (m_points m)).
(** every region number of the mesh is a region of the drawing *)
Definition known_regions {o A} (m : mesh o A) : Prop := Forall (fun a => a < length (region_map (m_drawing m))) (m_attrs m).
(** every region drawn refers to a known property *)
Definition drawing_ok {o A} (m : mesh o A) : Prop := Forall (fun r => snd r < length (region_map (m_drawing m))) (regions (m_drawing m)).
(** how often v is a corner of a triangle *)
Definition degree (ts : list tri) (v : nat) : nat := length (filter (Nat.eqb v) (concat (map corners ts))).
(** the properties of the triangles, in order *)
Definition properties {o A} (m : mesh o A) (ps : list A) : Prop :=
  Forall2 (fun a p => nth_error (region_map (m_drawing m)) a = Some p) (m_attrs m) ps.

Local Open Scope R_scope.
(** position of a vertex *)
Definition pos {A} (m : mesh ROps A) (v : nat) : pt := nth v (m_points m) org.
(** twice the signed area, and the area, of a triangle *)
Definition tri_turn {A} (m : mesh ROps A) (t : tri) : R := turn (pos m (t0 t)) (pos m (t1 t)) (pos m (t2 t)).
Definition tri_area {A} (m : mesh ROps A) (t : tri) : R := Rabs (tri_turn m t) / 2.
(** no triangle is degenerate *)
Definition proper {A} (m : mesh ROps A) : Prop := Forall (fun t => tri_turn m t <> 0) (m_tris m).
(** what the assembly needs: shape, regions, at most 18 triangles around a vertex, no degenerate triangle *)
Definition fem_ready {A} (m : mesh ROps A) (ps : list A) : Prop :=
  well_shaped m /\ properties m ps /\ (forall v, (degree (m_tris m) v <= 18)%nat) /\ proper m.
(** every vertex belongs to a triangle *)
Definition all_used {A} (m : mesh ROps A) : Prop := forall v, (v < length (m_points m))%nat -> (0 < degree (m_tris m) v)%nat.
(** g is the gradient of the affine function with the values x at the corners of t *)
Definition gradient_of {A} (m : mesh ROps A) (x : nat -> R) (t : tri) (g : pt) : Prop :=
  x (t1 t) - x (t0 t) = px g * (px (pos m (t1 t)) - px (pos m (t0 t))) + py g * (py (pos m (t1 t)) - py (pos m (t0 t))) /\
  x (t2 t) - x (t0 t) = px g * (px (pos m (t2 t)) - px (pos m (t0 t))) + py g * (py (pos m (t2 t)) - py (pos m (t0 t))).
Definition norm2 (g : pt) : R := px g * px g + py g * py g.
(** sum over the triangles, together with a list of values for them *)
Definition sum_tris {A X} (m : mesh ROps A) (l : list X) (f : tri -> X -> R) : R :=
  suml (combine (m_tris m) l) (fun tx => f (fst tx) (snd tx)).
(** vertices joined by a chain of triangles *)
Inductive linked {A} (m : mesh ROps A) : nat -> nat -> Prop :=
| linked_refl : forall u, linked m u u
| linked_step : forall u v w t, linked m u v -> In t (m_tris m) -> In v (corners t) -> In w (corners t) -> linked m u w.
(** every vertex is joined to one of ids *)
Definition pins {A} (m : mesh ROps A) (ids : list nat) : Prop := forall v, (v < length (m_points m))%nat -> exists u, In u ids /\ linked m u v.
(** the triangles with all three corners in the polygon g *)
Definition inner_tris {A} (m : mesh ROps A) (g : list pt) : list tri :=
  filter (fun t => forallb (fun v => poly_contains ROps g (pos m v)) (corners t)) (m_tris m).
(** centroid of a triangle *)
Definition centroid {A} (m : mesh ROps A) (t : tri) : pt :=
  P ((px (pos m (t0 t)) + px (pos m (t1 t)) + px (pos m (t2 t))) / 3) ((py (pos m (t0 t)) + py (pos m (t1 t)) + py (pos m (t2 t))) / 3).
(** the two meshes have the same triangles in space, whatever the numbering of vertices, corners and triangles *)
Definition same_triangles {A} (m m' : mesh ROps A) : Prop :=
  exists ts, Permutation ts (m_tris m') /\
    Forall2 (fun t t' => Permutation (map (pos m) (corners t)) (map (pos m') (corners t'))) (m_tris m) ts.
(** the mesh and its drawing moved by v; the frame (m_center) stays *)
Definition moved_mesh {A} (v : pt) (m : mesh ROps A) : mesh ROps A :=
  mkMesh (m_center m) (m_radius m) (m_epsilon m) (m_depth m) (map (shift v) (m_points m)) (m_marks m) (m_tris m) (m_attrs m) (moved v (m_drawing m)).
(** g and h differ under operator!= *)
Definition differ (g h : list pt) : Prop := length g <> length h \/ exists p q, In (p, q) (combine g h) /\ ~ near p q.
(** a quarter turn *)
Definition quarter (g : pt) : pt := P (- py g) (px g).
(** the point k p *)
Definition scaled (k : R) (p : pt) : pt := P (k * px p) (k * py p).
(** u v is an edge of the triangle t *)
Definition edge_of (t : tri) (u v : nat) : Prop := (u = t0 t /\ v = t1 t) \/ (u = t0 t /\ v = t2 t) \/ (u = t1 t /\ v = t2 t).
(** what a triangulation satisfies: proper triangles on the given vertices that do not overlap, and no vertex lies on
    a triangle without being its corner *)
Definition conforming {A} (m : mesh ROps A) : Prop :=
  Forall (tri_in (length (m_points m))) (m_tris m) /\ proper m /\
  (forall i j t t' p, nth_error (m_tris m) i = Some t -> nth_error (m_tris m) j = Some t' -> i <> j ->
     in_open_triangle p (pos m (t0 t)) (pos m (t1 t)) (pos m (t2 t)) -> in_open_triangle p (pos m (t0 t')) (pos m (t1 t')) (pos m (t2 t')) -> False) /\
  (forall t v, In t (m_tris m) -> (v < length (m_points m))%nat -> in_closed_triangle (pos m v) (pos m (t0 t)) (pos m (t1 t)) (pos m (t2 t)) -> In v (corners t)).
(** g contains no other polygon of l *)
Definition minimal (l : list (list pt)) (g : list pt) : Prop := forall h, In h l -> differ g h -> poly_contains_poly ROps g h = false.
(** the polygon g of the drawing contains the point p; the mesh is drawn around the origin, p is in the user's frame *)
Definition around {A} (m : mesh ROps A) (p : pt) (g : list pt) : Prop := In g (polygons (m_drawing m)) /\ poly_contains ROps g (vminus ROps p (m_center m)) = true.
(** the point beside the middle of p1 p2, at a tenth of eps to the left *)
Definition beside (eps : R) (p1 p2 q : pt) : Prop :=
  exists n, dist n org = 1 /\ px n * (px p2 - px p1) + py n * (py p2 - py p1) = 0 /\ 0 < px n * (- (py p2 - py p1)) + py n * (px p2 - px p1) /\
    q = P ((px p1 + px p2) / 2 + px n * eps / 10) ((py p1 + py p2) / 2 + py n * eps / 10).
(** consecutive vertices differ *)
Definition solid (g : list pt) : Prop := forall a b, In (a, b) (edges g) -> a <> b.
(** both ends of the mesh edge e are closer to the segment s than a tenth of epsilon *)
Definition close {A} (m : mesh ROps A) (e : nat * nat) (s : pt * pt) : Prop :=
  exists d1 d2, segment_distance (pos m (fst e)) (fst s) (snd s) d1 /\ segment_distance (pos m (snd e)) (fst s) (snd s) d2 /\
    d1 < m_epsilon m / 10 /\ d2 < m_epsilon m / 10.
Definition edge_length {A} (m : mesh ROps A) (e : nat * nat) : R := dist (pos m (fst e)) (pos m (snd e)).
Definition delta (i j : nat) : R := if Nat.eqb i j then 1 else 0.
(** w is the image of vertex v of the mesh k under the transform of the circle of radius r *)
Definition image {A} (r : R) (k : mesh ROps A) (v : nat) (w : pt) : Prop :=
  (nth_error (m_marks k) v = Some true -> w = pos k v) /\ (nth_error (m_marks k) v = Some false -> kelvin_point ROps r org (pos k v) = Ok w).
