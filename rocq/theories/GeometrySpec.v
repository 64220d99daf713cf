(** Vocabulary for the statements about the geometry code, in terms of real coordinates only. *)
From Coq Require Import String.
From Coq Require Import List Arith ZArith NArith Bool.
From Coq Require Import Reals.
From Verif Require Import Base GeometryModel.
Import ListNotations.
Local Open Scope R_scope.

(** points of the plane *)
Notation pt := (vec ROps).
Definition P (x y : R) : pt := @mkV ROps x y.
Definition px (p : pt) : R := vx p.
Definition py (p : pt) : R := vy p.

(** Euclidean distance *)
Definition dist (p q : pt) : R := sqrt ((px p - px q) * (px p - px q) + (py p - py q) * (py p - py q)).
(** twice the signed area of the triangle a b c, positive when counterclockwise *)
Definition turn (a b c : pt) : R := (px b - px a) * (py c - py a) - (px c - px a) * (py b - py a).
(** the point a + t (b - a) *)
Definition along (a b : pt) (t : R) : pt := P (px a + t * (px b - px a)) (py a + t * (py b - py a)).
(** p is a point of the closed segment a b *)
Definition on_segment (p a b : pt) : Prop := exists t, 0 <= t <= 1 /\ p = along a b t.
(** the closed segments a b and c d have a common point *)
Definition share_point (a b c d : pt) : Prop := exists p, on_segment p a b /\ on_segment p c d.
(** the segments cross in a point interior to both, transversally *)
Definition cross_properly (a b c d : pt) : Prop :=
  exists s t, 0 < s < 1 /\ 0 < t < 1 /\ along a b s = along c d t /\ turn a b c <> turn a b d.
(** p is an interior point of the triangle a b c *)
Definition in_open_triangle (p a b c : pt) : Prop :=
  exists u v w, 0 < u /\ 0 < v /\ 0 < w /\ u + v + w = 1 /\
    px p = u * px a + v * px b + w * px c /\ py p = u * py a + v * py b + w * py c.
(** p is a point of the closed triangle a b c *)
Definition in_closed_triangle (p a b c : pt) : Prop :=
  exists u v w, 0 <= u /\ 0 <= v /\ 0 <= w /\ u + v + w = 1 /\
    px p = u * px a + v * px b + w * px c /\ py p = u * py a + v * py b + w * py c.
(** translation by v *)
Definition shift (v p : pt) : pt := P (px p + px v) (py p + py v).

(** the closed boundary walk of a vertex list: consecutive pairs, the last vertex joined to the first *)
Definition edges (l : list pt) : list (pt * pt) :=
  match l with [] => [] | a :: t => combine l (t ++ [a]) end.
(** p lies on the boundary of the polygon *)
Definition on_boundary (l : list pt) (p : pt) : Prop := exists a b, In (a, b) (edges l) /\ on_segment p a b.
(** the edge a b meets the horizontal line through p strictly right of p; an edge is taken to be open at its
    lower and closed at its upper end *)
Definition meets_ray (p a b : pt) : Prop :=
  exists t, px p < px a + t * (px b - px a) /\ py p = py a + t * (py b - py a) /\
    ((py a < py b /\ 0 < t <= 1) \/ (py b < py a /\ 0 <= t < 1)).
(** [k] edges of the polygon meet the ray *)
Inductive ray_count (p : pt) : list (pt * pt) -> nat -> Prop :=
| ray_nil : ray_count p [] 0
| ray_yes : forall a b l k, meets_ray p a b -> ray_count p l k -> ray_count p ((a, b) :: l) (S k)
| ray_no : forall a b l k, ~ meets_ray p a b -> ray_count p l k -> ray_count p ((a, b) :: l) k.

(** the constant 1e-100 of segmentsIntersect *)
Definition e100 : R := / 10 ^ 100.
(** tolerance of the orientation test *)
Definition eps52 : R := / 2 ^ 52.

(** c encloses every point of l *)
Definition encloses (c : circle ROps) (l : list pt) : Prop := forall p, In p l -> dist (center c) p <= radius c.
(** some boundary point of the polygon is within eps of p *)
Definition near_boundary (l : list pt) (p : pt) (eps : R) : Prop := exists q, on_boundary l q /\ dist p q <= eps.
(** x is zero or clearly larger than the tolerance of segmentsIntersect *)
Definition coarse (x : R) : Prop := x = 0 \/ e100 < Rabs x.
(** the data of q relative to the segment a b is coarse *)
Definition coarse_for (a b q : pt) : Prop :=
  coarse (turn a b q) /\ coarse (px q - px a) /\ coarse (px q - px b) /\ coarse (py q - py a) /\ coarse (py q - py b).
(** both coordinates are integer multiples of 1e-49 *)
Definition on_grid (q : pt) : Prop := exists i j : Z, px q = IZR i * / 10 ^ 49 /\ py q = IZR j * / 10 ^ 49.

(** the value x forced into [0, 1] *)
Definition clamp01 (x : R) : R := Rmax 0 (Rmin 1 x).
(** position of v in [lo, hi], 0 at lo and 1 at hi *)
Definition position (v lo hi : R) : R := clamp01 ((v - lo) / (hi - lo)).
(** the jet colour map: (blue, green, red) *)
Definition jet (u : R) : R * R * R :=
  (255 * clamp01 (2 - 4 * u), 255 * clamp01 (Rmin (4 * u) (4 - 4 * u)), 255 * clamp01 (4 * u - 2)).

(** coordinate sums and the origin *)
Fixpoint sumx (l : list pt) : R := match l with [] => 0 | p :: l' => px p + sumx l' end.
Fixpoint sumy (l : list pt) : R := match l with [] => 0 | p :: l' => py p + sumy l' end.
Definition org : pt := P 0 0.

(** an endpoint of a b lies in the relative interior of c d (see C24_touch_is_a_touch): c and d lie strictly on
    different sides of the line a b, and a or b is on the line c d *)
Definition touch (a b c d : pt) : Prop :=
  (turn a b c < 0 < turn a b d \/ turn a b d < 0 < turn a b c) /\ (turn c d a = 0 \/ turn c d b = 0).
