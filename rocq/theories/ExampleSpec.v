(** Vocabulary for the statements about the example programs. *)
From Coq Require Import String.
From Coq Require Import List Arith ZArith NArith Bool.
From Coq Require Import Reals.
From Verif Require Import Base SumR GeometryModel GeometrySpec DrawingModel DrawingSpec PlaneSpec ExampleModel.
Import ListNotations.
Local Open Scope R_scope.

(** twice the signed area of a polygon: the sum of the cross products over its edges *)
Definition twice_area (g : list pt) : R := fold_right Rplus 0 (map (fun e => px (fst e) * py (snd e) - px (snd e) * py (fst e)) (edges g)).
Definition poly_area (g : list pt) : R := Rabs (twice_area g) / 2.
(** a region whose seed is declared right after an outline, with the vertices of the outline *)
Fixpoint labelled {A} (cs : list (call ROps A)) : list (list pt * (pt * A)) :=
  match cs with
  | [] => []
  | c :: cs' =>
      match c, cs' with
      | DrawPolygon g, DrawRegion p v :: _ => (g, (p, v)) :: labelled cs'
      | _, _ => labelled cs'
      end
  end.
Definition current_of {mat} (v : prop ROps mat) : R := fst (fst v).
Definition magnet_of {mat} (v : prop ROps mat) : pt := snd (fst v).
(** current through the outlines whose region follows them *)
Definition total_current {mat} (cs : list (call ROps (prop ROps mat))) : R :=
  fold_right Rplus 0 (map (fun e => current_of (snd (snd e)) * poly_area (fst e)) (labelled cs)).
(** strictly inside a rectangle with sides parallel to the axes *)
Definition inside_rectangle (q p1 p2 : pt) : Prop :=
  Rmin (px p1) (px p2) < px q < Rmax (px p1) (px p2) /\ Rmin (py p1) (py p2) < py q < Rmax (py p1) (py p2).
(** strictly inside a convex polygon: on the same side of every edge *)
Definition side (a b q : pt) : R := (px b - px a) * (py q - py a) - (py b - py a) * (px q - px a).
Definition inside_convex (q : pt) (g : list pt) : Prop :=
  (forall a b, In (a, b) (edges g) -> 0 < side a b q) \/ (forall a b, In (a, b) (edges g) -> side a b q < 0).
(** total momentum and mass-weighted centre of two bodies *)
Definition momentum (m1 m2 : R) (s : body ROps * body ROps) : pt :=
  P (m1 * px (b_velocity _ (fst s)) + m2 * px (b_velocity _ (snd s))) (m1 * py (b_velocity _ (fst s)) + m2 * py (b_velocity _ (snd s))).
Definition weighted_centre (m1 m2 : R) (s : body ROps * body ROps) : pt :=
  P (m1 * px (b_centre _ (fst s)) + m2 * px (b_centre _ (snd s))) (m1 * py (b_centre _ (fst s)) + m2 * py (b_centre _ (snd s))).
(** p moved by k times v *)
Definition moved (p : pt) (k : R) (v : pt) : pt := P (px p + k * px v) (py p + k * py v).
(** magnetisations of the regions, and their sum *)
Definition magnetisations {mat} (cs : list (call ROps (prop ROps mat))) : list pt := flat_map (fun c => match c with DrawRegion _ v => [magnet_of v] | _ => [] end) cs.
Definition total_magnetisation {mat} (cs : list (call ROps (prop ROps mat))) : pt :=
  P (fold_right Rplus 0 (map px (magnetisations cs))) (fold_right Rplus 0 (map py (magnetisations cs))).
(** one body over a time dt: mass times velocity changes by the force, inertia times spin by the torque; the new velocity and spin move it *)
Definition follows (dt m inertia : R) (F : pt) (t : R) (b b' : body ROps) : Prop :=
  P (m * px (b_velocity _ b')) (m * py (b_velocity _ b')) = moved (P (m * px (b_velocity _ b)) (m * py (b_velocity _ b))) dt F /\
  b_centre _ b' = moved (b_centre _ b) dt (b_velocity _ b') /\
  inertia * b_spin _ b' = inertia * b_spin _ b + dt * t /\
  b_angle _ b' = b_angle _ b + dt * b_spin _ b'.
