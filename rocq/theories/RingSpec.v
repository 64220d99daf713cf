(** Vocabulary for the statements about the points drawn for interconnections (C66). *)
From Coq Require Import List Arith Bool Reals.
From Verif Require Import Base GeometryModel GeometrySpec DrawingModel DrawingSpec LayersModel.
Import ListNotations.
Local Open Scope R_scope.

(** the ends of the interconnections in layer l *)
Definition ends (links : list (link ROps)) (l : nat) : list pt :=
  flat_map (fun k => (if Nat.eqb (k_layer1 k) l then [k_p1 k] else []) ++ (if Nat.eqb (k_layer2 k) l then [k_p2 k] else [])) links.
(** c is the distance from p to the nearest segment of the drawing, the largest double if that is smaller *)
Definition clear_of {A} (d : drawing ROps A) (p : pt) (c : R) : Prop :=
  let dists := fun x => exists s a b, In s (segments d) /\ nth_error (points d) (fst s) = Some a /\ nth_error (points d) (snd s) = Some b /\ segment_distance p a b x in
  c <= dbl_max ROps /\ (forall x, dists x -> c <= x) /\ (c = dbl_max ROps \/ dists c).
(** ten points on a circle around p and ten on a circle of half its radius *)
Definition rings (p : pt) (c : R) : list pt := map (circle_vertex p (c / 2) 10) (seq 0 10) ++ map (circle_vertex p (c / 4) 10) (seq 0 10).
(** the point of which c is the middle of the segment to q *)
Definition opposite (c q : pt) : pt := P (2 * px c - px q) (2 * py c - py q).
(** every segment joins two different points of the drawing *)
Definition sound {A} (d : drawing ROps A) : Prop :=
  forall s, In s (segments d) -> exists a b, nth_error (points d) (fst s) = Some a /\ nth_error (points d) (snd s) = Some b /\ a <> b.
