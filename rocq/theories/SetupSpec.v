(** Vocabulary for the statements about the automatic boundary (C63). *)
From Coq Require Import String.
From Coq Require Import List Arith ZArith Bool.
From Coq Require Import Reals.
From Verif Require Import Base GeometryModel GeometrySpec DrawingModel DrawingSpec.
Import ListNotations.
Local Open Scope R_scope.

(** the conversion from double to uint32_t drops the fraction *)
Definition truncates (lm : libm ROps) : Prop :=
  forall x : R, 0 <= x < 2 ^ 32 -> exists n, to_u32 ROps lm x = Ok n /\ INR n <= x < INR n + 1.

Definition centroid (l : list pt) : pt := P (sumx l / INR (length l)) (sumy l / INR (length l)).
(** m is the largest distance of a point of l from the origin *)
Definition reach (l : list pt) (m : R) : Prop := (forall p, In p l -> dist p org <= m) /\ exists p, In p l /\ dist p org = m.
(** s is the side of an equilateral triangle of the given area *)
Definition equilateral (s area : R) : Prop := 0 < s /\ sqrt 3 / 4 * (s * s) = area.

(** d' is d with a closed regular polygon of n new points around the origin *)
Definition ring_added {A} (d d' : drawing ROps A) (r : R) (n : nat) : Prop :=
  points d' = points d ++ map (circle_vertex org r n) (seq 0 n) /\
  segments d' = segments d ++ map (fun i => (length (points d) + i, length (points d) + (S i mod n)))%nat (seq 0 n) /\
  polygons d' = polygons d ++ [map (circle_vertex org r n) (seq 1 n)].
(** p is strictly inside that polygon *)
Definition inside_ring (r : R) (n : nat) (p : pt) : Prop :=
  forall k, (k < n)%nat -> 0 < turn (circle_vertex org r n k) (circle_vertex org r n (S k)) p.
(** the last region of d' is a new one, at p, with a property equal to val; the others are those of d *)
Definition region_added {A} (peq : A -> A -> bool) (d d' : drawing ROps A) (p : pt) (val : A) : Prop :=
  exists id a, regions d' = regions d ++ [(p, id)] /\ nth_error (region_map d') id = Some a /\ (a = val \/ peq a val = true).
