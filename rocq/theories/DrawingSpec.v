(** Vocabulary for the statements about drawings. *)
From Coq Require Import String.
From Coq Require Import List Arith ZArith NArith Bool.
From Coq Require Import Reals.
From Verif Require Import Base GeometryModel GeometrySpec DrawingModel.
Import ListNotations.

(** the drawings a program can hold: any sequence of public calls, exceptions caught, no undefined behaviour so far *)
Inductive reached (o : Ops) (lm : libm o) (A : Type) (peq : A -> A -> bool) : drawing o A -> Prop :=
| reached_new : reached o lm A peq (empty_drawing o A)
| reached_call : forall d c d' r, reached o lm A peq d -> exec o lm A peq c d = (d', r) -> ~ is_ub r -> reached o lm A peq d'.

(** the same segment up to direction *)
Definition same_ends (s t : nat * nat) : Prop := (fst s = fst t /\ snd s = snd t) \/ (fst s = snd t /\ snd s = fst t).
Definition well_formed {o A} (d : drawing o A) : Prop :=
  (forall s, In s (segments d) -> fst s < length (points d) /\ snd s < length (points d)) /\
  (forall i j s t, nth_error (segments d) i = Some s -> nth_error (segments d) j = Some t -> same_ends s t -> i = j) /\
  (forall r, In r (regions d) -> snd r < length (region_map d)).

(** d' is d with points appended *)
Definition only_adds_points {o A} (d d' : drawing o A) : Prop :=
  (exists l, points d' = points d ++ l) /\ segments d' = segments d /\ regions d' = regions d /\
  region_map d' = region_map d /\ polygons d' = polygons d.
(** points and segments may have been appended, the rest is as before *)
Definition only_adds {o A} (d d' : drawing o A) : Prop :=
  (exists l, points d' = points d ++ l) /\ (exists l, segments d' = segments d ++ l) /\ regions d' = regions d /\
  region_map d' = region_map d /\ polygons d' = polygons d.
(** calls that draw an outline *)
Definition is_outline {o A} (c : call o A) : Prop :=
  match c with DrawRectangle _ _ | DrawRectangleWH _ _ _ | DrawCircle _ _ _ | DrawPolygon _ => True | _ => False end.
(** the one kind of call that is undefined behaviour: an empty vertex list *)
Definition empty_outline {o A} (c : call o A) : Prop := match c with DrawPolygon l => u32 (length l) = 0 | _ => False end.

(** g is a polygon of the drawing around the seed of a region whose magnetisation [mag] is not zero *)
Definition magnet_outline {o A} (mag : A -> vec o) (d : drawing o A) (g : list (vec o)) : Prop :=
  In g (polygons d) /\ exists r v, In r (regions d) /\ nth_error (region_map d) (snd r) = Some v /\
    vec_neqb o (mag v) (vzero o) = Ok true /\ poly_contains o g (fst r) = true.

Local Open Scope R_scope.
(** exact arithmetic with the true sine, cosine and pi and the constant 1e-100 *)
Definition exact_libm (lm : libm ROps) : Prop :=
  (forall x : R, fsin ROps lm x = sin x) /\ (forall x : R, fcos ROps lm x = cos x) /\ fpi ROps lm = PI /\ tiny ROps lm = e100.

(** the tolerance of the point comparison *)
Definition tol9 : R := / 10 ^ 9.
Definition near (p q : pt) : Prop := dist p q < tol9.
(** the segment from a to b is in the drawing, up to direction and the tolerance *)
Definition drawn {A} (d : drawing ROps A) (a b : pt) : Prop :=
  exists s p q, In s (segments d) /\ nth_error (points d) (fst s) = Some p /\ nth_error (points d) (snd s) = Some q /\
    ((near p a /\ near q b) \/ (near p b /\ near q a)).
(** vertex number k of the n-gon drawn for a circle *)
Definition circle_vertex (c : pt) (r : R) (n k : nat) : pt :=
  P (px c + r * cos (2 * PI * INR k / INR n)) (py c + r * sin (2 * PI * INR k / INR n)).
(** the edges of the outline that a call draws *)
Definition outline_edges {A} (c : call ROps A) : list (pt * pt) :=
  match c with
  | DrawRectangle p q => edges [p; P (px q) (py p); q; P (px p) (py q)]
  | DrawRectangleWH p w h => edges [p; P (px p + w) (py p); P (px p + w) (py p + h); P (px p) (py p + h)]
  | DrawCircle c r n => map (fun k => (circle_vertex c r n k, circle_vertex c r n (S k))) (seq 0 n)
  | DrawPolygon l => edges l
  | _ => []
  end.
(** the polygon that a call stores *)
Definition outline_vertices {A} (c : call ROps A) : list pt :=
  match c with
  | DrawRectangle p q => [p; P (px q) (py p); q; P (px p) (py q)]
  | DrawRectangleWH p w h => [p; P (px p + w) (py p); P (px p + w) (py p + h); P (px p) (py p + h)]
  | DrawCircle c r n => map (circle_vertex c r n) (seq 1 n)
  | DrawPolygon l => l
  | _ => []
  end.
(** histories without drawPoint and addRefiningPoints in which no outline has an edge shorter than [m] *)
Inductive merged_history (lm : libm ROps) (A : Type) (peq : A -> A -> bool) (m : R) : drawing ROps A -> Prop :=
| merged_new : merged_history lm A peq m (empty_drawing ROps A)
| merged_call : forall d c d' r, merged_history lm A peq m d -> exec ROps lm A peq c d = (d', r) -> ~ is_ub r ->
    match c with DrawPoint _ | AddRefiningPoints => False | DrawPolygon l => is_u32 (length l) | _ => True end ->
    (forall a b, In (a, b) (outline_edges c) -> m <= dist a b) -> merged_history lm A peq m d'.
(** no two stored points are equal under operator== *)
Definition separated {A} (d : drawing ROps A) : Prop :=
  forall i j p q, nth_error (points d) i = Some p -> nth_error (points d) j = Some q -> i <> j -> ~ near p q.

(** the drawing moved by v *)
Definition moved {A} (v : pt) (d : drawing ROps A) : drawing ROps A :=
  mkD (region_map d) (map (fun r => (shift v (fst r), snd r)) (regions d)) (map (shift v) (points d)) (segments d)
      (map (map (shift v)) (polygons d)).
(** delta is the distance from p to the closed segment a b *)
Definition segment_distance (p a b : pt) (delta : R) : Prop :=
  (exists q, on_segment q a b /\ dist p q = delta) /\ (forall q, on_segment q a b -> delta <= dist p q).
(** point number i (at p) and a stored segment (from a to b) of which it is not an end *)
Definition apart_pair {A} (d : drawing ROps A) (p a b : pt) : Prop :=
  exists i s, nth_error (points d) i = Some p /\ In s (segments d) /\ nth_error (points d) (fst s) = Some a /\
    nth_error (points d) (snd s) = Some b /\ fst s <> i /\ snd s <> i.
(** every stored segment has two different ends *)
Definition nondegenerate {A} (d : drawing ROps A) : Prop :=
  forall s a b, In s (segments d) -> nth_error (points d) (fst s) = Some a -> nth_error (points d) (snd s) = Some b -> a <> b.
(** the seeds in a polygon *)
Definition seeds_in {o A} (d : drawing o A) (g : list (vec o)) : list (vec o * nat) :=
  filter (fun r => poly_contains o g (fst r)) (regions d).
(** p lies in the bounding box of u and v *)
Definition in_box (p u v : pt) : Prop :=
  Rmin (px u) (px v) <= px p <= Rmax (px u) (px v) /\ Rmin (py u) (py v) <= py p <= Rmax (py u) (py v).
(** segment a b meets a segment that is stored in the drawing *)
Definition meets_stored {A} (d : drawing ROps A) (a b : pt) : Prop :=
  exists s u v, In s (segments d) /\ nth_error (points d) (fst s) = Some u /\ nth_error (points d) (snd s) = Some v /\ share_point a b u v.
(** a b and u v are the same segment up to direction and twice the tolerance *)
Definition overlay (a b u v : pt) : Prop :=
  (dist a u < 2 * tol9 /\ dist b v < 2 * tol9) \/ (dist a v < 2 * tol9 /\ dist b u < 2 * tol9).

(** d' is d after further public calls *)
Inductive later (o : Ops) (lm : libm o) (A : Type) (peq : A -> A -> bool) (d : drawing o A) : drawing o A -> Prop :=
| later_same : later o lm A peq d d
| later_call : forall d1 c d2 r, later o lm A peq d d1 -> exec o lm A peq c d1 = (d2, r) -> later o lm A peq d d2.
