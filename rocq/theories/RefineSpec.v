(** Vocabulary for the statements about refinement (C81, C82). *)
From Coq Require Import List Arith Bool.
From Coq Require Import Reals.
From Verif Require Import Base GeometryModel GeometrySpec DrawingModel DrawingSpec MeshSpec SetupSpec.
Import ListNotations.
Local Open Scope R_scope.

(** atan2 gives the angle of the point (x, y) *)
Definition exact_atan2 (lm : libm ROps) : Prop := forall y x : R, x <> 0 \/ y <> 0 ->
  - PI < fatan2 ROps lm y x <= PI /\
  x = sqrt (x * x + y * y) * cos (fatan2 ROps lm y x) /\ y = sqrt (x * x + y * y) * sin (fatan2 ROps lm y x).
(** seen from c, the directions to a and b differ by less than 120 degrees: the cosine is above -1/2 *)
Definition below_120 (c a b : pt) : Prop :=
  - (dist c a * dist c b) < 2 * ((px a - px c) * (px b - px c) + (py a - py c) * (py b - py c)).
(** segment s joins the points number i and j *)
Definition joins (s : nat * nat) (i j : nat) : Prop := (fst s = i /\ snd s = j) \/ (fst s = j /\ snd s = i).
(** two segments of the drawing meet at point number i at less than 120 degrees *)
Definition sharp_corner {A} (d : drawing ROps A) (i : nat) : Prop :=
  exists l1 s l2 t l3 j k c a b, segments d = l1 ++ s :: l2 ++ t :: l3 /\ joins s i j /\ joins t i k /\
    nth_error (points d) i = Some c /\ nth_error (points d) j = Some a /\ nth_error (points d) k = Some b /\ below_120 c a b.
(** the 18 places around c at the distance eps / 100, 20 degrees apart *)
Definition ring_of (c : pt) (eps : R) : list pt :=
  map (fun j => P (px c + eps / 100 * cos (INR j * PI / 9)) (py c + eps / 100 * sin (INR j * PI / 9))) (seq 0 18).
(** p lies in a polygon and at least eps / 200 away from the segments at point number i *)
Definition acceptable {A} (d : drawing ROps A) (i : nat) (eps : R) (p : pt) : Prop :=
  (exists g, In g (polygons d) /\ poly_contains ROps g p = true) /\
  forall s j a b q, In s (segments d) -> joins s i j -> nth_error (points d) i = Some a -> nth_error (points d) j = Some b -> on_segment q a b ->
    eps / 200 <= dist p q.
(** l is what is added for the corner c, which is point number i *)
Definition refined {A} (d : drawing ROps A) (i : nat) (c : pt) (eps : R) (l : list pt) : Prop :=
  (sharp_corner d i /\ exists keep, (forall p, keep p = true <-> acceptable d i eps p) /\ l = filter keep (ring_of c eps)) \/
  (~ sharp_corner d i /\ l = []).
(** no segment joins a point to itself *)
Definition no_loops {A} (d : drawing ROps A) : Prop := forall s, In s (segments d) -> fst s <> snd s.

(** ** refinement around magnets (C82) *)
(** conversion of a double to uint32_t: truncation, undefined behaviour when the value does not fit *)
Definition converts (lm : libm ROps) : Prop := truncates lm /\ forall x : R, 2 ^ 32 <= x -> is_ub (to_u32 ROps lm x).
(** the point at the fraction t of the edge a b, moved by h to the left of it *)
Definition offset (a b : pt) (t h : R) : pt :=
  P (px a + t * (px b - px a) - h * ((py b - py a) / dist a b)) (py a + t * (py b - py a) + h * ((px b - px a) / dist a b)).
(** n equal steps along the edge, on both sides *)
Definition places (a b : pt) (h : R) (n : nat) : list pt :=
  flat_map (fun j => [offset a b (INR j / INR n) h; offset a b (INR j / INR n) (- h)]) (seq 0 n).
(** the candidates of a list are taken in turn when ok says so of what is there and the candidate *)
Inductive sieve (ok : list pt -> pt -> Prop) : list pt -> list pt -> list pt -> Prop :=
| sieve_nil : forall pts, sieve ok pts [] pts
| sieve_take : forall pts c cs pts', ok pts c -> sieve ok (pts ++ [c]) cs pts' -> sieve ok pts (c :: cs) pts'
| sieve_skip : forall pts c cs pts', ~ ok pts c -> sieve ok pts cs pts' -> sieve ok pts (c :: cs) pts'.
(** p is in the outline g and at least m away from all vertices of outlines and all points present *)
Definition inside_clear (g : list pt) (outlines : list (list pt)) (m : R) (pts : list pt) (p : pt) : Prop :=
  poly_contains ROps g p = true /\ forall q, In q (concat outlines ++ pts) -> m <= dist p q.
(** the edge a b of g is refined, growing the points from pts to pts' *)
Definition edge_refined {A} (d : drawing ROps A) (g : list pt) (a b : pt) (pts pts' : list pt) : Prop :=
  exists eps n, getCurrentEpsilon ROps A (with_points ROps A d pts) = Ok eps /\ 0 < eps /\ INR n <= dist a b / (eps / 10) < INR n + 1 /\ INR n < 2 ^ 32 /\
    sieve (inside_clear g (polygons d) (eps / 10)) pts (places a b (11 / 100 * eps) n) pts'.
Inductive edges_refined {A} (d : drawing ROps A) : list (list pt * (pt * pt)) -> list pt -> list pt -> Prop :=
| refined_nil : forall pts, edges_refined d [] pts pts
| refined_cons : forall g a b es pts pts' pts'', edge_refined d g a b pts pts' -> edges_refined d es pts' pts'' -> edges_refined d ((g, (a, b)) :: es) pts pts''.
(** the edge cannot be refined: the feature size is zero, or the number of steps does not fit into uint32_t *)
Definition stuck {A} (d : drawing ROps A) (e : list pt * (pt * pt)) (pts : list pt) (r : res unit) : Prop :=
  exists eps, getCurrentEpsilon ROps A (with_points ROps A d pts) = Ok eps /\
    ((eps = 0 /\ is_nonfin r) \/ (0 < eps /\ 2 ^ 32 <= dist (fst (snd e)) (snd (snd e)) / (eps / 10) /\ is_ub r)).
(** the edges of a list are refined in turn, all of them or up to the first that is stuck *)
Definition runs_edges {A} (d : drawing ROps A) (es : list (list pt * (pt * pt))) (pts : list pt) (d' : drawing ROps A) (r : res unit) : Prop :=
  exists es1 es2 pts', es = es1 ++ es2 /\ edges_refined d es1 pts pts' /\ d' = with_points ROps A d pts' /\
    match es2 with [] => r = Ok tt | e :: _ => stuck d e pts' r end.
(** the edges of the outlines of a list in order *)
Definition all_edges (gs : list (list pt)) : list (list pt * (pt * pt)) := flat_map (fun g => map (fun e => (g, e)) (edges g)) gs.
(** g is an outline around a seed of the material number k *)
Definition around_seed {A} (d : drawing ROps A) (k : nat) (g : list pt) : Prop :=
  In g (polygons d) /\ exists r, In r (regions d) /\ snd r = k /\ poly_contains ROps g (fst r) = true.
(** g is an outline around a seed of a magnet; no different outline around a seed of the same material is inside it *)
Definition magnet {A} (mag : A -> pt) (d : drawing ROps A) (g : list pt) : Prop :=
  exists k v, nth_error (region_map d) k = Some v /\ ~ near (mag v) (P 0 0) /\ around_seed d k g /\
    forall h, around_seed d k h -> differ g h -> poly_contains_poly ROps g h = false.

(** a rectangle of one material, with its seed *)
Definition rect (x0 y0 x1 y1 : R) : list pt := [P x0 y0; P x1 y0; P x1 y1; P x0 y1].
Definition one_rect {A} (v : A) (seed : pt) (x0 y0 x1 y1 : R) : drawing ROps A :=
  mkD [v] [(seed, O)] (rect x0 y0 x1 y1) [(0, 1); (1, 2); (2, 3); (3, 0)]%nat [rect x0 y0 x1 y1].
