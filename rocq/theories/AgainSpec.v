(** Vocabulary for the statements about generating a system more than once (C100). *)
From Coq Require Import List Arith Bool Reals Permutation.
From Verif Require Import Base GeometryModel GeometrySpec DrawingModel DrawingSpec SetupModel SetupSpec LayersModel RingSpec.
Import ListNotations.
Local Open Scope R_scope.

(** generateSystem is called once for each of the areas, on the drawing that the call before left; each call gives the
    centre, the radius and the number of points of its boundary *)
Inductive generated (lm : libm ROps) {A} (peq : A -> A -> bool) (air : A) (mag : A -> pt) : drawing ROps A -> list R -> list (pt * R * nat) -> drawing ROps A -> Prop :=
| no_call : forall d, generated lm peq air mag d [] [] d
| one_call : forall d area d1 x areas xs d2, setup ROps lm A peq air mag false false area d = (d1, Ok x) -> generated lm peq air mag d1 areas xs d2 ->
    generated lm peq air mag d (area :: areas) (x :: xs) d2.
(** call number j asks for elements that are neither too large nor too small for a boundary of radius (3/2)^(j+1) m *)
Definition moderate (m : R) (areas : list R) : Prop :=
  forall j area, nth_error areas j = Some area -> exists s, equilateral s area /\ s <= 2 * ((3 / 2) ^ j * m) /\ (3 / 2) ^ j * m <= 10 ^ 8 * s /\ 4 * tol9 <= s.
(** the boundary of call number j has the radius (3/2)^(j+1) m, and as many points as the area asks for *)
Definition grown (m area : R) (j : nat) (r : R) (n : nat) : Prop :=
  r = (3 / 2) ^ (S j) * m /\ forall s, equilateral s area -> INR n <= 4 * PI * r / s < INR n + 1.

(** generateSystem, up to the mesher, is called k times on the layers *)
Inductive relinked {A} (lm : libm ROps) (links : list (link ROps)) : nat -> list (drawing ROps A) -> list (drawing ROps A) -> Prop :=
| not_linked : forall ds, relinked lm links 0 ds ds
| linked_once_more : forall k ds ds1 ds2, draw_links ROps A lm links ds = Ok ds1 -> relinked lm links k ds1 ds2 -> relinked lm links (S k) ds ds2.
(** the points drawn for the interconnections of layer l, whose ends have the distances cs from the segments *)
Definition link_points (links : list (link ROps)) (l : nat) (cs : list R) : list pt :=
  ends links l ++ flat_map (fun pc => rings (fst pc) (snd pc)) (combine (ends links l) cs).
