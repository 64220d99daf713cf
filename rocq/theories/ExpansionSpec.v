(** What the properties of the mesh generator's exact arithmetic are stated with. *)
From Coq Require Import List Arith ZArith Bool Reals.
From Coq Require Import Floats.SpecFloat.
From Verif Require Import Base GeometryModel FloatSpec GeometrySpec RoundSpec.
Import ListNotations.
Local Open Scope R_scope.

(** the number that an expansion stands for: the exact sum of its components *)
Fixpoint total (l : list f64) : R := match l with [] => 0 | x :: l' => value x + total l' end.
(** the first component is not larger than the second one, unless that is zero *)
Definition ordered (l : list f64) : Prop :=
  match l with a :: b :: _ => value b = 0 \/ Rabs (value a) <= Rabs (value b) | _ => True end.
