(** Vocabulary for the regions of a force integral. *)
From Coq Require Import List Arith ZArith NArith Bool.
From Verif Require Import Base GeometryModel DrawingModel.
Import ListNotations.

(** outline h lies in the boundary region [outer], not in the body [g], and is neither of them *)
Definition hole_between (o : Ops) (g outer h : list (vec o)) : Prop :=
  poly_contains_poly o outer h = true /\ poly_contains_poly o g h = false /\ poly_neqb o h outer = Ok true /\ poly_neqb o h g = Ok true.
(** the test of the library says that q is in the polygon; [rim]: the boundary counts *)
Definition says_in (o : Ops) (eps : T o) (rim : bool) (g : list (vec o)) (q : vec o) : Prop := poly_contains_eps o g q rim eps = Ok true.
