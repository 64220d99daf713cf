(** Property C101: outlines that meet only at their vertices.  Vocabulary in PlaneSpec.v, model in DrawingModel.v. *)
From Coq Require Import String.
From Coq Require Import List Arith ZArith NArith Bool Lia.
From Coq Require Import Reals Lra.
From Verif Require Import Base GeometryModel GeometrySpec DrawingModel DrawingSpec PlaneSpec Plane_proofs Geometry_proofs DrawingR_proofs ExampleModel ExampleSpec Example_proofs Props_Drawing.
Import ListNotations.
Local Open Scope R_scope.

(** *** C101: the program completes, and its drawing has exactly the vertices and the edges asked for, each once *)
Theorem C101_accepted : forall (lm : libm ROps) (A : Type) (peq : A -> A -> bool), exact_libm lm ->
  forall cs : list (call ROps A), Forall plain cs -> plane (all_edges cs) ->
  exists d, draw_all ROps lm A peq cs (empty_drawing ROps A) = (d, Ok tt) /\ well_formed d /\
    NoDup (points d) /\ (forall p, In p (points d) <-> ends (all_edges cs) p) /\
    (forall a b, stored d a b \/ stored d b a <-> In (a, b) (all_edges cs) \/ In (b, a) (all_edges cs)) /\
    polygons d = outlines cs /\ map fst (regions d) = map fst (seeds cs).
Proof. exact plane_accepted. Qed.
Print Assumptions C101_accepted.
(** the four outlines of the design example, some sharing edges *)
Example C101_case : exists cs : list (call ROps (prop ROps unit)), Forall plain cs /\ plane (all_edges cs) /\ length (outlines cs) = 4%nat /\ length (all_edges cs) = 16%nat.
Proof.
  exists (design unit tt tt 2 2 2). split; [apply design_plain|]. split; [|split; reflexivity].
  pose proof tol_pos. apply design_plane; lra.
Qed.
