(** Vocabulary for the statements about the ownership of mesh buffers (C52). *)
From Coq Require Import List Arith Bool.
From Verif Require Import Base OwnModel.
Import ListNotations.

(** a history in which no mesh is copied or assigned, or assigned to, after it has been triangulated *)
Definition copies_only_empty_meshes (cs : list op) : Prop :=
  forall before x out after, cs = before ++ Triangulate x out :: after ->
    forall y, ~ In (Copy y x) after /\ ~ In (Assign y x) after /\ ~ In (Assign x y) after.
(** no mesh is triangulated twice *)
Definition triangulates_once (cs : list op) : Prop :=
  forall before x out after, cs = before ++ Triangulate x out :: after -> forall out', ~ In (Triangulate x out') after.
