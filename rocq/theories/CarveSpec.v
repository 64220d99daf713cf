(** Vocabulary of property C84. *)
From Coq Require Import List Arith Bool.
From Verif Require Import Base CarveModel.
Import ListNotations.

(** t and u share a side without a segment on it *)
Definition open_side (m : tmesh) (t u : nat) : Prop := exists ss, nth_error m t = Some ss /\ In (Some u, false) ss.
(** from t one gets to u without crossing a segment *)
Inductive reach (m : tmesh) : nat -> nat -> Prop :=
| reach_here : forall t, reach m t t
| reach_step : forall t u v, reach m t u -> open_side m u v -> reach m t v.
(** a side of t lies on the hull and carries no segment *)
Definition open_hull (m : tmesh) (t : nat) : Prop := exists ss, nth_error m t = Some ss /\ In (None, false) ss.
(** the outside gets to t without crossing a segment *)
Definition outside (m : tmesh) (t : nat) : Prop := exists s, open_hull m s /\ reach m s t.
(** neighbours exist and are other triangles *)
Definition well_formed (m : tmesh) : Prop := forall t ss u w, nth_error m t = Some ss -> In (Some u, w) ss -> u < length m /\ u <> t.
(** seed number i lies in the same part as t; a is its material *)
Definition seeded {V} (m : tmesh) (l : list (option nat * V)) (i : nat) (a : V) (t : nat) : Prop :=
  exists s, nth_error l i = Some (Some s, a) /\ reach m s t.
(** neighbours see each other *)
Definition mutual (m : tmesh) : Prop := forall t u, open_side m t u -> open_side m u t.
