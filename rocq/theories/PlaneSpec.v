(** Vocabulary for drawings whose outlines meet only at common vertices. *)
From Coq Require Import String.
From Coq Require Import List Arith ZArith NArith Bool.
From Coq Require Import Reals.
From Verif Require Import Base GeometryModel GeometrySpec DrawingModel DrawingSpec.
Import ListNotations.

(** calls made one after the other; the first that throws ends the program *)
Fixpoint draw_all (o : Ops) (lm : libm o) (A : Type) (peq : A -> A -> bool) (cs : list (call o A)) (d : drawing o A) : drawing o A * res unit :=
  match cs with
  | [] => (d, Ok tt)
  | c :: cs' => match exec o lm A peq c d with (d', Ok _) => draw_all o lm A peq cs' d' | other => other end
  end.

Local Open Scope R_scope.
(** p is an end of one of the segments *)
Definition ends (E : list (pt * pt)) (p : pt) : Prop := exists q, In (p, q) E \/ In (q, p) E.
(** neither end of a b is in the bounding box of c d, or the two have no common point (and the granularity of C24) *)
Definition clear (a b c d : pt) : Prop :=
  (~ in_box a c d /\ ~ in_box b c d) \/ (~ share_point a b c d /\ coarse_for a b c /\ coarse_for a b d).
(** segments between points that the drawing can tell apart, meeting at common ends only *)
Definition plane (E : list (pt * pt)) : Prop :=
  (forall a b, In (a, b) E -> a <> b) /\
  (forall p q, ends E p -> ends E q -> p <> q -> tol9 <= dist p q) /\
  (forall a b c d, In (a, b) E -> In (c, d) E -> a <> c -> a <> d -> b <> c -> b <> d -> clear a b c d).

(** programs that draw outlines and regions *)
Definition plain {A} (c : call ROps A) : Prop :=
  match c with
  | DrawPolygon l => l <> [] /\ is_u32 (length l)
  | DrawPoint _ | AddRefiningPoints | Translate _ => False
  | _ => True
  end.
Definition all_edges {A} (cs : list (call ROps A)) : list (pt * pt) := flat_map outline_edges cs.
Definition outlines {A} (cs : list (call ROps A)) : list (list pt) :=
  flat_map (fun c => match c with DrawRegion _ _ => [] | c => [outline_vertices c] end) cs.
Definition seeds {A} (cs : list (call ROps A)) : list (pt * A) := flat_map (fun c => match c with DrawRegion p v => [(p, v)] | _ => [] end) cs.
(** the segment from a to b is stored in this direction *)
Definition stored {A} (d : drawing ROps A) (a b : pt) : Prop :=
  exists s, In s (segments d) /\ nth_error (points d) (fst s) = Some a /\ nth_error (points d) (snd s) = Some b.
