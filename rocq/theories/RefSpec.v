(** Vocabulary for the statements about reference counts (C86). *)
From Coq Require Import List Arith ZArith Bool.
From Verif Require Import Base MeshModel LayersModel RefModel.
Import ListNotations.

(** x is an object that is not freed *)
Definition live (h : heap) (x : nat) : Prop := exists r k, nth_error h x = Some (Some (S r, k)).
(** the number of objects that are not freed *)
Definition objects (h : heap) : nat := length (filter (fun c : cell => match c with Some _ => true | None => false end) h).
(** references that the counts say exist, less the references that objects own: those of the program *)
Definition owned (c : cell) : Z :=
  match c with
  | None => 0
  | Some (r, k) => Z.of_nat r - Z.of_nat (length (filter (fun s : option nat => match s with Some _ => true | None => false end) k))
  end.
Definition outside_references (h : heap) : Z := fold_right (fun c acc => (owned c + acc)%Z) 0%Z h.
(** the shared integers exist *)
Definition table_ready (small : nat -> option nat) (h : heap) : Prop := forall z x, small z = Some x -> live h x.
Definition node_count {o A} (ms : list (mesh o A)) : nat := total (map (fun m => length (m_points m)) ms).
Definition tri_count {o A} (ms : list (mesh o A)) : nat := total (map (fun m => length (m_tris m)) ms).
