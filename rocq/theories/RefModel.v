(** Model of the reference counts of the Python bindings (python/nikfemm.cpp): the objects that generate_system and solve
    build and what remains of them when the caller drops the result.  Values are left out (they are in BindModel.v), and so
    are the objects that live as long as the interpreter (types, None, True).  The arguments of PyTuple_Pack are made from
    left to right; C++ leaves the order open. *)
From Coq Require Import String.
From Coq Require Import List Arith ZArith Bool.
From Verif Require Import Base GeometryModel DrawingModel MeshModel LayersModel BindModel.
Import ListNotations.

(** ** CPython: an object has a reference count and owns references to others; NULL is an empty slot of a list *)
Definition cell : Type := option (nat * list (option nat)).
Definition heap : Type := list cell.
Definition fresh (h : heap) (slots : list (option nat)) : nat * heap := (length h, h ++ [Some (1, slots)]).
(** Py_INCREF *)
Definition incref (h : heap) (x : nat) : res heap :=
  c <- get h x ;;
  match c with
  | Some (r, k) => set h x (Some (S r, k))
  | None => UB "freed object"
  end.
(** Py_DECREF: at zero the object is freed and gives up what it owns.  Each step down frees an object, so the number of
    objects is enough fuel. *)
Fixpoint decref_at (fuel : nat) (h : heap) (x : nat) : res heap :=
  match fuel with
  | O => UB "fuel"
  | S fuel' =>
      c <- get h x ;;
      match c with
      | None | Some (O, _) => UB "freed object"
      | Some (S O, k) =>
          h <- set h x None ;;
          forM_list k (fun s h => match s with None => Ok h | Some y => decref_at fuel' h y end) h
      | Some (S r, k) => set h x (Some (r, k))
      end
  end.
Definition decref (h : heap) (x : nat) : res heap := decref_at (S (length h)) h x.
(** PyTuple_Pack: the tuple takes its own reference to every item *)
Definition tuple_pack (items : list nat) (h : heap) : res (nat * heap) :=
  h <- forM_list items (fun x h => incref h x) h ;;
  Ok (fresh h (map Some items)).
(** PyList_New *)
Definition list_new (n : nat) (h : heap) : nat * heap := fresh h (repeat None n).
(** PyList_SetItem: the list takes over the reference of the caller; an index out of range drops it (the error is ignored
    by the bindings) *)
Definition list_set (l i x : nat) (h : heap) : res heap :=
  c <- get h l ;;
  match c with
  | None => UB "freed object"
  | Some (r, k) =>
      match nth_error k i with
      | None => decref h x
      | Some old =>
          h <- set h l (Some (r, upd k i (Some x))) ;;
          match old with None => Ok h | Some y => decref h y end
      end
  end.

Section Ref.
(** the integers that CPython keeps in a table: PyLong_FromUnsignedLong gives a new reference to the shared object *)
Variable small : nat -> option nat.
Inductive num := Int (z : nat) | Flt.
(** PyLong_FromUnsignedLong, PyFloat_FromDouble *)
Definition box (x : num) (h : heap) : res (nat * heap) :=
  match x with
  | Flt => Ok (fresh h [])
  | Int z => match small z with Some y => h <- incref h y ;; Ok (y, h) | None => Ok (fresh h []) end
  end.
Fixpoint box_all (xs : list num) (h : heap) : res (list nat * heap) :=
  match xs with
  | [] => Ok ([], h)
  | x :: xs' => '(y, h) <- box x h ;; '(ys, h) <- box_all xs' h ;; Ok (y :: ys, h)
  end.
(** PyList_SetItem(l, i, PyTuple_Pack(..., numbers)) for the rows number base, base + 1, ... *)
Fixpoint fill (l base : nat) (rows : list (list num)) (h : heap) : res heap :=
  match rows with
  | [] => Ok h
  | row :: rows' =>
      '(ys, h) <- box_all row h ;;
      '(t, h) <- tuple_pack ys h ;;
      h <- list_set l base t h ;;
      fill l (S base) rows' h
  end.

Variable o : Ops.
Variable A : Type.
Notation mesh := (mesh o A).
Definition point_offsets (ms : list mesh) : list nat := offsets (map (fun m => length (m_points m)) ms).
Definition tri_offsets (ms : list mesh) : list nat := offsets (map (fun m => length (m_tris m)) ms).
Definition layers (ms : list mesh) : list (nat * (nat * mesh)) := combine (seq 0 (length ms)) (combine (point_offsets ms) ms).
(** 204-223: the voltages; nV = V.size() *)
Definition voltage_objects (nV : nat) (ms : list mesh) (h : heap) : res (nat * heap) :=
  let '(l, h) := list_new nV h in
  h <- forM_list (layers ms) (fun kom h => let '(k, (off, m)) := kom in fill l off (map (fun _ => [Int k; Flt; Flt; Flt]) (m_points m)) h) h ;;
  Ok (l, h).
(** 228-233: the powers; nP = P.size() *)
Definition power_objects (nP : nat) (h : heap) : res (nat * heap) :=
  let '(l, h) := list_new nP h in
  h <- fill l 0 (map (fun i => [Int i; Flt]) (seq 0 nP)) h ;;
  Ok (l, h).
(** 238-256: the triangles *)
Definition triangle_objects (ms : list mesh) (h : heap) : res (nat * heap) :=
  let '(l, h) := list_new (total (map (fun m => length (m_tris m)) ms)) h in
  h <- forM_list (combine (tri_offsets ms) (layers ms)) (fun bkom h => let '(base, (k, (off, m))) := bkom in
         fill l base (map (fun t => [Int k; Int (t0 t + off); Int (t1 t + off); Int (t2 t + off)]) (m_tris m)) h) h ;;
  Ok (l, h).
(** 204-260: what solve returns *)
Definition solve_objects (nV nP : nat) (ms : list mesh) (h : heap) : res (nat * heap) :=
  '(v, h) <- voltage_objects nV ms h ;;
  '(p, h) <- power_objects nP h ;;
  '(t, h) <- triangle_objects ms h ;;
  tuple_pack [v; t; p] h.
(** 160-171: a list of lists of triangles *)
Definition layer_triangles (ms : list mesh) (h : heap) : res (nat * heap) :=
  let '(l, h) := list_new (length ms) h in
  h <- forM_list (layers ms) (fun kom h => let '(k, (off, m)) := kom in
         let '(my, h) := list_new (length (m_tris m)) h in
         h <- fill my 0 (map (fun t => [Int (t0 t + off); Int (t1 t + off); Int (t2 t + off)]) (m_tris m)) h ;;
         list_set l k my h) h ;;
  Ok (l, h).
(** 173-181 *)
Definition vertex_objects (ms : list mesh) (h : heap) : res (nat * heap) :=
  let '(l, h) := list_new (total (map (fun m => length (m_points m)) ms)) h in
  h <- forM_list (layers ms) (fun kom h => let '(k, (off, m)) := kom in fill l off (map (fun _ => [Flt; Flt]) (m_points m)) h) h ;;
  Ok (l, h).
(** 138-185: what generate_system returns; the System object is made first *)
Definition generate_objects (ms : list mesh) (h : heap) : res (nat * heap) :=
  let '(s, h) := fresh h [] in
  '(t, h) <- layer_triangles ms h ;;
  '(v, h) <- vertex_objects ms h ;;
  tuple_pack [s; t; v] h.
End Ref.

(** 49-101: the constructor: the object is allocated first and dropped on every error *)
Definition new_objects (o : Ops) (args : list (py o)) (h : heap) : res (option nat * heap) :=
  let '(self, h) := fresh h [] in
  match py_new o args with
  | Ok _ => Ok (Some self, h)
  | Throw _ => h <- decref h self ;; Ok (None, h)
  | UB s => UB s
  | NonFin s => NonFin s
  end.
