(** Model of the ownership of mesh buffers: mesh/mesh.hpp 22-50 (the pointers of MeshData), 106 and 136-149 (the destructor),
    173-245 (mesh()), and the members the compiler generates.  Mesh declares a destructor and nothing else, so its copy
    constructor and copy assignment copy the pointers and it has no move operations.  The memory of std:: containers is left
    out. *)
From Coq Require Import String.
From Coq Require Import List Arith Bool.
From Verif Require Import Base.
Import ListNotations.

(** a pointer: nullptr or the number of a buffer *)
Definition ptr := option nat.
(** the pointers freed by the destructor, in its order (138-148): pointlist, pointattributelist, pointmarkerlist,
    trianglelist, triangleattributelist, neighborlist, segmentlist, segmentmarkerlist, holelist, edgelist, edgemarkerlist;
    all nullptr at first (22-50) *)
Definition slots : nat := 11.
Definition null_slots : list ptr := repeat None slots.
(** buffers are numbered in the order of their allocation; the objects alive, by name *)
Record heap := mkHeap { allocated : nat; freed : list nat; objects : list (nat * list ptr) }.
Definition heap0 : heap := mkHeap 0 [] [].

Definition mem (b : nat) (l : list nat) : bool := existsb (Nat.eqb b) l.
Fixpoint lookup (x : nat) (l : list (nat * list ptr)) : option (list ptr) :=
  match l with [] => None | (y, p) :: l' => if Nat.eqb x y then Some p else lookup x l' end.
Definition drop (x : nat) (l : list (nat * list ptr)) : list (nat * list ptr) := filter (fun yp => negb (Nat.eqb x (fst yp))) l.
Definition bind_to (x : nat) (p : list ptr) (l : list (nat * list ptr)) : list (nat * list ptr) := (x, p) :: drop x l.

(** what a program does with meshes *)
Inductive op :=
| Create (x : nat)                       (* a mesh is constructed *)
| Copy (y x : nat)                       (* y is copy constructed from x *)
| Assign (y x : nat)                     (* y = x *)
| Triangulate (x : nat) (out : list bool)  (* x.mesh(); the buffers the Triangle library returns *)
| Access (x : nat) (k : nat)             (* the buffer behind a pointer is read or written *)
| Destroy (x : nat).

(** 210-241: the pointers are set to NULL, and the Triangle library allocates some of the arrays.  holelist (slot 8) gets the
    pointer of the input, which is NULL (197). *)
Fixpoint allocate (next : nat) (out : list bool) (k : nat) : nat * list ptr :=
  match k with
  | 0 => (next, [])
  | S k' =>
      let b := hd false out && negb (Nat.eqb (slots - k) 8) in
      let '(n, l) := allocate (if b then S next else next) (tl out) k' in
      (n, (if b then Some next else None) :: l)
  end.
(** 138-148: if (p != nullptr) free(p) *)
Fixpoint free_all (l : list ptr) (fr : list nat) : res (list nat) :=
  match l with
  | [] => Ok fr
  | None :: l' => free_all l' fr
  | Some b :: l' => if mem b fr then UB "double free" else free_all l' (b :: fr)
  end.

(** [Throw]: there is no such object, or there is one already: not the history of a program *)
Definition exec (c : op) (h : heap) : res heap :=
  match c with
  | Create x =>
      match lookup x (objects h) with
      | Some _ => Throw "exists"
      | None => Ok (mkHeap (allocated h) (freed h) (bind_to x null_slots (objects h)))
      end
  | Copy y x =>
      match lookup y (objects h), lookup x (objects h) with
      | None, Some p => Ok (mkHeap (allocated h) (freed h) (bind_to y p (objects h)))
      | _, _ => Throw "no object"
      end
  | Assign y x =>
      match lookup y (objects h), lookup x (objects h) with
      | Some _, Some p => Ok (mkHeap (allocated h) (freed h) (bind_to y p (objects h)))
      | _, _ => Throw "no object"
      end
  | Triangulate x out =>
      match lookup x (objects h) with
      | Some _ => let '(n, l) := allocate (allocated h) out slots in Ok (mkHeap n (freed h) (bind_to x l (objects h)))
      | None => Throw "no object"
      end
  | Access x k =>
      match lookup x (objects h) with
      | Some p =>
          b <- get p k ;;
          match b with
          | None => UB "null pointer"
          | Some b => if mem b (freed h) then UB "use after free" else Ok h
          end
      | None => Throw "no object"
      end
  | Destroy x =>
      match lookup x (objects h) with
      | Some p => fr <- free_all p (freed h) ;; Ok (mkHeap (allocated h) fr (drop x (objects h)))
      | None => Throw "no object"
      end
  end.
Definition exec_all (cs : list op) (h : heap) : res heap := forM_list cs exec h.

(** current_density/multilayer_simulation.cpp 29-32 and 36-39: push_back(CurrentDensityMesh()): a temporary (name [tmp]) is
    copied into the vector; when the vector grows ([grow]: the new names), the elements are copied and the old ones
    destroyed *)
Definition push_back (tmp new : nat) (olds news : list nat) : list op :=
  Create tmp :: Copy new tmp :: map (fun yx => Copy (fst yx) (snd yx)) (combine news olds) ++ map Destroy olds ++ [Destroy tmp].
(** current_density/simulation.cpp 26-29: mesh = CurrentDensityMesh() in the constructor *)
Definition constructor (x tmp : nat) : list op := [Create x; Create tmp; Assign x tmp; Destroy tmp].
