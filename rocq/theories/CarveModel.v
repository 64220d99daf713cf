(** Model of how the materials of a drawing reach the triangles: the arrays that Mesh::mesh hands to the Triangle library
    (mesh/mesh.hpp 182-217) and the spreading of the region attributes in the vendored library (triangle/triangle.cpp,
    carveholes, infecthull, plague, regionplague; 12616-13200), started with the switches of SwitchModel.v: -p without -c, no
    holes, -A, no regional area constraint.
    The triangulation and the search for the triangle at a point (locate) are not modelled: a triangulation is given by the
    sides of its triangles, a seed by the triangle it was found in.  The refinement that follows (enforcequality) is not
    modelled either: the triangles here are those before it. *)
From Coq Require Import String.
From Coq Require Import List Arith ZArith Bool.
From Verif Require Import Base AlgebraModel SolversModel GeometryModel DrawingModel MeshModel.
Import ListNotations.

(** ** the arrays: mesh.hpp 182-217 *)
Section Input.
Variable o : Ops.
Variable A : Type.
(** sizes are int: numberofpoints * 2 and numberofregions * 4 are computed in int before sizeof (183, 185, 208).
    [None] in a buffer: not written since malloc *)
Definition alloc (X : Type) (n k : nat) : res (list (option X)) :=
  if Z.ltb (Z.of_nat (n * k)) (2 ^ 31) then Ok (repeat None (n * k)) else UB "overflow of int".
(** 187-190: the points *)
Fixpoint put_points (l : list (vec o)) (i : nat) (b : list (option (T o))) : res (list (option (T o))) :=
  match l with
  | [] => Ok b
  | p :: l' => b <- set b (2 * i) (Some (vx p)) ;; b <- set b (2 * i + 1) (Some (vy p)) ;; put_points l' (S i) b
  end.
(** 192-197: the segments *)
Fixpoint put_segments (l : list (nat * nat)) (i : nat) (b : list (option nat)) : res (list (option nat)) :=
  match l with
  | [] => Ok b
  | s :: l' => b <- set b (2 * i) (Some (fst s)) ;; b <- set b (2 * i + 1) (Some (snd s)) ;; put_segments l' (S i) b
  end.
(** 210-217: the regions; the material number becomes a real number *)
Fixpoint put_regions (l : list (vec o * nat)) (i : nat) (b : list (option (T o))) : res (list (option (T o))) :=
  match l with
  | [] => Ok b
  | r :: l' =>
      b <- set b (4 * i) (Some (vx (fst r))) ;;
      b <- set b (4 * i + 1) (Some (vy (fst r))) ;;
      b <- set b (4 * i + 2) (Some (ofZ o (Z.of_nat (snd r)))) ;;
      b <- set b (4 * i + 3) (Some (zero o)) ;;
      put_regions l' (S i) b
  end.
(** 182-217 *)
Definition mesh_input (d : drawing o A) : res (list (option (T o)) * list (option nat) * list (option (T o))) :=
  pl <- alloc (T o) (length (points d)) 2 ;;
  sl <- alloc nat (length (segments d)) 2 ;;
  pl <- put_points (points d) 0 pl ;;
  sl <- put_segments (segments d) 0 sl ;;
  rl <- alloc (T o) (length (regions d)) 4 ;;
  rl <- put_regions (regions d) 0 rl ;;
  Ok (pl, sl, rl).
(** triangle.cpp 14151-14168: at least three vertices, otherwise the process ends; vertex i from the two numbers at 2i *)
Definition read_cell {X} (b : list (option X)) (i : nat) : res X :=
  c <- get b i ;; match c with Some x => Ok x | None => UB "uninitialised value" end.
Definition read_vertices (n : nat) (b : list (option (T o))) : res (list (vec o)) :=
  if Nat.ltb n 3 then Throw "Input must have at least three input vertices"
  else map_res (fun i => x <- read_cell b (2 * i) ;; y <- read_cell b (2 * i + 1) ;; Ok (mkV x y)) (seq 0 n).
End Input.

(** ** the regions: triangle.cpp 12616-13200 *)
(** one side of a triangle: the triangle behind it ([None]: the outside, dummytri) and whether a segment lies on it *)
Definition side : Type := option nat * bool.
Definition tmesh := list (list side).

Section Carve.
Variable V : Type.
Variable zero : V.

(** 12742-12790 and 12966-12996: the three neighbours of the triangle under examination; [inf]: infected triangles, [q]: the
    rest of the virus pool *)
Fixpoint visit (l : list side) (inf : list bool) (q : list nat) : res (list bool * list nat) :=
  match l with
  | [] => Ok (inf, q)
  | (None, _) :: l' => visit l' inf q
  | (Some u, w) :: l' =>
      b <- get inf u ;;
      if b || w then visit l' inf q else (inf <- set inf u true ;; visit l' inf (q ++ [u]))
  end.
(** 12724-12796 and 12936-13001: the traversal of the virus pool, which grows at its end; a triangle is uninfected while it is
    examined.  [fuel]: a bound on the number of steps, never reached (Carve_proofs.v). *)
Fixpoint spread (fuel : nat) (m : tmesh) (inf : list bool) (seen todo : list nat) : res (list bool * list nat) :=
  match todo with
  | [] => Ok (inf, seen)
  | t :: todo' =>
      match fuel with
      | O => UB "endless"
      | S f =>
          inf <- set inf t false ;;
          ss <- get m t ;;
          '(inf, todo') <- visit ss inf todo' ;;
          inf <- set inf t true ;;
          spread f m inf (seen ++ [t]) todo'
      end
  end.
(** 12616-12672: a triangle with a side on the hull that carries no segment.  The walk around the hull meets them in another
    order; only the set matters. *)
Definition exposed (t : list side) : bool := existsb (fun s => match s with (None, false) => true | _ => false end) t.
Definition hull_pool (m : tmesh) : list nat := filter (fun i => match nth_error m i with Some t => exposed t | None => false end) (seq 0 (length m)).
(** 12860-12890: a triangle that dies is removed from the sides of its neighbours *)
Definition cut (dead : list nat) (m : tmesh) : tmesh :=
  map (map (fun s : side => match fst s with Some u => if existsb (Nat.eqb u) dead then (None, snd s) else s | None => s end)) m.
(** 12950-12953: the attribute of every triangle of the pool *)
Fixpoint paint (pool : list nat) (a : V) (at_ : list V) : res (list V) :=
  match pool with [] => Ok at_ | t :: p => at_ <- set at_ t a ;; paint p a at_ end.
(** 13140-13195: one seed after the other; a seed whose triangle is gone is skipped *)
Fixpoint seeds_loop (m : tmesh) (dead : list nat) (l : list (option nat * V)) (at_ : list V) : res (list V) :=
  match l with
  | [] => Ok at_
  | (None, _) :: l' => seeds_loop m dead l' at_
  | (Some t, a) :: l' =>
      if existsb (Nat.eqb t) dead then seeds_loop m dead l' at_
      else
        inf <- set (repeat false (length m)) t true ;;
        '(_, pool) <- spread (length m) m inf [] [t] ;;
        at_ <- paint pool a at_ ;;
        seeds_loop m dead l' at_
  end.
(** 13021-13210: the triangles that are removed, and the attributes; without seeds there is no array of attributes (13198-13201,
    14587-14592).  A seed in an infected triangle is dropped before the removal (13133). *)
Definition carve (m : tmesh) (l : list (option nat * V)) : res (list nat * option (list V)) :=
  let hull := hull_pool m in
  inf <- Ok (map exposed m) ;;
  let l' := map (fun s : option nat * V => match fst s with Some t => if existsb (Nat.eqb t) hull then (None, snd s) else s | None => s end) l in
  '(_, dead) <- spread (length m) m inf [] hull ;;
  match l with
  | [] => Ok (dead, None)
  | _ => at_ <- seeds_loop (cut dead m) dead l' (repeat zero (length m)) ;; Ok (dead, Some at_)
  end.
End Carve.
