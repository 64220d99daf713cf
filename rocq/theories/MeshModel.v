(** Model of lib/nikfemm/src/mesh/mesh.hpp and of the assembly functions in magnetostatic/mesh.cpp and
    current_density/mesh.cpp.  The Triangle library is not modelled: the mesh it produces is an input.
    Vertex and triangle numbers are [nat]: Triangle's [int] numbers are non-negative and below 2^31.
    Region numbers, stored by Triangle as [double], are [nat]; boundary markers are [bool] (marker <> 0). *)
From Coq Require Import String.
From Coq Require Import List Arith ZArith NArith Bool.
From Verif Require Import Base AlgebraModel GeometryModel DrawingModel.
Import ListNotations.

Section MeshM.
Variable o : Ops.
Notation T := (T o).
Notation vec := (vec o).
(** the template parameter Prop *)
Variable A : Type.

Notation "x '+.' y" := (add o x y) (at level 50, left associativity).
Notation "x '-.' y" := (sub o x y) (at level 50, left associativity).
Notation "x '*.' y" := (mul o x y) (at level 40, left associativity).

(** mesh.hpp 13-19: Elem, three vertex numbers *)
Definition tri : Type := nat * nat * nat.
Definition t0 (t : tri) : nat := fst (fst t).
Definition t1 (t : tri) : nat := snd (fst t).
Definition t2 (t : tri) : nat := snd t.
Definition corners (t : tri) : list nat := [t0 t; t1 t; t2 t].

(** mesh.hpp 22-52 and 96-103: the arrays that the modelled functions use *)
Record mesh := mkMesh {
  m_center : vec; m_radius : T; m_epsilon : T; m_depth : T;
  m_points : list vec; m_marks : list bool; m_tris : list tri; m_attrs : list nat; m_drawing : drawing o A }.

(** the three corner positions of a triangle *)
Definition tri_points (pts : list vec) (t : tri) : res (vec * vec * vec) :=
  p1 <- get pts (t0 t) ;; p2 <- get pts (t1 t) ;; p3 <- get pts (t2 t) ;; Ok (p1, p2, p3).

(** mesh.hpp 54-60: getElemBarycenter *)
Definition getElemBarycenter (m : mesh) (e : nat) : res vec :=
  t <- get (m_tris m) e ;;
  '(p1, p2, p3) <- tri_points (m_points m) t ;;
  vdivs o (vadd o (vadd o p1 p2) p3) (ofZ o 3).
(** mesh.hpp 83-88: getDoubleOrientedArea(v1, v2, v3) *)
Definition getDoubleOrientedArea (pts : list vec) (v1 v2 v3 : nat) : res T :=
  p1 <- get pts v1 ;; p2 <- get pts v2 ;; p3 <- get pts v3 ;;
  Ok (vcross o (vminus o p2 p1) (vminus o p3 p1)).
(** mesh.hpp 79-81, 75-77: getOrientedArea and getArea of three vertices; 0.5 is written 1 / 2 *)
Definition getOrientedArea (pts : list vec) (v1 v2 v3 : nat) : res T :=
  d <- getDoubleOrientedArea pts v1 v2 v3 ;; half <- div o (one o) (ofZ o 2) ;; Ok (half *. d).
Definition getArea (pts : list vec) (v1 v2 v3 : nat) : res T := a <- getOrientedArea pts v1 v2 v3 ;; Ok (fabs o a).
(** mesh.hpp 62-73: the same for an element number *)
Definition getElemArea (m : mesh) (e : nat) : res T :=
  t <- get (m_tris m) e ;; getArea (m_points m) (t0 t) (t1 t) (t2 t).
(** mesh.hpp 90-93: pointInElem *)
Definition pointInElem (m : mesh) (e : nat) (p : vec) : res bool :=
  t <- get (m_tris m) e ;;
  '(p1, p2, p3) <- tri_points (m_points m) t ;;
  Ok (pointInTriangle o p p1 p2 p3).

(** mesh.hpp 152-170: computeEpsilon; [None] is the initial value +infinity (which is also the result without triangles) *)
Definition min_opt (e : option T) (d : T) : option T :=
  match e with None => Some d | Some e => Some (fmin o e d) end.
Definition computeEpsilon (m : mesh) : res T :=
  e <- forM_list (m_tris m) (fun t e =>
         '(p1, p2, p3) <- tri_points (m_points m) t ;;
         d12 <- distance o p1 p2 ;;
         d13 <- distance o p1 p3 ;;
         d23 <- distance o p2 p3 ;;
         Ok (min_opt (min_opt (min_opt e d12) d13) d23)) None ;;
  match e with
  | None => NonFin "infinite epsilon"
  | Some e => half <- div o (one o) (ofZ o 2) ;; Ok (e *. half)
  end.

(** mesh.hpp 248-276: kelvinTransformCentered, one vertex.  R_squared / mag_squared is computed before the test. *)
Definition kelvin_point (radius : T) (center v : vec) : res vec :=
  maxx <- div o radius (ofZ o 100) ;;
  scale <- div o (radius *. radius) (vx v *. vx v +. vy v *. vy v) ;;
  dist <- distance o v center ;;
  if ltb o dist maxx then
    k <- div o (radius *. ofZ o 100) dist ;; Ok (vmul o v k)
  else Ok (vmul o v scale).
Definition kelvin_points (radius : T) (center : vec) (marks : list bool) (pts : list vec) : res (list vec) :=
  forM_up (length pts) (fun i l =>
    b <- get marks i ;;
    if b : bool then Ok l
    else v <- get l i ;; w <- kelvin_point radius center v ;; set l i w) pts.
Definition with_points (m : mesh) (l : list vec) : mesh :=
  mkMesh (m_center m) (m_radius m) (m_epsilon m) (m_depth m) l (m_marks m) (m_tris m) (m_attrs m) (m_drawing m).
Definition kelvinTransformCentered (m : mesh) : res mesh :=
  l <- kelvin_points (m_radius m) (m_center m) (m_marks m) (m_points m) ;; Ok (with_points m l).

(** mesh.hpp 323-331: the first marked vertex of this mesh, from number [j] on, with exactly the position [p] *)
Fixpoint find_same (pts : list vec) (marks : list bool) (p : vec) (j : nat) : res (option nat) :=
  match pts with
  | [] => Ok None
  | q :: pts' =>
      match marks with
      | [] => UB "pointmarkerlist out of bounds"
      | b :: marks' =>
          if b && (eqb o (vx q) (vx p) && eqb o (vy q) (vy p)) then Ok (Some j) else find_same pts' marks' p (S j)
      end
  end.
(** mesh.hpp 319-334: step 1; the map is a list of pairs (kelvin vertex, vertex of this mesh) *)
Fixpoint match_boundary (m : mesh) (kp : list vec) (km : list bool) (i : nat) (acc : list (nat * nat)) : res (list (nat * nat)) :=
  match kp with
  | [] => Ok acc
  | p :: kp' =>
      match km with
      | [] => UB "pointmarkerlist out of bounds"
      | b :: km' =>
          if b : bool then
            f <- find_same (m_points m) (m_marks m) p 0 ;;
            match_boundary m kp' km' (S i) (match f with Some j => acc ++ [(i, j)] | None => acc end)
          else match_boundary m kp' km' (S i) acc
      end
  end.
(** mesh.hpp 345-353: the vertices inside the kelvin mesh are appended.  The allocation (337-340) has room for
    n + kn - matched entries, which is [room] here. *)
Fixpoint append_inner (room : nat) (kp : list vec) (km : list bool) (i : nat) (st : list vec * list (nat * nat))
  : res (list vec * list (nat * nat)) :=
  match kp with
  | [] => Ok st
  | p :: kp' =>
      match km with
      | [] => UB "pointmarkerlist out of bounds"
      | b :: km' =>
          if b : bool then append_inner room kp' km' (S i) st
          else if Nat.ltb (length (fst st)) room
               then append_inner room kp' km' (S i) (fst st ++ [p], snd st ++ [(i, length (fst st))])
               else UB "pointlist out of bounds"
      end
  end.
(** std::map::find *)
Fixpoint look (l : list (nat * nat)) (k : nat) : option nat :=
  match l with
  | [] => None
  | (a, b) :: l' => if Nat.eqb a k then Some b else look l' k
  end.
(** mesh.hpp 364-372: a corner that is not in the map is left uninitialised (and read by every later use) *)
Definition map_corner (mp : list (nat * nat)) (v : nat) : res nat :=
  match look mp v with Some w => Ok w | None => UB "uninitialised vertex number" end.
Definition map_tri (mp : list (nat * nat)) (t : tri) : res tri :=
  a <- map_corner mp (t0 t) ;; b <- map_corner mp (t1 t) ;; c <- map_corner mp (t2 t) ;; Ok (a, b, c).
Fixpoint map_tris (mp : list (nat * nat)) (l : list tri) : res (list tri) :=
  match l with
  | [] => Ok []
  | t :: l' => t' <- map_tri mp t ;; l'' <- map_tris mp l' ;; Ok (t' :: l'')
  end.
(** mesh.hpp 279-374: addKelvinBoundaryConditions from line 299 on; [kelvin] is the mesh that Triangle made of the
    boundary circle; [peq] is operator== of Prop, [default_prop] the member of that name. *)
Definition addKelvin (peq : A -> A -> bool) (default_prop : A) (m kelvin : mesh) : res mesh :=
  kp <- kelvin_points (m_radius m) (vzero o) (m_marks kelvin) (m_points kelvin) ;;
  mp <- match_boundary m kp (m_marks kelvin) 0 [] ;;
  let room := length (m_points m) + length kp - length mp in
  '(pts, mp) <- append_inner room kp (m_marks kelvin) 0 (m_points m, mp) ;;
  let '(d, id) := getRegionId o A peq default_prop (m_drawing m) in
  id <- id ;;
  ts <- map_tris mp (m_tris kelvin) ;;
  Ok (mkMesh (m_center m) (m_radius m) (m_epsilon m) (m_depth m) pts (m_marks m) (m_tris m ++ ts)
             (m_attrs m ++ repeat id (length ts)) d).

(** mesh.hpp 380-405 (computeCurl) and 418-444 (computeGrad): (dx, dy) on one element *)
Definition elem_grad (pts : list vec) (input : list T) (t : tri) : res (T * T) :=
  '(p1, p2, p3) <- tri_points pts t ;;
  z1 <- get input (t0 t) ;;
  z2 <- get input (t1 t) ;;
  z3 <- get input (t2 t) ;;
  let a1 := vx p2 -. vx p1 in
  let b1 := vy p2 -. vy p1 in
  let c1 := z2 -. z1 in
  let a2 := vx p3 -. vx p1 in
  let b2 := vy p3 -. vy p1 in
  let c2 := z3 -. z1 in
  let a := b1 *. c2 -. b2 *. c1 in
  let b := a2 *. c1 -. a1 *. c2 in
  let c := a1 *. b2 -. b1 *. a2 in
  dx <- div o (opp o a) c ;;
  dy <- div o (opp o b) c ;;
  Ok (dx, dy).
(** mesh.hpp 377-412, 415-451 *)
Fixpoint map_res {X Y} (f : X -> res Y) (l : list X) : res (list Y) :=
  match l with
  | [] => Ok []
  | x :: l' => y <- f x ;; l'' <- map_res f l' ;; Ok (y :: l'')
  end.
Definition computeCurl (m : mesh) (input : list T) : res (list vec) :=
  map_res (fun t => '(dx, dy) <- elem_grad (m_points m) input t ;; Ok (mkV (opp o dy) dx)) (m_tris m).
Definition computeGrad (m : mesh) (input : list T) : res (list vec) :=
  map_res (fun t => '(dx, dy) <- elem_grad (m_points m) input t ;; Ok (mkV dx dy)) (m_tris m).

(** mesh.hpp 454-487: getInnermostPolygon; without a minimal polygon the default (empty) polygon is returned *)
Fixpoint first_minimal (all l : list (list vec)) : res (list vec) :=
  match l with
  | [] => Ok []
  | g :: l' => b <- is_magnet o g all ;; if b : bool then Ok g else first_minimal all l'
  end.
Definition getInnermostPolygon (m : mesh) (p : vec) : res (list vec) :=
  let tp := vminus o p (m_center m) in
  match filter (fun g => poly_contains o g tp) (polygons (m_drawing m)) with
  | [] => Throw "ERROR: no polygon contains p"
  | [g] => Ok g
  | l => first_minimal l l
  end.
(** mesh.hpp 500, 525, 547: all three corners in the polygon *)
Definition tri_inside (g : list vec) (p1 p2 p3 : vec) : bool :=
  poly_contains o g p1 && poly_contains o g p2 && poly_contains o g p3.
(** mesh.hpp 490-506: computeAreaIntegral *)
Definition computeAreaIntegral (m : mesh) (p : vec) : res T :=
  g <- getInnermostPolygon m p ;;
  forM_list (m_tris m) (fun t acc =>
    '(p1, p2, p3) <- tri_points (m_points m) t ;;
    if tri_inside g p1 p2 p3 then a <- area o p1 p2 p3 ;; Ok (acc +. a) else Ok acc) (zero o).
(** mesh.hpp 509-512: computeMass *)
Definition computeMass (m : mesh) (p : vec) (density : T) : res T :=
  a <- computeAreaIntegral m p ;; Ok (a *. m_depth m *. density).
(** mesh.hpp 515-534: computeBarycenter *)
Definition computeBarycenter (m : mesh) (p : vec) : res vec :=
  g <- getInnermostPolygon m p ;;
  '(a, b) <- forM_list (m_tris m) (fun t acc =>
      '(p1, p2, p3) <- tri_points (m_points m) t ;;
      if tri_inside g p1 p2 p3 then
        ta <- area o p1 p2 p3 ;;
        c <- vdivs o (vadd o (vadd o p1 p2) p3) (ofZ o 3) ;;
        Ok (fst acc +. ta, vadd o (snd acc) (vmul o c ta))
      else Ok acc) (zero o, vzero o) ;;
  vdivs o b a.
(** mesh.hpp 537-556: computeInertiaMoment *)
Definition computeInertiaMoment (m : mesh) (p center : vec) (density : T) : res T :=
  g <- getInnermostPolygon m p ;;
  i <- forM_list (m_tris m) (fun t acc =>
      '(p1, p2, p3) <- tri_points (m_points m) t ;;
      if tri_inside g p1 p2 p3 then
        ta <- area o p1 p2 p3 ;;
        c <- vdivs o (vadd o (vadd o p1 p2) p3) (ofZ o 3) ;;
        Ok (acc +. ta *. normSquared o (vminus o c center))
      else Ok acc) (zero o) ;;
  Ok (i *. m_depth m *. density).

(** mesh.hpp 559-586: getMeshBoundingBox; the result is (min_x, max_x, min_y, max_y); 1.1 is written 11 / 10 *)
Definition getMeshBoundingBox (m : mesh) (clip_to_radius : bool) : res (T * T * T * T) :=
  k <- div o (ofZ o 11) (ofZ o 10) ;;
  if clip_to_radius then
    Ok (opp o k *. m_radius m, k *. m_radius m, opp o k *. m_radius m, k *. m_radius m)
  else
    let s := fold_left (vadd o) (m_points m) (vzero o) in
    b <- vdivs o s (ofZ o (Z.of_nat (length (m_points m)))) ;;
    d <- forM_list (m_points m) (fun p acc => d <- distance o p b ;; Ok (fmax o acc d)) (zero o) ;;
    Ok (vx b -. d *. k, vx b +. d *. k, vy b -. d *. k, vy b +. d *. k).
(** mesh.hpp 589-605: getMeshScaleOffset; the result is (x_scale, y_scale, x_offset, y_offset) *)
Definition getMeshScaleOffset (m : mesh) (width height : T) (clip_to_radius : bool) : res (T * T * T * T) :=
  '(minx, maxx, miny, maxy) <- getMeshBoundingBox m clip_to_radius ;;
  ratio <- div o (ofZ o 9) (ofZ o 10) ;;
  half <- div o (one o) (ofZ o 2) ;;
  let ext := fmax o (maxx -. minx) (maxy -. miny) in
  xs <- div o (ratio *. width) ext ;;
  ys <- div o (ratio *. height) ext ;;
  Ok (xs, ys, half *. width -. half *. (maxx +. minx) *. xs, half *. height -. half *. (maxy +. miny) *. ys).

(** ** Assembly *)

(** magnetostatic/mesh.cpp 14-16, current_density/mesh.cpp 14-16: adjelems_ids, adjelems_props and adjelems_count as one
    table; row v holds the filled entries of the arrays of vertex v, each with room for [cap] = 18 *)
Definition table (X : Type) := list (list X).
Definition push {X} (cap : nat) (tb : table X) (v : nat) (x : X) : res (table X) :=
  r <- get tb v ;;
  if Nat.leb cap (length r) then UB "adjacency array out of bounds" else set tb v (r ++ [x]).
(** mesh.cpp 18-24 (both files): triangle number [i] enters the rows of its corners.  The number is stored before the
    region is looked up. *)
Definition push_tri (m : mesh) (i : nat) (t : tri) (tb : table (nat * A)) : res (table (nat * A)) :=
  forM_list (corners t) (fun v tb =>
    r <- get tb v ;;
    if Nat.leb 18 (length r) then UB "adjacency array out of bounds"
    else
      a <- get (m_attrs m) i ;;
      p <- getRegionPtrFromId o A (m_drawing m) a ;;
      push 18 tb v (i, p)) tb.
Fixpoint push_tris (m : mesh) (l : list tri) (i : nat) (tb : table (nat * A)) : res (table (nat * A)) :=
  match l with
  | [] => Ok tb
  | t :: l' => tb <- push_tri m i t tb ;; push_tris m l' (S i) tb
  end.
Definition adjacency (m : mesh) : res (table (nat * A)) :=
  push_tris m (m_tris m) 0 (repeat [] (length (m_points m))).

(** mesh.cpp 31-46 (both files): the other two corners, in cyclic order *)
Definition other_corners (i : nat) (t : tri) : res (nat * nat) :=
  if Nat.eqb i (t0 t) then Ok (t1 t, t2 t)
  else if Nat.eqb i (t1 t) then Ok (t2 t, t0 t)
  else if Nat.eqb i (t2 t) then Ok (t0 t, t1 t)
  else Throw "error: vertex not found in element".

(** The two assembly loops differ in the value type of the matrix, in what they add, and in the test for a vertex
    without elements: [put coeff id prop] is what += adds to an entry, [load double_area prop] what += adds to b. *)
Section Assembly.
Variable V : Type.
Variable v0 : V.
Variable put : T -> nat -> A -> V -> V.
Variable load : T -> A -> V -> res V.
Variable need_adjacent : bool.

(** mesh.cpp 47-65: one element seen from the vertex i *)
Definition assemble_elem (m : mesh) (i : nat) (e : nat * A) (S : system V) : res (system V) :=
  let '(id, p) := e in
  t <- get (m_tris m) id ;;
  '(v2, v3) <- other_corners i t ;;
  a <- getDoubleOrientedArea (m_points m) i v2 v3 ;;
  let '(v2, v3) := if ltb o a (zero o) then (v3, v2) else (v2, v3) in
  D <- getDoubleOrientedArea (m_points m) i v2 v3 ;;
  p1 <- get (m_points m) i ;;
  p2 <- get (m_points m) v2 ;;
  p3 <- get (m_points m) v3 ;;
  b1 <- div o (vy p2 -. vy p3) D ;;
  c1 <- div o (vx p3 -. vx p2) D ;;
  b2 <- div o (vy p3 -. vy p1) D ;;
  c2 <- div o (vx p1 -. vx p3) D ;;
  b3 <- div o (vy p1 -. vy p2) D ;;
  c3 <- div o (vx p2 -. vx p1) D ;;
  half <- div o (one o) (ofZ o 2) ;;
  (* lines 61-63: the entries with v >= i *)
  let entry (v : nat) (b c : T) (M : coo V) : res (coo V) :=
    if Nat.leb i v then coo_modify v0 M i v (put (D *. (b *. b1 +. c *. c1) *. half) id p) else Ok M in
  M <- entry i b1 c1 (sA V S) ;;
  M <- entry v2 b2 c2 M ;;
  M <- entry v3 b3 c3 M ;;
  bi <- get (sb V S) i ;;
  bi <- load D p bi ;;
  b <- set (sb V S) i bi ;;
  Ok (mkSys V M b).
(** mesh.cpp 27-67 *)
Definition assemble_vertex (m : mesh) (tb : table (nat * A)) (i : nat) (S : system V) : res (system V) :=
  es <- get tb i ;;
  if need_adjacent && Nat.eqb (length es) 0 then Throw "error: vertex has no adjacent elements"
  else forM_list es (assemble_elem m i) S.
Definition assemble (m : mesh) : res (system V) :=
  tb <- adjacency m ;;
  forM_up (length (m_points m)) (assemble_vertex m tb)
          (mkSys V (coo_new V (length (m_points m))) (repeat v0 (length (m_points m)))).
End Assembly.

(** current_density/mesh.cpp 8-80: getFemSystem; b is set to 0 everywhere (it is 0 already) *)
Variable sigma : A -> T.
Definition cd_getFemSystem (m : mesh) : res (dsystem o) :=
  assemble T (zero o) (fun c _ p x => x +. c *. sigma p *. m_depth m) (fun _ _ x => Ok x) true m.

(** magnetostatic/mesh.cpp 8-66: the surface integral *)
Variable curJ : A -> T.
Definition ms_surface (m : mesh) : res (nsystem o) :=
  assemble (nexpr o) (ne_zero o) (fun c id _ e => ne_add_term o e (c, id))
    (fun D p e => q <- div o (D *. curJ p) (ofZ o 6) ;; Ok (ne_add_num o e q)) false m.

(** magnetostatic/mesh.cpp 97-120: the list of magnets, each with its magnetisation *)
Variable mag : A -> vec.
Fixpoint ms_magnets (rm : list A) (mp : list (nat * list (list vec))) (acc : list (list vec * vec)) : res (list (list vec * vec)) :=
  match mp with
  | [] => Ok acc
  | (id, [g]) :: mp' =>
      v <- match g with [] => Ok (vzero o) | _ => p <- get rm id ;; Ok (mag p) end ;;
      ms_magnets rm mp' (acc ++ repeat (g, v) (length g))
  | (id, l) :: mp' =>
      gs <- pick_magnets o l l [] ;;
      v <- match gs with [] => Ok (vzero o) | _ => p <- get rm id ;; Ok (mag p) end ;;
      ms_magnets rm mp' (acc ++ map (fun g => (g, v)) gs)
  end.
(** magnetostatic/mesh.cpp 123-139: the segments (p1, p2, Jm) of one magnet; 0.1 is written 1 / 10 *)
Definition ms_segment (eps : T) (g : list vec) (mg : vec) (i : nat) : res (vec * vec * T) :=
  p1 <- get g i ;;
  p2 <- get g (Nat.modulo (i + 1) (length g)) ;;
  n <- normalize o (normal o (vminus o p2 p1)) ;;
  mid <- midPoint o p1 p2 ;;
  tenth <- div o (one o) (ofZ o 10) ;;
  let test := vadd o mid (vmul o (vmul o n eps) tenth) in
  let n := if poly_contains o g test then vmul o n (opp o (one o)) else n in
  Ok (p1, p2, vcross o mg n).
Definition ms_segments (eps : T) (l : list (list vec * vec)) : res (list (vec * vec * T)) :=
  ls <- map_res (fun gm => map_res (ms_segment eps (fst gm) (snd gm)) (seq 0 (length (fst gm)))) l ;;
  Ok (concat ls).
(** magnetostatic/mesh.cpp 145-172: the set of edges, equal up to direction; the first one inserted is kept *)
Definition insert_edge (l : list (nat * nat)) (e : nat * nat) : list (nat * nat) :=
  if existsb (same_segment e) l then l else l ++ [e].
Definition unique_edges (ts : list tri) : list (nat * nat) :=
  fold_left (fun l t => insert_edge (insert_edge (insert_edge l (t0 t, t1 t)) (t1 t, t2 t)) (t2 t, t0 t)) ts [].
(** magnetostatic/mesh.cpp 178-193: one edge and one segment *)
Definition line_load (m : mesh) (e : nat * nat) (s : vec * vec * T) (b : list (nexpr o)) : res (list (nexpr o)) :=
  let '(q1, q2, Jm) := s in
  p1 <- get (m_points m) (fst e) ;;
  p2 <- get (m_points m) (snd e) ;;
  d1 <- pointSegmentDistance o p1 q1 q2 ;;
  d2 <- pointSegmentDistance o p2 q1 q2 ;;
  tenth <- div o (one o) (ofZ o 10) ;;
  if ltb o d1 (m_epsilon m *. tenth) && ltb o d2 (m_epsilon m *. tenth) then
    len <- distance o p1 p2 ;;
    x <- get b (fst e) ;;
    b <- set b (fst e) (ne_add_num o x (len *. Jm)) ;;
    x <- get b (snd e) ;;
    set b (snd e) (ne_add_num o x (len *. Jm))
  else Ok b.
(** magnetostatic/mesh.cpp 8-199: getFemSystem; [es] is the iteration order of the edge set (a permutation of
    [unique_edges]).  reserve ((numberofpoints - 2) * 3) throws when the product is negative (as a size it is too large). *)
Definition ms_getFemSystem (m : mesh) (es : list (nat * nat)) : res (nsystem o) :=
  S <- ms_surface m ;;
  mp <- mag_polygons o A mag (region_map (m_drawing m)) (polygons (m_drawing m)) (regions (m_drawing m)) [] ;;
  magnets <- ms_magnets (region_map (m_drawing m)) mp [] ;;
  segs <- ms_segments (m_epsilon m) magnets ;;
  if Nat.ltb (length (m_points m)) 2 then Throw "unordered_set::reserve"
  else
    b <- forM_list es (fun e b => forM_list segs (line_load m e) b) (sb _ S) ;;
    Ok (mkSys _ (sA _ S) b).

(** magnetostatic/mesh.cpp 203-226: the three farthest vertices; state (p1, d1, p2, d2, p3, d3) *)
Definition far_step (i : nat) (dist : T) (s : nat * T * (nat * T) * (nat * T)) : nat * T * (nat * T) * (nat * T) :=
  let '(a, b, c) := s in
  if gtb o dist (snd a) then ((i, dist), a, b)
  else if gtb o dist (snd b) then (a, (i, dist), b)
  else if gtb o dist (snd c) then (a, b, (i, dist))
  else s.
Definition farthest (pts : list vec) : res (nat * nat * nat) :=
  s <- forM_up (length pts) (fun i s =>
         p <- get pts i ;;
         d <- distance o p (vzero o) ;;
         Ok (far_step i d s)) ((O, zero o), (O, zero o), (O, zero o)) ;;
  let '(a, b, c) := s in
  Ok (fst a, fst b, fst c).
(** magnetostatic/mesh.cpp 201-233: addDirichletInfiniteBoundaryConditions *)
Definition addDirichletInfinite (m : mesh) (S : nsystem o) : res (nsystem o) :=
  '(p1, p2, p3) <- farthest (m_points m) ;;
  S <- nDirichlet o S p1 (zero o) ;;
  S <- nDirichlet o S p2 (zero o) ;;
  nDirichlet o S p3 (zero o).

(** ** current_density/mesh.cpp 94-197: getFemSystemCotangentWeights *)
Variable lm : libm o.
(** 82-92: geomAngle *)
Definition geomAngle (a b c : vec) : T := absoluteAngle o lm a b c.
(** 111-121: adjverts_ids and adjverts_count *)
Definition neighbours (m : mesh) : res (table nat) :=
  forM_list (m_tris m) (fun t tb =>
    tb <- push 18 tb (t0 t) (t1 t) ;; tb <- push 18 tb (t0 t) (t2 t) ;;
    tb <- push 18 tb (t1 t) (t2 t) ;; tb <- push 18 tb (t1 t) (t0 t) ;;
    tb <- push 18 tb (t2 t) (t0 t) ;; push 18 tb (t2 t) (t1 t)) (repeat [] (length (m_points m))).
Definition has_corner (v : nat) (t : tri) : bool := Nat.eqb (t0 t) v || Nat.eqb (t1 t) v || Nat.eqb (t2 t) v.
(** 135-152: the first two triangles of the vertex v1 that contain v1 and v2 *)
Fixpoint common_tris (m : mesh) (v1 v2 : nat) (l : list (nat * A)) : res (list tri) :=
  match l with
  | [] => Ok []
  | (id, _) :: l' =>
      t <- get (m_tris m) id ;;
      rest <- common_tris m v1 v2 l' ;;
      Ok (if has_corner v1 t && has_corner v2 t then t :: rest else rest)
  end.
(** 161-175: the third corner *)
Definition third_corner (v1 v2 : nat) (t : tri) : res nat :=
  if Nat.eqb (t0 t) v1 && Nat.eqb (t1 t) v2 then Ok (t2 t)
  else if Nat.eqb (t1 t) v1 && Nat.eqb (t2 t) v2 then Ok (t0 t)
  else if Nat.eqb (t2 t) v1 && Nat.eqb (t0 t) v2 then Ok (t1 t)
  else if Nat.eqb (t0 t) v2 && Nat.eqb (t1 t) v1 then Ok (t2 t)
  else if Nat.eqb (t1 t) v2 && Nat.eqb (t2 t) v1 then Ok (t0 t)
  else if Nat.eqb (t2 t) v2 && Nat.eqb (t0 t) v1 then Ok (t1 t)
  else Throw "error: vertex not found in element".
Definition cot (a : T) : res T := div o (fcos o lm a) (fsin o lm a).
(** 126-190: one neighbour; state (sum, matrix) *)
Definition cot_step (m : mesh) (tb : table (nat * A)) (v1 : nat) (v2 : nat) (st : T * coo T) : res (T * coo T) :=
  es <- get tb v1 ;;
  l <- common_tris m v1 v2 es ;;
  match l with
  | ta :: tb :: _ =>
      v3a <- third_corner v1 v2 ta ;;
      v3b <- third_corner v1 v2 tb ;;
      p1 <- get (m_points m) v1 ;;
      p2 <- get (m_points m) v2 ;;
      p3a <- get (m_points m) v3a ;;
      p3b <- get (m_points m) v3b ;;
      ca <- cot (geomAngle p1 p3a p2) ;;
      cb <- cot (geomAngle p1 p3b p2) ;;
      half <- div o (one o) (ofZ o 2) ;;
      let w := half *. (ca +. cb) in
      M <- (if Nat.leb v1 v2 then coo_modify (zero o) (snd st) v1 v2 (fun x => x +. w) else Ok (snd st)) ;;
      Ok (fst st +. w, M)
  | _ => Ok st
  end.
Definition cd_getFemSystemCotangentWeights (m : mesh) : res (dsystem o) :=
  tb <- adjacency m ;;
  nb <- neighbours m ;;
  M <- forM_up (length (m_points m)) (fun i M =>
         vs <- get nb i ;;
         '(sum, M) <- forM_list vs (cot_step m tb i) (zero o, M) ;;
         coo_modify (zero o) M i i (fun _ => opp o sum)) (coo_new T (length (m_points m))) ;;
  Ok (mkSys T M (repeat (zero o) (length (m_points m)))).

End MeshM.

Arguments mkMesh {o A}.
Arguments m_center {o A} m.
Arguments m_radius {o A} m.
Arguments m_epsilon {o A} m.
Arguments m_depth {o A} m.
Arguments m_points {o A} m.
Arguments m_marks {o A} m.
Arguments m_tris {o A} m.
Arguments m_attrs {o A} m.
Arguments m_drawing {o A} m.
