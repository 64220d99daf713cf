(** Model of lib/nikfemm/src/drawing/drawing.hpp and of MagnetostaticMesh::refineMeshAroundMagnets.
    Indices are [nat]: fewer than 2^32 points, segments and regions are assumed, except where the code subtracts. *)
From Coq Require Import String.
From Coq Require Import List Arith ZArith NArith Bool.
From Verif Require Import Base GeometryModel.
Import ListNotations.

Section Drawing.
Variable o : Ops.
Notation T := (T o).
Notation vec := (vec o).

(** libm and constants: sin, cos, atan2, PI (constants.hpp), the 1e-100 of segmentsIntersect,
    numeric_limits<double>::min() and the conversion double -> uint32_t *)
Record libm := mkLibm {
  fsin : T -> T; fcos : T -> T; fatan2 : T -> T -> T; fpi : T; tiny : T; dbl_min : T; to_u32 : T -> res nat }.
Variable lm : libm.

(** the template parameter Prop: its operator== and its default value Prop() *)
Variable A : Type.
Variable peq : A -> A -> bool.
Variable pdef : A.

(** drawing.hpp 31-67: DrawingRegion (first, second), DrawingSegment (p1, p2), Drawing *)
Record drawing := mkD {
  region_map : list A;
  regions : list (vec * nat);
  points : list vec;
  segments : list (nat * nat);
  polygons : list (list vec) }.

(** drawing.hpp 102-105: the constructor *)
Definition empty_drawing : drawing := mkD [] [] [] [] [].

(** A member function changes the drawing and then returns or throws: what it did before throwing stays. *)
Definition M (X : Type) : Type := drawing -> drawing * res X.
Definition mret {X} (x : X) : M X := fun d => (d, Ok x).
Definition mbind {X Y} (c : M X) (k : X -> M Y) : M Y := fun d =>
  match c d with
  | (d', Ok x) => k x d'
  | (d', Throw s) => (d', Throw s)
  | (d', UB s) => (d', UB s)
  | (d', NonFin s) => (d', NonFin s)
  end.
Definition mlift {X} (r : res X) : M X := fun d => (d, r).
Definition mget : M drawing := fun d => (d, Ok d).
Definition mput (d : drawing) : M unit := fun _ => (d, Ok tt).
Local Notation "x <~ e ;; k" := (mbind e (fun x => k)) (at level 90, e at next level, right associativity).

Definition with_points (d : drawing) (l : list vec) : drawing := mkD (region_map d) (regions d) l (segments d) (polygons d).
Definition push_point (p : vec) : M unit := d <~ mget ;; mput (with_points d (points d ++ [p])).
Definition push_segment (s : nat * nat) : M unit :=
  d <~ mget ;; mput (mkD (region_map d) (regions d) (points d) (segments d ++ [s]) (polygons d)).
Definition push_polygon (l : list vec) : M unit :=
  d <~ mget ;; mput (mkD (region_map d) (regions d) (points d) (segments d) (polygons d ++ [l])).

(** drawing.hpp 206-219: the look-up of one end point; every point is visited, the last match wins.
    The loop for both end points is written as two loops (the comparisons have no effect). *)
Fixpoint find_point (l : list vec) (i : nat) (p : vec) (found : option nat) : res (option nat) :=
  match l with
  | [] => Ok found
  | q :: l' => b <- vec_eqb o q p ;; find_point l' (S i) p (if b then Some i else found)
  end.

(** drawing.hpp 54-56, 231, 235 *)
Definition same_segment (s t : nat * nat) : bool :=
  (Nat.eqb (fst s) (fst t) && Nat.eqb (snd s) (snd t)) || (Nat.eqb (fst s) (snd t) && Nat.eqb (snd s) (fst t)).
Definition connected (s t : nat * nat) : bool :=
  Nat.eqb (fst s) (fst t) || Nat.eqb (fst s) (snd t) || Nat.eqb (snd s) (fst t) || Nat.eqb (snd s) (snd t).

(** drawing.hpp 229-247: [Ok true] if the loop runs to its end, [Ok false] if it returns (segment already there) *)
Fixpoint check_segments (pts : list vec) (p1 p2 : vec) (new : nat * nat) (segs : list (nat * nat)) : res bool :=
  match segs with
  | [] => Ok true
  | s :: segs' =>
      if same_segment s new then Ok false
      else if connected s new then check_segments pts p1 p2 new segs'
      else
        a <- get pts (fst s) ;;
        b <- get pts (snd s) ;;
        if negb (pointInSegmentBB o p1 a b || pointInSegmentBB o p2 a b) then check_segments pts p1 p2 new segs'
        else if segmentsIntersect o (tiny lm) p1 p2 a b then Throw "Error: segment intersects another segment"
        else check_segments pts p1 p2 new segs'
  end.

(** drawing.hpp 203-249: drawSegment *)
Definition drawSegment (p1 p2 : vec) : M unit :=
  d0 <~ mget ;;
  f1 <~ mlift (find_point (points d0) 0 p1 None) ;;
  f2 <~ mlift (find_point (points d0) 0 p2 None) ;;
  i1 <~ match f1 with
        | Some i => mret i
        | None => d <~ mget ;; _ <~ push_point p1 ;; mret (length (points d))
        end ;;
  i2 <~ match f2 with
        | Some i => mret i
        | None => d <~ mget ;; _ <~ push_point p2 ;; mret (length (points d))
        end ;;
  d <~ mget ;;
  add <~ mlift (check_segments (points d) p1 p2 (i1, i2) (segments d)) ;;
  if add : bool then push_segment (i1, i2) else mret tt.

(** drawing.hpp 112-119: drawRectangle(p1, p2) *)
Definition drawRectangle (p1 p2 : vec) : M unit :=
  _ <~ drawSegment p1 (mkV (vx p2) (vy p1)) ;;
  _ <~ drawSegment (mkV (vx p2) (vy p1)) p2 ;;
  _ <~ drawSegment p2 (mkV (vx p1) (vy p2)) ;;
  _ <~ drawSegment (mkV (vx p1) (vy p2)) p1 ;;
  push_polygon [p1; mkV (vx p2) (vy p1); p2; mkV (vx p1) (vy p2)].
(** drawing.hpp 121-124: drawRectangle(p1, width, height) *)
Definition drawRectangleWH (p1 : vec) (width height : T) : M unit :=
  drawRectangle p1 (mkV (add o (vx p1) width) (add o (vy p1) height)).

(** drawing.hpp 133-139: the loop of drawCircle; [mine] is my_points *)
Fixpoint circle_loop (p : vec) (radius step : T) (n : nat) (angle : T) (p1 : vec) (mine : list vec) : M (list vec) :=
  match n with
  | O => mret mine
  | S n' =>
      let angle := add o angle step in
      let p2 := mkV (add o (vx p) (mul o radius (fcos lm angle))) (add o (vy p) (mul o radius (fsin lm angle))) in
      _ <~ drawSegment p1 p2 ;;
      circle_loop p radius step n' angle p2 (mine ++ [p2])
  end.
(** drawing.hpp 126-141: drawCircle.  For n_segments = 0 the quotient 2 PI / 0 is computed and not used. *)
Definition drawCircle (p : vec) (radius : T) (n : nat) : M unit :=
  match n with
  | O => push_polygon []
  | S _ =>
      step <~ mlift (div o (mul o (ofZ o 2) (fpi lm)) (ofZ o (Z.of_nat n))) ;;
      mine <~ circle_loop p radius step n (zero o) (mkV (add o (vx p) radius) (vy p)) [] ;;
      push_polygon mine
  end.

(** drawing.hpp 150-152: for (i = a; i < a + n; i++) drawSegment (points[i], points[i + 1]) *)
Fixpoint polygon_loop (l : list vec) (n a : nat) : M unit :=
  match n with
  | O => mret tt
  | S n' =>
      p <~ mlift (get l a) ;;
      q <~ mlift (get l (a + 1)) ;;
      _ <~ drawSegment p q ;;
      polygon_loop l n' (S a)
  end.
(** drawing.hpp 148-165: drawPolygon; n_points - 1 is computed in uint32_t *)
Definition drawPolygon (l : list vec) : M unit :=
  let n := u32 (length l) in
  _ <~ polygon_loop l (u32_sub n 1) 0 ;;
  p <~ mlift (get l (u32_sub n 1)) ;;
  q <~ mlift (get l 0) ;;
  _ <~ drawSegment p q ;;
  push_polygon l.

(** drawing.hpp 169-173 *)
Fixpoint find_prop (l : list A) (i : nat) (val : A) : option nat :=
  match l with
  | [] => None
  | v :: l' => if peq v val then Some i else find_prop l' (S i) val
  end.
(** drawing.hpp 167-176: getRegionId *)
Definition getRegionId (val : A) : M nat :=
  d <~ mget ;;
  match find_prop (region_map d) 0 val with
  | Some i => mret i
  | None =>
      _ <~ mput (mkD (region_map d ++ [val]) (regions d) (points d) (segments d) (polygons d)) ;;
      mret (length (region_map d))
  end.
(** drawing.hpp 188-195: getRegionPtrFromId.  (getRegionFromId, 178-186, does not compile when instantiated:
    it reads it->second of a property; nothing calls it.) *)
Definition getRegionPtrFromId (d : drawing) (id : nat) : res A :=
  if Nat.leb (length (region_map d)) id then Throw "Error: region id not found" else get (region_map d) id.
(** drawing.hpp 197-201: drawRegion *)
Definition drawRegion (p : vec) (val : A) : M unit :=
  id <~ getRegionId val ;;
  d <~ mget ;;
  mput (mkD (region_map d) (regions d ++ [(p, id)]) (points d) (segments d) (polygons d)).

(** drawing.hpp 256-259: drawPoint *)
Definition drawPoint (p : vec) : M unit := push_point p.

(** drawing.hpp 266-277: inner loop of getCurrentEpsilon for point number [i] *)
Fixpoint eps_inner (pts : list vec) (i : nat) (p : vec) (segs : list (nat * nat)) (m : T) : res T :=
  match segs with
  | [] => Ok m
  | s :: segs' =>
      if Nat.eqb (fst s) i || Nat.eqb (snd s) i then eps_inner pts i p segs' m
      else
        a <- get pts (fst s) ;;
        b <- get pts (snd s) ;;
        dist <- pointSegmentDistance o p a b ;;
        eps_inner pts i p segs' (if ltb o dist m then dist else m)
  end.
Fixpoint eps_outer (pts : list vec) (segs : list (nat * nat)) (l : list vec) (i : nat) (m : T) : res T :=
  match l with
  | [] => Ok m
  | p :: l' => m' <- eps_inner pts i p segs m ;; eps_outer pts segs l' (S i) m'
  end.
(** drawing.hpp 261-280: getCurrentEpsilon *)
Definition getCurrentEpsilon (d : drawing) : res T := eps_outer (points d) (segments d) (points d) 0 (dbl_max o).

(** vector.hpp 153-168: absoluteAngle, orientedAngle *)
Definition absoluteAngle (a b c : vec) : T :=
  let ax := sub o (vx a) (vx b) in
  let ay := sub o (vy a) (vy b) in
  let bx := sub o (vx c) (vx b) in
  let by_ := sub o (vy c) (vy b) in
  let dot := add o (mul o ax bx) (mul o ay by_) in
  let det := sub o (mul o ax by_) (mul o ay bx) in
  fabs o (fatan2 lm det dot).

(** drawing.hpp 303-322: do the segments [s] and [t] make an angle below the limit? *)
Definition sharp_pair (pts : list vec) (limit : T) (s t : nat * nat) : res bool :=
  p1 <- get pts (fst s) ;;
  p2 <- get pts (snd s) ;;
  p3 <- get pts (fst t) ;;
  p4 <- get pts (snd t) ;;
  e13 <- vec_eqb o p1 p3 ;;
  e14 <- vec_eqb o p1 p4 ;;
  e23 <- vec_eqb o p2 p3 ;;
  e24 <- vec_eqb o p2 p4 ;;
  if e13 : bool then Ok (ltb o (absoluteAngle p2 p1 p4) limit)
  else if e14 : bool then Ok (ltb o (absoluteAngle p2 p1 p3) limit)
  else if e23 : bool then Ok (ltb o (absoluteAngle p1 p2 p4) limit)
  else if e24 : bool then Ok (ltb o (absoluteAngle p1 p2 p3) limit)
  else Throw "Error: segment not found".
(** drawing.hpp 301-324: all pairs j < k; stops at the first sharp one *)
Fixpoint sharp_with (pts : list vec) (limit : T) (s : nat * nat) (l : list (nat * nat)) : res bool :=
  match l with
  | [] => Ok false
  | t :: l' => b <- sharp_pair pts limit s t ;; if b : bool then Ok true else sharp_with pts limit s l'
  end.
Fixpoint any_sharp (pts : list vec) (limit : T) (l : list (nat * nat)) : res bool :=
  match l with
  | [] => Ok false
  | s :: l' => b <- sharp_with pts limit s l' ;; if b : bool then Ok true else any_sharp pts limit l'
  end.
(** drawing.hpp 335-341 *)
Fixpoint too_close (pts : list vec) (p : vec) (bound : T) (l : list (nat * nat)) : res bool :=
  match l with
  | [] => Ok false
  | s :: l' =>
      a <- get pts (fst s) ;;
      b <- get pts (snd s) ;;
      d <- pointSegmentDistance o p a b ;;
      if ltb o d bound then Ok true else too_close pts p bound l'
  end.
(** drawing.hpp 330-355: the 18 candidates around the corner [c]; [j] counts up, [n] is what is left *)
Fixpoint candidates (c : vec) (epsilon : T) (segs : list (nat * nat)) (n j : nat) : M unit :=
  match n with
  | O => mret tt
  | S n' =>
      angle <~ mlift (div o (mul o (ofZ o (Z.of_nat j)) (fpi lm)) (ofZ o 9)) ;;
      e100 <~ mlift (div o epsilon (ofZ o 100)) ;;
      bound <~ mlift (div o e100 (ofZ o 2)) ;;
      let p := mkV (add o (vx c) (mul o e100 (fcos lm angle))) (add o (vy c) (mul o e100 (fsin lm angle))) in
      d <~ mget ;;
      close <~ mlift (too_close (points d) p bound segs) ;;
      let inside := existsb (fun g => poly_contains o g p) (polygons d) in
      _ <~ (if negb close && inside then push_point p else mret tt) ;;
      candidates c epsilon segs n' (S j)
  end.
(** drawing.hpp 291-356: the loop over the corners i < n_points.  The angle limit PI * (120.0 / 180.0) is written PI * 2 / 3. *)
Fixpoint refine_loop (epsilon : T) (n i : nat) : M unit :=
  match n with
  | O => mret tt
  | S n' =>
      d <~ mget ;;
      let containing := filter (fun s => Nat.eqb (fst s) i || Nat.eqb (snd s) i) (segments d) in
      third <~ mlift (div o (ofZ o 2) (ofZ o 3)) ;;
      sharp <~ mlift (any_sharp (points d) (mul o (fpi lm) third) containing) ;;
      _ <~ (if sharp : bool then c <~ mlift (get (points d) i) ;; candidates c epsilon containing 18 0 else mret tt) ;;
      refine_loop epsilon n' (S i)
  end.
(** drawing.hpp 282-357: addRefiningPoints *)
Definition addRefiningPoints : M unit :=
  d <~ mget ;;
  epsilon <~ mlift (getCurrentEpsilon d) ;;
  refine_loop epsilon (length (points d)) 0.

(** drawing.hpp 359-370: translate *)
Definition translate (v : vec) : M unit :=
  d <~ mget ;;
  mput (mkD (region_map d) (map (fun r => (vadd o (fst r) v, snd r)) (regions d)) (map (fun p => vadd o p v) (points d))
            (segments d) (map (fun l => poly_translate o l v) (polygons d))).

(** drawing.hpp 375-381, 376-384: is the polygon part of the drawing? *)
Fixpoint has_polygon (l : list (list vec)) (p : list vec) : res bool :=
  match l with
  | [] => Ok false
  | q :: l' => b <- poly_eqb o q p ;; if b : bool then Ok true else has_polygon l' p
  end.
(** drawing.hpp 406-419 *)
Fixpoint first_free (rm : list A) (inner : list (list vec)) (l : list (vec * nat)) : res A :=
  match l with
  | [] => Ok pdef
  | r :: l' =>
      if existsb (fun g => poly_contains o g (fst r)) inner then first_free rm inner l'
      else get rm (snd r)
  end.
(** drawing.hpp 372-423: getPolygonProp *)
Definition getPolygonProp (d : drawing) (p : list vec) : res A :=
  found <- has_polygon (polygons d) p ;;
  if negb found then Throw "Error: polygon not found"
  else
    let inside := filter (fun r => poly_contains o p (fst r)) (regions d) in
    match inside with
    | [] => Throw "Error: no region found for polygon"
    | [r] => get (region_map d) (snd r)
    | _ => first_free (region_map d) (filter (fun g => poly_contains_poly o p g) (polygons d)) inside
    end.

(** drawing.hpp 429-447 (plotRend): the extent; the maxima start at numeric_limits<double>::min().
    State: max_x, min_x, max_y, min_y. *)
Definition plot_extent (l : list vec) : T * T * T * T :=
  fold_left (fun a p =>
    let '(mx, nx, my, ny) := a in
    (if gtb o (vx p) mx then vx p else mx, if ltb o (vx p) nx then vx p else nx,
     if gtb o (vy p) my then vy p else my, if ltb o (vy p) ny then vy p else ny))
    l (dbl_min lm, dbl_max o, dbl_min lm, dbl_max o).
(** drawing.hpp 449-461: scale and offset; the result is (x_scale, y_scale, x_offset, y_offset).  0.9 is written 9 / 10. *)
Definition plot_transform (l : list vec) (width height : T) : res (T * T * T * T) :=
  let '(mx, nx, my, ny) := plot_extent l in
  ratio <- div o (ofZ o 9) (ofZ o 10) ;;
  half <- div o (one o) (ofZ o 2) ;;
  let ext := fmax o (sub o mx nx) (sub o my ny) in
  xs <- div o (mul o ratio width) ext ;;
  ys <- div o (mul o ratio height) ext ;;
  Ok (xs, ys, sub o (mul o half width) (mul o (mul o half (add o mx nx)) xs),
      sub o (mul o half height) (mul o (mul o half (add o my ny)) ys)).
(** drawing.hpp 466-475: where a point is drawn (before truncation to pixels) *)
Definition plot_point (t : T * T * T * T) (p : vec) : vec :=
  let '(xs, ys, xo, yo) := t in mkV (add o (mul o xs (vx p)) xo) (add o (mul o ys (vy p)) yo).

(** the public member functions that change a drawing *)
Inductive call :=
| DrawRectangle (p1 p2 : vec)
| DrawRectangleWH (p1 : vec) (width height : T)
| DrawCircle (p : vec) (radius : T) (n_segments : nat)
| DrawPolygon (l : list vec)
| DrawRegion (p : vec) (val : A)
| DrawPoint (p : vec)
| AddRefiningPoints
| Translate (v : vec).
Definition exec (c : call) : M unit :=
  match c with
  | DrawRectangle p1 p2 => drawRectangle p1 p2
  | DrawRectangleWH p w h => drawRectangleWH p w h
  | DrawCircle p r n => drawCircle p r n
  | DrawPolygon l => drawPolygon l
  | DrawRegion p val => drawRegion p val
  | DrawPoint p => drawPoint p
  | AddRefiningPoints => addRefiningPoints
  | Translate v => translate v
  end.

(** *** magnetostatic/mesh.cpp 235-339: refineMeshAroundMagnets; [mag] gives the magnetisation of a property *)
Variable mag : A -> vec.

(** mesh.cpp 241-249: (region id, polygons containing a seed of that region), ordered by id (std::map) *)
Fixpoint magmap_push (m : list (nat * list (list vec))) (id : nat) (g : list vec) : list (nat * list (list vec)) :=
  match m with
  | [] => [(id, [g])]
  | (k, l) :: m' =>
      if Nat.eqb k id then (k, l ++ [g]) :: m'
      else if Nat.ltb id k then (id, [g]) :: (k, l) :: m'
      else (k, l) :: magmap_push m' id g
  end.
Fixpoint mag_polygons (rm : list A) (polys : list (list vec)) (rs : list (vec * nat)) (m : list (nat * list (list vec)))
  : res (list (nat * list (list vec))) :=
  match rs with
  | [] => Ok m
  | r :: rs' =>
      v <- get rm (snd r) ;;
      ismag <- vec_neqb o (mag v) (vzero o) ;;
      mag_polygons rm polys rs'
        (if ismag : bool then fold_left (fun m g => if poly_contains o g (fst r) then magmap_push m (snd r) g else m) polys m else m)
  end.
(** polygon.cpp 36-38: operator!= *)
Definition poly_neqb (a b : list vec) : res bool := x <- poly_eqb o a b ;; Ok (negb x).
(** mesh.cpp 261-267 *)
Fixpoint is_magnet (g : list vec) (l : list (list vec)) : res bool :=
  match l with
  | [] => Ok true
  | h :: l' =>
      ne <- poly_neqb g h ;;
      if ne && poly_contains_poly o g h then Ok false else is_magnet g l'
  end.
(** mesh.cpp 260-271 *)
Fixpoint pick_magnets (all l : list (list vec)) (acc : list (list vec)) : res (list (list vec)) :=
  match l with
  | [] => Ok acc
  | g :: l' => b <- is_magnet g all ;; pick_magnets all l' (if b : bool then acc ++ [g] else acc)
  end.
(** mesh.cpp 250-273: a polygon that is alone is pushed once per vertex *)
Fixpoint collect_magnets (m : list (nat * list (list vec))) (acc : list (list vec)) : res (list (list vec)) :=
  match m with
  | [] => Ok acc
  | (_, [g]) :: m' => collect_magnets m' (acc ++ repeat g (length g))
  | (_, l) :: m' => acc <- pick_magnets l l acc ;; collect_magnets m' acc
  end.
(** mesh.cpp 302-314: is the candidate [p] at least [bound] away from every polygon vertex? *)
Fixpoint clear_of (p : vec) (bound : T) (l : list vec) : res bool :=
  match l with
  | [] => Ok true
  | q :: l' => d <- distance o p q ;; if ltb o d bound then Ok false else clear_of p bound l'
  end.
(** mesh.cpp 287-336: the points along one edge.  The scan over the edges of the other polygons visits every vertex of
    them (as p3 of its own edge); the break leaves the inner loop only, which does not change the result. *)
Fixpoint edge_points (g : list vec) (p1 p2 normal : vec) (bound : T) (total n j : nat) : M unit :=
  match n with
  | O => mret tt
  | S n' =>
      t <~ mlift (div o (ofZ o (Z.of_nat j)) (ofZ o (Z.of_nat total))) ;;
      let a := vadd o (lerp o p1 p2 t) normal in
      let b := vminus o (lerp o p1 p2 t) normal in
      d <~ mget ;;
      let ok (q : vec) : res bool :=
        if poly_contains o g q then
          c1 <- clear_of q bound (concat (polygons d)) ;;
          if c1 : bool then clear_of q bound (points d) else Ok false
        else Ok false in
      oka <~ mlift (ok a) ;;
      okb <~ mlift (ok b) ;;
      _ <~ (if oka : bool then push_point a else mret tt) ;;
      _ <~ (if okb : bool then push_point b else mret tt) ;;
      edge_points g p1 p2 normal bound total n' (S j)
  end.
(** mesh.cpp 276-337: the edges of one magnet; 1.1 is written 11 / 10 *)
Fixpoint magnet_edges (g : list vec) (n i : nat) : M unit :=
  match n with
  | O => mret tt
  | S n' =>
      p1 <~ mlift (get g i) ;;
      p2 <~ mlift (get g (Nat.modulo (i + 1) (length g))) ;;
      d <~ mget ;;
      epsilon <~ mlift (getCurrentEpsilon d) ;;
      bound <~ mlift (div o epsilon (ofZ o 10)) ;;
      len <~ mlift (distance o p1 p2) ;;
      q <~ mlift (div o len bound) ;;
      count <~ mlift (to_u32 lm q) ;;
      v <~ mlift (normalize o (normal o (vminus o p2 p1))) ;;
      eleven <~ mlift (div o (ofZ o 11) (ofZ o 10)) ;;
      _ <~ edge_points g p1 p2 (vmul o (vmul o v bound) eleven) bound count count 0 ;;
      magnet_edges g n' (S i)
  end.
Fixpoint all_magnets (l : list (list vec)) : M unit :=
  match l with
  | [] => mret tt
  | g :: l' => _ <~ magnet_edges g (length g) 0 ;; all_magnets l'
  end.
Definition magnets_of (d : drawing) : res (list (list vec)) :=
  m <- mag_polygons (region_map d) (polygons d) (regions d) [] ;; collect_magnets m [].
Definition refineMeshAroundMagnets : M unit :=
  d <~ mget ;;
  l <~ mlift (magnets_of d) ;;
  all_magnets l.

End Drawing.

Arguments mkD {o A}.
Arguments region_map {o A} d.
Arguments regions {o A} d.
Arguments points {o A} d.
Arguments segments {o A} d.
Arguments polygons {o A} d.
Arguments DrawRectangle {o A}.
Arguments DrawRectangleWH {o A}.
Arguments DrawCircle {o A}.
Arguments DrawPolygon {o A}.
Arguments DrawRegion {o A}.
Arguments DrawPoint {o A}.
Arguments AddRefiningPoints {o A}.
Arguments Translate {o A}.
