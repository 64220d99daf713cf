(** Model of lib/nikfemm/src/geometry: vector.hpp, common.hpp, segment.cpp, polygon.cpp, circle.hpp/.cpp,
    and of the scalar helpers in lib/nikfemm/src/utils/utils.hpp.  [pow (x, 2)] is modelled as [x * x]. *)
From Coq Require Import String.
From Coq Require Import List Arith ZArith NArith Bool.
From Verif Require Import Base.
Import ListNotations.

Section Geometry.
Variable o : Ops.
Notation T := (T o).

(** vector.hpp 12-15, class Vector *)
Record vec := mkV { vx : T; vy : T }.

Notation "x '+.' y" := (add o x y) (at level 50, left associativity).
Notation "x '-.' y" := (sub o x y) (at level 50, left associativity).
Notation "x '*.' y" := (mul o x y) (at level 40, left associativity).

Definition two : T := ofZ o 2.
(** std::max, std::min (bits/stl_algobase.h): max (a, b) = a < b ? b : a, min (a, b) = b < a ? b : a *)
Definition fmax (a b : T) : T := if ltb o a b then b else a.
Definition fmin (a b : T) : T := if ltb o b a then b else a.

(** vector.hpp 31-38, 54-63, 72-85 *)
Definition vadd (p q : vec) : vec := mkV (vx p +. vx q) (vy p +. vy q).
Definition vminus (p q : vec) : vec := mkV (vx p -. vx q) (vy p -. vy q).
Definition vneg (p : vec) : vec := mkV (opp o (vx p)) (opp o (vy p)).
Definition vmul (p : vec) (d : T) : vec := mkV (vx p *. d) (vy p *. d).
Definition vdivs (p : vec) (d : T) : res vec := x <- div o (vx p) d ;; y <- div o (vy p) d ;; Ok (mkV x y).
Definition vdot (p q : vec) : T := vx p *. vx q +. vy p *. vy q.
Definition vcross (p q : vec) : T := vx p *. vy q -. vy p *. vx q.

(** vector.hpp 88-96: norm, normSquared *)
Definition normSquared (p : vec) : T := vx p *. vx p +. vy p *. vy p.
Definition norm (p : vec) : res T := fsqrt o (normSquared p).
(** vector.hpp 98-106: normalize *)
Definition normalize (p : vec) : res vec :=
  len <- norm p ;;
  if eqb o len (zero o) then Ok p
  else x <- div o (vx p) len ;; y <- div o (vy p) len ;; Ok (mkV x y).

(** vector.hpp 114-118: rotate(angle); sin and cos are parameters *)
Definition rotate0 (fsin fcos : T -> T) (p : vec) (angle : T) : vec :=
  let s := fsin angle in
  let c := fcos angle in
  mkV (vx p *. c -. vy p *. s) (vx p *. s +. vy p *. c).
(** vector.hpp 120-122: rotate(angle, center) *)
Definition rotate (fsin fcos : T -> T) (p : vec) (angle : T) (center : vec) : vec :=
  vadd (rotate0 fsin fcos (vminus p center) angle) center.
(** vector.hpp 124-126: normal *)
Definition normal (p : vec) : vec := mkV (opp o (vy p)) (vx p).

(** vector.hpp 128-138: doubleOrientedArea, orientedArea, area *)
Definition doubleOrientedArea (p1 p2 p3 : vec) : T :=
  vx p1 *. vy p2 -. vx p1 *. vy p3 -. vx p2 *. vy p1 +. vx p2 *. vy p3 +. vx p3 *. vy p1 -. vx p3 *. vy p2.
Definition orientedArea (p1 p2 p3 : vec) : res T := div o (doubleOrientedArea p1 p2 p3) two.
Definition area (p1 p2 p3 : vec) : res T := a <- orientedArea p1 p2 p3 ;; Ok (fabs o a).

(** vector.hpp 140-146: distance, distanceSquared *)
Definition distanceSquared (p q : vec) : T :=
  (vx p -. vx q) *. (vx p -. vx q) +. (vy p -. vy q) *. (vy p -. vy q).
Definition distance (p q : vec) : res T := fsqrt o (distanceSquared p q).
(** vector.hpp 148-154: lerp, midPoint *)
Definition lerp (p q : vec) (t : T) : vec :=
  mkV (vx p +. (vx q -. vx p) *. t) (vy p +. (vy q -. vy p) *. t).
Definition midPoint (p q : vec) : res vec :=
  x <- div o (vx p +. vx q) two ;; y <- div o (vy p +. vy q) two ;; Ok (mkV x y).

(** vector.hpp 23-29: operator==, operator!= *)
Definition vec_eqb (p q : vec) : res bool := d <- distance p q ;; Ok (ltb o d (eps9 o)).
Definition vec_neqb (p q : vec) : res bool := b <- vec_eqb p q ;; Ok (negb b).
(** vector.hpp 176-184: std::hash<Vector>; [h] stands for std::hash<double>, size_t values are [N] *)
Definition vec_hash (h : T -> N) (p : vec) : N := N.lxor (h (vx p)) (h (vy p)).

(** common.hpp 7-11, enum Orientation *)
Inductive orientation := COLLINEAR | CLOCKWISE | COUNTERCLOCKWISE.
Definition orientation_eqb (a b : orientation) : bool :=
  match a, b with
  | COLLINEAR, COLLINEAR | CLOCKWISE, CLOCKWISE | COUNTERCLOCKWISE, COUNTERCLOCKWISE => true
  | _, _ => false
  end.

(** common.hpp 13-24: geomOrientation.  The unqualified [abs] resolves to the floating-point overload. *)
Definition geomOrientation (p1 p2 p3 : vec) : orientation :=
  let val := (vy p2 -. vy p1) *. (vx p3 -. vx p2) -. (vx p2 -. vx p1) *. (vy p3 -. vy p2) in
  if ltb o (fabs o val) (dbl_eps o) then COLLINEAR
  else if gtb o val (zero o) then CLOCKWISE
  else COUNTERCLOCKWISE.

(** common.hpp 26-32: pointInTriangle *)
Definition pointInTriangle (p p1 p2 p3 : vec) : bool :=
  let o1 := geomOrientation p p1 p2 in
  let o2 := geomOrientation p p2 p3 in
  let o3 := geomOrientation p p3 p1 in
  orientation_eqb o1 o2 && orientation_eqb o2 o3.

(** segment.cpp 26-29 (and 21-24): pointInSegmentBB *)
Definition pointInSegmentBB (p p1 p2 : vec) : bool :=
  leb o (vx p) (fmax (vx p1) (vx p2)) && geb o (vx p) (fmin (vx p1) (vx p2)) &&
  leb o (vy p) (fmax (vy p1) (vy p2)) && geb o (vy p) (fmin (vy p1) (vy p2)).

(** segment.cpp 73-97 (and 31-71): pointSegmentDistance *)
Definition pointSegmentDistance (p p1 p2 : vec) : res T :=
  param <- div o (vdot (vminus p p1) (vminus p2 p1)) (distanceSquared p1 p2) ;;
  if ltb o param (zero o) then distance p p1
  else if gtb o param (one o) then distance p p2
  else distance p (vadd p1 (vmul (vminus p2 p1) param)).

(** segment.cpp 99-101: area (file-local helper) *)
Definition seg_area (p1 p2 p3 : vec) : T :=
  (vx p2 -. vx p1) *. (vy p3 -. vy p1) -. (vx p3 -. vx p1) *. (vy p2 -. vy p1).

(** segment.cpp 103-146: segmentsIntersect; [e] is the constant 1e-100 of line 104 *)
Definition segmentsIntersect (e : T) (s1p1 s1p2 s2p1 s2p2 : vec) : bool :=
  let c_area := seg_area s1p1 s1p2 s2p1 in
  let d_area := seg_area s1p1 s1p2 s2p2 in
  (* lines 109-116 and 123-130: is the point [q] inside the extent of s1? *)
  let within (q : vec) :=
    if ltb o (fabs o (vx q -. vx s1p1)) e
    then ltb o (fmin (vy s1p1) (vy s1p2) -. e) (vy q) && ltb o (vy q) (fmax (vy s1p1) (vy s1p2) +. e)
    else ltb o (fmin (vx s1p1) (vx s1p2) -. e) (vx q) && ltb o (vx q) (fmax (vx s1p1) (vx s1p2) +. e) in
  (* lines 121-145 *)
  let rest :=
    if ltb o (fabs o d_area) e then
      if within s2p2 then true
      else if gtb o (fabs o c_area) e then false
      else if ltb o (fabs o (vx s2p1 -. vx s1p1)) e
           then xorb (ltb o (vy s1p1) (vy s2p1)) (ltb o (vy s1p1) (vy s2p2))
           else xorb (ltb o (vx s1p1) (vx s2p1)) (ltb o (vx s1p1) (vx s2p2))
    else if Bool.eqb (gtb o c_area (zero o)) (gtb o d_area (zero o)) then false
    else let a_area := seg_area s2p1 s2p2 s1p1 in
         let b_area := seg_area s2p1 s2p2 s1p2 in
         xorb (gtb o a_area (zero o)) (gtb o b_area (zero o)) in
  if ltb o (fabs o c_area) e then
    if within s2p1 then true
    else if gtb o (fabs o d_area) e then false
    else rest
  else rest.

(** polygon.cpp 53-68: one edge of contains(p).  [None]: return true; [Some t]: toggle [inside] iff [t] *)
Definition edge_step (p A B : vec) : option bool :=
  if (eqb o (vx p) (vx A) && eqb o (vy p) (vy A)) || (eqb o (vx p) (vx B) && eqb o (vy p) (vy B)) then None
  else if eqb o (vy A) (vy B) && eqb o (vy p) (vy A) &&
          ((geb o (vx p) (vx A) && leb o (vx p) (vx B)) || (leb o (vx p) (vx A) && geb o (vx p) (vx B))) then None
  else if (geb o (vy p) (vy A) && leb o (vy p) (vy B)) || (leb o (vy p) (vy A) && geb o (vy p) (vy B)) then
    if (eqb o (vy p) (vy A) && geb o (vy B) (vy A)) || (eqb o (vy p) (vy B) && geb o (vy A) (vy B)) then Some false
    else
      let c := (vx A -. vx p) *. (vy B -. vy p) -. (vx B -. vx p) *. (vy A -. vy p) in
      if eqb o c (zero o) then None
      else Some (Bool.eqb (ltb o (vy A) (vy B)) (gtb o c (zero o)))
  else Some false.

(** polygon.cpp 49-69: the loop; [A] is points[i] (the previous vertex), the list is points[j..] *)
Fixpoint contains_loop (p A : vec) (l : list vec) (inside : bool) : bool :=
  match l with
  | [] => inside
  | B :: l' =>
      match edge_step p A B with
      | None => true
      | Some t => contains_loop p B l' (if t then negb inside else inside)
      end
  end.

(** polygon.cpp 45-73: Polygon::contains(Vector); for an empty polygon the loop body never runs *)
Definition poly_contains (pts : list vec) (p : vec) : bool :=
  match pts with
  | [] => false
  | A0 :: _ => contains_loop p (last pts A0) pts false
  end.

(** polygon.cpp 78-86: is [p] within [epsilon] of an edge?  [A] is points[i], the list is what follows *)
Fixpoint boundary_loop (p : vec) (epsilon : T) (first A : vec) (l : list vec) : res bool :=
  let B := match l with [] => first | B :: _ => B end in
  d <- pointSegmentDistance p A B ;;
  if leb o d epsilon then Ok true
  else match l with
       | [] => Ok false
       | B :: l' => boundary_loop p epsilon first B l'
       end.

(** polygon.cpp 75-92: Polygon::contains(Vector, bool, double) *)
Definition poly_contains_eps (pts : list vec) (p : vec) (on_boundary_counts : bool) (epsilon : T) : res bool :=
  let is_contained_simple := poly_contains pts p in
  is_on_boundary <- match pts with [] => Ok false | A :: l => boundary_loop p epsilon A A l end ;;
  Ok (if on_boundary_counts then is_contained_simple || is_on_boundary
      else is_contained_simple && negb is_on_boundary).

(** polygon.cpp 94-102: Polygon::contains(Polygon) *)
Definition poly_contains_poly (pts q : list vec) : bool := forallb (poly_contains pts) q.

(** polygon.cpp 22-34: Polygon::operator== *)
Fixpoint poly_eqb_loop (a b : list vec) : res bool :=
  match a, b with
  | x :: a', y :: b' => ne <- vec_neqb x y ;; if ne then Ok false else poly_eqb_loop a' b'
  | _, _ => Ok true
  end.
Definition poly_eqb (a b : list vec) : res bool :=
  if negb (Nat.eqb (length a) (length b)) then Ok false else poly_eqb_loop a b.

(** polygon.cpp 104-116: Polygon::translate, Polygon::rotate *)
Definition poly_translate (pts : list vec) (v : vec) : list vec := map (fun p => vadd p v) pts.
Definition poly_rotate (fsin fcos : T -> T) (pts : list vec) (angle : T) (center : vec) : list vec :=
  map (fun p => rotate fsin fcos p angle center) pts.

(** circle.hpp 12-15, struct Circle *)
Record circle := mkCircle { center : vec; radius : T }.

(** circle.hpp 23-25: Circle::contains *)
Definition circle_contains (c : circle) (p : vec) : res bool :=
  d <- distance (center c) p ;; Ok (leb o d (radius c)).

(** circle.hpp 26-41: getCircleFromPoints(p1, p2, p3) *)
Definition circle3 (p1 p2 p3 : vec) : res circle :=
  let bx := vx p2 -. vx p1 in
  let by_ := vy p2 -. vy p1 in
  let cx := vx p3 -. vx p1 in
  let cy := vy p3 -. vy p1 in
  let B := bx *. bx +. by_ *. by_ in
  let C := cx *. cx +. cy *. cy in
  let D := bx *. cy -. by_ *. cx in
  ix <- div o (cy *. B -. by_ *. C) (two *. D) ;;
  iy <- div o (bx *. C -. cx *. B) (two *. D) ;;
  let I := mkV (ix +. vx p1) (iy +. vy p1) in
  r <- distance I p1 ;;
  Ok (mkCircle I r).

(** circle.hpp 43-46: getCircleFromPoints(p1, p2) *)
Definition circle2 (p1 p2 : vec) : res circle :=
  I <- midPoint p1 p2 ;;
  r <- distance I p1 ;;
  Ok (mkCircle I r).

(** circle.hpp 48-56: containsPoints *)
Fixpoint containsPoints (c : circle) (l : list vec) : res bool :=
  match l with
  | [] => Ok true
  | p :: l' => b <- circle_contains c p ;; if negb b then Ok false else containsPoints c l'
  end.

Definition vzero : vec := mkV (zero o) (zero o).

(** circle.cpp 31-53: trivialCircleFromPoints.  The assert is modelled as a throw (abort). *)
Definition trivialCircle (l : list vec) : res circle :=
  match l with
  | [] => Ok (mkCircle vzero (zero o))
  | [a] => Ok (mkCircle a (zero o))
  | [a; b] => circle2 a b
  | [a; b; d] =>
      c <- circle2 a b ;; ok <- containsPoints c l ;; if ok then Ok c else
      c <- circle2 a d ;; ok <- containsPoints c l ;; if ok then Ok c else
      c <- circle2 b d ;; ok <- containsPoints c l ;; if ok then Ok c else
      circle3 a b d
  | _ => Throw "assert points.size() <= 3"
  end.

(** std::swap (points[i], points[j]) *)
Definition swap_at (l : list vec) (i j : nat) : res (list vec) :=
  a <- get l i ;; b <- get l j ;; l <- set l i b ;; set l j a.

(** circle.cpp 55-72: welzlHelper.  [rnd t] is the value of the [t]-th call of rand(); the call counter is threaded. *)
Fixpoint welzl (rnd : nat -> nat) (n : nat) (points R : list vec) (t : nat) : res (circle * nat) :=
  match n with
  | O => c <- trivialCircle R ;; Ok (c, t)
  | S n' =>
      if Nat.eqb (length R) 3 then c <- trivialCircle R ;; Ok (c, t)
      else
        let k := Nat.modulo (rnd t) n in
        p <- get points k ;;
        points <- swap_at points k n' ;;
        '(c, t) <- welzl rnd n' points R (S t) ;;
        inside <- circle_contains c p ;;
        if inside then Ok (c, t)
        else welzl rnd n' points (R ++ [p]) t
  end.

(** circle.cpp 74-78: getMinimumEnclosingCircle; [shuffled] is the list after std::shuffle *)
Definition getMinimumEnclosingCircle (rnd : nat -> nat) (shuffled : list vec) : res circle :=
  '(c, _) <- welzl rnd (length shuffled) shuffled [] 0 ;; Ok c.

(** circle.cpp 89-101: getEnclosingCircle *)
Fixpoint enclosing_loop (l : list vec) (maxmod : T) (c : vec) : res (T * vec) :=
  match l with
  | [] => Ok (maxmod, c)
  | p :: l' =>
      m <- norm p ;;
      enclosing_loop l' (if gtb o m maxmod then m else maxmod) (vadd c p)
  end.
Definition getEnclosingCircle (l : list vec) : res circle :=
  '(maxmod, s) <- enclosing_loop l (zero o) vzero ;;
  g <- vdivs s (ofZ o (Z.of_nat (length l))) ;;
  Ok (mkCircle g maxmod).

(** utils.hpp 25-27: map *)
Definition umap (x in_min in_max out_min out_max : T) : res T :=
  q <- div o ((x -. in_min) *. (out_max -. out_min)) (in_max -. in_min) ;; Ok (q +. out_min).
(** utils.hpp 28-36: limit *)
Definition limit (x lo hi : T) : T :=
  if ltb o x lo then lo else if gtb o x hi then hi else x.

(** utils.cpp 50-77: val2jet; the result is (c[0], c[1], c[2]), i.e. blue, green, red.  The decimal constants
    0.25, 0.5, 0.75 are written as quotients. *)
Definition val2jet (v vmin vmax : T) : res (T * T * T) :=
  let c255 := ofZ o 255 in
  let four := ofZ o 4 in
  q25 <- div o (one o) four ;;
  q50 <- div o (one o) two ;;
  q75 <- div o (ofZ o 3) four ;;
  let v := if ltb o v vmin then vmin else v in
  let v := if gtb o v vmax then vmax else v in
  let dv := vmax -. vmin in
  if ltb o v (vmin +. q25 *. dv) then
    g <- div o (four *. (v -. vmin)) dv ;; Ok (c255, g *. c255, zero o)
  else if ltb o v (vmin +. q50 *. dv) then
    b <- div o (four *. (vmin +. q25 *. dv -. v)) dv ;; Ok ((one o +. b) *. c255, c255, zero o)
  else if ltb o v (vmin +. q75 *. dv) then
    r <- div o (four *. (v -. vmin -. q50 *. dv)) dv ;; Ok (zero o, c255, r *. c255)
  else
    g <- div o (four *. (vmin +. q75 *. dv -. v)) dv ;; Ok (zero o, (one o +. g) *. c255, c255).

End Geometry.

Arguments mkV {o} vx vy.
Arguments vx {o} v.
Arguments vy {o} v.
Arguments mkCircle {o} center radius.
Arguments center {o} c.
Arguments radius {o} c.
