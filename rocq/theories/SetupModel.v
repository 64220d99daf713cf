(** Model of the set-up of a magnetostatic problem: magnetostatic/simulation.cpp 42-76 (the automatic boundary) and the
    boundary drawing of the transformed outside, mesh/mesh.hpp 287-292. *)
From Coq Require Import String.
From Coq Require Import List Arith ZArith NArith Bool.
From Verif Require Import Base GeometryModel DrawingModel.
Import ListNotations.

Section Setup.
Variable o : Ops.
Notation T := (T o).
Notation vec := (vec o).
Variable lm : libm o.
Variable A : Type.
Variable peq : A -> A -> bool.
(** magnetostatic_materials::air without current and magnetisation (simulation.cpp 65) *)
Variable air : A.
(** magnetisation of a property, for refineMeshAroundMagnets *)
Variable mag : A -> vec.
Notation drawing := (drawing o A).
Local Notation "x <~ e ;; k" := (mbind o A e (fun x => k)) (at level 90, e at next level, right associativity).

(** simulation.cpp 48-55: centre and radius of the boundary; coeff = 1.5 *)
Definition boundary_circle (l : list vec) : res (vec * T) :=
  c <- getEnclosingCircle o l ;;
  let r := match l with [] => one o | _ => radius c end in
  coeff <- div o (ofZ o 3) (ofZ o 2) ;;
  Ok (center c, mul o r coeff).
(** simulation.cpp 60-61: uint32_t boundary_points *)
Definition boundary_points (radius area : T) : res nat :=
  let circumference := mul o (mul o (ofZ o 2) (fpi o lm)) radius in
  s3 <- fsqrt o (ofZ o 3) ;;
  q <- div o (mul o area (ofZ o 4)) s3 ;;
  side <- fsqrt o q ;;
  x <- div o circumference side ;;
  to_u32 o lm (mul o x (ofZ o 2)).
(** simulation.cpp 65: 0.9 times the radius *)
Definition air_seed (radius : T) : res vec :=
  f <- div o (ofZ o 9) (ofZ o 10) ;; Ok (mkV (mul o radius f) (zero o)).
(** simulation.cpp 48-74; gives centre, radius and number of boundary points *)
Definition setup (refine refine_magnets : bool) (area : T) : M o A (vec * T * nat) :=
  d <~ mget o A ;;
  cr <~ mlift o A (boundary_circle (points d)) ;;
  _ <~ translate o A (vneg o (fst cr)) ;;
  n <~ mlift o A (boundary_points (snd cr) area) ;;
  _ <~ drawCircle o lm A (vzero o) (snd cr) n ;;
  seed <~ mlift o A (air_seed (snd cr)) ;;
  _ <~ drawRegion o A peq seed air ;;
  _ <~ (if refine_magnets then refineMeshAroundMagnets o lm A mag else mret o A tt) ;;
  _ <~ (if refine then addRefiningPoints o lm A else mret o A tt) ;;
  mret o A (fst cr, snd cr, n).
(** mesh.hpp 287-292: the drawing of the transformed outside *)
Definition kelvin_drawing (default_prop : A) (radius : T) (n : nat) : drawing * res unit :=
  (_ <~ drawCircle o lm A (vzero o) radius n ;; drawRegion o A peq (vzero o) default_prop) (empty_drawing o A).
End Setup.
