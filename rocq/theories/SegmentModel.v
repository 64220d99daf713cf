(** Model of the rest of lib/nikfemm/src/geometry/segment.hpp and segment.cpp: the struct Segment, its length, its
    comparison and its hash; and of the comparison of circles (circle.cpp 23-29). *)
From Coq Require Import String.
From Coq Require Import List Arith ZArith NArith Bool.
From Verif Require Import Base GeometryModel.
Import ListNotations.

Section Segments.
Variable o : Ops.

(** segment.hpp 8-10, struct Segment *)
Record segment := mkSeg { s_p1 : vec o; s_p2 : vec o }.

(** segment.cpp 13-15: length; [pow (x, 2)] is [x * x] *)
Definition seg_length (s : segment) : res (T o) := distance o (s_p2 s) (s_p1 s).
(** segment.cpp 148-150: operator==; && and || stop early *)
Definition seg_eqb (s t : segment) : res bool :=
  a <- vec_eqb o (s_p1 s) (s_p1 t) ;;
  ab <- (if a : bool then vec_eqb o (s_p2 s) (s_p2 t) else Ok false) ;;
  if ab : bool then Ok true
  else c <- vec_eqb o (s_p1 s) (s_p2 t) ;;
       if c : bool then vec_eqb o (s_p2 s) (s_p1 t) else Ok false.
(** segment.cpp 152-154: operator!= *)
Definition seg_neqb (s t : segment) : res bool := b <- seg_eqb s t ;; Ok (negb b).
(** segment.hpp 25-32: std::hash<Segment>; [h] stands for std::hash<double> *)
Definition seg_hash (h : T o -> N) (s : segment) : N := N.lxor (vec_hash o h (s_p1 s)) (vec_hash o h (s_p2 s)).

(** circle.cpp 23-29: operator==, operator!= of Circle; the radii are compared exactly *)
Definition circle_eqb (a b : circle o) : res bool :=
  c <- vec_eqb o (center a) (center b) ;; Ok (c && eqb o (radius a) (radius b)).
Definition circle_neqb (a b : circle o) : res bool := x <- circle_eqb a b ;; Ok (negb x).

End Segments.

Arguments mkSeg {o} s_p1 s_p2.
Arguments s_p1 {o} s.
Arguments s_p2 {o} s.
