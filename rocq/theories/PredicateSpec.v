(** What the properties of the mesh generator's predicates are stated with. *)
From Coq Require Import List Arith ZArith Bool Reals.
From Coq Require Import Floats.SpecFloat.
From Verif Require Import Base GeometryModel FloatSpec GeometrySpec RoundSpec.
Import ListNotations.
Local Open Scope R_scope.

(** two real numbers have the same sign *)
Definition same_sign (a b : R) : Prop := (0 < a <-> 0 < b) /\ (a < 0 <-> b < 0).
(** the number is a whole multiple of 2^-k *)
Definition multiple (k : Z) (x : f64) : Prop := exists n : Z, value x = IZR n * powerRZ 2 (- k).
(** a point of finite doubles below 2^top in absolute value that are multiples of 2^-low; every double that is 0 or at least 2^(53-low) is one *)
Definition in_range (top low : Z) (p : vec FOps) : Prop :=
  double_point p /\ point_below top p /\ multiple low (vx p) /\ multiple low (vy p).
(** the power of the point d with respect to the circle through a b c, times twice the signed area: positive for counterclockwise a b c
    exactly if d is inside *)
Definition power2 (a b c d : pt) : R :=
  let s p := (px p - px d) * (px p - px d) + (py p - py d) * (py p - py d) in
  let x p := px p - px d in let y p := py p - py d in
  s a * (x b * y c - x c * y b) + s b * (x c * y a - x a * y c) + s c * (x a * y b - x b * y a).
