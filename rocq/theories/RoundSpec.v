(** What the properties about rounding errors are stated with. *)
From Coq Require Import List Arith ZArith NArith Bool Lia Reals.
From Coq Require Import Floats.SpecFloat.
From Verif Require Import Base GeometryModel GeometrySpec FloatSpec.
Import ListNotations.
Local Open Scope R_scope.

(** the real number that a double stands for; NaN and the infinities stand for none and are given 0 *)
Definition value (x : f64) : R :=
  match x with
  | S754_finite s m e => (if s then -1 else 1) * IZR (Zpos m) * powerRZ 2 e
  | _ => 0
  end.
(** a finite double: a mantissa of at most 53 bits, an exponent in range *)
Definition double (x : f64) : Prop := finite x /\ valid_binary 53 1024 x = true.
(** the point that a pair of doubles stands for *)
Definition place (p : vec FOps) : vec ROps := @mkV ROps (value (vx p)) (value (vy p)).
Definition double_point (p : vec FOps) : Prop := double (vx p) /\ double (vy p).
(** half a unit in the last place of 1, and half of the smallest positive number *)
Definition u : R := powerRZ 2 (-53).
Definition tiny : R := powerRZ 2 (-1075).

(** p is clear of the edge a b: the edge is level, or p is not between the heights of its ends, or the directions to the ends are
    not within about 10^-15 of one line *)
Definition clear_of_edge (p a b : pt) : Prop :=
  py a = py b \/ py p < Rmin (py a) (py b) \/ Rmax (py a) (py b) < py p \/ 8 * u * (dist p a * dist p b) + 4 * tiny < Rabs (turn p a b).
(** the turn a b c is clearly above or clearly below the tolerance of the orientation test *)
Definition clear_turn (a b c : pt) : Prop :=
  let m := 8 * u * (dist a b * dist b c) + 4 * tiny in eps52 + m < Rabs (turn a b c) \/ Rabs (turn a b c) + m < eps52.
(** the sum of the products of the entries of two lists, and that of their absolute values *)
Fixpoint sum_of (f : f64 -> f64 -> R) (a b : list f64) : R :=
  match a, b with x :: a', y :: b' => f x y + sum_of f a' b' | _, _ => 0 end.
Definition exact (a b : list f64) : R := sum_of (fun x y => value x * value y) a b.
Definition exact_abs (a b : list f64) : R := sum_of (fun x y => Rabs (value x * value y)) a b.
(** both coordinates are integers of at most 25 bits times the same power of two *)
Definition on_dyadic (k : Z) (p : vec FOps) : Prop :=
  exists i j : Z, (Z.abs i < 2 ^ 25)%Z /\ (Z.abs j < 2 ^ 25)%Z /\ value (vx p) = IZR i * powerRZ 2 k /\ value (vy p) = IZR j * powerRZ 2 k.
