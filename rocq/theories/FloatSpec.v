(** What the properties about binary64 are stated with. *)
From Coq Require Import List Arith ZArith NArith Bool Lia.
From Coq Require Import Floats.SpecFloat.
From Verif Require Import Base GeometryModel SegmentModel.
Import ListNotations.

(** a finite double *)
Definition finite (x : f64) : Prop := match x with S754_zero _ | S754_finite _ _ _ => True | _ => False end.
(** not below zero: NaN, +0, a positive number or +infinity *)
Definition not_below_zero (x : f64) : Prop :=
  match x with S754_nan => True | S754_zero s | S754_infinity s | S754_finite s _ _ => s = false end.
(** finite and below 2^n in absolute value *)
Definition below (n : Z) (x : f64) : Prop :=
  match x with
  | S754_zero _ => True
  | S754_finite _ m e => (e <= n /\ Zpos m < 2 ^ (n - e))%Z
  | _ => False
  end.
Definition point_below (n : Z) (p : vec FOps) : Prop := below n (vx p) /\ below n (vy p).
Definition other_way (a : orientation) : orientation :=
  match a with COLLINEAR => COLLINEAR | CLOCKWISE => COUNTERCLOCKWISE | COUNTERCLOCKWISE => CLOCKWISE end.
Definition turned {o} (s : segment o) : segment o := mkSeg (s_p2 s) (s_p1 s).
