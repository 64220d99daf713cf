(** What the options of the mesher mean, independent of strings. *)
From Coq Require Import List Arith ZArith Bool Reals Psatz.
From Coq Require Import SpecFloat.
From Verif Require Import SwitchModel.
Import ListNotations.
Local Open Scope R_scope.

(** the number a double or a decimal stands for *)
Definition value (d : dec) : R := IZR (d_val d) / 10 ^ d_places d.
Definition area_of (m : positive) (e : Z) : R := IZR (Z.pos m) * powerRZ 2 e.
(** z has k decimal digits *)
Definition has_digits (z : Z) (k : nat) : Prop :=
  (1 <= k)%nat /\ (0 <= z < 10 ^ Z.of_nat k)%Z /\ (k = 1%nat \/ (10 ^ Z.of_nat (pred k) <= z)%Z).
(** the nearest multiple of 10^-17, in units of 10^-17; halfway the even one *)
Definition rounds_to (x : R) (n : Z) : Prop :=
  Rabs (IZR n - x * 10 ^ 17) <= / 2 /\ (Rabs (IZR n - x * 10 ^ 17) = / 2 -> Z.even n = true).

(** the options a mesh for the library is made with: a planar straight-line graph (p) with numbering from zero (z), quality
    (q, a), an attribute per triangle (A), silence (Q); linear elements, exact arithmetic, any number of added vertices *)
Definition expected (f : opt) : Z :=
  match f with
  | poly | quality | fixedarea | regionattrib | quiet | usesegments => 1
  | dwyer | order => 1
  | steiner => -1
  | _ => 0
  end.
(** without a limit on the area *)
Definition unlimited (f : opt) : Z := match f with fixedarea => 0 | vararea => 1 | f => expected f end.
