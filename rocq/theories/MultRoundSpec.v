(** What the property about the rounding of the sparse product is stated with. *)
From Coq Require Import List Arith ZArith NArith Bool Reals.
From Coq Require Import Floats.SpecFloat.
From Verif Require Import Base AlgebraModel AlgebraSpec SumR FloatSpec RoundSpec.
Import ListNotations.
Local Open Scope R_scope.

Definition fzero : f64 := S754_zero false.
(** the entry (i, j) of the symmetric matrix and the entry j of the vector, as real numbers *)
Definition entry (A : coo f64) (i j : nat) : R := RoundSpec.value (AlgebraSpec.value fzero A i j).
Definition coord (x : list f64) (j : nat) : R := RoundSpec.value (nth j x fzero).
(** the exact value of row i of the product, and the sum of the absolute values of its terms *)
Definition row_exact (A : coo f64) (x : list f64) (i : nat) : R := sumn (cm A) (fun j => entry A i j * coord x j).
Definition row_abs (A : coo f64) (x : list f64) (i : nat) : R := sumn (cm A) (fun j => Rabs (entry A i j * coord x j)).
(** the number of stored positions of row i *)
Definition is_stored {V} (A : coo V) (i j : nat) : bool := match find_key (elems A) (key (Nat.min i j) (Nat.max i j)) with Some _ => true | None => false end.
Definition row_count {V} (A : coo V) (i : nat) : nat := length (filter (is_stored A i) (seq 0 (cm A))).
(** every stored value is a finite double *)
Definition double_matrix (A : coo f64) : Prop := Forall (fun kv => double (snd kv)) (elems A).
