(** Vocabulary for the exact Cholesky factor and its inverse.  Independent of the routine in SolversModel.v. *)
From Coq Require Import List Arith Bool Reals.
From Verif Require Import AlgebraModel AlgebraSpec SumR SolversSpec.
Local Open Scope R_scope.

(** eliminating an unknown creates no position that is not already stored *)
Definition closed_pattern {V} (A : coo V) : Prop :=
  forall i j k, (i < j < k)%nat -> (k < cm A)%nat -> touched A i j -> touched A i k -> touched A j k.
(** every position of the upper triangle is stored *)
Definition all_stored {V} (A : coo V) : Prop := forall i j, (i <= j)%nat -> (j < cm A)%nat -> touched A i j.
(** only the diagonal and the position right of it are stored *)
Definition tridiagonal {V} (A : coo V) : Prop := forall i j, (i < j < cm A)%nat -> touched A i j -> j = S i.

(** upper triangular with positive diagonal and U^T U = A *)
Definition upper (n : nat) (U : nat -> nat -> R) : Prop := forall i j, (i < n)%nat -> (j < i)%nat -> U i j = 0.
Definition cholesky (A : coo R) (U : nat -> nat -> R) : Prop :=
  upper (cm A) U /\ (forall i, (i < cm A)%nat -> 0 < U i i) /\
  forall i j, (i < cm A)%nat -> (j < cm A)%nat -> sumn (cm A) (fun k => U k i * U k j) = value 0 A i j.
Definition delta (i j : nat) : R := if Nat.eqb i j then 1 else 0.
Definition inverses (n : nat) (U V : nat -> nat -> R) : Prop := forall i j, (i < n)%nat -> (j < n)%nat ->
  sumn n (fun k => U i k * V k j) = delta i j /\ sumn n (fun k => V i k * U k j) = delta i j.
(** no position above the diagonal is empty in the inverse of the factor but not in the factor *)
Definition no_new_zero (n : nat) (U V : nat -> nat -> R) : Prop := forall i j, (i < j < n)%nat -> V i j = 0 -> U i j = 0.
