(** The product of an expansion and a number in the vendored mesh generator (lib/nikfemm/src/triangle/triangle.cpp), used by its incircle test.
    Arrays as in ExpansionModel.v. *)
From Coq Require Import String.
From Coq Require Import List Arith ZArith Bool.
From Verif Require Import Base GeometryModel PredicateModel ExpansionModel.
Import ListNotations.

Section Scale.
Variable o : Ops.
Notation T := (T o).
Local Notation "a -. b" := (sub o a b) (at level 50, left associativity).
Local Notation "a *. b" := (mul o a b) (at level 40, left associativity).

(** triangle.cpp 4831-4837 Two_Product_Presplit: the second factor is split already *)
Definition two_product_presplit (spl a b bhi blo : T) : T * T :=
  let x := a *. b in
  let '(ahi, alo) := split o spl a in
  let err1 := x -. ahi *. bhi in let err2 := err1 -. alo *. bhi in let err3 := err2 -. ahi *. blo in
  (x, alo *. blo -. err3).
(** 5095-5107: one round of the loop; the state is Q and the part of h written so far *)
Definition scale_step (spl b bhi blo : T) (cap : nat) (enow : T) (s : T * list T) : res (T * list T) :=
  let '(q, h) := s in
  let '(product1, product0) := two_product_presplit spl enow b bhi blo in
  let '(sum, hh) := two_sum o q product0 in
  h <- store_nz o cap h hh ;;
  let '(q, hh) := fast_two_sum o product1 sum in
  h <- store_nz o cap h hh ;;
  Ok (q, h).
(** 5069-5114 scale_expansion_zeroelim; [cap] is the size of the array h; the components of the result *)
Definition scale_expansion (spl : T) (elen : nat) (e : list T) (b : T) (cap : nat) : res (list T) :=
  let '(bhi, blo) := split o spl b in
  e0 <- get e 0 ;;
  let '(q, hh) := two_product_presplit spl e0 b bhi blo in
  h <- store_nz o cap [] hh ;;
  '(q, h) <- forM_range 1 elen (fun i s => enow <- get e i ;; scale_step spl b bhi blo cap enow s) (q, h) ;;
  if negb (eqb o q (zero o)) || Nat.eqb (length h) 0 then store o cap h q else Ok h.
End Scale.
