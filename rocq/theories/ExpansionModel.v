(** The exact arithmetic of the vendored mesh generator's orientation test (lib/nikfemm/src/triangle/triangle.cpp): sums and products with their
    rounding errors, the sum of two expansions and the adaptive stage.  Arrays are lists, and every read and write is checked; a C array of n
    elements is a list of length n. *)
From Coq Require Import String.
From Coq Require Import List Arith ZArith Bool.
From Verif Require Import Base GeometryModel PredicateModel.
Import ListNotations.

Section Expansion.
Variable o : Ops.
Notation T := (T o).
Notation vec := (vec o).
Local Notation "a +. b" := (add o a b) (at level 50, left associativity).
Local Notation "a -. b" := (sub o a b) (at level 50, left associativity).
Local Notation "a *. b" := (mul o a b) (at level 40, left associativity).

(** triangle.cpp 4780-4786 Fast_Two_Sum: the rounded sum and its error *)
Definition fast_two_sum (a b : T) : T * T := let x := a +. b in let bvirt := x -. a in (x, b -. bvirt).
(** triangle.cpp 4788-4797 Two_Sum *)
Definition two_sum (a b : T) : T * T :=
  let x := a +. b in let bvirt := x -. a in let avirt := x -. bvirt in let bround := b -. bvirt in let around := a -. avirt in (x, around +. bround).
(** triangle.cpp 4799-4804 Two_Diff_Tail *)
Definition two_diff_tail (a b x : T) : T :=
  let bvirt := a -. x in let avirt := x +. bvirt in let bround := bvirt -. b in let around := a -. avirt in around +. bround.
(** triangle.cpp 4806-4808 Two_Diff *)
Definition two_diff (a b : T) : T * T := let x := a -. b in (x, two_diff_tail a b x).
(** triangle.cpp 4810-4814 Split *)
Definition split (spl a : T) : T * T := let c := spl *. a in let abig := c -. a in let ahi := c -. abig in (ahi, a -. ahi).
(** triangle.cpp 4816-4826 Two_Product *)
Definition two_product (spl a b : T) : T * T :=
  let x := a *. b in
  let '(ahi, alo) := split spl a in
  let '(bhi, blo) := split spl b in
  let err1 := x -. ahi *. bhi in let err2 := err1 -. alo *. bhi in let err3 := err2 -. ahi *. blo in
  (x, alo *. blo -. err3).
(** triangle.cpp 4858-4860 Two_One_Diff: x2, x1, x0 *)
Definition two_one_diff (a1 a0 b : T) : T * T * T :=
  let '(i, x0) := two_diff a0 b in let '(x2, x1) := two_sum a1 i in (x2, x1, x0).
(** triangle.cpp 4866-4868 Two_Two_Diff: the four components, the smallest first as the callers store them *)
Definition two_two_diff (a1 a0 b1 b0 : T) : list T :=
  let '(j, z, x0) := two_one_diff a1 a0 b0 in
  let '(x3, x2, x1) := two_one_diff j z b1 in
  [x0; x1; x2; x3].

(** triangle.cpp 5126-5142 *)
Definition estimate (elen : nat) (e : list T) : res T :=
  q <- get e 0 ;; forM_range 1 elen (fun i q => x <- get e i ;; Ok (q +. x)) q.

(** *** triangle.cpp 4974-5050 fast_expansion_sum_zeroelim *)
(** 4996, 5005, 5017: (fnow > enow) == (fnow > -enow) *)
Definition take_e (enow fnow : T) : bool := Bool.eqb (gtb o fnow enow) (gtb o fnow (opp o enow)).
(** the local variables; [hs] is the part of h written so far, [length hs] is hindex *)
Record local := mkLocal { eindex : nat; findex : nat; enow : T; fnow : T; Q : T; hs : list T }.
(** h[hindex++] = x in an array of [cap] elements *)
Definition store (cap : nat) (h : list T) (x : T) : res (list T) :=
  if Nat.ltb (length h) cap then Ok (h ++ [x]) else UB "array index out of bounds (write)".
(** if (hh != 0.0) h[hindex++] = hh *)
Definition store_nz (cap : nat) (h : list T) (x : T) : res (list T) := if eqb o x (zero o) then Ok h else store cap h x.
(** the body shared by all the loops: add the next component of e (or f), read the one after it, store the error *)
Definition eat_e (sum : T -> T -> T * T) (cap : nat) (e : list T) (s : local) : res local :=
  let '(Qnew, hh) := sum (Q s) (enow s) in
  en <- get e (S (eindex s)) ;;
  h <- store_nz cap (hs s) hh ;;
  Ok (mkLocal (S (eindex s)) (findex s) en (fnow s) Qnew h).
Definition eat_f (sum : T -> T -> T * T) (cap : nat) (f : list T) (s : local) : res local :=
  let '(Qnew, hh) := sum (Q s) (fnow s) in
  fn <- get f (S (findex s)) ;;
  h <- store_nz cap (hs s) hh ;;
  Ok (mkLocal (eindex s) (S (findex s)) (enow s) fn Qnew h).
Definition eat (sum : T -> T -> T * T) (cap : nat) (e f : list T) (s : local) : res local :=
  if take_e (enow s) (fnow s) then eat_e sum cap e s else eat_f sum cap f s.
(** while (cond) body, at most [fuel] times *)
Fixpoint while (fuel : nat) (cond : local -> bool) (body : local -> res local) (s : local) : res local :=
  if cond s then match fuel with O => Throw "out of fuel" | S fuel' => s' <- body s ;; while fuel' cond body s' end else Ok s.
(** 4993-5049; [cap] is the size of the array h; the components of the result, h[0 .. hindex-1].
    In the first addition Fast_Two_Sum has the new component first (5006, 5009). *)
Definition fast_expansion_sum (elen : nat) (e : list T) (flen : nat) (f : list T) (cap : nat) : res (list T) :=
  e0 <- get e 0 ;;
  f0 <- get f 0 ;;
  s <- (if take_e e0 f0 then x <- get e 1 ;; Ok (mkLocal 1 0 x f0 e0 [])
        else x <- get f 1 ;; Ok (mkLocal 0 1 e0 x f0 [])) ;;
  let more_e s := Nat.ltb (eindex s) elen in
  let more_f s := Nat.ltb (findex s) flen in
  let both s := more_e s && more_f s in
  s <- (if both s then
          s <- eat (fun q x => fast_two_sum x q) cap e f s ;;
          while (elen + flen) both (eat two_sum cap e f) s
        else Ok s) ;;
  s <- while (elen + flen) more_e (eat_e two_sum cap e) s ;;
  s <- while (elen + flen) more_f (eat_f two_sum cap f) s ;;
  if negb (eqb o (Q s) (zero o)) || Nat.eqb (length (hs s)) 0 then store cap (hs s) (Q s) else Ok (hs s).

(** triangle.cpp 5165-5251 counterclockwiseadapt, with B[4], C1[8], C2[12], D[16], u[4] *)
Definition counterclockwise_adapt (K : bounds o) (pa pb pc : vec) (detsum : T) : res T :=
  let spl := splitter o K in
  let acx := vx pa -. vx pc in
  let bcx := vx pb -. vx pc in
  let acy := vy pa -. vy pc in
  let bcy := vy pb -. vy pc in
  let '(detleft, detlefttail) := two_product spl acx bcy in
  let '(detright, detrighttail) := two_product spl acy bcx in
  let B := two_two_diff detleft detlefttail detright detrighttail in
  det <- estimate 4 B ;;
  let errbound := ccwerrboundB o K *. detsum in
  if geb o det errbound || geb o (opp o det) errbound then Ok det else
  let acxtail := two_diff_tail (vx pa) (vx pc) acx in
  let bcxtail := two_diff_tail (vx pb) (vx pc) bcx in
  let acytail := two_diff_tail (vy pa) (vy pc) acy in
  let bcytail := two_diff_tail (vy pb) (vy pc) bcy in
  if eqb o acxtail (zero o) && eqb o acytail (zero o) && eqb o bcxtail (zero o) && eqb o bcytail (zero o) then Ok det else
  let absdet := if geb o det (zero o) then det else opp o det in
  let errbound := ccwerrboundC o K *. detsum +. resulterrbound o K *. absdet in
  let det := det +. ((acx *. bcytail +. bcy *. acxtail) -. (acy *. bcxtail +. bcx *. acytail)) in
  if geb o det errbound || geb o (opp o det) errbound then Ok det else
  let diff s t := two_two_diff (fst s) (snd s) (fst t) (snd t) in
  C1 <- fast_expansion_sum 4 B 4 (diff (two_product spl acxtail bcy) (two_product spl acytail bcx)) 8 ;;
  C2 <- fast_expansion_sum (length C1) C1 4 (diff (two_product spl acx bcytail) (two_product spl acy bcxtail)) 12 ;;
  D <- fast_expansion_sum (length C2) C2 4 (diff (two_product spl acxtail bcytail) (two_product spl acytail bcxtail)) 16 ;;
  get D (length D - 1).
(** triangle.cpp 5265-5301: the whole orientation test *)
Definition orientation (K : bounds o) (noexact : bool) (pa pb pc : vec) : res T :=
  match counterclockwise o K noexact pa pb pc with
  | Returned det => Ok det
  | Adaptive detsum => counterclockwise_adapt K pa pb pc detsum
  end.
End Expansion.
