(** Model of lib/nikfemm/src/algebra/solvers.cpp.  No proofs in this file.
    Logging (nloginfo, nlogwarn) is left out everywhere; the arguments of the log calls have no side effects.
    A solver returns the new contents of x and, as a ghost result, the iteration at which it stopped early
    (None when it ran into maxIterations). *)
From Coq Require Import String.
From Coq Require Import List Arith ZArith NArith Bool.
From Verif Require Import Base AlgebraModel.
Import ListNotations.

Section S.
Variable o : Ops.
Notation T := (T o).

(** solvers.cpp 5-32.  Line 26: int64_t i = A.m - 1 is computed in uint32_t before the conversion, so an empty
    matrix starts at 4294967295; the loop then runs down to 0. *)
Definition ssor (A : csr T) (result cv : list T) (omega : T) : res (list T) :=
  let temp := mul o omega (sub o (ofZ o 2) omega) in
  (* 7-9 *)
  r <- forM_up (m A) (fun i r => c <- get cv i ;; set r i (mul o c temp)) result ;;
  (* 12-19 *)
  r <- forM_up (m A) (fun i r =>
         d <- get (diag A) i ;;
         t <- get r i ;;
         q <- div o t d ;;
         r <- set r i q ;;
         a <- get (row_ptr A) i ;;
         b <- get (row_ptr A) (i + 1) ;;
         forM_range a b (fun k r =>
           v <- get (val A) k ;;
           c <- get (col_ind A) k ;;
           ri <- get r i ;;
           modify o r c (fun t => sub o t (mul o (mul o v ri) omega))) r) r ;;
  (* 21-23 *)
  r <- forM_up (m A) (fun i r => d <- get (diag A) i ;; modify o r i (fun t => mul o t d)) r ;;
  (* 26-31 *)
  forM_down (u32_sub (m A) 1 + 1) (fun i r =>
    a <- get (row_ptr A) i ;;
    b <- get (row_ptr A) (i + 1) ;;
    r <- forM_range a b (fun k r =>
           v <- get (val A) k ;;
           c <- get (col_ind A) k ;;
           rc <- get r c ;;
           modify o r i (fun t => sub o t (mul o (mul o v rc) omega))) r ;;
    d <- get (diag A) i ;;
    t <- get r i ;;
    q <- div o t d ;;
    set r i q) r.

(** assignment to val[k] and diag[i] of the factor *)
Definition with_val (R : csr T) (v : list T) : csr T := mkCsr (row_ptr R) (col_ind R) v (diag R) (nnz R) (m R).
Definition with_diag (R : csr T) (d : list T) : csr T := mkCsr (row_ptr R) (col_ind R) (val R) d (nnz R) (m R).

(** solvers.cpp 46-51: elimination of column j by row i *)
Definition ic_col (i j : nat) (R : csr T) : res (csr T) :=
  dj <- get (diag R) j ;;
  a1 <- csr_at (zero o) R i j ;;
  a2 <- csr_at (zero o) R i j ;;
  d <- set (diag R) j (sub o dj (mul o a1 a2)) ;;
  let R := with_diag R d in
  a <- get (row_ptr R) j ;;
  b <- get (row_ptr R) (j + 1) ;;
  forM_range a b (fun k R =>
    c <- get (col_ind R) k ;;
    if Nat.leb j c then
      v <- get (val R) k ;;
      x <- csr_at (zero o) R i c ;;
      y <- csr_at (zero o) R i j ;;
      vl <- set (val R) k (sub o v (mul o x y)) ;;
      Ok (with_val R vl)
    else Ok R) R.
(** solvers.cpp 40-53: one step of the factorisation *)
Definition ic_row (i : nat) (R : csr T) : res (csr T) :=
  d <- get (diag R) i ;;
  s <- fsqrt o d ;;
  dg <- set (diag R) i s ;;
  let R := with_diag R dg in
  a <- get (row_ptr R) i ;;
  b <- get (row_ptr R) (i + 1) ;;
  R <- forM_range a b (fun k R =>
         v <- get (val R) k ;;
         d <- get (diag R) i ;;
         q <- div o v d ;;
         vl <- set (val R) k q ;;
         Ok (with_val R vl)) R ;;
  forM_range (i + 1) (m R) (ic_col i) R.
Definition ic_factor (A : csr T) : res (csr T) := forM_up (m A) ic_row A.

(** solvers.cpp 62-74: entry (i,j) of the inverse.  [sum != 0] is the negation of == (true for NaN). *)
Definition ic_inv_entry (i j : nat) (R : csr T) : res (csr T) :=
  a <- get (row_ptr R) i ;;
  b <- get (row_ptr R) (i + 1) ;;
  sum <- forM_range a b (fun k acc =>
           c <- get (col_ind R) k ;;
           if Nat.leb c j then
             v <- get (val R) k ;;
             x <- csr_at (zero o) R c j ;;
             Ok (add o acc (mul o v x))
           else Ok acc) (zero o) ;;
  if eqb o sum (zero o) then Ok R
  else
    forM_range a b (fun k R =>
      c <- get (col_ind R) k ;;
      if Nat.eqb c j then
        d <- get (diag R) i ;;
        vl <- set (val R) k (mul o (opp o sum) d) ;;
        Ok (with_val R vl)
      else Ok R) R.
(** solvers.cpp 59-76: row i of the inverse; j runs from m-1 down to i+1 (m >= 1 here) *)
Definition ic_inv_row (i : nat) (R : csr T) : res (csr T) :=
  d <- get (diag R) i ;;
  q <- div o (one o) d ;;
  dg <- set (diag R) i q ;;
  let R := with_diag R dg in
  forM_down (m R - (i + 1)) (fun t R => ic_inv_entry i (i + 1 + t) R) R.
(** solvers.cpp 34-82 *)
Definition ic_decomposition (A : csr T) : res (csr T) :=
  R <- ic_factor A ;;
  forM_down (m R) ic_inv_row R.

(** addScaled(result, first, d, second) when result has the size of first: math.cpp 205-219 *)
Definition axpy (a : list T) (d : T) (b : list T) : res (list T) := zip2 o (fun x y => add o x (mul o d y)) a b.
(** mult(result, cv1, cv2) elementwise: math.cpp 70-81 *)
Definition hadamard (a b : list T) : res (list T) := zip2 o (mul o) a b.
(** std::vector<double> v(n) *)
Definition zeros (n : nat) : list T := repeat (zero o) n.

(** r = b - A x: solvers.cpp 85-89, 120-122, 161-163, 207-209 *)
Definition initial_residual (A : csr T) (b x : list T) : res (list T) :=
  r <- mult_sym o (zeros (length b)) A x ;;
  zip2 o (sub o) b r.

(** solvers.cpp 93-116: [n] iterations remain, [i] is the loop counter *)
Fixpoint cg_loop (A : csr T) (maxError : T) (n i : nat) (x r p : list T) (rTr : T) (Ap : list T)
  : res (list T * option nat) :=
  match n with
  | O => Ok (x, None)
  | S n' =>
      Ap <- mult_sym o Ap A p ;;
      pAp <- dot o p Ap ;;
      let pAp := if ltb o (fabs o pAp) (dbl_eps o) then dbl_eps o else pAp in
      alpha <- div o rTr pAp ;;
      x <- axpy x alpha p ;;
      r <- axpy r (opp o alpha) Ap ;;
      rTrNew <- squareSum o r ;;
      if ltb o rTrNew (mul o maxError maxError) then Ok (x, Some i)
      else
        beta <- div o rTrNew rTr ;;
        p <- axpy r beta p ;;
        cg_loop A maxError n' (S i) x r p rTrNew Ap
  end.
(** solvers.cpp 84-117.  copy(p, r): p has the size of r. *)
Definition cg (A : csr T) (b x : list T) (maxError : T) (maxIterations : nat) : res (list T * option nat) :=
  r <- initial_residual A b x ;;
  rTr <- squareSum o r ;;
  cg_loop A maxError maxIterations 0 x r r rTr (zeros (length b)).

(** solvers.cpp 181-184 and the like *)
Definition clamp_alpha (alpha : T) : T := if ltb o (fabs o alpha) (dbl_eps o) then dbl_eps o else alpha.

(** solvers.cpp 134-157 *)
Fixpoint jacobi_loop (A : csr T) (P : list T) (maxError : T) (n i : nat) (x r z p Ap : list T)
  : res (list T * option nat) :=
  match n with
  | O => Ok (x, None)
  | S n' =>
      Ap <- mult_sym o Ap A p ;;
      rz <- dot o r z ;;
      pAp <- dot o p Ap ;;
      alpha <- div o rz pAp ;;
      let alpha := clamp_alpha alpha in
      rTzold <- dot o r z ;;
      x <- axpy x alpha p ;;
      r <- axpy r (opp o alpha) Ap ;;
      squareError <- squareSum o r ;;
      if ltb o squareError (mul o maxError maxError) then Ok (x, Some i)
      else
        z <- hadamard P r ;;
        rz <- dot o r z ;;
        beta <- div o rz rTzold ;;
        p <- axpy z beta p ;;
        jacobi_loop A P maxError n' (S i) x r z p Ap
  end.
(** solvers.cpp 119-158 *)
Definition jacobi_pcg (A : csr T) (b x : list T) (maxError : T) (maxIterations : nat) : res (list T * option nat) :=
  r <- initial_residual A b x ;;
  P <- forM_up (m A) (fun i P => d <- get (diag A) i ;; q <- div o (one o) d ;; set P i q) (zeros (length b)) ;;
  z <- hadamard P r ;;
  jacobi_loop A P maxError maxIterations 0 x r z z (zeros (length b)).

(** solvers.cpp 178-202 *)
Fixpoint ssor_loop (A : csr T) (omega maxError : T) (n i : nat) (x r z p Ap : list T) (rTz : T)
  : res (list T * option nat) :=
  match n with
  | O => Ok (x, None)
  | S n' =>
      Ap <- mult_sym o Ap A p ;;
      pAp <- dot o p Ap ;;
      alpha <- div o rTz pAp ;;
      let alpha := clamp_alpha alpha in
      x <- axpy x alpha p ;;
      r <- axpy r (opp o alpha) Ap ;;
      squareError <- squareSum o r ;;
      if ltb o squareError (mul o maxError maxError) then Ok (x, Some i)
      else
        z <- ssor A z r omega ;;
        let rTzold := rTz in
        rTz <- dot o r z ;;
        beta <- div o rTz rTzold ;;
        p <- axpy z beta p ;;
        ssor_loop A omega maxError n' (S i) x r z p Ap rTz
  end.
(** solvers.cpp 160-204; stopping before the loop is reported as iteration 0 *)
Definition ssor_pcg (A : csr T) (b x : list T) (omega maxError : T) (maxIterations : nat) : res (list T * option nat) :=
  r <- initial_residual A b x ;;
  z <- ssor A (zeros (length b)) r omega ;;
  squareError <- squareSum o r ;;
  rTz <- dot o r z ;;
  if ltb o squareError (mul o maxError maxError) then Ok (x, Some 0)
  else ssor_loop A omega maxError maxIterations 0 x r z z (zeros (length b)) rTz.

(** solvers.cpp 215-216: z = L (L^T r) *)
Definition ic_apply (L : csr T) (tmp z r : list T) : res (list T * list T) :=
  tmp <- mult_lower o tmp L r ;;
  z <- mult_upper o z L tmp ;;
  Ok (tmp, z).
(** solvers.cpp 228-252 *)
Fixpoint ic_loop (A L : csr T) (maxError : T) (n i : nat) (x r z tmp p Ap : list T)
  : res (list T * option nat) :=
  match n with
  | O => Ok (x, None)
  | S n' =>
      Ap <- mult_sym o Ap A p ;;
      rz <- dot o r z ;;
      pAp <- dot o p Ap ;;
      alpha <- div o rz pAp ;;
      let alpha := clamp_alpha alpha in
      rTzold <- dot o r z ;;
      x <- axpy x alpha p ;;
      r <- axpy r (opp o alpha) Ap ;;
      squareError <- squareSum o r ;;
      if ltb o squareError (mul o maxError maxError) then Ok (x, Some i)
      else
        '(tmp, z) <- ic_apply L tmp z r ;;
        rz <- dot o r z ;;
        beta <- div o rz rTzold ;;
        p <- axpy z beta p ;;
        ic_loop A L maxError n' (S i) x r z tmp p Ap
  end.
(** solvers.cpp 206-253; stopping before the loop is reported as iteration 0 *)
Definition ic_pcg (A : csr T) (b x : list T) (maxError : T) (maxIterations : nat) : res (list T * option nat) :=
  r <- initial_residual A b x ;;
  L <- ic_decomposition A ;;
  '(tmp, z) <- ic_apply L (zeros (length b)) (zeros (length b)) r ;;
  squareError <- squareSum o r ;;
  if ltb o squareError (mul o maxError maxError) then Ok (x, Some 0)
  else ic_loop A L maxError maxIterations 0 x r z tmp z (zeros (length b)).
End S.
