(** Model of lib/nikfemm/src/algebra/{coo.hpp,csr.cpp,csr.hpp,math.cpp,system.hpp,non_linear.hpp,non_linear.cpp}.
    No proofs in this file. *)
From Coq Require Import String.
From Coq Require Import List Arith ZArith NArith Bool.
From Verif Require Import Base.
Import ListNotations.

(** ** COO matrix (coo.hpp 15-49) *)

(** coo.hpp 42: key = (uint64_t)_m << 32 | (uint64_t)_n *)
Definition key (i j : nat) : N := N.lor (N.shiftl (N.of_nat i) 32) (N.of_nat j).
(** csr.cpp 74, system.hpp 28: uint32_t _m = key >> 32 *)
Definition krow (k : N) : nat := N.to_nat (N.shiftr k 32 mod two32).
(** csr.cpp 75, system.hpp 29: uint32_t _n = key & 0xFFFFFFFF *)
Definition kcol (k : N) : nat := N.to_nat (N.land k 4294967295).

(** coo.hpp 16-26: the unordered_map is the list of its elements in iteration order; m is the size.
    Simplification: keys are kept distinct by construction (an unordered_map invariant). *)
Record coo (V : Type) := mkCoo { elems : list (N * V); cm : nat }.
Arguments mkCoo {V} elems cm.
Arguments elems {V} c.
Arguments cm {V} c.

(** std::unordered_map::find *)
Fixpoint find_key {V} (l : list (N * V)) (k : N) : option V :=
  match l with
  | [] => None
  | (k', v) :: l' => if N.eqb k' k then Some v else find_key l' k
  end.
(** assignment through the reference returned by elems[key] of a present key *)
Fixpoint put_key {V} (l : list (N * V)) (k : N) (v : V) : list (N * V) :=
  match l with
  | [] => []
  | (k', w) :: l' => if N.eqb k' k then (k', v) :: l' else (k', w) :: put_key l' k v
  end.

(** coo.hpp 29-31 *)
Definition coo_new (V : Type) (m : nat) : coo V := mkCoo [] m.

(** coo.hpp 38-48: T& operator()(_m,_n): throws if _m > _n, inserts T() if absent.
    The reference result is modelled by the key under which later reads and writes go. *)
Definition coo_touch {V} (v0 : V) (A : coo V) (i j : nat) : res (coo V) :=
  if Nat.ltb j i then Throw "MatCOOSymmetric: m > n not allowed"
  else match find_key (elems A) (key i j) with
       | None => Ok (mkCoo ((key i j, v0) :: elems A) (cm A))
       | Some _ => Ok A
       end.
(** rvalue use of A(i,j) *)
Definition coo_read {V} (v0 : V) (A : coo V) (i j : nat) : res (coo V * V) :=
  A' <- coo_touch v0 A i j ;;
  match find_key (elems A') (key i j) with
  | Some v => Ok (A', v)
  | None => UB "missing key"
  end.
(** A(i,j) = f(A(i,j)), covering =, += and -= *)
Definition coo_modify {V} (v0 : V) (A : coo V) (i j : nat) (f : V -> V) : res (coo V) :=
  '(A', v) <- coo_read v0 A i j ;;
  Ok (mkCoo (put_key (elems A') (key i j) (f v)) (cm A')).

(** ** CSR matrix (csr.hpp 9-31) *)
Record csr (V : Type) := mkCsr {
  row_ptr : list nat; col_ind : list nat; val : list V; diag : list V; nnz : nat; m : nat }.
Arguments mkCsr {V}.
Arguments row_ptr {V} c.
Arguments col_ind {V} c.
Arguments val {V} c.
Arguments diag {V} c.
Arguments nnz {V} c.
Arguments m {V} c.

(** csr.cpp 61-63: std::sort by key.  Modelled by insertion sort; keys are distinct, so every sorting
    algorithm returns the same list (proved in Csr_proofs.v). *)
Fixpoint insert_key {V} (x : N * V) (l : list (N * V)) : list (N * V) :=
  match l with
  | [] => [x]
  | y :: l' => if N.ltb (fst x) (fst y) then x :: l else y :: insert_key x l'
  end.
Fixpoint sort_keys {V} (l : list (N * V)) : list (N * V) :=
  match l with
  | [] => []
  | x :: l' => insert_key x (sort_keys l')
  end.

(** loop state of csr.cpp 72-84: i, row_ptr, col_ind, val, diag *)
Record fill (V : Type) := mkFill {
  f_i : nat; f_rp : list nat; f_ci : list nat; f_val : list V; f_diag : list V }.
Arguments mkFill {V}.
Arguments f_i {V} f.
Arguments f_rp {V} f.
Arguments f_ci {V} f.
Arguments f_val {V} f.
Arguments f_diag {V} f.

(** csr.cpp 73-84, non_linear.cpp 36-50: one entry *)
Definition fill_step {V} (kv : N * V) (s : fill V) : res (fill V) :=
  let r := krow (fst kv) in
  let c := kcol (fst kv) in
  if Nat.eqb r c then
    d <- set (f_diag s) r (snd kv) ;;
    Ok (mkFill (f_i s) (f_rp s) (f_ci s) (f_val s) d)
  else
    ci <- set (f_ci s) (f_i s) c ;;
    v <- set (f_val s) (f_i s) (snd kv) ;;
    old <- get (f_rp s) (u32 (r + 1)) ;;
    rp <- set (f_rp s) (u32 (r + 1)) (old + 1) ;;
    Ok (mkFill (f_i s + 1) rp ci v (f_diag s)).

(** csr.cpp 86-88: row_ptr[i + 1] += row_ptr[i] *)
Definition prefix_step (i : nat) (rp : list nat) : res (list nat) :=
  a <- get rp i ;;
  b <- get rp (i + 1) ;;
  set rp (i + 1) (b + a).

(** csr.cpp 55-89 (payload double, v0 = 0.0) and non_linear.cpp 14-55 (payload pointer, v0 = nullptr).
    nnz = elems.size() - m is computed in 64 bits and truncated to uint32_t; m + 1 wraps in uint32_t.
    Simplifications: allocation always succeeds; the ++ of a row counter is not wrapped
    (it counts stored entries, of which there are fewer than 2^32 in every theorem). *)
Definition csr_build {V} (v0 : V) (A : coo V) : res (csr V) :=
  let es := sort_keys (elems A) in
  let nz := u32_sub (length es) (cm A) in
  s <- forM_list es fill_step
         (mkFill 0 (repeat 0 (u32 (cm A + 1))) (repeat 0 nz) (repeat v0 nz) (repeat v0 (cm A))) ;;
  rp <- forM_up (cm A) prefix_step (f_rp s) ;;
  Ok (mkCsr rp (f_ci s) (f_val s) (f_diag s) nz (cm A)).

(** csr.cpp 163-167: linear scan of row i for column j between positions k and k+n *)
Fixpoint row_scan {V} (A : csr V) (n k j : nat) : res (option V) :=
  match n with
  | O => Ok None
  | S n' =>
      c <- get (col_ind A) k ;;
      if Nat.eqb c j then (v <- get (val A) k ;; Ok (Some v)) else row_scan A n' (S k) j
  end.

(** csr.cpp 159-172: operator()(i,j); i > j recurses once with swapped arguments *)
Definition csr_at {V} (v0 : V) (A : csr V) (i j : nat) : res V :=
  let upper i j :=
    a <- get (row_ptr A) i ;;
    b <- get (row_ptr A) (i + 1) ;;
    o <- row_scan A (b - a) a j ;;
    Ok (match o with Some v => v | None => v0 end) in
  if Nat.eqb i j then get (diag A) i
  else if Nat.ltb i j then upper i j
  else upper j i.

Section Scalar.
Variable o : Ops.
Notation T := (T o).

(** v[i] += x and the like *)
Definition modify (l : list T) (i : nat) (f : T -> T) : res (list T) :=
  a <- get l i ;; set l i (f a).

(** ** Matrix-vector products (math.cpp 11-55); result and cv are distinct vectors *)

(** math.cpp 14-17 *)
Definition mult_sym_row (A : csr T) (cv : list T) (i : nat) (r : list T) : res (list T) :=
  d <- get (diag A) i ;;
  x <- get cv i ;;
  r <- set r i (mul o d x) ;;
  a <- get (row_ptr A) i ;;
  b <- get (row_ptr A) (i + 1) ;;
  forM_range a b (fun j r =>
    v <- get (val A) j ;;
    c <- get (col_ind A) j ;;
    xc <- get cv c ;;
    r <- modify r i (fun t => add o t (mul o v xc)) ;;
    xi <- get cv i ;;
    modify r c (fun t => add o t (mul o v xi))) r.
(** math.cpp 11-18 *)
Definition mult_sym (result : list T) (A : csr T) (cv : list T) : res (list T) :=
  forM_down (m A) (mult_sym_row A cv) result.

(** math.cpp 39-46 *)
Definition mult_lower_row (A : csr T) (cv : list T) (i : nat) (r : list T) : res (list T) :=
  d <- get (diag A) i ;;
  x <- get cv i ;;
  r <- set r i (mul o d x) ;;
  a <- get (row_ptr A) i ;;
  b <- get (row_ptr A) (i + 1) ;;
  forM_range a b (fun j r =>
    v <- get (val A) j ;;
    c <- get (col_ind A) j ;;
    xi <- get cv i ;;
    modify r c (fun t => add o t (mul o v xi))) r.
Definition mult_lower (result : list T) (A : csr T) (cv : list T) : res (list T) :=
  forM_down (m A) (mult_lower_row A cv) result.

(** math.cpp 48-55 *)
Definition mult_upper_row (A : csr T) (cv : list T) (i : nat) (r : list T) : res (list T) :=
  d <- get (diag A) i ;;
  x <- get cv i ;;
  r <- set r i (mul o d x) ;;
  a <- get (row_ptr A) i ;;
  b <- get (row_ptr A) (i + 1) ;;
  forM_range a b (fun j r =>
    v <- get (val A) j ;;
    c <- get (col_ind A) j ;;
    xc <- get cv c ;;
    modify r i (fun t => add o t (mul o v xc))) r.
Definition mult_upper (result : list T) (A : csr T) (cv : list T) : res (list T) :=
  forM_down (m A) (mult_upper_row A cv) result.

(** ** Vector kernels (math.cpp 57-219) on a store of named vectors, so that the same object may be
    result and operand.  The non-parallel branches are modelled (NIK_PARALLEL is defined nowhere). *)
Definition store := nat -> list T.
Definition sset (st : store) (n : nat) (l : list T) : store := fun k => if Nat.eqb k n then l else st k.

(** the common loop: for (i = 0; i < first.size(); i++) result[i] = f(first[i], second[i]);
    result.size() does not change, so the bound is constant *)
Definition kernel2 (f : T -> T -> res T) (st : store) (r a b : nat) : res store :=
  forM_up (length (st a)) (fun i st =>
    x <- get (st a) i ;;
    y <- get (st b) i ;;
    z <- f x y ;;
    l <- set (st r) i z ;;
    Ok (sset st r l)) st.
Definition kernel1 (f : T -> res T) (st : store) (r a : nat) : res store :=
  forM_up (length (st a)) (fun i st =>
    x <- get (st a) i ;;
    z <- f x ;;
    l <- set (st r) i z ;;
    Ok (sset st r l)) st.

(** math.cpp 57-68 *)
Definition v_scale (st : store) (r : nat) (d : T) (a : nat) := kernel1 (fun x => Ok (mul o d x)) st r a.
(** math.cpp 70-81 *)
Definition v_mult (st : store) (r a b : nat) := kernel2 (fun x y => Ok (mul o x y)) st r a b.
(** math.cpp 83-97 *)
Definition v_add (st : store) (r a b : nat) := kernel2 (fun x y => Ok (add o x y)) st r a b.
(** math.cpp 99-113 *)
Definition v_sub (st : store) (r a b : nat) := kernel2 (fun x y => Ok (sub o x y)) st r a b.
(** math.cpp 115-128 *)
Definition v_divs (st : store) (r a : nat) (d : T) := kernel1 (fun x => div o x d) st r a.
(** math.cpp 130-144 *)
Definition v_div (st : store) (r a b : nat) := kernel2 (fun x y => div o x y) st r a b.
(** math.cpp 146-159 *)
Definition v_subs (st : store) (r a : nat) (d : T) := kernel1 (fun x => Ok (sub o x d)) st r a.
(** math.cpp 161-175 *)
Definition v_adds (st : store) (r a : nat) (d : T) := kernel1 (fun x => Ok (add o x d)) st r a.
(** math.cpp 177-188; std::copy with result == first is a self-copy, which the loop models as well *)
Definition v_copy (st : store) (r a : nat) := kernel1 (fun x => Ok x) st r a.
(** math.cpp 205-219 *)
Definition v_addScaled (st : store) (r a : nat) (d : T) (b : nat) :=
  kernel2 (fun x y => Ok (add o x (mul o d y))) st r a b.

(** ** Value-level versions used by the solvers: [zip2 f a b] is the loop over a.size() with result the
    same size as a; UB when b is shorter (math.cpp 70-113, 205-219). *)
Fixpoint zip2 (f : T -> T -> T) (a b : list T) : res (list T) :=
  match a, b with
  | [], _ => Ok []
  | x :: a', y :: b' => r <- zip2 f a' b' ;; Ok (f x y :: r)
  | _ :: _, [] => UB "vector index out of bounds (read)"
  end.

(** math.cpp 190-203: std::inner_product(cv1.begin(), cv1.end(), cv2.begin(), 0.0) = ((0+a0*b0)+a1*b1)+... *)
Fixpoint inner_product (a b : list T) (acc : T) : res T :=
  match a, b with
  | [], _ => Ok acc
  | x :: a', y :: b' => inner_product a' b' (add o acc (mul o x y))
  | _ :: _, [] => UB "vector index out of bounds (read)"
  end.
Definition dot (a b : list T) : res T := inner_product a b (zero o).
(** math.cpp 221-232 *)
Definition squareSum (a : list T) : res T := inner_product a a (zero o).
(** math.cpp 234-236 *)
Definition norm (a : list T) : res T := s <- squareSum a ;; fsqrt o s.

(** ** Linear system and Dirichlet conditions (system.hpp 8-47), for a weight type V with the operations
    used by the template: V() (zero), v * double, v -= v, v = double. *)
Section Sys.
Variable V : Type.
Variable v0 : V.                       (* V() *)
Variable vscale : V -> T -> V.         (* elem.second * value *)
Variable vsub : V -> V -> V.           (* b[n] -= ... *)
Variable vconst : T -> V.              (* elem.second = 0, A(id,id) = 1, b[id] = value *)

Record system := mkSys { sA : coo V; sb : list V }.

Definition vmodify (l : list V) (i : nat) (f : V -> V) : res (list V) :=
  a <- get l i ;; set l i (f a).

(** system.hpp 27-42: one element of the loop; returns the new value of the element and of b *)
Definition dirichlet_elem (id : nat) (value : T) (kv : N * V) (b : list V) : res ((N * V) * list V) :=
  let r := krow (fst kv) in
  let c := kcol (fst kv) in
  let v := snd kv in
  if Nat.eqb r c then Ok (kv, b)
  else
    '(v, b) <- (if Nat.eqb r id
                then b' <- vmodify b c (fun t => vsub t (vscale v value)) ;; Ok (vconst (zero o), b')
                else Ok (v, b)) ;;
    '(v, b) <- (if Nat.eqb c id
                then b' <- vmodify b r (fun t => vsub t (vscale v value)) ;; Ok (vconst (zero o), b')
                else Ok (v, b)) ;;
    Ok ((fst kv, v), b).

(** the loop over A.elems in iteration order *)
Fixpoint dirichlet_loop (id : nat) (value : T) (l : list (N * V)) (b : list V) : res (list (N * V) * list V) :=
  match l with
  | [] => Ok ([], b)
  | kv :: l' =>
      '(kv', b') <- dirichlet_elem id value kv b ;;
      '(l'', b'') <- dirichlet_loop id value l' b' ;;
      Ok (kv' :: l'', b'')
  end.

(** system.hpp 18-46 *)
Definition addDirichlet (S : system) (id : nat) (value : T) : res system :=
  '(l, b) <- dirichlet_loop id value (elems (sA S)) (sb S) ;;
  A <- coo_modify v0 (mkCoo l (cm (sA S))) id id (fun _ => vconst (one o)) ;;
  b <- set b id (vconst value) ;;
  Ok (mkSys A b).
End Sys.

(** System<double> *)
Definition dsystem := system T.
Definition dDirichlet (S : dsystem) (id : nat) (value : T) : res dsystem :=
  addDirichlet T (zero o) (fun v d => mul o v d) (sub o) (fun d => d) S id value.

(** ** Non-linear expressions (non_linear.hpp 8-80) *)
Record nexpr := mkNexpr { constant : T; terms : list (T * nat) }.
(** default constructor: constant = 0, no terms *)
Definition ne_zero : nexpr := mkNexpr (zero o) [].
(** 24-28 *)
Definition ne_const (d : T) : nexpr := mkNexpr d [].
(** 36-39 *)
Definition ne_add_num (e : nexpr) (d : T) : nexpr := mkNexpr (add o (constant e) d) (terms e).
(** 41-44 *)
Definition ne_add_term (e : nexpr) (t : T * nat) : nexpr := mkNexpr (constant e) (terms e ++ [t]).
(** 46-52, for two different objects *)
Definition ne_add (e f : nexpr) : nexpr := mkNexpr (add o (constant e) (constant f)) (terms e ++ terms f).
(** 54-57 *)
Definition ne_sub_num (e : nexpr) (d : T) : nexpr := mkNexpr (sub o (constant e) d) (terms e).
(** 59-62 *)
Definition ne_sub_term (e : nexpr) (t : T * nat) : nexpr := mkNexpr (constant e) (terms e ++ [(opp o (fst t), snd t)]).
(** 64-70, for two different objects *)
Definition ne_sub (e f : nexpr) : nexpr :=
  mkNexpr (sub o (constant e) (constant f)) (terms e ++ map (fun t => (opp o (fst t), snd t)) (terms f)).
(** 72-79 *)
Definition ne_scale (e : nexpr) (d : T) : nexpr :=
  mkNexpr (mul o (constant e) d) (map (fun t => (mul o (fst t) d, snd t)) (terms e)).
(** non_linear.hpp 19-21 *)
Definition ne_isLinear (e : nexpr) : bool := match terms e with [] => true | _ => false end.

(** e += e and e -= e (lines 46-52 and 64-70 with this == &other): push_back into the vector a range-for
    loop is iterating over.  With no terms the loop body never runs; otherwise the first push_back
    invalidates the end iterator (and, on reallocation, the current one): undefined behaviour. *)
Definition ne_add_self (e : nexpr) : res nexpr :=
  match terms e with
  | [] => Ok (mkNexpr (add o (constant e) (constant e)) [])
  | _ => UB "push_back while iterating the same vector"
  end.
Definition ne_sub_self (e : nexpr) : res nexpr :=
  match terms e with
  | [] => Ok (mkNexpr (sub o (constant e) (constant e)) [])
  | _ => UB "push_back while iterating the same vector"
  end.

(** non_linear.cpp 6-12 *)
Fixpoint ne_eval_terms (ts : list (T * nat)) (mu : list T) (acc : T) : res T :=
  match ts with
  | [] => Ok acc
  | (c, i) :: ts' =>
      u <- get mu i ;;
      q <- div o c u ;;
      ne_eval_terms ts' mu (add o acc q)
  end.
Definition ne_eval (e : nexpr) (mu : list T) : res T := ne_eval_terms (terms e) mu (constant e).

(** System<NonLinearExpression> *)
Definition nsystem := system nexpr.
Definition nDirichlet (S : nsystem) (id : nat) (value : T) : res nsystem :=
  addDirichlet nexpr ne_zero ne_scale ne_sub ne_const S id value.

(** ** Symbolic CSR matrix (non_linear.hpp 82-91, non_linear.cpp 14-67).
    expr and diag_expr hold pointers into the COO map: a pointer is the key of its element, None is nullptr.
    The numeric vectors val and diag start at 0. *)
Record ncsr := mkNcsr { n_ptr : csr (option N); n_val : list T; n_diag : list T }.

(** the numeric matrix seen through the base class MatCSRSymmetric *)
Definition ncsr_csr (A : ncsr) : csr T :=
  mkCsr (row_ptr (n_ptr A)) (col_ind (n_ptr A)) (n_val A) (n_diag A) (nnz (n_ptr A)) (m (n_ptr A)).

(** non_linear.cpp 14-55 *)
Definition ncsr_build (A : coo nexpr) : res ncsr :=
  p <- csr_build None (mkCoo (map (fun kv => (fst kv, Some (fst kv))) (elems A)) (cm A)) ;;
  Ok (mkNcsr p (repeat (zero o) (nnz p)) (repeat (zero o) (m p))).

(** *ptr *)
Definition deref (A : coo nexpr) (p : option N) : res nexpr :=
  match p with
  | None => UB "null pointer dereference"
  | Some k => match find_key (elems A) k with Some e => Ok e | None => UB "dangling pointer" end
  end.

(** non_linear.cpp 57-67; A is the COO matrix the pointers refer to *)
Definition ncsr_evaluate (A : coo nexpr) (M : ncsr) (mu : list T) : res ncsr :=
  dg <- forM_up (m (n_ptr M)) (fun i d =>
          _ <- get d i ;;
          p <- get (diag (n_ptr M)) i ;;
          e <- deref A p ;;
          x <- ne_eval e mu ;;
          set d i x) (n_diag M) ;;
  vl <- forM_up (nnz (n_ptr M)) (fun i v =>
          p <- get (val (n_ptr M)) i ;;
          e <- deref A p ;;
          x <- ne_eval e mu ;;
          set v i x) (n_val M) ;;
  Ok (mkNcsr (n_ptr M) vl dg).
End Scalar.
