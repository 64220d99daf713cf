(** Model of the force and torque integrals, lib/nikfemm/src/magnetostatic/simulation.cpp 170-661.
    The iteration order of the hash map that holds the matrix is a parameter ([shuffle]).  Constants written in decimal are
    quotients of integers; numeric_limits<double>::min() and 4*PI*1e-7 are parameters. *)
From Coq Require Import String.
From Coq Require Import List Arith ZArith NArith Bool.
From Verif Require Import Base AlgebraModel SolversModel GeometryModel DrawingModel MeshModel.
Import ListNotations.

Section ForceM.
Variable o : Ops.
Variable A : Type.
Notation T := (T o).
Notation vec := (vec o).
Notation poly := (list vec).
Notation mesh := (mesh o A).
Notation "x '+.' y" := (add o x y) (at level 50, left associativity).
Notation "x '-.' y" := (sub o x y) (at level 50, left associativity).
Notation "x '*.' y" := (mul o x y) (at level 40, left associativity).
(** what a reference to a missing property of getPolygonProp stands for; not used by the integrals *)
Variable pdef : A.
Variable dbl_min : T.
Variable mu0 : T.

(** ** the regions: 171-222 *)

(** 177-182: the polygons around the integration region *)
Fixpoint enclosing (g : poly) (l : list poly) : res (list poly) :=
  match l with
  | [] => Ok []
  | h :: l' =>
      b <- (if poly_contains_poly o h g then poly_neqb o h g else Ok false) ;;
      r <- enclosing g l' ;;
      Ok (if b : bool then h :: r else r)
  end.
(** 188-204: one pass of the range-based loop.  The first polygon that contains no other one is erased; the loop then goes
    on with iterators that the erasure has invalidated. *)
Fixpoint removal_pass (all l : list poly) : res unit :=
  match l with
  | [] => Ok tt
  | h :: l' => b <- is_magnet o h all ;; if b : bool then UB "iterator used after erase" else removal_pass all l'
  end.
(** 186-209: [n] passes are left before the error *)
Fixpoint removal (n : nat) (all : list poly) : res (list poly) :=
  if Nat.leb (length all) 1 then Ok all
  else
    match n with
    | O => Throw "error: could not find outermost polygon"
    | S n' => _ <- removal_pass all all ;; removal n' all
    end.
(** 215-219: the holes of the boundary region *)
Fixpoint holes_of (g outer : poly) (l : list poly) : res (list poly) :=
  match l with
  | [] => Ok []
  | h :: l' =>
      b <- (if poly_contains_poly o outer h && negb (poly_contains_poly o g h) then
              x <- poly_neqb o h outer ;; if x : bool then poly_neqb o h g else Ok false
            else Ok false) ;;
      r <- holes_of g outer l' ;;
      Ok (if b : bool then h :: r else r)
  end.
(** 171-221: integration region, boundary region, holes *)
Definition find_regions (m : mesh) (p : vec) : res (poly * poly * list poly) :=
  let polys := polygons (m_drawing m) in
  g <- getInnermostPolygon o A m p ;;
  l <- enclosing g polys ;;
  l <- removal 101 l ;;
  (* 212: *begin() *)
  outer <- get l 0 ;;
  hs <- holes_of g outer polys ;;
  _ <- getPolygonProp o A pdef (m_drawing m) g ;;
  Ok (g, outer, hs).

(** ** tables: 226-252 *)

(** 226-235: adjelems_ids *)
Fixpoint ids_loop (l : list tri) (i : nat) (tb : table nat) : res (table nat) :=
  match l with
  | [] => Ok tb
  | t :: l' => tb <- forM_list (corners t) (fun v tb => push 18 tb v i) tb ;; ids_loop l' (S i) tb
  end.
Definition adj_ids (m : mesh) : res (table nat) := ids_loop (m_tris m) 0 (repeat [] (length (m_points m))).

(** 238-252: edge_to_triangles; the value of an edge is the filled part of its array of two *)
Definition edge_map : Type := list ((nat * nat) * list nat).
Definition edge (a b : nat) : nat * nat := if Nat.ltb a b then (a, b) else (b, a).
Definition edge_eqb (e f : nat * nat) : bool := Nat.eqb (fst e) (fst f) && Nat.eqb (snd e) (snd f).
Fixpoint edge_look (m : edge_map) (e : nat * nat) : list nat :=
  match m with
  | [] => []
  | (f, l) :: m' => if edge_eqb e f then l else edge_look m' e
  end.
Fixpoint edge_put (m : edge_map) (e : nat * nat) (l : list nat) : edge_map :=
  match m with
  | [] => [(e, l)]
  | (f, k) :: m' => if edge_eqb e f then (f, l) :: m' else (f, k) :: edge_put m' e l
  end.
Definition edge_push (m : edge_map) (e : nat * nat) (i : nat) : res edge_map :=
  let l := edge_look m e in
  if Nat.leb 2 (length l) then UB "elems[2] out of bounds" else Ok (edge_put m e (l ++ [i])).
Definition sides (t : tri) : list (nat * nat) := [(t0 t, t1 t); (t1 t, t2 t); (t2 t, t0 t)].
Fixpoint edge_loop (l : list tri) (i : nat) (m : edge_map) : res edge_map :=
  match l with
  | [] => Ok m
  | t :: l' => m <- forM_list (sides t) (fun s m => edge_push m (edge (fst s) (snd s)) i) m ;; edge_loop l' (S i) m
  end.
(** 242: the bucket count (numberofpoints - 2) * 3 is negative, i.e. enormous, for less than two points *)
Definition edge_triangles (m : mesh) : res edge_map :=
  if Nat.ltb (length (m_points m)) 2 then Throw "length_error" else edge_loop (m_tris m) 0 [].

(** 270-282: what one side contributes; elems[1] of an edge with one triangle is not initialised *)
Definition side_error (m : mesh) (em : edge_map) (B : list vec) (i : nat) (Bi : vec) (s : nat * nat) (err : T) : res T :=
  v1 <- get (m_points m) (fst s) ;;
  v2 <- get (m_points m) (snd s) ;;
  len <- distance o v1 v2 ;;
  n <- normalize o (normal o (vminus o v2 v1)) ;;
  let l := edge_look em (edge (fst s) (snd s)) in
  a1 <- get l 0 ;;
  a2 <- get l 1 ;;
  Bp <- get B (if Nat.eqb a1 i then a2 else a1) ;;
  Ok (err +. vcross o n (vminus o Bp Bi) *. len).
(** 259-285: the field error of one triangle *)
Definition elem_error (m : mesh) (em : edge_map) (B : list vec) (i : nat) (t : tri) : res T :=
  third <- div o (one o) (ofZ o 3) ;;
  Bi <- get B i ;;
  nB <- GeometryModel.norm o Bi ;;
  '(p1, p2, p3) <- tri_points o (m_points m) t ;;
  let t := if ltb o (doubleOrientedArea o p1 p2 p3) (zero o) then (t1 t, t0 t, t2 t) else t in
  forM_list (sides t) (side_error m em B i Bi) (third *. nB).
Fixpoint errors_loop (m : mesh) (em : edge_map) (B : list vec) (l : list tri) (i : nat) : res (list T) :=
  match l with
  | [] => Ok []
  | t :: l' => e <- elem_error m em B i t ;; r <- errors_loop m em B l' (S i) ;; Ok (e :: r)
  end.
Definition elem_errors (m : mesh) (B : list vec) : res (list T) := em <- edge_triangles m ;; errors_loop m em B (m_tris m) 0.
(** 287-294 *)
Definition min_max (errs : list T) : T * T :=
  fold_left (fun s e => (fmin o (fst s) e, fmax o (snd s) e)) errs (dbl_max o, dbl_min).

(** 297-319: the position of one vertex: inside the integration region, the same with its boundary, inside the boundary
    region, in a hole *)
Definition flags : Type := bool * bool * bool * bool.
Fixpoint in_a_hole (eps : T) (p : vec) (l : list poly) : res bool :=
  match l with
  | [] => Ok false
  | h :: l' => b <- poly_contains_eps o h p false eps ;; if b : bool then Ok true else in_a_hole eps p l'
  end.
Definition vertex_flags (eps : T) (g outer : poly) (holes : list poly) (p : vec) : res flags :=
  with_b <- poly_contains_eps o g p true eps ;;
  inside <- poly_contains_eps o g p false eps ;;
  in_outer <- poly_contains_eps o outer p true eps ;;
  hole <- in_a_hole eps p holes ;;
  Ok (inside, with_b, in_outer, hole).
Definition f_inside (f : flags) : bool := fst (fst (fst f)).
Definition f_closed (f : flags) : bool := snd (fst (fst f)).
Definition f_outer (f : flags) : bool := snd (fst f).
Definition f_hole (f : flags) : bool := snd f.

Record assets := mkAssets { as_ids : table nat; as_errs : list T; as_min : T; as_max : T; as_flags : list flags }.
(** 170-327: getSurroundingRegionBlockIntegralAssets *)
Definition get_assets (m : mesh) (B : list vec) (p : vec) : res assets :=
  '(g, outer, holes) <- find_regions m p ;;
  ids <- adj_ids m ;;
  errs <- elem_errors m B ;;
  fl <- map_res (vertex_flags (m_epsilon m) g outer holes) (m_points m) ;;
  Ok (mkAssets ids errs (fst (min_max errs)) (snd (min_max errs)) fl).

(** ** the weighting problem: 344-438, 509-601 *)

(** 388-389 with myS = (1, 0).normalize() *)
Definition force_K (B p1 p2 p3 : vec) : res (T * T) :=
  half <- div o (one o) (ofZ o 2) ;;
  s <- normalize o (mkV (one o) (zero o)) ;;
  Ok (opp o half *. vx s *. vx B *. vx B +. half *. vx s *. vy B *. vy B -. vy s *. vx B *. vy B,
      opp o half *. vy s *. vy B *. vy B +. half *. vy s *. vx B *. vx B -. vx s *. vx B *. vy B).
(** 551-555 *)
Definition torque_K (center B p1 p2 p3 : vec) : res (T * T) :=
  half <- div o (one o) (ofZ o 2) ;;
  c <- vdivs o (vadd o (vadd o p1 p2) p3) (ofZ o 3) ;;
  let r := vminus o c center in
  Ok (opp o (vy r) *. half *. normSquared o B -. vx B *. vcross o r B,
      vx r *. half *. normSquared o B -. vy B *. vcross o r B).

(** 353-402, 513-566: one triangle seen from the vertex i *)
Definition shell_elem (K : vec -> vec -> vec -> vec -> res (T * T)) (m : mesh) (B : list vec) (a : assets) (i id : nat) (M : coo T) : res (coo T) :=
  t <- get (m_tris m) id ;;
  Bi <- get B id ;;
  '(v2, v3) <- other_corners i t ;;
  d <- getDoubleOrientedArea o (m_points m) i v2 v3 ;;
  let '(v2, v3) := if ltb o d (zero o) then (v3, v2) else (v2, v3) in
  D <- getDoubleOrientedArea o (m_points m) i v2 v3 ;;
  p1 <- get (m_points m) i ;;
  p2 <- get (m_points m) v2 ;;
  p3 <- get (m_points m) v3 ;;
  b1 <- div o (vy p2 -. vy p3) D ;;
  b2 <- div o (vy p3 -. vy p1) D ;;
  b3 <- div o (vy p1 -. vy p2) D ;;
  c1 <- div o (vx p3 -. vx p2) D ;;
  c2 <- div o (vx p1 -. vx p3) D ;;
  c3 <- div o (vx p2 -. vx p1) D ;;
  '(K1, K2) <- K Bi p1 p2 p3 ;;
  err <- get (as_errs a) id ;;
  root <- fsqrt o (fabs o err) ;;
  w <- umap o root (as_min a) (as_max a) (one o) (ofZ o 1000) ;;
  let W := limit o w (one o) (ofZ o 1000) in
  let entry (v : nat) (b c : T) (M : coo T) : res (coo T) :=
    if Nat.leb i v then coo_modify (zero o) M i v (fun x => x +. D *. W *. (K1 *. b1 +. K2 *. c1) *. (K1 *. b +. K2 *. c)) else Ok M in
  M <- entry i b1 c1 M ;;
  M <- entry v2 b2 c2 M ;;
  entry v3 b3 c3 M.
Definition shell_vertex K (m : mesh) (B : list vec) (a : assets) (i : nat) (M : coo T) : res (coo T) :=
  ids <- get (as_ids a) i ;; forM_list ids (shell_elem K m B a i) M.
Definition shell_matrix K (m : mesh) (B : list vec) (a : assets) : res (coo T) :=
  forM_up (length (m_points m)) (shell_vertex K m B a) (coo_new T (length (m_points m))).

(** 411-438, 574-601: the loop over the stored entries, in the order of the list *)
Fixpoint hold_loop (fl : list flags) (l : list (N * T)) (b : list T) : res (list (N * T) * list T) :=
  match l with
  | [] => Ok ([], b)
  | (k, v) :: l' =>
      let col := krow k in
      let row := kcol k in
      f <- get fl col ;;
      '(v', b') <-
        (if negb (f_outer f) || f_hole f then
           if Nat.eqb row col then b <- set b row (zero o) ;; Ok (one o, b) else Ok (zero o, b)
         else if f_closed f then
           if Nat.eqb row col then b <- set b row (one o) ;; Ok (one o, b)
           else x <- get b row ;; b <- set b row (x -. v) ;; Ok (zero o, b)
         else Ok (v, b)) ;;
      '(r, b'') <- hold_loop fl l' b' ;;
      Ok ((k, v') :: r, b'')
  end.
Variable shuffle : list (N * T) -> list (N * T).
Definition weights K (m : mesh) (B : list vec) (a : assets) : res (list T) :=
  M <- shell_matrix K m B a ;;
  '(l, b) <- hold_loop (as_flags a) (shuffle (elems M)) (repeat (zero o) (length (m_points m))) ;;
  C <- csr_build (zero o) (mkCoo l (cm M)) ;;
  omega <- div o (ofZ o 3) (ofZ o 2) ;;
  tol <- div o (one o) (ofZ o (10 ^ 100)) ;;
  '(g, _) <- ssor_pcg o C b (zeros o (length (m_points m))) omega tol 100 ;;
  Ok g.

(** ** the integrals *)

(** 458-465, 621-628: no corner strictly inside, outside the boundary region, or in a hole *)
Definition in_shell (fl : list flags) (t : tri) : res bool :=
  forM_list (corners t) (fun v (ok : bool) =>
    if ok then f <- get fl v ;; Ok (negb (f_inside f || negb (f_outer f) || f_hole f)) else Ok false) true.
(** 454-483 *)
Fixpoint force_loop (m : mesh) (fl : list flags) (gs B : list vec) (l : list tri) (force : vec) : res vec :=
  match l with
  | [] => Ok force
  | t :: l' =>
      match gs, B with
      | g :: gs', Bi :: B' =>
          ok <- in_shell fl t ;;
          force <-
            (if ok : bool then
               '(p1, p2, p3) <- tri_points o (m_points m) t ;;
               a <- area o p1 p2 p3 ;;
               half <- div o (one o) (ofZ o 2) ;;
               Ok (vadd o force (vmul o (vminus o (vmul o (vmul o g half) (normSquared o Bi)) (vmul o Bi (vdot o g Bi))) a))
             else Ok force) ;;
          force_loop m fl gs' B' l' force
      | _, _ => UB "vector index out of bounds"
      end
  end.
(** 329-492: computeForceIntegrals *)
Definition force_integral (m : mesh) (depth : T) (B : list vec) (a : assets) : res vec :=
  g <- weights force_K m B a ;;
  gs <- computeGrad o A m g ;;
  force <- force_loop m (as_flags a) gs B (m_tris m) (vzero o) ;;
  s <- div o (one o) mu0 ;;
  Ok (vmul o (vmul o force s) depth).
Definition computeForceIntegrals (m : mesh) (depth : T) (B : list vec) (p : vec) : res vec :=
  a <- get_assets m B p ;; force_integral m depth B a.
(** 617-649 *)
Fixpoint torque_loop (m : mesh) (fl : list flags) (center : vec) (gs B : list vec) (l : list tri) (torque : T) : res T :=
  match l with
  | [] => Ok torque
  | t :: l' =>
      match gs, B with
      | g :: gs', Bi :: B' =>
          ok <- in_shell fl t ;;
          torque <-
            (if ok : bool then
               '(p1, p2, p3) <- tri_points o (m_points m) t ;;
               a <- area o p1 p2 p3 ;;
               half <- div o (one o) (ofZ o 2) ;;
               c <- vdivs o (vadd o (vadd o p1 p2) p3) (ofZ o 3) ;;
               let r := vminus o c center in
               Ok (torque +. (vcross o r g *. normSquared o Bi *. half -. vcross o r Bi *. vdot o Bi g) *. a)
             else Ok torque) ;;
          torque_loop m fl center gs' B' l' torque
      | _, _ => UB "vector index out of bounds"
      end
  end.
(** 494-661: computeTorqueIntegral *)
Definition torque_integral (m : mesh) (depth : T) (B : list vec) (a : assets) (center : vec) : res T :=
  g <- weights (torque_K center) m B a ;;
  gs <- computeGrad o A m g ;;
  torque <- torque_loop m (as_flags a) center gs B (m_tris m) (zero o) ;;
  s <- div o (one o) mu0 ;;
  Ok (torque *. s *. depth).
Definition computeTorqueIntegral (m : mesh) (depth : T) (B : list vec) (p center : vec) : res T :=
  a <- get_assets m B p ;; torque_integral m depth B a center.
(** 673-678: computeStressIntegral *)
Definition computeStressIntegral (m : mesh) (depth : T) (B : list vec) (p center : vec) : res (vec * T) :=
  a <- get_assets m B p ;;
  f <- force_integral m depth B a ;;
  t <- torque_integral m depth B a center ;;
  Ok (f, t).
End ForceM.
Arguments mkAssets {o}.
Arguments as_ids {o}.
Arguments as_errs {o}.
Arguments as_min {o}.
Arguments as_max {o}.
Arguments as_flags {o}.
