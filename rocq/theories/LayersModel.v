(** Model of lib/nikfemm/src/current_density/simulation.cpp and multilayer_simulation.cpp.
    mesh.mesh() (the Triangle library) is not modelled: the functions that run after meshing take the meshes as input.
    Node and element numbers are below 2^31 (the code keeps them in int32_t in setVoltage). *)
From Coq Require Import String.
From Coq Require Import List Arith ZArith NArith Bool.
From Verif Require Import Base AlgebraModel SolversModel GeometryModel DrawingModel MeshModel.
Import ListNotations.

(** multilayer_simulation.cpp 24-40: the constructors; one mesh per depth *)
Definition layer_depths {X} (num_layers : nat) (depths : list X) : res (list X) :=
  if Nat.eqb (length depths) num_layers then Ok depths else Throw "depths.size() != num_layers".

Section LayersM.
Variable o : Ops.
Notation T := (T o).
Notation vec := (vec o).
(** CurrentDensityProp and its conductivity *)
Variable A : Type.
Variable sigma : A -> T.
(** x < INFINITY *)
Variable below_inf : T -> bool.

Notation "x '+.' y" := (add o x y) (at level 50, left associativity).
Notation "x '-.' y" := (sub o x y) (at level 50, left associativity).
Notation "x '*.' y" := (mul o x y) (at level 40, left associativity).

(** simulation.cpp 37-45, multilayer_simulation.cpp 141-164 and 255-261: the first node at the smallest distance;
    [None]: still the initial distance INFINITY *)
Fixpoint nearest (dist : vec -> res T) (pts : list vec) (i : nat) (best : option (nat * T)) : res (option (nat * T)) :=
  match pts with
  | [] => Ok best
  | q :: pts' =>
      d <- dist q ;;
      let closer := match best with None => below_inf d | Some (_, d') => ltb o d d' end in
      nearest dist pts' (S i) (if closer then Some (i, d) else best)
  end.
Definition sq_dist (p q : vec) : T := (vx q -. vx p) *. (vx q -. vx p) +. (vy q -. vy p) *. (vy q -. vy p).

(** simulation.cpp 35-54: CurrentDensitySimulation::setVoltage *)
Definition setVoltage (m : mesh o A) (S : dsystem o) (p : vec) (V : T) : res (dsystem o) :=
  c <- nearest (fun q => Ok (sq_dist p q)) (m_points m) 0 None ;;
  match c with
  | None => Ok S
  | Some (i, _) => dDirichlet o S i V
  end.

(** simulation.cpp 73-86 and multilayer_simulation.cpp 274-286: solve; the tolerance is 1e-12 and 1e-7, the vector has
    one entry per node *)
Definition cd_solve_to (tolerance : Z) (n : nat) (S : dsystem o) : res (list T) :=
  C <- csr_build (zero o) (sA _ S) ;;
  w <- div o (ofZ o 3) (ofZ o 2) ;;
  e <- div o (one o) (ofZ o tolerance) ;;
  '(x, _) <- ssor_pcg o C (sb _ S) (zeros o n) w e (N.to_nat 100000) ;;
  Ok x.
Definition cd_solve (m : mesh o A) (S : dsystem o) : res (list T) := cd_solve_to (10 ^ 12) (length (m_points m)) S.
Definition ml_solve (S : dsystem o) : res (list T) := cd_solve_to (10 ^ 7) (length (sb _ S)) S.

(** multilayer_simulation.hpp 9-16: CurrentDensityInterconnection *)
Record link := mkLink { k_p1 : vec; k_p2 : vec; k_layer1 : nat; k_layer2 : nat; k_R : T }.

(** multilayer_simulation.cpp 121-129 and 245-253: the offsets, given the layer sizes *)
Fixpoint offsets_from (offset : nat) (sizes : list nat) : list nat :=
  match sizes with
  | [] => []
  | s :: sizes' => offset :: offsets_from (offset + s) sizes'
  end.
Definition offsets (sizes : list nat) : list nat := offsets_from 0 sizes.
Definition total (sizes : list nat) : nat := fold_left Nat.add sizes 0.

(** multilayer_simulation.cpp 143-164: the nearest node, 0 if there is none *)
Definition link_node (m : mesh o A) (p : vec) : res nat :=
  c <- nearest (fun q => GeometryModel.norm o (vminus o q p)) (m_points m) 0 None ;;
  Ok (match c with None => 0 | Some (i, _) => i end).
(** 132-170: layer and node numbers and resistance *)
Definition link_nodes (ms : list (mesh o A)) (k : link) : res (nat * nat * nat * nat * T) :=
  m1 <- get ms (k_layer1 k) ;;
  n1 <- link_node m1 (k_p1 k) ;;
  m2 <- get ms (k_layer2 k) ;;
  n2 <- link_node m2 (k_p2 k) ;;
  Ok (k_layer1 k, k_layer2 k, n1, n2, k_R k).

(** 199-204: the element (row, column) of a layer goes to (row + offset, column + offset); arguments are uint32_t *)
Definition merge_elem (offset : nat) (kv : N * T) (M : coo T) : res (coo T) :=
  coo_modify (zero o) M (u32 (krow (fst kv) + offset)) (u32 (kcol (fst kv) + offset)) (fun _ => snd kv).
(** 191-212: one layer *)
Definition merge_layer (offset n : nat) (S : dsystem o) (M : dsystem o) : res (dsystem o) :=
  A' <- forM_list (elems (sA _ S)) (merge_elem offset) (sA _ M) ;;
  b' <- forM_up n (fun j b => v <- get (sb _ S) j ;; set b (j + offset) v) (sb _ M) ;;
  Ok (mkSys T A' b').
Fixpoint merge_layers (offset : nat) (ms : list (mesh o A)) (Ss : list (dsystem o)) (M : dsystem o) : res (dsystem o) :=
  match ms, Ss with
  | m :: ms', S1 :: Ss' =>
      M <- merge_layer offset (length (m_points m)) S1 M ;;
      merge_layers (offset + length (m_points m)) ms' Ss' M
  | _, _ => Ok M
  end.

(** 218-234: one interconnection *)
Definition connect (offs : list nat) (k : nat * nat * nat * nat * T) (M : coo T) : res (coo T) :=
  let '(l1, l2, n1, n2, R) := k in
  o1 <- get offs l1 ;;
  o2 <- get offs l2 ;;
  let m1 := u32 (n1 + o1) in
  let m2 := u32 (n2 + o2) in
  g <- div o (ofZ o 2) R ;;
  M <- coo_modify (zero o) M m1 m1 (fun v => v +. g) ;;
  M <- coo_modify (zero o) M m2 m2 (fun v => v +. g) ;;
  h <- div o (opp o (ofZ o 2)) R ;;
  if Nat.leb m2 m1 then coo_modify (zero o) M m2 m1 (fun _ => h)
  else coo_modify (zero o) M m1 m2 (fun _ => h).

(** 115-236: generateSystem after the layers have been meshed *)
Definition ml_system (ms : list (mesh o A)) (links : list link) : res (dsystem o) :=
  Ss <- map_res (cd_getFemSystem o A sigma) ms ;;
  let offs := offsets (map (fun S => length (sb T S)) Ss) in
  ks <- map_res (link_nodes ms) links ;;
  let n := total (map (fun S => length (sb T S)) Ss) in
  M <- merge_layers 0 ms Ss (mkSys T (coo_new T (u32 n)) (repeat (zero o) n)) ;;
  A' <- forM_list ks (connect offs) (sA _ M) ;;
  Ok (mkSys T A' (sb _ M)).

(** 239-272: MultiLayerCurrentDensitySimulation::setVoltage *)
Definition ml_setVoltage (ms : list (mesh o A)) (S : dsystem o) (p : vec) (V : T) (layer : nat) : res (dsystem o) :=
  m <- get ms layer ;;
  c <- nearest (fun q => Ok (sq_dist p q)) (m_points m) 0 None ;;
  match c with
  | None => Ok S
  | Some (i, _) =>
      off <- get (offsets (map (fun m => length (m_points m)) ms)) layer ;;
      dDirichlet o S (i + off) V
  end.

(** 288-327: computePowerDensity of one layer: E[j].norm() * E[j].norm() * sigma *)
Definition element_power (m : mesh o A) (E : list vec) (j : nat) : res T :=
  a <- get (m_attrs m) j ;;
  p <- getRegionPtrFromId o A (m_drawing m) a ;;
  e <- get E j ;;
  n <- GeometryModel.norm o e ;;
  Ok (n *. n *. sigma p).
(** V.begin() + off, V.begin() + off + n *)
Definition slice (V : list T) (off n : nat) : res (list T) :=
  if Nat.leb (off + n) (length V) then Ok (firstn n (skipn off V)) else UB "range past the end of the vector".
Fixpoint layer_powers (V : list T) (noff eoff : nat) (ms : list (mesh o A)) (P : list T) : res (list T) :=
  match ms with
  | [] => Ok P
  | m :: ms' =>
      Vs <- slice V noff (length (m_points m)) ;;
      E <- computeGrad o A m Vs ;;
      P <- forM_up (length (m_tris m)) (fun j P => x <- element_power m E j ;; set P (j + eoff) x) P ;;
      layer_powers V (noff + length (m_points m)) (eoff + length (m_tris m)) ms' P
  end.
Definition computePowerDensity (ms : list (mesh o A)) (V : list T) : res (list T) :=
  layer_powers V 0 0 ms (repeat (zero o) (total (map (fun m => length (m_tris m)) ms))).

(** multilayer_simulation.cpp 61-107: points drawn for the interconnections before meshing.  The distance starts at
    numeric_limits<double>::max(). *)
Variable lm : libm o.
Fixpoint clearance (d : drawing o A) (p : vec) (segs : list (nat * nat)) (eps : T) : res T :=
  match segs with
  | [] => Ok eps
  | s :: segs' =>
      a <- get (points d) (fst s) ;;
      b <- get (points d) (snd s) ;;
      dist <- pointSegmentDistance o p a b ;;
      clearance d p segs' (if ltb o dist eps then dist else eps)
  end.
Definition add_point (ds : list (drawing o A)) (l : nat) (p : vec) : res (list (drawing o A)) :=
  d <- get ds l ;; set ds l (DrawingModel.with_points o A d (points d ++ [p])).
(** 63-69: both end points are drawn *)
Definition draw_link (k : link) (ds : list (drawing o A)) : res (list (drawing o A)) :=
  ds <- add_point ds (k_layer1 k) (k_p1 k) ;; add_point ds (k_layer2 k) (k_p2 k).
(** 92-106; the factors 0.5 and 0.25 are written 1/2 and 1/4 *)
Definition ring_point (p : vec) (eps angle f : T) : vec :=
  vadd o p (mkV (eps *. fcos o lm angle *. f) (eps *. fsin o lm angle *. f)).
Definition draw_ring (k : link) (ds : list (drawing o A)) : res (list (drawing o A)) :=
  d1 <- get ds (k_layer1 k) ;;
  d2 <- get ds (k_layer2 k) ;;
  e1 <- clearance d1 (k_p1 k) (segments d1) (dbl_max o) ;;
  e2 <- clearance d2 (k_p2 k) (segments d2) (dbl_max o) ;;
  half <- div o (one o) (ofZ o 2) ;;
  quarter <- div o (one o) (ofZ o 4) ;;
  forM_up 10 (fun i ds =>
    angle <- div o (ofZ o 2 *. fpi o lm *. ofZ o (Z.of_nat i)) (ofZ o 10) ;;
    ds <- add_point ds (k_layer1 k) (ring_point (k_p1 k) e1 angle half) ;;
    ds <- add_point ds (k_layer2 k) (ring_point (k_p2 k) e2 angle half) ;;
    ds <- add_point ds (k_layer1 k) (ring_point (k_p1 k) e1 angle quarter) ;;
    add_point ds (k_layer2 k) (ring_point (k_p2 k) e2 angle quarter)) ds.
Definition draw_links (links : list link) (ds : list (drawing o A)) : res (list (drawing o A)) :=
  ds <- forM_list links draw_link ds ;; forM_list links draw_ring ds.

End LayersM.

Arguments mkLink {o}.
Arguments k_p1 {o}.
Arguments k_p2 {o}.
Arguments k_layer1 {o}.
Arguments k_layer2 {o}.
Arguments k_R {o}.
