(** Vocabulary for the statements about the force and torque integrals (C47, C48, C68-C75). *)
From Coq Require Import String.
From Coq Require Import List Arith ZArith NArith Bool.
From Coq Require Import Reals Permutation.
From Verif Require Import Base SumR AlgebraModel AlgebraSpec GeometryModel GeometrySpec DrawingModel DrawingSpec MeshModel MeshSpec ForceModel.
Import ListNotations.

(** the polygon h lies around the polygon g *)
Definition encloses (o : Ops) (h g : list (vec o)) : Prop := poly_contains_poly o h g = true /\ poly_neqb o h g = Ok true.

(** ** sides *)
Definition has_corner (t : tri) (v : nat) : bool := existsb (Nat.eqb v) (corners t).
(** the numbers of the triangles with the corners u and v, in increasing order *)
Definition sharing (ts : list tri) (u v : nat) : list nat :=
  filter (fun i => has_corner (nth i ts (0, 0, 0)) u && has_corner (nth i ts (0, 0, 0)) v) (seq 0 (length ts)).
Definition three_corners (t : tri) : Prop := t0 t <> t1 t /\ t1 t <> t2 t /\ t2 t <> t0 t.
(** every side belongs to exactly two triangles *)
Definition closed_surface (ts : list tri) : Prop :=
  forall t u v, In t ts -> In u (corners t) -> In v (corners t) -> u <> v -> length (sharing ts u v) = 2.
(** j is the triangle behind the side u v of the triangle i *)
Definition behind (ts : list tri) (i u v j : nat) : Prop := sharing ts u v = [i; j] \/ sharing ts u v = [j; i].

(** ** nodes with a prescribed weight *)
Definition flag_at (fl : list flags) (i : nat) : flags := nth i fl (false, false, true, false).
(** outside the surrounding region or in one of its holes *)
Definition zero_node (fl : list flags) (i : nat) : bool := negb (f_outer (flag_at fl i)) || f_hole (flag_at fl i).
(** in the body or on its outline *)
Definition one_node (fl : list flags) (i : nat) : bool := negb (zero_node fl i) && f_closed (flag_at fl i).
Definition held (fl : list flags) (i : nat) : bool := zero_node fl i || one_node fl i.

Local Open Scope R_scope.
Definition target (fl : list flags) (i : nat) : R := if one_node fl i then 1 else 0.

(** a complete symmetric matrix and a position flag for every node *)
Definition hold_ready (M : coo R) (fl : list flags) : Prop :=
  valid_coo M /\ is_u32 (cm M) /\ all_diag_touched M /\ length fl = cm M.
(** with the stored entries visited in the order l, the elimination turns the matrix M and a zero right-hand side into A and b *)
Definition eliminated (M : coo R) (fl : list flags) (l : list (N * R)) (A : coo R) (b : list R) : Prop :=
  Permutation l (elems M) /\ cm A = cm M /\ hold_loop ROps fl l (repeat 0 (cm M)) = Ok (elems A, b).

(** the right-hand side when, in the rows of the held nodes, only the contributions chosen by S are kept *)
Definition rhs_with (M : coo R) (fl : list flags) (S : nat -> nat -> bool) (r : nat) : R :=
  target fl r * (if held fl r then 1 else 0) -
  sumn r (fun c => if one_node fl c && (negb (held fl r) || S c r) then value 0 M c r else 0).

(** ** the field error of a triangle *)
Definition field (B : list pt) (i : nat) : pt := nth i B org.
Definition along_side {A} (m : mesh ROps A) (u v : nat) (d : pt) : R :=
  (px (pos m v) - px (pos m u)) * px d + (py (pos m v) - py (pos m u)) * py d.
Definition minus_pt (p q : pt) : pt := P (px p - px q) (py p - py q).
(** a third of the field less the circulation of its jumps around the triangle, taken counterclockwise *)
Definition field_error {A} (m : mesh ROps A) (B : list pt) (i : nat) (e : R) : Prop :=
  let t := nth i (m_tris m) (0, 0, 0)%nat in
  exists j0 j1 j2,
    behind (m_tris m) i (t0 t) (t1 t) j0 /\ behind (m_tris m) i (t1 t) (t2 t) j1 /\ behind (m_tris m) i (t2 t) (t0 t) j2 /\
    e = sqrt (norm2 (field B i)) / 3 -
        (if Rlt_dec (tri_turn m t) 0 then -1 else 1) *
        (along_side m (t0 t) (t1 t) (minus_pt (field B j0) (field B i)) +
         along_side m (t1 t) (t2 t) (minus_pt (field B j1) (field B i)) +
         along_side m (t2 t) (t0 t) (minus_pt (field B j2) (field B i))).

(** ** the shell *)
(** the corner v of a triangle of the shell: not strictly inside the body, in the surrounding region, in no hole *)
Definition shell_node (fl : list flags) (v : nat) : bool :=
  let f := flag_at fl v in negb (f_inside f) && f_outer f && negb (f_hole f).
Definition shell {A} (m : mesh ROps A) (fl : list flags) : list tri :=
  filter (fun t => forallb (shell_node fl) (corners t)) (m_tris m).
(** the sides of a triangle, counterclockwise *)
Definition ccw_sides {A} (m : mesh ROps A) (t : tri) : list (nat * nat) :=
  let s := [(t0 t, t1 t); (t1 t, t2 t); (t2 t, t0 t)] in
  if Rlt_dec (tri_turn m t) 0 then map (fun e => (snd e, fst e)) s else s.
(** no two triangles of l lie on the same side of a common edge *)
Definition no_fold {A} (m : mesh ROps A) (l : list tri) : Prop := NoDup (concat (map (ccw_sides m) l)).
(** the edge u v of a triangle of l has no triangle of l on its other side *)
Definition rim {A} (m : mesh ROps A) (l : list tri) (u v : nat) : Prop :=
  In (u, v) (concat (map (ccw_sides m) l)) /\ ~ In (v, u) (concat (map (ccw_sides m) l)).

(** ** the weighting problem *)
Definition cross_pt (p q : pt) : R := px p * py q - py p * px q.
(** what the integrals sum: the Maxwell stress of the field B applied to the gradient g of the weights (times mu0) *)
Definition stress_on (B g : pt) : pt :=
  let d := px B * px g + py B * py g in P (norm2 B / 2 * px g - d * px B) (norm2 B / 2 * py g - d * py B).
Definition centroid {A} (m : mesh ROps A) (t : tri) : pt :=
  P ((px (pos m (t0 t)) + px (pos m (t1 t)) + px (pos m (t2 t))) / 3) ((py (pos m (t0 t)) + py (pos m (t1 t)) + py (pos m (t2 t))) / 3).
(** the weight of a triangle: its error mapped from the range of the errors to [1, 1000] *)
Definition error_weight (lo hi e : R) : R := Rmax 1 (Rmin 1000 ((sqrt (Rabs e) - lo) * 999 / (hi - lo) + 1)).
(** the tables belong to the mesh *)
Definition tables_of {A} (m : mesh ROps A) (a : assets ROps) : Prop :=
  adj_ids ROps A m = Ok (as_ids a) /\ length (as_errs a) = length (m_tris m) /\ length (as_flags a) = length (m_points m).
(** sum over the numbers and triangles of the mesh *)
Definition sum_ids {A} (m : mesh ROps A) (f : nat -> tri -> R) : R :=
  suml (combine (seq 0 (length (m_tris m))) (m_tris m)) (fun x => f (fst x) (snd x)).
(** a triangle of the shell *)
Definition in_the_shell (fl : list flags) (t : tri) : bool := forallb (shell_node fl) (corners t).
