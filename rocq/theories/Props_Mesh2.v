(** Properties C39, C40, C50, C53, C60 and C62.  Vocabulary in MeshSpec.v, model in MeshModel.v. *)
From Coq Require Import String.
From Coq Require Import List Arith ZArith NArith Bool Lia Reals Lra Permutation.
From Verif Require Import Base SumR AlgebraModel AlgebraSpec GeometryModel GeometrySpec Geometry_proofs Circle_proofs Polygon_proofs DrawingModel DrawingSpec
  MeshModel MeshSpec Adjacency_proofs Fem_proofs Energy_proofs MeshGeo_proofs Integral_proofs Box_proofs Magnet_proofs Kelvin_proofs.
Import ListNotations.
Local Open Scope R_scope.

(** ** C39: Kelvin transform *)
Theorem C39_same_ray_and_product : forall r c v, 0 < r -> v <> org -> r / 100 <= dist v c ->
  exists k, 0 < k /\ kelvin_point ROps r c v = Ok (scaled k v) /\ dist (scaled k v) org * dist v org = r * r.
Proof. exact kelvin_outer. Qed.
Print Assumptions C39_same_ray_and_product.
Theorem C39_core_is_clamped : forall r v, 0 < r -> v <> org -> dist v org < r / 100 ->
  exists k, 0 < k /\ kelvin_point ROps r org v = Ok (scaled k v) /\ dist (scaled k v) org = 100 * r.
Proof. exact kelvin_core. Qed.
Print Assumptions C39_core_is_clamped.
Theorem C39_circle_is_fixed : forall r v, 0 < r -> dist v org = r -> kelvin_point ROps r org v = Ok v.
Proof. exact kelvin_fixed. Qed.
Print Assumptions C39_circle_is_fixed.
Theorem C39_own_inverse : forall r v, 0 < r -> r / 100 <= dist v org <= 100 * r ->
  exists w, kelvin_point ROps r org v = Ok w /\ kelvin_point ROps r org w = Ok v.
Proof. exact kelvin_involution. Qed.
Print Assumptions C39_own_inverse.
Theorem C39_moves_unmarked_vertices_only : forall (A : Type) (m : mesh ROps A), (length (m_points m) <= length (m_marks m))%nat ->
  (forall i, (i < length (m_points m))%nat -> nth i (m_marks m) false = false -> exists w, kelvin_point ROps (m_radius m) (m_center m) (pos m i) = Ok w) ->
  exists m', kelvinTransformCentered ROps A m = Ok m' /\ m' = with_points ROps A m (m_points m') /\ length (m_points m') = length (m_points m) /\
    forall i, (i < length (m_points m))%nat ->
      (nth i (m_marks m) false = true -> pos m' i = pos m i) /\
      (nth i (m_marks m) false = false -> kelvin_point ROps (m_radius m) (m_center m) (pos m i) = Ok (pos m' i)).
Proof. exact (@kelvin_mesh). Qed.
Print Assumptions C39_moves_unmarked_vertices_only.
(** a vertex at the origin gets no finite position *)
Theorem C39_origin : forall (A : Type) (m : mesh ROps A), (length (m_points m) <= length (m_marks m))%nat ->
  (exists i, (i < length (m_points m))%nat /\ nth i (m_marks m) false = false /\ pos m i = org) -> is_nonfin (kelvinTransformCentered ROps A m).
Proof. intros A m L H. destruct (kelvin_mesh_origin m L H) as [s E]. exists s. exact E. Qed.
Print Assumptions C39_origin.
Theorem C39_finite_refuted : exists m : mesh ROps R, 0 < m_radius m /\ length (m_points m) = length (m_marks m) /\ is_nonfin (kelvinTransformCentered ROps R m).
Proof.
  exists (mkMesh org 1 1 1 [P 1 0; org] [true; false] [] [] (mkD [] [] [] [] [])). split; [cbn; lra|]. split; [reflexivity|]. apply C39_origin; [cbn; lia|]. exists 1%nat. cbn. split; [lia|]. auto.
Qed.
Print Assumptions C39_finite_refuted.
(** the clamp is measured from the centre of the drawing, the inversion from the origin: off centre the product is lost *)
Theorem C39_off_centre_refuted : exists r c v w, 0 < r /\ r / 100 <= dist v org /\ kelvin_point ROps r c v = Ok w /\ dist w org * dist v org <> r * r.
Proof.
  exists 100, (P 50 0), (P (101 / 2) 0), (scaled 20000 (P (101 / 2) 0)).
  assert (D1 : dist (P (101 / 2) 0) org = 101 / 2). { unfold dist, org. rewrite !px_P, !py_P. replace ((101 / 2 - 0) * (101 / 2 - 0) + (0 - 0) * (0 - 0)) with ((101 / 2) * (101 / 2)) by lra. apply sqrt_square. lra. }
  assert (D2 : dist (P (101 / 2) 0) (P 50 0) = 1 / 2). { unfold dist. rewrite !px_P, !py_P. replace ((101 / 2 - 50) * (101 / 2 - 50) + (0 - 0) * (0 - 0)) with ((1 / 2) * (1 / 2)) by lra. apply sqrt_square. lra. }
  split; [lra|]. split; [lra|]. split.
  - rewrite kelvin_point_R, D2, px_P, py_P. destruct (Req_EM_T _ 0); [lra|]. destruct (Rlt_dec _ _); [|lra]. destruct (Req_EM_T _ 0); [lra|]. f_equal. f_equal. lra.
  - rewrite dist_scaled by lra. rewrite D1. lra.
Qed.
Print Assumptions C39_off_centre_refuted.
Example C39_example : kelvin_point ROps 2 org (P 1 0) = Ok (P 4 0) /\ kelvin_point ROps 2 org (P 4 0) = Ok (P 1 0).
Proof.
  assert (D : forall x, 0 < x -> dist (P x 0) org = x). { intros x Hx. unfold dist, org. rewrite !px_P, !py_P. replace ((x - 0) * (x - 0) + (0 - 0) * (0 - 0)) with (x * x) by ring. apply sqrt_square. lra. }
  split; rewrite kelvin_point_R, D, px_P, py_P by lra; (destruct (Req_EM_T _ 0); [lra|]); (destruct (Rlt_dec _ _); [lra|]); f_equal; unfold scaled; rewrite px_P, py_P; apply pt_ext; rewrite !px_P || rewrite !py_P; lra.
Qed.

(** ** C40: area, mass, barycentre, inertia *)
Theorem C40_polygon : forall (A : Type) (m : mesh ROps A) p,
  ((forall g, ~ around m p g) -> exists s, getInnermostPolygon ROps A m p = Throw s) /\
  ((exists g, around m p g) -> exists g, getInnermostPolygon ROps A m p = Ok g /\
     ((around m p g /\ forall h, around m p h -> differ g h -> poly_contains_poly ROps g h = false) \/
      (g = [] /\ forall h, around m p h -> exists k, around m p k /\ differ h k /\ poly_contains_poly ROps h k = true))).
Proof. exact (@innermost_R). Qed.
Print Assumptions C40_polygon.
Theorem C40_area_and_mass : forall (A : Type) (m : mesh ROps A) p g k, Forall (tri_in (length (m_points m))) (m_tris m) -> getInnermostPolygon ROps A m p = Ok g ->
  computeAreaIntegral ROps A m p = Ok (suml (inner_tris m g) (tri_area m)) /\ computeMass ROps A m p k = Ok (k * m_depth m * suml (inner_tris m g) (tri_area m)).
Proof. intros A m p g k H E. split; [apply area_val|apply mass_val]; auto. Qed.
Print Assumptions C40_area_and_mass.
Theorem C40_barycentre : forall (A : Type) (m : mesh ROps A) p g, Forall (tri_in (length (m_points m))) (m_tris m) -> getInnermostPolygon ROps A m p = Ok g ->
  let F := inner_tris m g in let a := suml F (tri_area m) in
  (a = 0 -> is_nonfin (computeBarycenter ROps A m p)) /\
  (a <> 0 -> computeBarycenter ROps A m p = Ok (P (suml F (fun t => tri_area m t * px (centroid m t)) / a) (suml F (fun t => tri_area m t * py (centroid m t)) / a))).
Proof. intros A m p g H E. exact (bary_val m p g H E). Qed.
Print Assumptions C40_barycentre.
(** in particular in the bounding box: u, v, w of the four sides *)
Theorem C40_barycentre_in_every_half_plane : forall (A : Type) (m : mesh ROps A) p g B u v w, Forall (tri_in (length (m_points m))) (m_tris m) ->
  getInnermostPolygon ROps A m p = Ok g -> computeBarycenter ROps A m p = Ok B ->
  (forall i, (i < length (m_points m))%nat -> poly_contains ROps g (pos m i) = true -> u * px (pos m i) + v * py (pos m i) <= w) -> u * px B + v * py B <= w.
Proof. intros A m p g B u v w H. apply bary_half_plane. exact H. Qed.
Print Assumptions C40_barycentre_in_every_half_plane.
Theorem C40_inertia : forall (A : Type) (m : mesh ROps A) p g c k, Forall (tri_in (length (m_points m))) (m_tris m) -> getInnermostPolygon ROps A m p = Ok g ->
  computeInertiaMoment ROps A m p c k = Ok (k * m_depth m * suml (inner_tris m g) (fun t => tri_area m t * (dist (centroid m t) c * dist (centroid m t) c))).
Proof. intros A m p g c k H. apply inertia_val. exact H. Qed.
Print Assumptions C40_inertia.
Theorem C40_inertia_is_nonnegative_and_least_at_the_barycentre : forall (A : Type) (m : mesh ROps A) p g B c k, Forall (tri_in (length (m_points m))) (m_tris m) ->
  getInnermostPolygon ROps A m p = Ok g -> computeBarycenter ROps A m p = Ok B -> 0 <= k -> 0 <= m_depth m ->
  exists IB Ic M, computeInertiaMoment ROps A m p B k = Ok IB /\ computeInertiaMoment ROps A m p c k = Ok Ic /\ computeMass ROps A m p k = Ok M /\
    Ic = IB + M * (dist B c * dist B c) /\ 0 <= M /\ 0 <= IB /\ IB <= Ic.
Proof.
  intros A m p g B c k H E EB Hk Hd. destruct (parallel_axes m p g B c k H E EB) as [IB [Ic [M [E1 [E2 [E3 X]]]]]]. exists IB, Ic, M.
  assert (KD : 0 <= k * m_depth m) by (apply Rmult_le_pos; auto).
  assert (M0 : 0 <= M). { rewrite (mass_val m p g k H E) in E3. injection E3 as <-. apply Rmult_le_pos; auto. apply suml_nonneg. intros. apply area_nonneg. }
  assert (I0 : 0 <= IB). { rewrite (inertia_val m p g B k H E) in E1. injection E1 as <-. apply Rmult_le_pos; auto. apply suml_nonneg. intros. apply Rmult_le_pos; [apply area_nonneg|apply Rle_0_sqr]. }
  assert (0 <= M * (dist B c * dist B c)) by (apply Rmult_le_pos; [auto|apply Rle_0_sqr]). repeat (split; [solve [auto]|]). lra.
Qed.
Print Assumptions C40_inertia_is_nonnegative_and_least_at_the_barycentre.
Theorem C40_numbering_does_not_matter : forall (A : Type) (m m' : mesh ROps A) p c k, Forall (tri_in (length (m_points m))) (m_tris m) -> Forall (tri_in (length (m_points m'))) (m_tris m') ->
  same_triangles m m' -> m_center m = m_center m' -> m_depth m = m_depth m' -> polygons (m_drawing m) = polygons (m_drawing m') ->
  computeAreaIntegral ROps A m p = computeAreaIntegral ROps A m' p /\ computeMass ROps A m p k = computeMass ROps A m' p k /\
  (forall B, computeBarycenter ROps A m p = Ok B -> computeBarycenter ROps A m' p = Ok B) /\
  computeInertiaMoment ROps A m p c k = computeInertiaMoment ROps A m' p c k.
Proof. intros A m m' p c k H H'. apply same_results; auto. Qed.
Print Assumptions C40_numbering_does_not_matter.
Theorem C40_translation : forall (A : Type) v (m : mesh ROps A) p c k, Forall (tri_in (length (m_points m))) (m_tris m) ->
  computeAreaIntegral ROps A (moved_mesh v m) (shift v p) = computeAreaIntegral ROps A m p /\
  computeMass ROps A (moved_mesh v m) (shift v p) k = computeMass ROps A m p k /\
  (forall B, computeBarycenter ROps A m p = Ok B -> computeBarycenter ROps A (moved_mesh v m) (shift v p) = Ok (shift v B)) /\
  computeInertiaMoment ROps A (moved_mesh v m) (shift v p) (shift v c) k = computeInertiaMoment ROps A m p c k.
Proof. intros A v m p c k H. apply moved_results. exact H. Qed.
Print Assumptions C40_translation.
(** a square of side 2 drawn around (5, 0); the mesh is kept around the origin *)
Definition square : list pt := [P (-1) (-1); P 1 (-1); P 1 1; P (-1) 1].
Definition off : mesh ROps R := mkMesh (P 5 0) 2 1 1 square [] [(0, 1, 2); (0, 2, 3)]%nat [0; 0]%nat (mkD [1] [] [] [] [square]).
Lemma square_in : forall p, poly_contains ROps square p = true <-> -1 <= px p <= 1 /\ -1 <= py p <= 1.
Proof. intros p. apply (rect_contains (-1) (-1) 1 1 p); lra. Qed.
Lemma off_innermost : getInnermostPolygon ROps R off (P 5 0) = Ok square.
Proof.
  unfold getInnermostPolygon. cbn [m_drawing off polygons m_center filter].
  assert (E : poly_contains ROps square (vminus ROps (P 5 0) (P 5 0)) = true).
  { apply square_in. change (px (vminus ROps (P 5 0) (P 5 0))) with (5 - 5). change (py (vminus ROps (P 5 0) (P 5 0))) with (0 - 0). lra. }
  rewrite E. reflexivity.
Qed.
Lemma off_inner : inner_tris off square = [(0, 1, 2); (0, 2, 3)]%nat.
Proof.
  assert (I : forall v, (v < 4)%nat -> poly_contains ROps square (pos off v) = true).
  { intros v Hv. apply square_in. unfold pos, off. cbn [m_points]. unfold square. destruct v as [|[|[|[|v]]]]; try lia; cbn [nth]; rewrite px_P, py_P; lra. }
  unfold inner_tris. cbn [m_tris off filter]. unfold corners, t0, t1, t2. cbn [fst snd forallb]. rewrite !I by lia. reflexivity.
Qed.
Lemma off_area : forall t, In t (m_tris off) -> tri_area off t = 2.
Proof.
  intros t [<-|[<-|[]]]; unfold tri_area, tri_turn, turn, pos, t0, t1, t2; cbn [fst snd m_points off]; unfold square; cbn [nth]; rewrite !px_P, !py_P; rewrite Rabs_right; lra.
Qed.
Lemma off_bary : computeBarycenter ROps R off (P 5 0) = Ok org.
Proof.
  assert (TI : Forall (tri_in (length (m_points off))) (m_tris off)) by (cbn; repeat constructor; unfold t0, t1, t2; cbn; lia).
  destruct (bary_val off (P 5 0) square TI off_innermost) as [_ H]. rewrite off_inner in H. rewrite !suml_cons in H. unfold suml in H. cbn [fold_right map] in H. rewrite !off_area in H by (cbn; auto).
  rewrite H by lra. f_equal. unfold org. apply pt_ext; rewrite ?px_P, ?py_P; unfold centroid, pos, t0, t1, t2; cbn [fst snd m_points off]; unfold square; cbn [nth]; rewrite ?px_P, ?py_P; lra.
Qed.
(** the barycentre comes back in the frame of the mesh: outside the polygon the user drew around p *)
Theorem C40_frame_refuted : exists (m : mesh ROps R) (p B : pt) (g : list pt), conforming m /\ getInnermostPolygon ROps R m p = Ok g /\
  poly_contains ROps (map (shift (m_center m)) g) p = true /\ computeBarycenter ROps R m p = Ok B /\ poly_contains ROps (map (shift (m_center m)) g) B = false.
Proof.
  exists off, (P 5 0), org, square. split; [|split; [apply off_innermost|]].
  - split; [cbn; repeat constructor; unfold t0, t1, t2; cbn; lia|]. split.
    { unfold proper. cbn [m_tris off]. repeat constructor; unfold tri_turn, turn, pos, t0, t1, t2; cbn [fst snd m_points off]; unfold square; cbn [nth]; rewrite !px_P, !py_P; lra. }
    split.
    + assert (K : forall p, in_open_triangle p (pos off 0) (pos off 1) (pos off 2) -> in_open_triangle p (pos off 0) (pos off 2) (pos off 3) -> False).
      { intros p [u [v [w [Hu [Hv [Hw [S1 [X1 Y1]]]]]]]] [u' [v' [w' [Hu' [Hv' [Hw' [S2 [X2 Y2]]]]]]]].
        unfold pos, off in *. cbn [m_points] in *. unfold square in *. cbn [nth] in *. rewrite !px_P in X1, X2. rewrite !py_P in Y1, Y2. lra. }
      intros i j t t' p Hi Hj N O1 O2. destruct i as [|[|i]]; cbn in Hi; [injection Hi as <-|injection Hi as <-|destruct i; discriminate Hi];
        (destruct j as [|[|j]]; cbn in Hj; [injection Hj as <-|injection Hj as <-|destruct j; discriminate Hj]); try contradiction; unfold t0, t1, t2 in *; cbn [fst snd] in *; apply (K p); auto.
    + intros t v Ht Hv C. cbn in Hv. unfold corners.
      assert (OUT : forall v t, (v < 4)%nat -> In t (m_tris off) -> ~ In v (corners t) -> in_closed_triangle (pos off v) (pos off (t0 t)) (pos off (t1 t)) (pos off (t2 t)) -> False).
      { clear. intros v t Hv Ht N [u [v' [w [Hu [Hv' [Hw [S1 [X1 Y1]]]]]]]]. unfold corners in N.
        destruct Ht as [<-|[<-|[]]]; unfold t0, t1, t2 in *; cbn [fst snd] in *; (destruct v as [|[|[|[|v]]]]; [| | | |lia]);
          try (exfalso; apply N; cbn; tauto); unfold pos, off in *; cbn [m_points] in *; unfold square in *; cbn [nth] in *; rewrite !px_P in X1; rewrite !py_P in Y1; lra. }
      destruct (in_dec Nat.eq_dec v (corners t)) as [I|I]; [exact I|]. exfalso. apply (OUT v t); auto.
  - cbn [m_center off]. assert (M : map (shift (P 5 0)) square = [P 4 (-1); P 6 (-1); P 6 1; P 4 1]).
    { unfold square, shift. cbn [map]. rewrite !px_P, !py_P. f_equal; [apply pt_ext; rewrite ?px_P, ?py_P; lra|]. f_equal; [apply pt_ext; rewrite ?px_P, ?py_P; lra|]. f_equal; [apply pt_ext; rewrite ?px_P, ?py_P; lra|]. f_equal. apply pt_ext; rewrite ?px_P, ?py_P; lra. }
    rewrite M. split; [apply rect_contains; rewrite ?px_P, ?py_P; lra|]. split; [apply off_bary|].
    destruct (poly_contains ROps [P 4 (-1); P 6 (-1); P 6 1; P 4 1] org) eqn:E; auto. apply rect_contains in E; try lra. unfold org in E. rewrite px_P, py_P in E. lra.
Qed.
Print Assumptions C40_frame_refuted.
(** every triangle is counted as a point mass at its centroid: the moment of a square of side 2 is 8/9, not 8/3 *)
Theorem C40_inertia_of_a_square_refuted : computeInertiaMoment ROps R off (P 5 0) org 1 = Ok (8 / 9).
Proof.
  assert (TI : Forall (tri_in (length (m_points off))) (m_tris off)) by (cbn; repeat constructor; unfold t0, t1, t2; cbn; lia).
  rewrite (inertia_val off (P 5 0) square org 1 TI off_innermost). rewrite off_inner, !suml_cons. unfold suml. cbn [fold_right map]. rewrite !off_area by (cbn; auto). f_equal.
  rewrite !dist_org_sq. cbn [m_depth off]. unfold centroid, pos, t0, t1, t2. cbn [fst snd m_points off]. unfold square. cbn [nth]. rewrite !px_P, !py_P. lra.
Qed.
Print Assumptions C40_inertia_of_a_square_refuted.
Example C40_example : Forall (tri_in (length (m_points off))) (m_tris off) /\ getInnermostPolygon ROps R off (P 5 0) = Ok square /\ computeBarycenter ROps R off (P 5 0) = Ok org /\
  suml (inner_tris off square) (tri_area off) = 4.
Proof.
  split; [cbn; repeat constructor; unfold t0, t1, t2; cbn; lia|]. split; [apply off_innermost|]. split; [apply off_bary|].
  rewrite off_inner, !suml_cons. unfold suml. cbn [fold_right map]. rewrite !off_area by (cbn; auto). lra.
Qed.

(** ** C53: bounding box and plot transform of a mesh *)
Theorem C53_box_contains_every_vertex : forall (A : Type) (m : mesh ROps A), m_points m <> [] -> exists x0 x1 y0 y1, getMeshBoundingBox ROps A m false = Ok (x0, x1, y0, y1) /\
  forall p, In p (m_points m) -> x0 <= px p <= x1 /\ y0 <= py p <= y1.
Proof. exact (@box_contains). Qed.
Print Assumptions C53_box_contains_every_vertex.
Theorem C53_no_vertices : forall (A : Type) (m : mesh ROps A), m_points m = [] -> is_nonfin (getMeshBoundingBox ROps A m false).
Proof. exact (@box_empty). Qed.
Print Assumptions C53_no_vertices.
Theorem C53_clipped_box : forall (A : Type) (m : mesh ROps A), 0 <= m_radius m ->
  getMeshBoundingBox ROps A m true = Ok (- (11 / 10 * m_radius m), 11 / 10 * m_radius m, - (11 / 10 * m_radius m), 11 / 10 * m_radius m).
Proof. exact (@box_clip). Qed.
Print Assumptions C53_clipped_box.
Theorem C53_plot_stays_in_the_image : forall (A : Type) (m : mesh ROps A) w h, (exists p q, In p (m_points m) /\ In q (m_points m) /\ p <> q) -> 0 < w -> 0 < h ->
  exists xs ys xo yo, getMeshScaleOffset ROps A m w h false = Ok (xs, ys, xo, yo) /\
  forall p, In p (m_points m) -> 0 <= xs * px p + xo <= w /\ 0 <= ys * py p + yo <= h.
Proof. exact (@scale_R). Qed.
Print Assumptions C53_plot_stays_in_the_image.
Theorem C53_coincident_vertices : forall (A : Type) (m : mesh ROps A) w h q, m_points m <> [] -> (forall p, In p (m_points m) -> p = q) -> is_nonfin (getMeshScaleOffset ROps A m w h false).
Proof. exact (@scale_point). Qed.
Print Assumptions C53_coincident_vertices.
(** not the smallest box: all vertices on the x axis, yet the box has a height *)
Theorem C53_smallest_refuted : exists m : mesh ROps R, (forall p, In p (m_points m) -> py p = 0) /\
  exists x0 x1 y0 y1, getMeshBoundingBox ROps R m false = Ok (x0, x1, y0, y1) /\ y0 < y1.
Proof.
  exists (mkMesh org 1 1 1 [P 0 0; P 2 0] [] [] [] (mkD [] [] [] [] [])). split; [intros p [<-|[<-|[]]]; apply py_P|].
  destruct (@box_R R (mkMesh org 1 1 1 [P 0 0; P 2 0] [] [] [] (mkD [] [] [] [] []))) as [bx [by_ [d [E [D0 [HD _]]]]]]; [discriminate|]. do 4 eexists. split; [exact E|].
  cbn [m_points] in HD. pose proof (HD (P 0 0) (or_introl eq_refl)) as H1. pose proof (HD (P 2 0) (or_intror (or_introl eq_refl))) as H2.
  apply near_coords in H1. apply near_coords in H2. rewrite !px_P, !py_P in *. lra.
Qed.
Print Assumptions C53_smallest_refuted.
Example C53_example : exists p q, In p (m_points off) /\ In q (m_points off) /\ p <> q.
Proof. exists (P (-1) (-1)), (P 1 1). cbn. split; auto. split; auto. intros E. apply (f_equal px) in E. rewrite !px_P in E. lra. Qed.

(** ** C62: the length scale of the mesh *)
Theorem C62_half_the_shortest_edge : forall (A : Type) (m : mesh ROps A), Forall (tri_in (length (m_points m))) (m_tris m) -> m_tris m <> [] -> exists e, computeEpsilon ROps A m = Ok e /\
  (exists t u v, In t (m_tris m) /\ edge_of t u v /\ dist (pos m u) (pos m v) = 2 * e) /\
  (forall t u v, In t (m_tris m) -> edge_of t u v -> 2 * e <= dist (pos m u) (pos m v)).
Proof. exact (@epsilon_R). Qed.
Print Assumptions C62_half_the_shortest_edge.
Theorem C62_positive : forall (A : Type) (m : mesh ROps A) e, Forall (tri_in (length (m_points m))) (m_tris m) -> m_tris m <> [] -> proper m -> computeEpsilon ROps A m = Ok e -> 0 < e.
Proof.
  intros A m e H N Pr E. destruct (epsilon_R m H N) as [e' [E' [[t [u [v [Ht [He HD]]]]] _]]]. rewrite E in E'. injection E' as <-.
  unfold proper in Pr. rewrite Forall_forall in Pr. specialize (Pr t Ht). destruct (Rle_lt_or_eq_dec _ _ (dist_nonneg (pos m u) (pos m v))) as [X|X]; [lra|]. exfalso. apply Pr.
  symmetry in X. apply dist_zero in X. unfold tri_turn, turn. destruct He as [[-> ->]|[[-> ->]|[-> ->]]]; rewrite X; ring.
Qed.
Print Assumptions C62_positive.
Example C62_example : Forall (tri_in (length (m_points off))) (m_tris off) /\ m_tris off <> [] /\ proper off.
Proof.
  split; [cbn; repeat constructor; unfold t0, t1, t2; cbn; lia|]. split; [discriminate|].
  unfold proper. cbn [m_tris off]. repeat constructor; unfold tri_turn, turn, pos, t0, t1, t2; cbn [fst snd m_points off]; unfold square; cbn [nth]; rewrite !px_P, !py_P; lra.
Qed.

(** ** C60: gluing the transformed outside to the mesh *)
Theorem C60_what_is_added : forall (A : Type) peq dp (m k m' : mesh ROps A), addKelvin ROps A peq dp m k = Ok m' -> (length (m_points k) <= length (m_marks k))%nat ->
  exists xs ts id p, m_points m' = m_points m ++ xs /\ m_tris m' = m_tris m ++ ts /\ m_attrs m' = m_attrs m ++ repeat id (length ts) /\ m_marks m' = m_marks m /\
    nth_error (region_map (m_drawing m')) id = Some p /\ (peq p dp = true \/ p = dp) /\
    length xs = length (filter negb (firstn (length (m_points k)) (m_marks k))) /\
    Forall2 (fun t t' => tri_in (length (m_points m')) t' /\ image (m_radius m) k (t0 t) (pos m' (t0 t')) /\ image (m_radius m) k (t1 t) (pos m' (t1 t')) /\ image (m_radius m) k (t2 t) (pos m' (t2 t'))) (m_tris k) ts.
Proof. exact (@glue_R). Qed.
Print Assumptions C60_what_is_added.
(** it succeeds when, and only when, every marked vertex that the triangles of the outside use is also a marked vertex of the inside *)
Theorem C60_succeeds_when_the_boundaries_match : forall (A : Type) peq dp (m k : mesh ROps A), (length (m_points k) <= length (m_marks k))%nat -> (length (m_points m) <= length (m_marks m))%nat ->
  Forall (tri_in (length (m_points k))) (m_tris k) -> (forall v, nth_error (m_marks k) v = Some false -> (v < length (m_points k))%nat -> pos k v <> org) ->
  ((exists m', addKelvin ROps A peq dp m k = Ok m') <->
   (forall t v, In t (m_tris k) -> In v (corners t) -> nth_error (m_marks k) v = Some true -> exists w, nth_error (m_points m) w = Some (pos k v) /\ nth_error (m_marks m) w = Some true)).
Proof. intros A peq dp m k LK LM HT HO. destruct (glue_iff peq dp m k LK LM HT HO) as [H1 [H2 _]]. split; auto. Qed.
Print Assumptions C60_succeeds_when_the_boundaries_match.
Theorem C60_unmatched_vertex_is_undefined : forall (A : Type) peq dp (m k : mesh ROps A), (length (m_points k) <= length (m_marks k))%nat -> (length (m_points m) <= length (m_marks m))%nat ->
  Forall (tri_in (length (m_points k))) (m_tris k) -> (forall v, nth_error (m_marks k) v = Some false -> (v < length (m_points k))%nat -> pos k v <> org) ->
  (exists t v, In t (m_tris k) /\ In v (corners t) /\ nth_error (m_marks k) v = Some true /\ forall w, nth_error (m_points m) w = Some (pos k v) -> nth_error (m_marks m) w <> Some true) ->
  is_ub (addKelvin ROps A peq dp m k).
Proof. intros A peq dp m k LK LM HT HO. apply (glue_iff peq dp m k LK LM HT HO). Qed.
Print Assumptions C60_unmatched_vertex_is_undefined.
(** no two unmarked vertices of the outside are merged *)
Theorem C60_new_vertices_are_distinct : forall (o : Ops) (A : Type) peq dp (m k m' : mesh o A), addKelvin o A peq dp m k = Ok m' -> (length (m_points k) <= length (m_marks k))%nat ->
  exists (f : nat -> nat -> Prop) ts, m_tris m' = m_tris m ++ ts /\ (forall v w w', f v w -> f v w' -> w = w') /\ (forall v v' w, f v w -> f v' w -> (length (m_points m) <= w)%nat -> v = v') /\
    Forall2 (fun t t' => f (t0 t) (t0 t') /\ f (t1 t) (t1 t') /\ f (t2 t) (t2 t')) (m_tris k) ts.
Proof.
  intros o A peq dp m k m' E L. destruct (kelvin_glue o peq dp m k m' E L) as [kp [xs [ts [id [_ [_ G]]]]]]. destruct G as [_ [ET [_ [_ [_ [_ [_ [_ [_ [_ [f [_ [F1 [F2 F3]]]]]]]]]]]]]]. exists f, ts. auto.
Qed.
Print Assumptions C60_new_vertices_are_distinct.
(** a triangle inside the circle of radius 2, and its outside: the mesher has put a fourth vertex on the circle of the outside *)
Definition inside_part : mesh ROps nat := mkMesh org 2 1 1 [P 2 0; P 0 2; P (-2) 0] [true; true; true] [(0, 1, 2)]%nat [O] (mkD [O] [] [] [] []).
Definition outside_part : mesh ROps nat := mkMesh org 2 1 1 [P 2 0; P 0 2; P (-2) 0; P 0 1] [true; true; true; false] [(0, 1, 3); (1, 2, 3)]%nat [O; O] (mkD [O] [] [] [] []).
Definition outside_extra : mesh ROps nat := mkMesh org 2 1 1 [P 2 0; P 0 2; P (-2) 0; P 0 (-2)] [true; true; true; true] [(0, 1, 3)]%nat [O] (mkD [O] [] [] [] []).
Theorem C60_refuted : exists m k : mesh ROps nat, (length (m_points k) <= length (m_marks k))%nat /\ (length (m_points m) <= length (m_marks m))%nat /\
  Forall (tri_in (length (m_points k))) (m_tris k) /\ proper m /\ proper k /\ m_radius m = m_radius k /\ (forall v, nth_error (m_marks k) v = Some true -> dist (pos k v) org = m_radius k) /\
  (forall v, nth_error (m_marks m) v = Some true -> dist (pos m v) org = m_radius m) /\ is_ub (addKelvin ROps nat Nat.eqb O m k).
Proof.
  assert (D : forall x y, x * x + y * y = 2 * 2 -> dist (P x y) org = 2). { intros x y H. unfold dist, org. rewrite !px_P, !py_P. replace ((x - 0) * (x - 0) + (y - 0) * (y - 0)) with (2 * 2) by lra. apply sqrt_square. lra. }
  exists inside_part, outside_extra. split; [cbn; lia|]. split; [cbn; lia|].
  assert (T : Forall (tri_in (length (m_points outside_extra))) (m_tris outside_extra)) by (cbn; repeat constructor; unfold t0, t1, t2; cbn; lia). split; auto.
  split; [unfold proper; cbn [m_tris inside_part]; repeat constructor; unfold tri_turn, turn, pos, t0, t1, t2; cbn [fst snd m_points inside_part nth]; rewrite !px_P, !py_P; lra|].
  split; [unfold proper; cbn [m_tris outside_extra]; repeat constructor; unfold tri_turn, turn, pos, t0, t1, t2; cbn [fst snd m_points outside_extra nth]; rewrite !px_P, !py_P; lra|].
  split; [reflexivity|]. split; [|split].
  - intros v Hv. cbn in Hv. unfold pos. cbn [m_points m_radius outside_extra]. destruct v as [|[|[|[|[|v]]]]]; try discriminate Hv; cbn [nth]; apply D; lra.
  - intros v Hv. cbn in Hv. unfold pos. cbn [m_points m_radius inside_part]. destruct v as [|[|[|[|v]]]]; try discriminate Hv; cbn [nth]; apply D; lra.
  - apply C60_unmatched_vertex_is_undefined; [cbn; lia|cbn; lia|exact T| |].
    + intros v Hv. cbn in Hv. destruct v as [|[|[|[|[|v]]]]]; discriminate Hv.
    + exists (0, 1, 3)%nat, 3%nat. split; [cbn; auto|]. split; [unfold corners, t0, t1, t2; cbn; auto|]. split; [reflexivity|].
      intros w Hw _. unfold pos in Hw. cbn [m_points outside_extra inside_part nth] in Hw.
      assert (Y : exists q, In q [P 2 0; P 0 2; P (-2) 0] /\ q = P 0 (-2)) by (exists (P 0 (-2)); split; auto; apply (nth_error_In _ w); exact Hw).
      destruct Y as [q [[<-|[<-|[<-|[]]]] E]]; apply (f_equal py) in E; rewrite !py_P in E; lra.
Qed.
Print Assumptions C60_refuted.
Example C60_example : exists m', addKelvin ROps nat Nat.eqb O inside_part outside_part = Ok m'.
Proof.
  apply C60_succeeds_when_the_boundaries_match; [cbn; lia|cbn; lia|cbn; repeat constructor; unfold t0, t1, t2; cbn; lia| |].
  - intros v Hv _ X. cbn in Hv. destruct v as [|[|[|[|[|v]]]]]; try discriminate Hv. unfold pos, org in X. cbn [m_points outside_part nth] in X. apply (f_equal py) in X. rewrite !py_P in X. lra.
  - intros t v Ht Hv Mv. exists v. unfold pos. cbn [m_points m_marks outside_part inside_part] in *.
    destruct v as [|[|[|[|[|v]]]]]; try discriminate Mv; cbn; auto.
Qed.

(** ** C50: magnets *)
(** the surface current of one edge is the tangential component of M times its length, with one sign for the whole boundary *)
Theorem C50_segments : forall eps g M, exists ss : list (pt * pt * R), map_res (ms_segment ROps eps g M) (seq 0 (length g)) = Ok ss /\ map fst ss = edges g /\
  Forall (fun s => let '(a, b, J) := s in dist a b * J = px M * (px b - px a) + py M * (py b - py a) \/ dist a b * J = - (px M * (px b - px a) + py M * (py b - py a))) ss /\
  (forall inside : bool, (forall a b q, In (a, b) (edges g) -> beside eps a b q -> poly_contains ROps g q = inside) ->
     Forall (fun s => let '(a, b, J) := s in dist a b * J = (if inside then -1 else 1) * (px M * (px b - px a) + py M * (py b - py a))) ss /\
     suml ss (fun s => let '(a, b, J) := s in dist a b * J) = 0).
Proof.
  intros eps g M. destruct (magnet_segments eps g M) as [ss [E [E1 [F H]]]]. exists ss. split; auto. split; [exact E1|].
  split; [apply Forall_forall; intros [[a b] J] Hs; rewrite Forall_forall in F; apply (F _ Hs)|]. intros inside Hb. split.
  - specialize (H inside Hb). apply Forall_forall; intros [[a b] J] Hs; rewrite Forall_forall in H; apply (H _ Hs).
  - rewrite <- (net_zero eps g M ss inside E Hb). apply suml_ext. intros [[a b] J] _. reflexivity.
Qed.
Print Assumptions C50_segments.
Theorem C50_rectangle_points_lie_inside : forall x0 y0 x1 y1 eps a b q, x0 < x1 -> y0 < y1 -> 0 <= eps -> eps / 10 <= x1 - x0 -> eps / 10 <= y1 - y0 ->
  In (a, b) (edges [P x0 y0; P x1 y0; P x1 y1; P x0 y1]) -> beside eps a b q -> poly_contains ROps [P x0 y0; P x1 y0; P x1 y1; P x0 y1] q = true.
Proof. exact rect_inside. Qed.
Print Assumptions C50_rectangle_points_lie_inside.
(** k entries of the magnet g: the load of every mesh edge close to an edge of g, k times *)
Theorem C50_load : forall (A : Type) (m : mesh ROps A) (ps : list A) (curJ : A -> R) (mag : A -> pt) mp g p k es, fem_ready m ps -> (2 <= length (m_points m))%nat ->
  mag_polygons ROps A mag (region_map (m_drawing m)) (polygons (m_drawing m)) (regions (m_drawing m)) [] = Ok mp ->
  ms_magnets ROps A mag (region_map (m_drawing m)) mp [] = Ok (repeat (g, mag p) k) -> solid g ->
  Forall (fun e : nat * nat => (fst e < length (m_points m))%nat /\ (snd e < length (m_points m))%nat) es ->
  (forall a b q, In (a, b) (edges g) -> beside (m_epsilon m) a b q -> poly_contains ROps g q = true) ->
  exists S0 S, ms_surface ROps A curJ m = Ok S0 /\ ms_getFemSystem ROps A curJ mag m es = Ok S /\
    forall h, (forall e s, In s (edges g) -> (close m e s -> h e s = 1) /\ (~ close m e s -> h e s = 0)) ->
    forall mu a, (a < length (m_points m))%nat -> vget (sb R (sys_eval S mu)) a = vget (sb R (sys_eval S0 mu)) a +
      INR k * suml es (fun e => suml (edges g) (fun s => h e s * (edge_length m e * (- (px (mag p) * (px (snd s) - px (fst s)) + py (mag p) * (py (snd s) - py (fst s))) / dist (fst s) (snd s))) * (delta a (fst e) + delta a (snd e)))).
Proof. intros A m ps curJ mag. exact (load_times m ps curJ mag). Qed.
Print Assumptions C50_load.
(** a polygon that is alone is entered once for each vertex *)
Theorem C50_alone_counted_once_per_vertex : forall (A : Type) (mag : A -> pt) rm id g p, nth_error rm id = Some p -> g <> [] -> ms_magnets ROps A mag rm [(id, [g])] [] = Ok (repeat (g, mag p) (length g)).
Proof. exact (@lone_magnet). Qed.
Print Assumptions C50_alone_counted_once_per_vertex.
(** inside other polygons: as often as the polygon was found, i.e. once for each label in it *)
Theorem C50_nested_counted_once_per_label : forall (A : Type) (mag : A -> pt) rm id g p k rest l, nth_error rm id = Some p -> (2 <= length l)%nat -> (0 < k)%nat ->
  Permutation l (repeat g k ++ rest) -> minimal l g -> (forall h, In h rest -> ~ minimal l h) -> ms_magnets ROps A mag rm [(id, l)] [] = Ok (repeat (g, mag p) k).
Proof. exact (@minimal_magnets). Qed.
Print Assumptions C50_nested_counted_once_per_label.

(** a square magnet of side 2 with M = (1, 0), alone in its drawing, on two triangles *)
Definition block : list pt := [P 0 0; P 2 0; P 2 2; P 0 2].
Definition magnet_mesh : mesh ROps pt := mkMesh org 3 1 1 block [] [(0, 1, 2); (0, 2, 3)]%nat [0; 0]%nat (mkD [P 1 0] [(P 1 1, O)] [] [] [block]).
Lemma magnet_ready : fem_ready magnet_mesh [P 1 0; P 1 0].
Proof.
  split; [|split; [|split]].
  - split; [|split; [reflexivity|unfold is_u32; cbn; lia]]. cbn. repeat constructor; unfold t0, t1, t2; cbn; lia.
  - cbn. repeat constructor.
  - intros v. unfold degree. cbn. destruct v as [|[|[|[|v]]]]; cbn; lia.
  - unfold proper. cbn [m_tris magnet_mesh]. repeat constructor; unfold tri_turn, pos, t0, t1, t2, turn; cbn [fst snd m_points magnet_mesh]; unfold block; cbn [nth]; rewrite !px_P, !py_P; lra.
Qed.
Lemma block_in : forall p, poly_contains ROps block p = true <-> 0 <= px p <= 2 /\ 0 <= py p <= 2.
Proof. intros p. apply (rect_contains 0 0 2 2 p); lra. Qed.
Lemma block_edges : edges block = [(P 0 0, P 2 0); (P 2 0, P 2 2); (P 2 2, P 0 2); (P 0 2, P 0 0)].
Proof. reflexivity. Qed.
Lemma dist_row : forall x y z, dist (P x y) (P z y) = Rabs (x - z).
Proof. intros x y z. unfold dist. rewrite !px_P, !py_P. replace ((x - z) * (x - z) + (y - y) * (y - y)) with ((x - z) * (x - z)) by ring. apply sqrt_Rsqr_abs. Qed.
Lemma block_solid : solid block.
Proof.
  intros a b H. rewrite block_edges in H. destruct H as [E|[E|[E|[E|[]]]]]; injection E as <- <-; intros X; pose proof (f_equal px X) as X1; pose proof (f_equal py X) as X2; rewrite !px_P in X1; rewrite !py_P in X2; lra.
Qed.
Lemma magnet_found : mag_polygons ROps pt (fun p => p) [P 1 0] [block] [(P 1 1, O)] [] = Ok [(O, [block])].
Proof.
  cbn [mag_polygons snd]. unfold get. cbn [nth_error bind]. unfold vec_neqb. rewrite vec_eqb_R. cbn [bind].
  destruct (Rltb _ _) eqn:E.
  - exfalso. apply Rltb_true in E. change (vzero ROps) with (P 0 0) in E. rewrite dist_row in E. unfold Rabs in E. unfold eps9R in E. destruct (Rcase_abs (1 - 0)); lra.
  - cbn [negb]. cbn [fold_left fst]. replace (poly_contains ROps block (P 1 1)) with true; [reflexivity|]. symmetry. apply block_in. rewrite px_P, py_P. lra.
Qed.
(** away from a horizontal segment *)
Lemma far_row : forall (m : mesh ROps pt) e x z c, 0 < m_epsilon m -> (m_epsilon m / 10 <= Rabs (py (pos m (fst e)) - c) \/ m_epsilon m / 10 <= Rabs (py (pos m (snd e)) - c)) -> ~ close m e (P x c, P z c).
Proof.
  intros m e x z c He H [d1 [d2 [[[q1 [Q1 D1]] _] [[[q2 [Q2 D2]] _] [L1 L2]]]]]. cbn [fst snd] in *.
  assert (Y : forall q, on_segment q (P x c) (P z c) -> py q = c). { intros q [t [_ ->]]. unfold along. rewrite !py_P. ring. }
  pose proof (dist_y (pos m (fst e)) q1). pose proof (dist_y (pos m (snd e)) q2). rewrite (Y q1 Q1) in *. rewrite (Y q2 Q2) in *. lra.
Qed.
Theorem C50_refuted : forall es, Permutation es (unique_edges (m_tris magnet_mesh)) ->
  exists S0 S, ms_surface ROps pt (fun _ => 0) magnet_mesh = Ok S0 /\ ms_getFemSystem ROps pt (fun _ => 0) (fun p => p) magnet_mesh es = Ok S /\
    forall mu, vget (sb R (sys_eval S mu)) 0 = vget (sb R (sys_eval S0 mu)) 0 + 4 * -2.
Proof.
  intros es HP.
  assert (UE : unique_edges (m_tris magnet_mesh) = [(0, 1); (1, 2); (2, 0); (2, 3); (3, 0)]%nat) by reflexivity. rewrite UE in HP.
  destruct (C50_load pt magnet_mesh [P 1 0; P 1 0] (fun _ => 0) (fun p => p) [(O, [block])] block (P 1 0) 4 es magnet_ready) as [S0 [S [E0 [E1 V]]]].
  - cbn. lia.
  - exact magnet_found.
  - apply (lone_magnet (fun p : pt => p) [P 1 0] O block (P 1 0)); [reflexivity|discriminate].
  - exact block_solid.
  - apply Forall_forall. intros e He. apply (Permutation_in _ HP) in He. cbn in He. cbn [length m_points magnet_mesh block]. destruct He as [<-|[<-|[<-|[<-|[<-|[]]]]]]; cbn; lia.
  - cbn [m_epsilon magnet_mesh]. intros a b q H. apply rect_inside; try lra. exact H.
  - exists S0, S. split; auto. split; auto. intros mu.
    rewrite (V (fun e s => hit magnet_mesh e (s, 0))) with (a := O); [|intros e s Hs; apply (hit_spec magnet_mesh e (s, 0)); apply block_solid; rewrite <- surjective_pairing; auto|cbn; lia].
    f_equal. replace (INR 4) with 4 by (cbn [INR]; lra). f_equal. rewrite (suml_perm _ _ _ _ HP). rewrite block_edges.
    assert (NB : P 0 0 <> P 2 0) by (intros X; apply (f_equal px) in X; rewrite !px_P in X; lra). assert (NT : P 2 2 <> P 0 2) by (intros X; apply (f_equal px) in X; rewrite !px_P in X; lra).
    assert (PS : pos magnet_mesh 0 = P 0 0 /\ pos magnet_mesh 1 = P 2 0 /\ pos magnet_mesh 2 = P 2 2 /\ pos magnet_mesh 3 = P 0 2) by (repeat split; reflexivity). destruct PS as [P0 [P1 [P2 P3]]].
    assert (EP : m_epsilon magnet_mesh = 1) by reflexivity.
    assert (H1 : hit magnet_mesh (0, 1)%nat (P 0 0, P 2 0, 0) = 1).
    { apply (hit_spec magnet_mesh (0, 1)%nat (P 0 0, P 2 0, 0) NB). exists 0, 0. cbn [fst snd]. rewrite P0, P1, EP. split; [|split; [|lra]]; (split; [|intros; apply dist_nonneg]).
      - exists (P 0 0). split; [exists 0; split; [lra|]; unfold along; apply pt_ext; rewrite ?px_P, ?py_P; lra|apply dist_self].
      - exists (P 2 0). split; [exists 1; split; [lra|]; unfold along; apply pt_ext; rewrite ?px_P, ?py_P; lra|apply dist_self]. }
    assert (AB : forall x y, 1 / 10 <= x - y \/ 1 / 10 <= y - x -> 1 / 10 <= Rabs (x - y)) by (intros x y H; unfold Rabs; destruct (Rcase_abs (x - y)); lra).
    assert (H2 : hit magnet_mesh (0, 1)%nat (P 2 2, P 0 2, 0) = 0) by (apply (hit_spec magnet_mesh (0, 1)%nat (P 2 2, P 0 2, 0) NT); cbn [fst]; apply far_row; rewrite EP; [lra|]; left; cbn [fst]; rewrite P0, py_P; apply AB; lra).
    assert (H3 : hit magnet_mesh (2, 0)%nat (P 0 0, P 2 0, 0) = 0) by (apply (hit_spec magnet_mesh (2, 0)%nat (P 0 0, P 2 0, 0) NB); cbn [fst]; apply far_row; rewrite EP; [lra|]; left; cbn [fst]; rewrite P2, py_P; apply AB; lra).
    assert (H4 : hit magnet_mesh (2, 0)%nat (P 2 2, P 0 2, 0) = 0) by (apply (hit_spec magnet_mesh (2, 0)%nat (P 2 2, P 0 2, 0) NT); cbn [fst]; apply far_row; rewrite EP; [lra|]; right; cbn [snd]; rewrite P0, py_P; apply AB; lra).
    assert (H5 : hit magnet_mesh (3, 0)%nat (P 0 0, P 2 0, 0) = 0) by (apply (hit_spec magnet_mesh (3, 0)%nat (P 0 0, P 2 0, 0) NB); cbn [fst]; apply far_row; rewrite EP; [lra|]; left; cbn [fst]; rewrite P3, py_P; apply AB; lra).
    assert (H6 : hit magnet_mesh (3, 0)%nat (P 2 2, P 0 2, 0) = 0) by (apply (hit_spec magnet_mesh (3, 0)%nat (P 2 2, P 0 2, 0) NT); cbn [fst]; apply far_row; rewrite EP; [lra|]; right; cbn [snd]; rewrite P0, py_P; apply AB; lra).
    rewrite !suml_cons. cbn [fst snd]. rewrite H1, H2, H3, H4, H5, H6. unfold delta. cbn [Nat.eqb]. rewrite !px_P, !py_P, !dist_row.
    assert (EL : edge_length magnet_mesh (0, 1)%nat = 2) by (unfold edge_length; cbn [fst snd]; rewrite P0, P1, dist_row; rewrite Rabs_left by lra; lra). rewrite EL.
    rewrite (Rabs_left (0 - 2)) by lra. unfold suml. cbn [fold_right map].
    assert (Z : forall z, - (1 * (2 - 2) + 0 * (2 - 0)) / z = 0 /\ - (1 * (0 - 0) + 0 * (0 - 2)) / z = 0) by (intros z; split; unfold Rdiv; ring).
    rewrite !(proj1 (Z _)), !(proj2 (Z _)). rewrite (Rabs_right (2 - 0)) by lra. field.
Qed.
Print Assumptions C50_refuted.
(** the same magnet inside a larger polygon is entered once *)
Example C50_example : fem_ready magnet_mesh [P 1 0; P 1 0] /\ solid block /\
  ms_magnets ROps pt (fun p => p) [P 1 0] [(O, [[P (-5) (-5); P 5 (-5); P 5 5; P (-5) 5]; block])] [] = Ok [(block, P 1 0)].
Proof.
  split; [exact magnet_ready|]. split; [exact block_solid|].
  set (big := [P (-5) (-5); P 5 (-5); P 5 5; P (-5) 5]).
  assert (BG : poly_contains_poly ROps big block = true).
  { unfold poly_contains_poly. apply forallb_forall. intros p Hp. apply (rect_contains (-5) (-5) 5 5 p); try lra. cbn in Hp. destruct Hp as [<-|[<-|[<-|[<-|[]]]]]; rewrite px_P, py_P; lra. }
  assert (SM : poly_contains_poly ROps block big = false).
  { destruct (poly_contains_poly ROps block big) eqn:E; auto. unfold poly_contains_poly in E. rewrite forallb_forall in E. specialize (E (P 5 5) ltac:(cbn; auto)). apply block_in in E. rewrite px_P, py_P in E. lra. }
  assert (DF : differ big block). { right. exists (P (-5) (-5)), (P 0 0). split; [cbn; auto|]. unfold near. intros H. pose proof (dist_x (P (-5) (-5)) (P 0 0)) as X. rewrite !px_P in X. unfold Rabs in X. destruct (Rcase_abs (-5 - 0)); unfold tol9 in H; lra. }
  apply (minimal_magnets (fun p : pt => p) [P 1 0] O block (P 1 0) 1 [big]); auto.
  - cbn. apply perm_swap.
  - intros h [<-|[<-|[]]] D; auto. exfalso. exact (differ_self _ D).
  - intros h [<-|[]] M. specialize (M block (or_intror (or_introl eq_refl)) DF). congruence.
Qed.
