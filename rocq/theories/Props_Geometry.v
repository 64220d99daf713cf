(** Properties C19-C26 and C51.  Vocabulary in GeometrySpec.v, model in GeometryModel.v. *)
From Coq Require Import String.
From Coq Require Import List Arith ZArith NArith Bool Lia Reals Lra.
From Coq Require Import Floats.SpecFloat.
From Verif Require Import Base SumR GeometryModel GeometrySpec Geometry_proofs Circle_proofs Polygon_proofs Segment_proofs Utils_proofs.
Import ListNotations.
Local Open Scope R_scope.

(** IEEE points for the concrete runs *)
Definition FP (x y : Z) : vec FOps := @mkV FOps (f64_ofZ x) (f64_ofZ y).

(** *** C19: rotations and areas *)
Theorem C19_rotation_isometry : forall (p q c : pt) (a : R),
  dist (rotate ROps sin cos p a c) (rotate ROps sin cos q a c) = dist p q.
Proof. exact rot_isometry. Qed.
Print Assumptions C19_rotation_isometry.
Theorem C19_rotation_composes : forall (p c : pt) (a b : R),
  rotate ROps sin cos (rotate ROps sin cos p a c) b c = rotate ROps sin cos p (a + b) c.
Proof. exact rot_compose. Qed.
Print Assumptions C19_rotation_composes.
Theorem C19_rotation_undone : forall (p c : pt) (a : R), rotate ROps sin cos (rotate ROps sin cos p a c) (- a) c = p.
Proof. exact rot_inverse. Qed.
Print Assumptions C19_rotation_undone.
Theorem C19_rotation_fixes_centre : forall (c : pt) (a : R), rotate ROps sin cos c a c = c.
Proof. exact rot_center. Qed.
Print Assumptions C19_rotation_fixes_centre.
(** orientation: a quarter turn is counterclockwise *)
Theorem C19_quarter_turn : forall p : pt, rotate ROps sin cos p (PI / 2) (P 0 0) = P (- py p) (px p).
Proof. intros p. destruct (normal_props p) as [_ [_ E]]. rewrite <- E. reflexivity. Qed.
Print Assumptions C19_quarter_turn.
Theorem C19_area : forall a b c : pt, doubleOrientedArea ROps a b c = turn a b c /\ area ROps a b c = Ok (Rabs (turn a b c) / 2) /\
  (forall r q, area ROps a b c = Ok r -> area ROps b c a = Ok q -> r = q) /\
  doubleOrientedArea ROps b c a = doubleOrientedArea ROps a b c /\ doubleOrientedArea ROps b a c = - doubleOrientedArea ROps a b c.
Proof.
  intros a b c. repeat split; try apply darea_turn; try apply area_R.
  - intros r q. rewrite !area_R. intros H1 H2. inversion H1; inversion H2.
    assert (E : turn b c a = turn a b c) by (unfold turn; ring). rewrite E. auto.
  - rewrite !darea_turn. assert (E : turn b c a = turn a b c) by (unfold turn; ring). exact E.
  - rewrite !darea_turn. assert (E : turn b a c = - turn a b c) by (unfold turn; ring). exact E.
Qed.
Print Assumptions C19_area.
Theorem C19_area_invariant : forall (p q r c v : pt) (a : R),
  doubleOrientedArea ROps (rotate ROps sin cos p a c) (rotate ROps sin cos q a c) (rotate ROps sin cos r a c) = doubleOrientedArea ROps p q r /\
  doubleOrientedArea ROps (vadd ROps p v) (vadd ROps q v) (vadd ROps r v) = doubleOrientedArea ROps p q r.
Proof.
  intros. split; rewrite !darea_turn; [apply rot_turn|].
  change (turn (shift v p) (shift v q) (shift v r) = turn p q r). unfold turn. rewrite !shift_x, !shift_y. ring.
Qed.
Print Assumptions C19_area_invariant.
(** a turned polygon: corner by corner the same distances from the centre and from each other, the same orientation; turning back undoes it *)
Theorem C19_polygon_rotation : forall (l : list pt) (a : R) (c : pt),
  let g := poly_rotate ROps sin cos l a c in
  length g = length l /\ poly_rotate ROps sin cos g (- a) c = l /\
  forall i j k (p q r : pt), nth_error l i = Some p -> nth_error l j = Some q -> nth_error l k = Some r ->
  exists p' q' r', nth_error g i = Some p' /\ nth_error g j = Some q' /\ nth_error g k = Some r' /\ dist p' c = dist p c /\ dist p' q' = dist p q /\ doubleOrientedArea ROps p' q' r' = doubleOrientedArea ROps p q r.
Proof.
  intros l a c g. unfold g, poly_rotate. split; [apply map_length|]. split.
  - rewrite map_map. rewrite <- (map_id l) at 2. apply map_ext. intros p. apply rot_inverse.
  - intros i j k p q r H1 H2 H3. exists (rotate ROps sin cos p a c), (rotate ROps sin cos q a c), (rotate ROps sin cos r a c).
    rewrite !nth_error_map. change (vec ROps) with pt. rewrite H1, H2, H3. cbn [option_map]. split; [auto|]. split; [auto|]. split; [auto|]. split; [|split].
    + rewrite <- (rot_isometry p c c a). rewrite rot_center. auto.
    + apply rot_isometry.
    + apply C19_area_invariant. exact c.
Qed.
Print Assumptions C19_polygon_rotation.
Theorem C19_normal : forall p : pt, vdot ROps p (normal ROps p) = 0 /\ dist (normal ROps p) org = dist p org.
Proof. intros p. destruct (normal_props p) as [H1 [H2 _]]. auto. Qed.
Print Assumptions C19_normal.
Theorem C19_normalize : (forall p : pt, p <> P 0 0 ->
    exists q : pt, normalize ROps p = Ok q /\ dist q (P 0 0) = 1 /\ px p = dist p (P 0 0) * px q /\ py p = dist p (P 0 0) * py q) /\
  normalize ROps (P 0 0) = Ok (P 0 0).
Proof. split; [exact normalize_R|exact normalize_zero]. Qed.
Print Assumptions C19_normalize.
Example C19_example : doubleOrientedArea ROps (P 0 0) (P 2 0) (P 0 3) = 6 /\ P 3 4 <> P 0 0.
Proof. split; [rewrite darea_turn; change (turn (P 0 0) (P 2 0) (P 0 3) = 6); unfold turn; rewrite ?px_P, ?py_P; ring|]. intros H. apply (f_equal px) in H. rewrite !px_P in H. lra. Qed.

(** *** C20: operator== and hash *)
Theorem C20_equality : forall p q : pt, exists b, vec_eqb ROps p q = Ok b /\ (b = true <-> dist p q < / 10 ^ 9) /\ vec_eqb ROps q p = Ok b.
Proof.
  intros p q. exists (Rltb (dist p q) eps9R). rewrite !vec_eqb_R. split; auto. split; [apply Rltb_true|]. rewrite (dist_sym q p). auto.
Qed.
Print Assumptions C20_equality.
(** operator!= is its negation *)
Theorem C20_inequality : forall p q : pt, exists b, vec_neqb ROps p q = Ok b /\ (b = true <-> / 10 ^ 9 <= dist p q).
Proof.
  intros p q. destruct (C20_equality p q) as [b [E [I _]]]. exists (negb b). unfold vec_neqb. rewrite E. split; [reflexivity|]. destruct b; cbn [negb].
  - split; [discriminate|]. pose proof (proj1 I eq_refl). lra.
  - split; [|reflexivity]. intros _. apply Rnot_lt_le. intros L. apply I in L. discriminate.
Qed.
Print Assumptions C20_inequality.
Theorem C20_reflexive : forall p : pt, vec_eqb ROps p p = Ok true.
Proof. intros p. rewrite vec_eqb_R, dist_self. f_equal. apply Rltb_true. apply eps9R_pos. Qed.
Print Assumptions C20_reflexive.
Theorem C20_transitive_refuted : exists p q r : pt,
  vec_eqb ROps p q = Ok true /\ vec_eqb ROps q r = Ok true /\ vec_eqb ROps p r = Ok false.
Proof.
  exists (P 0 0), (P (6 / 10 ^ 10) 0), (P (12 / 10 ^ 10) 0).
  assert (E : eps9R = 10 / 10 ^ 10) by (unfold eps9R; cbn [eps9 ROps]; lra).
  rewrite !vec_eqb_R, !dist_horiz, E. repeat split; f_equal; [apply Rltb_true|apply Rltb_true|apply Rltb_false].
  - rewrite Rabs_left; lra.
  - rewrite Rabs_left; lra.
  - rewrite Rabs_left; lra.
Qed.
Print Assumptions C20_transitive_refuted.
(** what does hold: errors add up *)
Theorem C20_chain : forall p q r : pt, vec_eqb ROps p q = Ok true -> vec_eqb ROps q r = Ok true -> dist p r < 2 * / 10 ^ 9.
Proof.
  intros p q r. rewrite !vec_eqb_R. intros H1 H2. inversion H1 as [E1]. inversion H2 as [E2]. apply Rltb_true in E1, E2.
  pose proof (dist_tri p q r). change eps9R with (/ 10 ^ 9) in *. lra.
Qed.
Print Assumptions C20_chain.
(** the hash respects == only if the hash of a double is the same for all doubles *)
Theorem C20_hash_refuted : forall h : R -> N,
  (forall p q : pt, vec_eqb ROps p q = Ok true -> vec_hash ROps h p = vec_hash ROps h q) -> forall x y : R, h x = h y.
Proof. exact hash_const. Qed.
Print Assumptions C20_hash_refuted.
Example C20_hash_example : exists h : R -> N, forall p q : pt, vec_eqb ROps p q = Ok true -> vec_hash ROps h p = vec_hash ROps h q.
Proof. exists (fun _ => 7%N). reflexivity. Qed.
(** in IEEE arithmetic reflexivity fails too *)
Theorem C20_reflexive_nan_refuted : exists p : vec FOps, f64_is_nan (vx p) = false /\ f64_is_nan (vy p) = false /\ vec_eqb FOps p p = Ok false.
Proof. exists (@mkV FOps (S754_infinity false) (f64_ofZ 0)). vm_compute. auto. Qed.
Print Assumptions C20_reflexive_nan_refuted.

(** *** C21: point in triangle *)
Theorem C21_exact : forall p a b c : pt, 3 * eps52 <= Rabs (turn a b c) ->
  (pointInTriangle ROps p a b c = true <->
   (eps52 <= turn p a b /\ eps52 <= turn p b c /\ eps52 <= turn p c a) \/
   (turn p a b <= - eps52 /\ turn p b c <= - eps52 /\ turn p c a <= - eps52)).
Proof. exact pit_nondegenerate. Qed.
Print Assumptions C21_exact.
Theorem C21_sound : forall p a b c : pt, 3 * eps52 <= Rabs (turn a b c) ->
  pointInTriangle ROps p a b c = true -> in_open_triangle p a b c.
Proof. exact pit_interior. Qed.
Print Assumptions C21_sound.
Theorem C21_complete : forall p a b c : pt,
  (forall u v w, u + v + w = 1 -> px p = u * px a + v * px b + w * px c -> py p = u * py a + v * py b + w * py c ->
     eps52 <= u * Rabs (turn a b c) /\ eps52 <= v * Rabs (turn a b c) /\ eps52 <= w * Rabs (turn a b c)) ->
  turn a b c <> 0 -> pointInTriangle ROps p a b c = true.
Proof. exact pit_margin. Qed.
Print Assumptions C21_complete.
Theorem C21_vertex_order : forall p a b c : pt,
  pointInTriangle ROps p b c a = pointInTriangle ROps p a b c /\ pointInTriangle ROps p b a c = pointInTriangle ROps p a b c.
Proof. intros. split; [apply pit_rotate_order|apply pit_swap_order]. Qed.
Print Assumptions C21_vertex_order.
Theorem C21_degenerate_refuted : exists p a b c : pt, turn a b c = 0 /\ ~ in_closed_triangle p a b c /\ pointInTriangle ROps p a b c = true.
Proof.
  exists (P 100 0), (P 0 0), (P 1 0), (P 2 0). split; [|split].
  - unfold turn; rewrite ?px_P, ?py_P; ring.
  - intros [u [v [w [H1 [H2 [H3 [H4 [H5 _]]]]]]]]. rewrite ?px_P in H5. lra.
  - apply pit_exact. cbv zeta. left. unfold turn; rewrite ?px_P, ?py_P. pose proof eps52_pos.
    repeat split; match goal with |- Rabs ?x < _ => replace x with 0 by ring end; rewrite Rabs_R0; auto.
Qed.
Print Assumptions C21_degenerate_refuted.
(** the tolerance is absolute: a triangle with sides of a nanometre accepts points outside it *)
Theorem C21_small_triangle_refuted : exists p a b c : pt, turn a b c <> 0 /\ ~ in_closed_triangle p a b c /\ pointInTriangle ROps p a b c = true.
Proof.
  set (t := / 10 ^ 9). assert (Ht : 0 < t) by (unfold t; apply Rinv_0_lt_compat, pow_lt; lra).
  assert (Ht2 : t * t < eps52).
  { unfold t, eps52. rewrite <- Rinv_mult. apply Rinv_lt_contravar; [apply Rmult_lt_0_compat; [|apply Rmult_lt_0_compat]; apply pow_lt; lra|].
    rewrite <- pow_add. rewrite !pow_IZR. apply IZR_lt. vm_compute. auto. }
  exists (P t t), (P 0 0), (P t 0), (P 0 t). split; [|split].
  - unfold turn; rewrite ?px_P, ?py_P. replace (_ - _) with (t * t) by ring. pose proof (Rmult_lt_0_compat t t Ht Ht). lra.
  - intros [u [v [w [H1 [H2 [H3 [H4 [H5 H6]]]]]]]]. rewrite ?px_P, ?py_P in *.
    assert (v = 1) by (apply Rmult_eq_reg_r with t; lra). assert (w = 1) by (apply Rmult_eq_reg_r with t; lra). lra.
  - pose proof (Rmult_lt_0_compat t t Ht Ht). apply pit_exact. cbv zeta. left. unfold turn; rewrite ?px_P, ?py_P.
    repeat split; apply Rabs_def1; ring_simplify; simpl pow; rewrite ?Rmult_1_r; lra.
Qed.
Print Assumptions C21_small_triangle_refuted.
Example C21_example : pointInTriangle ROps (P 1 1) (P 0 0) (P 4 0) (P 0 4) = true /\ 3 * eps52 <= Rabs (turn (P 0 0) (P 4 0) (P 0 4)).
Proof.
  assert (H : eps52 <= 1) by (unfold eps52; replace 1 with (/ 1) by field; apply Rinv_le_contravar; [lra|rewrite pow_IZR; apply IZR_le; vm_compute; discriminate]).
  pose proof eps52_pos. split.
  - apply pit_exact. cbv zeta. right; left. unfold turn; rewrite ?px_P, ?py_P. lra.
  - unfold turn; rewrite ?px_P, ?py_P. rewrite Rabs_right; lra.
Qed.

(** *** C22: polygon containment *)
Theorem C22_boundary_counts : forall (l : list pt) (p : pt), on_boundary l p -> poly_contains ROps l p = true.
Proof. exact contains_boundary. Qed.
Print Assumptions C22_boundary_counts.
Theorem C22_even_odd : forall (l : list pt) (p : pt), ~ on_boundary l p ->
  exists k, ray_count p (edges l) k /\ (poly_contains ROps l p = true <-> Nat.Odd k).
Proof. exact even_odd. Qed.
Print Assumptions C22_even_odd.
Theorem C22_ray_count_unique : forall p l k1 k2, ray_count p l k1 -> ray_count p l k2 -> k1 = k2.
Proof. exact ray_count_fun. Qed.
Print Assumptions C22_ray_count_unique.
Theorem C22_starting_vertex : forall (l1 l2 : list pt) (p : pt), poly_contains ROps (l2 ++ l1) p = poly_contains ROps (l1 ++ l2) p.
Proof. exact contains_start. Qed.
Print Assumptions C22_starting_vertex.
Theorem C22_direction : forall (l : list pt) (p : pt), poly_contains ROps (rev l) p = poly_contains ROps l p.
Proof. exact contains_rev. Qed.
Print Assumptions C22_direction.
Theorem C22_translation : forall (v : pt) (l : list pt) (p : pt),
  poly_contains ROps (poly_translate ROps l v) (vadd ROps p v) = poly_contains ROps l p.
Proof. exact contains_shift. Qed.
Print Assumptions C22_translation.
Theorem C22_rectangle : forall x0 y0 x1 y1 (p : pt), x0 < x1 -> y0 < y1 ->
  (poly_contains ROps [P x0 y0; P x1 y0; P x1 y1; P x0 y1] p = true <-> x0 <= px p <= x1 /\ y0 <= py p <= y1).
Proof. exact rect_contains. Qed.
Print Assumptions C22_rectangle.
Theorem C22_triangle : forall p a b c : pt, turn a b c <> 0 -> (poly_contains ROps [a; b; c] p = true <-> in_closed_triangle p a b c).
Proof. exact triangle_contains. Qed.
Print Assumptions C22_triangle.
Theorem C22_outside_bounding_box : forall (l : list pt) (p : pt),
  (forall v, In v l -> px v < px p) \/ (forall v, In v l -> px p < px v) \/
  (forall v, In v l -> py v < py p) \/ (forall v, In v l -> py p < py v) ->
  poly_contains ROps l p = false.
Proof. exact outside_bb. Qed.
Print Assumptions C22_outside_bounding_box.
Theorem C22_tolerance : forall (l : list pt) (p : pt) (flag : bool) (eps : R), (forall a b, In (a, b) (edges l) -> a <> b) ->
  exists r, poly_contains_eps ROps l p flag eps = Ok r /\
    (r = true <-> if flag then poly_contains ROps l p = true \/ near_boundary l p eps
                  else poly_contains ROps l p = true /\ ~ near_boundary l p eps).
Proof. exact contains_eps_R. Qed.
Print Assumptions C22_tolerance.
Theorem C22_polygon_in_polygon : forall l q : list pt,
  poly_contains_poly ROps l q = true <-> forall v, In v q -> poly_contains ROps l v = true.
Proof. intros. apply forallb_forall. Qed.
Print Assumptions C22_polygon_in_polygon.
(** an L-shape, a point inside, a point in the notch, and a vertex *)
Example C22_example :
  let L := [FP 0 0; FP 4 0; FP 4 1; FP 1 1; FP 1 4; FP 0 4] in
  poly_contains FOps L (@mkV FOps (f64_div (f64_ofZ 1) (f64_ofZ 2)) (f64_ofZ 1)) = true /\
  poly_contains FOps L (FP 2 2) = false /\ poly_contains FOps L (FP 1 1) = true /\ poly_contains FOps L (FP (-1) 4) = false.
Proof. vm_compute. auto. Qed.
Example C22_no_degenerate_edges : forall a b, In (a, b) (edges [P 0 0; P 4 0; P 0 4]) -> a <> b.
Proof.
  intros a b [H|[H|[H|[]]]]; inversion H; subst; intros E;
  pose proof (f_equal px E) as E1; pose proof (f_equal py E) as E2; rewrite ?px_P, ?py_P in *; lra.
Qed.

(** *** C23: distance from a point to a segment *)
Theorem C23_minimum : forall p a b : pt, a <> b -> exists d, pointSegmentDistance ROps p a b = Ok d /\
  (exists q, on_segment q a b /\ d = dist p q) /\ (forall q, on_segment q a b -> d <= dist p q).
Proof.
  intros p a b H. destruct (psd_R p a b H) as [t [d [H1 [H2 [H3 H4]]]]]. exists d. split; auto. split.
  - exists (along a b t). split; auto. exists t; auto.
  - intros q [s [Hs ->]]. auto.
Qed.
Print Assumptions C23_minimum.
Theorem C23_degenerate_refuted : forall p a : pt, is_nonfin (pointSegmentDistance ROps p a a).
Proof. exact psd_degenerate. Qed.
Print Assumptions C23_degenerate_refuted.
(** in IEEE arithmetic the answer is NaN, so no comparison with a tolerance ever succeeds *)
Theorem C23_degenerate_nan_refuted : exists p a : vec FOps, exists d, pointSegmentDistance FOps p a a = Ok d /\ f64_is_nan d = true /\
  forall e, leb FOps d e = false.
Proof.
  exists (FP 3 4), (FP 0 0), S754_nan. split; [vm_compute; auto|]. split; auto. 
Qed.
Print Assumptions C23_degenerate_nan_refuted.
Example C23_example : P 0 0 <> P 4 0.
Proof. intros H. apply (f_equal px) in H. rewrite !px_P in H. lra. Qed.

(** *** C24: segment intersection *)
Theorem C24_exact_partial : forall a b c d : pt, a <> b -> coarse_for a b c -> coarse_for a b d -> ~ touch a b c d ->
  (segmentsIntersect ROps e100 a b c d = true <-> share_point a b c d).
Proof. intros a b c d H1 H2 H3 H4. apply (segments_main a b c d H1 H2 H3); auto. Qed.
Print Assumptions C24_exact_partial.
Theorem C24_touching_exact : forall a b c d : pt, a <> b -> coarse_for a b c -> coarse_for a b d -> touch a b c d ->
  share_point a b c d /\ (segmentsIntersect ROps e100 a b c d = true <-> 0 < turn c d a \/ 0 < turn c d b).
Proof. intros a b c d H1 H2 H3 H4. apply (segments_main a b c d H1 H2 H3); auto. Qed.
Print Assumptions C24_touching_exact.
(** the configurations concerned: an endpoint of the first segment in the relative interior of the second *)
Theorem C24_touch_is_a_touch : forall a b c d : pt, touch a b c d -> exists q t, (q = a \/ q = b) /\ 0 < t < 1 /\ q = along c d t.
Proof.
  intros a b c d [H1 H2]. assert (N : c <> d) by (intros ->; destruct H1; lra).
  assert (G : forall q, q = a \/ q = b -> turn c d q = 0 -> exists t, 0 < t < 1 /\ q = along c d t).
  { intros q Hq Hz. destruct (collinear_param c d q N Hz) as [t Et].
    assert (Z : turn a b q = 0) by (destruct Hq; subst q; unfold turn; ring).
    rewrite Et, turn_along in Z. exists t. split; auto.
    destruct (Rle_dec t 0) as [L|L]; [|destruct (Rle_dec 1 t) as [M|M]; [|lra]]; exfalso; destruct H1 as [[A B]|[A B]].
    - pose proof (Rmult_le_pos (- t) (turn a b d - turn a b c)). lra.
    - pose proof (Rmult_le_pos (- t) (turn a b c - turn a b d)). lra.
    - pose proof (Rmult_le_pos (t - 1) (turn a b d - turn a b c)). lra.
    - pose proof (Rmult_le_pos (t - 1) (turn a b c - turn a b d)). lra. }
  destruct H2 as [H2|H2]; [destruct (G a) as [t [T1 T2]]; auto; exists a, t; auto|destruct (G b) as [t [T1 T2]]; auto; exists b, t; auto].
Qed.
Print Assumptions C24_touch_is_a_touch.
(** the answer true is always right, for every pair of segments with the given granularity *)
Theorem C24_sound : forall a b c d : pt, a <> b -> coarse_for a b c -> coarse_for a b d ->
  segmentsIntersect ROps e100 a b c d = true -> share_point a b c d.
Proof.
  intros a b c d H1 H2 H3 H. destruct (segments_main a b c d H1 H2 H3) as [A B].
  destruct (Rtotal_order (turn a b c) 0) as [L|[L|L]]; destruct (Rtotal_order (turn a b d) 0) as [M|[M|M]];
  destruct (Req_dec (turn c d a) 0) as [N|N]; destruct (Req_dec (turn c d b) 0) as [K|K];
  try (apply A; auto; unfold touch; intros [X Y]; destruct X, Y; lra);
  apply B; unfold touch; auto.
Qed.
Print Assumptions C24_sound.
(** inputs on a grid of 1e-49 have that granularity *)
Theorem C24_grid : forall a b q : pt, on_grid a -> on_grid b -> on_grid q -> coarse_for a b q.
Proof. exact on_grid_coarse. Qed.
Print Assumptions C24_grid.
(** a proper crossing is always seen *)
Theorem C24_crossing_detected : forall a b c d : pt, cross_properly a b c d -> e100 <= Rabs (turn a b c) -> e100 <= Rabs (turn a b d) ->
  segmentsIntersect ROps e100 a b c d = true.
Proof. exact proper_detected. Qed.
Print Assumptions C24_crossing_detected.
Lemma grid0 : forall i j : Z, on_grid (P (IZR i) (IZR j)).
Proof.
  intros i j. exists (i * 10 ^ 49)%Z, (j * 10 ^ 49)%Z. rewrite px_P, py_P, !mult_IZR.
  replace (IZR (10 ^ 49)) with (10 ^ 49) by (rewrite pow_IZR; f_equal).
  split; rewrite Rmult_assoc, Rinv_r; try ring; apply pow_nonzero; lra.
Qed.
Theorem C24_direction_refuted : exists a b c d : pt, share_point a b c d /\
  segmentsIntersect ROps e100 a b c d = true /\ segmentsIntersect ROps e100 a b d c = false /\ segmentsIntersect ROps e100 d c a b = true.
Proof.
  exists (P 0 0), (P 0 1), (P (-1) 0), (P 1 0).
  assert (C1 : forall i j k l m n : Z, coarse_for (P (IZR i) (IZR j)) (P (IZR k) (IZR l)) (P (IZR m) (IZR n))) by (intros; apply on_grid_coarse; apply grid0).
  assert (N1 : P 0 0 <> P 0 1) by (intros H; apply (f_equal py) in H; rewrite !py_P in H; lra).
  assert (N2 : P 1 0 <> P (-1) 0) by (intros H; apply (f_equal px) in H; rewrite !px_P in H; lra).
  assert (T1 : touch (P 0 0) (P 0 1) (P (-1) 0) (P 1 0)) by (unfold touch, turn; rewrite ?px_P, ?py_P; lra).
  assert (T2 : touch (P 0 0) (P 0 1) (P 1 0) (P (-1) 0)) by (unfold touch, turn; rewrite ?px_P, ?py_P; lra).
  assert (T3 : ~ touch (P 1 0) (P (-1) 0) (P 0 0) (P 0 1)) by (unfold touch, turn; rewrite ?px_P, ?py_P; lra).
  destruct (segments_main _ _ _ _ N1 (C1 0 0 0 1 (-1) 0)%Z (C1 0 0 0 1 1 0)%Z) as [_ A1]. destruct (A1 T1) as [S1 B1].
  destruct (segments_main _ _ _ _ N1 (C1 0 0 0 1 1 0)%Z (C1 0 0 0 1 (-1) 0)%Z) as [_ A2]. destruct (A2 T2) as [S2 B2].
  destruct (segments_main _ _ _ _ N2 (C1 1 0 (-1) 0 0 0)%Z (C1 1 0 (-1) 0 0 1)%Z) as [A3 _]. specialize (A3 T3).
  split; auto. split; [|split].
  - apply B1. unfold turn; rewrite ?px_P, ?py_P. lra.
  - apply not_true_iff_false. rewrite B2. unfold turn; rewrite ?px_P, ?py_P. lra.
  - apply A3. exists (P 0 0). split.
    + exists (1/2). split; [lra|]. unfold along; rewrite ?px_P, ?py_P. f_equal; field.
    + exists 0. split; [lra|]. unfold along; rewrite ?px_P, ?py_P. f_equal; field.
Qed.
Print Assumptions C24_direction_refuted.
(** the same in IEEE arithmetic (the constant 1e-100 there is any e; here the exact zero comparison e = 2^-300) *)
Example C24_direction_ieee :
  let e := S754_finite false (2 ^ 52)%positive (-352) in
  segmentsIntersect FOps e (FP 0 0) (FP 0 1) (FP (-1) 0) (FP 1 0) = true /\
  segmentsIntersect FOps e (FP 0 0) (FP 0 1) (FP 1 0) (FP (-1) 0) = false.
Proof. vm_compute. auto. Qed.
Theorem C24_degenerate_refuted : exists a c d : pt, ~ share_point a a c d /\ segmentsIntersect ROps e100 a a c d = true.
Proof.
  exists (P 0 0), (P (-1) 5), (P 1 5). split.
  - intros [p [[s [Hs E1]] [t [Ht E2]]]]. rewrite E1 in E2. apply (f_equal py) in E2. rewrite !along_y, ?px_P, ?py_P in E2. lra.
  - rewrite intersect_unfold. cbv zeta. unfold within. rewrite !fmin_R, !fmax_R. unfold turn. rewrite ?px_P, ?py_P.
    pose proof e100_pos as He. assert (H1 : e100 < 1).
    { unfold e100. rewrite <- Rinv_1. apply Rinv_lt_contravar; [|rewrite pow_IZR; apply IZR_lt; vm_compute; auto]. rewrite Rmult_1_l. apply pow_lt; lra. }
    assert (Z : forall x, x = 0 -> Rltb (Rabs x) e100 = true) by (intros x ->; apply Rltb_true; rewrite Rabs_R0; auto).
    assert (Z2 : forall x, x = 0 -> Rltb e100 (Rabs x) = false) by (intros x ->; apply Rltb_false; rewrite Rabs_R0; lra).
    assert (F : forall x, (x = 1 \/ x = -1) -> Rltb (Rabs x) e100 = false).
    { intros x Hx. apply Rltb_false. destruct Hx as [-> | ->]; [rewrite Rabs_R1|rewrite Rabs_left]; lra. }
    repeat match goal with
    | |- context [Rltb (Rabs ?x) e100] => first [rewrite (Z x) by ring | rewrite (F x) by lra]
    | |- context [Rltb e100 (Rabs ?x)] => rewrite (Z2 x) by ring
    end.
    replace (Rmin 0 0) with 0 by (unfold Rmin; destruct (Rle_dec 0 0); auto). replace (Rmax 0 0) with 0 by (unfold Rmax; destruct (Rle_dec 0 0); auto).
    replace (Rltb (0 - e100) (-1)) with false by (symmetry; apply Rltb_false; lra).
    replace (Rltb (0 - e100) 1) with true by (symmetry; apply Rltb_true; lra).
    replace (Rltb 1 (0 + e100)) with false by (symmetry; apply Rltb_false; lra).
    replace (Rltb 0 (-1)) with false by (symmetry; apply Rltb_false; lra).
    replace (Rltb 0 1) with true by (symmetry; apply Rltb_true; lra). reflexivity.
Qed.
Print Assumptions C24_degenerate_refuted.
Example C24_example : on_grid (P 1 2) /\ ~ touch (P 0 0) (P 4 4) (P 0 4) (P 4 0) /\ cross_properly (P 0 0) (P 4 4) (P 0 4) (P 4 0).
Proof.
  split; [apply (grid0 1 2)|]. split; [unfold touch, turn; rewrite ?px_P, ?py_P; lra|].
  exists (1/2), (1/2). unfold turn, along. rewrite ?px_P, ?py_P. repeat split; try lra. f_equal; field.
Qed.

(** the bounding-box prefilter of pointInSegmentBB *)
Theorem C24_bounding_box : forall p a b : pt, (pointInSegmentBB ROps p a b = true <->
  Rmin (px a) (px b) <= px p <= Rmax (px a) (px b) /\ Rmin (py a) (py b) <= py p <= Rmax (py a) (py b)) /\
  (on_segment p a b -> pointInSegmentBB ROps p a b = true).
Proof. intros. split; [apply bb_R|apply bb_segment]. Qed.
Print Assumptions C24_bounding_box.

(** *** C25: enclosing circles *)
Theorem C25_enclosing_exact : forall l : list pt, l <> [] -> exists c, getEnclosingCircle ROps l = Ok c /\
  center c = P (sumx l / INR (length l)) (sumy l / INR (length l)) /\
  (forall p, In p l -> dist p org <= radius c) /\ (exists p, In p l /\ radius c = dist p org).
Proof. exact gec_R. Qed.
Print Assumptions C25_enclosing_exact.
Theorem C25_enclosing_refuted : exists (l : list pt) (c : circle ROps), getEnclosingCircle ROps l = Ok c /\
  ~ encloses c l /\ ~ encloses (@mkCircle ROps (center c) (3 / 2 * radius c)) l.
Proof.
  exists [P (-10) 0; P (-10) 0; P (-10) 0; P (-10) 0; P (-10) 0; P 10 0].
  destruct (gec_R [P (-10) 0; P (-10) 0; P (-10) 0; P (-10) 0; P (-10) 0; P 10 0]) as [c [E [Hc [_ [q [Hq Hr]]]]]]; [discriminate|].
  exists c. split; auto.
  assert (Er : radius c = 10).
  { rewrite Hr. assert (Hq' : q = P (-10) 0 \/ q = P 10 0) by (simpl in Hq; intuition auto).
    destruct Hq' as [-> | ->]; unfold org; rewrite dist_horiz; [rewrite Rabs_left|rewrite Rabs_right]; lra. }
  assert (Ec : center c = P (- 20 / 3) 0).
  { rewrite Hc. cbn [sumx sumy length INR]. rewrite ?px_P, ?py_P. f_equal; field. }
  assert (D : dist (center c) (P 10 0) = 50 / 3).
  { rewrite Ec, dist_horiz, Rabs_left; lra. }
  split; intros H; specialize (H (P 10 0)); simpl in H; rewrite ?D, Er in H.
  - assert (50 / 3 <= 10) by (apply H; auto 10). lra.
  - assert (50 / 3 <= 3 / 2 * 10) by (apply H; auto 10). lra.
Qed.
Print Assumptions C25_enclosing_refuted.
Theorem C25_double_radius_encloses : forall (l : list pt) (c : circle ROps), l <> [] -> getEnclosingCircle ROps l = Ok c ->
  encloses (@mkCircle ROps (center c) (2 * radius c)) l.
Proof. exact gec_double. Qed.
Print Assumptions C25_double_radius_encloses.
(** a drawing whose centroid is the origin is enclosed *)
Theorem C25_centred_encloses : forall (l : list pt) (c : circle ROps), l <> [] -> sumx l = 0 -> sumy l = 0 ->
  getEnclosingCircle ROps l = Ok c -> encloses c l.
Proof.
  intros l c Hl Hx Hy E p Hp. destruct (gec_R l Hl) as [c' [E' [Hc [H1 _]]]]. rewrite E in E'. inversion E'; subst c'.
  rewrite Hc, Hx, Hy. replace (0 / INR (length l)) with 0 by (unfold Rdiv; ring). rewrite dist_sym. apply H1; auto.
Qed.
Print Assumptions C25_centred_encloses.
Theorem C25_empty_drawing : is_nonfin (getEnclosingCircle ROps []).
Proof. exact gec_empty. Qed.
Print Assumptions C25_empty_drawing.
(** the minimum enclosing circle always terminates without error, and is right for up to three points *)
Theorem C25_minimum_partial : forall (rnd : nat -> nat) (l : list pt), exists c, getMinimumEnclosingCircle ROps rnd l = Ok c /\ 0 <= radius c /\
  ((length l <= 3)%nat -> encloses c l).
Proof.
  intros rnd l. destruct (welzl_R rnd (length l) l [] 0) as [c [t [E [_ [Hr H]]]]]; [auto|simpl; lia|].
  exists c. unfold getMinimumEnclosingCircle. rewrite E. split; auto. split; auto.
  intros L. rewrite <- (firstn_all l). apply H. simpl. lia.
Qed.
Print Assumptions C25_minimum_partial.
(** five points and a random sequence; the radius is wrong by a factor of more than 1.4 *)
Definition l5 : list (vec FOps) := [FP (-3) (-2); FP 3 0; FP (-2) 2; FP 0 3; FP 3 (-1)].
Definition p5 : vec FOps := FP (-3) (-2).
Definition wide (c : circle FOps) : circle FOps := @mkCircle FOps (center c) (mul FOps (radius c) (f64_div (f64_ofZ 7) (f64_ofZ 5))).
Definition answers_no (r : res bool) : bool := match r with Ok false => true | _ => false end.
Definition chk5 : bool :=
  match getMinimumEnclosingCircle FOps (fun _ => 59%nat) l5 with
  | Ok c => answers_no (circle_contains FOps c p5) && answers_no (circle_contains FOps (wide c) p5)
  | _ => false
  end.
Lemma chk5_true : chk5 = true.
Proof. vm_compute. reflexivity. Qed.
Lemma answers_no_false : forall r, answers_no r = true -> r = Ok false.
Proof. intros [[]| | |]; unfold answers_no; intros; congruence. Qed.
Theorem C25_minimum_refuted : exists (rnd : nat -> nat) (l : list (vec FOps)) (c : circle FOps) (p : vec FOps),
  getMinimumEnclosingCircle FOps rnd l = Ok c /\ In p l /\ circle_contains FOps c p = Ok false /\
  circle_contains FOps (wide c) p = Ok false.
Proof.
  pose proof chk5_true as H. unfold chk5 in H.
  destruct (getMinimumEnclosingCircle FOps (fun _ => 59%nat) l5) as [c|a|a|a] eqn:E; [|inversion H..].
  exists (fun _ => 59%nat), l5, c, p5. split; [exact E|]. split; [left; reflexivity|].
  apply andb_true_iff in H. destruct H. split; apply answers_no_false; assumption.
Qed.
Print Assumptions C25_minimum_refuted.
Example C25_example : sumx [P (-1) 0; P 1 0; P 0 2; P 0 (-2)] = 0 /\ sumy [P (-1) 0; P 1 0; P 0 2; P 0 (-2)] = 0.
Proof. cbn [sumx sumy]. rewrite ?px_P, ?py_P. lra. Qed.

(** *** C26: circles through points *)
Theorem C26_three_points : forall a b c : pt, turn a b c <> 0 -> exists k, circle3 ROps a b c = Ok k /\
  dist (center k) a = radius k /\ dist (center k) b = radius k /\ dist (center k) c = radius k.
Proof. exact circle3_R. Qed.
Print Assumptions C26_three_points.
Theorem C26_unique : forall (a b c u : pt) (k : circle ROps), turn a b c <> 0 -> circle3 ROps a b c = Ok k ->
  dist u a = dist u b -> dist u a = dist u c -> u = center k.
Proof.
  intros a b c u k H E H1 H2. destruct (circle3_R a b c H) as [k' [E' [K1 [K2 K3]]]]. rewrite E in E'. inversion E'; subst k'.
  apply (equidistant_unique a b c); auto; congruence.
Qed.
Print Assumptions C26_unique.
Theorem C26_order : forall (a b c : pt) (k k' : circle ROps), turn a b c <> 0 -> circle3 ROps a b c = Ok k ->
  (circle3 ROps b a c = Ok k' \/ circle3 ROps b c a = Ok k') -> center k' = center k /\ radius k' = radius k.
Proof.
  intros a b c k k' H E E'. destruct (circle3_R a b c H) as [q [Q [K1 [K2 K3]]]]. rewrite E in Q. inversion Q; subst q.
  assert (K : dist (center k') a = radius k' /\ dist (center k') b = radius k' /\ dist (center k') c = radius k').
  { destruct E' as [E'|E'].
    - destruct (circle3_R b a c) as [q [Q' [L1 [L2 L3]]]]; [unfold turn in *; lra|]. rewrite E' in Q'. inversion Q'; subst q. auto.
    - destruct (circle3_R b c a) as [q [Q' [L1 [L2 L3]]]]; [unfold turn in *; lra|]. rewrite E' in Q'. inversion Q'; subst q. auto. }
  destruct K as [L1 [L2 L3]].
  assert (Hc : center k' = center k) by (apply (equidistant_unique a b c); auto; congruence).
  split; auto. rewrite <- L1, <- K1, Hc. auto.
Qed.
Print Assumptions C26_order.
Theorem C26_collinear : forall a b c : pt, turn a b c = 0 -> is_nonfin (circle3 ROps a b c).
Proof. exact circle3_collinear. Qed.
Print Assumptions C26_collinear.
Theorem C26_two_points : forall a b : pt, exists k, circle2 ROps a b = Ok k /\
  center k = P ((px a + px b) / 2) ((py a + py b) / 2) /\ radius k = dist a b / 2 /\
  dist (center k) a = radius k /\ dist (center k) b = radius k /\
  (forall (q : pt) (r : R), dist q a <= r -> dist q b <= r -> radius k <= r).
Proof.
  intros a b. destruct (circle2_R a b) as [k [E [H1 [H2 [H3 H4]]]]]. exists k. repeat (split; auto).
  intros q r Q1 Q2. rewrite H2. eapply circle2_smallest; eauto.
Qed.
Print Assumptions C26_two_points.
Example C26_example : turn (P 0 0) (P 2 0) (P 0 2) <> 0 /\
  match circle3 FOps (FP 0 0) (FP 2 0) (FP 0 2) with
  | Ok k => SFeqb (vx (center k)) (f64_ofZ 1) && SFeqb (vy (center k)) (f64_ofZ 1)
  | _ => false end = true.
Proof. split; [unfold turn; rewrite ?px_P, ?py_P; lra|vm_compute; reflexivity]. Qed.

(** *** C51: limit, map, val2jet *)
Theorem C51_limit : forall x lo hi : R, lo <= hi -> lo <= limit ROps x lo hi <= hi /\ (lo <= x <= hi -> limit ROps x lo hi = x) /\
  (x <= lo -> limit ROps x lo hi = lo) /\ (hi <= x -> limit ROps x lo hi = hi).
Proof.
  intros x lo hi H. rewrite limit_R by auto. unfold Rmax, Rmin. repeat destruct (Rle_dec _ _); repeat split; intros; lra.
Qed.
Print Assumptions C51_limit.
(** NaN passes through *)
Theorem C51_limit_nan : forall lo hi : f64, limit FOps S754_nan lo hi = S754_nan.
Proof. intros lo hi. unfold limit, gtb. cbn [ltb FOps]. destruct lo, hi; reflexivity. Qed.
Print Assumptions C51_limit_nan.
Theorem C51_map : forall a b c d : R, a <> b -> umap ROps a a b c d = Ok c /\ umap ROps b a b c d = Ok d /\
  (forall x y t u v, umap ROps x a b c d = Ok u -> umap ROps y a b c d = Ok v -> umap ROps (x + t * (y - x)) a b c d = Ok (u + t * (v - u))).
Proof.
  intros a b c d H. rewrite !map_R by auto. split; [|split].
  - apply (f_equal (@Ok R)). field. lra.
  - apply (f_equal (@Ok R)). field. lra.
  - intros x y t u v. rewrite !map_R by auto. intros H1 H2. inversion H1; inversion H2. apply (f_equal (@Ok R)). field. lra.
Qed.
Print Assumptions C51_map.
Theorem C51_map_inverse : forall x a b c d y : R, a <> b -> c <> d -> umap ROps x a b c d = Ok y -> umap ROps y c d a b = Ok x.
Proof. exact map_back. Qed.
Print Assumptions C51_map_inverse.
Theorem C51_map_degenerate_refuted : forall x a c d : R, is_nonfin (umap ROps x a a c d).
Proof. exact map_degenerate. Qed.
Print Assumptions C51_map_degenerate_refuted.
Theorem C51_jet : forall v lo hi : R, lo < hi -> exists b g r, val2jet ROps v lo hi = Ok (b, g, r) /\
  0 <= b <= 255 /\ 0 <= g <= 255 /\ 0 <= r <= 255 /\ (b, g, r) = jet (position v lo hi).
Proof.
  intros v lo hi H. destruct (jet (position v lo hi)) as [[b g] r] eqn:E. exists b, g, r. rewrite jet_R, E by auto.
  split; auto. destruct (jet_range _ _ _ _ E) as [? [? ?]]. auto.
Qed.
Print Assumptions C51_jet.
Theorem C51_jet_faithful : forall v w lo hi : R, lo < hi -> lo <= v <= hi -> lo <= w <= hi ->
  val2jet ROps v lo hi = val2jet ROps w lo hi -> v = w.
Proof. exact jet_distinct. Qed.
Print Assumptions C51_jet_faithful.
Theorem C51_jet_constant_field_refuted : forall v lo : R, is_nonfin (val2jet ROps v lo lo).
Proof. exact jet_degenerate. Qed.
Print Assumptions C51_jet_constant_field_refuted.
Example C51_example : val2jet FOps (f64_ofZ 0) (f64_ofZ 0) (f64_ofZ 8) = Ok (f64_ofZ 255, f64_ofZ 0, f64_ofZ 0) /\
  val2jet FOps (f64_ofZ 8) (f64_ofZ 0) (f64_ofZ 8) = Ok (f64_ofZ 0, f64_ofZ 0, f64_ofZ 255) /\
  val2jet FOps (f64_ofZ 4) (f64_ofZ 0) (f64_ofZ 8) = Ok (f64_ofZ 0, f64_ofZ 255, f64_ofZ 0).
Proof. vm_compute. auto. Qed.
