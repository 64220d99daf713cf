(** C107: rounding errors in binary64 are bounded, and the geometric decisions are those of exact arithmetic when they are not too close. *)
From Coq Require Import List Arith ZArith NArith Bool Lia Reals Lra Psatz.
From Coq Require Import Floats.SpecFloat.
From Verif Require Import Base AlgebraModel GeometryModel GeometrySpec FloatSpec Float_proofs FloatBound_proofs FloatUse_proofs Geometry_proofs Circle_proofs Segment_proofs Polygon_proofs RoundSpec Round_proofs RoundUse_proofs RoundGrid_proofs.
Import ListNotations.
Local Open Scope R_scope.
Local Notation fvec := (vec FOps).

(** *** inner products and norms *)
Theorem C107_dot : forall (a b : list f64) (s : f64), Forall double a -> Forall double b -> dot FOps a b = Ok s -> finite s -> INR (S (length a)) * u <= / 2 ->
  double s /\ Rabs (value s - exact a b) <= 2 * INR (S (length a)) * u * exact_abs a b + 2 * INR (length a) * tiny.
Proof. exact dot_err. Qed.
Print Assumptions C107_dot.
Theorem C107_norm : forall (a : list f64) (n : f64), Forall double a -> AlgebraModel.norm FOps a = Ok n -> finite n -> INR (S (length a)) * u <= / 4 ->
  double n /\ Rabs (value n - sqrt (exact a a)) <= 2 * (INR (length a) + 2) * u * sqrt (exact a a) + 2 * sqrt (2 * INR (length a) * tiny) + tiny.
Proof. exact norm_err. Qed.
Print Assumptions C107_norm.

(** *** distances and equality of points *)
Theorem C107_distance : forall p q : fvec, double_point p -> double_point q -> point_below 400 p -> point_below 400 q ->
  exists d, distance FOps p q = Ok d /\ double d /\ Rabs (value d - dist (place p) (place q)) <= 10 * u * dist (place p) (place q) + 2 * powerRZ 2 (-536).
Proof.
  intros p q DP DQ BP BQ. destruct (dist_below p q BP BQ) as [d [E F]]. exists d. split; auto. exact (dist_err p q d DP DQ E F).
Qed.
Print Assumptions C107_distance.
Theorem C107_points_equal : forall p q : fvec, double_point p -> double_point q ->
  (dist (place p) (place q) <= / 10 ^ 9 - / 10 ^ 23 -> vec_eqb FOps p q = Ok true) /\
  (/ 10 ^ 9 + / 10 ^ 23 <= dist (place p) (place q) -> vec_eqb FOps p q = Ok false).
Proof. exact feq_dec. Qed.
Print Assumptions C107_points_equal.

(** *** orientation *)
Theorem C107_orientation : forall p1 p2 p3 : fvec, double_point p1 -> double_point p2 -> double_point p3 -> point_below 400 p1 -> point_below 400 p2 -> point_below 400 p3 ->
  let a := place p1 in let b := place p2 in let c := place p3 in let m := 8 * u * (dist a b * dist b c) + 4 * tiny in
  (eps52 + m < turn a b c -> geomOrientation FOps p1 p2 p3 = COUNTERCLOCKWISE) /\
  (turn a b c < - (eps52 + m) -> geomOrientation FOps p1 p2 p3 = CLOCKWISE) /\
  (Rabs (turn a b c) + m < eps52 -> geomOrientation FOps p1 p2 p3 = COLLINEAR).
Proof. exact orient_dec. Qed.
Print Assumptions C107_orientation.
(** exact agreement outside the band of uncertainty *)
Theorem C107_orientation_same : forall p1 p2 p3 : fvec, double_point p1 -> double_point p2 -> double_point p3 -> point_below 400 p1 -> point_below 400 p2 -> point_below 400 p3 ->
  clear_turn (place p1) (place p2) (place p3) -> geomOrientation FOps p1 p2 p3 = geomOrientation ROps (place p1) (place p2) (place p3).
Proof. exact orient_same. Qed.
Print Assumptions C107_orientation_same.

(** *** point in triangle *)
Theorem C107_triangle : forall p a b c : fvec, Forall double_point [p; a; b; c] -> Forall (point_below 400) [p; a; b; c] ->
  clear_turn (place p) (place a) (place b) -> clear_turn (place p) (place b) (place c) -> clear_turn (place p) (place c) (place a) ->
  pointInTriangle FOps p a b c = pointInTriangle ROps (place p) (place a) (place b) (place c) /\
  (3 * eps52 <= Rabs (turn (place a) (place b) (place c)) ->
   pointInTriangle FOps p a b c = true -> in_open_triangle (place p) (place a) (place b) (place c)).
Proof.
  intros p a b c D B C1 C2 C3. rewrite !Forall_cons_iff in D, B. destruct D as [Dp [Da [Db [Dc _]]]], B as [Bp [Ba [Bb [Bc _]]]].
  assert (E : pointInTriangle FOps p a b c = pointInTriangle ROps (place p) (place a) (place b) (place c)).
  { unfold pointInTriangle. rewrite (orient_same p a b), (orient_same p b c), (orient_same p c a); auto. }
  split; auto. intros T. rewrite E. apply pit_interior. auto.
Qed.
Print Assumptions C107_triangle.

(** *** point in polygon *)
Theorem C107_contains : forall (l : list fvec) (p : fvec), Forall double_point (p :: l) -> Forall (point_below 400) (p :: l) ->
  (forall a b, In (a, b) (edges (map place l)) -> clear_of_edge (place p) a b) ->
  poly_contains FOps l p = poly_contains ROps (map place l) (place p) /\
  (~ on_boundary (map place l) (place p) -> exists k, ray_count (place p) (edges (map place l)) k /\ (poly_contains FOps l p = true <-> Nat.Odd k)).
Proof.
  intros l p D B C. pose proof (contains_same l p D B C) as E. split; auto. intros H. rewrite E. apply even_odd. auto.
Qed.
Print Assumptions C107_contains.

(** *** segments *)
Theorem C107_intersect : forall (e : f64) (a b c d : fvec), double e -> 0 <= value e -> Forall double_point [a; b; c; d] -> Forall (point_below 400) [a; b; c; d] ->
  (forall p q r, In (p, q, r) [(a, b, c); (a, b, d); (c, d, a); (c, d, b)] ->
    value e + (8 * u * (dist (place p) (place q) * dist (place p) (place r)) + 4 * tiny) < Rabs (turn (place p) (place q) (place r))) ->
  (segmentsIntersect FOps e a b c d = true <-> cross_properly (place a) (place b) (place c) (place d)).
Proof. exact intersect_cross. Qed.
Print Assumptions C107_intersect.


(** *** on a dyadic grid nothing is rounded: coordinates that are integers of at most 25 bits times one power of two *)
Theorem C107_grid : forall (k : Z) (l : list fvec) (p a b c : fvec), (-530 <= k <= 400)%Z ->
  Forall (fun q => double_point q /\ on_dyadic k q) (p :: a :: b :: c :: l) ->
  geomOrientation FOps a b c = geomOrientation ROps (place a) (place b) (place c) /\
  pointInTriangle FOps p a b c = pointInTriangle ROps (place p) (place a) (place b) (place c) /\
  poly_contains FOps l p = poly_contains ROps (map place l) (place p).
Proof.
  intros k l p a b c K H. rewrite !Forall_cons_iff in H. destruct H as [H1 [H2 [H3 [H4 H5]]]].
  split; [apply (orient_grid k); auto|]. split; [apply (triangle_grid k); auto 10|]. apply (contains_grid k); auto.
Qed.
Print Assumptions C107_grid.
(** in particular, with such coordinates a point on the boundary is always inside, and any other is decided by the number of crossings of a ray *)
Theorem C107_grid_contains : forall (k : Z) (l : list fvec) (p : fvec), (-530 <= k <= 400)%Z -> Forall (fun q => double_point q /\ on_dyadic k q) (p :: l) ->
  (on_boundary (map place l) (place p) -> poly_contains FOps l p = true) /\
  (~ on_boundary (map place l) (place p) -> exists n, ray_count (place p) (edges (map place l)) n /\ (poly_contains FOps l p = true <-> Nat.Odd n)).
Proof.
  intros k l p K H. rewrite (contains_grid k l p K H). split; [apply contains_boundary|apply even_odd].
Qed.
Print Assumptions C107_grid_contains.

(** *** points with integer coordinates *)
Definition whole (x y : Z) : fvec := @mkV FOps (f64_ofZ x) (f64_ofZ y).
Lemma whole_place : forall x y : Z, (Z.abs x < 2 ^ 53)%Z -> (Z.abs y < 2 ^ 53)%Z -> double_point (whole x y) /\ place (whole x y) = P (IZR x) (IZR y).
Proof.
  intros x y HX HY. destruct (ofZ_exact x HX) as [D1 E1], (ofZ_exact y HY) as [D2 E2]. split; [split; auto|].
  unfold place, whole, P. cbn [vx vy]. rewrite E1, E2. reflexivity.
Qed.
Theorem C107_integers_are_doubles : forall x y : Z, (Z.abs x < 2 ^ 25)%Z -> (Z.abs y < 2 ^ 25)%Z -> double_point (whole x y) /\ on_dyadic 0 (whole x y).
Proof.
  intros x y HX HY. assert (L : (2 ^ 25 < 2 ^ 53)%Z) by reflexivity. destruct (ofZ_exact x) as [D1 E1]; [lia|]. destruct (ofZ_exact y) as [D2 E2]; [lia|].
  split; [split; auto|]. exists x, y. repeat split; auto; unfold whole; cbn [vx vy powerRZ]; rewrite ?E1, ?E2; ring.
Qed.
Print Assumptions C107_integers_are_doubles.

(** the 25 bits matter: the exact turn of these points with integer coordinates is 1, more than 10^15 times the tolerance, and they are called collinear *)
Theorem C107_orientation_limit : exists a b c : fvec, double_point a /\ double_point b /\ double_point c /\
  turn (place a) (place b) (place c) = 1 /\ geomOrientation FOps a b c = COLLINEAR /\ geomOrientation ROps (place a) (place b) (place c) = COUNTERCLOCKWISE.
Proof.
  exists (whole 0 0), (whole 134217729 134217728), (whole 268435459 268435457).
  destruct (whole_place 0 0 eq_refl eq_refl) as [DA EA]. destruct (whole_place 134217729 134217728 eq_refl eq_refl) as [DB EB].
  destruct (whole_place 268435459 268435457 eq_refl eq_refl) as [DC EC].
  assert (T : turn (P 0 0) (P 134217729 134217728) (P 268435459 268435457) = 1) by (unfold turn; rewrite ?px_P, ?py_P; lra).
  split; [auto|]. split; [auto|]. split; [auto|]. rewrite EA, EB, EC. split; [exact T|]. split; [vm_compute; reflexivity|].
  unfold geomOrientation, gtb. cbn [ltb fabs sub mul zero ROps]. change (dbl_eps ROps) with eps52.
  match goal with |- context [Rabs ?v] => assert (V : v = -1) end.
  { unfold P. cbn [vx vy]. lra. }
  rewrite V. assert (E1 : Rltb (Rabs (-1)) eps52 = false).
  { apply Rltb_false. rewrite Rabs_left by lra. unfold eps52. rewrite pow_IZR. change (2 ^ Z.of_nat 52)%Z with 4503599627370496%Z. lra. }
  assert (E2 : Rltb 0 (-1) = false) by (apply Rltb_false; lra). rewrite E1, E2. reflexivity.
Qed.
Print Assumptions C107_orientation_limit.

(** *** concrete cases *)
Lemma dist_P : forall x y z w d, 0 <= d -> (x - z) * (x - z) + (y - w) * (y - w) = d * d -> dist (P x y) (P z w) = d.
Proof. intros x y z w d D E. unfold dist. rewrite ?px_P, ?py_P. rewrite E. apply sqrt_square. auto. Qed.
Lemma small_margin : forall r, 0 <= r <= 100 -> 8 * u * r + 4 * tiny < / 1000.
Proof.
  intros r R. assert (TT : tiny <= u) by (unfold tiny, u; rewrite !powerRZ_Rpower by lra; apply Rle_Rpower; [lra|apply IZR_le; lia]).
  pose proof u_num as U. rewrite U in *. nra.
Qed.
(** the triangle with sides 3, 4 and 5: its orientation is clear *)
Example C107_clear_case : clear_turn (place (whole 0 0)) (place (whole 4 0)) (place (whole 0 3)) /\ geomOrientation FOps (whole 0 0) (whole 4 0) (whole 0 3) = COUNTERCLOCKWISE.
Proof.
  split; [|vm_compute; reflexivity]. destruct (whole_place 0 0 eq_refl eq_refl) as [_ ->]. destruct (whole_place 4 0 eq_refl eq_refl) as [_ ->].
  destruct (whole_place 0 3 eq_refl eq_refl) as [_ ->]. unfold clear_turn. left.
  rewrite (dist_P 0 0 4 0 4), (dist_P 4 0 0 3 5) by lra. assert (T : turn (P 0 0) (P 4 0) (P 0 3) = 12) by (unfold turn; rewrite ?px_P, ?py_P; lra). rewrite T.
  pose proof (small_margin (4 * 5) ltac:(lra)). rewrite (Rabs_right 12) by lra. unfold eps52. rewrite pow_IZR. change (2 ^ Z.of_nat 52)%Z with 4503599627370496%Z. lra.
Qed.
Lemma dist_le : forall x y z w d, 0 <= d -> (x - z) * (x - z) + (y - w) * (y - w) <= d * d -> 0 <= dist (P x y) (P z w) <= d.
Proof.
  intros x y z w d D E. unfold dist. rewrite ?px_P, ?py_P. split; [apply sqrt_pos|]. rewrite <- (sqrt_square d D). apply sqrt_le_1_alt; auto.
Qed.
Lemma near_margin : forall a b c d e f g h, (a - c) * (a - c) + (b - d) * (b - d) <= 100 -> (e - g) * (e - g) + (f - h) * (f - h) <= 100 ->
  8 * u * (dist (P a b) (P c d) * dist (P e f) (P g h)) + 4 * tiny < / 1000.
Proof.
  intros a b c d e f g h H1 H2. destruct (dist_le a b c d 10) as [A1 A2]; try lra. destruct (dist_le e f g h 10) as [B1 B2]; try lra.
  apply small_margin. split; [apply Rmult_le_pos; auto|]. replace 100 with (10 * 10) by ring. apply Rmult_le_compat; auto.
Qed.
(** the point (1, 1) in the triangle (0, 0), (4, 0), (0, 3): clear of the corners' lines and of the edges *)
Example C107_inside_case : let p := whole 1 1 in let a := whole 0 0 in let b := whole 4 0 in let c := whole 0 3 in
  clear_turn (place p) (place a) (place b) /\ clear_turn (place p) (place b) (place c) /\ clear_turn (place p) (place c) (place a) /\
  3 * eps52 <= Rabs (turn (place a) (place b) (place c)) /\ pointInTriangle FOps p a b c = true /\
  (forall v w, In (v, w) (edges (map place [a; b; c])) -> clear_of_edge (place p) v w) /\ poly_contains FOps [a; b; c] p = true.
Proof.
  cbv zeta. destruct (whole_place 1 1 eq_refl eq_refl) as [_ EP]. destruct (whole_place 0 0 eq_refl eq_refl) as [_ EA].
  destruct (whole_place 4 0 eq_refl eq_refl) as [_ EB]. destruct (whole_place 0 3 eq_refl eq_refl) as [_ EC]. cbn [map]. rewrite EP, EA, EB, EC.
  assert (E52 : eps52 < / 1000) by (unfold eps52; rewrite pow_IZR; change (2 ^ Z.of_nat 52)%Z with 4503599627370496%Z; lra).
  assert (T1 : turn (P 1 1) (P 0 0) (P 4 0) = 4) by (unfold turn; rewrite ?px_P, ?py_P; lra).
  assert (T2 : turn (P 1 1) (P 4 0) (P 0 3) = 5) by (unfold turn; rewrite ?px_P, ?py_P; lra).
  assert (T3 : turn (P 1 1) (P 0 3) (P 0 0) = 3) by (unfold turn; rewrite ?px_P, ?py_P; lra).
  assert (T4 : turn (P 0 0) (P 4 0) (P 0 3) = 12) by (unfold turn; rewrite ?px_P, ?py_P; lra).
  unfold clear_turn. rewrite T1, T2, T3, T4, !Rabs_right by lra.
  pose proof (near_margin 1 1 0 0 0 0 4 0 ltac:(lra) ltac:(lra)). pose proof (near_margin 1 1 4 0 4 0 0 3 ltac:(lra) ltac:(lra)). pose proof (near_margin 1 1 0 3 0 3 0 0 ltac:(lra) ltac:(lra)).
  split; [left; lra|]. split; [left; lra|]. split; [left; lra|]. split; [lra|]. split; [vm_compute; reflexivity|]. split; [|vm_compute; reflexivity].
  intros v w I. unfold clear_of_edge. cbn in I. destruct I as [I|[I|[I|[]]]]; injection I as <- <-.
  - left. rewrite !py_P. reflexivity.
  - right; right; right. rewrite T2, Rabs_right by lra. pose proof (near_margin 1 1 4 0 1 1 0 3 ltac:(lra) ltac:(lra)). lra.
  - right; right; right. rewrite T3, Rabs_right by lra. pose proof (near_margin 1 1 0 3 1 1 0 0 ltac:(lra) ltac:(lra)). lra.
Qed.
(** a triangle with a point of its oblique edge, and a point beyond that edge *)
Example C107_grid_case : Forall (fun q => double_point q /\ on_dyadic 0 q) [whole 2 1; whole 0 0; whole 4 0; whole 0 2] /\
  poly_contains FOps [whole 0 0; whole 4 0; whole 0 2] (whole 2 1) = true /\ poly_contains FOps [whole 0 0; whole 4 0; whole 0 2] (whole 3 1) = false.
Proof. split; [repeat apply Forall_cons; auto; apply C107_integers_are_doubles; vm_compute; reflexivity|vm_compute; auto]. Qed.
(** an inner product of three terms *)
Example C107_dot_case : let a := [f64_ofZ 1; f64_ofZ 2; f64_ofZ 3] in Forall double a /\ dot FOps a a = Ok (f64_ofZ 14) /\ finite (f64_ofZ 14) /\ INR (S (length a)) * u <= / 4.
Proof.
  cbv zeta. split; [repeat constructor; vm_compute; auto|]. split; [vm_compute; reflexivity|]. split; [exact I|].
  cbn [length INR]. rewrite u_num. lra.
Qed.
(** two points 3e-10 apart and two points 1 apart *)
Example C107_equal_case : let p := whole 0 0 in let q := @mkV FOps (S754_finite false (2 ^ 52)%positive (-84)) (f64_ofZ 0) in
  dist (place p) (place q) <= / 10 ^ 9 - / 10 ^ 23 /\ vec_eqb FOps p q = Ok true /\ vec_eqb FOps p (whole 0 1) = Ok false.
Proof.
  cbv zeta. split; [|vm_compute; auto].
  assert (E : place (@mkV FOps (S754_finite false (2 ^ 52)%positive (-84)) (f64_ofZ 0)) = P (/ 4294967296) 0).
  { unfold place, P. cbn [vx vy]. f_equal. cbn [value]. change (powerRZ 2 (-84)) with (/ 2 ^ 84). rewrite pow_IZR. change (2 ^ Z.of_nat 84)%Z with (4503599627370496 * 4294967296)%Z.
    change (Z.pos (2 ^ 52)) with 4503599627370496%Z. rewrite mult_IZR. field. }
  rewrite E. destruct (whole_place 0 0 eq_refl eq_refl) as [_ ->]. rewrite (dist_P 0 0 (/ 4294967296) 0 (/ 4294967296)) by lra.
  rewrite !pow_IZR. change (10 ^ Z.of_nat 9)%Z with 1000000000%Z. change (10 ^ Z.of_nat 23)%Z with 100000000000000000000000%Z. lra.
Qed.
(** two segments that cross *)
Example C107_intersect_case : let e := S754_finite false (2 ^ 52)%positive (-385) in let a := whole 0 0 in let b := whole 3 4 in let c := whole 3 0 in let d := whole 0 4 in
  (forall p q r, In (p, q, r) [(a, b, c); (a, b, d); (c, d, a); (c, d, b)] ->
    value e + (8 * u * (dist (place p) (place q) * dist (place p) (place r)) + 4 * tiny) < Rabs (turn (place p) (place q) (place r))) /\
  segmentsIntersect FOps e a b c d = true /\ segmentsIntersect FOps e a c b d = false.
Proof.
  cbv zeta. split; [|vm_compute; auto].
  destruct (whole_place 0 0 eq_refl eq_refl) as [_ E1]. destruct (whole_place 3 4 eq_refl eq_refl) as [_ E2].
  destruct (whole_place 3 0 eq_refl eq_refl) as [_ E3]. destruct (whole_place 0 4 eq_refl eq_refl) as [_ E4].
  assert (V : value (S754_finite false (2 ^ 52)%positive (-385)) <= 1).
  { cbn [value]. rewrite Rmult_1_l. change (IZR (Z.pos (2 ^ 52))) with (IZR (2 ^ 52)). change (IZR (2 ^ 52)) with 4503599627370496. 
    assert (X : powerRZ 2 (-385) <= u) by (unfold u; rewrite !powerRZ_Rpower by lra; apply Rle_Rpower; [lra|apply IZR_le; lia]). rewrite u_num in X. lra. }
  intros p q r [H|[H|[H|[H|[]]]]]; injection H as <- <- <-; rewrite ?E1, ?E2, ?E3, ?E4.
  - rewrite (dist_P 0 0 3 4 5), (dist_P 0 0 3 0 3) by lra. pose proof (small_margin (5 * 3) ltac:(lra)).
    assert (T : turn (P 0 0) (P 3 4) (P 3 0) = -12) by (unfold turn; rewrite ?px_P, ?py_P; lra). rewrite T, Rabs_left by lra. lra.
  - rewrite (dist_P 0 0 3 4 5), (dist_P 0 0 0 4 4) by lra. pose proof (small_margin (5 * 4) ltac:(lra)).
    assert (T : turn (P 0 0) (P 3 4) (P 0 4) = 12) by (unfold turn; rewrite ?px_P, ?py_P; lra). rewrite T, Rabs_right by lra. lra.
  - rewrite (dist_P 3 0 0 4 5), (dist_P 3 0 0 0 3) by lra. pose proof (small_margin (5 * 3) ltac:(lra)).
    assert (T : turn (P 3 0) (P 0 4) (P 0 0) = 12) by (unfold turn; rewrite ?px_P, ?py_P; lra). rewrite T, Rabs_right by lra. lra.
  - rewrite (dist_P 3 0 0 4 5), (dist_P 3 0 3 4 4) by lra. pose proof (small_margin (5 * 4) ltac:(lra)).
    assert (T : turn (P 3 0) (P 0 4) (P 3 4) = -12) by (unfold turn; rewrite ?px_P, ?py_P; lra). rewrite T, Rabs_left by lra. lra.
Qed.
