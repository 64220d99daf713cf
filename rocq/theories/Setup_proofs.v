(** The automatic boundary in exact arithmetic. *)
From Coq Require Import String.
From Coq Require Import List Arith ZArith NArith Bool Lia.
From Coq Require Import Reals Lra.
From Verif Require Import Base AlgebraModel SolversSpec GeometryModel GeometrySpec Geometry_proofs Circle_proofs Polygon_proofs Segment_proofs.
From Verif Require Import DrawingModel DrawingSpec Drawing_proofs DrawingR_proofs SetupModel.
Import ListNotations.
Local Open Scope R_scope.

(** ** the regular polygon *)
Section Ngon.
Variable r : R.
Variable n : nat.
Hypothesis n3 : (3 <= n)%nat.
Hypothesis r0 : 0 < r.
Notation v := (circle_vertex org r n).
Let t := PI / INR n.
Lemma n_pos : 0 < INR n. Proof. apply lt_0_INR. lia. Qed.
Lemma t_pos : 0 < t. Proof. unfold t. apply Rdiv_lt_0_compat; [apply PI_RGT_0|apply n_pos]. Qed.
Lemma nt : INR n * t = PI. Proof. unfold t. pose proof n_pos. field. lra. Qed.
Lemma t_third : t <= PI / 3.
Proof.
  assert (3 <= INR n) by (replace 3 with (INR 3) by (simpl; ring); apply le_INR; exact n3).
  pose proof nt. pose proof t_pos. pose proof PI_RGT_0. nra.
Qed.
Lemma v_px : forall k, px (v k) = r * cos (2 * INR k * t).
Proof. intro k. unfold circle_vertex, org. rewrite !px_P. replace (2 * PI * INR k / INR n) with (2 * INR k * t) by (unfold t, Rdiv; ring). ring. Qed.
Lemma v_py : forall k, py (v k) = r * sin (2 * INR k * t).
Proof. intro k. unfold circle_vertex, org. rewrite !py_P. replace (2 * PI * INR k / INR n) with (2 * INR k * t) by (unfold t, Rdiv; ring). ring. Qed.
Definition mid (k : nat) : R := (2 * INR k + 1) * t.
Lemma turn_edge : forall k p, turn (v k) (v (S k)) p = 2 * r * sin t * (r * cos t - (px p * cos (mid k) + py p * sin (mid k))).
Proof.
  intros k p. unfold turn. rewrite !v_px, !v_py. rewrite S_INR.
  replace (2 * (INR k + 1) * t) with (mid k + t) by (unfold mid; ring). replace (2 * INR k * t) with (mid k - t) by (unfold mid; ring).
  rewrite cos_plus, cos_minus, sin_plus, sin_minus. set (m := mid k). pose proof (sin2_cos2 m) as E. unfold Rsqr in E.
  replace (2 * r * sin t * (r * cos t - (px p * cos m + py p * sin m))) with
    (2 * r * sin t * (r * cos t * (sin m * sin m + cos m * cos m) - (px p * cos m + py p * sin m))) by (rewrite E; ring). ring.
Qed.
Lemma sin_t_pos : 0 < sin t.
Proof. apply sin_gt_0; [apply t_pos|]. pose proof t_third. pose proof PI_RGT_0. lra. Qed.
(** points within the inner circle *)
Lemma project : forall p m, px p * cos m + py p * sin m <= dist p org.
Proof.
  intros p m. unfold dist, org. rewrite px_P, py_P. apply Rsqr_incr_0_var; [|apply sqrt_pos].
  rewrite Rsqr_sqrt by nra. unfold Rsqr. pose proof (sin2_cos2 m) as E. unfold Rsqr in E. rewrite !Rminus_0_r.
  assert (Q : px p * px p + py p * py p - (px p * cos m + py p * sin m) * (px p * cos m + py p * sin m) =
    (px p * sin m - py p * cos m) * (px p * sin m - py p * cos m)).
  { replace (px p * px p + py p * py p) with ((px p * px p + py p * py p) * (sin m * sin m + cos m * cos m)) by (rewrite E; ring). ring. }
  pose proof (Rle_0_sqr (px p * sin m - py p * cos m)) as Z. unfold Rsqr in Z. lra.
Qed.
Lemma inner_turn : forall k p delta, 0 <= delta -> dist p org + delta <= r * cos t -> 2 * r * sin t * delta <= turn (v k) (v (S k)) p.
Proof.
  intros k p delta D H. rewrite turn_edge. pose proof (project p (mid k)). apply Rmult_le_compat_l; [|lra].
  pose proof sin_t_pos. nra.
Qed.
Lemma sin_multiple : forall i, (1 <= i)%nat -> (i < n)%nat -> sin t <= sin (INR i * t).
Proof.
  intros i I1 I2. assert (1 <= INR i) by (replace 1 with (INR 1) by reflexivity; apply le_INR; exact I1).
  assert (INR i <= INR n - 1) by (replace (INR n - 1) with (INR (n - 1)) by (rewrite minus_INR by lia; reflexivity); apply le_INR; lia).
  pose proof t_pos. pose proof nt. pose proof t_third. pose proof PI_RGT_0.
  assert (L : t <= INR i * t) by nra. assert (U : INR i * t <= PI - t) by nra.
  destruct (Rle_lt_dec (INR i * t) (PI / 2)) as [C|C].
  - apply sin_incr_1; lra.
  - replace (sin (INR i * t)) with (sin (PI - INR i * t)) by apply sin_PI_x. apply sin_incr_1; lra.
Qed.
Lemma turn_vertex : forall k j, turn (v k) (v (S k)) (v j) = 4 * (r * r) * sin t * sin ((INR j - INR k) * t) * sin ((INR j - INR k - 1) * t).
Proof.
  intros k j. rewrite turn_edge, v_px, v_py.
  replace (r * cos (2 * INR j * t) * cos (mid k) + r * sin (2 * INR j * t) * sin (mid k)) with (r * cos (2 * INR j * t - mid k)) by (rewrite cos_minus; ring).
  set (a := (INR j - INR k) * t). set (b := (INR j - INR k - 1) * t).
  replace (2 * INR j * t - mid k) with (a + b) by (unfold a, b, mid; ring). assert (T : t = a - b) by (unfold a, b; ring).
  replace (cos t) with (cos (a - b)) by (rewrite <- T; reflexivity). rewrite cos_plus, cos_minus. ring.
Qed.
Lemma vertex_turn : forall k j, (k < n)%nat -> (j < n)%nat -> j <> k -> j <> S k -> ~ (S k = n /\ j = 0)%nat ->
  4 * (r * r) * (sin t * sin t * sin t) <= turn (v k) (v (S k)) (v j).
Proof.
  intros k j K J N1 N2 N3. rewrite turn_vertex. pose proof sin_t_pos as P.
  assert (Q : sin t <= Rabs (sin ((INR j - INR k) * t)) /\ sin t <= Rabs (sin ((INR j - INR k - 1) * t)) /\
     0 <= sin ((INR j - INR k) * t) * sin ((INR j - INR k - 1) * t)).
  { destruct (Nat.lt_ge_cases j k) as [L|L].
    - pose proof (sin_multiple (k - j) ltac:(lia) ltac:(lia)) as A1. pose proof (sin_multiple (k - j + 1) ltac:(lia) ltac:(lia)) as A2.
      rewrite minus_INR in A1 by lia. rewrite plus_INR, minus_INR in A2 by lia. change (INR 1) with 1 in A2.
      replace ((INR j - INR k) * t) with (- ((INR k - INR j) * t)) by ring. replace ((INR j - INR k - 1) * t) with (- ((INR k - INR j + 1) * t)) by ring.
      rewrite !sin_neg, !Rabs_Ropp. rewrite (Rabs_right (sin ((INR k - INR j) * t))), (Rabs_right (sin ((INR k - INR j + 1) * t))) by lra. nra.
    - pose proof (sin_multiple (j - k) ltac:(lia) ltac:(lia)) as A1. pose proof (sin_multiple (j - k - 1) ltac:(lia) ltac:(lia)) as A2.
      rewrite minus_INR in A1 by lia. rewrite !minus_INR in A2 by lia. change (INR 1) with 1 in A2.
      rewrite !Rabs_right by lra. nra. }
  destruct Q as [Q1 [Q2 Q3]]. set (x := sin ((INR j - INR k) * t)) in *. set (y := sin ((INR j - INR k - 1) * t)) in *.
  assert (X : sin t * sin t <= x * y).
  { rewrite <- (Rabs_right (x * y)) by lra. rewrite Rabs_mult. apply Rmult_le_compat; lra. }
  assert (0 < r * r) by nra. assert (0 < 4 * (r * r) * sin t) by (apply Rmult_lt_0_compat; lra).
  replace (4 * (r * r) * (sin t * sin t * sin t)) with (4 * (r * r) * sin t * (sin t * sin t)) by ring.
  replace (4 * (r * r) * sin t * x * y) with (4 * (r * r) * sin t * (x * y)) by ring. apply Rmult_le_compat_l; lra.
Qed.
Lemma dist_vertices : forall i j, dist (v i) (v j) * dist (v i) (v j) = 4 * (r * r) * (sin ((INR i - INR j) * t) * sin ((INR i - INR j) * t)).
Proof.
  intros i j. rewrite dist_sq, !v_px, !v_py. set (a := 2 * INR i * t). set (b := 2 * INR j * t).
  replace ((INR i - INR j) * t) with ((a - b) / 2) by (unfold a, b; field). pose proof (cos_2a_sin ((a - b) / 2)) as C.
  replace (2 * ((a - b) / 2)) with (a - b) in C by field. rewrite cos_minus in C.
  pose proof (sin2_cos2 a) as Ea. pose proof (sin2_cos2 b) as Eb. unfold Rsqr in *. set (s := sin ((a - b) / 2)) in *.
  replace (4 * (r * r) * (s * s)) with (2 * (r * r) * (2 * s * s)) by ring. replace (2 * s * s) with (1 - (cos a * cos b + sin a * sin b)) by lra.
  replace ((r * cos a - r * cos b) * (r * cos a - r * cos b) + (r * sin a - r * sin b) * (r * sin a - r * sin b)) with
    (r * r * ((sin a * sin a + cos a * cos a) + (sin b * sin b + cos b * cos b) - 2 * (cos a * cos b + sin a * sin b))) by ring.
  rewrite Ea, Eb. ring.
Qed.
Lemma chord : forall i j, (i < n)%nat -> (j < n)%nat -> i <> j -> 2 * r * sin t <= dist (v i) (v j).
Proof.
  intros i j I J N. pose proof sin_t_pos as P. apply Rsqr_incr_0_var; [|apply dist_nonneg]. unfold Rsqr. rewrite dist_vertices.
  assert (Q : sin t * sin t <= sin ((INR i - INR j) * t) * sin ((INR i - INR j) * t)).
  { destruct (Nat.lt_ge_cases i j) as [L|L].
    - pose proof (sin_multiple (j - i) ltac:(lia) ltac:(lia)) as A1. rewrite minus_INR in A1 by lia.
      replace ((INR i - INR j) * t) with (- ((INR j - INR i) * t)) by ring. rewrite sin_neg. nra.
    - pose proof (sin_multiple (i - j) ltac:(lia) ltac:(lia)) as A1. rewrite minus_INR in A1 by lia. nra. }
  nra.
Qed.
Lemma v_radius : forall k, dist (v k) org = r.
Proof.
  intro k. apply Rsqr_inj; [apply dist_nonneg|lra|]. unfold Rsqr. rewrite dist_sq, v_px, v_py. unfold org. rewrite px_P, py_P.
  pose proof (sin2_cos2 (2 * INR k * t)) as E. unfold Rsqr in E.
  replace ((r * cos (2 * INR k * t) - 0) * (r * cos (2 * INR k * t) - 0) + (r * sin (2 * INR k * t) - 0) * (r * sin (2 * INR k * t) - 0)) with
    (r * r * (sin (2 * INR k * t) * sin (2 * INR k * t) + cos (2 * INR k * t) * cos (2 * INR k * t))) by ring. rewrite E. ring.
Qed.
Lemma v_last : v n = v 0. Proof. apply circle_closed. lia. Qed.
(** towards vertex 0, up to the vertex, every point is inside *)
Lemma axis_turn : forall k f, (k < n)%nat -> 0 <= f < 1 -> 0 < turn (v k) (v (S k)) (P (r * f) 0).
Proof.
  intros k f K F. rewrite turn_edge, px_P, py_P. pose proof sin_t_pos as P.
  assert (C : cos (mid k) <= cos t).
  { pose proof (sin_multiple) as SM. assert (E : cos t - cos (mid k) = 2 * sin ((INR k + 1) * t) * sin (INR k * t)).
    { set (a := (INR k + 1) * t). set (b := INR k * t). replace (mid k) with (a + b) by (unfold mid, a, b; ring).
      replace (cos t) with (cos (a - b)) by (f_equal; unfold a, b; ring). rewrite cos_plus, cos_minus. ring. }
    assert (0 <= sin ((INR k + 1) * t) * sin (INR k * t)); [|lra].
    destruct k as [|k]; [replace (INR 0 * t) with 0 by (simpl; ring); rewrite sin_0; lra|].
    pose proof (SM (S k) ltac:(lia) ltac:(lia)) as A1.
    destruct (Nat.eq_dec (S (S k)) n) as [E'|E'].
    - replace ((INR (S k) + 1) * t) with (INR (S (S k)) * t) by (rewrite (S_INR (S k)); ring). rewrite E', nt, sin_PI. lra.
    - pose proof (SM (S (S k)) ltac:(lia) ltac:(lia)) as A2. rewrite (S_INR (S k)) in A2. apply Rmult_le_pos; lra. }
  assert (CT : 0 < cos t). { apply cos_gt_0; pose proof t_pos; pose proof t_third; pose proof PI_RGT_0; lra. }
  apply Rmult_lt_0_compat; [nra|]. replace (r * cos t - (r * f * cos (mid k) + 0 * sin (mid k))) with (r * (cos t - f * cos (mid k))) by ring.
  apply Rmult_lt_0_compat; [exact r0|]. destruct (Rle_lt_dec (cos (mid k)) 0) as [Z|Z]; nra.
Qed.
End Ngon.

Lemma sin_half : forall k, / 2 ^ k <= sin (PI / 2 ^ (S k)).
Proof.
  induction k as [|k IH].
  - replace (PI / 2 ^ 1) with (PI / 2) by (simpl; field). rewrite sin_PI2. simpl. lra.
  - assert (0 < 2 ^ S k) by (apply pow_lt; lra). assert (0 < 2 ^ k) by (apply pow_lt; lra).
    set (x := PI / 2 ^ S (S k)). assert (E : PI / 2 ^ S k = 2 * x) by (unfold x; simpl; field; lra).
    rewrite E, sin_2a in IH. assert (X0 : 0 < x) by (unfold x; apply Rdiv_lt_0_compat; [apply PI_RGT_0|apply pow_lt; lra]).
    assert (X1 : x <= PI / 2).
    { unfold x. apply Rmult_le_reg_r with (2 ^ S (S k)); [apply pow_lt; lra|].
      replace (PI / 2 ^ S (S k) * 2 ^ S (S k)) with PI by (field; simpl; lra). simpl. pose proof (pow_R1_Rle 2 k ltac:(lra)). pose proof PI_RGT_0. nra. }
    pose proof PI_RGT_0. assert (0 < sin x) by (apply sin_gt_0; lra). pose proof (COS_bound x) as [_ CB].
    replace (/ 2 ^ S k) with (/ 2 ^ k / 2) by (simpl; field; lra). nra.
Qed.
Lemma sin_t_low : forall n, (3 <= n)%nat -> INR n < 2 ^ 32 -> / 2 ^ 31 <= sin (PI / INR n).
Proof.
  intros n N U. pose proof (n_pos n N). pose proof PI_RGT_0. pose proof (t_third n N). pose proof (t_pos n N).
  eapply Rle_trans; [apply (sin_half 31)|]. assert (0 < 2 ^ 32) by (apply pow_lt; lra).
  assert (L : PI / 2 ^ 32 <= PI / INR n) by (apply Rmult_le_compat_l; [lra|]; apply Rinv_le_contravar; lra).
  assert (0 < PI / 2 ^ 32) by (apply Rdiv_lt_0_compat; lra). apply sin_incr_1; lra.
Qed.

Lemma e100_scale : forall s, / 2 ^ 31 <= s -> e100 <= tol9 * tol9 * s.
Proof.
  intros s H. unfold e100, tol9. apply Rle_trans with (/ 10 ^ 9 * / 10 ^ 9 * / 10 ^ 82).
  - right. field.
  - apply Rmult_le_compat_l; [apply Rmult_le_pos; left; apply Rinv_0_lt_compat, pow_lt; lra|]. eapply Rle_trans; [|exact H].
    apply Rinv_le_contravar; [apply pow_lt; lra|]. apply Rle_trans with (10 ^ 31); [apply pow_incr; lra|apply Rle_pow; [lra|lia]].
Qed.
Lemma tol9_pos : 0 < tol9. Proof. unfold tol9. apply Rinv_0_lt_compat, pow_lt. lra. Qed.

Lemma same_side : forall a b c d, e100 <= turn a b c -> e100 <= turn a b d -> segmentsIntersect ROps e100 a b c d = false.
Proof.
  intros a b c d C D. pose proof e100_pos. rewrite intersect_unfold. cbv zeta.
  assert (L1 : Rltb (Rabs (turn a b c)) e100 = false) by (apply Rltb_false; rewrite Rabs_right; lra).
  assert (L2 : Rltb (Rabs (turn a b d)) e100 = false) by (apply Rltb_false; rewrite Rabs_right; lra).
  assert (L3 : Rltb 0 (turn a b c) = true) by (apply Rltb_true; lra). assert (L4 : Rltb 0 (turn a b d) = true) by (apply Rltb_true; lra).
  rewrite L1, L2, L3, L4. reflexivity.
Qed.

Section Draw.
Variable lm : libm ROps.
Hypothesis exact : exact_libm lm.
Variable A : Type.
Variable peq : A -> A -> bool.
Notation drawing := (drawing ROps A).

(** a new segment that leaves every other one on its left is accepted *)
Lemma check_left : forall (pts : list pt) p1 p2 new segs,
  (forall s, In s segs -> same_segment s new = false /\
    (connected s new = true \/ exists a b, nth_error pts (fst s) = Some a /\ nth_error pts (snd s) = Some b /\ e100 <= turn p1 p2 a /\ e100 <= turn p1 p2 b)) ->
  check_segments ROps lm pts p1 p2 new segs = Ok true.
Proof.
  intros pts p1 p2 new segs. induction segs as [|s segs IH]; intro H; [reflexivity|]. cbn [check_segments].
  destruct (H s (or_introl eq_refl)) as [NS HC]. rewrite NS. assert (IH' := IH (fun x Hx => H x (or_intror Hx))).
  destruct (connected s new) eqn:EC; [exact IH'|]. destruct HC as [HC|[a [b [Na [Nb [Ta Tb]]]]]]; [discriminate|].
  unfold get. rewrite Na, Nb. cbn [bind]. destruct exact as [_ [_ [_ Et]]]. rewrite Et, (same_side _ _ _ _ Ta Tb).
  destruct (negb _); exact IH'.
Qed.

Variable r : R.
Variable n : nat.
Hypothesis n3 : (3 <= n)%nat.
Hypothesis n32 : INR n < 2 ^ 32.
Notation v := (circle_vertex org r n).
Let t := PI / INR n.
Hypothesis apart : tol9 <= 2 * r * sin t.
Variable d : drawing.
Hypothesis wf : forall s, In s (segments d) -> (fst s < length (points d))%nat /\ (snd s < length (points d))%nat.
Hypothesis v_away : forall p k, In p (points d) -> ~ near p (v k).
Hypothesis inside_left : forall s p k, In s (segments d) ->
  nth_error (points d) (fst s) = Some p \/ nth_error (points d) (snd s) = Some p -> e100 <= turn (v k) (v (S k)) p.
Notation b := (length (points d)).

Lemma r_pos : 0 < r.
Proof. pose proof (sin_t_pos n n3) as H. pose proof tol9_pos. fold t in H. nra. Qed.
Lemma v_apart : forall i j, (i < n)%nat -> (j < n)%nat -> near (v i) (v j) -> i = j.
Proof.
  intros i j I J N. destruct (Nat.eq_dec i j) as [E|E]; auto. pose proof (chord r n n3 i j I J E) as C. unfold near in N. fold t in C. lra.
Qed.
Lemma vertex_left : forall k j, (k < n)%nat -> (j < n)%nat -> j <> k -> j <> S k -> ~ (S k = n /\ j = 0)%nat -> e100 <= turn (v k) (v (S k)) (v j).
Proof.
  intros k j H1 H2 H3 H4 H5. pose proof (vertex_turn r n n3 r_pos k j H1 H2 H3 H4 H5) as V. fold t in V.
  pose proof (sin_t_low n n3 n32) as SL. fold t in SL. pose proof (e100_scale _ SL) as E. pose proof tol9_pos as T9. pose proof (sin_t_pos n n3) as SP. fold t in SP.
  assert (tol9 * tol9 <= (2 * r * sin t) * (2 * r * sin t)) by nra.
  assert (tol9 * tol9 * sin t <= (2 * r * sin t) * (2 * r * sin t) * sin t) by (apply Rmult_le_compat_r; lra).
  replace (4 * (r * r) * (sin t * sin t * sin t)) with ((2 * r * sin t) * (2 * r * sin t) * sin t) in V by ring. lra.
Qed.

Definition next (i : nat) : nat := if Nat.eqb (S i) n then 0%nat else S i.
Definition side (i : nat) : nat * nat := (b + i, b + next i)%nat.
Definition made (k : nat) : drawing :=
  mkD (region_map d) (regions d)
    (points d ++ match k with O => [] | _ => map v (seq 0 (Nat.min (S k) n)) end) (segments d ++ map side (seq 0 k)) (polygons d).
Lemma vpt : forall m l i, (i < m)%nat -> nth_error (points d ++ map v (seq 0 m) ++ l) (b + i) = Some (v i).
Proof.
  intros m l i H. rewrite nth_error_app2 by lia. replace (b + i - b)%nat with i by lia. rewrite nth_error_app1 by (rewrite map_length, seq_length; lia).
  apply map_nth_error. rewrite (nth_error_nth' _ 0%nat) by (rewrite seq_length; lia). rewrite seq_nth by lia. reflexivity.
Qed.
(** where a vertex is found *)
Lemma place_old : forall m start p i l k, placed ROps (points d ++ map v (seq 0 m)) start p i l -> p = v k -> (k < m)%nat -> (m <= n)%nat -> l = [] /\ i = (b + k)%nat.
Proof.
  intros m start p i l k H E K M. subst p. destruct H as [[-> [q [N Q]]]|[-> [-> Q]]].
  - split; [reflexivity|]. apply near_iff in Q. destruct (Nat.lt_ge_cases i b) as [L|L].
    + rewrite nth_error_app1 in N by lia. exfalso. apply (v_away q k); [apply nth_error_In in N; exact N|exact Q].
    + rewrite nth_error_app2 in N by lia. assert (LL : (i - b < m)%nat).
      { assert (i - b < length (map v (seq 0 m)))%nat by (apply nth_error_Some; congruence). rewrite map_length, seq_length in H. exact H. }
      rewrite (map_nth_error v (i - b) (seq 0 m) (d := (i - b)%nat)) in N.
      * injection N as <-. apply v_apart in Q; lia.
      * rewrite (nth_error_nth' _ 0%nat) by (rewrite seq_length; lia). rewrite seq_nth by lia. reflexivity.
  - exfalso. assert (In (v k) (points d ++ map v (seq 0 m))) as I by (apply in_or_app; right; apply in_map, in_seq; lia).
    apply Q, not_near_iff in I. apply I, near_self.
Qed.
Lemma place_new : forall m start p i l k, placed ROps (points d ++ map v (seq 0 m)) start p i l -> p = v k -> (m <= k)%nat -> (k < n)%nat -> l = [v k] /\ i = length start.
Proof.
  intros m start p i l k H E K M. subst p. destruct H as [[-> [q [N Q]]]|[-> [-> Q]]]; [|auto]. exfalso. apply near_iff in Q. apply nth_error_In in N. apply in_app_or in N.
  destruct N as [N|N]; [apply (v_away q k N Q)|]. apply in_map_iff in N. destruct N as [j [<- J]]. apply in_seq in J. apply v_apart in Q; lia.
Qed.

Lemma seq_S' : forall m, seq 0 (S m) = seq 0 m ++ [m]. Proof. intro m. rewrite seq_S. reflexivity. Qed.
Lemma side_step : forall k, (k < n)%nat -> drawSegment ROps lm A (v k) (v (S k)) (made k) = (made (S k), Ok tt).
Proof.
  intros k K. set (m := match k with O => 0%nat | _ => S k end).
  assert (MP : points (made k) = points d ++ map v (seq 0 m)).
  { unfold made, m. cbn [points]. destruct k; [reflexivity|]. replace (Nat.min (S (S k)) n) with (S (S k)) by lia. reflexivity. }
  destruct (drawSegment_R lm A (v k) (v (S k)) (made k)) as [i1 [i2 [l1 [l2 [P1 [P2 E]]]]]]. cbv zeta in E. rewrite E. clear E.
  rewrite MP in *.
  assert (Q1 : l1 = (match k with O => [v 0] | _ => [] end) /\ i1 = (b + k)%nat).
  { destruct k as [|k'].
    - destruct (place_new 0 _ _ _ _ 0 P1 eq_refl ltac:(lia) ltac:(lia)) as [-> ->]. cbn [m seq map]. rewrite app_nil_r. split; [reflexivity|lia].
    - destruct (place_old m _ _ _ _ (S k') P1 eq_refl ltac:(unfold m; lia) ltac:(unfold m; lia)) as [-> ->]. split; reflexivity. }
  destruct Q1 as [-> ->].
  assert (PP : (points d ++ map v (seq 0 m)) ++ match k with O => [v 0] | _ => [] end = points d ++ map v (seq 0 (S k))).
  { unfold m. destruct k; [cbn [seq map]; rewrite app_nil_r; reflexivity|rewrite app_nil_r; reflexivity]. }
  rewrite PP in P2.
  assert (Q2 : l2 = (if Nat.eqb (S k) n then [] else [v (S k)]) /\ i2 = (b + next k)%nat).
  { unfold next. destruct (Nat.eqb_spec (S k) n) as [EN|EN].
    - apply (place_old m _ _ _ _ 0 P2); [rewrite EN; apply (v_last r n n3)|unfold m; destruct k; lia|unfold m; destruct k; lia].
    - destruct (place_new m _ _ _ _ (S k) P2 eq_refl ltac:(unfold m; destruct k; lia) ltac:(lia)) as [-> ->]. split; [reflexivity|].
      rewrite app_length, map_length, seq_length. reflexivity. }
  destruct Q2 as [-> ->].
  assert (PA : (points d ++ map v (seq 0 m)) ++ match k with O => [v 0] | _ => [] end ++ (if Nat.eqb (S k) n then [] else [v (S k)]) = points d ++ map v (seq 0 (Nat.min (S (S k)) n))).
  { rewrite app_assoc, PP. destruct (Nat.eqb_spec (S k) n) as [EN|EN].
    - rewrite app_nil_r. replace (Nat.min (S (S k)) n) with (S k) by lia. reflexivity.
    - replace (Nat.min (S (S k)) n) with (S (S k)) by lia. rewrite (seq_S' (S k)), map_app, app_assoc. reflexivity. }
  rewrite PA.
  rewrite check_left.
  - unfold after, made. cbn [region_map regions points segments polygons]. f_equal. f_equal. rewrite <- app_assoc. f_equal. rewrite (seq_S' k), map_app. reflexivity.
  - intros s HS. unfold made in HS. cbn [segments] in HS. apply in_app_or in HS. destruct HS as [HS|HS].
    + destruct (wf s HS) as [W1 W2]. split.
      * unfold same_segment. cbn. destruct (Nat.eqb_spec (fst s) (b + k)); [lia|]. destruct (Nat.eqb_spec (fst s) (b + next k)); [lia|]. reflexivity.
      * right. destruct (nth_error (points d) (fst s)) as [p|] eqn:E1; [|apply nth_error_None in E1; lia].
        destruct (nth_error (points d) (snd s)) as [q|] eqn:E2; [|apply nth_error_None in E2; lia]. exists p, q.
        rewrite !nth_error_app1 by lia. split; [auto|]. split; [auto|]. split; apply (inside_left s); auto.
    + apply in_map_iff in HS. destruct HS as [i [<- HI]]. apply in_seq in HI. unfold side. unfold same_segment, connected. cbn [fst snd].
      assert (NX : next i = S i) by (unfold next; destruct (Nat.eqb_spec (S i) n); lia). rewrite NX.
      assert (NK : next k = S k /\ (S k < n)%nat \/ next k = 0%nat /\ S k = n) by (unfold next; destruct (Nat.eqb_spec (S k) n); lia).
      split.
      * destruct (Nat.eqb_spec (b + i) (b + k)); [lia|]. destruct (Nat.eqb_spec (b + i) (b + next k)); [|reflexivity].
        cbn [andb orb]. destruct (Nat.eqb_spec (b + S i) (b + k)); [lia|reflexivity].
      * destruct (Nat.eq_dec (S i) k) as [C1|C1].
        { left. rewrite C1, Nat.eqb_refl. rewrite !orb_true_r. reflexivity. }
        destruct (Nat.eq_dec i (next k)) as [C2|C2].
        { left. rewrite C2, Nat.eqb_refl. rewrite !orb_true_r. reflexivity. }
        right. exists (v i), (v (S i)). rewrite <- (app_nil_r (map v _)). rewrite !vpt by lia. repeat (split; [reflexivity|]). split; apply vertex_left; lia.
Qed.
Lemma made_0 : made 0 = d.
Proof. unfold made. cbn [seq map]. rewrite !app_nil_r. destruct d; reflexivity. Qed.
Lemma ring_loop : forall m k mine, (k + m = n)%nat ->
  circle_loop ROps lm A org r (2 * PI / INR n) m (INR k * (2 * PI / INR n)) (v k) mine (made k) = (made n, Ok (mine ++ map v (seq (S k) m))).
Proof.
  induction m as [|m IH]; intros k mine H.
  - cbn. rewrite app_nil_r. replace n with k by lia. reflexivity.
  - cbn [circle_loop]. cbv zeta. assert (Ang : add ROps (INR k * (2 * PI / INR n)) (2 * PI / INR n) = INR (S k) * (2 * PI / INR n)) by
      (rewrite S_INR; change (INR k * (2 * PI / INR n) + 2 * PI / INR n = (INR k + 1) * (2 * PI / INR n)); ring).
    rewrite Ang. pose proof (circle_next lm exact org r n (S k)) as V. change (px org) with (vx org) in V.
    rewrite V. unfold mbind. rewrite side_step by lia. rewrite IH by lia. rewrite <- app_assoc. reflexivity.
Qed.
Lemma ring_drawn : drawCircle ROps lm A org r n d =
  (mkD (region_map d) (regions d) (points d ++ map v (seq 0 n)) (segments d ++ map side (seq 0 n)) (polygons d ++ [map v (seq 1 n)]), Ok tt).
Proof.
  rewrite (circle_open lm A exact) by lia. unfold mbind. rewrite <- made_0 at 1. rewrite ring_loop by lia. cbn [app].
  unfold push_polygon, made. destruct n as [|n']; [lia|]. replace (Nat.min (S (S n')) (S n')) with (S n') by lia. reflexivity.
Qed.
End Draw.

(** points within the inscribed circle *)
Section Inner.
Variable r : R.
Variable n : nat.
Hypothesis n3 : (3 <= n)%nat.
Hypothesis r0 : 0 < r.
Notation v := (circle_vertex org r n).
Let t := PI / INR n.
Hypothesis apart : tol9 <= 2 * r * sin t.
Lemma inner_away : forall p k, dist p org + tol9 <= r * cos t -> ~ near p (v k).
Proof.
  intros p k H N. unfold near in N. pose proof (v_radius r n r0 k) as V. pose proof (dist_tri (v k) p org) as Tr.
  rewrite (dist_sym (v k) p) in Tr. pose proof (COS_bound t). nra.
Qed.
Lemma inner_left : forall p k, dist p org + tol9 <= r * cos t -> e100 <= turn (v k) (v (S k)) p.
Proof.
  intros p k H. pose proof tol9_pos. pose proof (inner_turn r n n3 r0 k p tol9 ltac:(lra) H) as I. fold t in I.
  pose proof (e100_scale 1) as E. assert (/ 2 ^ 31 <= 1) by (rewrite <- Rinv_1; apply Rinv_le_contravar; [lra|]; apply pow_R1_Rle; lra). specialize (E H1). nra.
Qed.
End Inner.
