(** Vectors, orientation, triangles, point-segment distance, circles. *)
From Coq Require Import String.
From Coq Require Import List Arith ZArith NArith Bool Lia Permutation.
From Coq Require Import Reals Lra Psatz.
From Verif Require Import Base GeometryModel GeometrySpec.
Import ListNotations.
Local Open Scope R_scope.

Lemma sq_nonneg : forall x : R, 0 <= x * x.
Proof. intros; apply Rle_0_sqr. Qed.

Lemma d2_nonneg : forall p q : pt, 0 <= (px p - px q) * (px p - px q) + (py p - py q) * (py p - py q).
Proof. intros. pose proof (sq_nonneg (px p - px q)). pose proof (sq_nonneg (py p - py q)). lra. Qed.

Lemma distance_R : forall p q : pt, distance ROps p q = Ok (dist p q).
Proof. intros. unfold distance, distanceSquared. simpl. apply Rsqrtr_ok. apply d2_nonneg. Qed.

Lemma norm_R : forall p : pt, norm ROps p = Ok (dist p (P 0 0)).
Proof.
  intros. unfold norm, normSquared. simpl. unfold dist, P; simpl. toR.
  replace ((px p - 0) * (px p - 0) + (py p - 0) * (py p - 0)) with (px p * px p + py p * py p) by ring.
  apply Rsqrtr_ok. pose proof (sq_nonneg (px p)). pose proof (sq_nonneg (py p)). unfold px, py in *. lra.
Qed.

Lemma dist_nonneg : forall p q, 0 <= dist p q.
Proof. intros; apply sqrt_pos. Qed.
Lemma dist_sym : forall p q, dist p q = dist q p.
Proof. intros; unfold dist; f_equal; ring. Qed.
Lemma dist_self : forall p, dist p p = 0.
Proof. intros; unfold dist. replace (_ + _) with 0 by ring. apply sqrt_0. Qed.
Lemma dist_sq : forall p q, dist p q * dist p q = (px p - px q) * (px p - px q) + (py p - py q) * (py p - py q).
Proof. intros; unfold dist. apply sqrt_sqrt. apply d2_nonneg. Qed.
Lemma pt_ext : forall p q : pt, px p = px q -> py p = py q -> p = q.
Proof. intros [a b] [c d]; unfold px, py; simpl; intros; congruence. Qed.
Lemma dist_zero : forall p q, dist p q = 0 -> p = q.
Proof.
  intros p q H. pose proof (dist_sq p q) as E. rewrite H in E.
  pose proof (sq_nonneg (px p - px q)). pose proof (sq_nonneg (py p - py q)).
  apply pt_ext; apply Rminus_diag_uniq; apply Rsqr_0_uniq; unfold Rsqr; lra.
Qed.
Lemma dist_le_sq : forall p q r, 0 <= r ->
  (dist p q <= r <-> (px p - px q) * (px p - px q) + (py p - py q) * (py p - py q) <= r * r).
Proof.
  intros p q r Hr. rewrite <- dist_sq. pose proof (dist_nonneg p q). split; intros H1.
  - apply Rmult_le_compat; auto.
  - apply Rsqr_incr_0_var; auto.
Qed.
Lemma dist_le : forall p q u v,
  (dist p q <= dist u v <->
   (px p - px q) * (px p - px q) + (py p - py q) * (py p - py q) <= (px u - px v) * (px u - px v) + (py u - py v) * (py u - py v)).
Proof. intros. rewrite (dist_le_sq p q _ (dist_nonneg u v)), dist_sq. tauto. Qed.

(** Cauchy-Schwarz and the triangle inequality *)
Lemma cs2 : forall a b c d : R, (a * c + b * d) * (a * c + b * d) <= (a * a + b * b) * (c * c + d * d).
Proof. intros. pose proof (sq_nonneg (a * d - b * c)). lra. Qed.
Lemma dist_tri : forall p q r, dist p r <= dist p q + dist q r.
Proof.
  intros p q r. pose proof (dist_nonneg p q). pose proof (dist_nonneg q r).
  apply dist_le_sq; [lra|].
  pose proof (dist_sq p q) as E1. pose proof (dist_sq q r) as E2.
  set (a := px p - px q) in *. set (b := py p - py q) in *. set (c := px q - px r) in *. set (d := py q - py r) in *.
  replace (px p - px r) with (a + c) by (unfold a, c; ring). replace (py p - py r) with (b + d) by (unfold b, d; ring).
  assert (C : a * c + b * d <= dist p q * dist q r).
  { apply Rsqr_incr_0_var; [|apply Rmult_le_pos; auto]. unfold Rsqr.
    replace (dist p q * dist q r * (dist p q * dist q r)) with ((dist p q * dist p q) * (dist q r * dist q r)) by ring.
    rewrite E1, E2. apply cs2. }
  replace ((dist p q + dist q r) * (dist p q + dist q r)) with
    (dist p q * dist p q + dist q r * dist q r + 2 * (dist p q * dist q r)) by ring.
  rewrite E1, E2. lra.
Qed.

(** ** C19 *)
Notation rot p a c := (rotate ROps sin cos p a c).
Notation darea := (doubleOrientedArea ROps).

Lemma rot_x : forall (p c : pt) (a : R), px (rot p a c) = (px p - px c) * cos a - (py p - py c) * sin a + px c.
Proof. intros; reflexivity. Qed.
Lemma rot_y : forall (p c : pt) (a : R), py (rot p a c) = (px p - px c) * sin a + (py p - py c) * cos a + py c.
Proof. intros; reflexivity. Qed.

Lemma sc1 : forall a : R, sin a * sin a + cos a * cos a = 1.
Proof. intros. pose proof (sin2_cos2 a). unfold Rsqr in H. lra. Qed.

Lemma rot_isometry : forall (p q c : pt) (a : R), dist (rot p a c) (rot q a c) = dist p q.
Proof.
  intros. unfold dist. f_equal. rewrite !rot_x, !rot_y. pose proof (sc1 a) as E.
  set (s := sin a) in *. set (k := cos a) in *.
  replace ((px p - px q) * (px p - px q) + (py p - py q) * (py p - py q)) with
    (((px p - px q) * (px p - px q) + (py p - py q) * (py p - py q)) * (s * s + k * k)) by (rewrite E; ring).
  ring.
Qed.
Lemma rot_compose : forall (p c : pt) (a b : R), rot (rot p a c) b c = rot p (a + b) c.
Proof. intros. apply pt_ext; rewrite ?rot_x, ?rot_y, ?rot_x, ?rot_y, cos_plus, sin_plus; ring. Qed.
Lemma rot_zero : forall (p c : pt), rot p 0 c = p.
Proof. intros. apply pt_ext; rewrite ?rot_x, ?rot_y, cos_0, sin_0; ring. Qed.
Lemma rot_inverse : forall (p c : pt) (a : R), rot (rot p a c) (- a) c = p.
Proof. intros. rewrite rot_compose. replace (a + - a) with 0 by ring. apply rot_zero. Qed.
Lemma rot_center : forall (c : pt) (a : R), rot c a c = c.
Proof. intros. apply pt_ext; rewrite ?rot_x, ?rot_y; ring. Qed.
Lemma darea_turn : forall a b c : pt, darea a b c = turn a b c.
Proof. intros. unfold turn, doubleOrientedArea; simpl; unfold px, py. ring. Qed.
Lemma rot_turn : forall (p q r c : pt) (a : R), turn (rot p a c) (rot q a c) (rot r a c) = turn p q r.
Proof.
  intros. unfold turn. rewrite !rot_x, !rot_y. pose proof (sc1 a) as E.
  set (s := sin a) in *. set (k := cos a) in *.
  match goal with |- _ = ?x => replace x with (x * (s * s + k * k)) by (rewrite E; ring) end. ring.
Qed.

Lemma px_P : forall x y, px (P x y) = x.
Proof. reflexivity. Qed.
Lemma py_P : forall x y, py (P x y) = y.
Proof. reflexivity. Qed.
Lemma normal_x : forall p : pt, px (normal ROps p) = - py p.
Proof. reflexivity. Qed.
Lemma normal_y : forall p : pt, py (normal ROps p) = px p.
Proof. reflexivity. Qed.

Lemma normal_props : forall p : pt, vdot ROps p (normal ROps p) = 0 /\ dist (normal ROps p) (P 0 0) = dist p (P 0 0) /\
  normal ROps p = rot p (PI / 2) (P 0 0).
Proof.
  intros p. split; [|split].
  - change (px p * px (normal ROps p) + py p * py (normal ROps p) = 0). rewrite normal_x, normal_y. ring.
  - unfold dist. rewrite normal_x, normal_y, px_P, py_P. f_equal. ring.
  - apply pt_ext; rewrite ?rot_x, ?rot_y, cos_PI2, sin_PI2, ?normal_x, ?normal_y, px_P, py_P; ring.
Qed.

Lemma area_R : forall a b c : pt, area ROps a b c = Ok (Rabs (turn a b c) / 2).
Proof.
  intros. unfold area, orientedArea. cbn [div ROps]. unfold two. cbn [ofZ ROps].
  rewrite Rdivr_ok by lra. cbn [bind fabs ROps]. f_equal.
  rewrite darea_turn. unfold Rdiv. rewrite Rabs_mult. rewrite (Rabs_right (/ 2)) by lra. reflexivity.
Qed.

Lemma normalize_R : forall p : pt, p <> P 0 0 ->
  exists q : pt, normalize ROps p = Ok q /\ dist q (P 0 0) = 1 /\ px p = dist p (P 0 0) * px q /\ py p = dist p (P 0 0) * py q.
Proof.
  intros p Hp. unfold normalize. rewrite norm_R. cbn [bind].
  assert (Hd : dist p (P 0 0) <> 0) by (intros E; apply Hp; apply dist_zero; auto).
  change (eqb ROps) with Reqb. destruct (Reqb (dist p (P 0 0)) (zero ROps)) eqn:E; [apply Reqb_true in E; contradiction|].
  cbn [div ROps]. rewrite !Rdivr_ok by auto. cbn [bind]. eexists; split; [reflexivity|].
  set (d := dist p (P 0 0)) in *.
  assert (Ed : d * d = px p * px p + py p * py p).
  { unfold d. rewrite dist_sq. unfold P, px, py; simpl. ring. }
  assert (Hpos : 0 < d) by (pose proof (dist_nonneg p (P 0 0)); unfold d in *; lra).
  split; [|split].
  - change (sqrt ((px p / d - 0) * (px p / d - 0) + (py p / d - 0) * (py p / d - 0)) = 1).
    replace ((px p / d - 0) * (px p / d - 0) + (py p / d - 0) * (py p / d - 0)) with ((px p * px p + py p * py p) / (d * d)) by (field; auto).
    rewrite <- Ed. replace (d * d / (d * d)) with 1 by (field; auto). apply sqrt_1.
  - change (px p = d * (px p / d)). field; auto.
  - change (py p = d * (py p / d)). field; auto.
Qed.
Lemma normalize_zero : normalize ROps (P 0 0) = Ok (P 0 0).
Proof.
  unfold normalize. rewrite norm_R, dist_self. cbn [bind]. change (eqb ROps) with Reqb.
  replace (Reqb 0 (zero ROps)) with true by (symmetry; apply Reqb_true; reflexivity). reflexivity.
Qed.

(** ** C20 *)
Definition eps9R : R := / 10 ^ 9.
Lemma vec_eqb_R : forall p q : pt, vec_eqb ROps p q = Ok (Rltb (dist p q) eps9R).
Proof. intros. unfold vec_eqb. rewrite distance_R. reflexivity. Qed.
Lemma eps9R_pos : 0 < eps9R.
Proof. unfold eps9R. apply Rinv_0_lt_compat. apply pow_lt. lra. Qed.

Lemma dist_horiz : forall a b y, dist (P a y) (P b y) = Rabs (a - b).
Proof.
  intros. unfold dist, P, px, py; simpl. rewrite <- sqrt_Rsqr_abs. f_equal. unfold Rsqr. ring.
Qed.

Lemma lxor_cancel : forall a b c : N, N.lxor a c = N.lxor b c -> a = b.
Proof.
  intros a b c H. assert (N.lxor (N.lxor a c) c = N.lxor (N.lxor b c) c) by congruence.
  rewrite !N.lxor_assoc, !N.lxor_nilpotent, !N.lxor_0_r in H0. auto.
Qed.

Lemma hash_const : forall (h : R -> N),
  (forall p q : pt, vec_eqb ROps p q = Ok true -> vec_hash ROps h p = vec_hash ROps h q) ->
  forall x y : R, h x = h y.
Proof.
  intros h H.
  assert (L : forall x y, Rabs (x - y) < eps9R -> h x = h y).
  { intros x y Hxy. apply (lxor_cancel _ _ (h 0)). specialize (H (P x 0) (P y 0)).
    unfold vec_hash, P in H; simpl in H. apply H. rewrite vec_eqb_R. f_equal. apply Rltb_true.
    fold (P x 0) (P y 0). rewrite dist_horiz; auto. }
  pose proof eps9R_pos as He.
  assert (S1 : forall n x d, 0 <= d < eps9R -> h x = h (x + INR n * d)).
  { induction n as [|n IH]; intros x d Hd.
    - simpl. f_equal. ring.
    - rewrite (IH x d Hd). apply L. rewrite S_INR. replace (_ - _) with (- d) by ring. rewrite Rabs_Ropp, Rabs_right; lra. }
  assert (M : forall x y, x <= y -> h x = h y).
  { intros x y Hle. destruct (archimed ((y - x) / eps9R)) as [Hu _].
    set (n := S (Z.to_nat (up ((y - x) / eps9R)))).
    assert (Hn : (y - x) / eps9R < INR n).
    { unfold n. rewrite S_INR. eapply Rlt_le_trans; [apply Hu|].
      assert (0 <= (y - x) / eps9R) by (apply Rmult_le_pos; [lra|left; apply Rinv_0_lt_compat; auto]).
      assert (0 <= up ((y - x) / eps9R))%Z by (apply le_IZR; lra).
      rewrite INR_IZR_INZ, Z2Nat.id by auto. lra. }
    assert (Hn0 : 0 < INR n) by (unfold n; apply lt_0_INR; lia).
    rewrite (S1 n x ((y - x) / INR n)).
    - f_equal. field. lra.
    - split.
      + apply Rmult_le_pos; [lra|left; apply Rinv_0_lt_compat; auto].
      + apply Rmult_lt_reg_r with (INR n); auto. unfold Rdiv. rewrite Rmult_assoc, Rinv_l, Rmult_1_r by lra.
        apply Rmult_lt_reg_r with (/ eps9R); [apply Rinv_0_lt_compat; auto|].
        replace (eps9R * INR n * / eps9R) with (INR n) by (field; lra). auto. }
  intros x y. destruct (Rle_dec x y); [apply M; auto|symmetry; apply M; lra].
Qed.

(** ** C21 *)
Lemma eps52_pos : 0 < eps52.
Proof. unfold eps52. apply Rinv_0_lt_compat. apply pow_lt. lra. Qed.

Lemma orient_R : forall a b c : pt,
  geomOrientation ROps a b c =
  if Rltb (Rabs (turn a b c)) eps52 then COLLINEAR else if Rltb (turn a b c) 0 then CLOCKWISE else COUNTERCLOCKWISE.
Proof.
  intros. unfold geomOrientation. cbn [ltb gtb ROps fabs add sub mul dbl_eps zero].
  set (v := Rminus _ _). assert (E : v = - turn a b c) by (unfold v, turn, px, py; ring).
  clearbody v. subst v. rewrite Rabs_Ropp. fold eps52.
  destruct (Rltb (Rabs (turn a b c)) eps52) eqn:E1; auto.
  unfold gtb; simpl. assert (Rltb 0 (- turn a b c) = Rltb (turn a b c) 0).
  { destruct (Rltb (turn a b c) 0) eqn:E2.
    - apply Rltb_true in E2. apply Rltb_true. lra.
    - apply Rltb_false in E2. apply Rltb_false. lra. }
  rewrite H. reflexivity.
Qed.

Definition oclass (v : R) : orientation :=
  if Rltb (Rabs v) eps52 then COLLINEAR else if Rltb v 0 then CLOCKWISE else COUNTERCLOCKWISE.

Lemma oclass_cases : forall v,
  (oclass v = COLLINEAR /\ Rabs v < eps52) \/ (oclass v = CLOCKWISE /\ v <= - eps52) \/ (oclass v = COUNTERCLOCKWISE /\ eps52 <= v).
Proof.
  intros v. unfold oclass. destruct (Rltb (Rabs v) eps52) eqn:E.
  - left; apply Rltb_true in E; auto.
  - apply Rltb_false in E. destruct (Rltb v 0) eqn:E2.
    + apply Rltb_true in E2. rewrite Rabs_left in E by auto. right; left; split; auto; lra.
    + apply Rltb_false in E2. rewrite Rabs_right in E by lra. right; right; split; auto; lra.
Qed.

Lemma oeqb : forall a b, orientation_eqb a b = true <-> a = b.
Proof. intros [] []; simpl; split; intros; auto; discriminate. Qed.

Lemma pit_exact : forall p a b c : pt,
  pointInTriangle ROps p a b c = true <->
  (let t1 := turn p a b in let t2 := turn p b c in let t3 := turn p c a in
   (Rabs t1 < eps52 /\ Rabs t2 < eps52 /\ Rabs t3 < eps52) \/
   (eps52 <= t1 /\ eps52 <= t2 /\ eps52 <= t3) \/
   (t1 <= - eps52 /\ t2 <= - eps52 /\ t3 <= - eps52)).
Proof.
  intros. unfold pointInTriangle. rewrite !orient_R. fold (oclass (turn p a b)) (oclass (turn p b c)) (oclass (turn p c a)).
  cbv zeta. rewrite andb_true_iff, !oeqb. pose proof eps52_pos as He.
  destruct (oclass_cases (turn p a b)) as [[E1 H1]|[[E1 H1]|[E1 H1]]];
  destruct (oclass_cases (turn p b c)) as [[E2 H2]|[[E2 H2]|[E2 H2]]];
  destruct (oclass_cases (turn p c a)) as [[E3 H3]|[[E3 H3]|[E3 H3]]]; rewrite E1, E2, E3;
  (split; [intros [? ?]; try discriminate; try tauto | intros [[? [? ?]]|[[? [? ?]]|[? [? ?]]]]; split; auto; exfalso;
     repeat match goal with H : Rabs _ < _ |- _ => apply Rabs_def2 in H; destruct H end; lra]).
Qed.

Lemma turn_sum : forall p a b c : pt, turn p a b + turn p b c + turn p c a = turn a b c.
Proof. intros; unfold turn; ring. Qed.

Lemma pit_nondegenerate : forall p a b c : pt, 3 * eps52 <= Rabs (turn a b c) ->
  (pointInTriangle ROps p a b c = true <->
   (eps52 <= turn p a b /\ eps52 <= turn p b c /\ eps52 <= turn p c a) \/
   (turn p a b <= - eps52 /\ turn p b c <= - eps52 /\ turn p c a <= - eps52)).
Proof.
  intros p a b c H. rewrite pit_exact. cbv zeta. pose proof (turn_sum p a b c) as Es.
  split; [intros [[H1 [H2 H3]]|H1]; auto|tauto]. exfalso.
  apply Rabs_def2 in H1, H2, H3. rewrite <- Es in H.
  assert (Rabs (turn p a b + turn p b c + turn p c a) < 3 * eps52) by (apply Rabs_def1; lra). lra.
Qed.

Lemma pit_interior : forall p a b c : pt, 3 * eps52 <= Rabs (turn a b c) ->
  pointInTriangle ROps p a b c = true -> in_open_triangle p a b c.
Proof.
  intros p a b c H Hp. apply pit_nondegenerate in Hp; auto. pose proof eps52_pos as He.
  pose proof (turn_sum p a b c) as Es.
  assert (Hd : turn a b c <> 0) by (intros E; rewrite E, Rabs_R0 in H; lra).
  exists (turn p b c / turn a b c), (turn p c a / turn a b c), (turn p a b / turn a b c).
  assert (Hpos : forall x, (turn a b c > 0 -> x > 0) -> (turn a b c < 0 -> x < 0) -> 0 < x / turn a b c).
  { intros x H1 H2. destruct (Rlt_dec 0 (turn a b c)) as [G|G].
    - apply Rdiv_lt_0_compat; auto. apply H1; lra.
    - assert (turn a b c < 0) by lra. replace (x / turn a b c) with ((- x) / (- turn a b c)) by (field; auto).
      apply Rdiv_lt_0_compat; [|lra]. specialize (H2 H0). lra. }
  split; [apply Hpos; lra|]. split; [apply Hpos; lra|]. split; [apply Hpos; lra|].
  split; [replace (_ + _) with ((turn p a b + turn p b c + turn p c a) / turn a b c) by (field; auto); rewrite Es; field; auto|].
  split; apply Rmult_eq_reg_r with (turn a b c); auto; field_simplify; auto; unfold turn; ring.
Qed.

Lemma pit_margin : forall p a b c : pt,
  (forall u v w, u + v + w = 1 -> px p = u * px a + v * px b + w * px c -> py p = u * py a + v * py b + w * py c ->
     eps52 <= u * Rabs (turn a b c) /\ eps52 <= v * Rabs (turn a b c) /\ eps52 <= w * Rabs (turn a b c)) ->
  turn a b c <> 0 ->
  pointInTriangle ROps p a b c = true.
Proof.
  intros p a b c H Hd. apply pit_exact. cbv zeta. right.
  pose proof (turn_sum p a b c) as Es.
  destruct (H (turn p b c / turn a b c) (turn p c a / turn a b c) (turn p a b / turn a b c)) as [H1 [H2 H3]].
  - replace (_ + _) with ((turn p a b + turn p b c + turn p c a) / turn a b c) by (field; auto). rewrite Es; field; auto.
  - apply Rmult_eq_reg_r with (turn a b c); auto; field_simplify; auto; unfold turn; ring.
  - apply Rmult_eq_reg_r with (turn a b c); auto; field_simplify; auto; unfold turn; ring.
  - destruct (Rlt_dec 0 (turn a b c)) as [G|G].
    + rewrite Rabs_right in H1, H2, H3 by lra.
      replace (turn p b c / turn a b c * turn a b c) with (turn p b c) in H1 by (field; auto).
      replace (turn p c a / turn a b c * turn a b c) with (turn p c a) in H2 by (field; auto).
      replace (turn p a b / turn a b c * turn a b c) with (turn p a b) in H3 by (field; auto). left; auto.
    + rewrite Rabs_left in H1, H2, H3 by lra.
      replace (turn p b c / turn a b c * - turn a b c) with (- turn p b c) in H1 by (field; auto).
      replace (turn p c a / turn a b c * - turn a b c) with (- turn p c a) in H2 by (field; auto).
      replace (turn p a b / turn a b c * - turn a b c) with (- turn p a b) in H3 by (field; auto). right; lra.
Qed.

Lemma turn_swap : forall p a b, turn p b a = - turn p a b.
Proof. intros; unfold turn; ring. Qed.

Lemma pit_rotate_order : forall p a b c, pointInTriangle ROps p b c a = pointInTriangle ROps p a b c.
Proof. intros. apply Bool.eq_iff_eq_true. rewrite !pit_exact. cbv zeta. tauto. Qed.
Lemma pit_swap_order : forall p a b c, pointInTriangle ROps p b a c = pointInTriangle ROps p a b c.
Proof.
  intros. apply Bool.eq_iff_eq_true. rewrite !pit_exact. cbv zeta.
  rewrite (turn_swap p a b), (turn_swap p c a), (turn_swap p b c), !Rabs_Ropp. lra.
Qed.
