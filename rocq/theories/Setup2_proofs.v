(** The whole set-up in exact arithmetic. *)
From Coq Require Import String.
From Coq Require Import List Arith ZArith NArith Bool Lia.
From Coq Require Import Reals Lra.
From Verif Require Import Base AlgebraModel SolversSpec GeometryModel GeometrySpec Geometry_proofs Circle_proofs Polygon_proofs Segment_proofs.
From Verif Require Import DrawingModel DrawingSpec Drawing_proofs DrawingR_proofs SetupModel SetupSpec Setup_proofs.
Import ListNotations.
Local Open Scope R_scope.

Lemma sqrt3_pos : 0 < sqrt 3. Proof. apply sqrt_lt_R0. lra. Qed.

Section Setup2.
Variable lm : libm ROps.
Hypothesis exact : exact_libm lm.
Variable A : Type.
Variable peq : A -> A -> bool.
Variable air : A.
Variable mag : A -> pt.
Notation drawing := (drawing ROps A).

Lemma circle_R : forall (l : list pt) m, l <> [] -> reach l m -> boundary_circle ROps l = Ok (centroid l, 3 / 2 * m).
Proof.
  intros l m N [H1 [p [Hp Hm]]]. unfold boundary_circle. destruct (gec_R l N) as [c [E [C [R1 [q [Hq Rq]]]]]]. rewrite E. cbn [bind].
  assert (M : radius c = m).
  { apply Rle_antisym; [rewrite Rq; apply H1, Hq|rewrite <- Hm; apply R1, Hp]. }
  replace (match l with [] => one ROps | _ :: _ => radius c end) with (radius c) by (destruct l; [congruence|reflexivity]).
  cbn [div ROps ofZ]. rewrite Rdivr_ok by lra. cbn [bind]. rewrite C, M. unfold centroid. apply (f_equal Ok), f_equal2; [reflexivity|]. change (m * (3 / 2) = 3 / 2 * m). ring.
Qed.
Lemma points_R : forall r area s, equilateral s area -> boundary_points ROps lm r area = to_u32 ROps lm (4 * PI * r / s).
Proof.
  intros r area s [S0 E]. pose proof sqrt3_pos as Q. unfold boundary_points. destruct exact as [_ [_ [Ep _]]]. rewrite Ep.
  cbn [fsqrt ROps ofZ]. rewrite Rsqrtr_ok by lra. cbn [bind]. cbn [div ROps ofZ mul]. rewrite Rdivr_ok by lra. cbn [bind].
  assert (V : area * 4 / sqrt 3 = s * s) by (rewrite <- E; field; lra). change (IZR 4) with 4. change (T ROps) with R in *. rewrite V.
  rewrite Rsqrtr_ok by nra. cbn [bind]. rewrite sqrt_square by lra. rewrite Rdivr_ok by lra. cbn [bind].
  f_equal. cbn [mul ROps ofZ]. field. lra.
Qed.
Lemma seed_R : forall r, air_seed ROps r = Ok (P (r * (9 / 10)) 0).
Proof. intro r. unfold air_seed. cbn [div ROps ofZ]. rewrite Rdivr_ok by lra. reflexivity. Qed.
Lemma region_R : forall p val (d : drawing), exists d', drawRegion ROps A peq p val d = (d', Ok tt) /\ region_added peq d d' p val /\
  points d' = points d /\ segments d' = segments d /\ polygons d' = polygons d.
Proof.
  intros p val d. unfold drawRegion, getRegionId, mbind, mget, mput, mret.
  pose proof (find_prop_spec A peq (region_map d) 0 val) as F. destruct (find_prop A peq (region_map d) 0 val) as [k|]; cbn; (eexists; split; [reflexivity|]); cbn; (split; [|auto]).
  - destruct F as [w [_ [F [P _]]]]. rewrite Nat.sub_0_r in F. exists k, w. cbn. auto.
  - exists (length (region_map d)), val. cbn. split; auto. split; auto. rewrite nth_error_app2, Nat.sub_diag by lia. reflexivity.
Qed.
Definition opposite (c : pt) : pt := P (- px c) (- py c).
Lemma move_R : forall c (d : drawing), translate ROps A (vneg ROps c) d = (moved (opposite c) d, Ok tt).
Proof. intros c d. exact (translate_moved lm A peq (opposite c) d). Qed.
Lemma moved_dist : forall c p, dist (shift (opposite c) p) org = dist p c.
Proof. intros c p. unfold dist, shift, opposite, org. rewrite !px_P, !py_P. f_equal. ring. Qed.

(** everything up to the refinements *)
Lemma setup_core : forall (d : drawing) area m s n k,
  points d <> [] -> reach (points d) m -> equilateral s area -> to_u32 ROps lm (6 * PI * m / s) = Ok n ->
  (exists d1, drawCircle ROps lm A org (3 / 2 * m) n (moved (opposite (centroid (points d))) d) = (d1, Ok tt) /\ k d1) ->
  exists d1 d', k d1 /\ setup ROps lm A peq air mag false false area d = (d', Ok (centroid (points d), 3 / 2 * m, n)) /\
    region_added peq d1 d' (P (27 / 20 * m) 0) air /\ points d' = points d1 /\ segments d' = segments d1 /\ polygons d' = polygons d1.
Proof.
  intros d area m s n k N HR E Hn [d1 [D K]]. destruct (region_R (P (27 / 20 * m) 0) air d1) as [d' [DR F]]. exists d1, d'. split; [exact K|]. split; [|exact F].
  unfold setup, mbind, mget, mlift. rewrite (circle_R _ _ N HR). cbn [fst snd]. rewrite move_R. rewrite (points_R _ _ _ E).
  replace (4 * PI * (3 / 2 * m) / s) with (6 * PI * m / s) by (destruct E; field; lra). rewrite Hn.
  change (vzero ROps) with org. change (T ROps) with R in *. rewrite D. rewrite seed_R. replace (3 / 2 * m * (9 / 10)) with (27 / 20 * m) by field. rewrite DR. reflexivity.
Qed.

Section Enclosed.
Variable d : drawing.
Variables area m s : R.
Variable n : nat.
Hypothesis wf : well_formed d.
Hypothesis some : points d <> [].
Hypothesis far : reach (points d) m.
Hypothesis E : equilateral s area.
Hypothesis Hn : to_u32 ROps lm (6 * PI * m / s) = Ok n.
Hypothesis n3 : (3 <= n)%nat.
Hypothesis n32 : INR n < 2 ^ 32.
Hypothesis apart : tol9 <= 3 * m * sin (PI / INR n).
Hypothesis enclosed : forall p, In p (points d) -> dist p (centroid (points d)) + tol9 <= 3 / 2 * m * cos (PI / INR n).

Lemma m_pos : 0 < 3 / 2 * m.
Proof. pose proof (sin_t_pos n n3). pose proof tol9_pos. nra. Qed.
Lemma moved_inner : forall p, In p (points (moved (opposite (centroid (points d))) d)) -> dist p org + tol9 <= 3 / 2 * m * cos (PI / INR n).
Proof. intros p H. cbn in H. apply in_map_iff in H. destruct H as [q [<- H]]. rewrite moved_dist. apply enclosed, H. Qed.
Lemma setup_enclosed : exists d', setup ROps lm A peq air mag false false area d = (d', Ok (centroid (points d), 3 / 2 * m, n)) /\
  (let d0 := moved (opposite (centroid (points d))) d in
   ring_added d0 d' (3 / 2 * m) n /\ region_added peq d0 d' (P (27 / 20 * m) 0) air /\ (forall p, In p (points d0) -> inside_ring (3 / 2 * m) n p)) /\
  inside_ring (3 / 2 * m) n (P (27 / 20 * m) 0).
Proof.
  set (d0 := moved (opposite (centroid (points d))) d). pose proof m_pos as MP.
  assert (W0 : forall s, In s (segments d0) -> (fst s < length (points d0))%nat /\ (snd s < length (points d0))%nat).
  { intros x Hx. unfold d0 in *. cbn in *. rewrite map_length. apply (proj1 wf), Hx. }
  assert (AP : tol9 <= 2 * (3 / 2 * m) * sin (PI / INR n)) by lra.
  assert (RD := ring_drawn lm exact A (3 / 2 * m) n n3 n32 AP d0 W0 (fun p k Hp => inner_away _ _ MP p k (moved_inner p Hp))
    (fun x p k _ Hp => inner_left _ _ n3 MP AP p k (moved_inner p (match Hp with or_introl h => nth_error_In _ _ h | or_intror h => nth_error_In _ _ h end)))).
  destruct (setup_core d area m s n (fun d1 => ring_added d0 d1 (3 / 2 * m) n /\ regions d1 = regions d0)) as [d1 [d' [[K1 K2] [S1 [RA [P1 [S2 P2]]]]]]]; auto.
  { eexists. split; [exact RD|]. split; [|reflexivity]. split; [reflexivity|]. split; [|reflexivity]. cbn [segments]. f_equal. apply map_ext_in.
    intros i Hi. apply in_seq in Hi. unfold side, next. f_equal. f_equal. destruct (Nat.eqb_spec (S i) n) as [Q|Q].
    - rewrite Q. symmetry. apply Nat.mod_same. lia.
    - symmetry. apply Nat.mod_small. lia. }
  exists d'. split; [exact S1|]. cbv zeta. split; [split; [|split]|].
  - destruct K1 as [A1 [A2 A3]]. split; [congruence|]. split; congruence.
  - destruct RA as [id [a [A1 A2]]]. exists id, a. rewrite <- K2. auto.
  - intros p Hp k Hk. pose proof (inner_left _ _ n3 MP AP p k (moved_inner p Hp)). pose proof e100_pos. lra.
  - intros k Hk. replace (27 / 20 * m) with (3 / 2 * m * (9 / 10)) by field. apply axis_turn; auto. lra.
Qed.
End Enclosed.

(** the seed of the air is to the right of everything that stays clear of it *)
Lemma seed_clear : forall m g, (forall p, In p g -> dist p org < 27 / 20 * m) -> poly_contains ROps g (P (27 / 20 * m) 0) = false.
Proof.
  intros m g H. apply outside_bb. left. intros p Hp. rewrite px_P. specialize (H p Hp). pose proof (project p 0) as Q. rewrite cos_0, sin_0 in Q. lra.
Qed.

(** ** sizes for which it works *)
Lemma sin_low : forall y, 0 <= y <= 1 -> y / 2 <= sin y.
Proof.
  intros y [Y0 Y1]. pose proof PI2_3_2. destruct (pre_sin_bound y 0 Y0) as [L _]; [lra|]. unfold sin_approx, sin_term in L. cbn in L.
  assert (y * y * y <= y) by nra. lra.
Qed.
Lemma cos_low : forall y, 0 <= y -> 1 - y * y / 2 <= cos y.
Proof.
  intros y Y. pose proof (cos_2a_sin (y / 2)) as C. replace (2 * (y / 2)) with y in C by field. rewrite C.
  destruct (Req_dec y 0) as [->|Z]; [replace (0 / 2) with 0 by field; rewrite sin_0; lra|].
  assert (H : 0 < y / 2) by lra. assert (Rabs (sin (y / 2)) <= y / 2).
  { apply Rabs_le. split.
    - destruct (Rle_lt_dec (y / 2) PI) as [L|L]; [pose proof (sin_ge_0 (y / 2) ltac:(lra) L); lra|]. pose proof (SIN_bound (y / 2)). pose proof PI2_3_2. lra.
    - left. apply sin_lt_x. exact H. }
  assert (Q : sin (y / 2) * sin (y / 2) <= y / 2 * (y / 2)).
  { rewrite <- (Rabs_right (sin (y / 2) * sin (y / 2))) by (pose proof (Rle_0_sqr (sin (y / 2))) as Z2; unfold Rsqr in Z2; lra). rewrite Rabs_mult. pose proof (Rabs_pos (sin (y / 2))). apply Rmult_le_compat; lra. }
  nra.
Qed.
Lemma usual_sizes : forall m s n, 0 < s -> s <= 2 * m -> m <= 10 ^ 8 * s -> 4 * tol9 <= s -> 16 * tol9 <= m ->
  INR n <= 6 * PI * m / s < INR n + 1 ->
  0 <= 6 * PI * m / s < 2 ^ 32 /\ (3 <= n)%nat /\ INR n < 2 ^ 32 /\ tol9 <= 3 * m * sin (PI / INR n) /\ 5 / 4 * m + tol9 <= 3 / 2 * m * cos (PI / INR n).
Proof.
  intros m s n S0 SM MS ST MT [L U]. pose proof PI2_3_2 as P3. pose proof PI_4 as P4. pose proof tol9_pos as T9. set (x := 6 * PI * m / s) in *.
  assert (X : x * s = 6 * PI * m) by (unfold x; field; lra).
  assert (X1 : 9 <= x) by nra. assert (X2 : x <= 24 * 10 ^ 8) by nra.
  assert (X3 : 24 * 10 ^ 8 < 2 ^ 32) by lra.
  assert (N8 : 8 < INR n) by lra. assert (n8 : (8 < n)%nat) by (apply INR_lt; simpl; lra).
  assert (N0 : 0 < INR n) by lra. set (t := PI / INR n). assert (T0 : INR n * t = PI) by (unfold t; field; lra).
  assert (Tp : 0 < t) by (unfold t; apply Rdiv_lt_0_compat; lra). assert (T1 : t <= 1 / 2) by nra.
  split; [lra|]. split; [lia|]. split; [lra|]. split.
  - pose proof (sin_low t ltac:(lra)) as SL. assert (T2 : s <= 6 * m * t).
    { assert (INR n * s <= 6 * m * t * INR n) by (replace (6 * m * t * INR n) with (6 * PI * m) by (rewrite <- T0; ring); rewrite <- X; nra).
      apply Rmult_le_reg_r with (INR n); lra. }
    assert (3 * m * (t / 2) <= 3 * m * sin t) by (apply Rmult_le_compat_l; lra). lra.
  - pose proof (cos_low t ltac:(lra)) as CL. assert (7 / 8 <= cos t) by nra. nra.
Qed.
End Setup2.
