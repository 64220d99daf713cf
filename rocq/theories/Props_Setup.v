(** Property C63: the automatic boundary.  Vocabulary in SetupSpec.v, model in SetupModel.v. *)
From Coq Require Import String.
From Coq Require Import List Arith ZArith NArith Bool Lia.
From Coq Require Import Reals Lra.
From Verif Require Import Base AlgebraModel GeometryModel GeometrySpec Geometry_proofs Circle_proofs Polygon_proofs Segment_proofs.
From Verif Require Import DrawingModel DrawingSpec Drawing_proofs DrawingR_proofs SetupModel SetupSpec Setup_proofs Setup2_proofs Boundary_proofs.
Import ListNotations.
Local Open Scope R_scope.

(** A drawing that lies inside the inscribed circle of the boundary polygon: every point is moved by minus the centroid, the
    polygon and the air region are added, and everything drawn before is strictly inside the polygon.  m: the largest
    distance of a point from the origin, s: side of the equilateral triangle of the largest area. *)
Theorem C63_setup : forall lm A peq (air : A) mag (d : drawing ROps A) area m s n,
  exact_libm lm -> truncates lm -> well_formed d -> points d <> [] -> reach (points d) m -> equilateral s area ->
  (3 <= n)%nat -> INR n <= 6 * PI * m / s < INR n + 1 -> 6 * PI * m / s < 2 ^ 32 -> tol9 <= 3 * m * sin (PI / INR n) ->
  (forall p, In p (points d) -> dist p (centroid (points d)) + tol9 <= 3 / 2 * m * cos (PI / INR n)) ->
  exists d', setup ROps lm A peq air mag false false area d = (d', Ok (centroid (points d), 3 / 2 * m, n)) /\
  (let d0 := moved (P (- px (centroid (points d))) (- py (centroid (points d)))) d in
   ring_added d0 d' (3 / 2 * m) n /\ region_added peq d0 d' (P (27 / 20 * m) 0) air /\ (forall p, In p (points d0) -> inside_ring (3 / 2 * m) n p)) /\
  inside_ring (3 / 2 * m) n (P (27 / 20 * m) 0).
Proof.
  intros lm A peq air mag d area m s n Hx Ht wf some far E n3 [L U] B apart enc. destruct (Ht (6 * PI * m / s)) as [k [Hk [K1 K2]]].
  { split; [|exact B]. pose proof (pos_INR n). lra. }
  assert (k = n). { apply INR_eq. destruct (lt_eq_lt_dec k n) as [[Q|Q]|Q]; [|subst; reflexivity|]; apply (le_INR (S _)) in Q; rewrite S_INR in Q; lra. }
  subst k. eapply setup_enclosed; eauto. lra.
Qed.
Print Assumptions C63_setup.

(** The sizes for which that holds: the centroid is within a quarter of the extent from the origin, the elements are between
    1e-8 of the extent and twice the extent.  The air region is then outside every outline. *)
Theorem C63_usual : forall lm A peq (air : A) mag (d : drawing ROps A) area m s,
  exact_libm lm -> truncates lm -> well_formed d -> points d <> [] -> reach (points d) m -> equilateral s area ->
  dist (centroid (points d)) org <= m / 4 -> s <= 2 * m -> m <= 10 ^ 8 * s -> 4 * tol9 <= s -> 16 * tol9 <= m ->
  exists n d', INR n <= 6 * PI * m / s < INR n + 1 /\ setup ROps lm A peq air mag false false area d = (d', Ok (centroid (points d), 3 / 2 * m, n)) /\
  (let d0 := moved (P (- px (centroid (points d))) (- py (centroid (points d)))) d in
   ring_added d0 d' (3 / 2 * m) n /\ region_added peq d0 d' (P (27 / 20 * m) 0) air /\ (forall p, In p (points d0) -> inside_ring (3 / 2 * m) n p) /\
   (forall g, In g (polygons d0) -> (forall p, In p g -> exists q, In q (points d0) /\ near p q) -> poly_contains ROps g (P (27 / 20 * m) 0) = false)) /\
  inside_ring (3 / 2 * m) n (P (27 / 20 * m) 0).
Proof.
  intros lm A peq air mag d area m s Hx Ht wf some far E C SM MS ST MT. destruct E as [S0 E].
  assert (M0 : 0 < m) by (pose proof tol9_pos; lra).
  assert (X : 0 <= 6 * PI * m / s < 2 ^ 32).
  { pose proof PI2_3_2. pose proof PI_4. split.
    - apply Rmult_le_pos; [|left; apply Rinv_0_lt_compat; exact S0]. nra.
    - apply Rmult_lt_reg_r with s; [exact S0|]. replace (6 * PI * m / s * s) with (6 * PI * m) by (field; lra).
      assert (6 * PI * m <= 24 * 10 ^ 8 * s) by nra. assert (24 * 10 ^ 8 < 2 ^ 32) by lra. nra. }
  destruct (Ht _ X) as [n [Hn NU]]. destruct (usual_sizes m s n S0 SM MS ST MT NU) as [_ [n3 [n32 [AP EN]]]].
  assert (D54 : forall p, In p (points d) -> dist p (centroid (points d)) <= 5 / 4 * m).
  { intros p Hp. pose proof (dist_tri p org (centroid (points d))) as Tr. rewrite (dist_sym org) in Tr. pose proof (proj1 far p Hp). lra. }
  destruct (setup_enclosed lm Hx A peq air mag d area m s n wf some far (conj S0 E) Hn n3 n32 AP) as [d' [H1 [[H2 [H3 H4]] H5]]].
  { intros p Hp. specialize (D54 p Hp). lra. }
  exists n, d'. split; [exact NU|]. split; [exact H1|]. split; [|exact H5]. split; [exact H2|]. split; [exact H3|]. split; [exact H4|].
  intros g _ Hg. apply seed_clear. intros p Hp. destruct (Hg p Hp) as [q [Hq N]]. cbn [points moved] in Hq. apply in_map_iff in Hq. destruct Hq as [q0 [<- Hq]].
  change (P (- px (centroid (points d))) (- py (centroid (points d)))) with (opposite (centroid (points d))) in N.
  pose proof (dist_tri p (shift (opposite (centroid (points d))) q0) org) as Tr. rewrite moved_dist in Tr. specialize (D54 q0 Hq).
  unfold near in N. pose proof tol9_pos. lra.
Qed.
Print Assumptions C63_usual.

(** the outside, mapped into a disc, gets the same boundary points *)
Theorem C63_outside : forall lm A peq (val : A) r n, exact_libm lm -> (3 <= n)%nat -> INR n < 2 ^ 32 -> tol9 <= 2 * r * sin (PI / INR n) ->
  exists e, kelvin_drawing ROps lm A peq val r n = (e, Ok tt) /\ ring_added (empty_drawing ROps A) e r n /\ region_added peq (empty_drawing ROps A) e org val.
Proof.
  intros lm A peq val r n Hx n3 n32 AP. unfold kelvin_drawing, mbind. change (vzero ROps) with org.
  assert (RD := ring_drawn lm Hx A r n n3 n32 AP (empty_drawing ROps A) (fun s h => match h with end) (fun p k h => match h with end) (fun s p k h => match h with end)).
  rewrite RD. match goal with |- context [drawRegion _ _ _ _ _ ?d1] => destruct (region_R A peq org val d1) as [e [E [RA [P1 [S1 G1]]]]] end. rewrite E. exists e. split; [reflexivity|].
  split; [|exact RA]. split; [exact P1|]. split; [|exact G1]. rewrite S1. cbn [segments empty_drawing app points length Nat.add]. apply map_ext_in.
  intros i Hi. apply in_seq in Hi. unfold side, next. cbn [points empty_drawing length Nat.add]. f_equal. destruct (Nat.eqb_spec (S i) n) as [Q|Q].
  - rewrite Q. symmetry. apply Nat.mod_same. lia.
  - symmetry. apply Nat.mod_small. lia.
Qed.
Print Assumptions C63_outside.
(** for every scalar type: if the circle is accepted and none of the points drawn before is one of its vertices, the same
    circle in an empty drawing is accepted and has the same points and segments, in the same order *)
Theorem C63_same_boundary : forall (o : Ops) (lm : libm o) A c r n (d d' : drawing o A), well_formed d -> drawCircle o lm A c r n d = (d', Ok tt) ->
  (forall ring q p, polygons d' = polygons d ++ [ring] -> In q (points d) -> In p (mkV (add o (vx c) r) (vy c) :: ring) -> vec_eqb o q p = Ok false) ->
  exists e, drawCircle o lm A c r n (empty_drawing o A) = (e, Ok tt) /\ points d' = points d ++ points e /\
    segments d' = segments d ++ map (fun s => (length (points d) + fst s, length (points d) + snd s)%nat) (segments e).
Proof. intros o lm A c r n d d' [wf _]. exact (lift_circle o lm A d wf c r n d'). Qed.
Print Assumptions C63_same_boundary.
(** refinement only adds points after that *)
Theorem C63_refined : forall (o : Ops) (lm : libm o) A peq (air : A) mag rf rm area (d d' : drawing o A) x,
  setup o lm A peq air mag rf rm area d = (d', Ok x) -> exists d1, setup o lm A peq air mag false false area d = (d1, Ok x) /\ only_adds_points d1 d'.
Proof.
  intros o lm A peq air mag rf rm area d d' x H. unfold setup, mbind, mget, mlift, mret in *.
  destruct (boundary_circle o (points d)) as [cr| | |]; try discriminate. destruct (translate o A (vneg o (fst cr)) d) as [d1 [[]| | |]]; try discriminate.
  destruct (boundary_points o lm (snd cr) area) as [n| | |]; try discriminate. destruct (drawCircle o lm A (vzero o) (snd cr) n d1) as [d2 [[]| | |]]; try discriminate.
  destruct (air_seed o (snd cr)) as [sd| | |]; try discriminate. destruct (drawRegion o A peq sd air d2) as [d3 [[]| | |]]; try discriminate.
  exists d3. destruct (oap_pre o A) as [PR PT].
  assert (Q1 : exists d4, (if rm then refineMeshAroundMagnets o lm A mag else fun d => (d, Ok tt)) d3 = (d4, Ok tt) /\ only_adds_points d3 d4).
  { destruct rm; [|eexists; split; [reflexivity|apply PR]]. pose proof (r_refine_magnets o lm A mag d3) as K. destruct (refineMeshAroundMagnets o lm A mag d3) as [d4 [[]| | |]]; try discriminate. eauto. }
  destruct Q1 as [d4 [E4 O4]]. unfold mret in H. rewrite E4 in H.
  assert (Q2 : exists d5, (if rf then addRefiningPoints o lm A else fun d => (d, Ok tt)) d4 = (d5, Ok tt) /\ only_adds_points d4 d5).
  { destruct rf; [|eexists; split; [reflexivity|apply PR]]. pose proof (r_refine o lm A d4) as K. destruct (addRefiningPoints o lm A d4) as [d5 [[]| | |]]; try discriminate. eauto. }
  destruct Q2 as [d5 [E5 O5]]. rewrite E5 in H. inversion H; subst. split; [reflexivity|]. eapply PT; eauto.
Qed.
Print Assumptions C63_refined.
(** large elements: no boundary at all *)
Theorem C63_no_boundary : forall lm A peq (air : A) mag (d : drawing ROps A) area m s, exact_libm lm -> truncates lm ->
  points d <> [] -> reach (points d) m -> equilateral s area -> 6 * PI * m < s ->
  exists d', setup ROps lm A peq air mag false false area d = (d', Ok (centroid (points d), 3 / 2 * m, 0%nat)) /\
    points d' = map (shift (P (- px (centroid (points d))) (- py (centroid (points d))))) (points d) /\ segments d' = segments d.
Proof.
  intros lm A peq air mag d area m s Hx Ht some far E L. assert (S0 : 0 < s) by apply E.
  assert (M0 : 0 <= m) by (destruct far as [_ [p [_ <-]]]; apply dist_nonneg). pose proof PI_RGT_0.
  assert (X : 0 <= 6 * PI * m / s < 1).
  { split; [apply Rmult_le_pos; [nra|left; apply Rinv_0_lt_compat; exact S0]|]. apply Rmult_lt_reg_r with s; [exact S0|]. replace (6 * PI * m / s * s) with (6 * PI * m) by (field; lra). lra. }
  destruct (Ht (6 * PI * m / s)) as [n [Hn [N1 N2]]]; [lra|]. assert (n = 0%nat). { destruct n; [reflexivity|]. rewrite S_INR in N1. pose proof (pos_INR n). lra. } subst n.
  destruct (setup_core lm Hx A peq air mag d area m s 0 (fun d1 => points d1 = points (moved (opposite (centroid (points d))) d) /\ segments d1 = segments d) some far E Hn) as [d1 [d' [[K1 K2] [S1 [_ [P1 [S2 _]]]]]]].
  { eexists. split; [reflexivity|]. split; reflexivity. }
  exists d'. split; [exact S1|]. split; [rewrite P1, K1; reflexivity|congruence].
Qed.
Print Assumptions C63_no_boundary.

(** *** when the claim fails *)
Ltac dists := unfold dist, org; rewrite ?px_P, ?py_P.
Lemma dist_le : forall p q b, 0 <= b -> (px p - px q) * (px p - px q) + (py p - py q) * (py p - py q) <= b * b -> dist p q <= b.
Proof. intros p q b B H. apply Rsqr_incr_0_var; [|exact B]. unfold Rsqr. rewrite dist_sq. exact H. Qed.
Lemma dist_ge : forall p q b, b * b <= (px p - px q) * (px p - px q) + (py p - py q) * (py p - py q) -> b <= dist p q.
Proof. intros p q b H. apply Rsqr_incr_0_var; [|apply dist_nonneg]. unfold Rsqr. rewrite dist_sq. exact H. Qed.

(** five points drawn at (-10, 0) and one at (10, 0) *)
Definition lopsided (A : Type) : drawing ROps A := mkD [] [] [P (-10) 0; P (-10) 0; P (-10) 0; P (-10) 0; P (-10) 0; P 10 0] [] [].
Lemma lopsided_centroid : forall A, centroid (points (lopsided A)) = P (- (20 / 3)) 0.
Proof. intro A. unfold centroid. cbn [points lopsided sumx sumy length]. apply pt_ext; rewrite !px_P || rewrite !py_P; rewrite ?px_P, ?py_P; simpl; field. Qed.
Lemma dist_axis : forall x, dist (P x 0) org = Rabs x.
Proof. intro x. dists. replace ((x - 0) * (x - 0) + (0 - 0) * (0 - 0)) with (Rsqr x) by (unfold Rsqr; ring). apply sqrt_Rsqr_abs. Qed.
(** the boundary is drawn and one of the points is outside of it *)
Theorem C63_enclosed_refuted : forall lm A peq (air : A) mag, exact_libm lm -> truncates lm -> exists (d : drawing ROps A) area m n d',
  well_formed d /\ setup ROps lm A peq air mag false false area d = (d', Ok (centroid (points d), 3 / 2 * m, n)) /\
  (let d0 := moved (P (- px (centroid (points d))) (- py (centroid (points d)))) d in
   ring_added d0 d' (3 / 2 * m) n /\ exists p, In p (points d0) /\ 3 / 2 * m < dist p org /\ ~ inside_ring (3 / 2 * m) n p).
Proof.
  intros lm A peq air mag Hx Ht. pose proof PI2_3_2 as P3. pose proof PI_4 as P4.
  exists (lopsided A), (sqrt 3 / 4 * (6 * PI * (6 * PI))), 10, 10%nat.
  assert (far : reach (points (lopsided A)) 10).
  { split.
    - intros p Hp. cbn [points lopsided In] in Hp. assert (E : p = P (-10) 0 \/ p = P 10 0) by intuition. destruct E as [-> | ->]; rewrite dist_axis; [rewrite Rabs_left by lra; lra|rewrite Rabs_right; lra].
    - exists (P 10 0). split; [cbn; tauto|]. rewrite dist_axis, Rabs_right; lra. }
  assert (E : equilateral (6 * PI) (sqrt 3 / 4 * (6 * PI * (6 * PI)))) by (split; [lra|reflexivity]).
  assert (X : 6 * PI * 10 / (6 * PI) = 10) by (field; lra).
  assert (Hn : to_u32 ROps lm (6 * PI * 10 / (6 * PI)) = Ok 10%nat).
  { destruct (Ht (6 * PI * 10 / (6 * PI))) as [k [Hk [K1 K2]]]; [rewrite X; lra|]. rewrite Hk. f_equal. rewrite X in K1, K2.
    assert (I10 : INR 10 = 10) by (simpl; lra). apply INR_eq. destruct (lt_eq_lt_dec k 10) as [[Q|Q]|Q]; [|subst; reflexivity|]; apply (le_INR (S _)) in Q; rewrite S_INR in Q; lra. }
  set (d0 := moved (opposite (centroid (points (lopsided A)))) (lopsided A)).
  assert (n3 : (3 <= 10)%nat) by lia. assert (n32 : INR 10 < 2 ^ 32) by (simpl; lra). assert (r0 : 0 < 3 / 2 * 10) by lra.
  assert (I10 : INR 10 = 10) by (simpl; lra).
  assert (S10 : 3 / 20 <= sin (PI / INR 10)).
  { rewrite I10. eapply Rle_trans; [|apply (sin_low (PI / 10)); lra]. lra. }
  assert (T9 : tol9 <= 1). { unfold tol9. rewrite <- Rinv_1. apply Rinv_le_contravar; [lra|]. apply pow_R1_Rle. lra. }
  assert (AP : tol9 <= 2 * (3 / 2 * 10) * sin (PI / INR 10)) by lra.
  assert (PTS : forall p, In p (points d0) -> p = P (- (10 / 3)) 0 \/ p = P (50 / 3) 0).
  { intros p Hp. unfold d0 in Hp. rewrite lopsided_centroid in Hp. unfold moved, lopsided in Hp. cbn [points map In] in Hp.
    assert (S1 : shift (opposite (P (- (20 / 3)) 0)) (P (-10) 0) = P (- (10 / 3)) 0) by (unfold shift, opposite; apply pt_ext; rewrite ?px_P, ?py_P; field).
    assert (S2 : shift (opposite (P (- (20 / 3)) 0)) (P 10 0) = P (50 / 3) 0) by (unfold shift, opposite; apply pt_ext; rewrite ?px_P, ?py_P; field).
    rewrite S1, S2 in Hp. intuition. }
  assert (AW : forall p k, In p (points d0) -> ~ near p (circle_vertex org (3 / 2 * 10) 10 k)).
  { intros p k Hp N. pose proof (v_radius (3 / 2 * 10) 10 r0 k) as V. unfold near in N.
    pose proof (dist_tri (circle_vertex org (3 / 2 * 10) 10 k) p org) as T1. pose proof (dist_tri p (circle_vertex org (3 / 2 * 10) 10 k) org) as T2.
    rewrite (dist_sym (circle_vertex org (3 / 2 * 10) 10 k) p) in T1. destruct (PTS p Hp) as [-> | ->]; rewrite dist_axis in T1, T2; [rewrite Rabs_left in T1, T2 by lra|rewrite Rabs_right in T1, T2 by lra]; lra. }
  assert (RD := ring_drawn lm Hx A (3 / 2 * 10) 10 n3 n32 AP d0 (fun s h => match h with end) AW (fun s p k h => match h with end)).
  destruct (setup_core lm Hx A peq air mag (lopsided A) _ 10 (6 * PI) 10 (fun d1 => ring_added d0 d1 (3 / 2 * 10) 10) ltac:(discriminate) far E Hn) as [d1 [d' [K [S1 [_ [P1 [S2 G1]]]]]]].
  { eexists. split; [exact RD|]. split; [reflexivity|]. split; [|reflexivity]. reflexivity. }
  exists d'. split.
  { split; [intros s []|]. split; [intros i j s t H; destruct i; discriminate|intros r []]. }
  split; [exact S1|]. cbv zeta. fold (opposite (centroid (points (lopsided A)))). fold d0. split.
  { destruct K as [A1 [A2 A3]]. split; [congruence|]. split; congruence. }
  exists (P (50 / 3) 0). split; [|split].
  - unfold d0. rewrite lopsided_centroid. unfold moved. cbn [points lopsided map In]. do 5 right. left. unfold shift, opposite. apply pt_ext; rewrite ?px_P, ?py_P; field.
  - rewrite dist_axis, Rabs_right; lra.
  - intro I. specialize (I 0%nat ltac:(lia)). rewrite (turn_edge (3 / 2 * 10) 10) in I. rewrite px_P, py_P in I. unfold mid in I. replace ((2 * INR 0 + 1) * (PI / INR 10)) with (PI / INR 10) in I by (simpl; ring).
    pose proof (sin_t_pos 10 n3) as SP. assert (CP : 0 < cos (PI / INR 10)) by (rewrite I10; apply cos_gt_0; lra). nra.
Qed.
Print Assumptions C63_enclosed_refuted.

(** a bar from (6, -1) to (10, 1) and ten points drawn at (-10, 0) *)
Definition bar (A : Type) (a : A) : drawing ROps A :=
  mkD [a] [(P 8 0, 0%nat)] ([P 6 (-1); P 10 (-1); P 10 1; P 6 1] ++ repeat (P (-10) 0) 10) [(0, 1); (1, 2); (2, 3); (3, 0)]%nat [[P 6 (-1); P 10 (-1); P 10 1; P 6 1]].
Lemma bar_wf : forall A a, well_formed (bar A a).
Proof.
  intros A a. split; [|split].
  - intros s H. cbn in H. destruct H as [<-|[<-|[<-|[<-|[]]]]]; cbn; lia.
  - intros i j s t Hi Hj E. unfold same_ends in E.
    do 4 (destruct i as [|i]; [cbn in Hi; inversion Hi; subst; do 4 (destruct j as [|j]; [cbn in Hj; inversion Hj; subst; cbn in E; (lia || (exfalso; destruct E as [[? ?]|[? ?]]; lia))|]); destruct j; discriminate|]).
    destruct i; discriminate.
  - intros r H. cbn in H. destruct H as [<-|[]]; cbn; lia.
Qed.
Lemma bar_centroid : forall A a, centroid (points (bar A a)) = P (- (34 / 7)) 0.
Proof. intros A a. unfold centroid. cbn [points bar app repeat sumx sumy length]. apply pt_ext; rewrite ?px_P, ?py_P; simpl; field. Qed.
Lemma bar_points : forall A a p, In p (points (bar A a)) -> p = P 6 (-1) \/ p = P 10 (-1) \/ p = P 10 1 \/ p = P 6 1 \/ p = P (-10) 0.
Proof. intros A a p H. cbn [points bar app repeat In] in H. intuition. Qed.
Lemma root_101 : 10 < sqrt 101 < 101 / 10.
Proof.
  split; [replace 10 with (sqrt (10 * 10)) by (apply sqrt_square; lra)|replace (101 / 10) with (sqrt (101 / 10 * (101 / 10))) by (apply sqrt_square; lra)]; apply sqrt_lt_1; lra.
Qed.
(** everything is enclosed, and the seed of the air is inside the bar *)
Theorem C63_seed_refuted : forall lm A peq (air a : A) mag, exact_libm lm -> truncates lm -> exists (d : drawing ROps A) area m n d' g,
  well_formed d /\ setup ROps lm A peq air mag false false area d = (d', Ok (centroid (points d), 3 / 2 * m, n)) /\
  (let d0 := moved (P (- px (centroid (points d))) (- py (centroid (points d)))) d in
   region_added peq d0 d' (P (27 / 20 * m) 0) air /\ (forall p, In p (points d0) -> inside_ring (3 / 2 * m) n p) /\
   In g (polygons d0) /\ poly_contains ROps g (P (27 / 20 * m) 0) = true).
Proof.
  intros lm A peq air a mag Hx Ht. pose proof PI2_3_2 as P3. pose proof PI_4 as P4. pose proof root_101 as [R1 R2]. set (m := sqrt 101) in *.
  assert (MM : m * m = 101) by (apply sqrt_sqrt; lra). set (s := 6 * PI * m / 48). assert (S0 : 0 < s) by (unfold s; nra).
  assert (X : 6 * PI * m / s = 48) by (unfold s; field; split; [lra|]; lra).
  assert (I48 : INR 48 = 48) by (simpl; lra).
  assert (T9 : tol9 <= / 100). { unfold tol9. apply Rinv_le_contravar; [lra|]. lra. }
  assert (far : reach (points (bar A a)) m).
  { split.
    - intros p Hp. apply dist_le; [lra|]. rewrite MM. unfold org. destruct (bar_points _ _ _ Hp) as [->|[->|[->|[->| ->]]]]; rewrite !px_P, !py_P; lra.
    - exists (P 10 1). split; [cbn; tauto|]. apply Rle_antisym; [apply dist_le; [lra|]|apply dist_ge]; rewrite MM; unfold org; rewrite !px_P, !py_P; lra. }
  destruct (C63_setup lm A peq air mag (bar A a) (sqrt 3 / 4 * (s * s)) m s 48 Hx Ht (bar_wf A a) ltac:(discriminate) far (conj S0 eq_refl)) as [d' [H1 [[H2 [H3 H4]] H5]]].
  - lia.
  - rewrite X, I48. lra.
  - rewrite X. lra.
  - rewrite I48. pose proof (sin_low (PI / 48) ltac:(lra)). nra.
  - rewrite I48. pose proof (cos_low (PI / 48) ltac:(lra)) as CL. assert (C : 287 / 288 <= cos (PI / 48)) by nra.
    intros p Hp. rewrite bar_centroid. assert (D : dist p (P (- (34 / 7)) 0) <= 149 / 10).
    { apply dist_le; [lra|]. destruct (bar_points _ _ _ Hp) as [->|[->|[->|[->| ->]]]]; rewrite !px_P, !py_P; lra. }
    nra.
  - exists (bar A a), (sqrt 3 / 4 * (s * s)), m, 48%nat, d', [P (6 + 34 / 7) (-1); P (10 + 34 / 7) (-1); P (10 + 34 / 7) 1; P (6 + 34 / 7) 1].
    split; [apply bar_wf|]. split; [exact H1|]. cbv zeta. split; [exact H3|]. split; [exact H4|]. split.
    + left. rewrite bar_centroid. cbn [map]. unfold shift. rewrite !px_P, !py_P. repeat (f_equal; try (apply pt_ext; rewrite ?px_P, ?py_P; field)).
    + apply rect_contains; [lra|lra|]. rewrite px_P, py_P. lra.
Qed.
Print Assumptions C63_seed_refuted.

(** *** a drawing that meets the hypotheses *)
Definition setup_libm : libm ROps := @mkLibm ROps sin cos (fun _ _ => 0) PI e100 0 (fun x : R => Ok (Z.to_nat (Int_part x))).
Lemma setup_libm_exact : exact_libm setup_libm. Proof. repeat split. Qed.
Lemma setup_libm_truncates : truncates setup_libm.
Proof.
  intros x [X _]. exists (Z.to_nat (Int_part x)). split; [reflexivity|]. destruct (base_Int_part x) as [I1 I2].
  assert (Z0 : (0 <= Int_part x)%Z). { assert (- (1) < IZR (Int_part x)) by lra. apply (lt_IZR (-1)) in H. lia. }
  rewrite INR_IZR_INZ, Z2Nat.id by exact Z0. lra.
Qed.
(** a square *)
Definition square : drawing ROps nat :=
  mkD [7%nat] [(P 0 0, 0%nat)] [P 3 3; P (-3) 3; P (-3) (-3); P 3 (-3)] [(0, 1); (1, 2); (2, 3); (3, 0)]%nat [[P 3 3; P (-3) 3; P (-3) (-3); P 3 (-3)]].
Example C63_example : exists n d', (8 < n)%nat /\ setup ROps setup_libm nat Nat.eqb 9%nat (fun _ => org) false false (sqrt 3 / 4) square = (d', Ok (centroid (points square), 3 / 2 * sqrt 18, n)) /\
  length (points d') = (4 + n)%nat /\ length (segments d') = (4 + n)%nat /\ length (regions d') = 2%nat.
Proof.
  assert (R : 4 <= sqrt 18 <= 5). { split; [replace 4 with (sqrt (4 * 4)) by (apply sqrt_square; lra)|replace 5 with (sqrt (5 * 5)) by (apply sqrt_square; lra)]; apply sqrt_le_1; lra. }
  assert (MM : sqrt 18 * sqrt 18 = 18) by (apply sqrt_sqrt; lra).
  assert (C : centroid (points square) = org) by (unfold centroid, org; cbn [points square sumx sumy length]; apply pt_ext; rewrite ?px_P, ?py_P; simpl; field).
  assert (T9 : tol9 <= / 100). { unfold tol9. apply Rinv_le_contravar; [lra|]. lra. }
  destruct (C63_usual setup_libm nat Nat.eqb 9%nat (fun _ => org) square (sqrt 3 / 4) (sqrt 18) 1 setup_libm_exact setup_libm_truncates) as [n [d' [N [H1 [[[H2 [H2b _]] [[id [a [H3 _]]] _]] _]]]]].
  - split; [|split].
    + intros s H. cbn in H. destruct H as [<-|[<-|[<-|[<-|[]]]]]; cbn; lia.
    + intros i j s t Hi Hj E. unfold same_ends in E.
      do 4 (destruct i as [|i]; [cbn in Hi; inversion Hi; subst; do 4 (destruct j as [|j]; [cbn in Hj; inversion Hj; subst; cbn in E; (lia || (exfalso; destruct E as [[? ?]|[? ?]]; lia))|]); destruct j; discriminate|]).
      destruct i; discriminate.
    + intros r H. cbn in H. destruct H as [<-|[]]; cbn; lia.
  - discriminate.
  - split.
    + intros p Hp. apply dist_le; [lra|]. rewrite MM. unfold org. cbn [points square In] in Hp. destruct Hp as [<-|[<-|[<-|[<-|[]]]]]; rewrite !px_P, !py_P; lra.
    + exists (P 3 3). split; [left; reflexivity|]. apply Rle_antisym; [apply dist_le; [lra|]|apply dist_ge]; rewrite MM; unfold org; rewrite !px_P, !py_P; lra.
  - split; [lra|]. lra.
  - rewrite C, dist_self. lra.
  - lra.
  - lra.
  - lra.
  - lra.
  - exists n, d'. split.
    { apply INR_lt. simpl. pose proof PI2_3_2. destruct N as [_ N]. assert (6 * PI * sqrt 18 / 1 = 6 * PI * sqrt 18) by field. nra. }
    split; [exact H1|]. rewrite H2, H2b, H3. rewrite !app_length, !map_length, !seq_length. cbn. repeat split; lia.
Qed.
