(** Properties C105 and C106: binary64 arithmetic, for all operands. *)
From Coq Require Import List Arith ZArith NArith Bool Lia.
From Coq Require Import Floats.SpecFloat.
From Verif Require Import Base AlgebraModel GeometryModel SegmentModel DrawingModel MeshModel LayersModel FloatSpec Float_proofs FloatBound_proofs FloatUse_proofs.
Import ListNotations.

Local Notation fvec := (vec FOps).

(** *** C105: points compare and measure the same in either order, whatever the coordinates (NaN and infinities included);
    a point equals itself exactly when its coordinates are finite *)
Theorem C105_points : forall p q : fvec, distance FOps p q = distance FOps q p /\ distanceSquared FOps p q = distanceSquared FOps q p /\
  vec_eqb FOps p q = vec_eqb FOps q p /\ vadd FOps p q = vadd FOps q p /\ vdot FOps p q = vdot FOps q p /\ midPoint FOps p q = midPoint FOps q p.
Proof.
  intros p q. split; [apply dist_sym|]. split; [apply dist2_sym|]. split; [apply eq_sym|].
  assert (A : vadd FOps p q = vadd FOps q p) by (unfold vadd; cbn [add FOps]; rewrite (add_comm _ _ (vx p)), (add_comm _ _ (vy p)); auto).
  split; [auto|]. split.
  - unfold vdot. cbn [add mul FOps]. rewrite (mul_comm _ _ (vx p)), (mul_comm _ _ (vy p)). auto.
  - unfold midPoint. cbn [add FOps]. rewrite (add_comm _ _ (vx p)), (add_comm _ _ (vy p)). auto.
Qed.
Print Assumptions C105_points.
Theorem C105_itself : forall p : fvec, (vec_eqb FOps p p = Ok true <-> finite (vx p) /\ finite (vy p)) /\ (vec_eqb FOps p p = Ok false <-> ~ (finite (vx p) /\ finite (vy p))).
Proof.
  intros p. rewrite eq_run. pose proof (feq_refl p) as R. destruct (feq p p).
  - split; split; intros H; try tauto; try discriminate; auto.
  - split; split; intros H; try discriminate; auto; intuition discriminate.
Qed.
Print Assumptions C105_itself.

(** *** C105: segments and circles: the comparison does not depend on the order or on the direction, nor do length and hash on the direction *)
Theorem C105_segments : forall (h : f64 -> N) (s t : segment FOps), seg_eqb FOps s t = seg_eqb FOps t s /\ seg_eqb FOps (turned s) t = seg_eqb FOps s t /\
  seg_length FOps (turned s) = seg_length FOps s /\ seg_hash FOps h (turned s) = seg_hash FOps h s /\
  (seg_eqb FOps s (turned s) = Ok true <-> Forall finite [vx (s_p1 s); vy (s_p1 s); vx (s_p2 s); vy (s_p2 s)] \/ vec_eqb FOps (s_p1 s) (s_p2 s) = Ok true).
Proof.
  intros h s t. rewrite !seg_run. cbn [turned s_p1 s_p2]. split; [|split; [|split; [|split]]].
  - rewrite (feq_sym (s_p1 s) (s_p1 t)), (feq_sym (s_p2 s) (s_p2 t)), (feq_sym (s_p1 s) (s_p2 t)), (feq_sym (s_p2 s) (s_p1 t)).
    rewrite (andb_comm (feq (s_p2 t) (s_p1 s))). reflexivity.
  - rewrite orb_comm, (andb_comm (feq (s_p2 s) (s_p2 t))), (andb_comm (feq (s_p2 s) (s_p1 t))). reflexivity.
  - unfold seg_length. cbn [s_p1 s_p2]. apply dist_sym.
  - unfold seg_hash. cbn [s_p1 s_p2]. apply N.lxor_comm.
  - rewrite eq_run. rewrite (feq_sym (s_p2 s) (s_p1 s)).
    pose proof (feq_refl (s_p1 s)) as R1. pose proof (feq_refl (s_p2 s)) as R2.
    rewrite !Forall_cons_iff. destruct (feq (s_p1 s) (s_p2 s)) eqn:E1, (feq (s_p1 s) (s_p1 s)) eqn:E2, (feq (s_p2 s) (s_p2 s)) eqn:E3;
      cbn [andb orb]; split; intros H; auto; try discriminate; intuition (try discriminate; auto).
Qed.
Print Assumptions C105_segments.
Theorem C105_circles : forall a b : circle FOps, circle_eqb FOps a b = circle_eqb FOps b a.
Proof. intros a b. unfold circle_eqb. rewrite eq_sym. cbn [eqb FOps]. rewrite Float_proofs.eqb_sym. reflexivity. Qed.
Print Assumptions C105_circles.
(** which segments and which circles are equal: the ends agree in one order or the other; the centres agree and the radii are the same number *)
Theorem C105_segment_equal : forall s t : segment FOps, exists b, seg_eqb FOps s t = Ok b /\ seg_neqb FOps s t = Ok (negb b) /\
  (b = true <-> (vec_eqb FOps (s_p1 s) (s_p1 t) = Ok true /\ vec_eqb FOps (s_p2 s) (s_p2 t) = Ok true) \/
                (vec_eqb FOps (s_p1 s) (s_p2 t) = Ok true /\ vec_eqb FOps (s_p2 s) (s_p1 t) = Ok true)).
Proof.
  intros s t. unfold seg_neqb. rewrite seg_run. cbn [bind]. eexists. split; [reflexivity|]. split; [reflexivity|]. rewrite !eq_run, orb_true_iff, !andb_true_iff.
  assert (J : forall x : bool, Ok x = Ok true <-> x = true) by (intros x; split; congruence). rewrite !J. tauto.
Qed.
Print Assumptions C105_segment_equal.
Theorem C105_segment_length : forall (s : segment FOps) (d : f64), seg_length FOps s = Ok d <-> distance FOps (s_p1 s) (s_p2 s) = Ok d.
Proof. intros s d. unfold seg_length. rewrite dist_sym. tauto. Qed.
Print Assumptions C105_segment_length.
Theorem C105_circle_equal : forall a b : circle FOps, exists x, circle_eqb FOps a b = Ok x /\ circle_neqb FOps a b = Ok (negb x) /\
  (x = true <-> vec_eqb FOps (center a) (center b) = Ok true /\ eqb FOps (radius a) (radius b) = true).
Proof.
  intros a b. unfold circle_neqb, circle_eqb. rewrite eq_run. cbn [bind]. eexists. split; [reflexivity|]. split; [reflexivity|]. rewrite andb_true_iff.
  split; intros [H1 H2]; split; auto; congruence.
Qed.
Print Assumptions C105_circle_equal.

(** *** C105: the inner product of two vectors of equal length *)
Theorem C105_dot : forall a b : list f64, length a = length b -> dot FOps a b = dot FOps b a.
Proof. intros. unfold dot. apply inner_comm; auto. Qed.
Print Assumptions C105_dot.
Example C105_case : exists p q : fvec, vec_eqb FOps p q = Ok true /\ p <> q /\ finite (vx p) /\ exists r : fvec, vec_eqb FOps r r = Ok false.
Proof.
  exists (@mkV FOps (f64_ofZ 1) (f64_ofZ 0)), (@mkV FOps (f64_ofZ 1) (S754_finite false 4503599627370496 (-104))).
  split; [vm_compute; reflexivity|]. split; [intros H; apply (f_equal vy) in H; vm_compute in H; discriminate|].
  split; [exact I|]. exists (@mkV FOps (S754_infinity false) (f64_ofZ 0)). vm_compute. reflexivity.
Qed.

(** *** C105: three points read backwards turn the other way.  Collinear and clockwise are answered consistently for all doubles;
    the full reversal holds as long as the coordinates are below 2^400, and fails beyond (overflow) *)
Theorem C105_orientation : forall p1 p2 p3 : fvec,
  (geomOrientation FOps p1 p2 p3 = COLLINEAR <-> geomOrientation FOps p3 p2 p1 = COLLINEAR) /\
  (geomOrientation FOps p1 p2 p3 = CLOCKWISE -> geomOrientation FOps p3 p2 p1 = COUNTERCLOCKWISE) /\
  (Forall (point_below 400) [p1; p2; p3] -> geomOrientation FOps p3 p2 p1 = other_way (geomOrientation FOps p1 p2 p3)).
Proof.
  intros p1 p2 p3. split; [apply orient_col|]. split; [apply orient_cw|].
  intros H. rewrite !Forall_cons_iff in H. apply orient_rev. eapply below_not_nan. apply val3_below; tauto.
Qed.
Print Assumptions C105_orientation.
(** coordinates that are multiples of 2^600 *)
Definition big (z : Z) : f64 := SFmul f64_prec f64_emax (f64_ofZ z) (S754_finite false (2 ^ 52)%positive 548).
Definition far (x y : Z) : fvec := @mkV FOps (big x) (big y).
Theorem C105_orientation_limit : exists p1 p2 p3 : fvec,
  Forall (fun p : fvec => finite (vx p) /\ finite (vy p)) [p1; p2; p3] /\
  geomOrientation FOps p1 p2 p3 = COUNTERCLOCKWISE /\ geomOrientation FOps p3 p2 p1 = COUNTERCLOCKWISE.
Proof.
  exists (far 0 0), (far 1 1), (far 2 4). split; [repeat constructor|].
  split; vm_compute; reflexivity.
Qed.
Print Assumptions C105_orientation_limit.

(** *** C105: Polygon::contains does not depend on the vertex the outline starts from, for all doubles; nor on the direction in which the
    outline is listed, for coordinates below 2^400; beyond, it does *)
Theorem C105_start : forall (l1 l2 : list fvec) (p : fvec), poly_contains FOps (l2 ++ l1) p = poly_contains FOps (l1 ++ l2) p.
Proof. exact (ostart FOps). Qed.
Print Assumptions C105_start.
Theorem C105_direction : forall (l : list fvec) (p : fvec), Forall (point_below 400) l -> point_below 400 p ->
  poly_contains FOps (rev l) p = poly_contains FOps l p.
Proof. exact poly_rev. Qed.
Print Assumptions C105_direction.
Theorem C105_direction_limit : exists (l : list fvec) (p : fvec), Forall (fun q : fvec => finite (vx q) /\ finite (vy q)) (p :: l) /\
  poly_contains FOps l p = false /\ poly_contains FOps (rev l) p = true.
Proof.
  exists [far (-1) (-1); far 3 (-1); far 3 2], (far 2 0). split; [repeat constructor|]. split; vm_compute; reflexivity.
Qed.
Print Assumptions C105_direction_limit.
(** the hypotheses hold for ordinary numbers *)
Definition near (x y : Z) : fvec := @mkV FOps (f64_ofZ x) (f64_ofZ y).
Example C105_direction_case : Forall (point_below 400) [near (-1) (-1); near 3 (-1); near 3 2] /\ point_below 400 (near 2 0) /\
  poly_contains FOps [near (-1) (-1); near 3 (-1); near 3 2] (near 2 0) = true.
Proof.
  assert (L : forall x y, below 400 (f64_ofZ x) -> below 400 (f64_ofZ y) -> point_below 400 (near x y)) by (intros; split; auto).
  assert (B : below 400 (f64_ofZ (-1)) /\ below 400 (f64_ofZ 3) /\ below 400 (f64_ofZ 2) /\ below 400 (f64_ofZ 0)).
  { vm_compute. repeat split; discriminate. }
  destruct B as [B1 [B2 [B3 B4]]]. split; [repeat (constructor; [apply L; auto|]); constructor|].
  split; [apply L; auto|]. vm_compute. reflexivity.
Qed.

(** *** C106: lengths, distances, feature sizes and powers are never below zero, whatever the numbers *)
Theorem C106_norms : forall a : list f64, exists s n, squareSum FOps a = Ok s /\ dot FOps a a = Ok s /\ AlgebraModel.norm FOps a = Ok n /\
  not_below_zero s /\ not_below_zero n.
Proof.
  intros a. destruct (inner_sign a (zero FOps)) as [s [E S]]; [reflexivity|].
  exists s, (SFsqrt f64_prec f64_emax s). unfold AlgebraModel.norm, squareSum, dot. rewrite E. cbn [bind fsqrt FOps].
  repeat split; auto. apply sqrt_sign. auto.
Qed.
Print Assumptions C106_norms.
Theorem C106_lengths : forall p a b : fvec, (exists x, GeometryModel.norm FOps p = Ok x /\ not_below_zero x) /\
  (exists x, distance FOps a b = Ok x /\ not_below_zero x) /\ (exists x, pointSegmentDistance FOps p a b = Ok x /\ not_below_zero x).
Proof. intros. split; [apply norm_sign|]. split; [apply dist_sign|]. apply segdist_sign. Qed.
Print Assumptions C106_lengths.
Theorem C106_feature_size : forall (A : Type) (d : drawing FOps A) e, getCurrentEpsilon FOps A d = Ok e -> not_below_zero e.
Proof. intros A d e H. unfold getCurrentEpsilon in H. apply eps_outer_sign in H; auto. reflexivity. Qed.
Print Assumptions C106_feature_size.
Theorem C106_power : forall (A : Type) (sigma : A -> f64) (ms : list (mesh FOps A)) (V P : list f64), (forall p, not_below_zero (sigma p)) ->
  computePowerDensity FOps A sigma ms V = Ok P -> Forall not_below_zero P.
Proof. exact power_sign. Qed.
Print Assumptions C106_power.
(** what is not below zero is not < 0 in the program *)
Theorem C106_comparison : forall x, not_below_zero x -> ltb FOps x (zero FOps) = false.
Proof. intros. apply sign_ltb. auto. Qed.
Print Assumptions C106_comparison.
(** and distances of points below 2^400 are finite *)
Theorem C106_distance_finite : forall p q : fvec, point_below 400 p -> point_below 400 q -> exists x, distance FOps p q = Ok x /\ finite x /\ not_below_zero x.
Proof.
  intros p q HP HQ. destruct (dist_below p q HP HQ) as [x [E F]]. destruct (dist_sign p q) as [y [E' S]]. exists x. rewrite E in E'. injection E' as <-. auto.
Qed.
Print Assumptions C106_distance_finite.
(** but a vector other than zero can have norm zero (underflow), and a finite one an infinite norm (overflow) *)
Definition small : f64 := S754_finite false (2 ^ 52)%positive (-652).
Theorem C106_limits : exists x : f64, finite x /\ eqb FOps x (zero FOps) = false /\ AlgebraModel.norm FOps [x] = Ok (zero FOps) /\
  exists y : f64, finite y /\ AlgebraModel.norm FOps [y] = Ok (S754_infinity false).
Proof. exists small. repeat split. exists (big 1). split; [exact I|]. vm_compute. reflexivity. Qed.
Print Assumptions C106_limits.

(** a mesh of one triangle with a voltage of 2 at one corner: the power density is 4 *)
Definition one_mesh : mesh FOps nat :=
  @mkMesh FOps nat (near 0 0) (f64_ofZ 1) (f64_ofZ 1) (f64_ofZ 1) [near 0 0; near 1 0; near 0 1] [true; true; true] [(0, 1, 2)] [0]
    (@mkD FOps nat [7] [(near 0 0, 0)] [] [] []).
Example C106_power_case : computePowerDensity FOps nat (fun _ => one FOps) [one_mesh] [f64_ofZ 0; f64_ofZ 2; f64_ofZ 0] = Ok [f64_ofZ 4].
Proof. vm_compute. reflexivity. Qed.
