(** Proofs about addRefiningPoints (C81). *)
From Coq Require Import String.
From Coq Require Import List Arith ZArith NArith Bool Lia.
From Coq Require Import Reals Lra.
From Verif Require Import Base AlgebraModel SolversSpec GeometryModel GeometrySpec Geometry_proofs Circle_proofs Polygon_proofs Segment_proofs.
From Verif Require Import DrawingModel DrawingSpec Drawing_proofs DrawingR_proofs DrawingR2_proofs RefineSpec.
Import ListNotations.
Local Open Scope R_scope.

Section Ref.
Variable lm : libm ROps.
Variable A : Type.
Variable peq : A -> A -> bool.
Notation drawing := (drawing ROps A).
Hypothesis exact : exact_libm lm.
Hypothesis atan2_ok : exact_atan2 lm.

(** ** the angle *)
Lemma cos_120 : cos (2 * (PI / 3)) = - / 2.
Proof. rewrite cos_2PI3. lra. Qed.
Lemma angle_below : forall t, - PI < t <= PI -> (Rabs t < PI * (2 / 3) <-> - / 2 < cos t).
Proof.
  intros t H. pose proof PI_RGT_0 as Pp.
  assert (E : cos t = cos (Rabs t)). { unfold Rabs. destruct (Rcase_abs t); auto. rewrite cos_neg; auto. }
  assert (B : 0 <= Rabs t <= PI) by (unfold Rabs; destruct (Rcase_abs t); lra).
  rewrite E, <- cos_120. replace (PI * (2 / 3)) with (2 * (PI / 3)) by field. split; intros K.
  - apply cos_decreasing_1; lra.
  - apply cos_decreasing_0; lra.
Qed.
Lemma angle_R : forall a c b : pt, a <> c -> b <> c ->
  ltb ROps (absoluteAngle ROps lm a c b) (PI * (2 / 3)) = true <-> below_120 c a b.
Proof.
  intros a c b Ha Hb. unfold absoluteAngle. cbv zeta. change (ltb ROps) with Rltb. rewrite Rltb_true.
  set (ax := px a - px c). set (ay := py a - py c). set (bx := px b - px c). set (by_ := py b - py c).
  change (Rabs (fatan2 ROps lm (ax * by_ - ay * bx) (ax * bx + ay * by_)) < PI * (2 / 3) <-> below_120 c a b).
  assert (Da : 0 < dist c a). { destruct (Rle_lt_or_eq_dec 0 (dist c a) (dist_nonneg c a)) as [|E]; auto. symmetry in E. apply dist_zero in E. congruence. }
  assert (Db : 0 < dist c b). { destruct (Rle_lt_or_eq_dec 0 (dist c b) (dist_nonneg c b)) as [|E]; auto. symmetry in E. apply dist_zero in E. congruence. }
  assert (Qa : dist c a * dist c a = ax * ax + ay * ay) by (rewrite dist_sq; unfold ax, ay; ring).
  assert (Qb : dist c b * dist c b = bx * bx + by_ * by_) by (rewrite dist_sq; unfold bx, by_; ring).
  set (dt := ax * bx + ay * by_). set (det := ax * by_ - ay * bx).
  assert (L : dt * dt + det * det = (dist c a * dist c b) * (dist c a * dist c b)).
  { replace ((dist c a * dist c b) * (dist c a * dist c b)) with ((dist c a * dist c a) * (dist c b * dist c b)) by ring. rewrite Qa, Qb. unfold dt, det. ring. }
  assert (Pp : 0 < dist c a * dist c b) by (apply Rmult_lt_0_compat; auto).
  assert (Nz : dt <> 0 \/ det <> 0).
  { destruct (Req_dec dt 0) as [E|]; auto. destruct (Req_dec det 0) as [F|]; auto. rewrite E, F in L. pose proof (Rmult_lt_0_compat _ _ Pp Pp). lra. }
  destruct (atan2_ok det dt Nz) as [B [C _]]. rewrite L in C. rewrite sqrt_square in C by lra.
  rewrite (angle_below _ B). unfold below_120. fold ax ay bx by_. fold dt.
  set (cs := cos (fatan2 ROps lm det dt)) in *. rewrite C. set (k := dist c a * dist c b) in *. split; intros H.
  - assert (0 < k * (cs + / 2)) by (apply Rmult_lt_0_compat; lra). lra.
  - assert (0 < k * (1 + 2 * cs)) by lra. assert (0 < 1 + 2 * cs) by (apply (Rmult_lt_reg_l k); lra). lra.
Qed.
Lemma below_sym : forall c a b, below_120 c a b -> below_120 c b a.
Proof. intros c a b. unfold below_120. intros H. lra. Qed.

(** ** one pair of segments *)
Lemma eqb_self : forall p : pt, vec_eqb ROps p p = Ok true.
Proof. intros p. apply (near_iff p p). unfold near, tol9. replace (dist p p) with 0; [apply Rinv_0_lt_compat, pow_lt; lra|]. symmetry. pose proof (dist_sq p p) as E. pose proof (dist_nonneg p p). nra. Qed.
Section Pair.
Variable pts : list pt.
Hypothesis sep : forall i j p q, nth_error pts i = Some p -> nth_error pts j = Some q -> i <> j -> ~ near p q.
Lemma eqb_idx : forall i j p q, nth_error pts i = Some p -> nth_error pts j = Some q -> vec_eqb ROps p q = Ok (Nat.eqb i j).
Proof.
  intros i j p q Hi Hj. destruct (Nat.eqb_spec i j) as [->|N].
  - rewrite Hi in Hj. injection Hj as ->. apply eqb_self.
  - apply not_near_iff. eapply sep; eauto.
Qed.
Lemma idx_neq : forall i j p q, nth_error pts i = Some p -> nth_error pts j = Some q -> i <> j -> p <> q.
Proof.
  intros i j p q Hi Hj N ->. apply (sep i j q q Hi Hj N). apply near_iff. apply eqb_self.
Qed.
Lemma pair_R : forall s t i j k c a b, joins s i j -> joins t i k -> j <> i -> k <> i ->
  nth_error pts i = Some c -> nth_error pts j = Some a -> nth_error pts k = Some b ->
  exists r, sharp_pair ROps lm pts (PI * (2 / 3)) s t = Ok r /\ (r = true <-> below_120 c a b).
Proof.
  intros [s1 s2] [u1 u2] i j k c a b Hs Ht Nj Nk Hc Ha Hb.
  assert (Na : a <> c) by (eapply idx_neq; eauto). assert (Nb : b <> c) by (eapply idx_neq; eauto).
  pose proof (angle_R a c b Na Nb) as AN.
  assert (AA : ltb ROps (absoluteAngle ROps lm c a c) (PI * (2 / 3)) = true /\ below_120 c a a).
  { split; [apply angle_R; [congruence|congruence|]|]; unfold below_120; match goal with |- - (?x * ?y) < _ => assert (0 < x * y) end.
    - assert (0 < dist a c). { destruct (Rle_lt_or_eq_dec 0 (dist a c) (dist_nonneg a c)) as [|E]; auto. symmetry in E. apply dist_zero in E. congruence. }
      apply Rmult_lt_0_compat; auto.
    - pose proof (Rle_0_sqr (px c - px a)). pose proof (Rle_0_sqr (py c - py a)). unfold Rsqr in *. lra.
    - assert (0 < dist c a). { destruct (Rle_lt_or_eq_dec 0 (dist c a) (dist_nonneg c a)) as [|E]; auto. symmetry in E. apply dist_zero in E. congruence. }
      apply Rmult_lt_0_compat; auto.
    - pose proof (Rle_0_sqr (px a - px c)). pose proof (Rle_0_sqr (py a - py c)). unfold Rsqr in *. lra. }
  unfold sharp_pair, joins in *. cbn [fst snd] in *.
  destruct Hs as [[-> ->]|[-> ->]]; destruct Ht as [[-> ->]|[-> ->]]; rewrite ?(get_some _ _ _ _ Hc), ?(get_some _ _ _ _ Ha), ?(get_some _ _ _ _ Hb); cbn [bind];
    rewrite ?(eqb_idx _ _ _ _ Hc Hc), ?(eqb_idx _ _ _ _ Hc Hb), ?(eqb_idx _ _ _ _ Ha Hc), ?(eqb_idx _ _ _ _ Ha Hb); cbn [bind];
    rewrite ?Nat.eqb_refl; rewrite ?(proj2 (Nat.eqb_neq i k)), ?(proj2 (Nat.eqb_neq j i)) by auto.
  - eexists; split; [reflexivity|exact AN].
  - eexists; split; [reflexivity|exact AN].
  - destruct (Nat.eqb_spec j k) as [->|N].
    + rewrite Ha in Hb. injection Hb as <-. eexists; split; [reflexivity|]. destruct AA as [E F]. rewrite E. tauto.
    + eexists; split; [reflexivity|exact AN].
  - destruct (Nat.eqb_spec j k) as [->|N].
    + rewrite Ha in Hb. injection Hb as <-. eexists; split; [reflexivity|]. destruct AA as [E F]. rewrite E. tauto.
    + eexists; split; [reflexivity|exact AN].
Qed.
(** all the segments of [l] are at the corner [i] *)
Variable i : nat.
Variable c : pt.
Hypothesis Hc : nth_error pts i = Some c.
Definition at_corner (s : nat * nat) : Prop := exists j a, joins s i j /\ j <> i /\ nth_error pts j = Some a.
Definition sharp2 (s t : nat * nat) : Prop := exists j k a b, joins s i j /\ joins t i k /\ nth_error pts j = Some a /\ nth_error pts k = Some b /\ below_120 c a b.
Lemma joins_fun : forall s j k, joins s i j -> joins s i k -> j <> i -> j = k.
Proof. unfold joins. intros s j k H K N. intuition congruence. Qed.
Lemma pair2_R : forall s t, at_corner s -> at_corner t -> exists r, sharp_pair ROps lm pts (PI * (2 / 3)) s t = Ok r /\ (r = true <-> sharp2 s t).
Proof.
  intros s t [j [a [Js [Nj Ha]]]] [k [b [Jt [Nk Hb]]]]. destruct (pair_R s t i j k c a b) as [r [E F]]; auto. exists r. split; auto. rewrite F. split.
  - intros H. exists j, k, a, b. auto 6.
  - intros [j' [k' [a' [b' [J1 [J2 [A1 [B1 H]]]]]]]]. assert (j = j') by (eapply joins_fun; eauto). assert (k = k') by (eapply joins_fun; eauto). subst. congruence.
Qed.
Lemma with_R : forall s l, at_corner s -> (forall t, In t l -> at_corner t) ->
  exists r, sharp_with ROps lm pts (PI * (2 / 3)) s l = Ok r /\ (r = true <-> exists t, In t l /\ sharp2 s t).
Proof.
  intros s l Hs. induction l as [|t l IH]; intros Hl; cbn [sharp_with].
  - exists false. split; auto. split; [discriminate|]. intros [t [[] _]].
  - destruct (pair2_R s t Hs (Hl t (or_introl eq_refl))) as [r [E F]]. rewrite E. cbn [bind]. destruct r.
    + exists true. split; auto. split; auto. intros _. exists t. split; [left; auto|apply F; auto].
    + destruct IH as [r [E' F']]; [intros; apply Hl; right; auto|]. exists r. split; auto. rewrite F'. split.
      * intros [u [U1 U2]]. exists u. split; [right; auto|auto].
      * intros [u [[<-|U1] U2]]; [apply F in U2; discriminate|eauto].
Qed.
Lemma any_R : forall l, (forall t, In t l -> at_corner t) ->
  exists r, any_sharp ROps lm pts (PI * (2 / 3)) l = Ok r /\ (r = true <-> exists l1 s l2 t l3, l = l1 ++ s :: l2 ++ t :: l3 /\ sharp2 s t).
Proof.
  induction l as [|s l IH]; intros Hl; cbn [any_sharp].
  - exists false. split; auto. split; [discriminate|]. intros [l1 [s [l2 [t [l3 [E _]]]]]]. destruct l1; discriminate.
  - destruct (with_R s l) as [r [E F]]; [apply Hl; left; auto|intros; apply Hl; right; auto|]. rewrite E. cbn [bind]. destruct r.
    + exists true. split; auto. split; auto. intros _. destruct (proj1 F eq_refl) as [t [T1 T2]]. apply in_split in T1. destruct T1 as [l2 [l3 ->]].
      exists [], s, l2, t, l3. auto.
    + destruct IH as [r [E' F']]; [intros; apply Hl; right; auto|]. exists r. split; auto. rewrite F'. split.
      * intros [l1 [s' [l2 [t [l3 [-> T]]]]]]. exists (s :: l1), s', l2, t, l3. auto.
      * intros [l1 [s' [l2 [t [l3 [Eq T]]]]]]. destruct l1 as [|x l1]; cbn in Eq; injection Eq as Eq1 Eq2.
        -- subst. assert (false = true); [|discriminate]. apply F. exists t. split; auto. apply in_or_app. right. left. auto.
        -- subst. exists l1, s', l2, t, l3. auto.
Qed.
End Pair.

(** ** filter and positions *)
Lemma filter_split : forall X (f : X -> bool) l a x b, filter f l = a ++ x :: b -> exists l1 l2, l = l1 ++ x :: l2 /\ filter f l2 = b /\ f x = true.
Proof.
  intros X f. induction l as [|y l IH]; intros a x b H; cbn in H; [destruct a; discriminate|]. destruct (f y) eqn:Fy.
  - destruct a as [|z a]; cbn in H; injection H as H1 H2.
    + subst. exists [], l. auto.
    + destruct (IH a x b H2) as [l1 [l2 [-> K]]]. exists (y :: l1), l2. auto.
  - destruct (IH a x b H) as [l1 [l2 [-> K]]]. exists (y :: l1), l2. auto.
Qed.
Lemma filter_pair : forall X (f : X -> bool) (Q : X -> X -> Prop) l,
  (exists l1 s l2 t l3, filter f l = l1 ++ s :: l2 ++ t :: l3 /\ Q s t) <-> (exists l1 s l2 t l3, l = l1 ++ s :: l2 ++ t :: l3 /\ f s = true /\ f t = true /\ Q s t).
Proof.
  intros X f Q l. split.
  - intros [l1 [s [l2 [t [l3 [E K]]]]]]. destruct (filter_split _ _ _ _ _ _ E) as [m1 [m2 [-> [F2 Fs]]]].
    destruct (filter_split _ _ _ _ _ _ F2) as [m3 [m4 [-> [F3 Ft]]]]. exists m1, s, m3, t, m4. auto.
  - intros [l1 [s [l2 [t [l3 [-> [Fs [Ft K]]]]]]]]. rewrite filter_app. cbn [filter]. rewrite Fs, filter_app. cbn [filter]. rewrite Ft.
    exists (filter f l1), s, (filter f l2), t, (filter f l3). auto.
Qed.

(** ** the candidates *)
Lemma close_R : forall (pts : list pt) p bound segs,
  (forall s, In s segs -> exists a b, nth_error pts (fst s) = Some a /\ nth_error pts (snd s) = Some b /\ a <> b) ->
  exists r, too_close ROps pts p bound segs = Ok r /\
    (r = false <-> forall s a b q, In s segs -> nth_error pts (fst s) = Some a -> nth_error pts (snd s) = Some b -> on_segment q a b -> bound <= dist p q).
Proof.
  intros pts p bound. induction segs as [|s segs IH]; intros H; cbn [too_close].
  - exists false. split; auto. split; auto. intros _ s a b q [].
  - destruct (H s (or_introl eq_refl)) as [a [b [Ha [Hb N]]]]. rewrite (get_some _ _ _ _ Ha), (get_some _ _ _ _ Hb). cbn [bind].
    destruct (psd_spec p a b N) as [m [E [[q0 [Q1 Q2]] Q3]]]. rewrite E. cbn [bind]. change (ltb ROps) with Rltb. destruct (Rltb m bound) eqn:L.
    + apply Rltb_true in L. exists true. split; auto. split; [discriminate|]. intros K. specialize (K s a b q0 (or_introl eq_refl) Ha Hb Q1). lra.
    + apply Rltb_false in L. destruct IH as [r [E' F]]; [intros; apply H; right; auto|]. exists r. split; auto. rewrite F. split.
      * intros K t a' b' q [<-|Ht] Ha' Hb' Hq; [|eapply K; eauto]. rewrite Ha in Ha'. rewrite Hb in Hb'. injection Ha' as <-. injection Hb' as <-. specialize (Q3 q Hq). lra.
      * intros K t a' b' q Ht. apply K. right; auto.
Qed.
Lemma close_grow : forall (pts l : list pt) p bound segs, (forall s, In s segs -> (fst s < length pts /\ snd s < length pts)%nat) ->
  too_close ROps (pts ++ l) p bound segs = too_close ROps pts p bound segs.
Proof.
  intros pts l p bound. induction segs as [|s segs IH]; intros H; cbn [too_close]; auto.
  destruct (H s (or_introl eq_refl)) as [L1 L2]. unfold get. rewrite !nth_error_app1 by auto. rewrite IH; auto. intros; apply H; right; auto.
Qed.
Definition keepb (d : drawing) (segs : list (nat * nat)) (eps : R) (p : pt) : bool :=
  match too_close ROps (points d) p (eps / 200) segs with Ok r => negb r | _ => false end && existsb (fun g => poly_contains ROps g p) (polygons d).
Definition place (c : pt) (eps : R) (j : nat) : pt := P (px c + eps / 100 * cos (INR j * PI / 9)) (py c + eps / 100 * sin (INR j * PI / 9)).
Definition plus (d : drawing) (l : list pt) : drawing := with_points ROps A d (points d ++ l).
Lemma plus_nil : forall d, plus d [] = d.
Proof. intros [rm rg ps sg pl]. unfold plus, with_points. cbn. rewrite app_nil_r. auto. Qed.
Lemma plus_plus : forall d l k, plus (plus d l) k = plus d (l ++ k).
Proof. intros d l k. unfold plus, with_points. cbn. rewrite app_assoc. auto. Qed.
Lemma cand_exact : forall (d0 : drawing) c (eps : R) segs n j l,
  (forall s, In s segs -> exists a b, nth_error (points d0) (fst s) = Some a /\ nth_error (points d0) (snd s) = Some b /\ a <> b) ->
  candidates ROps lm A c eps segs n j (plus d0 l) = (plus d0 (l ++ filter (keepb d0 segs eps) (map (place c eps) (seq j n))), Ok tt).
Proof.
  intros d0 c eps segs n. destruct exact as [Es [Ec [Ep _]]]. induction n as [|n IH]; intros j l H; cbn [candidates seq map filter].
  - rewrite app_nil_r. reflexivity.
  - cbv zeta. unfold mbind at 1, mlift at 1.
    assert (D0 : div ROps (mul ROps (ofZ ROps (Z.of_nat j)) (fpi ROps lm)) (ofZ ROps 9) = Ok (INR j * PI / 9)).
    { rewrite Ep. change (Rdivr (IZR (Z.of_nat j) * PI) 9 = Ok (INR j * PI / 9)). rewrite Rdivr_ok by lra. rewrite <- INR_IZR_INZ. reflexivity. }
    rewrite D0. unfold mbind at 1, mlift at 1.
    assert (D1 : div ROps eps (ofZ ROps 100) = Ok (eps / 100)) by (cbn [div ROps ofZ]; rewrite Rdivr_ok by lra; auto).
    rewrite D1. unfold mbind at 1, mlift at 1.
    assert (D2 : div ROps (eps / 100) (ofZ ROps 2) = Ok (eps / 200)) by (cbn [div ROps ofZ]; rewrite Rdivr_ok by lra; f_equal; field).
    rewrite D2. unfold mbind at 1, mget at 1. unfold mbind at 1, mlift at 1.
    rewrite Ec, Es. change (mkV (add ROps (vx c) (mul ROps (eps / 100) (cos (INR j * PI / 9)))) (add ROps (vy c) (mul ROps (eps / 100) (sin (INR j * PI / 9))))) with (place c eps j).
    set (p := place c eps j) in *.
    assert (TC : too_close ROps (points (plus d0 l)) p (eps / 200) segs = too_close ROps (points d0) p (eps / 200) segs).
    { apply close_grow. intros s Hs. destruct (H s Hs) as [a [b [Ha [Hb _]]]]. split; apply nth_error_Some; congruence. }
    rewrite TC. unfold keepb at 1. destruct (close_R (points d0) p (eps / 200) segs H) as [r [Er _]]. rewrite Er. cbn [polygons plus with_points].
    destruct (negb r && existsb (fun g => poly_contains ROps g p) (polygons d0)) eqn:G.
    + unfold mbind at 1. cbn [push_point mget mput mbind]. unfold push_point, mget, mput, mbind. fold (plus (plus d0 l) [p]). rewrite plus_plus, IH by auto. rewrite <- app_assoc. reflexivity.
    + unfold mbind at 1, mret at 1. apply IH; auto.
Qed.

(** ** all corners *)
Definition ends_at (i : nat) (s : nat * nat) : bool := Nat.eqb (fst s) i || Nat.eqb (snd s) i.
Lemma ends_joins : forall i s, ends_at i s = true <-> exists j, joins s i j.
Proof.
  intros i [a b]. unfold ends_at, joins. cbn. rewrite orb_true_iff, !Nat.eqb_eq. split.
  - intros [->| ->]; eauto.
  - intros [j [[-> _]|[_ ->]]]; auto.
Qed.
Lemma on_segment_rev : forall q a b, on_segment q a b -> on_segment q b a.
Proof.
  intros q a b [t [Ht ->]]. exists (1 - t). split; [lra|]. unfold along. apply pt_ext; rewrite ?px_P, ?py_P; ring.
Qed.
Lemma corner_R : forall (d : drawing) i c (eps : R) l, well_formed d -> no_loops d -> separated d -> nth_error (points d) i = Some c ->
  exists new, refined d i c eps new /\
    exists sharp, any_sharp ROps lm (points (plus d l)) (PI * (2 / 3)) (filter (ends_at i) (segments d)) = Ok sharp /\
      (if sharp : bool then candidates ROps lm A c eps (filter (ends_at i) (segments d)) 18 0 else mret ROps A tt) (plus d l) = (plus d (l ++ new), Ok tt).
Proof.
  intros d i c eps l [W _] NL SEP Hc.
  assert (C1 : forall s, In s (filter (ends_at i) (segments d)) -> at_corner (points d) i s).
  { intros s Hs. apply filter_In in Hs. destruct Hs as [Hs Es]. apply ends_joins in Es. destruct Es as [j J]. destruct (W s Hs) as [L1 L2]. pose proof (NL s Hs) as N.
    assert (Lj : (j < length (points d))%nat) by (destruct J as [[<- <-]|[<- <-]]; auto). apply nth_error_Some in Lj. destruct (nth_error (points d) j) as [a|] eqn:Ea; [|congruence].
    exists j, a. split; auto. split; auto. destruct J as [[<- <-]|[<- <-]]; auto. }
  assert (C2 : forall s, In s (segments d) -> exists a b, nth_error (points d) (fst s) = Some a /\ nth_error (points d) (snd s) = Some b /\ a <> b).
  { intros s Hs. destruct (W s Hs) as [L1 L2]. destruct (nth_error (points d) (fst s)) as [a|] eqn:Ea; [|apply nth_error_None in Ea; lia].
    destruct (nth_error (points d) (snd s)) as [b|] eqn:Eb; [|apply nth_error_None in Eb; lia]. exists a, b. split; auto. split; auto. eapply (idx_neq (points d)); eauto. }
  assert (GROW : forall cs, (forall s, In s cs -> at_corner (points d) i s) -> any_sharp ROps lm (points (plus d l)) (PI * (2 / 3)) cs = any_sharp ROps lm (points d) (PI * (2 / 3)) cs).
  { assert (G0 : forall s t, at_corner (points d) i s -> at_corner (points d) i t -> sharp_pair ROps lm (points d ++ l) (PI * (2 / 3)) s t = sharp_pair ROps lm (points d) (PI * (2 / 3)) s t).
    { intros s t [j [a [J [_ Ha]]]] [k [b [K [_ Hb]]]]. unfold sharp_pair, get.
      assert (X : forall x, x = i \/ x = j \/ x = k -> nth_error (points d ++ l) x = nth_error (points d) x).
      { intros x Hx. apply nth_error_app1, nth_error_Some. destruct Hx as [->|[->| ->]]; congruence. }
      rewrite !X by (unfold joins in *; tauto). reflexivity. }
    assert (G1 : forall s cs, at_corner (points d) i s -> (forall t, In t cs -> at_corner (points d) i t) -> sharp_with ROps lm (points d ++ l) (PI * (2 / 3)) s cs = sharp_with ROps lm (points d) (PI * (2 / 3)) s cs).
    { intros s cs Hs. induction cs as [|t cs IH]; intros Ht; cbn [sharp_with]; auto. rewrite G0 by (auto; apply Ht; left; auto). rewrite IH; auto. intros; apply Ht; right; auto. }
    induction cs as [|s cs IH]; intros Hs; cbn [any_sharp]; auto. cbn [plus with_points points] in *. rewrite G1, IH; auto; [|apply Hs; left; auto|]; intros; apply Hs; right; auto. }
  rewrite (GROW _ C1). destruct (any_R (points d) SEP i c Hc _ C1) as [sharp [E F]].
  assert (SC : sharp = true <-> sharp_corner d i).
  { rewrite F, filter_pair. unfold sharp_corner, sharp2. split.
    - intros [l1 [s [l2 [t [l3 [Eq [_ [_ [j [k [a [b [J [K [Ha [Hb B]]]]]]]]]]]]]]]]. exists l1, s, l2, t, l3, j, k, c, a, b. auto 8.
    - intros [l1 [s [l2 [t [l3 [j [k [c' [a [b [Eq [J [K [Hc' [Ha [Hb B]]]]]]]]]]]]]]]]. assert (c' = c) by congruence. subst c'.
      exists l1, s, l2, t, l3. split; auto. split; [apply ends_joins; eauto|]. split; [apply ends_joins; eauto|]. exists j, k, a, b. auto 6. }
  destruct sharp.
  - exists (filter (keepb d (filter (ends_at i) (segments d)) eps) (ring_of c eps)). split.
    + left. split; [apply SC; auto|]. exists (keepb d (filter (ends_at i) (segments d)) eps). split; [|auto].
      intros p. unfold keepb, acceptable. destruct (close_R (points d) p (eps / 200) (filter (ends_at i) (segments d))) as [r [Er Fr]].
      { intros s Hs. apply filter_In in Hs. apply C2; tauto. }
      rewrite Er, andb_true_iff, existsb_exists, negb_true_iff, Fr. split; intros [H1 H2]; split; auto.
      * intros s j a b q Hs J Ha Hb Hq. assert (In s (filter (ends_at i) (segments d))) by (apply filter_In; split; auto; apply ends_joins; eauto).
        destruct J as [[<- <-]|[<- <-]]; [apply (H1 s a b q); auto|apply (H1 s b a q); auto using on_segment_rev].
      * intros s a b q Hs Ha Hb Hq. apply filter_In in Hs. destruct Hs as [Hs Es]. unfold ends_at in Es. apply orb_true_iff in Es. rewrite !Nat.eqb_eq in Es. destruct Es as [Ei|Ei].
        -- apply (H2 s (snd s) a b q); auto; [left; auto|congruence].
        -- apply (H2 s (fst s) b a q); auto using on_segment_rev; [right; auto|congruence].
    + exists true. split; auto. rewrite cand_exact; auto. intros s Hs. apply filter_In in Hs. apply C2; tauto.
  - exists []. split.
    + right. split; [intros S; apply SC in S; discriminate|auto].
    + exists false. split; auto. rewrite app_nil_r. reflexivity.
Qed.
Lemma loop_R : forall (d : drawing) (eps : R) n i l, well_formed d -> no_loops d -> separated d -> (i + n = length (points d))%nat ->
  exists ls, length ls = n /\ (forall k c, (k < n)%nat -> nth_error (points d) (i + k) = Some c -> exists new, nth_error ls k = Some new /\ refined d (i + k) c eps new) /\
    refine_loop ROps lm A eps n i (plus d l) = (plus d (l ++ concat ls), Ok tt).
Proof.
  intros d eps n. induction n as [|n IH]; intros i l W NL SEP Hn.
  - exists []. split; auto. split; [intros; lia|]. cbn. rewrite app_nil_r. reflexivity.
  - destruct (nth_error (points d) i) as [c|] eqn:Hc; [|apply nth_error_None in Hc; lia].
    destruct (corner_R d i c eps l W NL SEP Hc) as [new [Rn [sharp [Es Ec]]]].
    destruct (IH (S i) (l ++ new) W NL SEP) as [ls [Ll [Hls El]]]; [lia|].
    exists (new :: ls). split; [cbn; lia|]. split.
    + intros k c' Hk Hc'. destruct k as [|k].
      * rewrite Nat.add_0_r in *. assert (c' = c) by congruence. subst. exists new. auto.
      * replace (i + S k)%nat with (S i + k)%nat in * by lia. apply Hls; auto; lia.
    + cbn [refine_loop]. unfold mbind at 1, mget at 1. cbv zeta. unfold mbind at 1, mlift at 1.
      assert (D : div ROps (ofZ ROps 2) (ofZ ROps 3) = Ok (2 / 3)) by (cbn [div ROps ofZ]; rewrite Rdivr_ok by lra; auto).
      rewrite D. unfold mbind at 1, mlift at 1. destruct exact as [_ [_ [Ep _]]]. rewrite Ep. change (mul ROps PI (2 / 3)) with (PI * (2 / 3)).
      change (segments (plus d l)) with (segments d). change (fun s => Nat.eqb (fst s) i || Nat.eqb (snd s) i) with (ends_at i).
      rewrite Es. unfold mbind at 1.
      assert (G : (if sharp then (fun d1 => match get (points (plus d l)) i with Ok x => candidates ROps lm A x eps (filter (ends_at i) (segments d)) 18 0 d1 | Throw s => (d1, Throw s) | UB s => (d1, UB s) | NonFin s => (d1, NonFin s) end) else mret ROps A tt) (plus d l) = (plus d (l ++ new), Ok tt)).
      { rewrite <- Ec. destruct sharp; auto. cbn [plus with_points points]. rewrite (get_some _ (points d ++ l) i c) by (apply nth_grow; auto). reflexivity. }
      destruct sharp.
      * unfold mbind at 1, mlift at 1. rewrite G. rewrite El. cbn [concat]. rewrite app_assoc. reflexivity.
      * rewrite G, El. cbn [concat]. rewrite app_assoc. reflexivity.
Qed.
Lemma refining_exact : forall d : drawing, well_formed d -> no_loops d -> separated d ->
  exists (eps : R) ls, getCurrentEpsilon ROps A d = Ok eps /\ length ls = length (points d) /\
    (forall i c, nth_error (points d) i = Some c -> exists l, nth_error ls i = Some l /\ refined d i c eps l) /\
    exec ROps lm A peq AddRefiningPoints d = (with_points ROps A d (points d ++ concat ls), Ok tt).
Proof.
  intros d W NL SEP.
  assert (ND : nondegenerate d). { intros s a b Hs Ha Hb. eapply (idx_neq (points d)); eauto. }
  destruct (epsilon_R A d W ND) as [eps [E _]]. destruct (loop_R d eps (length (points d)) 0 [] W NL SEP eq_refl) as [ls [L1 [L2 L3]]].
  exists eps, ls. split; auto. split; auto. split.
  - intros i c Hc. apply (L2 i c); auto. apply nth_error_Some. congruence.
  - cbn [exec]. unfold addRefiningPoints, mbind, mget, mlift. rewrite E. rewrite plus_nil in L3. exact L3.
Qed.
End Ref.
