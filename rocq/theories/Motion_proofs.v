(** The moving magnets and the motor drawing, in exact arithmetic. *)
From Coq Require Import String.
From Coq Require Import List Arith ZArith NArith Bool Lia.
From Coq Require Import Reals Lra.
From Verif Require Import Base SumR GeometryModel GeometrySpec Geometry_proofs DrawingModel DrawingSpec DrawingR_proofs PlaneSpec Plane_proofs ExampleModel ExampleSpec Example_proofs.
Import ListNotations.
Local Open Scope R_scope.

(** ** The two moving magnets *)
Section Motion.
Variable mat : Type.
Variable neo : mat.
Variable lm : libm ROps.
Hypothesis EX : exact_libm lm.
Notation lay := (layout ROps lm mat neo).
(** the vertices written out *)
Definition corner (c : pt) (a x y : R) : pt := P (x * cos a - y * sin a + px c) (x * sin a + y * cos a + py c).
Lemma outline_eq : forall r (b : body ROps), outline ROps lm r b =
  [corner (b_centre _ b) (b_angle _ b) (- r) (- r); corner (b_centre _ b) (b_angle _ b) r (- r);
   corner (b_centre _ b) (b_angle _ b) r r; corner (b_centre _ b) (b_angle _ b) (- r) r].
Proof.
  destruct EX as (S & C & _). intros r [c a v w]. unfold outline, poly_rotate, poly_translate, square. cbn [map].
  unfold rotate, rotate0, corner, px, py, vadd, vminus. cbn [vx vy b_centre b_angle add sub mul opp ROps]. rewrite !S, !C. toR.
  unfold P. repeat f_equal; ring.
Qed.
Lemma corner_dist : forall c a x y x' y', dist (corner c a x y) (corner c a x' y') = sqrt ((x - x') * (x - x') + (y - y') * (y - y')).
Proof.
  intros. unfold dist, corner. rewrite !px_P, !py_P. f_equal. pose proof (sin2_cos2 a) as SC. unfold Rsqr in SC.
  transitivity (((x - x') * (x - x') + (y - y') * (y - y')) * (sin a * sin a + cos a * cos a)); [ring|rewrite SC; ring].
Qed.
Lemma corner_centre : forall c a, corner c a 0 0 = c.
Proof. intros [x y] a. unfold corner, px, py, P. cbn. f_equal; ring. Qed.
Lemma outline_area : forall r b, twice_area (outline ROps lm r b) = 8 * r * r.
Proof.
  intros r b. rewrite outline_eq. unfold twice_area, corner. cbn [edges combine app map fold_right fst snd]. rewrite !px_P, !py_P.
  pose proof (sin2_cos2 (b_angle _ b)) as SC. unfold Rsqr in SC.
  set (s := sin _) in *. set (c := cos _) in *. transitivity (8 * r * r * (s * s + c * c)); [ring|rewrite SC; ring].
Qed.
Lemma magnet_length : forall b, dist (magnetisation ROps lm b) (P 0 0) = 1000.
Proof.
  destruct EX as (S & C & _). intros b. unfold magnetisation, rotate0, dist, px, py. cbn [vx vy add sub mul zero ofZ ROps]. rewrite !S, !C. toR.
  pose proof (sin2_cos2 (b_angle _ b)) as SC. unfold Rsqr in SC. cbn.
  transitivity (sqrt (1000 * 1000)); [f_equal|apply sqrt_square; lra].
  set (s := sin _) in *. set (c := cos _) in *. transitivity (1000 * 1000 * (s * s + c * c)); [ring|rewrite SC; ring].
Qed.
(** *** The squares never get in each other's way *)
Lemma dist_dist_euc : forall p q, dist p q = dist_euc (px p) (py p) (px q) (py q).
Proof. intros. unfold dist, dist_euc, Rsqr. f_equal. Qed.
Lemma dist_triangle : forall p q m, dist p q <= dist p m + dist m q.
Proof. intros. rewrite !dist_dist_euc. apply triangle. Qed.
Lemma dist_sym' : forall p q, dist p q = dist q p.
Proof. intros. unfold dist. f_equal. ring. Qed.
Lemma sqrt_lo : forall a b, 0 <= a -> a * a <= b -> a <= sqrt b.
Proof. intros a b A L. rewrite <- (sqrt_square a) by auto. apply sqrt_le_1_alt. auto. Qed.
Lemma sqrt_hi : forall a b, 0 <= a -> b <= a * a -> sqrt b <= a.
Proof. intros a b A L. rewrite <- (sqrt_square a) by auto. apply sqrt_le_1_alt. auto. Qed.
(** the corners of one square *)
Definition corners (r : R) (b : body ROps) : list pt := outline ROps lm r b.
Lemma corners_in : forall r b p, In p (corners r b) -> exists x y, (x = r \/ x = - r) /\ (y = r \/ y = - r) /\ p = corner (b_centre _ b) (b_angle _ b) x y.
Proof.
  intros r b p J. unfold corners in J. rewrite outline_eq in J. cbn [In] in J.
  destruct J as [J|[J|[J|[J|[]]]]]; subst p; eexists; eexists; (split; [|split; [|reflexivity]]); auto.
Qed.
Lemma corner_off : forall r b p, 0 <= r -> In p (corners r b) -> dist p (b_centre _ b) <= 3 / 2 * r.
Proof.
  intros r b p R0 J. apply corners_in in J. destruct J as (x & y & X & Y & ->).
  rewrite <- (corner_centre (b_centre _ b) (b_angle _ b)) at 2. rewrite corner_dist. apply sqrt_hi; [lra|].
  assert (0 <= r * r) by (apply Rmult_le_pos; auto). destruct X; destruct Y; subst x y; lra.
Qed.
Lemma corners_apart : forall r b p q, 0 <= r -> In p (corners r b) -> In q (corners r b) -> p <> q -> 2 * r <= dist p q.
Proof.
  intros r b p q R0 J K N. apply corners_in in J. apply corners_in in K. destruct J as (x & y & X & Y & ->). destruct K as (x' & y' & X' & Y' & ->).
  rewrite corner_dist. assert (0 <= r * r) by (apply Rmult_le_pos; auto). apply sqrt_lo; [lra|].
  destruct X; destruct Y; destruct X'; destruct Y'; subst; try lra; exfalso; apply N; reflexivity.
Qed.
(** an edge: two corners that differ in one coordinate *)
Lemma edges_in : forall r b p q, In (p, q) (edges (corners r b)) -> In p (corners r b) /\ In q (corners r b) /\
  exists x y x' y', p = corner (b_centre _ b) (b_angle _ b) x y /\ q = corner (b_centre _ b) (b_angle _ b) x' y' /\
    ((x = - r /\ y = - r /\ x' = r /\ y' = - r) \/ (x = r /\ y = - r /\ x' = r /\ y' = r) \/ (x = r /\ y = r /\ x' = - r /\ y' = r) \/ (x = - r /\ y = r /\ x' = - r /\ y' = - r)).
Proof.
  intros r b p q J. unfold corners in *. rewrite outline_eq in *. cbn [edges combine app In] in J.
  destruct J as [J|[J|[J|[J|[]]]]]; injection J as <- <-; (split; [cbn [In]; tauto|split; [cbn [In]; tauto|]]); do 4 eexists; (split; [reflexivity|split; [reflexivity|]]); tauto.
Qed.
Lemma edge_apart : forall r b p q, 0 < r -> In (p, q) (edges (corners r b)) -> p <> q.
Proof.
  intros r b p q R0 J E. apply edges_in in J. destruct J as (_ & _ & x & y & x' & y' & -> & -> & D).
  assert (dist (corner (b_centre _ b) (b_angle _ b) x y) (corner (b_centre _ b) (b_angle _ b) x' y') = 0) as Z.
  { rewrite E, corner_dist. replace (_ + _) with 0 by ring. apply sqrt_0. }
  rewrite corner_dist in Z. assert (2 * r <= sqrt ((x - x') * (x - x') + (y - y') * (y - y'))); [|lra].
  apply sqrt_lo; [lra|]. intuition; subst; lra.
Qed.
(** what lies in the box of a segment is no further from any point than half its length from the middle *)
Lemma box_near : forall r b p q v, 0 < r -> In (p, q) (edges (corners r b)) -> in_box v p q -> dist v (b_centre _ b) <= 2 * r.
Proof.
  intros r b p q v R0 J B. apply edges_in in J. destruct J as (_ & _ & x & y & x' & y' & -> & -> & D).
  set (c := b_centre _ b) in *. set (a := b_angle _ b) in *.
  set (m := corner c a ((x + x') / 2) ((y + y') / 2)).
  assert (M : dist m c <= r).
  { unfold m. rewrite <- (corner_centre c a) at 2. rewrite corner_dist. apply sqrt_hi; [lra|]. intuition; subst; apply Req_le; field. }
  assert (Q : dist v m <= r).
  { unfold m, dist. apply sqrt_hi; [lra|]. apply box_bounds in B. unfold corner in *. rewrite ?px_P, ?py_P in *.
    pose proof (sin2_cos2 a) as SC. unfold Rsqr in SC. set (s := sin a) in *. set (k := cos a) in *.
    set (X := px v) in *. set (Y := py v) in *. set (cx := px c) in *. set (cy := py c) in *.
    assert (SQ : forall u lo, - lo <= u <= lo \/ lo <= u <= - lo -> u * u <= lo * lo).
    { intros u lo [H|H]; nra. }
    assert (QX : (X - ((x + x') / 2 * k - (y + y') / 2 * s + cx)) * (X - ((x + x') / 2 * k - (y + y') / 2 * s + cx)) <= ((x' - x) / 2 * k - (y' - y) / 2 * s) * ((x' - x) / 2 * k - (y' - y) / 2 * s)) by (apply SQ; lra).
    assert (QY : (Y - ((x + x') / 2 * s + (y + y') / 2 * k + cy)) * (Y - ((x + x') / 2 * s + (y + y') / 2 * k + cy)) <= ((x' - x) / 2 * s + (y' - y) / 2 * k) * ((x' - x) / 2 * s + (y' - y) / 2 * k)) by (apply SQ; lra).
    eapply Rle_trans; [apply Rplus_le_compat; [exact QX|exact QY]|].
    assert (L : (x' - x) / 2 * ((x' - x) / 2) + (y' - y) / 2 * ((y' - y) / 2) = r * r) by (intuition; subst; field).
    apply Req_le. transitivity (((x' - x) / 2 * ((x' - x) / 2) + (y' - y) / 2 * ((y' - y) / 2)) * (s * s + k * k)); [field|rewrite SC, L; ring]. }
  pose proof (dist_triangle v c m). lra.
Qed.
(** a corner is in the box of an edge of its square only if it is an end of it *)
Lemma own_box : forall r b p q v, 0 < r -> In v (corners r b) -> In (p, q) (edges (corners r b)) -> v <> p -> v <> q -> ~ in_box v p q.
Proof.
  intros r b p q v R0 V J Np Nq B. apply edges_in in J. destruct J as (_ & _ & x & y & x' & y' & -> & -> & D).
  apply corners_in in V. destruct V as (u & w & U & W & ->).
  set (c := b_centre _ b) in *. set (a := b_angle _ b) in *.
  apply box_bounds in B. unfold corner in B. rewrite ?px_P, ?py_P in B.
  pose proof (sin2_cos2 a) as SC. unfold Rsqr in SC. set (s := sin a) in *. set (k := cos a) in *.
  assert (Z : r * s = 0 /\ r * k = 0).
  { destruct D as [D|[D|[D|D]]]; destruct D as (-> & -> & -> & ->); destruct U; destruct W; subst u w;
      first [exfalso; apply Np; reflexivity|exfalso; apply Nq; reflexivity|lra]. }
  destruct Z as [Z1 Z2]. apply Rmult_integral in Z1. apply Rmult_integral in Z2. destruct Z1 as [Z1|Z1]; [lra|]. destruct Z2 as [Z2|Z2]; [lra|].
  rewrite Z1, Z2 in SC. lra.
Qed.
Lemma lay_edges : forall r b1 b2, all_edges (lay r b1 b2) = edges (corners r b1) ++ edges (corners r b2).
Proof. intros. unfold all_edges, layout. cbn [flat_map]. unfold outline_edges. fold (corners r b1) (corners r b2). cbn [app]. rewrite app_nil_r. reflexivity. Qed.
Lemma lay_plain : forall r b1 b2, Forall plain (lay r b1 b2).
Proof.
  intros. unfold layout. repeat constructor; cbn [plain]; rewrite ?outline_eq; try discriminate; unfold is_u32; cbn; lia.
Qed.
Lemma lay_plane : forall r b1 b2, tol9 <= r -> 4 * r < dist (b_centre _ b1) (b_centre _ b2) -> plane (all_edges (lay r b1 b2)).
Proof.
  intros r b1 b2 RT F. pose proof tol_pos as TP. assert (R0 : 0 < r) by lra.
  assert (EN : forall p, ends (all_edges (lay r b1 b2)) p -> In p (corners r b1) \/ In p (corners r b2)).
  { intros p [q J]. rewrite lay_edges in J. rewrite !in_app_iff in J. destruct J as [[J|J]|[J|J]]; apply edges_in in J; tauto. }
  assert (X : forall p q, In p (corners r b1) -> In q (corners r b2) -> r <= dist p q).
  { intros p q J K. apply corner_off in J; [|lra]. apply corner_off in K; [|lra].
    pose proof (dist_triangle (b_centre _ b1) (b_centre _ b2) p). pose proof (dist_triangle p (b_centre _ b2) q). rewrite (dist_sym' (b_centre _ b1) p) in *. lra. }
  assert (B12 : forall p q v, In v (corners r b1) -> In (p, q) (edges (corners r b2)) -> ~ in_box v p q).
  { intros p q v V J B. apply (box_near r b2) in B; auto. apply corner_off in V; [|lra].
    pose proof (dist_triangle (b_centre _ b1) (b_centre _ b2) v). rewrite (dist_sym' (b_centre _ b1) v) in *. lra. }
  assert (B21 : forall p q v, In v (corners r b2) -> In (p, q) (edges (corners r b1)) -> ~ in_box v p q).
  { intros p q v V J B. apply (box_near r b1) in B; auto. apply corner_off in V; [|lra].
    pose proof (dist_triangle (b_centre _ b1) (b_centre _ b2) v). rewrite (dist_sym' (b_centre _ b1) v) in *. lra. }
  split; [|split].
  - intros a b J. rewrite lay_edges in J. apply in_app_iff in J. destruct J as [J|J]; eapply edge_apart; eauto.
  - intros p q Jp Jq N. apply EN in Jp. apply EN in Jq. destruct Jp as [Jp|Jp]; destruct Jq as [Jq|Jq].
    + pose proof (corners_apart r b1 p q). lra || (assert (2 * r <= dist p q) by (apply (corners_apart r b1); auto; lra); lra).
    + specialize (X p q Jp Jq). lra.
    + specialize (X q p Jq Jp). rewrite dist_sym'. lra.
    + assert (2 * r <= dist p q) by (apply (corners_apart r b2); auto; lra). lra.
  - intros a b c d J K N1 N2 N3 N4. left. rewrite lay_edges in J, K. apply in_app_iff in J. apply in_app_iff in K.
    destruct J as [J|J]; destruct K as [K|K]; pose proof (edges_in _ _ _ _ J) as (Ja & Jb & _).
    + split; eapply own_box; eauto.
    + split; eapply B12; eauto.
    + split; eapply B21; eauto.
    + split; eapply own_box; eauto.
Qed.

(** *** Momentum *)
Notation adv := (advance ROps).
Lemma adv_run : forall dt m i F t b, m <> 0 -> i <> 0 -> adv dt m i F t b =
  Ok (let v := P (px (b_velocity _ b) + px F * dt / m) (py (b_velocity _ b) + py F * dt / m) in
      let w := b_spin _ b + t * dt / i in
      mkBody ROps (P (px (b_centre _ b) + px v * dt) (py (b_centre _ b) + py v * dt)) (b_angle _ b + w * dt) v w).
Proof.
  intros dt m i F t b M I. unfold advance, vdivs, vmul. cbn [vx vy mul ROps]. toR. repeat (rewrite div_ok by auto; cbn [bind]).
  unfold vadd. cbn [vx vy add mul ROps]. reflexivity.
Qed.
Variable stress : list (call ROps (prop ROps mat)) -> res ((pt * R) * (pt * R)).
Notation turn := (turn_of ROps lm mat neo stress).
Notation trns := (turns ROps lm mat neo stress).
Lemma turn_run : forall r dt m1 m2 i1 i2 s s', m1 <> 0 -> m2 <> 0 -> i1 <> 0 -> i2 <> 0 -> turn r dt m1 m2 i1 i2 s = Ok s' ->
  exists F1 t1 F2 t2, stress (lay r (fst s) (snd s)) = Ok ((F1, t1), (F2, t2)) /\ adv dt m1 i1 F1 t1 (fst s) = Ok (fst s') /\ adv dt m2 i2 F2 t2 (snd s) = Ok (snd s').
Proof.
  intros r dt m1 m2 i1 i2 [b1 b2] s' M1 M2 I1 I2 E. unfold turn_of in E. cbn [fst snd].
  destruct (stress (lay r b1 b2)) as [[[F1 t1] [F2 t2]]| | |] eqn:S; cbn [bind] in E; try discriminate. cbn [fst snd] in E.
  destruct (adv dt m1 i1 F1 t1 b1) as [b1'| | |] eqn:A1; cbn [bind] in E; try discriminate.
  destruct (adv dt m2 i2 F2 t2 b2) as [b2'| | |] eqn:A2; cbn [bind] in E; try discriminate. injection E as <-.
  exists F1, t1, F2, t2. cbn [fst snd]. auto.
Qed.
Lemma turn_momentum : forall r dt m1 m2 i1 i2 s s', m1 <> 0 -> m2 <> 0 -> i1 <> 0 -> i2 <> 0 -> turn r dt m1 m2 i1 i2 s = Ok s' ->
  exists F1 t1 F2 t2, stress (lay r (fst s) (snd s)) = Ok ((F1, t1), (F2, t2)) /\
    momentum m1 m2 s' = moved (momentum m1 m2 s) dt (P (px F1 + px F2) (py F1 + py F2)) /\
    weighted_centre m1 m2 s' = moved (weighted_centre m1 m2 s) dt (momentum m1 m2 s') /\
    i1 * b_spin _ (fst s') = i1 * b_spin _ (fst s) + dt * t1 /\ i2 * b_spin _ (snd s') = i2 * b_spin _ (snd s) + dt * t2 /\
    b_angle _ (fst s') = b_angle _ (fst s) + dt * b_spin _ (fst s') /\ b_angle _ (snd s') = b_angle _ (snd s) + dt * b_spin _ (snd s').
Proof.
  intros r dt m1 m2 i1 i2 s s' M1 M2 I1 I2 E. apply turn_run in E; auto. destruct E as (F1 & t1 & F2 & t2 & S & A1 & A2).
  exists F1, t1, F2, t2. split; [exact S|]. rewrite adv_run in A1, A2 by auto. injection A1 as A1. injection A2 as A2.
  rewrite <- A1, <- A2. unfold momentum, weighted_centre, moved. rewrite <- A1, <- A2. cbn [b_centre b_velocity b_spin b_angle]. rewrite ?px_P, ?py_P.
  unfold P. repeat split; try (f_equal; field; auto); field; auto.
Qed.
Lemma turn_bodies : forall r dt m1 m2 i1 i2 s s', m1 <> 0 -> m2 <> 0 -> i1 <> 0 -> i2 <> 0 -> turn r dt m1 m2 i1 i2 s = Ok s' ->
  exists F1 t1 F2 t2, stress (lay r (fst s) (snd s)) = Ok ((F1, t1), (F2, t2)) /\
    follows dt m1 i1 F1 t1 (fst s) (fst s') /\ follows dt m2 i2 F2 t2 (snd s) (snd s').
Proof.
  intros r dt m1 m2 i1 i2 s s' M1 M2 I1 I2 E. apply turn_run in E; auto. destruct E as (F1 & t1 & F2 & t2 & S & A1 & A2).
  exists F1, t1, F2, t2. split; [exact S|]. rewrite adv_run in A1, A2 by auto. injection A1 as A1. injection A2 as A2.
  rewrite <- A1, <- A2. unfold follows, moved. cbn [b_centre b_velocity b_spin b_angle]. rewrite ?px_P, ?py_P. unfold P.
  toR. split; repeat split; try (f_equal; field; auto); try (field; auto).
Qed.
Lemma turns_momentum : forall n r dt m1 m2 i1 i2 s s', m1 <> 0 -> m2 <> 0 -> i1 <> 0 -> i2 <> 0 ->
  (forall cs F1 t1 F2 t2, stress cs = Ok ((F1, t1), (F2, t2)) -> F2 = P (- px F1) (- py F1)) ->
  trns n r dt m1 m2 i1 i2 s = Ok s' ->
  momentum m1 m2 s' = momentum m1 m2 s /\ weighted_centre m1 m2 s' = moved (weighted_centre m1 m2 s) (INR n * dt) (momentum m1 m2 s).
Proof.
  induction n; intros r dt m1 m2 i1 i2 s s' M1 M2 I1 I2 ACT E; cbn [turns] in E.
  - injection E as <-. split; auto. unfold moved. cbn [INR]. unfold weighted_centre. rewrite ?px_P, ?py_P. f_equal; ring.
  - destruct (turn r dt m1 m2 i1 i2 s) as [s1| | |] eqn:D; cbn [bind] in E; try discriminate.
    destruct (turn_momentum _ _ _ _ _ _ _ _ M1 M2 I1 I2 D) as (F1 & t1 & F2 & t2 & S & MO & CE & _).
    destruct (IHn _ _ _ _ _ _ _ _ M1 M2 I1 I2 ACT E) as [MO' CE'].
    assert (K : momentum m1 m2 s1 = momentum m1 m2 s).
    { rewrite MO. rewrite (ACT _ _ _ _ _ S). unfold moved, momentum. rewrite ?px_P, ?py_P. f_equal; ring. }
    split; [congruence|]. rewrite CE', CE, K, S_INR. unfold moved. rewrite ?px_P, ?py_P. f_equal; ring.
Qed.
End Motion.
