(** Point-segment distance, circles, enclosing circles, scalar helpers. *)
From Coq Require Import String.
From Coq Require Import List Arith ZArith NArith Bool Lia Permutation.
From Coq Require Import Reals Lra Psatz.
From Verif Require Import Base GeometryModel GeometrySpec Geometry_proofs.
Import ListNotations.
Local Open Scope R_scope.

Lemma along_x : forall a b t, px (along a b t) = px a + t * (px b - px a).
Proof. reflexivity. Qed.
Lemma along_y : forall a b t, py (along a b t) = py a + t * (py b - py a).
Proof. reflexivity. Qed.

(** ** C23 *)
Definition L2 (a b : pt) : R := (px b - px a) * (px b - px a) + (py b - py a) * (py b - py a).
Definition prm (p a b : pt) : R := ((px p - px a) * (px b - px a) + (py p - py a) * (py b - py a)) / L2 a b.

Lemma L2_pos : forall a b, a <> b -> 0 < L2 a b.
Proof.
  intros a b H. unfold L2. pose proof (sq_nonneg (px b - px a)). pose proof (sq_nonneg (py b - py a)).
  destruct (Req_dec ((px b - px a) * (px b - px a) + (py b - py a) * (py b - py a)) 0) as [E|E]; [|lra].
  exfalso; apply H. apply pt_ext; symmetry; apply Rminus_diag_uniq; apply Rsqr_0_uniq; unfold Rsqr; lra.
Qed.

Lemma dist_along : forall p a b t, a <> b ->
  (px p - px (along a b t)) * (px p - px (along a b t)) + (py p - py (along a b t)) * (py p - py (along a b t)) =
  (px p - px (along a b (prm p a b))) * (px p - px (along a b (prm p a b))) +
  (py p - py (along a b (prm p a b))) * (py p - py (along a b (prm p a b))) + L2 a b * ((t - prm p a b) * (t - prm p a b)).
Proof.
  intros p a b t H. rewrite !along_x, !along_y. pose proof (L2_pos a b H) as HL.
  assert (E : prm p a b * L2 a b = (px p - px a) * (px b - px a) + (py p - py a) * (py b - py a)).
  { unfold prm. field. lra. }
  set (k := prm p a b) in *. unfold L2 in *.
  set (dx := px b - px a) in *. set (dy := py b - py a) in *. set (ux := px p - px a) in *. set (uy := py p - py a) in *.
  replace (px p - (px a + t * dx)) with (ux - t * dx) by (unfold ux; ring).
  replace (py p - (py a + t * dy)) with (uy - t * dy) by (unfold uy; ring).
  replace (px p - (px a + k * dx)) with (ux - k * dx) by (unfold ux; ring).
  replace (py p - (py a + k * dy)) with (uy - k * dy) by (unfold uy; ring).
  clearbody k dx dy ux uy. clear HL.
  assert (E2 : (ux * dx + uy * dy) * (t - k) = k * (dx * dx + dy * dy) * (t - k)) by (rewrite E; ring).
  replace ((ux - t * dx) * (ux - t * dx) + (uy - t * dy) * (uy - t * dy)) with
    (ux * ux + uy * uy - 2 * ((ux * dx + uy * dy) * (t - k)) - 2 * k * (ux * dx + uy * dy) + t * t * (dx * dx + dy * dy)) by ring.
  rewrite E2. ring.
Qed.

Lemma psd_R : forall p a b : pt, a <> b -> exists t d, 0 <= t <= 1 /\
  pointSegmentDistance ROps p a b = Ok d /\ d = dist p (along a b t) /\
  forall s, 0 <= s <= 1 -> d <= dist p (along a b s).
Proof.
  intros p a b H. pose proof (L2_pos a b H) as HL. unfold pointSegmentDistance.
  assert (E0 : vdot ROps (vminus ROps p a) (vminus ROps b a) = (px p - px a) * (px b - px a) + (py p - py a) * (py b - py a)) by reflexivity.
  assert (E1 : distanceSquared ROps a b = L2 a b).
  { unfold L2. change ((px a - px b) * (px a - px b) + (py a - py b) * (py a - py b) =
      (px b - px a) * (px b - px a) + (py b - py a) * (py b - py a)). ring. }
  rewrite E0, E1. cbn [div ROps]. rewrite Rdivr_ok by lra. cbn [bind]. fold (prm p a b).
  unfold gtb. cbn [ltb ROps zero one].
  assert (M : forall u s, (u - prm p a b) * (u - prm p a b) <= (s - prm p a b) * (s - prm p a b) -> dist p (along a b u) <= dist p (along a b s)).
  { intros u s Hus. apply dist_le. rewrite (dist_along p a b u H), (dist_along p a b s H).
    apply Rplus_le_compat_l. apply Rmult_le_compat_l; lra. }
  assert (A0 : along a b 0 = a) by (apply pt_ext; rewrite ?along_x, ?along_y; ring).
  assert (A1 : along a b 1 = b) by (apply pt_ext; rewrite ?along_x, ?along_y; ring).
  destruct (Rltb (prm p a b) 0) eqn:C0; [|destruct (Rltb 1 (prm p a b)) eqn:C1].
  - apply Rltb_true in C0. exists 0, (dist p a). rewrite distance_R. split; [lra|]. split; auto. rewrite A0. split; auto.
    intros s Hs. rewrite <- A0 at 1. apply M.
    apply Rmult_le_compat; lra.
  - apply Rltb_true in C1. exists 1, (dist p b). rewrite distance_R. split; [lra|]. split; auto. rewrite A1. split; auto.
    intros s Hs. rewrite <- A1 at 1. apply M.
    replace ((1 - prm p a b) * (1 - prm p a b)) with ((prm p a b - 1) * (prm p a b - 1)) by ring.
    replace ((s - prm p a b) * (s - prm p a b)) with ((prm p a b - s) * (prm p a b - s)) by ring.
    apply Rmult_le_compat; lra.
  - apply Rltb_false in C0, C1. exists (prm p a b), (dist p (along a b (prm p a b))). split; [lra|].
    split; [|split; auto].
    + rewrite distance_R. apply (f_equal (fun q => @Ok R (dist p q))). apply pt_ext; [change (px a + (px b - px a) * prm p a b = px a + prm p a b * (px b - px a))|
        change (py a + (py b - py a) * prm p a b = py a + prm p a b * (py b - py a))]; ring.
    + intros s Hs. apply M. replace (prm p a b - prm p a b) with 0 by ring. rewrite Rmult_0_l. apply sq_nonneg.
Qed.

Lemma psd_degenerate : forall p a : pt, is_nonfin (pointSegmentDistance ROps p a a).
Proof.
  intros. unfold pointSegmentDistance.
  assert (E1 : distanceSquared ROps a a = 0).
  { change ((px a - px a) * (px a - px a) + (py a - py a) * (py a - py a) = 0). ring. }
  rewrite E1. cbn [div ROps]. destruct (Rdivr_zero (vdot ROps (vminus ROps p a) (vminus ROps a a))) as [s E].
  rewrite E. eexists; reflexivity.
Qed.

(** ** C26 *)
Lemma circle2_R : forall a b : pt, exists c, circle2 ROps a b = Ok c /\
  center c = P ((px a + px b) / 2) ((py a + py b) / 2) /\ radius c = dist a b / 2 /\
  dist (center c) a = radius c /\ dist (center c) b = radius c.
Proof.
  intros a b. unfold circle2, midPoint, two. cbn [div ROps ofZ]. rewrite !Rdivr_ok by lra. cbn [bind].
  rewrite distance_R. cbn [bind]. eexists; split; [reflexivity|]. cbn [center radius].
  assert (Hh : forall q, (q = a \/ q = b) -> dist (P ((px a + px b) / 2) ((py a + py b) / 2)) q = dist a b / 2).
  { intros q Hq. pose proof (dist_nonneg a b). apply Rsqr_inj; [apply dist_nonneg|lra|]. unfold Rsqr.
    rewrite dist_sq. replace (dist a b / 2 * (dist a b / 2)) with (dist a b * dist a b / 4) by field.
    rewrite dist_sq, px_P, py_P. destruct Hq; subst q; field. }
  split; [reflexivity|]. split; [apply (Hh a); auto|]. split; [reflexivity|].
  exact (eq_trans (Hh b (or_intror eq_refl)) (eq_sym (Hh a (or_introl eq_refl)))).
Qed.

Lemma circle2_smallest : forall a b q r, dist q a <= r -> dist q b <= r -> dist a b / 2 <= r.
Proof. intros. pose proof (dist_tri a q b). rewrite (dist_sym a q) in H1. lra. Qed.

Lemma circle3_R : forall a b c : pt, turn a b c <> 0 -> exists k, circle3 ROps a b c = Ok k /\
  dist (center k) a = radius k /\ dist (center k) b = radius k /\ dist (center k) c = radius k.
Proof.
  intros a b c H.
  pose (bx := px b - px a). pose (by_ := py b - py a). pose (cx := px c - px a). pose (cy := py c - py a).
  pose (B := bx * bx + by_ * by_). pose (C := cx * cx + cy * cy). pose (D := bx * cy - by_ * cx).
  assert (HD : D <> 0) by (unfold D, bx, by_, cx, cy; unfold turn in H; lra).
  pose (I := P ((cy * B - by_ * C) / (2 * D) + px a) ((bx * C - cx * B) / (2 * D) + py a)).
  assert (E : circle3 ROps a b c = Ok (@mkCircle ROps I (dist I a))).
  { unfold circle3. cbn [div ROps ofZ add sub mul two].
    change (vx b) with (px b). change (vx a) with (px a). change (vx c) with (px c).
    change (vy b) with (py b). change (vy a) with (py a). change (vy c) with (py c).
    fold bx by_ cx cy. fold B C D. unfold two; cbn [ofZ ROps]. rewrite !Rdivr_ok by lra. cbn [bind].
    change (@mkV ROps ((cy * B - by_ * C) / (2 * D) + px a) ((bx * C - cx * B) / (2 * D) + py a)) with I.
    rewrite distance_R. reflexivity. }
  exists (@mkCircle ROps I (dist I a)). split; auto. cbn [center radius].
  assert (G : forall q, q = b \/ q = c -> dist I q = dist I a).
  { intros q Hq. unfold dist. f_equal. unfold I. rewrite px_P, py_P.
    set (ix := (cy * B - by_ * C) / (2 * D)). set (iy := (bx * C - cx * B) / (2 * D)).
    assert (E1 : 2 * (ix * bx + iy * by_) = B) by (unfold ix, iy; unfold D; field; auto).
    assert (E2 : 2 * (ix * cx + iy * cy) = C) by (unfold ix, iy; unfold D; field; auto).
    destruct Hq; subst q.
    - replace (px b) with (bx + px a) by (unfold bx; ring). replace (py b) with (by_ + py a) by (unfold by_; ring).
      replace (_ + _) with (ix * ix + iy * iy - 2 * (ix * bx + iy * by_) + (bx * bx + by_ * by_)) by ring.
      rewrite E1. unfold B. ring.
    - replace (px c) with (cx + px a) by (unfold cx; ring). replace (py c) with (cy + py a) by (unfold cy; ring).
      replace (_ + _) with (ix * ix + iy * iy - 2 * (ix * cx + iy * cy) + (cx * cx + cy * cy)) by ring.
      rewrite E2. unfold C. ring. }
  split; auto.
Qed.

Lemma circle3_collinear : forall a b c : pt, turn a b c = 0 -> is_nonfin (circle3 ROps a b c).
Proof.
  intros a b c H. unfold circle3. cbn [div ROps ofZ add sub mul two].
  change (vx b) with (px b). change (vx a) with (px a). change (vx c) with (px c).
  change (vy b) with (py b). change (vy a) with (py a). change (vy c) with (py c).
  assert (Z : two ROps * ((px b - px a) * (py c - py a) - (py b - py a) * (px c - px a)) = 0).
  { unfold turn in H. unfold two; cbn [ofZ ROps]. lra. }
  match goal with |- is_nonfin (bind (Rdivr ?n ?d) _) => replace d with 0 by (symmetry; exact Z); destruct (Rdivr_zero n) as [s E] end.
  rewrite E. eexists; reflexivity.
Qed.

(** a point equidistant from three non-collinear points is unique *)
Lemma equidistant_unique : forall a b c u v : pt, turn a b c <> 0 ->
  dist u a = dist u b -> dist u a = dist u c -> dist v a = dist v b -> dist v a = dist v c -> u = v.
Proof.
  intros a b c u v H U1 U2 V1 V2.
  assert (S1 : forall p q : pt, forall w, dist w p = dist w q ->
     2 * (px w * (px q - px p) + py w * (py q - py p)) = (px q * px q + py q * py q) - (px p * px p + py p * py p)).
  { intros p q w E. assert (E2 : dist w p * dist w p = dist w q * dist w q) by congruence. rewrite !dist_sq in E2. lra. }
  apply S1 in U1, U2, V1, V2. unfold turn in H.
  set (dx := px u - px v). set (dy := py u - py v).
  assert (A1 : dx * (px b - px a) + dy * (py b - py a) = 0) by (unfold dx, dy; lra).
  assert (A2 : dx * (px c - px a) + dy * (py c - py a) = 0) by (unfold dx, dy; lra).
  assert (Hx : dx * ((px b - px a) * (py c - py a) - (px c - px a) * (py b - py a)) = 0).
  { replace (dx * _) with ((dx * (px b - px a) + dy * (py b - py a)) * (py c - py a) - (dx * (px c - px a) + dy * (py c - py a)) * (py b - py a)) by ring.
    rewrite A1, A2. ring. }
  assert (Hy : dy * ((px b - px a) * (py c - py a) - (px c - px a) * (py b - py a)) = 0).
  { replace (dy * _) with (- (dx * (px b - px a) + dy * (py b - py a)) * (px c - px a) + (dx * (px c - px a) + dy * (py c - py a)) * (px b - px a)) by ring.
    rewrite A1, A2. ring. }
  apply Rmult_integral in Hx, Hy. apply pt_ext; apply Rminus_diag_uniq; fold dx dy; tauto.
Qed.

(** ** C25 *)
Lemma cc_R : forall (c : circle ROps) (p : pt), circle_contains ROps c p = Ok (leb ROps (dist (center c) p) (radius c)).
Proof. intros. unfold circle_contains. rewrite distance_R. reflexivity. Qed.

Lemma containsPoints_R : forall (c : circle ROps) (l : list pt), exists b,
  containsPoints ROps c l = Ok b /\ (b = true <-> encloses c l).
Proof.
  intros c l; induction l as [|p l [b [E Hb]]]; cbn [containsPoints].
  - exists true. split; auto. split; auto. intros _ q [].
  - rewrite cc_R. cbn [bind]. destruct (leb ROps (dist (center c) p) (radius c)) eqn:L; cbn [negb].
    + exists b; split; auto. apply leb_R in L. rewrite Hb. unfold encloses; simpl. split; intros H; auto.
      intros q [->|Hq]; auto.
    + exists false; split; auto. split; [discriminate|]. intros H.
      assert (dist (center c) p <= radius c) by (apply H; left; auto). apply leb_R in H0. congruence.
Qed.

Lemma mid_contains : forall (a b d : pt) (c : circle ROps), circle2 ROps a b = Ok c ->
  (dist (center c) d <= radius c <-> (px d - px a) * (px d - px b) + (py d - py a) * (py d - py b) <= 0).
Proof.
  intros a b d c E. destruct (circle2_R a b) as [c' [E' [Hc [Hr _]]]]. rewrite E in E'. inversion E'; subst c'; clear E'.
  rewrite Hc, Hr. pose proof (dist_nonneg a b). rewrite dist_le_sq by lra.
  replace (dist a b / 2 * (dist a b / 2)) with (dist a b * dist a b / 4) by field. rewrite dist_sq, px_P, py_P. split; intros; lra.
Qed.

Lemma not_all_acute_collinear : forall a b d : pt, turn a b d = 0 ->
  (px d - px a) * (px d - px b) + (py d - py a) * (py d - py b) <= 0 \/
  (px b - px a) * (px b - px d) + (py b - py a) * (py b - py d) <= 0 \/
  (px a - px b) * (px a - px d) + (py a - py b) * (py a - py d) <= 0.
Proof.
  intros a b d H. unfold turn in H.
  set (u := px b - px a) in *. set (v := py b - py a) in *. set (s := px d - px a) in *. set (t := py d - py a) in *.
  replace (px d - px b) with (s - u) by (unfold s, u; ring). replace (py d - py b) with (t - v) by (unfold t, v; ring).
  replace (px b - px d) with (u - s) by (unfold s, u; ring). replace (py b - py d) with (v - t) by (unfold t, v; ring).
  replace (px a - px b) with (- u) by (unfold u; ring). replace (py a - py b) with (- v) by (unfold v; ring).
  replace (px a - px d) with (- s) by (unfold s; ring). replace (py a - py d) with (- t) by (unfold t; ring).
  clearbody u v s t.
  destruct (Rle_dec (s * (s - u) + t * (t - v)) 0) as [|N1]; auto.
  destruct (Rle_dec (u * (u - s) + v * (v - t)) 0) as [|N2]; auto.
  destruct (Rle_dec (- u * - s + - v * - t) 0) as [|N3]; auto.
  exfalso.
  (* x = u.s ; A = |s|^2, B = |u|^2, x^2 = A B, A > x, B > x, x > 0 *)
  set (x := u * s + v * t). set (A := s * s + t * t). set (B := u * u + v * v).
  assert (Hx : 0 < x) by (unfold x; lra). assert (HA : x < A) by (unfold x, A; lra). assert (HB : x < B) by (unfold x, B; lra).
  assert (E : x * x = A * B).
  { replace (A * B) with (x * x + (u * t - s * v) * (u * t - s * v)) by (unfold x, A, B; ring). rewrite H. ring. }
  assert (x * x < A * B) by (apply Rmult_le_0_lt_compat; lra). lra.
Qed.

Lemma circle2_radius_pos : forall (a b : pt) (c : circle ROps), circle2 ROps a b = Ok c -> 0 <= radius c.
Proof.
  intros a b c E. destruct (circle2_R a b) as [c' [E' [_ [Hr _]]]]. rewrite E in E'. inversion E'; subst c'.
  rewrite Hr. pose proof (dist_nonneg a b). lra.
Qed.

Lemma trivial_R : forall l : list pt, (length l <= 3)%nat -> exists c, trivialCircle ROps l = Ok c /\ encloses c l /\ 0 <= radius c.
Proof.
  intros l Hl. destruct l as [|a [|b [|d [|? ?]]]]; cbn [trivialCircle].
  - eexists; split; [reflexivity|]. split; [intros q []|]. apply Rle_refl.
  - eexists; split; [reflexivity|]. split; [|apply Rle_refl]. intros q [->|[]]. cbn [center radius]. rewrite dist_self. apply Rle_refl.
  - destruct (circle2_R a b) as [c [E [Hc [Hr [H1 H2]]]]]. exists c; split; auto. split; [|eapply circle2_radius_pos; eauto].
    intros q [->|[->|[]]]; lra.
  - destruct (circle2_R a b) as [c1 [E1 [_ [_ [A1 A2]]]]]. rewrite E1; cbn [bind].
    destruct (containsPoints_R c1 [a; b; d]) as [k1 [K1 V1]]. rewrite K1; cbn [bind].
    destruct k1; [exists c1; split; auto; split; [apply V1; auto|eapply circle2_radius_pos; eauto]|].
    destruct (circle2_R a d) as [c2 [E2 [_ [_ [B1 B2]]]]]. rewrite E2; cbn [bind].
    destruct (containsPoints_R c2 [a; b; d]) as [k2 [K2 V2]]. rewrite K2; cbn [bind].
    destruct k2; [exists c2; split; auto; split; [apply V2; auto|eapply circle2_radius_pos; eauto]|].
    destruct (circle2_R b d) as [c3 [E3 [_ [_ [D1 D2]]]]]. rewrite E3; cbn [bind].
    destruct (containsPoints_R c3 [a; b; d]) as [k3 [K3 V3]]. rewrite K3; cbn [bind].
    destruct k3; [exists c3; split; auto; split; [apply V3; auto|eapply circle2_radius_pos; eauto]|].
    destruct (Req_dec (turn a b d) 0) as [Z|Z].
    + exfalso. destruct (not_all_acute_collinear a b d Z) as [H|[H|H]].
      * apply (mid_contains a b d c1 E1) in H. assert (false = true); [apply V1|discriminate].
        intros q [<-|[<-|[<-|[]]]]; toR; lra.
      * assert (H' : dist (center c2) b <= radius c2) by (apply (mid_contains a d b c2 E2); lra).
        assert (false = true); [apply V2|discriminate]. intros q [<-|[<-|[<-|[]]]]; toR; lra.
      * assert (H' : dist (center c3) a <= radius c3) by (apply (mid_contains b d a c3 E3); lra).
        assert (false = true); [apply V3|discriminate]. intros q [<-|[<-|[<-|[]]]]; toR; lra.
    + destruct (circle3_R a b d Z) as [k [E [F1 [F2 F3]]]]. exists k. split; auto. split.
      * intros q [<-|[<-|[<-|[]]]]; toR; lra.
      * rewrite <- F1. apply dist_nonneg.
  - simpl in Hl. lia.
Qed.


Lemma swap_at_R : forall (l : list pt) i n, (i <= n)%nat -> (n < length l)%nat -> exists l' p,
  get l i = Ok p /\ swap_at ROps l i n = Ok l' /\ length l' = length l /\
  (forall q, In q (firstn (S n) l) <-> In q (firstn n l') \/ q = p).
Proof.
  intros l i n Hi Hn. set (d := (P 0 0 : vec ROps)).
  exists (upd (upd l i (nth n l d)) n (nth i l d)), (nth i l d). unfold swap_at.
  rewrite !(get_lt _ _ _ d) by lia. split; auto. cbn [bind]. rewrite set_lt by lia. cbn [bind]. rewrite set_lt by (rewrite upd_length; lia).
  split; auto. rewrite !upd_length. split; auto.
  set (l' := upd _ _ _).
  assert (Hl' : length l' = length l) by (unfold l'; rewrite !upd_length; auto).
  assert (N : forall k, nth k l' d = if Nat.eqb k n then nth i l d else if Nat.eqb k i then nth n l d else nth k l d).
  { intros k. unfold l'. rewrite nth_upd by (rewrite upd_length; lia). rewrite nth_upd by lia. auto. }
  assert (F : forall m (k : list (vec ROps)) q, (m <= length k)%nat -> (In q (firstn m k) <-> exists j, (j < m)%nat /\ nth j k d = q)).
  { intros m k q Hm. split.
    - intros Hq. apply (In_nth _ _ d) in Hq. destruct Hq as [j [Hj E]]. rewrite firstn_length in Hj. exists j. split; [lia|].
      rewrite <- E. rewrite <- (firstn_skipn m k) at 1. rewrite app_nth1; auto. rewrite firstn_length; lia.
    - intros [j [Hj E]]. rewrite <- E. replace (nth j k d) with (nth j (firstn m k) d).
      + apply nth_In. rewrite firstn_length; lia.
      + rewrite <- (firstn_skipn m k) at 2. rewrite app_nth1; auto. rewrite firstn_length; lia. }
  intros q. rewrite (F (S n) l q) by lia. rewrite (F n l' q) by lia. split.
  - intros [j [Hj E]]. destruct (Nat.eq_dec j i) as [->|Hji]; [right; auto|]. left.
    destruct (Nat.eq_dec j n) as [->|Hjn].
    + exists i. split; [lia|]. rewrite N. destruct (Nat.eqb_spec i n); [lia|]. rewrite Nat.eqb_refl. auto.
    + exists j. split; [lia|]. rewrite N. destruct (Nat.eqb_spec j n); [lia|]. destruct (Nat.eqb_spec j i); [lia|]. auto.
  - intros [[j [Hj E]]|E].
    + rewrite N in E. destruct (Nat.eqb_spec j n); [lia|]. destruct (Nat.eqb_spec j i).
      * exists n. split; [lia|auto].
      * exists j. split; [lia|auto].
    + exists i. split; [lia|auto].
Qed.

Lemma welzl_R : forall rnd n (pts R : list pt) t, (n <= length pts)%nat -> (length R <= 3)%nat -> exists c t',
  welzl ROps rnd n pts R t = Ok (c, t') /\ encloses c R /\ 0 <= radius c /\
  ((n + length R <= 3)%nat -> encloses c (firstn n pts)).
Proof.
  intros rnd n; induction n as [|n IH]; intros pts R t Hn HR.
  - destruct (trivial_R R HR) as [c [E [H1 H2]]]. exists c, t. cbn [welzl]. rewrite E. cbn [bind].
    split; auto. split; auto. split; auto. intros _ q [].
  - cbn [welzl]. destruct (Nat.eqb_spec (length R) 3) as [E3|E3].
    + destruct (trivial_R R HR) as [c [E [H1 H2]]]. exists c, t. rewrite E. cbn [bind].
      split; auto. split; auto. split; auto. intros H; lia.
    + assert (Hk : (Nat.modulo (rnd t) (S n) < S n)%nat) by (apply Nat.mod_upper_bound; lia).
      set (k := Nat.modulo (rnd t) (S n)) in *.
      destruct (swap_at_R pts k n) as [pts' [p [Gp [Es [El Hin]]]]]; [lia|lia|].
      rewrite Gp. cbn [bind]. rewrite Es. cbn [bind].
      destruct (IH pts' R (S t)) as [c [t1 [E [H1 [H2 H3]]]]]; [lia|lia|]. rewrite E. cbn [bind]. rewrite cc_R. cbn [bind].
      destruct (leb ROps (dist (center c) p) (radius c)) eqn:L.
      * apply leb_R in L. exists c, t1. split; auto. split; auto. split; auto. intros Hs q Hq. apply Hin in Hq.
        destruct Hq as [Hq| ->]; auto. apply H3; auto. lia.
      * destruct (IH pts' (R ++ [p]) t1) as [c2 [t2 [E2 [G1 [G2 G3]]]]]; [lia|rewrite app_length; simpl; lia|].
        rewrite app_length in G3; simpl in G3.
        exists c2, t2. split; auto. split; [|split; auto].
        -- intros q Hq. apply G1. apply in_or_app; auto.
        -- intros Hs q Hq. apply Hin in Hq. destruct Hq as [Hq| ->].
           ++ apply G3; auto. lia.
           ++ apply G1. apply in_or_app; right; left; auto.
Qed.

(** getEnclosingCircle *)

Lemma enclosing_loop_R : forall (l : list pt) (m : R) (c : pt), exists m' : R,
  enclosing_loop ROps l m c = Ok (m', P (px c + sumx l) (py c + sumy l)) /\ m <= m' /\
  (forall p, In p l -> dist p org <= m') /\ (m' = m \/ exists p, In p l /\ m' = dist p org).
Proof.
  induction l as [|p l IH]; intros m c; cbn [enclosing_loop].
  - exists m. split; [|split; [lra|split; [intros p []|auto]]].
    do 2 f_equal. apply pt_ext; rewrite ?px_P, ?py_P; simpl; ring.
  - rewrite norm_R. cbn [bind]. fold org.
    set (m1 := if gtb ROps (dist p org) m then dist p org else m).
    assert (Hm1 : m <= m1 /\ dist p org <= m1 /\ (m1 = m \/ m1 = dist p org)).
    { unfold m1. destruct (gtb ROps (dist p org) m) eqn:E.
      - apply gtb_R in E. lra.
      - assert (~ m < dist p org) by (intros G; apply gtb_R in G; toR; congruence). lra. }
    destruct (IH m1 (vadd ROps c p)) as [m' [E [H1 [H2 H3]]]]. exists m'. split; [|split; [lra|split]].
    + refine (eq_trans E _). do 2 f_equal. apply pt_ext; rewrite ?px_P, ?py_P; cbn [sumx sumy];
      [change (px (vadd ROps c p)) with (px c + px p)|change (py (vadd ROps c p)) with (py c + py p)]; ring.
    + intros q [->|Hq]; [lra|auto].
    + destruct H3 as [H3|[q [Hq H3]]]; [|right; exists q; simpl; auto].
      destruct Hm1 as [_ [_ [Hm1|Hm1]]]; [left; lra|right; exists p; simpl; split; auto; lra].
Qed.

Lemma gec_R : forall l : list pt, l <> [] -> exists c, getEnclosingCircle ROps l = Ok c /\
  center c = P (sumx l / INR (length l)) (sumy l / INR (length l)) /\
  (forall p, In p l -> dist p org <= radius c) /\ (exists p, In p l /\ radius c = dist p org).
Proof.
  intros l Hl. unfold getEnclosingCircle.
  destruct (enclosing_loop_R l 0 org) as [m [E [H1 [H2 H3]]]]. change (vzero ROps) with org. change (zero ROps) with 0.
  rewrite E. cbn [bind]. unfold vdivs. cbn [div ROps ofZ].
  assert (Hn : IZR (Z.of_nat (length l)) <> 0).
  { apply not_0_IZR. destruct l; simpl; [congruence|lia]. }
  rewrite !Rdivr_ok by auto. cbn [bind]. eexists; split; [reflexivity|]. cbn [center radius]. rewrite INR_IZR_INZ.
  split; [|split; auto].
  - apply pt_ext.
    + change ((0 + sumx l) / IZR (Z.of_nat (length l)) = sumx l / IZR (Z.of_nat (length l))). f_equal. ring.
    + change ((0 + sumy l) / IZR (Z.of_nat (length l)) = sumy l / IZR (Z.of_nat (length l))). f_equal. ring.
  - destruct H3 as [H3|H3]; auto. destruct l as [|p l]; [congruence|]. exists p. split; [left; auto|].
    assert (dist p org <= m) by (apply H2; left; auto). pose proof (dist_nonneg p org). toR; lra.
Qed.

Lemma gec_empty : is_nonfin (getEnclosingCircle ROps []).
Proof.
  unfold getEnclosingCircle. cbn [enclosing_loop bind length Z.of_nat]. unfold vdivs. cbn [div ROps ofZ].
  destruct (Rdivr_zero (vx (vzero ROps))) as [s E]. rewrite E. eexists; reflexivity.
Qed.

(** the centroid is within the largest modulus *)
Lemma centroid_norm : forall (l : list pt) (m : R), (forall p, In p l -> dist p org <= m) ->
  dist (P (sumx l) (sumy l)) org <= INR (length l) * m.
Proof.
  induction l as [|p l IH]; intros m H.
  - simpl. fold org. rewrite dist_self. lra.
  - change (length (p :: l)) with (S (length l)). rewrite S_INR. cbn [sumx sumy].
    assert (E : dist (P (px p + sumx l) (py p + sumy l)) (P (sumx l) (sumy l)) = dist p org).
    { unfold dist, org. rewrite !px_P, !py_P. f_equal. ring. }
    pose proof (dist_tri (P (px p + sumx l) (py p + sumy l)) (P (sumx l) (sumy l)) org).
    specialize (IH m (fun q Hq => H q (or_intror Hq))). specialize (H p (or_introl eq_refl)). lra.
Qed.

Lemma gec_double : forall (l : list pt) (c : circle ROps), l <> [] -> getEnclosingCircle ROps l = Ok c ->
  encloses (@mkCircle ROps (center c) (2 * radius c)) l.
Proof.
  intros l c Hl Hc. destruct (gec_R l Hl) as [c' [E [Hcen [Hr _]]]]. rewrite Hc in E. inversion E; subst c'; clear E.
  intros p Hp. cbn [center radius].
  assert (Hn : 0 < INR (length l)) by (apply lt_0_INR; destruct l; simpl; [congruence|lia]).
  assert (Hg : dist (center c) org <= radius c).
  { pose proof (centroid_norm l (radius c) Hr) as Hs.
    assert (Es : dist (P (sumx l) (sumy l)) org = INR (length l) * dist (center c) org).
    { apply Rsqr_inj; [apply dist_nonneg|apply Rmult_le_pos; [lra|apply dist_nonneg]|]. unfold Rsqr.
      replace (INR (length l) * dist (center c) org * (INR (length l) * dist (center c) org)) with
        (INR (length l) * INR (length l) * (dist (center c) org * dist (center c) org)) by ring.
      rewrite !dist_sq, Hcen. unfold org; rewrite !px_P, !py_P. field. lra. }
    rewrite Es in Hs. apply Rmult_le_reg_l in Hs; auto. }
  pose proof (dist_tri (center c) org p). rewrite (dist_sym org p) in H. specialize (Hr p Hp). lra.
Qed.
